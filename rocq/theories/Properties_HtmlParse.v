(** Property theorems for parsing HTML (C63), and the last native functions (C34, C53, C60). As in Properties_Native, [X] are the
    externals, [call] is how a call with bound parameters is evaluated, [load] is how a module is loaded and [bs] are the bound
    parameters. *)
From Coq Require Import Permutation.
From Verif Require Import Base BaseFacts M_Names M_Html M_HtmlParse S_Html P_Html M_Types M_Token M_Diag M_Ast M_Value M_State M_Binder M_Native
  M_Eval S_Call P_Call P_Coerce P_NativeCalls S_Safe P_SafeBase P_SafeHtml S_Example S_HtmlParse P_HtmlParse Properties_Native.

(** C63. A text in which the HTML parser finds no error, other than attributes which occur twice, gives the document it stands
    for: every tag and every character, in order, with names in lower case, and without comments. The document is in normal
    form (C21), so it is equal to the same document made in any other way. *)
Theorem C63_parse : forall X call load bs src s t, ngetm bs (lit "param") = Some (VStr t) ->
  FirstError (fst (x_html_parse X t)) None -> has_instruction (snd (x_html_parse X t)) = false ->
  exists v h, evaluate_native_func X call load HtmlParse bs src s = Ok v s /\ to_html v = Some h /\ Normal h /\
    Reads (x_lower X) (snd (x_html_parse X t)) (events h).
Proof.
  intros X call load bs src s t Ht He Hi. destruct (node_total (x_lower X) _ Hi) as [h E]. exists (of_html h), h.
  assert (N : Normal h) by exact (node_normal _ _ _ E). split; [|split; [now apply to_html_of_normal|split; [exact N|now apply node_reads]]].
  assert (Q : evaluate_native_func X call load HtmlParse bs src s = parse_html X t s) by (unfold evaluate_native_func; rewrite Ht; reflexivity).
  rewrite Q. unfold parse_html. pose proof (first_error (fst (x_html_parse X t))) as F.
  apply (first_error_unique _ _ _ He) in F. destruct (html_errors _); [|discriminate F]. rewrite E. reflexivity.
Qed.
Print Assumptions C63_parse.
(** What a document reads as is determined, up to the order of attributes given twice. *)
Theorem C63_characters : forall lower d evs evs', Reads lower d evs -> Reads lower d evs' ->
  Forall2 (fun e e' => match e, e' with
    | EChar c, EChar c' => c = c' | EClose n, EClose n' => n = n'
    | EOpen n a, EOpen n' a' => n = n' /\ Permutation a a' | _, _ => False end) evs evs'.
Proof. exact reads_same. Qed.
Print Assumptions C63_characters.
(** Otherwise the first error is reported. *)
Theorem C63_error : forall X call load bs src s t e, ngetm bs (lit "param") = Some (VStr t) ->
  FirstError (fst (x_html_parse X t)) (Some e) ->
  evaluate_native_func X call load HtmlParse bs src s = Err (RuntimeErr (ParseHtmlError e)) s.
Proof.
  intros X call load bs src s t e Ht He. assert (Q : evaluate_native_func X call load HtmlParse bs src s = parse_html X t s) by (unfold evaluate_native_func; rewrite Ht; reflexivity).
  rewrite Q. unfold parse_html.
  pose proof (first_error (fst (x_html_parse X t))) as F. apply (first_error_unique _ _ _ He) in F.
  destruct (html_errors _); [discriminate F|]. cbn in F. injection F as <-. reflexivity.
Qed.
Print Assumptions C63_error.
(** There is always an error to report, or none. *)
Theorem C63_cases : forall errs, exists o, FirstError errs o /\ forall o', FirstError errs o' -> o' = o.
Proof. intros errs. exists (hd_error (html_errors errs)). split; [apply first_error|]. intros o' H. exact (first_error_unique _ _ _ H (first_error errs)). Qed.
Print Assumptions C63_cases.
(** Fetching a page is parsing what the server sends, which can also be had as it is. *)
Theorem C63_fetch : forall X call load bs src s p fetch, ngetm bs (lit "path") = Some (VStr p) -> x_fetch X = Some fetch ->
  match fetch p with
  | Some t =>
    evaluate_native_func X call load NetFetchRaw bs src s = Ok (VStr t) s /\
    forall bs', ngetm bs' (lit "param") = Some (VStr t) ->
      evaluate_native_func X call load NetFetchHtml bs src s = evaluate_native_func X call load HtmlParse bs' src s
  | None =>
    evaluate_native_func X call load NetFetchRaw bs src s = Err (RuntimeErr NetworkError) s /\
    evaluate_native_func X call load NetFetchHtml bs src s = Err (RuntimeErr NetworkError) s
  end.
Proof.
  intros X call load bs src s p fetch Hp Hf.
  assert (Q1 : evaluate_native_func X call load NetFetchRaw bs src s = (let* t := native_fetch X p in ret (VStr t)) s) by (unfold evaluate_native_func; rewrite Hp; reflexivity).
  assert (Q2 : evaluate_native_func X call load NetFetchHtml bs src s = (let* t := native_fetch X p in parse_html X t) s) by (unfold evaluate_native_func; rewrite Hp; reflexivity).
  rewrite Q1, Q2. unfold bind, native_fetch. rewrite Hf.
  destruct (fetch p) as [t|]; [|split; reflexivity]. split; [reflexivity|]. intros bs' Hb. unfold evaluate_native_func. rewrite Hb. reflexivity.
Qed.
Print Assumptions C63_fetch.
(** [<p A=1 B=2 a=3>x<!-- --> y</p>], with an error for the second [a] *)
Definition ex_dom : dom :=
  DDocument [DDoctype; DElement (lit "P") [(lit "A", lit "1"); (lit "B", lit "2"); (lit "a", lit "3")] [DText (lit "x"); DComment; DText (lit " y")]].
Definition ex_html_X : externals :=
  {| x_checks := true; x_deunicode := fun s => s; x_lower := List.map to_ascii_lower; x_upper := fun s => s;
     x_regex := fun _ => None; x_captures := fun _ _ => None; x_captures_iter := fun _ _ => []; x_is_match := fun _ _ => false;
     x_find_count := fun _ _ => 0; x_split := fun _ s => [s]; x_decode := fun _ => [];
     x_html_parse := fun s => match s with [] => ([lit "Duplicate attribute"; lit "Unexpected token"], DDocument []) | _ => ([lit "Duplicate attribute"], ex_dom) end;
     x_syntect := fun _ _ => None; x_fetch := Some (fun p => if str_eqb p (lit "http://x") then Some (lit "<p") else None);
     x_read := fun _ => None; x_canonicalize := fun _ => None; x_list_dir := fun _ => None |}.
Definition ex_html_run (f : native_func) (n : string) (t : string) :=
  evaluate_native_func ex_html_X ex_eval ex_load f [(lit n, VStr (lit t))] (lit "m") ex_scoped.
Definition ex_html_value : value :=
  VHtml (HTag (lit "p") [(lit "a", Some (lit "3")); (lit "b", Some (lit "2"))] (HText (lit "x y"))).
Example C63_nonvacuous :
  FirstError (fst (x_html_parse ex_html_X (lit "t"))) None /\ has_instruction (snd (x_html_parse ex_html_X (lit "t"))) = false /\
  ex_html_run HtmlParse "param" "t" = Ok ex_html_value ex_scoped /\
  FirstError (fst (x_html_parse ex_html_X [])) (Some (lit "Unexpected token")) /\
  ex_html_run HtmlParse "param" "" = Err (RuntimeErr (ParseHtmlError (lit "Unexpected token"))) ex_scoped /\
  ex_html_run NetFetchHtml "path" "http://x" = Ok ex_html_value ex_scoped /\
  ex_html_run NetFetchRaw "path" "http://x" = Ok (VStr (lit "<p")) ex_scoped /\
  ex_html_run NetFetchHtml "path" "y" = Err (RuntimeErr NetworkError) ex_scoped.
Proof.
  split; [repeat constructor|]. split; [reflexivity|]. split; [vm_compute; reflexivity|]. split.
  - exists [lit "Duplicate attribute"], []. split; [reflexivity|]. split; [discriminate|repeat constructor].
  - repeat split; vm_compute; reflexivity.
Qed.

(** C34. The function [function::bind] gives a function that has been given the arguments as well, and keeps its name; if an
    argument cannot be given, that is an error, and no further arguments would make the call acceptable. *)
Theorem C34_native : forall X call load bs src s f gs0 pos named c,
  ngetm bs (lit "function") = Some (VFunc f) -> ngetm bs (lit "args") = Some (VList pos) ->
  ngetm bs (lit "kwargs") = Some (VDict named) -> ngetm bs (lit "param") = Some c ->
  WfSig (func_sig f) -> HasBeenGiven f gs0 ->
  match evaluate_native_func X call load FunctionBind bs src s with
  | Ok r s' => s' = s /\ exists f', r = VFunc f' /\ func_sig f' = func_sig f /\ func_name f' = func_name f /\
      HasBeenGiven f' (gs0 ++ stage_given (pos, named, c))
  | Err e s' => s' = s /\ forall more scope implicits, ~ Acceptable (func_sig f) (gs0 ++ stage_given (pos, named, c) ++ more) scope implicits
  | Crash _ | NoFuel => False
  end.
Proof.
  intros X call load bs src s f gs0 pos named c Hf Ha Hk Hc W H.
  assert (E : evaluate_native_func X call load FunctionBind bs src s = (let* r := bind_partial f pos named c in ret (VFunc r)) s)
    by (unfold evaluate_native_func; rewrite Hf, Ha, Hk, Hc; reflexivity).
  rewrite E. clear E. unfold bind. pose proof (bind_partial_eq f pos named c s) as P. 
  assert (Q : match bind_partial f pos named c s with
    | Ok f' s' => s' = s /\ func_sig f' = func_sig f /\ HasBeenGiven f' (gs0 ++ stage_given (pos, named, c))
    | Err e s' => s' = s /\ (Objection (func_sig f) (gs0 ++ stage_given (pos, named, c)) e \/ TooMany (func_sig f) (gs0 ++ stage_given (pos, named, c)))
    | _ => False end) by (rewrite P; exact (bind_spec f gs0 (stage_given (pos, named, c)) s W H)).
  assert (N : forall f' s', bind_partial f pos named c s = Ok f' s' -> func_name f' = func_name f).
  { intros f' s' E. rewrite E in P. unfold bind at 1 in P. destruct (give_all _ _ _ s) as [b s1| | |]; try discriminate P. unfold close_bound, bind, ret in P.
    destruct (check_pos_count _ b s1); try discriminate P. injection P as -> _. reflexivity. }
  destruct (bind_partial f pos named c s) as [f' s'|e s'| |]; [| |exact Q|exact Q].
  - destruct Q as (-> & Q1 & Q2). split; [reflexivity|]. exists f'. repeat split; auto. now apply (N f' s).
  - destruct Q as (-> & Q). split; [reflexivity|]. intros more scope i. rewrite app_assoc. now apply (bind_refused f _ scope i e more W).
Qed.
Print Assumptions C34_native.
(** The name of a function is the one it was defined with, whatever it has been given since. *)
Theorem C34_name : forall X call load bs src s f, ngetm bs (lit "function") = Some (VFunc f) ->
  evaluate_native_func X call load FunctionName bs src s =
    Ok (VStr ((fix defined f := match f with FClosure n _ _ _ => n | FNative _ n _ => n | FBound g _ => defined g end) f)) s.
Proof. intros X call load bs src s f Hf. unfold evaluate_native_func. rewrite Hf. reflexivity. Qed.
Print Assumptions C34_name.
(** C53. Making a dictionary out of named arguments gives just those; making a string out of a string changes nothing. *)
Theorem C53_identities : forall X call load bs src s,
  (forall vs, ngetm bs (lit "kwargs") = Some (VDict vs) -> evaluate_native_func X call load DictNew bs src s = Ok (VDict vs) s) /\
  (forall t, ngetm bs (lit "param") = Some (VStr t) -> evaluate_native_func X call load StrFrom bs src s = Ok (VStr t) s).
Proof. intros X call load bs src s. split; intros x Hx; unfold evaluate_native_func; rewrite Hx; reflexivity. Qed.
Print Assumptions C53_identities.
Example C34_nonvacuous_native :
  exists f, ex_run FunctionBind [("function", VFunc (FNative StrLen (lit "len") (native_sig StrLen))); ("args", VList []); ("kwargs", VDict []); ("param", VStr (lit "ab"))]%string = Ok (VFunc f) ex_scoped /\
    ex_run FunctionName [("function", VFunc f)]%string = Ok (VStr (lit "len")) ex_scoped /\
  ex_run DictNew [("kwargs", VDict [(lit "k", VInt 1)])]%string = Ok (VDict [(lit "k", VInt 1)]) ex_scoped /\
  ex_run StrFrom [("param", VStr (lit "ab"))]%string = Ok (VStr (lit "ab")) ex_scoped.
Proof. eexists. repeat split; vm_compute; reflexivity. Qed.
