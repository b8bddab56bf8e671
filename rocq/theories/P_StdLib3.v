(** What the functions of the standard library do (C61): one by one. *)
From Verif Require Import S_Html S_Sequence P_Html P_Sequence P_Stable S_Scope S_Match P_Built P_State P_Scope P_Std S_Std P_StdHeap.
From Verif Require Import Base BaseFacts M_Text M_Names M_TagInfo M_Html M_Sequence M_Path M_Types M_Diag M_Ast M_Value M_State M_Matcher M_Binder M_Native M_Eval M_Std P_StdRun P_Coerce P_Native P_NativeCalls P_StdLib P_StdLib2.

Definition std (n : string) : func :=
  match ngetm (match nth_error std_heap 2 with Some f => fr_locals f | None => [] end) (lit n) with
  | Some (VFunc f) => f
  | _ => FNative FCode [] (FSig [] None [] None (FParam [] false TAny None))
  end.
Definition std_in (d n : string) : func :=
  match ngetm (match nth_error std_heap 2 with Some f => fr_locals f | None => [] end) (lit d) with
  | Some (VDict vs) => match ngetm vs (lit n) with
                       | Some (VFunc f) => f
                       | _ => FNative FCode [] (FSig [] None [] None (FParam [] false TAny None))
                       end
  | _ => FNative FCode [] (FSig [] None [] None (FParam [] false TAny None))
  end.

Lemma ngetm_attrs a n : ngetm (attr_values a) n = option_map group_value (ngetm a n).
Proof. induction a as [|[k x] a IH]; [reflexivity|]. cbn. destruct (str_eqb n k); [reflexivity|exact IH]. Qed.
Lemma without_attrs k (p : pattern) a :
  List.filter (fun kv => negb (nhas [(k, p)] (fst kv))) (attr_values a) = attr_values (without k a).
Proof.
  induction a as [|[n x] a IH]; [reflexivity|]. cbn [attr_values List.map List.filter without fst snd] in *.
  unfold nhas in *. cbn [ngetm] in *. destruct (str_eqb n k); cbn [negb]; [exact IH|]. cbn [List.map fst snd]. f_equal. exact IH.
Qed.
Lemma without_not_in k a : ~ In k (nkeys (without k a)).
Proof.
  unfold nkeys, without. intro H. apply in_map_iff in H as ([n x] & <- & H). apply filter_In in H as [_ H]. cbn in H.
  now rewrite str_eqb_refl in H.
Qed.
Lemma without_nodup k a : NoDup (nkeys a) -> NoDup (nkeys (without k a)).
Proof.
  unfold nkeys, without. induction a as [|[n x] a IH]; intro H; [constructor|]. inversion H; subst. cbn.
  destruct (str_eqb n k); cbn; auto. constructor; auto. intro Hi. apply H2. apply in_map_iff in Hi as (kv & E & Hi).
  apply filter_In in Hi as [Hi _]. apply in_map_iff. eauto.
Qed.

(** two parts of a template *)
Lemma text_lit x ps s : template_text (TPLit x :: ps) s = match template_text ps s with Ok r s => Ok (x ++ r) s | r => r end.
Proof. cbn [template_text]. unfold bind, ret. destruct (template_text ps s); reflexivity. Qed.
Lemma text_white ps s : template_text (TPWhitespace :: ps) s = match template_text ps s with Ok r s => Ok (lit " " ++ r) s | r => r end.
Proof. cbn [template_text]. unfold bind, ret. destruct (template_text ps s); reflexivity. Qed.
Lemma text_name n ps s o : get_var n s = Ok (group_value o) s ->
  template_text (TPName (NSimple n) :: ps) s = match template_text ps s with Ok r s => Ok (text_of o ++ r) s | r => r end.
Proof.
  intro G. cbn [template_text evaluate_name]. unfold or_report, bind, ret. rewrite G.
  replace (coerceM (group_value o) (t_option TStr) s) with (Ok (group_value o) s) by now destruct o.
  destruct o; cbn [group_value text_of]; unfold to_opt, bind; cbn; destruct (template_text ps s); reflexivity.
Qed.

Definition f_class := Eval vm_compute in std "class".
Definition f_style := Eval vm_compute in std "style".
Lemma class_has X bs n a c x o : ngetm bs (lit "_c") = Some (VStr x) -> ngetm bs (lit "v") = Some (VHtml (HTag n a c)) -> ProperTag n a c ->
  ngetm a (lit "class") = Some o ->
  Gives X f_class bs (VHtml (HTag n ((lit "class", Some (text_of o ++ lit " " ++ x)) :: without (lit "class") a) c)).
Proof.
  intros Hx Hv P Ho. apply gives_body; [lia|]. intros s more k t w E.
  exists 4, (Frame (Some 1) bs []). eexists. intro fuel. cbn [plus].
  set (f := Frame (Some 1) bs []). set (h := std_heap ++ more).
  change (sc s h f k) with (cur s h f [] k). eapply ev_match.
  { apply ev_name with (v := VHtml (HTag n a c)); [now apply cur_local|reflexivity]. }
  rewrite branch_yes with (l := [(lit "t", VStr n); (lit "o", group_value o); (lit "a", VDict (attr_values (without (lit "class") a))); (lit "v", of_html c)]) (w := w).
  - reflexivity.
  - cbn [bind_pattern]. unfold and_then, bind.
    rewrite bind_child by reflexivity. fold (attr_values a).
    change (List.map (fun kv => (fst kv, match snd kv with Some s => VStr s | None => UNIT end)) a) with (attr_values a).
    change [99%N; 108%N; 97%N; 115%N; 115%N] with (lit "class").
    rewrite (ngetm_attrs a (lit "class")), Ho. cbn [option_map].
    rewrite bind_child by reflexivity. cbn [ret]. unfold ret. rewrite (without_attrs (lit "class")).
    rewrite bind_child by reflexivity. rewrite bind_child by reflexivity. reflexivity.
  - eapply ev_retag with (n := n) (a := a) (c := c) (attrs := (lit "class", Some (text_of o ++ lit " " ++ x)) :: without (lit "class") a); try assumption.
    + now apply child_local.
    + now apply child_local.
    + rewrite attrs_set with (x := text_of o ++ lit " " ++ x); [|eapply ev_template; [|reflexivity]|reflexivity].
      * rewrite attrs_spread with (a := without (lit "class") a); [reflexivity|now apply child_local|].
        constructor; [apply without_not_in|apply without_nodup, P].
      * rewrite text_name with (o := o) by now apply child_local. rewrite text_white.
        rewrite text_name with (o := Some x) by now apply child_outer. cbn [template_text text_of ret]. unfold ret.
        now rewrite app_nil_r.
Qed.
Lemma class_new X bs n a c x : ngetm bs (lit "_c") = Some (VStr x) -> ngetm bs (lit "v") = Some (VHtml (HTag n a c)) -> ProperTag n a c ->
  ngetm a (lit "class") = None -> Gives X f_class bs (VHtml (HTag n ((lit "class", Some x) :: a) c)).
Proof.
  intros Hx Hv P Ho. apply gives_body; [lia|]. intros s more k t w E.
  exists 4, (Frame (Some 1) bs []). eexists. intro fuel. cbn [plus].
  set (f := Frame (Some 1) bs []). set (h := std_heap ++ more).
  change (sc s h f k) with (cur s h f [] k). eapply ev_match.
  { apply ev_name with (v := VHtml (HTag n a c)); [now apply cur_local|reflexivity]. }
  rewrite branch_no with (l := [(lit "t", VStr n)]).
  2: { cbn [bind_pattern]. unfold and_then, bind. rewrite bind_child by reflexivity.
       change (List.map (fun kv => (fst kv, match snd kv with Some s => VStr s | None => UNIT end)) a) with (attr_values a).
       change [99%N; 108%N; 97%N; 115%N; 115%N] with (lit "class"). rewrite (ngetm_attrs a (lit "class")), Ho. reflexivity. }
  rewrite branch_yes with (l := [(lit "t", VStr n); (lit "a", VDict (attr_values a)); (lit "v", of_html c)]) (w := w).
  - reflexivity.
  - cbn [bind_pattern]. unfold and_then, bind. rewrite !bind_child by reflexivity. reflexivity.
  - eapply ev_retag with (n := n) (a := a) (c := c) (attrs := (lit "class", Some x) :: a); try assumption.
    + now apply child_local.
    + now apply child_local.
    + rewrite attrs_set with (x := x); [|apply ev_name with (v := VStr x); [now apply child_outer|reflexivity]|reflexivity].
      rewrite attrs_spread with (a := a); [reflexivity|now apply child_local|].
      constructor; [now apply ngetm_None|apply P].
Qed.
Lemma tag_no eval captures pn pa pc v s : NotTag v -> bind_pattern eval captures (PTag pn pa pc) v s = Ok false s.
Proof. intro H. destruct v as [| | | | |h| |]; try reflexivity. destruct h; try reflexivity. now destruct (H name attrs h). Qed.

(** [@raise] *)
Definition f_raise : func := FNative FRaise (lit "raise") (native_sig FRaise).
Lemma ev_raise X fuel ps t src s msg : get_var (lit "raise") s = Ok (VFunc f_raise) s -> template_text ps s = Ok msg s ->
  e_node (evals_n X (S (S fuel))) (EFuncCall src (NSimple (lit "raise")) [] (ETemplate ps)) t s
  = Err AlreadyReported (set_sink (sink_add (RuntimeErr (Raised msg)) (st_sink s)) s).
Proof.
  intros G T. set (R := evals_n X (S fuel)). change (evals_n X (S (S fuel))) with (step X R). cbn [e_node step evaluate_node].
  unfold evaluate_func_call, bind at 1. cbn [evaluate_name is_coalescing t_option_if]. unfold or_report at 1, bind at 1. rewrite G.
  change (coerceM (VFunc f_raise) TFunction s) with (Ok (VFunc f_raise) s). unfold bind at 1. cbn [to_opt is_unit to_func bind ret].
  change (to_opt to_func (VFunc f_raise) s) with (Ok (Some f_raise) s). cbv beta iota.
  unfold bind_call. cbn [compile_args]. unfold bind at 1. unfold or_report at 1. unfold bind at 1. cbn [ret].
  change (ret (get_partials f_raise) s) with (Ok partials_new s). cbv beta iota. unfold bind at 1.
  change (bind_implicit_args (func_sig f_raise) partials_new s) with (Ok partials_new s). cbv beta iota.
  unfold compile_content_arg. cbn [f_raise func_sig native_sig sig_content]. unfold bind at 1 2.
  subst R. change (bind_implicit_args (sig_content "str" TStr) (get_partials f_raise) s) with (Ok partials_new s). cbv beta iota. rewrite ev_template with (x := msg) (s' := s) (w := VStr msg); [|exact T|reflexivity].
  reflexivity.
Qed.
Lemma raise_global : ngetm (fr_locals native_frame) (lit "raise") = Some (VFunc f_raise).
Proof. reflexivity. Qed.
Lemma class_not X bs v : ngetm bs (lit "v") = Some v -> NotTag v -> ngetm bs (lit "raise") = None ->
  Complains X f_class bs (RuntimeErr (Raised (lit "expected tag, was " ++ t_display (get_type v)))).
Proof.
  intros Hv N Hr. apply complains_body; [lia|]. intros s more k t.
  exists 4, (Frame (Some 1) bs []). eexists. intro fuel. cbn [plus].
  set (f := Frame (Some 1) bs []). set (h := std_heap ++ more).
  change (sc s h f k) with (cur s h f [] k). eapply ev_match.
  { apply ev_name with (v := v); [now apply cur_local|reflexivity]. }
  rewrite branch_no with (l := []) by now apply tag_no. rewrite branch_no with (l := []) by now apply tag_no.
  rewrite branch_err with (l := [(lit "t", VStr (t_display (get_type v)))]) (e := AlreadyReported)
    (d := sink_add (RuntimeErr (Raised (lit "expected tag, was " ++ t_display (get_type v)))) (st_sink s)).
  - reflexivity.
  - cbn [bind_pattern]. rewrite bind_child by reflexivity. reflexivity.
  - etransitivity; [apply ev_raise with (msg := lit "expected tag, was " ++ t_display (get_type v))|reflexivity].
    + apply child_native; try reflexivity; assumption.
    + rewrite text_lit, text_white, text_lit, text_white, text_lit, text_white.
      rewrite text_name with (o := Some (t_display (get_type v))) by now apply child_local.
      cbn [template_text ret]. unfold ret, text_of. rewrite app_nil_r. reflexivity.
Qed.
Lemma style_has X bs n a c x o : ngetm bs (lit "_s") = Some (VStr x) -> ngetm bs (lit "v") = Some (VHtml (HTag n a c)) -> ProperTag n a c ->
  ngetm a (lit "style") = Some o ->
  Gives X f_style bs (VHtml (HTag n ((lit "style", Some (text_of o ++ x)) :: without (lit "style") a) c)).
Proof.
  intros Hx Hv P Ho. apply gives_body; [lia|]. intros s more k t w E.
  exists 4, (Frame (Some 1) bs []). eexists. intro fuel. cbn [plus].
  set (f := Frame (Some 1) bs []). set (h := std_heap ++ more).
  change (sc s h f k) with (cur s h f [] k). eapply ev_match.
  { apply ev_name with (v := VHtml (HTag n a c)); [now apply cur_local|reflexivity]. }
  rewrite branch_yes with (l := [(lit "t", VStr n); (lit "o", group_value o); (lit "a", VDict (attr_values (without (lit "style") a))); (lit "v", of_html c)]) (w := w).
  - reflexivity.
  - cbn [bind_pattern]. unfold and_then, bind.
    rewrite bind_child by reflexivity. fold (attr_values a).
    change (List.map (fun kv => (fst kv, match snd kv with Some s => VStr s | None => UNIT end)) a) with (attr_values a).
    change [115%N; 116%N; 121%N; 108%N; 101%N] with (lit "style").
    rewrite (ngetm_attrs a (lit "style")), Ho. cbn [option_map].
    rewrite bind_child by reflexivity. cbn [ret]. unfold ret. rewrite (without_attrs (lit "style")).
    rewrite bind_child by reflexivity. rewrite bind_child by reflexivity. reflexivity.
  - eapply ev_retag with (n := n) (a := a) (c := c) (attrs := (lit "style", Some (text_of o ++ x)) :: without (lit "style") a); try assumption.
    + now apply child_local.
    + now apply child_local.
    + rewrite attrs_set with (x := text_of o ++ x); [|eapply ev_template; [|reflexivity]|reflexivity].
      * rewrite attrs_spread with (a := without (lit "style") a); [reflexivity|now apply child_local|].
        constructor; [apply without_not_in|apply without_nodup, P].
      * rewrite text_name with (o := o) by now apply child_local.
        rewrite text_name with (o := Some x) by now apply child_outer. cbn [template_text text_of ret]. unfold ret.
        now rewrite app_nil_r.
Qed.
Lemma style_new X bs n a c x : ngetm bs (lit "_s") = Some (VStr x) -> ngetm bs (lit "v") = Some (VHtml (HTag n a c)) -> ProperTag n a c ->
  ngetm a (lit "style") = None -> Gives X f_style bs (VHtml (HTag n ((lit "style", Some x) :: a) c)).
Proof.
  intros Hx Hv P Ho. apply gives_body; [lia|]. intros s more k t w E.
  exists 4, (Frame (Some 1) bs []). eexists. intro fuel. cbn [plus].
  set (f := Frame (Some 1) bs []). set (h := std_heap ++ more).
  change (sc s h f k) with (cur s h f [] k). eapply ev_match.
  { apply ev_name with (v := VHtml (HTag n a c)); [now apply cur_local|reflexivity]. }
  rewrite branch_no with (l := [(lit "t", VStr n)]).
  2: { cbn [bind_pattern]. unfold and_then, bind. rewrite bind_child by reflexivity.
       change (List.map (fun kv => (fst kv, match snd kv with Some s => VStr s | None => UNIT end)) a) with (attr_values a).
       change [115%N; 116%N; 121%N; 108%N; 101%N] with (lit "style"). rewrite (ngetm_attrs a (lit "style")), Ho. reflexivity. }
  rewrite branch_yes with (l := [(lit "t", VStr n); (lit "a", VDict (attr_values a)); (lit "v", of_html c)]) (w := w).
  - reflexivity.
  - cbn [bind_pattern]. unfold and_then, bind. rewrite !bind_child by reflexivity. reflexivity.
  - eapply ev_retag with (n := n) (a := a) (c := c) (attrs := (lit "style", Some x) :: a); try assumption.
    + now apply child_local.
    + now apply child_local.
    + rewrite attrs_set with (x := x); [|apply ev_name with (v := VStr x); [now apply child_outer|reflexivity]|reflexivity].
      rewrite attrs_spread with (a := a); [reflexivity|now apply child_local|].
      constructor; [now apply ngetm_None|apply P].
Qed.
Lemma style_not X bs v : ngetm bs (lit "v") = Some v -> NotTag v -> ngetm bs (lit "raise") = None ->
  Complains X f_style bs (RuntimeErr (Raised (lit "expected tag, was " ++ t_display (get_type v)))).
Proof.
  intros Hv N Hr. apply complains_body; [lia|]. intros s more k t.
  exists 4, (Frame (Some 1) bs []). eexists. intro fuel. cbn [plus].
  set (f := Frame (Some 1) bs []). set (h := std_heap ++ more).
  change (sc s h f k) with (cur s h f [] k). eapply ev_match.
  { apply ev_name with (v := v); [now apply cur_local|reflexivity]. }
  rewrite branch_no with (l := []) by now apply tag_no. rewrite branch_no with (l := []) by now apply tag_no.
  rewrite branch_err with (l := [(lit "t", VStr (t_display (get_type v)))]) (e := AlreadyReported)
    (d := sink_add (RuntimeErr (Raised (lit "expected tag, was " ++ t_display (get_type v)))) (st_sink s)).
  - reflexivity.
  - cbn [bind_pattern]. rewrite bind_child by reflexivity. reflexivity.
  - etransitivity; [apply ev_raise with (msg := lit "expected tag, was " ++ t_display (get_type v))|reflexivity].
    + apply child_native; try reflexivity; assumption.
    + rewrite text_lit, text_white, text_lit, text_white, text_lit, text_white.
      rewrite text_name with (o := Some (t_display (get_type v))) by now apply child_local.
      cbn [template_text ret]. unfold ret, text_of. rewrite app_nil_r. reflexivity.
Qed.

Definition f_attributes := Eval vm_compute in std "attributes".
Lemma attributes_add X bs n a d c : ngetm bs (lit "d") = Some (VDict (attr_values d)) -> ngetm bs (lit "v") = Some (VHtml (HTag n a c)) ->
  ProperTag n a c -> NoDup (nkeys (a ++ d)) -> Gives X f_attributes bs (VHtml (HTag n (a ++ d) c)).
Proof.
  intros Hd Hv P D. apply gives_body; [lia|]. intros s more k t w E.
  exists 4, (Frame (Some 1) bs []). eexists. intro fuel. cbn [plus].
  set (f := Frame (Some 1) bs []). set (h := std_heap ++ more).
  change (sc s h f k) with (cur s h f [] k). eapply ev_match.
  { apply ev_name with (v := VHtml (HTag n a c)); [now apply cur_local|reflexivity]. }
  rewrite branch_yes with (l := [(lit "t", VStr n); (lit "a", VDict (attr_values a)); (lit "v", of_html c)]) (w := w).
  - reflexivity.
  - cbn [bind_pattern]. unfold and_then, bind. rewrite !bind_child by reflexivity. reflexivity.
  - eapply ev_retag with (n := n) (a := a) (c := c) (attrs := a ++ d); try assumption.
    + now apply child_local.
    + now apply child_local.
    + rewrite attrs_spread with (a := a); [|now apply child_local|apply P].
      rewrite attrs_spread with (a := d); [reflexivity|now apply child_outer|exact D].
Qed.
Lemma attributes_not X bs v : ngetm bs (lit "v") = Some v -> NotTag v -> ngetm bs (lit "raise") = None ->
  Complains X f_attributes bs (RuntimeErr (Raised (lit "expected tag, was " ++ t_display (get_type v)))).
Proof.
  intros Hv N Hr. apply complains_body; [lia|]. intros s more k t.
  exists 4, (Frame (Some 1) bs []). eexists. intro fuel. cbn [plus].
  set (f := Frame (Some 1) bs []). set (h := std_heap ++ more).
  change (sc s h f k) with (cur s h f [] k). eapply ev_match.
  { apply ev_name with (v := v); [now apply cur_local|reflexivity]. }
  rewrite branch_no with (l := []) by now apply tag_no.
  rewrite branch_err with (l := [(lit "t", VStr (t_display (get_type v)))]) (e := AlreadyReported)
    (d := sink_add (RuntimeErr (Raised (lit "expected tag, was " ++ t_display (get_type v)))) (st_sink s)).
  - reflexivity.
  - cbn [bind_pattern]. rewrite bind_child by reflexivity. reflexivity.
  - etransitivity; [apply ev_raise with (msg := lit "expected tag, was " ++ t_display (get_type v))|reflexivity].
    + apply child_native; try reflexivity; assumption.
    + rewrite text_lit, text_white, text_lit, text_white, text_lit, text_white.
      rewrite text_name with (o := Some (t_display (get_type v))) by now apply child_local.
      cbn [template_text ret]. unfold ret, text_of. rewrite app_nil_r. reflexivity.
Qed.

Definition f_numbered := Eval vm_compute in std "numbered".
Lemma numbered_ul X bs a c : ngetm bs (lit "v") = Some (VHtml (HTag (lit "ul") a c)) ->
  ProperTag (lit "ul") a c -> Gives X f_numbered bs (VHtml (HTag (lit "ol") a c)).
Proof.
  intros Hv P. apply gives_body; [lia|]. intros s more k t w E.
  exists 4, (Frame (Some 1) bs []). eexists. intro fuel. cbn [plus].
  set (f := Frame (Some 1) bs []). set (h := std_heap ++ more).
  change (sc s h f k) with (cur s h f [] k). eapply ev_match.
  { apply ev_name with (v := VHtml (HTag (lit "ul") a c)); [now apply cur_local|reflexivity]. }
  destruct (proper_normal _ a c P) as [Th Ch].
  rewrite branch_yes with (l := [(lit "d", VDict (attr_values a)); (lit "v", of_html c)]) (w := w).
  - reflexivity.
  - cbn [bind_pattern]. unfold and_then, bind. cbn [ret]. change (str_eqb (lit "ul") [117%N; 108%N]) with true. unfold ret at 1.
    rewrite !bind_child by reflexivity. reflexivity.
  - apply ev_tag with (h := HTag (lit "ol") a c); [|exact E].
    eapply tag_pieces with (is := [Piece c]).
    + rewrite attrs_spread with (a := a); [reflexivity|now apply child_local|apply P].
    + eapply pc_expr; [apply ev_name with (v := of_html c); [now apply child_local|exact Ch]|exact Th|constructor].
    + apply stable; apply P.
Qed.
Lemma numbered_tag X bs n a c : ngetm bs (lit "v") = Some (VHtml (HTag n a c)) -> n <> lit "ul" -> ngetm bs (lit "raise") = None ->
  Complains X f_numbered bs (RuntimeErr (Raised (lit "expected <ul> tag, was <" ++ n ++ lit "> tag"))).
Proof.
  intros Hv N Hr. apply complains_body; [lia|]. intros s more k t.
  exists 4, (Frame (Some 1) bs []). eexists. intro fuel. cbn [plus].
  set (f := Frame (Some 1) bs []). set (h := std_heap ++ more).
  change (sc s h f k) with (cur s h f [] k). eapply ev_match.
  { apply ev_name with (v := VHtml (HTag n a c)); [now apply cur_local|reflexivity]. }
  rewrite branch_no with (l := []).
  2: { cbn [bind_pattern]. unfold and_then, bind. cbn [ret]. replace (str_eqb n [117%N; 108%N]) with false; [reflexivity|].
       symmetry. destruct (str_eqb n [117%N; 108%N]) eqn:E; [|reflexivity]. apply str_eqb_eq in E. now destruct N. }
  rewrite branch_err with (l := [(lit "t", VStr n)]) (e := AlreadyReported)
    (d := sink_add (RuntimeErr (Raised (lit "expected <ul> tag, was <" ++ n ++ lit "> tag"))) (st_sink s)).
  - reflexivity.
  - cbn [bind_pattern]. unfold and_then, bind. rewrite bind_child by reflexivity. reflexivity.
  - etransitivity; [apply ev_raise with (msg := lit "expected <ul> tag, was <" ++ n ++ lit "> tag")|reflexivity].
    + apply child_native; try reflexivity; assumption.
    + rewrite text_lit, text_white, text_lit, text_white, text_lit, text_white, text_lit, text_white, text_lit.
      rewrite text_name with (o := Some n) by now apply child_local. rewrite text_lit, text_white, text_lit.
      cbn [template_text ret]. reflexivity.
Qed.
Lemma numbered_not X bs v : ngetm bs (lit "v") = Some v -> NotTag v -> ngetm bs (lit "raise") = None ->
  Complains X f_numbered bs (RuntimeErr (Raised (lit "expected <ul> tag, was " ++ t_display (get_type v)))).
Proof.
  intros Hv N Hr. apply complains_body; [lia|]. intros s more k t.
  exists 4, (Frame (Some 1) bs []). eexists. intro fuel. cbn [plus].
  set (f := Frame (Some 1) bs []). set (h := std_heap ++ more).
  change (sc s h f k) with (cur s h f [] k). eapply ev_match.
  { apply ev_name with (v := v); [now apply cur_local|reflexivity]. }
  rewrite branch_no with (l := []) by now apply tag_no. rewrite branch_no with (l := []) by now apply tag_no.
  rewrite branch_err with (l := [(lit "t", VStr (t_display (get_type v)))]) (e := AlreadyReported)
    (d := sink_add (RuntimeErr (Raised (lit "expected <ul> tag, was " ++ t_display (get_type v)))) (st_sink s)).
  - reflexivity.
  - cbn [bind_pattern]. rewrite bind_child by reflexivity. reflexivity.
  - etransitivity; [apply ev_raise with (msg := lit "expected <ul> tag, was " ++ t_display (get_type v))|reflexivity].
    + apply child_native; try reflexivity; assumption.
    + rewrite text_lit, text_white, text_lit, text_white, text_lit, text_white, text_lit, text_white.
      rewrite text_name with (o := Some (t_display (get_type v))) by now apply child_local.
      cbn [template_text ret]. unfold ret, text_of. rewrite app_nil_r. reflexivity.
Qed.

Definition f_typeof := Eval vm_compute in std "typeof".
Lemma typeof_gives X bs v : ngetm bs (lit "v") = Some v -> Gives X f_typeof bs (VStr (t_display (get_type v))).
Proof.
  intros Hv. apply gives_body; [lia|]. intros s more k t w E.
  exists 4, (Frame (Some 1) bs []). eexists. intro fuel. cbn [plus].
  set (f := Frame (Some 1) bs []). set (h := std_heap ++ more).
  change (sc s h f k) with (cur s h f [] k). eapply ev_match.
  { apply ev_name with (v := v); [now apply cur_local|reflexivity]. }
  rewrite branch_yes with (l := [(lit "t", VStr (t_display (get_type v)))]) (w := w).
  - reflexivity.
  - cbn [bind_pattern]. rewrite bind_child by reflexivity. reflexivity.
  - apply ev_name with (v := VStr (t_display (get_type v))); [now apply child_local|exact E].
Qed.
Definition f_inline := Eval vm_compute in std_in "inline" "from".
Definition f_block := Eval vm_compute in std_in "block" "from".
Lemma from_gives X bs v n sig : ngetm bs (lit "v") = Some v -> Gives X (FClosure n 1 sig (EName (NSimple (lit "v")))) bs v.
Proof.
  intros Hv. apply gives_body; [lia|]. intros s more k t w E. exists 1, (Frame (Some 1) bs []), []. intro fuel.
  apply ev_name with (v := v); [now apply get_local|exact E].
Qed.
Definition f_image := Eval vm_compute in std "image".
Lemma image_gives X bs u alt : ngetm bs (lit "url") = Some (VStr u) -> ngetm bs (lit "alt") = Some (group_value alt) ->
  Gives X f_image bs (VHtml (HTag (lit "img") ((lit "src", Some u) :: match alt with Some x => [(lit "alt", Some x)] | None => [] end) HEmpty)).
Proof.
  intros Hu Ha. apply gives_body; [lia|]. intros s more k t w E. exists 2, (Frame (Some 1) bs []), []. intro fuel.
  eapply ev_tag; [|exact E]. eapply tag_pieces with (is := []); [|constructor|reflexivity].
  rewrite attrs_set with (x := u); [|apply ev_name with (v := VStr u); [now apply get_local|reflexivity]|reflexivity].
  destruct alt as [x|].
  - rewrite attrs_set with (x := x); [|apply ev_name with (v := VStr x); [now apply get_local|reflexivity]|reflexivity]. reflexivity.
  - rewrite attrs_unset; [reflexivity|]. apply ev_name with (v := UNIT); [now apply get_local|reflexivity].
Qed.
