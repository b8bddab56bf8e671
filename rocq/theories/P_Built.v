(** Every method of the compiler is built from a few primitive operations on its state. *)
From Verif Require Import Base M_Text M_Names M_TagInfo M_SliceRef M_Html M_Sequence M_Types M_Token M_Diag M_Ast M_Value
  M_State M_Matcher M_Binder M_Native M_Eval P_Pattern.

Section Built.
(** [Built keeps A m]; if [keeps] then no name is unset in the current frame. The modules asked for are all in [K]. *)
Variable K : str -> Prop.
Inductive Built : bool -> forall A : Type, EM A -> Prop :=
| B_ret w A (a : A) : Built w A (ret a)
| B_fail w A e : severity_of e = SError -> Built w A (fail e)
| B_reported w A e : severity_of e = SError -> Built w A (report e;;; fail AlreadyReported)
| B_crash w A c : Built w A (crash c)
| B_nofuel w A : Built w A (fun _ => NoFuel)
| B_pure w A c (r : outcome A) : Built w A (pure c r)
| B_bind w A B (m : EM A) (f : A -> EM B) : Built w A m -> (forall a, Built w B (f a)) -> Built w B (bind m f)
| B_catch w A (m : EM A) : Built w A m -> Built w (A + papyri_error) (catch m)
| B_or_report w A (m : EM A) : Built w A m -> Built w A (or_report m)
| B_report w e : Built w unit (report e)
| B_frame_id w : Built w nat frame_id
| B_lookup w n imp : Built w (option value) (frame_lookup n imp)
| B_has w n : Built w bool (frame_has n)
| B_with_frame w g : (forall f, fr_parent (g f) = fr_parent f) ->
    (w = true -> forall f n, fr_has n f = true -> fr_has n (g f) = true) -> Built w unit (with_frame g)
| B_in_call_frame w A i bs w' (m : EM A) : Built w' A m -> Built w A (in_call_frame i bs m)
| B_export w n v : Built w unit (M_State.export n v)
| B_uid w d b n : Built w str (new_unique_id d b n)
| B_out w p h : Built w unit (push_out_file p h)
| B_compiler w A w' (m : EM A) : Built w' A m -> Built w (A * nmap value) (with_compiler m)
| B_cached w path k m : K k -> Built w (html * nmap value) m -> Built w (html * nmap value) (cached path k m).

Hint Resolve B_ret B_crash B_nofuel B_pure B_report B_frame_id B_lookup B_has B_export B_uid B_out : built.
Hint Extern 2 (Built _ _ (fail _)) => apply B_fail; reflexivity : built.
Hint Extern 1 (Built _ _ (report _;;; fail AlreadyReported)) => apply B_reported; reflexivity : built.
Hint Extern 2 (Built _ _ (with_frame _)) => apply B_with_frame : built.

Lemma built_child w A (m : EM A) : Built false A m -> Built w A (in_child_frame m).
Proof. intro H. unfold in_child_frame. apply B_bind; [apply B_frame_id|]. intro. now apply (B_in_call_frame _ _ _ _ false). Qed.
(** Follow the structure of a computation. *)
Ltac built1 :=
  match goal with
  | |- Built _ _ (report _;;; fail AlreadyReported) => apply B_reported; reflexivity
  | |- Built _ _ (bind _ _) => apply B_bind; [|intro]
  | |- Built _ _ (catch _) => apply B_catch
  | |- Built _ _ (or_report _) => apply B_or_report
  | |- Built _ _ (in_call_frame _ _ _) => apply (B_in_call_frame _ _ _ _ false)
  | |- Built _ _ (in_child_frame _) => apply built_child
  | |- Built _ _ (with_compiler _) => apply (B_compiler _ _ false)
  | |- Built _ _ (cached _ _ _) => apply B_cached; [solve [eauto]|]
  | |- Built _ _ (match ?x with _ => _ end) => destruct x
  | |- Built _ _ (let '(_, _) := ?x in _) => destruct x
  | |- Built _ _ (ret _) => apply B_ret
  | |- Built _ _ (fail _) => apply B_fail; reflexivity
  end.
Ltac built := repeat first [solve [eauto with built] | built1].

Lemma fr_set_parent n v b f : fr_parent (fr_set n v b f) = fr_parent f.
Proof. reflexivity. Qed.
Lemma fr_unset_all_parent ns : forall f, fr_parent (fr_unset_all ns f) = fr_parent f.
Proof. induction ns as [|n ns IH]; intro f; [reflexivity|]. unfold fr_unset_all in *. cbn [fold_left]. rewrite IH. reflexivity. Qed.
Lemma fr_set_missing_parent ns v : forall f, fr_parent (fr_set_missing ns v f) = fr_parent f.
Proof.
  induction ns as [|n ns IH]; intro f; [reflexivity|]. unfold fr_set_missing in *. cbn [fold_left]. rewrite IH.
  destruct (fr_has n f); reflexivity.
Qed.
Lemma fr_set_has n v i f m : fr_has m f = true -> fr_has m (fr_set n v i f) = true.
Proof.
  unfold fr_has, nhas, fr_set. cbn [fr_locals]. induction (fr_locals f) as [|[k x] l IH]; cbn [ngetm ninsert]; [discriminate|].
  destruct (str_eqb n k) eqn:E; cbn [ngetm]; destruct (str_eqb m k); auto.
Qed.
Lemma fr_set_missing_has ns v m : forall f, fr_has m f = true -> fr_has m (fr_set_missing ns v f) = true.
Proof.
  induction ns as [|n ns IH]; intros f H; [exact H|]. unfold fr_set_missing in *. cbn [fold_left]. apply IH.
  destruct (fr_has n f); [exact H|]. now apply fr_set_has.
Qed.
Lemma unset_any ns : false = true -> forall f n, fr_has n f = true -> fr_has n (fr_unset_all ns f) = true.
Proof. discriminate. Qed.
Hint Resolve unset_any fr_set_has fr_set_missing_has : built.
Hint Resolve fr_set_parent fr_unset_all_parent fr_set_missing_parent : built.

Lemma coerce_all_err f e : forall vs, (forall v e, f v = inr e -> severity_of e = SError) ->
  @coerce_all value f vs = inr e -> severity_of e = SError.
Proof.
  induction vs as [|v vs IH]; intros Hf; cbn [coerce_all]; [discriminate|].
  destruct (f v) as [x|x] eqn:E; [|intros [= <-]; eapply Hf; exact E].
  destruct (coerce_all f vs) as [y|y]; [discriminate|]. intros [= <-]. now apply IH.
Qed.
Lemma coerce_base_err' : forall t,
  (forall v e, coerce_base t v = inr e -> severity_of e = SError) /\
  (forall t', t = TOptional t' -> forall v e, coerce_base t' v = inr e -> severity_of e = SError).
Proof.
  induction t; split; try discriminate; try (intros ? [= <-]; exact (proj1 IHt)); intros v e;
  destruct v; cbn [coerce_base is_unit];
    try (intros [= <-]; reflexivity); try discriminate;
    repeat match goal with
           | |- context[match coerce_all ?f ?l with _ => _ end] =>
             let E := fresh "E" in destruct (coerce_all f l) eqn:E; [discriminate|]; intros [= <-];
             eapply coerce_all_err; [|exact E]
           | |- context[if ?b then _ else _] => destruct b
           | |- context[match ?h with HEmpty => _ | _ => _ end] => destruct h
           end; try (intros [= <-]; reflexivity); try discriminate.
  all: destruct IHt as [IH1 IH2]; intros v' e'; destruct t;
    try (exact (IH1 v' e')); destruct (is_unit v'); try discriminate; exact (IH2 _ eq_refl v' e').
Qed.
Lemma coerce_base_err t v e : coerce_base t v = inr e -> severity_of e = SError.
Proof. apply coerce_base_err'. Qed.
Lemma coerce_err t v e : coerce t v = inr e -> severity_of e = SError.
Proof.
  unfold coerce, coerce_opt. destruct t; try apply coerce_base_err. destruct (is_unit v); [discriminate|apply coerce_base_err].
Qed.
Lemma built_coerce w v t : Built w value (coerceM v t).
Proof.
  unfold coerceM. destruct (coerce t v) eqn:E; cbn [lift]; [apply B_ret|]. apply B_fail. eapply coerce_err; exact E.
Qed.
Hint Resolve built_child built_coerce : built.

Lemma built_get_var w n : Built w value (get_var n).
Proof. unfold get_var. built. Qed.
Lemma built_get_implicit w n d : Built w value (get_implicit n d).
Proof. unfold get_implicit. built. Qed.
Lemma built_frame_set w n v b : Built w bool (frame_set n v b).
Proof. unfold frame_set. built. Qed.
Hint Resolve built_get_var built_get_implicit built_frame_set : built.
Lemma built_set_var w n v b : Built w unit (set_var n v b).
Proof. unfold set_var. built. Qed.
Hint Resolve built_set_var : built.

(** ** Binding of arguments *)
Lemma built_add_positional_arg w s v b : Built w partials (add_positional_arg s v b).
Proof. unfold add_positional_arg. built. Qed.
Lemma built_add_named_arg w s n v b : Built w partials (add_named_arg s n v b).
Proof. unfold add_named_arg. built. Qed.
Lemma built_add_content_arg w s v b : Built w partials (add_content_arg s v b).
Proof. unfold add_content_arg. built. Qed.
Lemma built_check_pos_count w s b : Built w unit (check_pos_count s b).
Proof. unfold check_pos_count. built. Qed.
Hint Resolve built_add_positional_arg built_add_named_arg built_add_content_arg built_check_pos_count : built.
Lemma built_close_bound w s b f : Built w func (close_bound s b f).
Proof. unfold close_bound. built. Qed.
Lemma built_bind_implicits w ps : forall b, Built w partials (bind_implicits ps b).
Proof. induction ps; intro b; cbn [bind_implicits]; built. Qed.
Lemma built_fill_positional w s c ps : forall m, Built w (nmap value) (fill_positional s c ps m).
Proof. induction ps; intro m; cbn [fill_positional]; built. Qed.
Lemma built_fill_named w ps : forall m, Built w (nmap value) (fill_named ps m).
Proof. induction ps; intro m; cbn [fill_named]; built. Qed.
Hint Resolve built_close_bound built_bind_implicits built_fill_positional built_fill_named : built.
Lemma built_build w s b : Built w (nmap value) (build s b).
Proof. unfold build. built. Qed.
Lemma built_add_positionals w s vs : forall b, Built w partials (add_positionals s vs b).
Proof. induction vs; intro b; cbn [add_positionals]; built. Qed.
Lemma built_add_nameds w s vs : forall b, Built w partials (add_nameds s vs b).
Proof. induction vs as [|[n v] vs IH]; intro b; cbn [add_nameds]; built. Qed.
Hint Resolve built_build built_add_positionals built_add_nameds : built.
Lemma built_bind_content w f v : Built w func (bind_content f v).
Proof. unfold bind_content. built. Qed.
Lemma built_bind_positional w f v : Built w func (bind_positional f v).
Proof. unfold bind_positional. built. Qed.
Lemma built_bind_partial w f p n c : Built w func (bind_partial f p n c).
Proof. unfold bind_partial. built. Qed.
Lemma built_bind_implicit_args w s b : Built w partials (bind_implicit_args s b).
Proof. unfold bind_implicit_args. built. Qed.
Hint Resolve built_bind_content built_bind_positional built_bind_partial built_bind_implicit_args : built.
Lemma built_bind_synthetic_call w f i c : Built w (nmap value) (bind_synthetic_call f i c).
Proof. unfold bind_synthetic_call. built. Qed.
Hint Resolve built_bind_synthetic_call : built.

Section Calls.
  Variable eval : expr -> ty -> EM value.
  Hypothesis Heval : forall w e t, Built w value (eval e t).
  Hint Resolve Heval : built.
  Lemma built_compile_positional_arg w s sp e b : Built w partials (compile_positional_arg eval s sp e b).
  Proof. unfold compile_positional_arg. built. Qed.
  Lemma built_compile_named_arg w s sp n e b : Built w partials (compile_named_arg eval s sp n e b).
  Proof. unfold compile_named_arg. built. Qed.
  Hint Resolve built_compile_positional_arg built_compile_named_arg : built.
  Lemma built_compile_arg w s a b : Built w partials (compile_arg eval s a b).
  Proof. unfold compile_arg. built. Qed.
  Hint Resolve built_compile_arg : built.
  Lemma built_compile_args w s l : forall b, Built w partials (compile_args eval s l b).
  Proof. induction l; intro b; cbn [compile_args]; built. Qed.
  Lemma built_compile_content_arg w s e b : Built w partials (compile_content_arg eval s e b).
  Proof. unfold compile_content_arg. built. Qed.
  Hint Resolve built_compile_args built_compile_content_arg : built.
  Lemma built_bind_call w f l c : Built w (nmap value) (bind_call eval f l c).
  Proof. unfold bind_call. built. Qed.
  Lemma built_compile_param w p : Built w fparam (compile_param eval p).
  Proof. unfold compile_param. built. Qed.
  Hint Resolve built_compile_param : built.
  Lemma built_compile_params w ps : Built w (list fparam) (compile_params eval ps).
  Proof. induction ps; cbn [compile_params]; built. Qed.
  Hint Resolve built_compile_params : built.
  Lemma built_compile_func_signature w s : Built w fsig (compile_func_signature eval s).
  Proof. unfold compile_func_signature. destruct s. built1; [built|]. cbv zeta. built. Qed.
  Hint Resolve built_compile_func_signature : built.
  Lemma built_compile_func_def w d : Built w func (compile_func_def eval d).
  Proof. unfold compile_func_def. built. Qed.
End Calls.

(** ** Patterns *)
Lemma built_bind_one w n v : Built w bool (bind_one n v).
Proof. unfold bind_one. built. Qed.
Lemma built_and_then w a b : Built w bool a -> Built w bool b -> Built w bool (and_then a b).
Proof. intros. unfold and_then. built. Qed.
Hint Resolve built_bind_one built_and_then : built.
Lemma built_bind_groups w gs : forall ns, Built w bool (bind_groups gs ns).
Proof. induction gs; intros [|n ns]; cbn [bind_groups]; built. Qed.
Hint Resolve built_bind_groups : built.
Section Match.
  Variable eval : expr -> ty -> EM value.
  Variable captures : str -> str -> option (list (option str)).
  Hypothesis Heval : forall w e t, Built w value (eval e t).
  Hint Resolve Heval : built.
  Notation bp := (bind_pattern eval captures).
  Lemma built_bind_all ps : Forall (fun p => forall v, Built false bool (bp p v)) ps -> forall vs, Built false bool (bind_all bp ps vs).
  Proof. intro H. induction H; intros [|v vs]; cbn [bind_all]; built. Qed.
  Lemma built_bind_spread A one mk ps : Forall (fun p => forall v, Built false bool (bp p v)) ps ->
    forall i vs, Built false bool (bind_spread bp A one mk ps i vs).
  Proof.
    intro H. induction H as [|p ps Hp H IH]; intros i vs; cbn [bind_spread]; [built|]. destruct i as [|i].
    - apply built_and_then; [apply Hp|]. now apply built_bind_all.
    - built.
  Qed.
  Lemma built_bind_pattern : forall p v, Built false bool (bp p v).
  Proof.
    induction p using pattern_ind'; intro v.
    1-10: cbn [bind_pattern]; built.
    - rewrite bp_exact_list. pose proof (built_bind_all ps H). built.
    - rewrite bp_spread_list. pose proof (built_bind_spread value (fun v => v) VList ps H). built.
    - rewrite bp_dict. destruct v; try solve [built]. destruct (match r with None => _ | _ => _ end); [built|].
      apply built_and_then.
      + clear H0. induction H as [|[n p] l Hp H IH]; cbn [bind_attrs]; [built|]. cbn [snd] in Hp. built.
      + destruct r as [p|]; [|built]. specialize (H0 p eq_refl). destruct p; built.
    - cbn [bind_pattern]. built.
    - rewrite bp_exact_html. pose proof (built_bind_all ps H). built.
    - rewrite bp_spread_html. pose proof (fun A one mk => built_bind_spread A one mk ps H). built.
  Qed.
  Hint Resolve built_bind_pattern : built.
  Lemma built_match_branches w bs : forall v t, Built w value (match_branches eval captures bs v t).
  Proof.
    induction bs as [|[p e] bs IH]; intros v t; cbn [match_branches]; [built|].
    built.
  Qed.
  Hint Resolve built_match_branches : built.
  Lemma built_evaluate_match w e bs t : Built w value (evaluate_match eval captures e bs t).
  Proof. unfold evaluate_match. built. Qed.
End Match.

(** ** Native functions *)
Lemma built_to_bool w v : Built w bool (to_bool v). Proof. unfold to_bool. built. Qed.
Lemma built_to_int w v : Built w Z (to_int v). Proof. unfold to_int. built. Qed.
Lemma built_to_str w v : Built w str (to_str v). Proof. unfold to_str. built. Qed.
Lemma built_to_htmlM w v : Built w html (to_htmlM v). Proof. unfold to_htmlM. built. Qed.
Lemma built_to_func w v : Built w func (to_func v). Proof. unfold to_func. built. Qed.
Lemma built_to_regex w v : Built w regex_value (to_regex v). Proof. unfold to_regex. built. Qed.
Lemma built_to_list w v : Built w (list value) (to_list v). Proof. unfold to_list. built. Qed.
Lemma built_to_dict w v : Built w (nmap value) (to_dict v). Proof. unfold to_dict. built. Qed.
Hint Resolve built_to_bool built_to_int built_to_str built_to_htmlM built_to_func built_to_regex built_to_list built_to_dict : built.
Lemma built_to_opt w A (f : value -> EM A) v : (forall v, Built w A (f v)) -> Built w (option A) (to_opt f v).
Proof. intro H. unfold to_opt. built. Qed.
Hint Resolve built_to_opt : built.
Lemma built_to_each w A (f : value -> EM A) vs : (forall v, Built w A (f v)) -> Built w (list A) (to_each f vs).
Proof. intro H. induction vs; cbn [to_each]; built. Qed.
Hint Resolve built_to_each : built.
Lemma built_evaluate_native_attr w v a : Built w func (evaluate_native_attr v a).
Proof. unfold evaluate_native_attr. cbv zeta. built. Qed.
Lemma built_listed_files w p fs : Built w (list str) (listed_files p fs).
Proof. induction fs; cbn [listed_files]; built. Qed.
Lemma built_report_all w es : Built w unit (report_all es).
Proof. induction es; cbn [report_all]; built. Qed.
Lemma built_set_vars w vs : Built w unit (set_vars vs).
Proof. induction vs as [|[n v] vs IH]; cbn [set_vars]; built. Qed.
Hint Resolve built_evaluate_native_attr built_listed_files built_report_all built_set_vars : built.

Section Natives.
  Variable X : externals.
  Variable call : func -> nmap value -> ty -> str -> EM value.
  Variable load_cached : str -> EM (html * nmap value).
  Hypothesis Hcall : forall w f bs t src, Built w value (call f bs t src).
  Hypothesis Hload : forall w p, Built w (html * nmap value) (load_cached p).
  Hint Resolve Hcall Hload : built.
  Lemma built_eval_callback w A t (conv : value -> EM A) f v src : (forall v, Built w A (conv v)) -> Built w A (eval_callback call t conv f v src).
  Proof. intro H. unfold eval_callback. built. Qed.
  Lemma built_callback_bool w f v src : Built w bool (callback_bool call f v src).
  Proof. apply built_eval_callback. built. Qed.
  Lemma built_callback_any w f v src : Built w value (callback_any call f v src).
  Proof. apply built_eval_callback. built. Qed.
  Hint Resolve built_callback_bool built_callback_any : built.
  Lemma built_find_first w want f vs src : Built w (option value) (find_first call want f vs src).
  Proof. induction vs; cbn [find_first]; built. Qed.
  Lemma built_filter_list w f vs src : Built w (list value) (filter_list call f vs src).
  Proof. induction vs; cbn [filter_list]; built. Qed.
  Lemma built_map_list w f vs src : Built w (list value) (map_list call f vs src).
  Proof. induction vs; cbn [map_list]; built. Qed.
  Lemma built_decorate w k vs src : forall t, Built w (list (value * value)) (decorate call k vs t src).
  Proof. induction vs; intro t; cbn [decorate]; built. Qed.
  Hint Resolve built_find_first built_filter_list built_map_list built_decorate : built.
  Lemma built_native_sorted w k r vs src : Built w (list value) (native_sorted call k r vs src).
  Proof. unfold native_sorted. destruct vs; [built|]. cbv zeta. built. Qed.
  Lemma built_native_code w l b n c : Built w html (native_code X l b n c).
  Proof. unfold native_code. cbv zeta. destruct (if b then _ else _). built. Qed.
  Lemma built_native_fetch w p : Built w str (native_fetch X p).
  Proof. unfold native_fetch. built. Qed.
  Lemma built_parse_html w p : Built w value (parse_html X p).
  Proof. unfold parse_html. built. Qed.
  Lemma built_compile_regex w p : Built w value (compile_regex X p).
  Proof. unfold compile_regex. built. Qed.
  Hint Resolve built_native_sorted built_native_code built_native_fetch built_parse_html built_compile_regex : built.
  Lemma built_evaluate_native_func w f bs src : Built w value (evaluate_native_func X call load_cached f bs src).
  Proof.
    unfold evaluate_native_func.
    set (take := fun n => match ngetm bs (lit n) with Some v => ret v | None => crash FArgument end).
    assert (Ht : forall n, Built w value (take n)) by (intro n; unfold take; built).
    clearbody take. cbv zeta.
    destruct f; built.
  Qed.
End Natives.

(** ** The evaluator *)
Lemma built_evaluate_name w n : forall t, Built w value (evaluate_name n t).
Proof. induction n; intro t; cbn [evaluate_name]; built. Qed.
Hint Resolve built_evaluate_name : built.

Section Step.
  Variable X : externals.
  Variable R : evals.
  Hypothesis HK : forall p k, x_canonicalize X p = Some k -> K k.
  Hypothesis Hnode : forall w e t, Built w value (e_node R e t).
  Hypothesis Hcall : forall w f bs t src, Built w value (e_call R f bs t src).
  Hint Resolve Hnode Hcall : built.
  Hint Resolve built_bind_call built_compile_func_def : built.
  Lemma built_evaluate_func_call w src f l c t : Built w value (evaluate_func_call R src f l c t).
  Proof. unfold evaluate_func_call. built. Qed.
  Lemma built_let_vars w vs i d : Built w unit (let_vars R vs i d).
  Proof. induction vs as [|[n e] vs IH]; cbn [let_vars]; built. Qed.
  Hint Resolve built_let_vars : built.
  Lemma built_evaluate_let_in w l t d : Built w value (evaluate_let_in R l t d).
  Proof. destruct l. unfold evaluate_let_in. built. Qed.
  Lemma built_list_items w l t : Built w (list value) (list_items R l t).
  Proof. induction l as [|[e b] l IH]; cbn [list_items]; built. Qed.
  Hint Resolve built_list_items built_evaluate_let_in : built.
  Lemma built_evaluate_list w l t : Built w value (evaluate_list R l t).
  Proof. unfold evaluate_list. built. Qed.
  Lemma built_template_text w ps : Built w str (template_text ps).
  Proof. induction ps as [|p ps IH]; cbn [template_text]; built. Qed.
  Lemma built_export_names w vs : Built w unit (export_names R vs).
  Proof. induction vs as [|[n e] vs IH]; cbn [export_names]; built. Qed.
  Hint Resolve built_export_names : built.
  Lemma built_compile_export w e : Built w unit (compile_export R e).
  Proof. unfold compile_export. built. Qed.
  Lemma built_compile_code_fence w src t m : Built w html (compile_code_fence R src t m).
  Proof. unfold compile_code_fence. built. Qed.
  Lemma built_push_piece w h b : Built w (option papyri_error * builder) (push_piece h b).
  Proof. unfold push_piece. built. Qed.
  Hint Resolve built_compile_export built_compile_code_fence built_push_piece : built.
  Lemma built_push_result w m b : Built w html m -> Built w (option papyri_error * builder) (push_result m b).
  Proof. intro. unfold push_result. built. Qed.
  Lemma built_no_piece w m b : Built w unit m -> Built w (option papyri_error * builder) (no_piece m b).
  Proof. intro. unfold no_piece. built. Qed.
  Lemma built_compile_node w n b : Built w (option papyri_error * builder) (compile_node R n b).
  Proof. unfold compile_node. destruct n; try apply built_push_result; try apply built_no_piece; built. Qed.
  Hint Resolve built_compile_node : built.
  Lemma built_compile_nodes w ns : forall b, Built w builder (compile_nodes R ns b).
  Proof. induction ns; intro b; cbn [compile_nodes]; built. Qed.
  Hint Resolve built_compile_nodes : built.
  Lemma built_compile_sequence w ns k p : Built w html (compile_sequence R ns k p).
  Proof. unfold compile_sequence. built. Qed.
  Lemma built_compile_tag_name w n : Built w str (compile_tag_name n).
  Proof. unfold compile_tag_name. built. Qed.
  Lemma built_add_attr w l n v : Built w (nmap (option str)) (add_attr l n v).
  Proof. unfold add_attr. built. Qed.
  Hint Resolve built_compile_sequence built_compile_tag_name built_add_attr : built.
  Lemma built_add_attrs w vs : forall l, Built w (nmap (option str)) (add_attrs l vs).
  Proof. induction vs as [|[n v] vs IH]; intro l; cbn [add_attrs]; built. Qed.
  Hint Resolve built_add_attrs : built.
  Lemma built_compile_attrs w l : forall a, Built w (nmap (option str)) (compile_attrs R l a).
  Proof.
    induction l as [|x l IH]; intro a; cbn [compile_attrs]; [built|]. apply B_bind; [|intro; built]. destruct x as [n q [e|]|e]; built.
  Qed.
  Hint Resolve built_compile_attrs : built.
  Lemma built_compile_tag w n l c : Built w html (compile_tag R n l c).
  Proof. unfold compile_tag. built. Qed.
  Hint Resolve built_compile_tag built_template_text built_evaluate_list built_evaluate_func_call built_evaluate_match : built.
  Lemma built_evaluate_node w e t : Built w value (evaluate_node X R e t).
  Proof. unfold evaluate_node. cbv zeta. destruct e; built. Qed.
  Lemma built_compile_source w p t k : Built w (html * nmap value) (compile_source X R p t k).
  Proof. unfold compile_source. built. Qed.
  Hint Resolve built_compile_source : built.
  Lemma built_load_uncached w p : Built w (html * nmap value) (load_uncached X R p).
  Proof. unfold load_uncached. built. Qed.
  Hint Resolve built_load_uncached : built.
  Lemma built_load_cached w p : Built w (html * nmap value) (load_cached X R p).
  Proof. unfold load_cached. destruct (x_canonicalize X p) eqn:E; built. Qed.
  Hint Resolve built_load_cached built_evaluate_native_func : built.
  Lemma built_evaluate_call w f : forall bs t src, Built w value (evaluate_call X R f bs t src).
  Proof. induction f; intros; cbn [evaluate_call]; built. Qed.
End Step.

Lemma built_evals X fuel : (forall p k, x_canonicalize X p = Some k -> K k) -> forall w,
  (forall e t, Built w value (e_node (evals_n X fuel) e t)) /\
  (forall f bs t src, Built w value (e_call (evals_n X fuel) f bs t src)).
Proof.
  intro HK. induction fuel as [|fuel IH]; split; intros; cbn [evals_n step e_node e_call]; try apply B_nofuel.
  - apply built_evaluate_node; auto; intros w'; apply IH.
  - apply built_evaluate_call; auto; intros w'; apply IH.
Qed.
End Built.

(** With any module allowed *)
Definition any_key (k : str) : Prop := True.
Lemma built_node X fuel e t w : Built any_key w value (e_node (evals_n X fuel) e t).
Proof. apply built_evals. intros; exact I. Qed.
Lemma built_call X fuel f bs t src w : Built any_key w value (e_call (evals_n X fuel) f bs t src).
Proof. apply built_evals. intros; exact I. Qed.
Lemma built_compile X fuel p t w : Built any_key w (html * nmap value) (compile X fuel p t).
Proof. apply built_compile_source; intros; apply built_evals; intros; exact I. Qed.
Lemma built_load X fuel p w :
  Built any_key w (html * nmap value) (load_cached X (evals_n X fuel) p).
Proof. apply built_load_cached; intros; try exact I; apply built_evals; intros; exact I. Qed.
