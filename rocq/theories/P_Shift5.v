(** Proofs for C56: a compilation does not see where the frames are. *)
From Verif Require Import Base BaseFacts M_Int M_Text M_Names M_TagInfo M_Html M_Sequence M_Path M_SliceRef M_Types M_Token M_Diag M_Ast M_Parser M_Value M_State
  M_Matcher M_Binder M_Native M_Eval S_Scope P_State P_Pattern P_Built S_Alone P_Shift1 P_Shift2 P_Shift3 P_Shift4.

Section Shift.
Variable base : nat.
Variable extra : list frame.
Variable old : nmap module_state.
Variable trace : list str.
Notation r := (r base extra).
Notation rv := (rv r). Notation rf := (rf r). Notation rp := (rp r). Notation rs := (rs r). Notation rpp := (rpp r).
Notation Eqv := (Eqv base extra old trace).
Notation load := (rload base extra).

Lemma eqv_evaluate_name n : forall t, Eqv rv (evaluate_name n t) (evaluate_name n t).
Proof.
  induction n as [n|n IH q a|n IH q i]; intro t; cbn [evaluate_name]; apply eqv_or_report; (eapply (eqv_bind _ _ _ _ value _ rv); [|intro; apply eqv_coerce]).
  - apply eqv_get_var.
  - eapply eqv_bind; [apply IH|]. intro v. cbv zeta. rewrite rv_unit. apply eqv_if; [now apply eqv_ret|].
    assert (N : Eqv rv (let* f := evaluate_native_attr v a in ret (VFunc f)) (let* f := evaluate_native_attr (rv v) a in ret (VFunc f))).
    { eapply eqv_bind; [apply eqv_evaluate_native_attr|]. intro. now apply eqv_ret. }
    destruct v; try exact N.
    + rewrite rv_dict in *. rewrite rm_get. destruct (ngetm vs a); cbn [option_map]; [now apply eqv_ret|exact N].
    + destruct h; try exact N. cbn [S_Alone.rv]. apply eqv_if; [now apply eqv_ret|exact N].
  - eapply eqv_bind; [apply IH|]. intro v. eapply eqv_bind; [apply eqv_to_opt, eqv_to_list|]. intros [vs|]; cbn [option_map]; [|now apply eqv_ret].
    eapply eqv_bind; [eapply eqv_pure; apply list_get_map|]. rewrite map_length. intros [w|]; cbn [option_map]; [now apply eqv_ret|apply eqv_fail].
Qed.

Section Step.
  Variable X : externals.
  Variable R : evals.
  Hypothesis Hnode : forall e t, Eqv rv (e_node R e t) (e_node R e t).
  Hypothesis Hcall : forall f bs t src, Eqv rv (e_call R f bs t src) (e_call R (rf f) (rm rv bs) t src).
  Lemma eqv_evaluate_func_call src f l c t : Eqv rv (evaluate_func_call R src f l c t) (evaluate_func_call R src f l c t).
  Proof.
    unfold evaluate_func_call. eapply eqv_bind; [apply eqv_evaluate_name|]. intro v. eapply eqv_bind; [apply eqv_to_opt, eqv_to_func|].
    intros [g|]; cbn [option_map]; [|now apply eqv_ret]. eapply eqv_bind; [apply eqv_or_report, eqv_bind_call, Hnode|]. intro. apply Hcall.
  Qed.
  Lemma eqv_let_vars vs i d : Eqv idf (let_vars R vs i d) (let_vars R vs i d).
  Proof.
    induction vs as [|[n e] vs IH]; cbn [let_vars]; [now apply eqv_ret|]. eapply eqv_bind; [apply Hnode|]. intro v.
    eapply (eqv_bind _ _ _ _ unit _ idf); [apply eqv_if; [apply eqv_export|now apply eqv_ret]|]. intros _.
    eapply eqv_bind; [apply eqv_set_var|]. intros _. apply IH.
  Qed.
  Lemma eqv_evaluate_let_in l t d : Eqv rv (evaluate_let_in R l t d) (evaluate_let_in R l t d).
  Proof. destruct l. unfold evaluate_let_in. apply eqv_in_child_frame. eapply eqv_bind; [apply eqv_let_vars|]. intros _. apply Hnode. Qed.
  Lemma eqv_list_items l t : Eqv (List.map rv) (list_items R l t) (list_items R l t).
  Proof.
    induction l as [|[e b] l IH]; cbn [list_items]; [now apply eqv_ret|].
    eapply (eqv_bind _ _ _ _ (list value) _ (List.map rv)).
    - apply eqv_if; (eapply eqv_bind; [apply Hnode|]; intro v); [apply eqv_to_list|now apply eqv_ret].
    - intro vs. eapply eqv_bind; [apply IH|]. intro. apply eqv_ret. symmetry. apply map_app.
  Qed.
  Lemma eqv_evaluate_list l t : Eqv rv (evaluate_list R l t) (evaluate_list R l t).
  Proof. unfold evaluate_list. eapply eqv_bind; [apply eqv_list_items|]. intro vs. apply eqv_or_report. apply (eqv_coerce _ _ _ _ (VList vs)). Qed.
  Lemma eqv_template_text ps : Eqv idf (template_text ps) (template_text ps).
  Proof.
    induction ps as [|p ps IH]; cbn [template_text]; [now apply eqv_ret|]. eapply (eqv_bind _ _ _ _ str _ idf).
    - destruct p; try now apply eqv_ret. eapply eqv_bind; [apply eqv_evaluate_name|]. intro. eapply eqv_bind; [apply eqv_to_opt_id, eqv_to_str|]. intro.
      now apply eqv_ret.
    - intro. eapply eqv_bind; [apply IH|]. intro. now apply eqv_ret.
  Qed.
  Lemma eqv_export_names vs : Eqv idf (export_names R vs) (export_names R vs).
  Proof.
    induction vs as [|[n e] vs IH]; cbn [export_names]; [now apply eqv_ret|]. eapply eqv_bind; [apply Hnode|]. intro.
    eapply eqv_bind; [apply eqv_export|]. intros _. apply IH.
  Qed.
  Lemma eqv_compile_export e : Eqv idf (compile_export R e) (compile_export R e).
  Proof.
    unfold compile_export. destruct e.
    - apply eqv_export_names.
    - eapply eqv_bind; [apply eqv_evaluate_let_in|]. intros _. now apply eqv_ret.
    - eapply eqv_bind; [apply eqv_compile_func_def, Hnode|]. intro f. rewrite rf_name.
      eapply eqv_bind; [apply (eqv_export _ _ _ _ _ (VFunc f))|]. intros _. apply (eqv_set_var _ _ _ _ _ (VFunc f)).
  Qed.
  Lemma eqv_compile_code_fence src t m : Eqv idf (compile_code_fence R src t m) (compile_code_fence R src t m).
  Proof.
    unfold compile_code_fence. eapply eqv_bind; [apply eqv_get_var|]. intro. eapply eqv_bind; [apply eqv_coerce|]. intro.
    eapply eqv_bind; [apply eqv_to_func|]. intro f. eapply eqv_bind; [apply (eqv_bind_synthetic_call _ _ _ _ f true (VStr _))|]. intro.
    eapply eqv_bind; [apply Hcall|]. intro. apply eqv_to_htmlM.
  Qed.
  Lemma eqv_push_piece h b : Eqv idf (push_piece h b) (push_piece h b).
  Proof. unfold push_piece. eapply eqv_bind; [apply eqv_pure_id|]. intro. now apply eqv_ret. Qed.
  Lemma eqv_push_result m b : Eqv idf m m -> Eqv idf (push_result m b) (push_result m b).
  Proof. intro H. unfold push_result. eapply eqv_bind; [apply eqv_catch, H|]. intros [h|e]; cbn [rsum]; [apply eqv_push_piece|now apply eqv_ret]. Qed.
  Lemma eqv_no_piece m b : Eqv idf m m -> Eqv idf (no_piece m b) (no_piece m b).
  Proof. intro H. unfold no_piece. eapply eqv_bind; [apply eqv_catch, H|]. intros [h|e]; now apply eqv_ret. Qed.
  Lemma eqv_compile_node n b : Eqv idf (compile_node R n b) (compile_node R n b).
  Proof.
    unfold compile_node. destruct n; cbv zeta; try apply eqv_push_result; try apply eqv_no_piece; try apply eqv_push_piece; try now apply eqv_ret.
    - apply eqv_compile_export.
    - eapply eqv_bind; [apply Hnode|]. intro. apply eqv_to_htmlM.
    - eapply eqv_bind; [apply eqv_compile_func_def, Hnode|]. intro f. match goal with |- context [let (_, _, _) := ?d in _] => destruct d end. apply (eqv_set_var _ _ _ _ _ (VFunc f)).
    - apply eqv_compile_code_fence.
  Qed.
  Lemma eqv_compile_nodes ns : forall b, Eqv idf (compile_nodes R ns b) (compile_nodes R ns b).
  Proof.
    induction ns as [|n ns IH]; intro b; cbn [compile_nodes]; [now apply eqv_ret|]. eapply eqv_bind; [apply eqv_compile_node|]. intros [e b']. cbn [idf fst snd].
    eapply (eqv_bind _ _ _ _ unit _ idf); [destruct e; [apply eqv_report|now apply eqv_ret]|]. intros _. apply IH.
  Qed.
  Lemma eqv_compile_sequence ns k p : Eqv idf (compile_sequence R ns k p) (compile_sequence R ns k p).
  Proof.
    unfold compile_sequence. eapply eqv_bind; [apply eqv_compile_nodes|]. intro b. change (@idf builder b) with b. destruct (b_into_html b); [now apply eqv_ret|].
    eapply eqv_bind; [apply eqv_report|]. intros _. now apply eqv_ret.
  Qed.
  Lemma eqv_compile_tag_name n : Eqv idf (compile_tag_name n) (compile_tag_name n).
  Proof.
    unfold compile_tag_name. destruct n; [now apply eqv_ret|]. eapply eqv_bind; [apply eqv_evaluate_name|]. intro.
    eapply eqv_bind; [apply eqv_to_str|]. intro. cbn [idf]. apply eqv_if; [now apply eqv_ret|]. apply eqv_if; [now apply eqv_ret|apply eqv_reported].
  Qed.
  Lemma eqv_add_attr l n v : Eqv idf (add_attr l n v) (add_attr l n v).
  Proof. unfold add_attr. apply eqv_if; [apply eqv_reported|now apply eqv_ret]. Qed.
  Lemma eqv_add_attrs vs : forall l, Eqv idf (add_attrs l vs) (add_attrs l vs).
  Proof. induction vs as [|[n v] vs IH]; intro l; cbn [add_attrs]; [now apply eqv_ret|]. eapply eqv_bind; [apply eqv_add_attr|]. intro. apply IH. Qed.
  Lemma eqv_compile_attrs l : forall a, Eqv idf (compile_attrs R l a) (compile_attrs R l a).
  Proof.
    induction l as [|x l IH]; intro a; cbn [compile_attrs]; [now apply eqv_ret|].
    eapply (eqv_bind _ _ _ _ (nmap (option str)) _ idf); [|intro; apply IH]. destruct x as [n q [e|]|e].
    - eapply eqv_bind; [apply Hnode|]. intro. eapply eqv_bind; [apply eqv_to_opt_id, eqv_to_str|]. intros [s|]; cbn [idf]; [apply eqv_add_attr|now apply eqv_ret].
    - apply eqv_add_attr.
    - eapply eqv_bind; [apply Hnode|]. intro. eapply eqv_bind; [apply eqv_to_dict|]. intro vs. rewrite rm_values, rm_keys.
      eapply eqv_bind; [apply eqv_to_each_id; intro; apply eqv_to_opt_id, eqv_to_str|]. intro. apply eqv_add_attrs.
  Qed.
  Lemma eqv_compile_tag n l c : Eqv idf (compile_tag R n l c) (compile_tag R n l c).
  Proof.
    unfold compile_tag. eapply eqv_bind; [apply eqv_compile_tag_name|]. intro. eapply eqv_bind; [apply eqv_compile_attrs|]. intro.
    eapply eqv_bind; [apply eqv_compile_sequence|]. intro. now apply eqv_ret.
  Qed.
  Lemma eqv_evaluate_node e t : Eqv rv (evaluate_node X R e t) (evaluate_node X R e t).
  Proof.
    unfold evaluate_node. cbv zeta.
    assert (C : forall m m', Eqv rv m m' -> Eqv rv (let* v := m in or_report (coerceM v t)) (let* v := m' in or_report (coerceM v t))).
    { intros m m' H. eapply eqv_bind; [exact H|]. intro. apply eqv_or_report, eqv_coerce. }
    destruct e; try (apply C; now apply eqv_ret).
    all: first
      [ apply eqv_evaluate_func_call | apply eqv_evaluate_let_in | apply eqv_evaluate_match, Hnode | apply eqv_evaluate_name | apply eqv_evaluate_list
      | eapply eqv_bind; [apply eqv_compile_func_def, Hnode|]; intro f'; apply eqv_if; [apply eqv_reported|]; apply C; now apply eqv_ret
      | apply C; eapply eqv_bind; [apply eqv_template_text|]; intro; now apply eqv_ret
      | apply C; eapply eqv_bind; [apply eqv_compile_sequence|]; intro; apply eqv_ret; symmetry; apply rv_of_html
      | apply C; eapply eqv_bind; [apply eqv_compile_tag|]; intro; now apply eqv_ret ].
  Qed.
  Lemma eqv_compile_source p t k : Eqv load (compile_source X R p t k) (compile_source X R p t k).
  Proof.
    unfold compile_source. eapply eqv_bind; [apply eqv_pure_id|]. intros [root errs]. cbn [idf]. eapply eqv_bind; [apply eqv_report_all|]. intros _.
    apply (eqv_compiler _ _ _ _ html idf). apply eqv_compile_sequence.
  Qed.
  Lemma eqv_load_uncached p : Eqv load (load_uncached X R p) (load_uncached X R p).
  Proof. unfold load_uncached. destruct (x_read X p); [apply eqv_compile_source|apply eqv_fail]. Qed.
  Lemma eqv_load_cached p : Eqv load (load_cached X R p) (load_cached X R p).
  Proof. unfold load_cached. destruct (x_canonicalize X p); [apply eqv_cached, eqv_load_uncached|apply eqv_fail]. Qed.
  Lemma eqv_evaluate_call f : forall bs t src, Eqv rv (evaluate_call X R f bs t src) (evaluate_call X R (rf f) (rm rv bs) t src).
  Proof.
    induction f as [n c s b|g n s|f IH p]; intros; cbn [evaluate_call].
    - apply eqv_in_call_frame, Hnode.
    - apply eqv_or_report. eapply eqv_bind; [apply eqv_evaluate_native_func; [apply Hcall|apply eqv_load_cached]|]. intro. apply eqv_coerce.
    - apply IH.
  Qed.
End Step.

Lemma eqv_evals X fuel : (forall e t, Eqv rv (e_node (evals_n X fuel) e t) (e_node (evals_n X fuel) e t)) /\
  (forall f bs t src, Eqv rv (e_call (evals_n X fuel) f bs t src) (e_call (evals_n X fuel) (rf f) (rm rv bs) t src)).
Proof.
  induction fuel as [|fuel IH]; split; intros; cbn [evals_n step e_node e_call]; try apply eqv_nofuel.
  - apply eqv_evaluate_node; apply IH.
  - apply eqv_evaluate_call; apply IH.
Qed.
Lemma eqv_compile X fuel p t : Eqv load (compile X fuel p t) (compile X fuel p t).
Proof. apply eqv_compile_source; apply eqv_evals. Qed.
End Shift.
