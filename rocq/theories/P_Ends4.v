(** Proofs for C67: evaluation ends if calls are not nested without bound (expressions). *)
From Verif Require Import Base BaseFacts M_Int M_Text M_Names M_TagInfo M_SliceRef M_Html M_Sequence S_Html P_Html P_Sequence M_Types M_Token M_Tokenizer M_Diag M_SourceFile M_Highlight M_HtmlParse M_Queue M_Ast M_Parser M_Value
  M_State M_Matcher M_Binder M_Native M_Eval P_Pattern P_Text P_Mono P_Ast P_ParserEnds P_Ends S_Ends P_Ends2 P_Ends3.

Section Step.
  Variable X : externals.
  Variable R : nat -> evals.
  Hypothesis Mono : forall n n', n <= n' -> (forall e t, Le (e_node (R n) e t) (e_node (R n') e t)) /\ (forall f bs t src, Le (e_call (R n) f bs t src) (e_call (R n') f bs t src)).
  Hypothesis RS : forall n, e_node (R (S n)) = evaluate_node X (R n).
  Notation GE := (GE (fun n => e_node (R n))).
  Notation GA := (GA (fun n => e_node (R n))).
  Notation GP := (GP (fun n => e_node (R n))).
  Notation GS := (GS (fun n => e_node (R n))).
  Notation GD := (GD (fun n => e_node (R n))).
  Notation GL := (GL (fun n => e_node (R n))).
  Notation GT := (GT (fun n => e_node (R n))).
  Notation GX := (GX (fun n => e_node (R n))).
  Notation GM := (GM (fun n => e_node (R n)) (x_captures X)).
  Notation GN := (GN R).
  Lemma ge_shift e : (forall t, T (fun n => evaluate_node X (R n) e t)) -> GE e.
  Proof.
    intros H t. destruct (H t) as [U E]. split.
    - intros n n' L. destruct (Mono _ _ L). auto.
    - intro s. destruct (E s) as [n K]. exists (S n). now rewrite RS.
  Qed.
  (** either calls end, or there are none *)
  Variable calls : Prop.
  Hypothesis Hcall : calls -> GCall R.
  Notation ok b := (calls \/ b = false).
  Lemma ok_or b c : ok (b || c) -> ok b /\ ok c.
  Proof. intros [H|H]; [auto|]. apply orb_false_iff in H as [-> ->]. auto. Qed.
  Lemma ok_list A (f : A -> bool) (P : A -> Prop) l : Forall (fun x => ok (f x) -> P x) l -> ok (existsb f l) -> Forall P l.
  Proof. intro H. induction H; cbn [existsb]; intro K; constructor; apply ok_or in K as [K1 K2]; auto. Qed.
  Ltac now_coerced := intros; apply ge_shift; intro; unfold evaluate_node; cbv zeta; ends.
  Lemma ast_ends : (forall e, ok (calls_expr e) -> GE e) /\ (forall ns, Forall (fun n => ok (calls_node n) -> GN n) ns).
  Proof.
    apply (ast_all (fun e => ok (calls_expr e) -> GE e) (fun a => calls -> GA a) (fun d => ok (calls_def d) -> GD d)
      (fun s => ok (let '(Signature ps _ _ _ _ _) := s in existsb calls_param ps) -> GS s) (fun p => ok (calls_param p) -> GP p) (fun l => ok (calls_let l) -> GL l)
      (fun a => ok (calls_attr a) -> GT a) (fun p => ok (calls_pattern p) -> GM p) (fun n => ok (calls_node n) -> GN n) (fun x => ok (calls_export x) -> GX x)).
    1-5,12,14: now_coerced.
    - intros src f l c Hl Hc [K|K]; [|discriminate]. apply ge_shift. intro t. apply (t_evaluate_func_call R); auto.
      eapply Forall_impl; [|exact Hl]. auto.
    - intros d Hd K. apply ge_shift. intro t. unfold evaluate_node. cbv zeta. ends1; [apply (t_compile_func_def (fun n => e_node (R n))); auto|]. ends.
    - intros l Hl K. apply ge_shift. intro t. apply (t_evaluate_let_in R). auto.
    - intros e bs He Hbs K. cbn [calls_expr] in K. apply ok_or in K as [K1 K2]. apply ge_shift. intro t.
      apply (t_evaluate_match (fun n => e_node (R n)) (x_captures X)); auto.
      apply (ok_list _ _ _ _ (Forall_impl _ (fun b (H : _ /\ _) K => conj (proj1 H (proj1 (ok_or _ _ K))) (proj2 H (proj2 (ok_or _ _ K)))) Hbs) K2).
    - intros ns Hns K. apply ge_shift. intro t. unfold evaluate_node. cbv zeta. ends. apply (t_compile_sequence R Mono); [exact (kind_for_good (lit "div"))|].
      exact (ok_list _ _ _ _ Hns K).
    - intros l Hl K. apply ge_shift. intro t. apply (t_evaluate_list R). exact (ok_list _ _ _ _ Hl K).
    - intros n l ns Hl Hns K. cbn [calls_expr] in K. apply ok_or in K as [K1 K2]. apply ge_shift. intro t. unfold evaluate_node. cbv zeta. ends.
      apply (t_compile_tag R Mono); [exact (ok_list _ _ _ _ Hl K1)|exact (ok_list _ _ _ _ Hns K2)].
    - intros n k e He K. apply He. auto.
    - intros n s e Hs _ K. apply Hs. destruct s. exact K.
    - intros ps a b c d e Hps K. exact (ok_list _ _ _ _ Hps K).
    - intros n q i t [d|] Hd K; [apply Hd; exact K|exact I].
    - intros i vs e Hvs He K. cbn [calls_let] in K. apply ok_or in K as [K1 K2]. split; [exact (ok_list _ _ _ _ Hvs K1)|auto].
    - intros n q [v|] Hv K; [apply Hv; exact K|exact I].
    - intros e He K. apply He. exact K.
    - intros _ v. cbn [bind_pattern]. ends.
    - intros _ v. cbn [bind_pattern]. ends.
    - intros n _ v. cbn [bind_pattern]. ends.
    - intros n _ v. cbn [bind_pattern]. ends.
    - intros e He K. apply gm_equals. auto.
    - intros p q Hp Hq K. cbn [calls_pattern] in K. apply ok_or in K as [K1 K2]. apply gm_and; auto.
    - intros p q l Hp Hq K. cbn [calls_pattern] in K. apply ok_or in K as [K1 K2]. apply gm_or; auto.
    - intros r l _ v. cbn [bind_pattern]. ends.
    - intros t _ v. cbn [bind_pattern]. ends.
    - intros n _ v. cbn [bind_pattern]. ends.
    - intros ps H K. apply gm_list. exact (ok_list _ _ _ _ H K).
    - intros ps i H K. apply gm_slist. exact (ok_list _ _ _ _ H K).
    - intros l r H Hr K. cbn [calls_pattern] in K. apply ok_or in K as [K1 K2]. apply gm_dict; [exact (ok_list _ _ _ _ H K1)|]. destruct r; [apply Hr; exact K2|exact I].
    - intros p q r Hp Hq Hr K. cbn [calls_pattern] in K. apply ok_or in K as [K K3]. apply ok_or in K as [K1 K2]. apply gm_tag; auto.
    - intros ps H K. apply gm_html. exact (ok_list _ _ _ _ H K).
    - intros ps i H K. apply gm_shtml. exact (ok_list _ _ _ _ H K).
    - intros e H K. apply gn_export. auto.
    - intros e H K. apply gn_expr. auto.
    - intros d H K. apply gn_def. auto.
    - intros src t m [K|K]; [|discriminate]. apply gn_fence. auto.
    - intros s _. apply gn_text.
    - intros s _. apply gn_char.
    - intros _. apply gn_ws.
    - intros _. apply gn_break.
    - intros vs H K. exact (ok_list _ _ _ _ H K).
    - intros l H K. apply H. exact K.
    - intros d H K. apply H. exact K.
  Qed.
End Step.
