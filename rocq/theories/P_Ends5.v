(** Proofs for C67: evaluation ends if calls are not nested without bound (limits). *)
From Verif Require Import Base BaseFacts M_Int M_Text M_Names M_TagInfo M_SliceRef M_Html M_Sequence S_Html P_Html P_Sequence M_Types M_Token M_Tokenizer M_Diag M_SourceFile M_Highlight M_HtmlParse M_Queue M_Ast M_Parser M_Value
  M_State M_Matcher M_Binder M_Native M_Eval P_Pattern P_Text P_Mono P_Ast P_ParserEnds P_Ends S_Ends P_Ends2 P_Ends3 P_Ends4 P_Below.

Lemma le_limited_node X call : (forall n n', n <= n' -> forall f bs t src, Le (call n f bs t src) (call n' f bs t src)) ->
  forall n n', n <= n' -> forall e t, Le (limited_node X call n e t) (limited_node X call n' e t).
Proof.
  intro Hc. induction n as [|n IH]; intros [|n'] L e t; try apply le_nofuel; [inversion L|].
  apply le_S_n in L. cbn [limited_node]. apply le_evaluate_node; cbn [e_node e_call]; auto.
Qed.
Lemma le_limited_call X d : forall n n', n <= n' -> forall f bs t src, Le (limited_call X d n f bs t src) (limited_call X d n' f bs t src).
Proof.
  induction d as [|d IH]; intros n n' L f bs t src; cbn [limited_call]; [apply le_refl|].
  destruct n as [|n]; [apply le_nofuel|]. destruct n' as [|n']; [inversion L|]. apply le_S_n in L.
  apply le_evaluate_call; cbn [e_node e_call]; auto. intros e t'. now apply le_limited_node.
Qed.
Lemma le_limited X d n n' : n <= n' ->
  (forall e t, Le (e_node (limited X d n) e t) (e_node (limited X d n') e t)) /\
  (forall f bs t src, Le (e_call (limited X d n) f bs t src) (e_call (limited X d n') f bs t src)).
Proof.
  intro L. split; cbn [limited e_node e_call].
  - intros. apply le_limited_node; [apply le_limited_call|exact L].
  - intros. now apply le_limited_call.
Qed.
Definition GoodExpr (R : nat -> evals) (e : expr) : Prop := GE (fun n => e_node (R n)) e.
Lemma limited_ast X d (calls : Prop) : (calls -> GCall (limited X d)) ->
  (forall e, calls \/ calls_expr e = false -> GoodExpr (limited X d) e) /\ (forall ns, Forall (fun n => calls \/ calls_node n = false -> GN (limited X d) n) ns).
Proof.
  intro H. apply (ast_ends X (limited X d)); [intros n n' L; now apply le_limited|reflexivity|exact H].
Qed.
Lemma limited_call_ends X d : GCall (limited X d).
Proof.
  induction d as [|d IH]; intros f bs t src.
  - apply t_crash.
  - destruct (limited_ast X d True (fun _ => IH)) as [H1 H2].
    pose proof (t_evaluate_call X (limited X d) (le_limited X d)) as K.
    assert (T (fun n => evaluate_call X (limited X d n) f bs t src)) as [U E].
    { apply K; [|exact IH]. split; [intro e; apply H1; now left|]. intro ns. eapply Forall_impl; [|apply H2]. cbn. auto. }
    split; [intros n n' L; now apply le_limited|]. intro s. destruct (E s) as [n G]. exists (S n). exact G.
Qed.
Lemma limited_ends X d path text s : exists fuel, compile_limited X d fuel path text s <> NoFuel.
Proof.
  assert (T (fun n => compile_source X (limited X d n) path text (RequireBlock n_p))) as [_ E]; [|exact (E s)].
  apply (t_compile_source X (limited X d) (le_limited X d)); [apply good_block|]. intros root errs _.
  eapply Forall_impl; [|apply (limited_ast X d True); intros _; apply limited_call_ends]. cbn. auto.
Qed.

(** Without calls, whatever calls do *)
Lemma le_evals' X n n' : n <= n' ->
  (forall e t, Le (e_node (evals_n X n) e t) (e_node (evals_n X n') e t)) /\
  (forall f bs t src, Le (e_call (evals_n X n) f bs t src) (e_call (evals_n X n') f bs t src)).
Proof. apply le_evals. Qed.
Lemma no_calls_ends X path text s :
  (forall nodes ds, parse_source X path text = Ret (nodes, ds) -> existsb calls_node nodes = false) -> exists fuel, compile X fuel path text s <> NoFuel.
Proof.
  intro H. assert (T (fun n => compile_source X (evals_n X n) path text (RequireBlock n_p))) as [_ E]; [|exact (E s)].
  apply (t_compile_source X (evals_n X) (le_evals' X)); [apply good_block|]. intros root errs P. specialize (H _ _ P).
  destruct (ast_ends X (evals_n X) (le_evals' X) (fun _ => eq_refl) False (fun F => match F with end)) as [_ A].
  specialize (A root). clear -A H. induction A as [|x l Hx A IH]; [constructor|]. cbn [existsb] in H. apply orb_false_iff in H as [H1 H2].
  constructor; [|now apply IH]. apply Hx. now right.
Qed.

(** The limit only replaces results *)
Lemma below_limited_node X d n : (forall f bs t src, forall m, m <= n -> Below (limited_call X d m f bs t src) (e_call (evals_n X m) f bs t src)) ->
  forall e t, Below (limited_node X (limited_call X d) n e t) (e_node (evals_n X n) e t).
Proof.
  induction n as [|n IH]; intros Hc e t; [apply bl_refl|]. cbn [limited_node evals_n step e_node].
  apply bl_evaluate_node; cbn [e_node e_call].
  - apply IH. intros. apply Hc. lia.
  - intros. apply Hc. lia.
Qed.
Lemma below_limited_call X d : forall n f bs t src, Below (limited_call X d n f bs t src) (e_call (evals_n X n) f bs t src).
Proof.
  induction d as [|d IH]; intros n f bs t src; cbn [limited_call]; [intro; right; now left|].
  destruct n as [|n]; [apply bl_refl|]. cbn [evals_n step e_call]. apply bl_evaluate_call; cbn [e_node e_call]; [|auto].
  apply below_limited_node. auto.
Qed.
Lemma below_compile X d n path text : Below (compile_limited X d n path text) (compile X n path text).
Proof.
  apply bl_compile_source; cbn [limited e_node e_call]; [|apply below_limited_call]. apply below_limited_node. intros. apply below_limited_call.
Qed.
Lemma le_unlimited X n : forall d, n <= d ->
  (forall e t, Le (e_node (evals_n X n) e t) (e_node (limited X d n) e t)) /\
  (forall f bs t src, Le (e_call (evals_n X n) f bs t src) (e_call (limited X d n) f bs t src)).
Proof.
  induction n as [|n IH]; intros d L; [split; intros; apply le_nofuel|]. destruct d as [|d]; [inversion L|]. split; intros.
  - cbn [limited limited_node evals_n step e_node e_call]. destruct (IH (S d)); [lia|]. apply le_evaluate_node; auto.
  - cbn [limited evals_n step e_node e_call]. cbn [limited_call]. destruct (IH d); [lia|]. apply le_evaluate_call; auto.
Qed.
Lemma unlimited_compile X n path text : Le (compile X n path text) (compile_limited X n n path text).
Proof. destruct (le_unlimited X n n (Nat.le_refl n)). now apply le_compile_source. Qed.
