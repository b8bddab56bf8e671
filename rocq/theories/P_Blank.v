(** Proofs for C24_blank_line. *)
From Verif Require Import Base BaseFacts M_Text M_Names M_TagInfo M_Html M_Sequence M_Types M_Token M_Diag M_Ast M_Value M_State M_Matcher M_Binder M_Native M_Eval
  S_Html P_Sequence S_Scope S_Match S_Util S_Expr P_Expr P_Expr2 S_Sequence S_Inline S_Blocks P_Blocks S_Document P_Document.

Lemma gives_app X a : forall b s items s', Gives X (a ++ b) s items s' <-> exists i1 s1 i2, Gives X a s i1 s1 /\ Gives X b s1 i2 s' /\ items = i1 ++ i2.
Proof.
  intros b s items s'. split.
  - revert s items. induction a as [|n a IH]; intros s items G; cbn [app] in G; [exists [], s, items; split; [constructor|now split]|].
    inversion G; subst.
    + match goal with H : Gives _ (a ++ b) _ _ _ |- _ => apply IH in H as (i1 & s2 & i2 & G1 & G2 & ->) end. exists (i :: i1), s2, i2. split; [eapply gv_adds; eauto|now split].
    + match goal with H : Gives _ (a ++ b) _ _ _ |- _ => apply IH in H as (i1 & s2 & i2 & G1 & G2 & ->) end. exists i1, s2, i2. split; [eapply gv_effects; eauto|now split].
    + match goal with H : Gives _ (a ++ b) _ _ _ |- _ => apply IH in H as (i1 & s2 & i2 & G1 & G2 & ->) end. exists i1, s2, i2. split; [eapply gv_breaks; eauto|now split].
  - intros (i1 & s1 & i2 & G1 & G2 & ->). induction G1 as [s|n ns s i s1 items s'' A G1 IH|n ns s s1 items s'' E G1 IH|n ns s e s1 items s'' B G1 IH]; cbn [app].
    + exact G2.
    + eapply gv_adds; eauto.
    + eapply gv_effects; eauto.
    + eapply gv_breaks; eauto.
Qed.
Lemma gives_contents X k parent : block_sort k -> forall ns s added s', Gives X ns s added s' -> forall pre, Contents X k parent ns pre s (pre ++ added) s'.
Proof.
  intro K. induction 1 as [s|n ns s i s1 items s'' A G1 IH|n ns s s1 items s'' E G1 IH|n ns s e s1 items s'' B G1 IH]; intro pre.
  - rewrite app_nil_r. constructor.
  - replace (pre ++ i :: items) with ((pre ++ [i]) ++ items) by now rewrite <- app_assoc. eapply ct_adds; [exact A|]. unfold told. rewrite !no_refusals by exact K. cbn. apply IH.
  - eapply ct_effects; eauto.
  - eapply ct_breaks; eauto.
Qed.
(** What block content is made of, with no errors to speak of. *)
Lemma makes_block X parent ns s h s' : Makes X (RequireBlock n_p) parent ns s h s' <->
  exists items, Gives X ns s items s' /\ compile_items (RequireBlock n_p) parent items = Ret ([], h).
Proof.
  split.
  - intro M. inversion M as [items s2 es h0 C I R|items s2 es e h0 C I R]; subst.
    + destruct (contents_gives X _ _ _ _ _ _ _ (or_introl eq_refl) C) as (added & -> & G). cbn [app] in *. destruct (block_exact _ _ _ _ I) as (-> & _). eauto.
    + exfalso. destruct (block_exact _ _ _ _ I) as (Z & _). now apply app_eq_nil in Z as [_ Z].
  - intros (items & G & I). eapply makes; [exact (gives_contents X _ _ (or_introl eq_refl) _ _ _ _ G [])|exact I|]. cbn [app]. now rewrite no_refusals by now left.
Qed.
Lemma items_app l1 : forall l2 b b1, b_items l1 b = Ret ([], b1) -> b_items (l1 ++ l2) b = b_items l2 b1.
Proof.
  induction l1 as [|i l1 IH]; intros l2 b b1 E; cbn [app b_items] in *; [now injection E as ->|].
  destruct (b_item i b) as [[e c]| |]; [|discriminate|discriminate]. cbn [obind] in *. destruct (b_items l1 c) as [[es c1]| |] eqn:E1; [|discriminate|discriminate]. cbn [obind] in E.
  destruct e; [discriminate|]. injection E as -> ->. rewrite (IH _ _ _ E1). destruct (b_items l2 b1) as [[x y]| |]; reflexivity.
Qed.
Lemma compile_break parent i1 i2 : exists hs1 hs2,
  compile_items (RequireBlock n_p) parent i1 = Ret ([], from_iter hs1) /\ compile_items (RequireBlock n_p) parent i2 = Ret ([], from_iter hs2) /\
  compile_items (RequireBlock n_p) parent (i1 ++ ParagraphBreak :: i2) = Ret ([], from_iter (hs1 ++ hs2)).
Proof.
  pose proof (or_introl eq_refl : block_sort (RequireBlock n_p)) as K.
  destruct (divided_run _ parent K i1 []) as (c1 & l1 & D1 & R1). destruct (divided_run _ parent K i2 []) as (c2 & l2 & D2 & R2).
  exists (c1 ++ para l1), (c2 ++ para l2). unfold compile_items. change (b_new (RequireBlock n_p) parent) with (st parent (RequireBlock n_p) [] []).
  rewrite R1, R2. cbn [obind app]. rewrite (into_st _ _ _ _ K (divided_solid _ _ _ _ D1)), (into_st _ _ _ _ K (divided_solid _ _ _ _ D2)). split; [reflexivity|]. split; [reflexivity|].
  rewrite (items_app _ _ _ _ (R1 [])). cbn [app b_items b_item]. assert (b_newline (st parent (RequireBlock n_p) c1 l1) = b_close_child (st parent (RequireBlock n_p) c1 l1)) as -> by reflexivity.
  rewrite (close_st _ _ _ _ K). cbn [obind]. change (Builder parent (RequireBlock n_p) (c1 ++ para l1) None) with (st parent (RequireBlock n_p) (c1 ++ para l1) []). rewrite R2. cbn [obind].
  rewrite into_st; [now rewrite <- app_assoc|exact K|]. apply Forall_app. split; [apply Forall_app; split; [exact (divided_solid _ _ _ _ D1)|exact (paragraph_solid _ _ (para_is l1))]|exact (divided_solid _ _ _ _ D2)].
Qed.
Lemma makes_break X parent a b s h s' : Makes X (RequireBlock n_p) parent (a ++ AParagraphBreak :: b) s h s' ->
  exists hs1 s1 hs2, Makes X (RequireBlock n_p) parent a s (from_iter hs1) s1 /\ Makes X (RequireBlock n_p) parent b s1 (from_iter hs2) s' /\ h = from_iter (hs1 ++ hs2).
Proof.
  intro M. apply makes_block in M as (items & G & C). apply gives_app in G as (i1 & s1 & i2 & G1 & G2 & ->).
  inversion G2 as [|n ns s0 i s2 i3 s3 A G3|n ns s0 s2 i3 s3 E G3|n ns s0 e s2 i3 s3 B G3]; subst; [|inversion E|inversion B]. inversion A; subst.
  destruct (compile_break parent i1 i3) as (hs1 & hs2 & C1 & C2 & C3). rewrite C in C3. injection C3 as ->.
  exists hs1, s2, hs2. split; [apply makes_block; eauto|]. split; [apply makes_block; eauto|reflexivity].
Qed.
