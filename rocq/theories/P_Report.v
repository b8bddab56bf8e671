(** Proofs about the texts of messages and reports. *)
From Verif Require Import Base BaseFacts M_Text M_Types M_Token M_Diag M_SourceFile M_Report S_Util S_Report P_Util P_Text.

(** * Texts which differ *)
Fixpoint clash (p q : str) : bool :=
  match p, q with
  | a :: p, b :: q => negb (a =? b)%N || clash p q
  | _, _ => false
  end.
Lemma clash_neq p : forall q x y, clash p q = true -> p ++ x = q ++ y -> False.
Proof.
  induction p as [|a p IH]; intros [|b q] x y; cbn; try discriminate. intros H [= E1 E2]. subst b.
  rewrite N.eqb_refl in H. cbn in H. eapply IH; eauto.
Qed.
Lemma clash_neq_l p q y : clash p q = true -> p = q ++ y -> False.
Proof. intros H E. eapply (clash_neq p q [] y); eauto. now rewrite app_nil_r. Qed.
Lemma clash_neq_r p q x : clash p q = true -> p ++ x = q -> False.
Proof. intros H E. eapply (clash_neq p q x []); eauto. now rewrite app_nil_r. Qed.

Lemma split_first {A} (sep : A) a a' d d' :
  ~ In sep a -> ~ In sep a' -> a ++ sep :: d = a' ++ sep :: d' -> a = a' /\ d = d'.
Proof.
  revert a'. induction a as [|x a IH]; intros [|y a'] Ha Ha' E; cbn in E.
  - injection E as E. auto.
  - injection E as <- E. exfalso. apply Ha'. now left.
  - injection E as -> E. exfalso. apply Ha. now left.
  - injection E as <- E. apply IH in E as [-> ->]; auto; intros H; [apply Ha|apply Ha']; now right.
Qed.

(** * Kinds of tokens and types *)
Lemma kind_inj k k' a b : kind_text k ++ a = kind_text k' ++ b -> shown_kind k = shown_kind k' /\ a = b.
Proof.
  destruct k, k'; repeat match goal with q : quote_kind |- _ => destruct q end;
  intros H; try (exfalso; match type of H with ?p ++ ?x = ?q ++ ?y => exact (clash_neq p q x y eq_refl H) end);
  split; try reflexivity; eapply app_inv_head; exact H.
Qed.

Definition kind_inj0 k k' : kind_text k = kind_text k' -> shown_kind k = shown_kind k'.
Proof. intros H. apply (kind_inj k k' [] []). now rewrite !app_nil_r. Qed.

Lemma display_no_comma t : ~ In 44%N (t_display t).
Proof.
  induction t; cbn [t_display]; try (intros H; rewrite in_app_iff in H; destruct H as [H|H]; [easy|]);
  cbn in *; intuition discriminate.
Qed.
Lemma display_no_quote t : ~ In 39%N (t_display t).
Proof.
  induction t; cbn [t_display]; try (intros H; rewrite in_app_iff in H; destruct H as [H|H]; [easy|]);
  cbn in *; intuition discriminate.
Qed.
Lemma display_inj t : forall t', t_display t = t_display t' -> t = t'.
Proof.
  assert (U : forall a b u v, clash (rev u) (rev v) = true -> a ++ u = b ++ v -> False).
  { intros a b u v C E. apply (f_equal (@rev _)) in E. rewrite !rev_app_distr in E. eapply clash_neq; eauto. }
  assert (V : forall (a u w : str) (c : N), In c u -> ~ In c w -> w = a ++ u -> False).
  { intros a u w c Hu Hw ->. apply Hw. apply in_or_app. now right. }
  assert (B : forall w a : str, w = a ++ lit " dict" \/ w = a ++ lit " list" \/ w = a ++ lit "?" ->
             In w [lit "none"; lit "any"; lit "html"; lit "block"; lit "inline"; lit "bool"; lit "int"; lit "str"; lit "function"; lit "regex"] -> False).
  { intros w a H W. cbn [In] in W.
    assert (~ In 32%N w /\ ~ In 63%N w) as [N1 N2] by (repeat (destruct W as [<-|W]; [cbn; intuition discriminate|]); easy).
    destruct H as [H|[H|H]]; [eapply (V _ _ _ 32%N)|eapply (V _ _ _ 32%N)|eapply (V _ _ _ 63%N)]; eauto; cbn; auto. }
  induction t; intros t' E; destruct t'; try reflexivity; try discriminate E; cbn [t_display] in E;
  try (exfalso; (eapply B; [left; exact E|cbn; tauto]) || (eapply B; [right; left; exact E|cbn; tauto]) || (eapply B; [right; right; exact E|cbn; tauto])
    || (symmetry in E; (eapply B; [left; exact E|cbn; tauto]) || (eapply B; [right; left; exact E|cbn; tauto]) || (eapply B; [right; right; exact E|cbn; tauto])));
  try (exfalso; eapply U; [|exact E]; reflexivity); apply app_inv_tail in E; f_equal; auto.
Qed.

Lemma num_inj n m : dec (N.of_nat n) = dec (N.of_nat m) -> n = m.
Proof. intros H. apply dec_inj in H. lia. Qed.
Lemma dec_not c n : is_ascii_digit c = false -> ~ In c (dec n).
Proof. intros H X. pose proof (dec_digits n) as D. rewrite forallb_forall in D. apply D in X. congruence. Qed.
Lemma zdec_not c z : is_ascii_digit c = false -> c <> 45%N -> ~ In c (zdec z).
Proof.
  intros H H2. destruct z; cbn [zdec]; try now apply dec_not. intros [X|X]; [congruence|]. revert X. now apply dec_not.
Qed.
Lemma zdec_inj z z' : zdec z = zdec z' -> z = z'.
Proof.
  assert (P : forall p n, 45%N :: dec (N.pos p) = dec n -> False).
  { intros p n E. apply (dec_not 45%N n eq_refl). rewrite <- E. now left. }
  destruct z, z'; cbn [zdec]; intros E; try reflexivity; try (exfalso; now apply P in E); try (exfalso; symmetry in E; now apply P in E);
  try (apply dec_inj in E; congruence). injection E as E. apply dec_inj in E. congruence.
Qed.
