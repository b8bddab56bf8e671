(** Facts about the vocabulary of Base.v. *)
From Verif Require Import Base.
From Coq Require Decimal DecimalN DecimalPos DecimalFacts.

#[global] Arguments Nat.ltb : simpl never.
Lemma str_eqb_eq a b : str_eqb a b = true <-> a = b.
Proof.
  revert b; induction a as [|x a IH]; intros [|y b]; cbn [str_eqb]; try (split; congruence).
  rewrite andb_true_iff, IH, N.eqb_eq. split; [intros [-> ->]; reflexivity | intros [= -> ->]; auto].
Qed.
Lemma str_eqb_refl a : str_eqb a a = true.
Proof. apply str_eqb_eq; reflexivity. Qed.
Lemma str_eqb_neq a b : str_eqb a b = false <-> a <> b.
Proof. rewrite <- str_eqb_eq. destruct (str_eqb a b); split; congruence. Qed.
Lemma str_eqb_spec a b : reflect (a = b) (str_eqb a b).
Proof. apply iff_reflect; symmetry; apply str_eqb_eq. Qed.
Lemma str_eqb_sym a b : str_eqb a b = str_eqb b a.
Proof. destruct (str_eqb_spec a b), (str_eqb_spec b a); congruence. Qed.
Lemma str_eq_dec (a b : str) : {a = b} + {a <> b}.
Proof. destruct (str_eqb_spec a b); auto. Qed.

Lemma mem_In s l : mem s l = true <-> In s l.
Proof.
  unfold mem. rewrite existsb_exists. split.
  - intros (x & Hx & He). apply str_eqb_eq in He. subst; auto.
  - intros H. exists s; split; auto. apply str_eqb_refl.
Qed.
Lemma mem_not_In s l : mem s l = false <-> ~ In s l.
Proof. rewrite <- mem_In. destruct (mem s l); split; congruence. Qed.

Lemma utf8_len_pos c : 1 <= utf8_len c <= 4.
Proof. unfold utf8_len. repeat (destruct (_ <? _)%N; try lia). Qed.
Lemma utf8_len_ascii c : is_ascii c = true -> utf8_len c = 1.
Proof. unfold is_ascii, utf8_len. intros ->. reflexivity. Qed.
Lemma utf8_len_1_ascii c : utf8_len c = 1 -> is_ascii c = true.
Proof. unfold is_ascii, utf8_len. destruct (c <? 128)%N; auto. repeat (destruct (_ <? _)%N; try lia). Qed.
Lemma blen_app a b : blen (a ++ b) = blen a + blen b.
Proof. induction a; cbn [app blen]; lia. Qed.
Lemma blen_ascii s : forallb is_ascii s = true -> blen s = length s.
Proof.
  induction s as [|c s IH]; cbn [forallb blen length]; auto.
  rewrite andb_true_iff. intros [H1 H2]. rewrite utf8_len_ascii, IH; auto.
Qed.
Lemma blen_0 s : blen s = 0 -> s = [].
Proof. destruct s as [|c s]; cbn [blen]; auto. pose proof (utf8_len_pos c); lia. Qed.
Lemma length_le_blen s : length s <= blen s.
Proof. induction s as [|c s IH]; cbn [length blen]; try lia. pose proof (utf8_len_pos c); lia. Qed.

Lemma split_bytes_app a b : split_bytes (a ++ b) (blen a) = Some (a, b).
Proof.
  induction a as [|c a IH]; cbn [app blen]; [destruct b; reflexivity|].
  pose proof (utf8_len_pos c) as Hc.
  remember (utf8_len c + blen a) as n eqn:En. destruct n as [|n]; [lia|].
  cbn [split_bytes]. rewrite En. replace (utf8_len c <=? utf8_len c + blen a) with true by lia.
  replace (utf8_len c + blen a - utf8_len c) with (blen a) by lia. rewrite IH. reflexivity.
Qed.
Lemma split_bytes_spec s n a b : split_bytes s n = Some (a, b) <-> s = a ++ b /\ blen a = n.
Proof.
  split.
  - revert n a b; induction s as [|c s IH]; intros n a b; destruct n as [|n]; cbn [split_bytes].
    + intros [= <- <-]; auto.
    + discriminate.
    + intros [= <- <-]; auto.
    + destruct (Nat.leb_spec (utf8_len c) (S n)); [|discriminate].
      destruct (split_bytes s (S n - utf8_len c)) as [[a' b']|] eqn:E; [|discriminate].
      intros [= <- <-]. apply IH in E as [-> E]. cbn [app blen]. split; auto; lia.
  - intros [-> <-]. apply split_bytes_app.
Qed.
Lemma split_bytes_0 s : split_bytes s 0 = Some ([], s).
Proof. destruct s; reflexivity. Qed.
Lemma split_bytes_ascii s n : forallb is_ascii s = true -> n <= length s ->
  split_bytes s n = Some (firstn n s, skipn n s).
Proof.
  intros Ha Hn. apply split_bytes_spec. split; [symmetry; apply firstn_skipn|].
  rewrite blen_ascii, firstn_length_le; auto.
  rewrite forallb_forall in *. intros x Hx. apply Ha. rewrite <- (firstn_skipn n s). apply in_or_app; auto.
Qed.

Lemma forallb_app' {A} (f : A -> bool) a b : forallb f (a ++ b) = forallb f a && forallb f b.
Proof. apply forallb_app. Qed.
Lemma forallb_firstn {A} (f : A -> bool) n l : forallb f l = true -> forallb f (firstn n l) = true.
Proof.
  revert n; induction l as [|x l IH]; intros [|n]; cbn; auto.
  rewrite !andb_true_iff. intros [H1 H2]; auto.
Qed.
Lemma forallb_rev {A} (f : A -> bool) l : forallb f (rev l) = forallb f l.
Proof. induction l as [|x l IH]; cbn [rev forallb]; auto. rewrite forallb_app, IH. cbn. rewrite andb_true_r. apply andb_comm. Qed.
Lemma forallb_impl {A} (f g : A -> bool) l : (forall x, f x = true -> g x = true) -> forallb f l = true -> forallb g l = true.
Proof. intros H. rewrite !forallb_forall. auto. Qed.

(** Decimal spellings *)
Lemma uint_str_digits d : forallb is_ascii_digit (uint_str d) = true.
Proof. induction d; cbn [uint_str forallb]; rewrite ?IHd; reflexivity. Qed.
Lemma uint_str_inj d e : uint_str d = uint_str e -> d = e.
Proof.
  revert e; induction d; intros e H; destruct e; cbn [uint_str] in H; try discriminate H; auto;
    injection H as H; f_equal; auto.
Qed.
Lemma dec_digits n : forallb is_ascii_digit (dec n) = true.
Proof. apply uint_str_digits. Qed.
Lemma dec_inj n m : dec n = dec m -> n = m.
Proof. intros H. apply uint_str_inj in H. apply DecimalN.Unsigned.to_uint_inj in H. auto. Qed.
Lemma digit_is_ascii c : is_ascii_digit c = true -> is_ascii c = true.
Proof. unfold is_ascii_digit, in_range, is_ascii. lia. Qed.
Lemma dec_ascii n : forallb is_ascii (dec n) = true.
Proof. eapply forallb_impl; [apply digit_is_ascii | apply dec_digits]. Qed.

Lemma uint_str_app_revapp d e : uint_str (Decimal.revapp d e) = rev (uint_str d) ++ uint_str e.
Proof.
  revert e; induction d; intros e; cbn [Decimal.revapp uint_str rev app]; auto; rewrite IHd; cbn [uint_str];
    rewrite <- app_assoc; reflexivity.
Qed.
Lemma uint_str_rev d : uint_str (Decimal.rev d) = rev (uint_str d).
Proof. unfold Decimal.rev. rewrite uint_str_app_revapp. cbn. apply app_nil_r. Qed.

(** Little-endian digits and their length under successor. *)
Lemma dec_le n : dec n = rev (uint_str (DecimalPos.Unsigned.to_lu n)).
Proof.
  unfold dec. rewrite <- uint_str_rev. f_equal. destruct n as [|p]; reflexivity.
Qed.
Definition is_nine (c : char) : bool := (c =? 57)%N.
Lemma little_succ_length d :
  length (uint_str (Decimal.Little.succ d))
  = if forallb is_nine (uint_str d) then S (length (uint_str d)) else length (uint_str d).
Proof.
  induction d; cbn [Decimal.Little.succ uint_str length forallb]; auto.
  rewrite IHd. cbn [is_nine andb]. change (is_nine 57) with true. cbn [andb].
  destruct (forallb is_nine (uint_str d)); reflexivity.
Qed.
Lemma dec_succ_length n :
  length (dec (N.succ n)) = if forallb is_nine (dec n) then S (length (dec n)) else length (dec n).
Proof.
  rewrite !dec_le, !rev_length, forallb_rev, DecimalPos.Unsigned.to_lu_succ. apply little_succ_length.
Qed.
Lemma dec_nonempty n : dec n <> [].
Proof.
  unfold dec. destruct (N.to_uint n) eqn:E; cbn [uint_str]; try discriminate.
  intros _. pose proof (DecimalN.Unsigned.of_to n) as H. rewrite E in H. cbn in H. subst n. discriminate E.
Qed.

(** Trimming *)
Lemma take_drop_while f s : take_while f s ++ drop_while f s = s.
Proof. induction s as [|c s IH]; cbn; auto. destruct (f c); cbn; congruence. Qed.
Lemma take_while_all f s : forallb f (take_while f s) = true.
Proof. induction s as [|c s IH]; cbn; auto. destruct (f c) eqn:E; cbn; auto. rewrite E; auto. Qed.
Lemma drop_while_head f s c t : drop_while f s = c :: t -> f c = false.
Proof. induction s as [|x s IH]; cbn; [discriminate|]. destruct (f x) eqn:E; auto. intros [= -> ->]; auto. Qed.
Lemma drop_while_app_all f a b : forallb f a = true -> drop_while f (a ++ b) = drop_while f b.
Proof. induction a as [|x a IH]; cbn; auto. destruct (f x); cbn; auto. discriminate. Qed.
Lemma drop_while_all_nil f s : forallb f s = true -> drop_while f s = [].
Proof. induction s as [|x s IH]; cbn; auto. destruct (f x); cbn; auto. discriminate. Qed.
Lemma drop_while_nil_all f s : drop_while f s = [] -> forallb f s = true.
Proof. induction s as [|x s IH]; cbn; auto. destruct (f x); cbn; auto. discriminate. Qed.
Lemma drop_while_id f s : (forall c t, s = c :: t -> f c = false) -> drop_while f s = s.
Proof. destruct s as [|x s]; cbn; auto. intros H. rewrite (H x s eq_refl); auto. Qed.
Lemma drop_while_idem f s : drop_while f (drop_while f s) = drop_while f s.
Proof. apply drop_while_id. apply drop_while_head. Qed.

(** [trim_end_by f s] is the unique decomposition of [s] into a stem not ending in [f] and an [f]-tail. *)
Lemma trim_end_by_spec f s : exists w, s = trim_end_by f s ++ w /\ forallb f w = true.
Proof.
  exists (rev (take_while f (rev s))). unfold trim_end_by. rewrite <- rev_app_distr, take_drop_while, rev_involutive.
  split; auto. rewrite forallb_rev. apply take_while_all.
Qed.
Lemma trim_end_by_last f s a c : trim_end_by f s = a ++ [c] -> f c = false.
Proof.
  unfold trim_end_by. intros H. apply (f_equal (@rev N)) in H. rewrite rev_involutive, rev_app_distr in H.
  cbn in H. eapply drop_while_head; eauto.
Qed.
Lemma trim_end_by_app f s w : forallb f w = true -> trim_end_by f (s ++ w) = trim_end_by f s.
Proof. intros H. unfold trim_end_by. rewrite rev_app_distr, drop_while_app_all; auto. rewrite forallb_rev; auto. Qed.
Lemma trim_end_by_id f s : (forall a c, s = a ++ [c] -> f c = false) -> trim_end_by f s = s.
Proof.
  intros H. unfold trim_end_by. rewrite drop_while_id, rev_involutive; auto.
  intros c t E. apply (H (rev t) c). rewrite <- (rev_involutive s), E. reflexivity.
Qed.

Lemma strip_prefix_spec p s t : strip_prefix p s = Some t <-> s = p ++ t.
Proof.
  revert s t; induction p as [|x p IH]; intros s t; cbn [strip_prefix app].
  - split; congruence.
  - destruct s as [|y s]; [split; [discriminate|intros H; discriminate H]|].
    destruct (N.eqb_spec x y); [subst|split; congruence]. rewrite IH. split; congruence.
Qed.

Lemma Forall2_len {A B} (R : A -> B -> Prop) l m : Forall2 R l m -> length l = length m.
Proof. induction 1; cbn; congruence. Qed.
Lemma skipn_skipn {A} (l : list A) a b : skipn a (skipn b l) = skipn (a + b) l.
Proof. revert b; induction l as [|x l IH]; intros b; [now rewrite !skipn_nil|]. destruct b; [now rewrite Nat.add_0_r|]. rewrite Nat.add_succ_r. apply IH. Qed.
