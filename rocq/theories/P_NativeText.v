(** Proofs about the native functions on integers and strings (C49, C52). *)
From Verif Require Import Base BaseFacts M_Names M_Html M_Tokenizer P_Tokenizer M_Types M_Token M_Diag M_Ast M_Int M_Value M_State M_Binder M_Native S_Native.

(** *** Splitting *)
Lemma strip_prefix_app p : forall t, strip_prefix p (p ++ t) = Some t.
Proof. induction p as [|c p IH]; intros t; cbn; [reflexivity|]. rewrite N.eqb_refl. apply IH. Qed.
Lemma starts_with_spec p s : starts_with p s = true <-> exists t, s = p ++ t.
Proof. split; [apply starts_with_inv|]. intros [t ->]. unfold starts_with. rewrite strip_prefix_app. reflexivity. Qed.
Lemma ends_with_spec p s : ends_with p s = true <-> exists t, s = t ++ p.
Proof.
  unfold ends_with. rewrite starts_with_spec. split; intros [t H].
  - exists (rev t). rewrite <- (rev_involutive s), H, rev_app_distr, rev_involutive. reflexivity.
  - exists (rev t). rewrite H. apply rev_app_distr.
Qed.
Lemma occurs_zero p s : OccursAt p s 0 <-> exists t, s = p ++ t.
Proof.
  split.
  - intros (a & b & -> & Ha). destruct a; [|discriminate]. exists b. reflexivity.
  - intros [t ->]. exists [], t. auto.
Qed.
Lemma occurs_succ p c s i : OccursAt p (c :: s) (S i) <-> OccursAt p s i.
Proof.
  split.
  - intros (a & b & E & Ha). destruct a as [|x a]; [discriminate|]. cbn in E, Ha. injection E as -> ->. exists a, b. split; [reflexivity|lia].
  - intros (a & b & -> & Ha). exists (c :: a), b. split; [reflexivity|]. cbn. lia.
Qed.
Lemma split_skip p s : forall k, split_on p k s = split_on p 0 (skipn k s).
Proof. induction s as [|c s IH]; intros [|k]; try reflexivity. cbn [split_on skipn]. apply IH. Qed.
Lemma split_by_cons p c s x xs : ~ OccursAt p (c :: s) 0 -> SplitBy p s (x :: xs) -> SplitBy p (c :: s) ((c :: x) :: xs).
Proof.
  intros H0 H. inversion H as [s' Hn E1 [E2 E3]|a s' parts Hn Hs E1 [E2 E3]]; subst.
  - constructor. intros [|i] Ho; [exact (H0 Ho)|]. apply (proj1 (occurs_succ _ _ _ _)) in Ho. exact (Hn i Ho).
  - apply (SB_more p (c :: x) s' xs); [|exact Hs].
    intros [|i] Ho; [destruct (H0 Ho)|]. cbn [app] in Ho. apply (proj1 (occurs_succ _ _ _ _)) in Ho. apply Hn in Ho. cbn. lia.
Qed.
Lemma split_by_nonempty p s parts : SplitBy p s parts -> parts <> [].
Proof. intros H. inversion H; discriminate. Qed.
Lemma split_on_spec p : p <> [] -> forall n s, length s <= n -> SplitBy p s (split_on p 0 s).
Proof.
  intros Hp. induction n as [|n IH]; intros s Hs.
  - destruct s; [|cbn in Hs; lia]. cbn. constructor. intros i (a & b & E & _).
    destruct a; [|discriminate]. destruct p; [congruence|discriminate].
  - destruct s as [|c t].
    + cbn. constructor. intros i (a & b & E & _). destruct a; [|discriminate]. destruct p; [congruence|discriminate].
    + cbn [split_on]. destruct (starts_with p (c :: t)) eqn:E.
      * apply starts_with_spec in E. destruct E as [r E]. rewrite split_skip.
        assert (Er : skipn (length p - 1) t = r).
        { destruct p as [|q p]; [congruence|]. cbn in E |- *. injection E as _ ->. rewrite Nat.sub_0_r, skipn_app, skipn_all, Nat.sub_diag. reflexivity. }
        rewrite Er, E. apply (SB_more p [] r); [intros; cbn; lia|]. apply IH.
        apply (f_equal (@length N)) in E. rewrite app_length in E. destruct p; [congruence|]. cbn in E, Hs. lia.
      * assert (Ht : SplitBy p t (split_on p 0 t)) by (apply IH; cbn in Hs; lia).
        destruct (split_on p 0 t) as [|x xs] eqn:Es; [destruct (split_by_nonempty _ _ _ Ht eq_refl)|].
        apply split_by_cons; [|exact Ht]. rewrite occurs_zero, <- starts_with_spec. congruence.
Qed.
Lemma split_by_unique p : p <> [] -> forall s parts, SplitBy p s parts -> forall parts', SplitBy p s parts' -> parts = parts'.
Proof.
  intros Hp s parts H. induction H as [s Hn|a s parts Hn Hs IH]; intros parts' H'.
  - inversion H' as [s' Hn' E1 E2|a' s' q Hn' Hs' E1 E2]; subst; [reflexivity|].
    destruct (Hn (length a')). exists a', s'. auto.
  - remember (a ++ p ++ s) as whole eqn:Ew. destruct H' as [s' Hn'|a' s' q Hn' Hs'].
    + destruct (Hn' (length a)). exists a, s. auto.
    + assert (El : length a = length a').
      { apply Nat.le_antisymm; [apply Hn|apply Hn'].
        - exists a', s'. rewrite Ew. auto.
        - exists a, s. split; [exact Ew|reflexivity]. }
      assert (Ea : a' = a /\ p ++ s' = p ++ s).
      { clear - El Ew. revert a' El Ew. induction a as [|x a IHa]; intros [|y a'] El Ew; cbn in *; try discriminate; [auto|].
        injection Ew as -> Ew. destruct (IHa a' ltac:(lia) Ew) as [-> H]. auto. }
      destruct Ea as [-> Ea]. apply app_inv_head in Ea. subst s'. f_equal. apply IH, Hs'.
Qed.

(** *** Reading integers *)
Lemma digits_value_spec s : forall acc n,
  digits_value s acc = Some n <->
  Forall (fun d => (48 <= d <= 57)%N) s /\ n = (acc * 10 ^ Z.of_nat (length s) + numeral s)%Z.
Proof.
  induction s as [|c s IH]; intros acc n.
  - cbn. rewrite Z.mul_1_r, Z.add_0_r. split; [intros E; injection E as ->; auto|intros [_ ->]; reflexivity].
  - cbn [digits_value numeral length]. rewrite Nat2Z.inj_succ, Z.pow_succ_r by lia.
    destruct (is_ascii_digit c) eqn:Ed; unfold is_ascii_digit, in_range in Ed.
    + rewrite IH. split.
      * intros [Hf ->]. split; [constructor; [lia|exact Hf]|]. ring.
      * intros [Hf ->]. inversion_clear Hf. split; [assumption|]. ring.
    + split; [discriminate|]. intros [Hf _]. inversion_clear Hf. lia.
Qed.
Lemma i64_ok_spec z : i64_ok z = true <-> Int64 z.
Proof. unfold i64_ok, Int64. change (2 ^ 63)%Z with 9223372036854775808%Z. lia. Qed.
Lemma parse_i64_spec s i : parse_i64 s = Some i <-> Denotes s i /\ Int64 i.
Proof.
  unfold parse_i64. split.
  - intros H.
    assert (exists neg ds, (match s with
                    | c :: t => if (c =? 45)%N then (true, t) else if (c =? 43)%N then (false, t) else (false, s)
                    | [] => (false, s)
                    end) = (neg, ds) /\
       (s = ds /\ neg = false \/ s = 43%N :: ds /\ neg = false \/ s = 45%N :: ds /\ neg = true)) as (neg & ds & E & Hs).
    { destruct s as [|c t]; [exists false, []; auto|].
      destruct (c =? 45)%N eqn:E1; [apply N.eqb_eq in E1; subst; exists true, t; auto|].
      destruct (c =? 43)%N eqn:E2; [apply N.eqb_eq in E2; subst; exists false, t; auto|]. exists false, (c :: t). auto. }
    rewrite E in H. destruct ds as [|d ds]; [discriminate|].
    destruct (digits_value (d :: ds) 0) as [n|] eqn:Ev; [|discriminate]. apply digits_value_spec in Ev. destruct Ev as [Hf En].
    cbv zeta in H. destruct (i64_ok (if neg then (- n)%Z else n)) eqn:Eo; [|discriminate]. injection H as <-. apply i64_ok_spec in Eo.
    split; [|exact Eo]. exists (d :: ds). split; [split; [discriminate|exact Hf]|].
    rewrite Z.mul_0_l, Z.add_0_l in En. subst n.
    destruct Hs as [[-> ->] | [[-> ->] | [-> ->]]]; auto.
  - intros [(ds & [Hne Hf] & Hs) Hi].
    assert (Hv : digits_value ds 0 = Some (numeral ds)).
    { apply digits_value_spec. split; [exact Hf|]. rewrite Z.mul_0_l. reflexivity. }
    apply i64_ok_spec in Hi.
    destruct Hs as [[-> ->] | [[-> ->] | [-> ->]]].
    + destruct ds as [|d ds]; [congruence|]. assert (Hd : (48 <= d <= 57)%N) by (inversion_clear Hf; assumption).
      replace (d =? 45)%N with false by lia. replace (d =? 43)%N with false by lia. rewrite Hv. cbv zeta. rewrite Hi. reflexivity.
    + cbn. destruct ds as [|d ds]; [congruence|]. rewrite Hv, Hi. reflexivity.
    + cbn. destruct ds as [|d ds]; [congruence|]. rewrite Hv, Hi. reflexivity.
Qed.
Lemma denotes_unique s i j : Denotes s i -> Denotes s j -> i = j.
Proof.
  intros (d1 & [N1 F1] & H1) (d2 & [N2 F2] & H2).
  destruct d1 as [|c1 d1]; [congruence|]. destruct d2 as [|c2 d2]; [congruence|].
  assert (48 <= c1 <= 57)%N by (inversion_clear F1; assumption). assert (48 <= c2 <= 57)%N by (inversion_clear F2; assumption).
  destruct H1 as [[-> ->] | [[-> ->] | [-> ->]]]; destruct H2 as [[E ->] | [[E ->] | [E ->]]]; injection E as E1 E2; try lia; subst; reflexivity.
Qed.

(** *** Arithmetic *)
Lemma int64_wrap z : Int64 (i64_wrap z) /\ exists k, i64_wrap z = (z + k * 2 ^ 64)%Z.
Proof.
  unfold Int64, i64_wrap. change (2 ^ 63)%Z with 9223372036854775808%Z. change (2 ^ 64)%Z with 18446744073709551616%Z.
  pose proof (Z.mod_pos_bound (z + 9223372036854775808) 18446744073709551616 ltac:(lia)).
  pose proof (Z.div_mod (z + 9223372036854775808) 18446744073709551616 ltac:(lia)).
  split; [lia|]. exists (- ((z + 9223372036854775808) / 18446744073709551616))%Z. lia.
Qed.
Lemma i64_exact checks z : Int64 z -> i64 checks z = Ret z.
Proof. intros H. unfold i64. rewrite (proj2 (i64_ok_spec z) H). reflexivity. Qed.
Lemma i64_over checks z : ~ Int64 z -> i64 checks z = if checks then Panic else Ret (i64_wrap z).
Proof.
  intros H. unfold i64. destruct (i64_ok z) eqn:E; [|reflexivity]. apply i64_ok_spec in E. contradiction.
Qed.
Lemma wrap_congr a b : (exists k, a = b + k * 2 ^ 64)%Z -> i64_wrap a = i64_wrap b.
Proof.
  intros [k ->]. unfold i64_wrap. replace (b + k * 2 ^ 64 + 2 ^ 63)%Z with (b + 2 ^ 63 + k * 2 ^ 64)%Z by ring.
  rewrite Z.mod_add by lia. reflexivity.
Qed.
Lemma wrap_same z : Int64 z -> i64_wrap z = z.
Proof.
  unfold Int64, i64_wrap. change (2 ^ 63)%Z with 9223372036854775808%Z. change (2 ^ 64)%Z with 18446744073709551616%Z.
  intros H. rewrite Z.mod_small; lia.
Qed.
Lemma i64_unchecked z : i64 false z = Ret (i64_wrap z).
Proof.
  unfold i64. destruct (i64_ok z) eqn:E; [|reflexivity]. apply i64_ok_spec in E. rewrite wrap_same by exact E. reflexivity.
Qed.
Section Sum.
  Variable X : externals.
  Lemma sum_unchecked l : x_checks X = false -> forall acc, Int64 acc -> sum_ints X l acc = Ret (i64_wrap (acc + sum l)).
  Proof.
    intros Hx. induction l as [|x l IH]; intros acc Ha; cbn [sum_ints sum].
    - rewrite Z.add_0_r, wrap_same by exact Ha. reflexivity.
    - rewrite Hx, i64_unchecked. cbn [obind]. rewrite IH by apply int64_wrap. f_equal. apply wrap_congr.
      destruct (int64_wrap (acc + x)) as [_ [k ->]]. exists k. ring.
  Qed.
  (** the sums of the first few numbers *)
  Lemma sum_checked l : x_checks X = true -> forall acc,
    (forall i, 0 < i -> i <= length l -> Int64 (acc + sum (firstn i l))) ->
    sum_ints X l acc = Ret (acc + sum l)%Z.
  Proof.
    intros Hx. induction l as [|x l IH]; intros acc Ha; cbn [sum_ints sum].
    - rewrite Z.add_0_r. reflexivity.
    - rewrite Hx. pose proof (Ha 1 ltac:(lia) ltac:(cbn; lia)) as H1. cbn in H1. rewrite Z.add_0_r in H1.
      rewrite i64_exact by exact H1. cbn [obind]. rewrite IH; [f_equal; ring|].
      intros i Hi Hl. specialize (Ha (S i) ltac:(lia) ltac:(cbn; lia)). cbn in Ha. rewrite Z.add_assoc in Ha. exact Ha.
  Qed.
  Lemma sum_panics l : x_checks X = true -> forall acc i,
    0 < i -> i <= length l -> ~ Int64 (acc + sum (firstn i l)) -> sum_ints X l acc = Panic.
  Proof.
    intros Hx. induction l as [|x l IH]; intros acc i Hi Hl Hn; cbn [length] in Hl; [lia|]. cbn [sum_ints]. rewrite Hx.
    destruct (i64_ok (acc + x)) eqn:E.
    - apply i64_ok_spec in E. rewrite i64_exact by exact E. cbn [obind]. destruct i as [|i]; [lia|]. cbn in Hn.
      destruct i as [|i]; [cbn in Hn; rewrite Z.add_0_r in Hn; contradiction|].
      apply (IH (acc + x)%Z (S i)); [lia|lia|]. rewrite Z.add_assoc in Hn. exact Hn.
    - rewrite i64_over; [reflexivity|]. rewrite <- i64_ok_spec. congruence.
  Qed.
  Lemma enumerate_exact vs from : forall i, (forall j, j < length vs -> Int64 (from + Z.of_nat (i + j))) ->
    enumerate_list X vs i from =
    Ret (List.map (fun jv => VList [VInt (from + Z.of_nat (fst jv)); snd jv]) (combine (seq i (length vs)) vs)).
  Proof.
    induction vs as [|v vs IH]; intros i H; cbn [enumerate_list length seq combine List.map]; [reflexivity|].
    pose proof (H 0 ltac:(cbn; lia)) as H0. rewrite Nat.add_0_r in H0. rewrite i64_exact by (rewrite Z.add_comm; exact H0). cbn [obind].
    rewrite IH; [cbn [obind fst snd]; rewrite (Z.add_comm from); reflexivity|].
    intros j Hj. specialize (H (S j) ltac:(cbn; lia)). replace (S i + j) with (i + S j) by lia. exact H.
  Qed.
  Lemma enumerate_over vs from : forall i j, j < length vs -> ~ Int64 (from + Z.of_nat (i + j)) -> x_checks X = true ->
    enumerate_list X vs i from = Panic.
  Proof.
    induction vs as [|v vs IH]; intros i j Hj Hn Hx; cbn [length] in Hj; [lia|]. cbn [enumerate_list]. rewrite Hx.
    destruct (i64_ok (Z.of_nat i + from)) eqn:E.
    - destruct j as [|j].
      + rewrite Nat.add_0_r, Z.add_comm in Hn. apply i64_ok_spec in E. contradiction.
      + unfold i64. rewrite E. cbn [obind]. rewrite (IH (S i) j); [reflexivity|lia| |exact Hx].
        replace (S i + j) with (i + S j) by lia. exact Hn.
    - unfold i64. rewrite E. reflexivity.
  Qed.
End Sum.
