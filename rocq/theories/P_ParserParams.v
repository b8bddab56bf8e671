(** The checks on the parameters of a function. *)
From Verif Require Import Base BaseFacts M_Text M_Names M_Token M_Types M_Diag M_Queue M_Ast M_Parser.
From Verif Require Import S_Front S_Grammar P_ParserW P_ParserCheck.

(** positional, positional spread, named, named spread *)
Definition cls (r : raw) : nat :=
  let '(_, k, u) := r in match k with PosSpread => 1 | NamedSpread => 3 | NoSpread => if u : bool then 0 else 2 end.
Definition under (r : raw) : bool := snd r.
Definition opt_b (r : raw) : bool := let '(Param _ q _ _ d, _, _) := r in q || is_some d.
Lemma opt_spec r : opt_b r = true <-> Optional_ r.
Proof.
  destruct r as [[[n q i t d] k] u]. cbn. rewrite orb_true_iff. destruct d; cbn; intuition congruence.
Qed.
Lemma opt_false r : opt_b r = false <-> ~ Optional_ r.
Proof. rewrite <- opt_spec. destruct (opt_b r); intuition congruence. Qed.
Definition has (f : raw -> bool) (l : list raw) : bool := existsb f l.
Definition count (k : nat) (l : list raw) : nat := length (filter (fun r => cls r =? k) l).
Definition st (l : list raw) : sigst :=
  SigSt (has (fun r => 2 <=? cls r) l) (List.map raw_name l) (has (fun r => opt_b r && (cls r =? 0)) l)
    (has (fun r => opt_b r && (cls r =? 2)) l) (count 0 l) (has (fun r => cls r =? 1) l) (count 2 l) (has (fun r => cls r =? 3) l).
(** whether [r] may follow [l] *)
Definition StepOk (l : list raw) (r : raw) : Prop :=
  ~ In (raw_name r) (List.map raw_name l) /\
  (cls r <= 1 -> forall x, In x l -> cls x = 0) /\ (forall x, In x l -> cls x <> 3) /\
  (cls r = 0 \/ cls r = 2 -> opt_b r = false -> forall x, In x l -> cls x = cls r -> opt_b x = false) /\
  (raw_implicit r = true -> cls r = 2 /\ raw_default r = None) /\
  (cls r = 1 -> under r = true) /\ (cls r = 3 -> under r = false).
Inductive OkL : list raw -> Prop :=
| okl_nil : OkL []
| okl_snoc l r : OkL l -> StepOk l r -> OkL (l ++ [r]).
Lemma okl_inv l r : OkL (l ++ [r]) -> OkL l /\ StepOk l r.
Proof.
  intros H. inversion H as [E|l' r' H1 H2 E].
  - destruct l; discriminate.
  - apply app_inj_tail in E as [-> ->]. auto.
Qed.

Lemma check_total r s : exists s' ds, forall x, check_param r s x = POk s' (PState (ps_tokens x) (ps_diags x ++ ds)).
Proof.
  destruct r as [[[n q i t d] k] u], s as [an used ao aon np sp nn sn]. unfold check_param. cbv zeta.
  match goal with |- context [pbind (if mem n used then _ else _) _] => idtac end.
  match goal with |- exists s' ds, forall x, pbind ?m ?f x = _ => assert (exists ds, forall x, m x = POk tt (PState (ps_tokens x) (ps_diags x ++ ds))) as [ds1 E1] end.
  { repeat match goal with |- context [if ?b then _ else _] => destruct b end; (exists []; intros x; rewrite app_nil_r; destruct x; reflexivity) || (eexists [_]; intros x; reflexivity). }
  unfold pbind at 1. setoid_rewrite E1. clear E1.
  destruct k, u; cbn;
    repeat match goal with
    | |- exists s' ds, forall x, pret ?a _ = _ => exists a, ds1; intros x; reflexivity
    | |- exists s' ds, forall x, pbind (pret tt) (fun _ => pret ?a) _ = _ => exists a, ds1; intros x; reflexivity
    | |- exists s' ds, forall x, pbind (serr ?e) (fun _ => pret ?a) _ = _ => exists a, (ds1 ++ [SyntaxErr e]); intros x; cbn; rewrite app_assoc; reflexivity
    end; eexists _, _; intros x; unfold pbind, pret, serr, preport; cbn; try rewrite <- app_assoc; reflexivity.
Qed.
Lemma has_snoc f l r : has f (l ++ [r]) = has f l || f r.
Proof. unfold has. rewrite existsb_app. cbn. rewrite orb_false_r. auto. Qed.
Lemma count_snoc k l r : count k (l ++ [r]) = (if cls r =? k then S (count k l) else count k l).
Proof. unfold count. rewrite filter_app, app_length. cbn. destruct (cls r =? k); cbn; lia. Qed.
Lemma has_false f l : has f l = false <-> forall x, In x l -> f x = false.
Proof.
  unfold has. split.
  - intros H x Hx. destruct (f x) eqn:E; auto. assert (existsb f l = true) by (apply existsb_exists; eauto). congruence.
  - intros H. destruct (existsb f l) eqn:E; auto. apply existsb_exists in E as (x & Hx & E). rewrite H in E; auto.
Qed.
Lemma st_snoc l r : ~ In (raw_name r) (List.map raw_name l) -> st (l ++ [r]) =
  SigSt (has (fun r => 2 <=? cls r) l || (2 <=? cls r)) (set_add (raw_name r) (List.map raw_name l))
    (has (fun r => opt_b r && (cls r =? 0)) l || (opt_b r && (cls r =? 0)))
    (has (fun r => opt_b r && (cls r =? 2)) l || (opt_b r && (cls r =? 2)))
    (if cls r =? 0 then S (count 0 l) else count 0 l) (has (fun r => cls r =? 1) l || (cls r =? 1))
    (if cls r =? 2 then S (count 2 l) else count 2 l) (has (fun r => cls r =? 3) l || (cls r =? 3)).
Proof.
  intros N. unfold st. rewrite !has_snoc, !count_snoc, map_app. cbn [List.map]. unfold set_add.
  apply mem_not_In in N. rewrite N. auto.
Qed.
Definition step_ok_b (l : list raw) (r : raw) : bool :=
  negb (mem (raw_name r) (List.map raw_name l)) &&
  (if cls r <=? 1 then negb (has (fun r => 2 <=? cls r) l) && negb (has (fun r => cls r =? 1) l) else true) &&
  negb (has (fun r => cls r =? 3) l) &&
  (if (cls r =? 0) && negb (opt_b r) then negb (has (fun r => opt_b r && (cls r =? 0)) l) else true) &&
  (if (cls r =? 2) && negb (opt_b r) then negb (has (fun r => opt_b r && (cls r =? 2)) l) else true) &&
  (if raw_implicit r then (cls r =? 2) && negb (is_some (raw_default r)) else true) &&
  (if cls r =? 1 then under r else true) && (if cls r =? 3 then negb (under r) else true).
Lemma cls_bound r : cls r <= 3.
Proof. destruct r as [[p k] u]. cbn. destruct k, u; lia. Qed.
Lemma step_ok_spec l r : step_ok_b l r = true <-> StepOk l r.
Proof.
  unfold step_ok_b, StepOk. rewrite !andb_true_iff, !negb_true_iff, mem_not_In. 
  rewrite (has_false (fun r => cls r =? 3)).
  split.
  - intros [[[[[[[H1 H2] H3] H4] H5] H6] H7] H8]. split; [auto|]. split; [|split; [|split; [|split; [|split]]]].
    + intros L x Hx. rewrite (proj2 (Nat.leb_le _ _) L) in H2. rewrite andb_true_iff, !negb_true_iff, !has_false in H2.
      destruct H2 as [A B]. specialize (A x Hx). specialize (B x Hx). apply Nat.leb_gt in A. apply Nat.eqb_neq in B. lia.
    + intros x Hx. specialize (H3 x Hx). apply Nat.eqb_neq in H3. auto.
    + intros C O x Hx E. destruct C as [C|C]; rewrite C in *; cbn in *; rewrite O in *; cbn in *.
      * apply negb_true_iff in H4. rewrite has_false in H4. specialize (H4 x Hx). rewrite E in H4. cbn in H4. rewrite andb_true_r in H4. auto.
      * apply negb_true_iff in H5. rewrite has_false in H5. specialize (H5 x Hx). rewrite E in H5. cbn in H5. rewrite andb_true_r in H5. auto.
    + intros I. rewrite I in H6. apply andb_true_iff in H6 as [A B]. apply Nat.eqb_eq in A. split; auto. destruct (raw_default r); auto. discriminate.
    + intros C. rewrite C in H7. auto.
    + intros C. rewrite C in H8. apply negb_true_iff in H8. auto.
  - intros (H1 & H2 & H3 & H4 & H5 & H6 & H7). repeat split; auto.
    + destruct (cls r <=? 1) eqn:L; auto. apply Nat.leb_le in L. rewrite andb_true_iff, !negb_true_iff, !has_false.
      split; intros x Hx; rewrite (H2 L x Hx); auto.
    + intros x Hx. apply Nat.eqb_neq; auto.
    + destruct (cls r =? 0) eqn:C; auto. apply Nat.eqb_eq in C. cbn. destruct (opt_b r) eqn:O; auto. cbn.
      apply negb_true_iff. rewrite has_false. intros x Hx. destruct (cls x =? 0) eqn:Cx; [|apply andb_false_r]. apply Nat.eqb_eq in Cx.
      rewrite (H4 (or_introl C) eq_refl x Hx); auto. congruence.
    + destruct (cls r =? 2) eqn:C; auto. apply Nat.eqb_eq in C. cbn. destruct (opt_b r) eqn:O; auto. cbn.
      apply negb_true_iff. rewrite has_false. intros x Hx. destruct (cls x =? 2) eqn:Cx; [|apply andb_false_r]. apply Nat.eqb_eq in Cx.
      rewrite (H4 (or_intror C) eq_refl x Hx); auto. congruence.
    + destruct (raw_implicit r); auto. destruct (H5 eq_refl) as [-> ->]. auto.
    + destruct (cls r =? 1) eqn:C; auto. apply Nat.eqb_eq in C. auto.
    + destruct (cls r =? 3) eqn:C; auto. apply Nat.eqb_eq in C. rewrite (H7 C). auto.
Qed.
Lemma checks_bool {A} (m : PM A) (b : bool) (a : A) (R : A -> Prop) :
  (exists a' ds, (forall x, m x = POk a' (PState (ps_tokens x) (ps_diags x ++ ds))) /\ clean_b ds = b /\ (b = true -> a' = a)) ->
  (forall a', R a' <-> b = true /\ a' = a) -> Checks m R.
Proof.
  intros (a' & ds & E & C & U) H. exists a', ds. split; auto. split.
  - intros C'. apply H. rewrite <- C. split; auto. apply U. congruence.
  - intros a2 X. apply H in X as [X ->]. split; [congruence|auto].
Qed.
Lemma check_param_spec l r : Checks (check_param r (st l)) (fun s' => StepOk l r /\ s' = st (l ++ [r])).
Proof.
  apply checks_bool with (b := step_ok_b l r) (a := st (l ++ [r])).
  2: { intros a'. rewrite step_ok_spec. tauto. }
  destruct (mem (raw_name r) (List.map raw_name l)) eqn:M.
  - assert (step_ok_b l r = false) as -> by (unfold step_ok_b; rewrite M; auto).
    destruct (check_total r (st l)) as (s' & ds & E). exists s', ds. split; auto. split; [|discriminate].
    specialize (E (PState [] [])). destruct r as [[[n q i t d] k] u]. cbn in M. unfold check_param, st in E. rewrite M in E.
    unfold pbind at 1 in E. cbn in E. destruct k, u; cbn in E; injection E as _ <-; reflexivity.
  - rewrite st_snoc by (apply mem_not_In; auto). unfold st, step_ok_b. rewrite M.
    assert (has (fun r => cls r =? 3) l = true -> has (fun r => 2 <=? cls r) l = true) as H3.
    { unfold has. intros H. apply existsb_exists in H as (x & Hx & E). apply existsb_exists. exists x. split; auto.
      apply Nat.eqb_eq in E. rewrite E. auto. }
    revert H3.
    generalize (has (fun r => 2 <=? cls r) l) (has (fun r => opt_b r && (cls r =? 0)) l) (has (fun r => opt_b r && (cls r =? 2)) l)
      (has (fun r => cls r =? 1) l) (has (fun r => cls r =? 3) l) (count 0 l) (count 2 l).
    intros b1 b2 b3 b4 b5 n0 n2 H3. destruct r as [[[n q i t d] k] u]. cbn [raw_name] in *. unfold check_param. cbn zeta. rewrite M.
    assert (b5 = false \/ b5 = true /\ b1 = true) as [->|[-> ->]] by (destruct b5; auto);
    clear H3 M; generalize (set_add n (map raw_name l)); intros used; destruct k, u, q, i, d as [d|]; cbn [cls opt_b under raw_implicit raw_default snd is_some orb andb negb Nat.eqb Nat.leb];
      repeat match goal with |- context [?b || _] => is_var b; destruct b | |- context [if ?b then _ else _] => is_var b; destruct b end;
      cbn [orb andb negb];
      (eexists _, []; split; [intros x; unfold pbind, pret; rewrite app_nil_r; destruct x; reflexivity|split; [reflexivity|intros _; reflexivity]])
      || (eexists _, [_]; split; [intros x; reflexivity|split; [reflexivity|discriminate]])
      || (eexists _, [_; _]; split; [intros x; unfold pbind, serr, preport, pret; cbn; rewrite <- app_assoc; reflexivity|split; [reflexivity|discriminate]]).
Qed.
Lemma check_params_total rs : forall s, exists s' ds, forall x, check_params rs s x = POk s' (PState (ps_tokens x) (ps_diags x ++ ds)).
Proof.
  induction rs as [|r rs IH]; intros s; cbn [check_params].
  - exists s, []. intros x. rewrite app_nil_r. destruct x; reflexivity.
  - destruct (check_total r s) as (s1 & ds1 & E1). destruct (IH s1) as (s2 & ds2 & E2). exists s2, (ds1 ++ ds2).
    intros x. unfold pbind. rewrite E1, E2. cbn. rewrite app_assoc. auto.
Qed.
Lemma okl_app l rs : OkL (l ++ rs) -> OkL l.
Proof.
  induction rs as [|r rs IH] using rev_ind.
  - rewrite app_nil_r. auto.
  - rewrite app_assoc. intros H. apply okl_inv in H as [H _]. auto.
Qed.
Lemma check_params_spec rs : forall l, OkL l -> Checks (check_params rs (st l)) (fun s' => OkL (l ++ rs) /\ s' = st (l ++ rs)).
Proof.
  induction rs as [|r rs IH]; intros l O; cbn [check_params].
  - rewrite app_nil_r. apply checks_ret; auto. intros b [_ ->]. auto.
  - destruct (check_param_spec l r) as (s1 & ds1 & E1 & S1 & U1).
    assert (l ++ r :: rs = (l ++ [r]) ++ rs) as Ea by (rewrite <- app_assoc; auto).
    destruct (clean_b ds1) eqn:C.
    + destruct (S1 eq_refl) as [K ->]. destruct (IH (l ++ [r]) (okl_snoc _ _ O K)) as (s2 & ds2 & E2 & S2 & U2).
      exists s2, (ds1 ++ ds2). split; [|split].
      * intros x. unfold pbind. rewrite E1, E2. cbn. rewrite app_assoc. auto.
      * rewrite clean_app, C, Ea. exact S2.
      * rewrite clean_app, C, Ea. exact U2.
    + destruct (check_params_total rs s1) as (s2 & ds2 & E2). exists s2, (ds1 ++ ds2). split; [|split].
      * intros x. unfold pbind. rewrite E1, E2. cbn. rewrite app_assoc. auto.
      * rewrite clean_app, C. discriminate.
      * intros b [H _]. rewrite Ea in H. apply okl_app in H. apply okl_inv in H as [_ K]. destruct (U1 (st (l ++ [r]))); auto. congruence.
Qed.

(** ** The specification *)
Definition of_cls (k : nat) (l : list raw) : list raw := filter (fun r => cls r =? k) l.
Lemma of_cls_snoc k l r : of_cls k (l ++ [r]) = of_cls k l ++ (if cls r =? k then [r] else []).
Proof. unfold of_cls. rewrite filter_app. auto. Qed.
Lemma of_cls_none k l : (forall x, In x l -> cls x <> k) -> of_cls k l = [].
Proof.
  unfold of_cls. induction l as [|x l IH]; intros H; auto. cbn. rewrite (proj2 (Nat.eqb_neq _ _) (H x (or_introl eq_refl))).
  apply IH. intros y Hy. apply H. cbn. auto.
Qed.
Lemma of_cls_all k l : (forall x, In x l -> cls x = k) -> of_cls k l = l.
Proof.
  unfold of_cls. induction l as [|x l IH]; intros H; auto. cbn. rewrite (proj2 (Nat.eqb_eq _ _) (H x (or_introl eq_refl))).
  f_equal. apply IH. intros y Hy. apply H. cbn. auto.
Qed.
Lemma of_cls_in k l x : In x (of_cls k l) <-> In x l /\ cls x = k.
Proof. unfold of_cls. rewrite filter_In, Nat.eqb_eq. tauto. Qed.
Lemma cls_pos r : PositionalParam r <-> cls r = 0.
Proof. destruct r as [[p k] u]. cbn. destruct k, u; intuition congruence. Qed.
Lemma cls_named r : NamedParam r <-> cls r = 2.
Proof. destruct r as [[p k] u]. cbn. destruct k, u; intuition congruence. Qed.
Definition one (l : list raw) : option raw := match l with [] => None | r :: _ => Some r end.
Definition opt (o : option raw) : list raw := match o with Some r => [r] | None => [] end.
Lemma optional_last_snoc l r : OptionalLast (l ++ [r]) <-> OptionalLast l /\ (opt_b r = false -> forall x, In x l -> opt_b x = false).
Proof.
  split.
  - intros (req & o & E & F1 & F2). destruct o as [|x o _] using rev_ind.
    + rewrite app_nil_r in E. subst req. apply Forall_app in F1 as [F1 F3]. split.
      * exists l, []. rewrite app_nil_r. auto.
      * intros _ x Hx. rewrite Forall_forall in F1. apply opt_false. auto.
    + rewrite app_assoc in E. apply app_inj_tail in E as [-> ->]. apply Forall_app in F2 as [F2 F3]. inversion F3; subst. split.
      * exists req, o. auto.
      * intros N. apply opt_false in N. tauto.
  - intros [(req & o & -> & F1 & F2) H]. destruct (opt_b r) eqn:O.
    + exists req, (o ++ [r]). rewrite app_assoc. repeat split; auto. apply Forall_app. split; auto. constructor; auto. apply opt_spec; auto.
    + exists (req ++ o ++ [r]), []. rewrite app_nil_r, app_assoc. repeat split; auto. rewrite <- app_assoc.
      apply Forall_app. split; auto. apply Forall_app. split.
      * rewrite Forall_forall in *. intros x Hx. apply opt_false, H; auto. apply in_or_app; auto.
      * constructor; auto. apply opt_false; auto.
Qed.
Lemma okl_facts l : OkL l ->
  l = of_cls 0 l ++ of_cls 1 l ++ of_cls 2 l ++ of_cls 3 l /\ length (of_cls 1 l) <= 1 /\ length (of_cls 3 l) <= 1 /\
  NoDup (List.map raw_name l) /\ OptionalLast (of_cls 0 l) /\ OptionalLast (of_cls 2 l) /\
  (forall r, In r l -> raw_implicit r = true -> cls r = 2 /\ raw_default r = None) /\
  (forall r, In r l -> cls r = 1 -> under r = true) /\ (forall r, In r l -> cls r = 3 -> under r = false).
Proof.
  induction 1 as [|l r O IH S].
  - assert (OptionalLast []) by (exists [], []; auto). cbn.
    split; [auto|]. split; [auto|]. split; [auto|]. split; [constructor|]. split; [auto|]. split; [auto|]. split; [|split]; intros ? [].
  - destruct IH as (I1 & I2 & I3 & I4 & I5 & I6 & I7 & I8 & I9). destruct S as (S1 & S2 & S3 & S4 & S5 & S6 & S7).
    pose proof (of_cls_none 3 l S3) as E3. rewrite !of_cls_snoc. rewrite E3 in *. rewrite app_nil_r in I1.
    assert (NoDup (List.map raw_name (l ++ [r]))) as ND.
    { rewrite map_app. cbn. apply NoDup_rev in I4. rewrite <- (rev_involutive (_ ++ _)). apply NoDup_rev. rewrite rev_app_distr. cbn.
      constructor; auto. rewrite <- in_rev. auto. }
    assert (forall P : raw -> Prop, (forall x, In x l -> P x) -> P r -> forall x, In x (l ++ [r]) -> P x) as Ext.
    { intros P H1 H2 x Hx. apply in_app_or in Hx as [Hx|[<-|[]]]; auto. }
    split; [|split; [|split; [|split; [|split; [|split; [|split; [|split]]]]]]]; auto;
      try (refine (Ext (fun x => raw_implicit x = true -> cls x = 2 /\ raw_default x = None) _ _); auto; fail);
      try (refine (Ext (fun x => cls x = 1 -> under x = true) _ _); auto; fail);
      try (refine (Ext (fun x => cls x = 3 -> under x = false) _ _); auto; fail).
    + pose proof (cls_bound r) as B. destruct (le_lt_dec (cls r) 1) as [L|L].
      * assert (forall k, k <> 0 -> of_cls k l = []) as Z by (intros k Hk; apply of_cls_none; intros x Hx; rewrite (S2 L x Hx); auto).
        rewrite !(Z 1), !(Z 2) by lia. rewrite (of_cls_all 0) by auto.
        destruct (cls r) as [|[|]] eqn:C; [| |lia]; cbn; rewrite ?app_nil_r; auto.
      * rewrite I1 at 1. destruct (cls r) as [|[|[|[|]]]] eqn:C; try lia; cbn; rewrite ?app_nil_r, <- ?app_assoc; auto.
    + rewrite app_length. destruct (cls r =? 1) eqn:C; cbn; [|lia]. apply Nat.eqb_eq in C.
      rewrite (of_cls_none 1 l); [cbn; lia|]. intros x Hx. rewrite (S2 ltac:(lia) x Hx). lia.
    + cbn. destruct (cls r =? 3); cbn; lia.
    + destruct (cls r =? 0) eqn:C; [|rewrite app_nil_r; auto]. apply Nat.eqb_eq in C. apply optional_last_snoc. split; auto.
      intros N x Hx. apply of_cls_in in Hx as [Hx Ex]. apply S4; auto. congruence.
    + destruct (cls r =? 2) eqn:C; [|rewrite app_nil_r; auto]. apply Nat.eqb_eq in C. apply optional_last_snoc. split; auto.
      intros N x Hx. apply of_cls_in in Hx as [Hx Ex]. apply S4; auto. congruence.
Qed.
Lemma one_opt l : length l <= 1 -> opt (one l) = l.
Proof. destruct l as [|x [|y l]]; cbn; auto. lia. Qed.
Lemma okl_params l : OkL l -> ParamsOk l (of_cls 0 l) (one (of_cls 1 l)) (of_cls 2 l) (one (of_cls 3 l)).
Proof.
  intros O. destruct (okl_facts l O) as (I1 & I2 & I3 & I4 & I5 & I6 & I7 & I8 & I9). unfold ParamsOk.
  change (match one (of_cls 1 l) with Some r => [r] | None => [] end) with (opt (one (of_cls 1 l))).
  change (match one (of_cls 3 l) with Some r => [r] | None => [] end) with (opt (one (of_cls 3 l))).
  rewrite (one_opt _ I2), (one_opt _ I3). split; [auto|]. split; [|split; [|split; [|split; [|split; [|split; [|split; [|split]]]]]]]; auto.
  - apply Forall_forall. intros x Hx. apply of_cls_in in Hx as [_ Hx]. apply cls_pos; auto.
  - intros p k u E. assert (In (p, k, u) (of_cls 1 l)) as Hx by (destruct (of_cls 1 l); [discriminate|injection E as ->; cbn; auto]).
    apply of_cls_in in Hx as [Hx C]. pose proof (I8 _ Hx C) as U. cbn in U, C. destruct k, u; try discriminate; auto.
  - apply Forall_forall. intros x Hx. apply of_cls_in in Hx as [_ Hx]. apply cls_named; auto.
  - intros p k u E. assert (In (p, k, u) (of_cls 3 l)) as Hx by (destruct (of_cls 3 l); [discriminate|injection E as ->; cbn; auto]).
    apply of_cls_in in Hx as [Hx C]. pose proof (I9 _ Hx C) as U. cbn in U, C. destruct k, u; try discriminate; auto.
  - intros r Hr. rewrite !in_app_iff, !of_cls_in in Hr. destruct (raw_implicit r) eqn:I; auto. exfalso.
    destruct Hr as [[Hr C]|[[Hr C]|[Hr C]]]; destruct (I7 r Hr I); lia.
  - intros r Hr I. apply of_cls_in in Hr as [Hr C]. destruct (I7 r Hr I). auto.
Qed.
Lemma params_cls l pos ps named ns : ParamsOk l pos ps named ns ->
  of_cls 0 l = pos /\ of_cls 1 l = opt ps /\ of_cls 2 l = named /\ of_cls 3 l = opt ns.
Proof.
  intros (E & P1 & P2 & P3 & P4 & _). fold (opt ps) in E. fold (opt ns) in E.
  assert (forall x, In x pos -> cls x = 0) as C0 by (intros x Hx; apply cls_pos; rewrite Forall_forall in P1; auto).
  assert (forall x, In x (opt ps) -> cls x = 1) as C1.
  { intros [[p k] u] Hx. destruct ps as [r|]; [|destruct Hx]. destruct Hx as [->|[]]. destruct (P2 p k u eq_refl) as [-> ->]. auto. }
  assert (forall x, In x named -> cls x = 2) as C2 by (intros x Hx; apply cls_named; rewrite Forall_forall in P3; auto).
  assert (forall x, In x (opt ns) -> cls x = 3) as C3.
  { intros [[p k] u] Hx. destruct ns as [r|]; [|destruct Hx]. destruct Hx as [->|[]]. destruct (P4 p k u eq_refl) as [-> ->]. auto. }
  subst l. unfold of_cls. rewrite !filter_app. fold (of_cls 0 pos) (of_cls 0 (opt ps)) (of_cls 0 named) (of_cls 0 (opt ns))
    (of_cls 1 pos) (of_cls 1 (opt ps)) (of_cls 1 named) (of_cls 1 (opt ns)) (of_cls 2 pos) (of_cls 2 (opt ps)) (of_cls 2 named) (of_cls 2 (opt ns))
    (of_cls 3 pos) (of_cls 3 (opt ps)) (of_cls 3 named) (of_cls 3 (opt ns)).
  rewrite !(of_cls_none 0 (opt ps)), !(of_cls_none 0 named), !(of_cls_none 0 (opt ns)), !(of_cls_none 1 pos), !(of_cls_none 1 named), !(of_cls_none 1 (opt ns)),
    !(of_cls_none 2 pos), !(of_cls_none 2 (opt ps)), !(of_cls_none 2 (opt ns)), !(of_cls_none 3 pos), !(of_cls_none 3 named), !(of_cls_none 3 (opt ps))
    by (intros x Hx; first [rewrite (C0 x Hx)|rewrite (C1 x Hx)|rewrite (C2 x Hx)|rewrite (C3 x Hx)]; lia).
  rewrite (of_cls_all 0 pos), (of_cls_all 1 (opt ps)), (of_cls_all 2 named), (of_cls_all 3 (opt ns)) by auto. rewrite !app_nil_r. auto.
Qed.
Lemma params_facts l pos ps named ns : ParamsOk l pos ps named ns ->
  l = of_cls 0 l ++ of_cls 1 l ++ of_cls 2 l ++ of_cls 3 l /\ length (of_cls 1 l) <= 1 /\ length (of_cls 3 l) <= 1 /\
  NoDup (List.map raw_name l) /\ OptionalLast (of_cls 0 l) /\ OptionalLast (of_cls 2 l) /\
  (forall r, In r l -> raw_implicit r = true -> cls r = 2 /\ raw_default r = None) /\
  (forall r, In r l -> cls r = 1 -> under r = true) /\ (forall r, In r l -> cls r = 3 -> under r = false).
Proof.
  intros P. destruct (params_cls _ _ _ _ _ P) as (E0 & E1 & E2 & E3). destruct P as (E & P1 & P2 & P3 & P4 & P5 & P6 & P7 & P8 & P9).
  rewrite E0, E1, E2, E3. fold (opt ps) in *. fold (opt ns) in *. split; auto. split; [destruct ps; cbn; lia|]. split; [destruct ns; cbn; lia|].
  split; auto. split; auto. split; auto. split; [|split].
  - intros r Hr I. assert (In r named) as Hn.
    { rewrite E in Hr. rewrite !in_app_iff in Hr. destruct Hr as [Hr|[Hr|[Hr|Hr]]]; auto; rewrite (P8 r) in I by (rewrite !in_app_iff; auto); discriminate. }
    split; auto. apply cls_named. rewrite Forall_forall in P3; auto.
  - intros [[p k] u] Hr C. assert (In (p, k, u) (of_cls 1 l)) as X by (apply of_cls_in; auto). rewrite E1 in X.
    destruct ps as [r|]; [|destruct X]. destruct X as [->|[]]. destruct (P2 p k u eq_refl) as [-> ->]. auto.
  - intros [[p k] u] Hr C. assert (In (p, k, u) (of_cls 3 l)) as X by (apply of_cls_in; auto). rewrite E3 in X.
    destruct ns as [r|]; [|destruct X]. destruct X as [->|[]]. destruct (P4 p k u eq_refl) as [-> ->]. auto.
Qed.
Lemma sorted_snoc {X} (l : list X) r A B : A ++ r :: B = l ++ [r] -> ~ In r B -> B = [] /\ A = l.
Proof.
  intros E N. destruct B as [|x B _] using rev_ind.
  - apply app_inj_tail in E. tauto.
  - exfalso. rewrite app_comm_cons, app_assoc in E. apply app_inj_tail in E as [_ ->]. apply N. apply in_or_app. cbn. auto.
Qed.
Lemma facts_okl l :
  l = of_cls 0 l ++ of_cls 1 l ++ of_cls 2 l ++ of_cls 3 l -> length (of_cls 1 l) <= 1 -> length (of_cls 3 l) <= 1 ->
  NoDup (List.map raw_name l) -> OptionalLast (of_cls 0 l) -> OptionalLast (of_cls 2 l) ->
  (forall r, In r l -> raw_implicit r = true -> cls r = 2 /\ raw_default r = None) ->
  (forall r, In r l -> cls r = 1 -> under r = true) -> (forall r, In r l -> cls r = 3 -> under r = false) -> OkL l.
Proof.
  induction l as [|r l IH] using rev_ind; intros I1 I2 I3 I4 I5 I6 I7 I8 I9; [constructor|].
  rewrite map_app in I4. cbn in I4. apply NoDup_remove in I4 as [I4 N]. rewrite app_nil_r in *.
  rewrite !of_cls_snoc in *.
  assert (forall P : raw -> Prop, (forall x, In x (l ++ [r]) -> P x) -> (forall x, In x l -> P x) /\ P r) as Ext.
  { intros P H. split; [|apply H; apply in_or_app; cbn; auto]. intros x Hx. apply H. apply in_or_app; auto. }
  apply Ext in I7 as [I7 J7]. apply Ext in I8 as [I8 J8]. apply Ext in I9 as [I9 J9]. clear Ext.
  assert (forall k x, In x (of_cls k l) -> cls x = k) as Ck by (intros k x Hx; apply of_cls_in in Hx; tauto).
  assert (of_cls 3 l = [] /\ (cls r <= 1 -> of_cls 2 l = [] /\ of_cls 1 l = []) /\
    l = of_cls 0 l ++ of_cls 1 l ++ of_cls 2 l ++ of_cls 3 l) as (Z3 & Z1 & Z).
  { pose proof (cls_bound r) as B. symmetry in I1.
    destruct (cls r) as [|[|[|[|]]]] eqn:C; try lia; cbn [Nat.eqb] in *; rewrite ?app_nil_r in *.
    - rewrite <- app_assoc in I1. cbn in I1. apply sorted_snoc in I1 as [E1 E2].
      + apply app_eq_nil in E1 as [A1 E1]. apply app_eq_nil in E1 as [A2 A3]. rewrite A1, A2, A3, !app_nil_r. auto.
      + rewrite !in_app_iff. intros [X|[X|X]]; apply Ck in X; lia.
    - rewrite app_assoc, <- app_assoc in I1. rewrite <- app_assoc in I1. cbn in I1. rewrite app_assoc in I1. apply sorted_snoc in I1 as [E1 E2].
      + apply app_eq_nil in E1 as [A2 A3]. rewrite app_length in I2. cbn in I2. assert (of_cls 1 l = []) as A1 by (destruct (of_cls 1 l); auto; cbn in I2; lia).
        rewrite A1, A2, A3, !app_nil_r in *. auto.
      + rewrite !in_app_iff. intros [X|X]; apply Ck in X; lia.
    - assert (((of_cls 0 l ++ of_cls 1 l ++ of_cls 2 l) ++ r :: of_cls 3 l) = l ++ [r]) as E by (rewrite <- I1, <- !app_assoc; auto).
      apply sorted_snoc in E as [E1 E2].
      + rewrite E1, app_nil_r. repeat split; auto; lia.
      + intros X; apply Ck in X; lia.
    - assert (((of_cls 0 l ++ of_cls 1 l ++ of_cls 2 l ++ of_cls 3 l) ++ [r]) = l ++ [r]) as E by (rewrite <- I1, <- !app_assoc; auto).
      rewrite app_length in I3. cbn in I3. assert (of_cls 3 l = []) as A1 by (destruct (of_cls 3 l); auto; cbn in I3; lia).
      apply app_inj_tail in E as [E _]. repeat split; auto; lia. }
  apply okl_snoc.
  - apply IH; auto.
    + rewrite app_length in I2. lia.
    + rewrite app_length in I3. lia.
    + destruct (cls r =? 0); [apply optional_last_snoc in I5; tauto|rewrite app_nil_r in I5; auto].
    + destruct (cls r =? 2); [apply optional_last_snoc in I6; tauto|rewrite app_nil_r in I6; auto].
  - assert (forall k, of_cls k l = [] -> forall x, In x l -> cls x <> k) as Emp.
    { intros k Ek x Hx Cx. assert (In x (of_cls k l)) as Y by (apply of_cls_in; auto). rewrite Ek in Y. destruct Y. }
    split; [auto|]. split; [|split; [|split; [|split; [|split]]]]; auto.
    + intros L x Hx. destruct (Z1 L) as [A2 A1]. pose proof (Emp 1 A1 x Hx). pose proof (Emp 2 A2 x Hx). pose proof (Emp 3 Z3 x Hx).
      pose proof (cls_bound x). lia.
    + intros [C|C] O x Hx Cx; rewrite C in *; cbn in *.
      * apply optional_last_snoc in I5 as [_ I5]. apply I5; auto. apply of_cls_in; auto.
      * apply optional_last_snoc in I6 as [_ I6]. apply I6; auto. apply of_cls_in; auto.
Qed.
Lemma params_okl l pos ps named ns : ParamsOk l pos ps named ns -> OkL l.
Proof. intros P. apply params_facts in P. destruct P as (I1 & I2 & I3 & I4 & I5 & I6 & I7 & I8 & I9). apply facts_okl; auto. Qed.
Lemma st_params l pos ps named ns : ParamsOk l pos ps named ns ->
  ss_positional (st l) = length pos /\ ss_positional_spread (st l) = is_some ps /\
  ss_named (st l) = length named /\ ss_named_spread (st l) = is_some ns.
Proof.
  intros P. destruct (params_cls _ _ _ _ _ P) as (E0 & E1 & E2 & E3). cbn. unfold count. fold (of_cls 0 l) (of_cls 2 l).
  rewrite E0, E2. assert (forall k, has (fun r => cls r =? k) l = match of_cls k l with [] => false | _ => true end) as H.
  { intros k. unfold has, of_cls. induction l as [|x l' IH]; auto. cbn. destruct (cls x =? k); auto. cbn. clear - l'.
    induction l' as [|y l' IH]; auto. cbn. destruct (cls y =? k); auto. }
  rewrite !H, E1, E3. destruct ps, ns; auto.
Qed.
(** the result of the checks *)
Lemma check_params_ok rs : Checks (check_params rs sigst0) (fun s => exists pos ps named ns, ParamsOk rs pos ps named ns /\ s = st rs).
Proof.
  change sigst0 with (st []). eapply checks_iff; [apply check_params_spec; constructor|]. intros s. cbn [app]. split.
  - intros (pos & ps & named & ns & P & ->). split; auto. eapply params_okl; eauto.
  - intros [O ->]. do 4 eexists. split; auto. apply okl_params; auto.
Qed.
