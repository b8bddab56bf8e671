(** Proofs about calls (C32-C34). *)
From Verif Require Import Base BaseFacts M_Names M_TagInfo M_Html M_Render M_Types M_Diag M_Ast M_Value M_State M_Binder S_Types P_Types P_Coerce P_State S_Scope P_Scope P_Match M_Native S_Call.

(** ** Lists *)
Lemma positionals_app l r : positionals (l ++ r) = positionals l ++ positionals r.
Proof. apply flat_map_app. Qed.
Lemma nameds_app l r : nameds (l ++ r) = nameds l ++ nameds r.
Proof. apply flat_map_app. Qed.
Lemma contents_app l r : contents (l ++ r) = contents l ++ contents r.
Proof. apply flat_map_app. Qed.

Lemma nodup_app A (l r : list A) : NoDup (l ++ r) <-> NoDup l /\ NoDup r /\ forall x, In x l -> ~ In x r.
Proof.
  induction l as [|x l IH]; cbn [app].
  - split; [intro H; split; [constructor|split; [exact H|intros ? []]]|tauto].
  - split.
    + intro H. inversion H as [|? ? N D]; subst. apply IH in D as (D1 & D2 & D3). rewrite in_app_iff in N. split; [|split].
      * constructor; tauto.
      * exact D2.
      * intros y [<-|Hy]; [tauto|auto].
    + intros (D1 & D2 & D3). inversion D1 as [|? ? N D]; subst. constructor.
      * rewrite in_app_iff. intros [H|H]; [tauto|]. apply (D3 x); [now left|exact H].
      * apply IH. split; [exact D|]. split; [exact D2|]. intros y Hy. apply D3. now right.
Qed.
Lemma nodup_map_inj A B (f : A -> B) l x y : NoDup (List.map f l) -> In x l -> In y l -> f x = f y -> x = y.
Proof.
  induction l as [|z l IH]; cbn [List.map]; [intros _ []|]. intro H. inversion H as [|? ? N D]; subst.
  intros [->|Hx] [->|Hy] E; auto; exfalso; apply N.
  - rewrite E. now apply in_map.
  - rewrite <- E. now apply in_map.
Qed.

(** ** Parameters *)
Section Sig.
  Variable sig : fsig.
  Hypothesis W : WfSig sig.

  Lemma pos_pos i j p q : nth_error (s_positional sig) i = Some p -> nth_error (s_positional sig) j = Some q ->
    p_name p = p_name q -> i = j.
  Proof.
    intros Hi Hj E. pose proof (ws_distinct _ W) as D. unfold params in D. rewrite map_app in D. apply nodup_app in D as [D _].
    apply (proj1 (NoDup_nth_error _) D).
    - rewrite map_length. apply nth_error_Some. congruence.
    - rewrite !nth_error_map, Hi, Hj. cbn. now rewrite E.
  Qed.
  Lemma pos_spread p q : In p (s_positional sig) -> s_spread sig = Some q -> p_name p <> p_name q.
  Proof.
    intros Hp Hq E. pose proof (ws_distinct _ W) as D. unfold params in D. rewrite !map_app in D.
    apply nodup_app in D as (_ & _ & D). apply (D (p_name p)).
    - now apply in_map.
    - rewrite E. apply in_or_app; left; rewrite Hq; now left.
  Qed.
  Lemma pos_named p q : In p (s_positional sig) -> In q (nvalues (s_named sig)) -> p_name p <> p_name q.
  Proof.
    intros Hp Hq E. pose proof (ws_distinct _ W) as D. unfold params in D. rewrite !map_app in D.
    apply nodup_app in D as (_ & _ & D). apply (D (p_name p)).
    - now apply in_map.
    - rewrite E. apply in_or_app; right; apply in_or_app; left; now apply in_map.
  Qed.
  Lemma pos_collect p q : In p (s_positional sig) -> s_spread_named sig = Some q -> p_name p <> p_name q.
  Proof.
    intros Hp Hq E. pose proof (ws_distinct _ W) as D. unfold params in D. rewrite !map_app in D.
    apply nodup_app in D as (_ & _ & D). apply (D (p_name p)).
    - now apply in_map.
    - rewrite E. apply in_or_app; right; apply in_or_app; right; apply in_or_app; left; rewrite Hq; now left.
  Qed.
  Lemma pos_content p q : In p (s_positional sig) -> (has_content sig = true /\ q = s_content sig) -> p_name p <> p_name q.
  Proof.
    intros Hp Hq E. pose proof (ws_distinct _ W) as D. unfold params in D. rewrite !map_app in D.
    apply nodup_app in D as (_ & _ & D). apply (D (p_name p)).
    - now apply in_map.
    - rewrite E. apply in_or_app; right; apply in_or_app; right; apply in_or_app; right; destruct Hq as [Hq ->]; rewrite Hq; now left.
  Qed.
  Lemma spread_named p q : s_spread sig = Some p -> In q (nvalues (s_named sig)) -> p_name p <> p_name q.
  Proof.
    intros Hp Hq E. pose proof (ws_distinct _ W) as D. unfold params in D. rewrite !map_app in D.
    apply nodup_app in D as (_ & D & _).
    apply nodup_app in D as (_ & _ & D). apply (D (p_name p)).
    - rewrite Hp; now left.
    - rewrite E. apply in_or_app; left; now apply in_map.
  Qed.
  Lemma spread_collect p q : s_spread sig = Some p -> s_spread_named sig = Some q -> p_name p <> p_name q.
  Proof.
    intros Hp Hq E. pose proof (ws_distinct _ W) as D. unfold params in D. rewrite !map_app in D.
    apply nodup_app in D as (_ & D & _).
    apply nodup_app in D as (_ & _ & D). apply (D (p_name p)).
    - rewrite Hp; now left.
    - rewrite E. apply in_or_app; right; apply in_or_app; left; rewrite Hq; now left.
  Qed.
  Lemma spread_content p q : s_spread sig = Some p -> (has_content sig = true /\ q = s_content sig) -> p_name p <> p_name q.
  Proof.
    intros Hp Hq E. pose proof (ws_distinct _ W) as D. unfold params in D. rewrite !map_app in D.
    apply nodup_app in D as (_ & D & _).
    apply nodup_app in D as (_ & _ & D). apply (D (p_name p)).
    - rewrite Hp; now left.
    - rewrite E. apply in_or_app; right; apply in_or_app; right; destruct Hq as [Hq ->]; rewrite Hq; now left.
  Qed.
  Lemma named_collect p q : In p (nvalues (s_named sig)) -> s_spread_named sig = Some q -> p_name p <> p_name q.
  Proof.
    intros Hp Hq E. pose proof (ws_distinct _ W) as D. unfold params in D. rewrite !map_app in D.
    apply nodup_app in D as (_ & D & _).
    apply nodup_app in D as (_ & D & _).
    apply nodup_app in D as (_ & _ & D). apply (D (p_name p)).
    - now apply in_map.
    - rewrite E. apply in_or_app; left; rewrite Hq; now left.
  Qed.
  Lemma named_content p q : In p (nvalues (s_named sig)) -> (has_content sig = true /\ q = s_content sig) -> p_name p <> p_name q.
  Proof.
    intros Hp Hq E. pose proof (ws_distinct _ W) as D. unfold params in D. rewrite !map_app in D.
    apply nodup_app in D as (_ & D & _).
    apply nodup_app in D as (_ & D & _).
    apply nodup_app in D as (_ & _ & D). apply (D (p_name p)).
    - now apply in_map.
    - rewrite E. apply in_or_app; right; destruct Hq as [Hq ->]; rewrite Hq; now left.
  Qed.
  Lemma collect_content p q : s_spread_named sig = Some p -> (has_content sig = true /\ q = s_content sig) -> p_name p <> p_name q.
  Proof.
    intros Hp Hq E. pose proof (ws_distinct _ W) as D. unfold params in D. rewrite !map_app in D.
    apply nodup_app in D as (_ & D & _).
    apply nodup_app in D as (_ & D & _).
    apply nodup_app in D as (_ & D & _).
    apply nodup_app in D as (_ & _ & D). apply (D (p_name p)).
    - rewrite Hp; now left.
    - rewrite E. destruct Hq as [Hq ->]; rewrite Hq; now left.
  Qed.
  Lemma in_params_positional p : In p (s_positional sig) -> In p (params sig).
  Proof. unfold params. rewrite !in_app_iff. tauto. Qed.
  Lemma in_params_named p : In p (nvalues (s_named sig)) -> In p (params sig).
  Proof. unfold params. rewrite !in_app_iff. tauto. Qed.
  Lemma in_params_content : has_content sig = true -> In (s_content sig) (params sig).
  Proof. intro H. unfold params. rewrite !in_app_iff, H. cbn. tauto. Qed.
  Lemma in_params_spread p : s_spread sig = Some p -> In p (params sig).
  Proof. intro H. unfold params. rewrite !in_app_iff, H. cbn. tauto. Qed.
  Lemma in_params_spread_named p : s_spread_named sig = Some p -> In p (params sig).
  Proof. intro H. unfold params. rewrite !in_app_iff, H. cbn. tauto. Qed.
  Lemma params_inj p q : In p (params sig) -> In q (params sig) -> p_name p = p_name q -> p = q.
  Proof. apply nodup_map_inj. apply (ws_distinct _ W). Qed.
  Lemma named_key n p : ngetm (s_named sig) n = Some p <-> In p (nvalues (s_named sig)) /\ p_name p = n.
  Proof.
    pose proof (ws_keys _ W) as Hk. pose proof (ws_distinct _ W) as D. unfold params in D. rewrite !map_app in D.
    apply nodup_app in D as (_ & D & _). apply nodup_app in D as (_ & D & _). apply nodup_app in D as (D & _ & _).
    rewrite <- Hk in D. unfold nkeys, nvalues in *. revert Hk D. generalize (s_named sig) as m. intro m.
    induction m as [|[k q] m IH]; cbn [List.map fst snd ngetm In]; [intros _ _; split; [discriminate|tauto]|].
    intros Hk D. inversion D as [|? ? N D']; subst. injection Hk as E Hk. destruct (str_eqb n k) eqn:Ek.
    - apply str_eqb_eq in Ek as ->. split.
      + injection 1 as <-. split; [now left|]. congruence.
      + intros [[->|Hi] Hn]; [reflexivity|]. exfalso. apply N. rewrite Hk, <- Hn. now apply in_map.
    - rewrite (IH Hk D'). split; [tauto|]. intros [[->|Hi] Hn]; [|tauto]. rewrite E, Hn, str_eqb_refl in Ek. discriminate.
  Qed.
  Lemma named_none n : ngetm (s_named sig) n = None <-> ~ In n (nkeys (s_named sig)).
  Proof. apply ngetm_None. Qed.
  Lemma anonymous_free p : In p (params sig) -> p_name p <> n_anonymous.
  Proof. intros Hp E. apply (ws_proper _ W). rewrite <- E. now apply in_map. Qed.
End Sig.

(** ** What the bound parameters hold *)
Record Bound (sig : fsig) (gs : list given) (imp : fparam -> value -> Prop) (b : partials) : Prop := {
  bd_count : pp_count b = length (positionals gs);
  bd_spread : forall p, s_spread sig = Some p ->
    Forall2 (fun a w => coerce (component_type (p_type p)) a = inl w) (skipn (length (s_positional sig)) (positionals gs))
      (pp_spread_pos b);
  bd_collect : forall p, s_spread_named sig = Some p ->
    Forall2 (fun a w => fst a = fst w /\ coerce (component_type (p_type p)) (snd a) = inl (snd w))
      (List.filter (is_extra sig) (nameds gs)) (pp_spread_named b);
  bd_known : s_spread_named sig = None -> forall n, In n (List.map fst (nameds gs)) -> In n (nkeys (s_named sig));
  bd_once : NoDup (List.map fst (nameds gs));
  bd_content : Forall (fun v => v = UNIT) (if has_content sig then List.tl (contents gs) else contents gs);
  bd_pos_ok : forall i p a, nth_error (s_positional sig) i = Some p -> nth_error (positionals gs) i = Some a ->
    exists v, coerce (p_type p) a = inl v;
  bd_named_ok : forall p a, In p (nvalues (s_named sig)) -> In (p_name p, a) (nameds gs) -> exists v, coerce (p_type p) a = inl v;
  bd_content_ok : forall a, hd_error (contents gs) = Some a -> exists v, coerce (p_type (s_content sig)) a = inl v;
  bd_map : forall n v, ngetm (pp_map b) n = Some v <-> exists p, p_name p = n /\ (GivenTo sig gs p v \/ imp p v);
  bd_nodup : NoDup (nkeys (pp_map b))
}.
Definition LookedUp (sig : fsig) (gs : list given) (imp : fparam -> value -> Prop) : Prop :=
  forall p v, imp p v -> In p (nvalues (s_named sig)) /\ ~ In (p_name p) (List.map fst (nameds gs)).
Definition nothing : fparam -> value -> Prop := fun _ _ => False.

Lemma given_in sig gs p v : GivenTo sig gs p v -> In p (params sig).
Proof.
  intro H. destruct H as [i p a v H _ _|p a v H _ _|a v H _ _].
  - apply in_params_positional. eapply nth_error_In. exact H.
  - now apply in_params_named.
  - now apply in_params_content.
Qed.

Lemma bound_new sig : Bound sig [] nothing partials_new.
Proof.
  constructor; cbn.
  - reflexivity.
  - intros p _. rewrite skipn_nil. constructor.
  - intros. constructor.
  - intros _ n [].
  - constructor.
  - destruct (has_content sig); constructor.
  - intros i p a _ H. destruct i; discriminate.
  - intros p a _ [].
  - discriminate.
  - intros n v. split; [discriminate|]. intros (p & _ & [H|[]]). inversion H as [i ? a ? _ Ha _|? a ? _ Ha _|a ? _ Ha _]; subst; [|destruct Ha|discriminate].
    destruct i; discriminate.
  - constructor.
Qed.

Lemma nth_error_snoc A (l : list A) x i y : nth_error (l ++ [x]) i = Some y <-> nth_error l i = Some y \/ (i = length l /\ x = y).
Proof.
  destruct (lt_dec i (length l)) as [H|H].
  - rewrite nth_error_app1 by exact H. split; [tauto|]. intros [E|[-> _]]; [exact E|lia].
  - rewrite nth_error_app2 by lia. rewrite (proj2 (nth_error_None l i)) by lia.
    destruct (i - length l) as [|k] eqn:E; cbn.
    + split; [injection 1 as ->; right; split; [lia|reflexivity]|]. intros [|[_ ->]]; [discriminate|reflexivity].
    + rewrite nth_error_nil || (destruct k; cbn); (split; [discriminate|intros [|[? _]]; [discriminate|lia]]).
Qed.
Lemma given_pos sig gs a p v : GivenTo sig (gs ++ [GPos a]) p v <->
  GivenTo sig gs p v \/ (nth_error (s_positional sig) (length (positionals gs)) = Some p /\ coerce (p_type p) a = inl v).
Proof.
  split.
  - intro H. inversion H as [i ? x ? Hp Ha Hc|? x ? Hp Ha Hc|x ? Hp Ha Hc]; subst.
    + rewrite positionals_app in Ha. cbn in Ha. apply nth_error_snoc in Ha as [Ha|[-> ->]]; [left|right].
      * eapply Given_positional; eassumption.
      * split; assumption.
    + left. rewrite nameds_app in Ha. cbn in Ha. rewrite app_nil_r in Ha. eapply Given_named; eassumption.
    + left. rewrite contents_app in Ha. cbn in Ha. rewrite app_nil_r in Ha. eapply Given_content; eassumption.
  - intros [H|[Hp Hc]].
    + inversion H as [i ? x ? Hp Ha Hc|? x ? Hp Ha Hc|x ? Hp Ha Hc]; subst.
      * eapply Given_positional; [exact Hp| |exact Hc]. rewrite positionals_app. apply nth_error_snoc. now left.
      * eapply Given_named; [exact Hp| |exact Hc]. rewrite nameds_app, in_app_iff. now left.
      * eapply Given_content; [exact Hp| |exact Hc]. rewrite contents_app. cbn. now rewrite app_nil_r.
    + eapply Given_positional; [exact Hp| |exact Hc]. rewrite positionals_app. apply nth_error_snoc. now right.
Qed.
Lemma given_named sig gs n a p v : GivenTo sig (gs ++ [GNamed n a]) p v <->
  GivenTo sig gs p v \/ (In p (nvalues (s_named sig)) /\ p_name p = n /\ coerce (p_type p) a = inl v).
Proof.
  split.
  - intro H. inversion H as [i ? x ? Hp Ha Hc|? x ? Hp Ha Hc|x ? Hp Ha Hc]; subst.
    + left. rewrite positionals_app in Ha. cbn in Ha. rewrite app_nil_r in Ha. eapply Given_positional; eassumption.
    + rewrite nameds_app, in_app_iff in Ha. destruct Ha as [Ha|[Ha|[]]]; [left; eapply Given_named; eassumption|right].
      injection Ha as -> ->. tauto.
    + left. rewrite contents_app in Ha. cbn in Ha. rewrite app_nil_r in Ha. eapply Given_content; eassumption.
  - intros [H|(Hp & Hn & Hc)].
    + inversion H as [i ? x ? Hp Ha Hc|? x ? Hp Ha Hc|x ? Hp Ha Hc]; subst.
      * eapply Given_positional; [exact Hp| |exact Hc]. rewrite positionals_app. cbn. now rewrite app_nil_r.
      * eapply Given_named; [exact Hp| |exact Hc]. rewrite nameds_app, in_app_iff. now left.
      * eapply Given_content; [exact Hp| |exact Hc]. rewrite contents_app. cbn. now rewrite app_nil_r.
    + eapply Given_named; [exact Hp| |exact Hc]. rewrite nameds_app, in_app_iff. right. rewrite Hn. now left.
Qed.
Lemma given_content sig gs a p v : GivenTo sig (gs ++ [GContent a]) p v <->
  GivenTo sig gs p v \/ (contents gs = [] /\ has_content sig = true /\ p = s_content sig /\ coerce (p_type p) a = inl v).
Proof.
  split.
  - intro H. inversion H as [i ? x ? Hp Ha Hc|? x ? Hp Ha Hc|x ? Hp Ha Hc]; subst.
    + left. rewrite positionals_app in Ha. cbn in Ha. rewrite app_nil_r in Ha. eapply Given_positional; eassumption.
    + left. rewrite nameds_app in Ha. cbn in Ha. rewrite app_nil_r in Ha. eapply Given_named; eassumption.
    + rewrite contents_app in Ha. cbn in Ha. destruct (contents gs) eqn:E; cbn in Ha; injection Ha as <-; [right; tauto|].
      left. eapply Given_content; [exact Hp| |exact Hc]. now rewrite E.
  - intros [H|(He & Hh & -> & Hc)].
    + inversion H as [i ? x ? Hp Ha Hc|? x ? Hp Ha Hc|x ? Hp Ha Hc]; subst.
      * eapply Given_positional; [exact Hp| |exact Hc]. rewrite positionals_app. cbn. now rewrite app_nil_r.
      * eapply Given_named; [exact Hp| |exact Hc]. rewrite nameds_app. cbn. now rewrite app_nil_r.
      * eapply Given_content; [exact Hp| |exact Hc]. rewrite contents_app. destruct (contents gs); [discriminate|exact Ha].
    + eapply Given_content; [exact Hh| |exact Hc]. rewrite contents_app, He. reflexivity.
Qed.

(** ** Binding one more argument *)
Lemma coerceM_eq v t s : coerceM v t s = match coerce t v with inl w => Ok w s | inr e => Err e s end.
Proof. unfold coerceM, lift. destruct (coerce t v); reflexivity. Qed.

Definition type_error (e : papyri_error) : Prop := exists a b, e = TypeErr (ExpectedWas a b).
Lemma coerce_all_error A (f : value -> A + papyri_error) vs e : (forall v e, f v = inr e -> type_error e) ->
  coerce_all f vs = inr e -> type_error e.
Proof.
  intro Hf. induction vs as [|v vs IH]; cbn; [discriminate|]. destruct (f v) as [w|e'] eqn:E.
  - destruct (coerce_all f vs); [discriminate|]. intro H. apply IH. exact H.
  - injection 1 as <-. eapply Hf. exact E.
Qed.
Lemma coerce_error_n n : forall t, ty_size t <= n -> forall v e, coerce_base t v = inr e -> type_error e.
Proof.
  induction n as [|n IH]; intros t Sz v e H; [destruct (ty_size_pos t); lia|].
  assert (All : forall t' vs e, S (ty_size t') <= S n -> coerce_all (coerce t') vs = inr e -> type_error e).
  { intros t' vs e' L E. eapply coerce_all_error; [|exact E]. intros w e2 Hw. unfold coerce, coerce_opt in Hw.
    destruct t'; try (eapply IH; [|exact Hw]; lia). destruct (is_unit w); [discriminate|]. eapply IH; [|exact Hw]. cbn in L. lia. }
  destruct t, v; cbn in H; repeat first [discriminate | injection H as <-; unfold type_error; eauto; fail | progress cbn in H
    | match type of H with context [if is_unit ?x then _ else _] => destruct (is_unit x) end
    | match type of H with context [if html_is_block ?x then _ else _] => destruct (html_is_block x) end
    | match type of H with context [if html_is_inline ?x then _ else _] => destruct (html_is_inline x) end ].
  all: try (destruct h; cbn in H; first [discriminate | injection H as <-; unfold type_error; eauto; fail]).
  all: match type of H with
       | match coerce_all _ ?vs with _ => _ end = _ =>
         match goal with |- _ => idtac end; 
         destruct (coerce_all _ vs) eqn:E in H; [discriminate|]; injection H as <-; eapply (All t); [cbn in Sz; lia|exact E]
       end.
Qed.
Lemma coerce_error t v e : coerce t v = inr e -> type_error e.
Proof.
  unfold coerce, coerce_opt. destruct t; try (eapply coerce_error_n; apply le_n).
  destruct (is_unit v); [discriminate|]. eapply coerce_error_n; apply le_n.
Qed.

(** What can be wrong with an argument when it is given. *)
Inductive Objection (sig : fsig) (gs : list given) : papyri_error -> Prop :=
| Ob_positional i p a e : nth_error (s_positional sig) i = Some p -> nth_error (positionals gs) i = Some a ->
    coerce (p_type p) a = inr e -> Objection sig gs e
| Ob_further p a e : s_spread sig = Some p -> In a (skipn (length (s_positional sig)) (positionals gs)) ->
    coerce (component_type (p_type p)) a = inr e -> Objection sig gs e
| Ob_named p a e : In p (nvalues (s_named sig)) -> In (p_name p, a) (nameds gs) -> coerce (p_type p) a = inr e -> Objection sig gs e
| Ob_collected p n a e : s_spread_named sig = Some p -> In (n, a) (nameds gs) -> ~ In n (nkeys (s_named sig)) ->
    coerce (component_type (p_type p)) a = inr e -> Objection sig gs e
| Ob_content a e : In a (if has_content sig then firstn 1 (contents gs) else contents gs) ->
    coerce (p_type (s_content sig)) a = inr e -> Objection sig gs e
| Ob_again v : has_content sig = true -> In v (List.tl (contents gs)) -> v <> UNIT -> Objection sig gs (TypeErr ContentAlreadyBound)
| Ob_unknown n : In n (List.map fst (nameds gs)) -> ~ In n (nkeys (s_named sig)) -> s_spread_named sig = None ->
    Objection sig gs (NameErr (NoSuchParameter n))
| Ob_twice n a b l1 l2 l3 : nameds gs = l1 ++ (n, a) :: l2 ++ (n, b) :: l3 -> Objection sig gs (RuntimeErr (ParamMultipleValues n)).

Lemma skipn_app_in A n (l r : list A) x : In x (skipn n l) -> In x (skipn n (l ++ r)).
Proof. intro H. rewrite skipn_app, in_app_iff. now left. Qed.
Lemma skipn_snoc A n (l : list A) x : skipn n (l ++ [x]) = if n <=? length l then skipn n l ++ [x] else [].
Proof.
  rewrite skipn_app. destruct (n <=? length l) eqn:E.
  - apply Nat.leb_le in E. replace (n - length l) with 0 by lia. reflexivity.
  - apply Nat.leb_gt in E. rewrite skipn_all2 by lia. destruct (n - length l) eqn:E'; [lia|]. cbn. now rewrite skipn_nil.
Qed.
Lemma objection_more sig gs r e : Objection sig gs e -> Objection sig (gs ++ r) e.
Proof.
  intro H. inversion H; subst.
  - eapply Ob_positional; [eassumption| |eassumption]. rewrite positionals_app, nth_error_app1; [assumption|]. apply nth_error_Some. congruence.
  - eapply Ob_further; [eassumption| |eassumption]. rewrite positionals_app. now apply skipn_app_in.
  - eapply Ob_named; [eassumption| |eassumption]. rewrite nameds_app, in_app_iff. now left.
  - eapply Ob_collected; [eassumption| |eassumption|eassumption]. rewrite nameds_app, in_app_iff. now left.
  - eapply Ob_content; [|eassumption]. rewrite contents_app. destruct (has_content sig); [|rewrite in_app_iff; now left].
    destruct (contents gs); cbn in *; [tauto|assumption].
  - eapply Ob_again; [eassumption| |eassumption]. rewrite contents_app. destruct (contents gs); cbn in *; [tauto|]. rewrite in_app_iff. now left.
  - eapply Ob_unknown; [|eassumption|eassumption]. rewrite nameds_app, map_app, in_app_iff. now left.
  - eapply Ob_twice. rewrite nameds_app. match goal with E : nameds gs = _ |- _ => rewrite E end.
    rewrite <- app_assoc. cbn [app]. rewrite <- app_assoc. reflexivity.
Qed.
Lemma objection_complaint sig gs imp i e : Objection sig gs e -> Complaint sig gs imp i e.
Proof.
  intro H. inversion H; subst; try (match goal with X : coerce _ _ = inr _ |- _ => pose proof (coerce_error _ _ _ X) as (? & ? & ->) end; cbn).
  - left. eauto 6.
  - right; left. eauto 6.
  - do 3 right; left. eauto 6.
  - do 4 right; left. eauto 8.
  - do 6 right. eauto.
  - cbn. eauto.
  - cbn. tauto.
  - cbn. eauto 8.
Qed.

Lemma looked_up_less sig gs g imp : LookedUp sig (gs ++ [g]) imp -> LookedUp sig gs imp.
Proof. intros H p v Hi. destruct (H p v Hi) as [H1 H2]. split; [exact H1|]. intro Hn. apply H2. rewrite nameds_app, map_app, in_app_iff. now left. Qed.
Lemma nhas_false T (m : nmap T) n : nhas m n = false <-> ngetm m n = None.
Proof. unfold nhas. destruct (ngetm m n); split; congruence. Qed.
Lemma nhas_true T (m : nmap T) n : nhas m n = true <-> exists v, ngetm m n = Some v.
Proof. unfold nhas. destruct (ngetm m n); split; intro H; eauto; [discriminate|destruct H; discriminate]. Qed.
Lemma nodup_snoc A (l : list A) x : NoDup (l ++ [x]) <-> NoDup l /\ ~ In x l.
Proof.
  rewrite nodup_app. split.
  - intros (H & _ & D). split; [exact H|]. intro Hx. apply (D x Hx). now left.
  - intros [H D]. split; [exact H|]. split; [constructor; [intros []|constructor]|]. intros y Hy [<-|[]]. tauto.
Qed.
Lemma ngetm_insert T (m : nmap T) k v n w : ngetm (ninsert m k v) n = Some w <-> (n = k /\ w = v) \/ (n <> k /\ ngetm m n = Some w).
Proof.
  destruct (str_eq_dec n k) as [->|N].
  - rewrite ngetm_ninsert_same. split; [injection 1 as <-; now left|]. intros [[_ ->]|[N _]]; [reflexivity|tauto].
  - rewrite ngetm_ninsert_other by exact N. split; [tauto|]. intros [[-> _]|[_ H]]; [tauto|exact H].
Qed.

Section Steps.
  Variable sig : fsig.
  Hypothesis W : WfSig sig.
  Variable imp : fparam -> value -> Prop.

  Lemma give_positional gs v b s : Bound sig gs imp b -> LookedUp sig gs imp ->
    match add_positional_arg sig v b s with
    | Ok b' s' => s' = s /\ Bound sig (gs ++ [GPos v]) imp b'
    | Err e s' => s' = s /\ Objection sig (gs ++ [GPos v]) e
    | _ => False
    end.
  Proof.
    intros B L. destruct b as [count sp sn m]. pose proof (bd_count _ _ _ _ B) as Hc. cbn in Hc. subst count.
    unfold add_positional_arg. destruct (nth_error (s_positional sig) (length (positionals gs))) as [q|] eqn:Eq.
    - unfold bind. rewrite coerceM_eq. destruct (coerce (p_type q) v) as [w|e] eqn:Ew.
      + unfold ret. split; [reflexivity|].
        assert (Lt : length (positionals gs) < length (s_positional sig)) by (apply nth_error_Some; congruence).
        constructor; cbn [pp_count pp_spread_pos pp_spread_named pp_map]; rewrite ?positionals_app, ?nameds_app, ?contents_app; cbn [positionals nameds contents flat_map app];
          rewrite ?app_nil_r.
        * rewrite app_length. reflexivity.
        * intros p Hp. rewrite skipn_all2 by (rewrite app_length; cbn; lia). pose proof (bd_spread _ _ _ _ B p Hp) as F.
          rewrite skipn_all2 in F by lia. exact F.
        * apply (bd_collect _ _ _ _ B).
        * apply (bd_known _ _ _ _ B).
        * apply (bd_once _ _ _ _ B).
        * apply (bd_content _ _ _ _ B).
        * intros i p a Hp Ha. apply nth_error_snoc in Ha as [Ha|[-> ->]]; [apply (bd_pos_ok _ _ _ _ B i p a Hp Ha)|].
          rewrite Eq in Hp. injection Hp as ->. eauto.
        * apply (bd_named_ok _ _ _ _ B).
        * apply (bd_content_ok _ _ _ _ B).
        * intros n x. rewrite ngetm_insert, (bd_map _ _ _ _ B n x). split.
          -- intros [[-> ->]|[N (p & Hn & Hp)]].
             ++ exists q. split; [reflexivity|]. left. apply given_pos. right. tauto.
             ++ exists p. split; [exact Hn|]. destruct Hp as [Hp|Hp]; [left; apply given_pos; now left|now right].
          -- intros (p & <- & [Hp|Hp]).
             ++ apply given_pos in Hp as [Hp|[Hq Hw]].
                ** right. split; [|exists p; tauto]. intro E.
                   inversion Hp as [i ? a ? H1 H2 H3|? a ? H1 H2 H3|a ? H1 H2 H3]; subst.
                   --- pose proof (pos_pos sig W _ _ _ _ H1 Eq E) as ->. assert (length (positionals gs) < length (positionals gs)); [|lia].
                       apply nth_error_Some. congruence.
                   --- eapply (pos_named sig W q p); [eapply nth_error_In; exact Eq|exact H1|now symmetry].
                   --- eapply (pos_content sig W q); [eapply nth_error_In; exact Eq|split; [exact H1|reflexivity]|now symmetry].
                ** rewrite Eq in Hq. injection Hq as ->. rewrite Ew in Hw. injection Hw as ->. now left.
             ++ right. split; [|exists p; tauto]. destruct (L p x Hp) as [H1 _]. intro E.
                eapply (pos_named sig W q p); [eapply nth_error_In; exact Eq|exact H1|now symmetry].
        * apply ninsert_nodup. apply (bd_nodup _ _ _ _ B).
      + split; [reflexivity|]. eapply Ob_positional; [exact Eq| |exact Ew]. rewrite positionals_app. apply nth_error_snoc. now right.
    - assert (Ge : length (s_positional sig) <= length (positionals gs)) by (now apply nth_error_None).
      assert (Map : forall n x, ngetm m n = Some x <-> exists p, p_name p = n /\ (GivenTo sig (gs ++ [GPos v]) p x \/ imp p x)).
      { intros n x. rewrite (bd_map _ _ _ _ B n x). split; intros (p & Hn & Hp); exists p; (split; [exact Hn|]); rewrite given_pos in *.
        - tauto.
        - destruct Hp as [[Hp|[Hp _]]|Hp]; [tauto|congruence|tauto]. }
      assert (Ok_pos : forall i p a, nth_error (s_positional sig) i = Some p -> nth_error (positionals (gs ++ [GPos v])) i = Some a ->
        exists v, coerce (p_type p) a = inl v).
      { intros i p a Hp Ha. rewrite positionals_app in Ha. apply nth_error_snoc in Ha as [Ha|[-> ->]]; [apply (bd_pos_ok _ _ _ _ B i p a Hp Ha)|congruence]. }
      destruct (s_spread sig) as [q|] eqn:Es.
      + unfold bind. rewrite coerceM_eq. destruct (coerce (component_type (p_type q)) v) as [w|e] eqn:Ew.
        * unfold ret. split; [reflexivity|].
          constructor; cbn [pp_count pp_spread_pos pp_spread_named pp_map]; try assumption; rewrite ?positionals_app, ?nameds_app, ?contents_app;
            cbn [positionals nameds contents flat_map app]; rewrite ?app_nil_r.
          -- rewrite app_length. reflexivity.
          -- rewrite Es. intros p [= <-]. rewrite skipn_snoc. apply Nat.leb_le in Ge. rewrite Ge. apply Forall2_app; [|repeat constructor; exact Ew].
             apply (bd_spread _ _ _ _ B q Es).
          -- apply (bd_collect _ _ _ _ B).
          -- apply (bd_known _ _ _ _ B).
          -- apply (bd_once _ _ _ _ B).
          -- apply (bd_content _ _ _ _ B).
          -- apply (bd_named_ok _ _ _ _ B).
          -- apply (bd_content_ok _ _ _ _ B).
          -- apply (bd_nodup _ _ _ _ B).
        * split; [reflexivity|]. eapply Ob_further; [exact Es| |exact Ew]. rewrite positionals_app. cbn [positionals flat_map app]. rewrite skipn_snoc.
          apply Nat.leb_le in Ge. rewrite Ge, in_app_iff. right. now left.
      + unfold ret. split; [reflexivity|].
        constructor; cbn [pp_count pp_spread_pos pp_spread_named pp_map]; try assumption; rewrite ?positionals_app, ?nameds_app, ?contents_app;
          cbn [positionals nameds contents flat_map app]; rewrite ?app_nil_r.
        -- rewrite app_length. reflexivity.
        -- congruence.
        -- apply (bd_collect _ _ _ _ B).
        -- apply (bd_known _ _ _ _ B).
        -- apply (bd_once _ _ _ _ B).
        -- apply (bd_content _ _ _ _ B).
        -- apply (bd_named_ok _ _ _ _ B).
        -- apply (bd_content_ok _ _ _ _ B).
        -- apply (bd_nodup _ _ _ _ B).
  Qed.

  Lemma twice gs n v : In n (List.map fst (nameds gs)) -> Objection sig (gs ++ [GNamed n v]) (RuntimeErr (ParamMultipleValues n)).
  Proof.
    intro H. apply in_map_iff in H as ([n' a] & E & H). cbn in E. subst n'. apply in_split in H as (l1 & l2 & H).
    eapply Ob_twice with (l3 := []). rewrite nameds_app, H, <- app_assoc. reflexivity.
  Qed.
  Lemma given_key gs b p : Bound sig gs imp b -> LookedUp sig gs imp -> In p (nvalues (s_named sig)) ->
    (forall x, ~ imp p x) -> nhas (pp_map b) (p_name p) = true -> In (p_name p) (List.map fst (nameds gs)).
  Proof.
    intros B L Hp Hi H. apply nhas_true in H as [x H]. apply (bd_map _ _ _ _ B) in H as (q & E & Hq).
    assert (Hqp : q = p).
    { apply (params_inj sig W); [|now apply in_params_named|exact E]. destruct Hq as [Hq|Hq]; [eapply given_in; exact Hq|].
      apply in_params_named. now destruct (L q x Hq). }
    subst q. destruct Hq as [Hq|Hq]; [|now apply Hi in Hq].
    inversion Hq as [i ? a ? H1 H2 H3|? a ? H1 H2 H3|a ? H1 H2 H3]; subst.
    - exfalso. eapply (pos_named sig W p p); [eapply nth_error_In; exact H1|exact Hp|reflexivity].
    - apply in_map_iff. now exists (p_name p, a).
    - exfalso. eapply (named_content sig W (s_content sig) (s_content sig)); [exact Hp|split; [exact H1|reflexivity]|reflexivity].
  Qed.
  Lemma forall2_keys A B (P : A -> B -> Prop) (l : list (str * A)) (r : list (str * B)) :
    Forall2 (fun a w => fst a = fst w /\ P (snd a) (snd w)) l r -> List.map fst l = List.map fst r.
  Proof. induction 1 as [|a w l r [H _] _ IH]; cbn; congruence. Qed.
  Lemma filter_snoc A (f : A -> bool) l x : List.filter f (l ++ [x]) = List.filter f l ++ (if f x then [x] else []).
  Proof. rewrite filter_app. cbn. now destruct (f x). Qed.
  Lemma filter_keys (n : str) l : is_extra sig (n, UNIT) = true -> In n (List.map fst (List.filter (is_extra sig) l)) <-> In n (List.map fst l).
  Proof.
    intro E. rewrite !in_map_iff. split; intros ([k a] & <- & H); exists (k, a).
    - apply filter_In in H as [H _]. now split.
    - split; [reflexivity|]. apply filter_In. split; [exact H|]. exact E.
  Qed.
  Lemma ninsert_new T (m : nmap T) k v : ngetm m k = None -> ninsert m k v = m ++ [(k, v)].
  Proof.
    induction m as [|[k' v'] m IH]; cbn; [reflexivity|]. destruct (str_eqb k k'); [discriminate|]. intro H. now rewrite IH.
  Qed.

  Lemma give_named gs n v b s : Bound sig gs imp b -> LookedUp sig (gs ++ [GNamed n v]) imp ->
    match add_named_arg sig n v b s with
    | Ok b' s' => s' = s /\ Bound sig (gs ++ [GNamed n v]) imp b'
    | Err e s' => s' = s /\ Objection sig (gs ++ [GNamed n v]) e
    | _ => False
    end.
  Proof.
    intros B L'. pose proof (looked_up_less _ _ _ _ L') as L. destruct b as [count sp sn m].
    unfold add_named_arg. destruct (ngetm (s_named sig) n) as [q|] eqn:Eq.
    - apply (named_key sig W) in Eq as Eq'. destruct Eq' as [Hq Hn].
      unfold bind. rewrite coerceM_eq. destruct (coerce (p_type q) v) as [w|e] eqn:Ew.
      + assert (Hi : forall x, ~ imp q x).
        { intros x Hx. destruct (L' q x Hx) as [_ Hx']. apply Hx'. rewrite nameds_app, map_app, in_app_iff. right. left. now symmetry. }
        destruct (nhas m n) eqn:Eh.
        * unfold fail. split; [reflexivity|]. apply twice. subst n. eapply (given_key gs (Partials count sp sn m)); eassumption.
        * unfold ret. split; [reflexivity|]. apply nhas_false in Eh.
          assert (New : ~ In n (List.map fst (nameds gs))).
          { intro H. apply in_map_iff in H as ([k a] & E & H). cbn in E. subst k. destruct (bd_named_ok _ _ _ _ B q a) as [x Hx]; [exact Hq|now rewrite Hn|].
            assert (X : ngetm m n = Some x); [|congruence]. apply (bd_map _ _ _ _ B n x). exists q. split; [exact Hn|]. left.
            eapply Given_named; [exact Hq|rewrite Hn; exact H|exact Hx]. }
          assert (Ex : is_extra sig (n, v) = false) by (unfold is_extra, nhas; cbn; now rewrite Eq).
          constructor; cbn [pp_count pp_spread_pos pp_spread_named pp_map]; rewrite ?positionals_app, ?nameds_app, ?contents_app;
            cbn [positionals nameds contents flat_map app]; rewrite ?app_nil_r.
          -- apply (bd_count _ _ _ _ B).
          -- apply (bd_spread _ _ _ _ B).
          -- rewrite filter_snoc, Ex, app_nil_r. apply (bd_collect _ _ _ _ B).
          -- intros Hs k. rewrite map_app, in_app_iff. intros [H|[<-|[]]]; [apply (bd_known _ _ _ _ B Hs k H)|]. cbn [fst].
             destruct (in_dec str_eq_dec n (nkeys (s_named sig))) as [H|H]; [exact H|]. apply named_none in H. congruence.
          -- rewrite map_app. apply nodup_snoc. split; [apply (bd_once _ _ _ _ B)|exact New].
          -- apply (bd_content _ _ _ _ B).
          -- apply (bd_pos_ok _ _ _ _ B).
          -- intros p a Hp Ha. apply in_app_iff in Ha as [Ha|[Ha|[]]]; [apply (bd_named_ok _ _ _ _ B p a Hp Ha)|]. injection Ha as E <-.
             assert (p = q) as -> by (apply (params_inj sig W); [now apply in_params_named|now apply in_params_named|congruence]). eauto.
          -- apply (bd_content_ok _ _ _ _ B).
          -- intros k x. rewrite ngetm_insert, (bd_map _ _ _ _ B k x). split.
             ++ intros [[-> ->]|[N (p & Hk & Hp)]].
                ** exists q. split; [exact Hn|]. left. apply given_named. right. tauto.
                ** exists p. split; [exact Hk|]. rewrite given_named. tauto.
             ++ intros (p & <- & Hp). rewrite given_named in Hp. destruct Hp as [[Hp|(Hp & En & Hw)]|Hp].
                ** right. split; [|exists p; tauto]. intro E. assert (X : ngetm m n = Some x); [|congruence].
                   apply (bd_map _ _ _ _ B n x). exists p. tauto.
                ** assert (p = q) as -> by (apply (params_inj sig W); [now apply in_params_named|now apply in_params_named|congruence]).
                   left. split; [exact En|congruence].
                ** right. split; [|exists p; tauto]. intro E. assert (X : ngetm m n = Some x); [|congruence].
                   apply (bd_map _ _ _ _ B n x). exists p. tauto.
          -- apply ninsert_nodup. apply (bd_nodup _ _ _ _ B).
      + split; [reflexivity|]. eapply Ob_named; [exact Hq| |exact Ew]. rewrite nameds_app, in_app_iff. right. left. now rewrite Hn.
    - assert (Nk : ~ In n (nkeys (s_named sig))) by (now apply named_none).
      destruct (s_spread_named sig) as [q|] eqn:Es.
      + unfold bind. rewrite coerceM_eq. destruct (coerce (component_type (p_type q)) v) as [w|e] eqn:Ew.
        * pose proof (bd_collect _ _ _ _ B q Es) as Fc. cbn [pp_spread_named] in Fc. pose proof (forall2_keys _ _ (fun a w => coerce (component_type (p_type q)) a = inl w) _ _ Fc) as Ks.
          assert (Ex : forall v, is_extra sig (n, v) = true) by (intro; unfold is_extra, nhas; cbn; now rewrite Eq).
          destruct (nhas sn n) eqn:Eh.
          -- unfold fail. split; [reflexivity|]. apply twice. apply nhas_true in Eh as [x Hx].
             apply (filter_keys n (nameds gs) (Ex _)). rewrite Ks. apply in_map_iff. exists (n, x). split; [reflexivity|]. now apply ngetm_In.
          -- unfold ret. split; [reflexivity|]. apply nhas_false in Eh.
             assert (New : ~ In n (List.map fst (nameds gs))).
             { intro H. apply (filter_keys n (nameds gs) (Ex _)) in H. rewrite Ks in H. now apply ngetm_None in Eh. }
             constructor; cbn [pp_count pp_spread_pos pp_spread_named pp_map]; rewrite ?positionals_app, ?nameds_app, ?contents_app;
               cbn [positionals nameds contents flat_map app]; rewrite ?app_nil_r.
             ++ apply (bd_count _ _ _ _ B).
             ++ apply (bd_spread _ _ _ _ B).
             ++ rewrite Es. intros p [= <-]. rewrite filter_snoc, Ex, ninsert_new by exact Eh. apply Forall2_app; [exact Fc|].
                repeat constructor. exact Ew.
             ++ congruence.
             ++ rewrite map_app. apply nodup_snoc. split; [apply (bd_once _ _ _ _ B)|exact New].
             ++ apply (bd_content _ _ _ _ B).
             ++ apply (bd_pos_ok _ _ _ _ B).
             ++ intros p a Hp Ha. apply in_app_iff in Ha as [Ha|[Ha|[]]]; [apply (bd_named_ok _ _ _ _ B p a Hp Ha)|]. injection Ha as E <-.
                exfalso. apply Nk. rewrite (ws_keys _ W), E. now apply in_map.
             ++ apply (bd_content_ok _ _ _ _ B).
             ++ intros k x. rewrite (bd_map _ _ _ _ B k x). split; intros (p & <- & Hp); exists p; (split; [reflexivity|]); rewrite given_named in *; [tauto|].
                destruct Hp as [[Hp|(Hp & En & _)]|Hp]; [tauto| |tauto]. exfalso. apply Nk. rewrite (ws_keys _ W), <- En. now apply in_map.
             ++ apply (bd_nodup _ _ _ _ B).
        * split; [reflexivity|]. eapply Ob_collected; [exact Es| |exact Nk|exact Ew]. rewrite nameds_app, in_app_iff. right. now left.
      + unfold fail. split; [reflexivity|]. apply Ob_unknown; [|exact Nk|exact Es]. rewrite nameds_app, map_app, in_app_iff. right. now left.
  Qed.

  Lemma content_bound gs b : Bound sig gs imp b -> LookedUp sig gs imp ->
    nhas (pp_map b) (p_name (s_content sig)) = has_content sig && match contents gs with [] => false | _ => true end.
  Proof.
    intros B L. destruct (has_content sig) eqn:Hc; cbn [andb].
    - destruct (contents gs) as [|a l] eqn:E.
      + apply nhas_false. destruct (ngetm (pp_map b) (p_name (s_content sig))) as [x|] eqn:Ex; [|reflexivity]. exfalso.
        apply (bd_map _ _ _ _ B) in Ex as (q & Eq & Hq). destruct Hq as [Hq|Hq].
        * assert (q = s_content sig) as -> by (apply (params_inj sig W); [eapply given_in; exact Hq|now apply in_params_content|exact Eq]).
          inversion Hq as [i ? a ? H1 H2 H3|? a ? H1 H2 H3|a ? H1 H2 H3]; subst.
          -- eapply (pos_content sig W (s_content sig) (s_content sig)); [eapply nth_error_In; exact H1|now split|reflexivity].
          -- eapply (named_content sig W (s_content sig) (s_content sig)); [exact H1|now split|reflexivity].
          -- rewrite E in H2. discriminate.
        * destruct (L q x Hq) as [H1 _]. eapply (named_content sig W q (s_content sig)); [exact H1|now split|exact Eq].
      + apply nhas_true. destruct (bd_content_ok _ _ _ _ B a) as [x Hx]; [now rewrite E|]. exists x. apply (bd_map _ _ _ _ B). exists (s_content sig).
        split; [reflexivity|]. left. eapply Given_content; [exact Hc|rewrite E; reflexivity|exact Hx].
    - apply nhas_false. destruct (ngetm (pp_map b) (p_name (s_content sig))) as [x|] eqn:Ex; [|reflexivity]. exfalso.
      apply (bd_map _ _ _ _ B) in Ex as (q & Eq & Hq). apply (anonymous_free sig W q).
      + destruct Hq as [Hq|Hq]; [eapply given_in; exact Hq|]. apply in_params_named. now destruct (L q x Hq).
      + rewrite Eq. unfold has_content in Hc. destruct (is_anonymous (p_name (s_content sig))) eqn:Ea; [|discriminate]. now apply str_eqb_eq.
  Qed.

  Lemma give_content gs v b s : Bound sig gs imp b -> LookedUp sig gs imp ->
    match add_content_arg sig v b s with
    | Ok b' s' => s' = s /\ Bound sig (gs ++ [GContent v]) imp b'
    | Err e s' => s' = s /\ Objection sig (gs ++ [GContent v]) e
    | _ => False
    end.
  Proof.
    intros B L. unfold add_content_arg. rewrite (content_bound gs b B L).
    destruct (has_content sig && match contents gs with [] => false | _ => true end) eqn:E.
    - apply andb_prop in E as [Hc Hn]. destruct (is_unit v) eqn:U.
      + unfold ret. split; [reflexivity|]. apply is_unit_spec in U as ->.
        constructor; rewrite ?positionals_app, ?nameds_app, ?contents_app; cbn [positionals nameds contents flat_map app]; rewrite ?app_nil_r;
          try (now apply B).
        * rewrite Hc. pose proof (bd_content _ _ _ _ B) as F. rewrite Hc in F. destruct (contents gs); [discriminate|]. cbn. apply Forall_app. split; [exact F|]. now repeat constructor.
        * intros a Ha. apply (bd_content_ok _ _ _ _ B). destruct (contents gs); [discriminate|exact Ha].
        * intros n x. rewrite (bd_map _ _ _ _ B n x). split; intros (p & Hp & H); exists p; (split; [exact Hp|]); rewrite given_content in *; [tauto|].
          destruct H as [[H|(H & _)]|H]; [tauto| |tauto]. rewrite H in Hn. discriminate.
      + unfold fail. split; [reflexivity|]. apply is_unit_false in U. eapply Ob_again; [exact Hc| |exact U]. rewrite contents_app.
        destruct (contents gs); [discriminate|]. cbn. rewrite in_app_iff. right. now left.
    - unfold bind. rewrite coerceM_eq. destruct (coerce (p_type (s_content sig)) v) as [w|e] eqn:Ew.
      + unfold ret. split; [reflexivity|]. destruct (has_content sig) eqn:Hc; cbn [andb] in E.
        * destruct (contents gs) as [|? ?] eqn:En; [|discriminate]. pose proof Hc as Hc'. unfold has_content in Hc. apply negb_true_iff in Hc. rewrite Hc.
          destruct b as [count sp sn m]. cbn [pp_set_map pp_map].
          constructor; cbn [pp_count pp_spread_pos pp_spread_named pp_map]; rewrite ?positionals_app, ?nameds_app, ?contents_app; cbn [positionals nameds contents flat_map app]; rewrite ?app_nil_r;
            try (now apply B).
          -- rewrite Hc', En. constructor.
          -- intros a. rewrite En. injection 1 as <-. eauto.
          -- intros n x. rewrite ngetm_insert, (bd_map _ _ _ _ B n x). split.
             ++ intros [[-> ->]|[N (p & Hk & Hp)]].
                ** exists (s_content sig). split; [reflexivity|]. left. apply given_content. right. tauto.
                ** exists p. split; [exact Hk|]. rewrite given_content. tauto.
             ++ intros (p & <- & Hp). rewrite given_content in Hp.
                pose proof (content_bound gs _ B L) as Cb. rewrite Hc', En in Cb. cbn [pp_map andb] in Cb. apply nhas_false in Cb.
                destruct Hp as [[Hp|(_ & _ & -> & Hw)]|Hp]; [| |].
                ** right. split; [|exists p; tauto]. intro E'. assert (X : ngetm m (p_name (s_content sig)) = Some x); [|congruence].
                   apply (bd_map _ _ _ _ B). exists p. tauto.
                ** left. split; [reflexivity|congruence].
                ** right. split; [|exists p; tauto]. intro E'. assert (X : ngetm m (p_name (s_content sig)) = Some x); [|congruence].
                   apply (bd_map _ _ _ _ B). exists p. tauto.
          -- apply ninsert_nodup. apply (bd_nodup _ _ _ _ B).
        * pose proof Hc as Hc'. unfold has_content in Hc. apply negb_false_iff in Hc. rewrite Hc.
          rewrite (ws_no_content _ W Hc') in Ew. cbn in Ew. destruct (is_unit v) eqn:U; [|discriminate]. injection Ew as <-. apply is_unit_spec in U as ->.
          constructor; rewrite ?positionals_app, ?nameds_app, ?contents_app; cbn [positionals nameds contents flat_map app]; rewrite ?app_nil_r;
            try (now apply B).
          -- rewrite Hc'. pose proof (bd_content _ _ _ _ B) as F. rewrite Hc' in F. apply Forall_app. split; [exact F|]. now repeat constructor.
          -- intros a Ha. destruct (contents gs) eqn:Ec; [|apply (bd_content_ok _ _ _ _ B); rewrite Ec; exact Ha]. injection Ha as <-.
             rewrite (ws_no_content _ W Hc'). now exists UNIT.
          -- intros n x. rewrite (bd_map _ _ _ _ B n x). split; intros (p & Hp & H); exists p; (split; [exact Hp|]); rewrite given_content in *; [tauto|].
             destruct H as [[H|(_ & H & _)]|H]; [tauto|congruence|tauto].
      + split; [reflexivity|]. eapply Ob_content; [|exact Ew]. rewrite contents_app. destruct (has_content sig); [|rewrite in_app_iff; right; now left].
        cbn [andb] in E. destruct (contents gs); [now left|discriminate].
  Qed.

  Lemma give_spec gs g b s : Bound sig gs imp b -> LookedUp sig (gs ++ [g]) imp ->
    match give sig g b s with
    | Ok b' s' => s' = s /\ Bound sig (gs ++ [g]) imp b'
    | Err e s' => s' = s /\ Objection sig (gs ++ [g]) e
    | _ => False
    end.
  Proof.
    intros B L. pose proof (looked_up_less _ _ _ _ L) as L'. destruct g; cbn [give].
    - now apply give_positional.
    - now apply give_named.
    - now apply give_content.
  Qed.
  Lemma give_all_spec more : forall gs b s, Bound sig gs imp b -> LookedUp sig (gs ++ more) imp ->
    match give_all sig more b s with
    | Ok b' s' => s' = s /\ Bound sig (gs ++ more) imp b'
    | Err e s' => s' = s /\ Objection sig (gs ++ more) e
    | _ => False
    end.
  Proof.
    induction more as [|g more IH]; intros gs b s B L; cbn [give_all].
    - unfold ret. rewrite app_nil_r. now split.
    - assert (E : gs ++ g :: more = (gs ++ [g]) ++ more) by now rewrite <- app_assoc.
      assert (L1 : LookedUp sig (gs ++ [g]) imp).
      { intros p v Hi. destruct (L p v Hi) as [H1 H2]. split; [exact H1|]. intro H. apply H2. rewrite E, nameds_app, map_app, in_app_iff. now left. }
      pose proof (give_spec gs g b s B L1) as H. unfold bind. destruct (give sig g b s) as [b' s'|e s'| |].
      + destruct H as [-> B']. rewrite E in *. apply IH; assumption.
      + destruct H as [-> O]. split; [reflexivity|]. rewrite E. now apply objection_more.
      + destruct H.
      + destruct H.
  Qed.
End Steps.

(** ** Implicit parameters *)
Definition FromScope (sig : fsig) (gs : list given) (s : st) (ps : list fparam) (p : fparam) (v : value) : Prop :=
  In p ps /\ p_implicit p = true /\ ~ In (p_name p) (List.map fst (nameds gs)) /\ from_scope s p v.

Lemma bound_ext sig gs imp imp' b : (forall p v, imp p v <-> imp' p v) -> Bound sig gs imp b -> Bound sig gs imp' b.
Proof.
  intros H B. constructor; try (now apply B). intros n v. rewrite (bd_map _ _ _ _ B). split; intros (p & Hn & Hp); exists p; (split; [exact Hn|]);
    [rewrite <- H|rewrite H]; exact Hp.
Qed.
Lemma get_implicit_cases n d s : st_stack s <> [] ->
  (exists v, get_implicit n d s = Ok v s) \/
  (exists e, get_implicit n d s = Err e s /\ d = None /\ (e = RuntimeErr (ParamExistsButNotImplicit n) \/ e = RuntimeErr (ParamMissingImplicit n))).
Proof.
  intro H. destruct (st_stack s) as [|i k] eqn:E; [tauto|]. rewrite (get_implicit_eq n d s i k E).
  destruct (frame_get (st_heap s) i n true) as [v|]; [eauto|]. destruct d as [v|]; [eauto|]. right.
  destruct (frame_get (st_heap s) i n false); eauto.
Qed.

Lemma bind_implicits_given sig gs s : WfSig sig -> st_stack s <> [] -> forall ps imp b,
  NoDup (List.map p_name ps) -> incl ps (nvalues (s_named sig)) -> (forall p v, In p ps -> ~ imp p v) ->
  Bound sig gs imp b -> LookedUp sig gs imp ->
  match bind_implicits ps b s with
  | Ok b' s' => s' = s /\ Bound sig gs (fun p v => imp p v \/ FromScope sig gs s ps p v) b' /\
      forall p, In p ps -> p_implicit p = true -> ~ In (p_name p) (List.map fst (nameds gs)) -> exists v, from_scope s p v
  | Err e s' => s' = s /\ exists p, In p ps /\ p_implicit p = true /\ ~ In (p_name p) (List.map fst (nameds gs)) /\ p_default p = None /\
      (e = RuntimeErr (ParamExistsButNotImplicit (p_name p)) \/ e = RuntimeErr (ParamMissingImplicit (p_name p))) /\
      forall v, ~ from_scope s p v
  | _ => False
  end.
Proof.
  intros W Hs. induction ps as [|q ps IH]; intros imp b Hd Hin Hno B L; cbn [bind_implicits].
  - unfold ret. split; [reflexivity|]. split; [|intros p []]. eapply bound_ext; [|exact B]. intros p v. unfold FromScope. cbn. tauto.
  - inversion Hd as [|? ? Nq Hd']; subst. assert (Hq : In q (nvalues (s_named sig))) by (apply Hin; now left).
    assert (Hin' : incl ps (nvalues (s_named sig))) by (intros x Hx; apply Hin; now right).
    assert (Given : nhas (pp_map b) (p_name q) = true <-> In (p_name q) (List.map fst (nameds gs))).
    { split.
      - intro H. eapply (given_key sig W imp gs b q B L Hq); [intro x; apply Hno; now left|exact H].
      - intro H. apply in_map_iff in H as ([k a] & E & H). cbn in E. subst k. destruct (bd_named_ok _ _ _ _ B q a Hq H) as [x Hx].
        apply nhas_true. exists x. apply (bd_map _ _ _ _ B). exists q. split; [reflexivity|]. left. eapply Given_named; eassumption. }
    destruct (negb (p_implicit q) || nhas (pp_map b) (p_name q)) eqn:Eb.
    + specialize (IH imp b Hd' Hin' (fun p v Hp => Hno p v (or_intror Hp)) B L).
      assert (Skip : p_implicit q = true -> ~ In (p_name q) (List.map fst (nameds gs)) -> False).
      { intros H1 H2. rewrite H1 in Eb. cbn in Eb. apply Given in Eb. tauto. }
      destruct (bind_implicits ps b s) as [b' s'|e s'| |]; [| |exact IH|exact IH].
      * destruct IH as (-> & B' & Hv). split; [reflexivity|]. split.
        -- eapply bound_ext; [|exact B']. intros p v. unfold FromScope. cbn [In]. split; [tauto|].
           intros [H|([<-|H1] & H2 & H3 & H4)]; [tauto|exfalso; now apply Skip|tauto].
        -- intros p [<-|Hp] H1 H2; [exfalso; now apply Skip|now apply Hv].
      * destruct IH as (-> & p & Hp & H). split; [reflexivity|]. exists p. split; [now right|exact H].
    + apply orb_false_iff in Eb as [Ei Eh]. apply negb_false_iff in Ei. assert (Ng : ~ In (p_name q) (List.map fst (nameds gs))).
      { intro H. apply Given in H. congruence. }
      unfold bind. destruct (get_implicit_cases (p_name q) (p_default q) s Hs) as [[v Ev]|(e & Ee & Ed & He)].
      * rewrite Ev. set (imp1 := fun p x => imp p x \/ (p = q /\ x = v)).
        assert (B1 : Bound sig gs imp1 (pp_set_map (ninsert (pp_map b) (p_name q) v) b)).
        { destruct b as [count sp sn m]. cbn [pp_set_map pp_map] in *. apply nhas_false in Eh. constructor; try (now apply B); cbn [pp_map].
          - intros n x. rewrite ngetm_insert. unfold imp1. rewrite (bd_map _ _ _ _ B n x). split.
            + intros [[-> ->]|[N (p & Hn & Hp)]]; [exists q; tauto|exists p; tauto].
            + intros (p & <- & Hp). destruct (str_eq_dec (p_name p) (p_name q)) as [E|N].
              * left. split; [exact E|]. destruct Hp as [Hp|[Hp|[_ ->]]]; [| |reflexivity]; exfalso.
                -- assert (X : ngetm m (p_name q) = Some x); [|congruence]. apply (bd_map _ _ _ _ B). exists p. tauto.
                -- assert (X : ngetm m (p_name q) = Some x); [|congruence]. apply (bd_map _ _ _ _ B). exists p. tauto.
              * right. split; [exact N|]. exists p. split; [reflexivity|]. destruct Hp as [Hp|[Hp|[-> _]]]; tauto.
          - apply ninsert_nodup. apply (bd_nodup _ _ _ _ B). }
        assert (L1 : LookedUp sig gs imp1).
        { intros p x [Hp|[-> _]]; [now apply (L p x)|now split]. }
        assert (Hno1 : forall p x, In p ps -> ~ imp1 p x).
        { intros p x Hp [H|[-> _]]; [apply (Hno p x); [now right|exact H]|]. apply Nq. now apply in_map. }
        specialize (IH imp1 _ Hd' Hin' Hno1 B1 L1).
        destruct (bind_implicits ps _ s) as [b' s'|e s'| |]; [| |exact IH|exact IH].
        -- destruct IH as (-> & B' & Hv). split; [reflexivity|]. split.
           ++ eapply bound_ext; [|exact B']. intros p x. unfold imp1, FromScope, from_scope. cbn [In]. split.
              ** intros [[H|[-> ->]]|H]; [tauto|right|right; tauto]. split; [now left|]. split; [exact Ei|]. split; [exact Ng|exact Ev].
              ** intros [H|([<-|H1] & H2 & H3 & H4)]; [tauto| |tauto]. left. right. split; [reflexivity|]. rewrite Ev in H4. now injection H4.
           ++ intros p [<-|Hp] H1 H2; [now exists v|now apply Hv].
        -- destruct IH as (-> & p & Hp & H). split; [reflexivity|]. exists p. split; [now right|exact H].
      * rewrite Ee. split; [reflexivity|]. exists q. split; [now left|]. split; [exact Ei|]. split; [exact Ng|]. split; [exact Ed|].
        split; [tauto|]. intros v Hv. unfold from_scope in Hv. congruence.
Qed.

(** ** Filling in defaults *)
Lemma fill_positional_spec sig count ps : NoDup (List.map p_name ps) -> forall map s, NoDup (nkeys map) ->
  match fill_positional sig count ps map s with
  | Ok m s' => s' = s /\ NoDup (nkeys m) /\ (forall p, In p ps -> exists v, p_default p = Some v /\ ngetm m (p_name p) = Some v) /\
      (forall n, ~ In n (List.map p_name ps) -> ngetm m n = ngetm map n)
  | Err e s' => s' = s /\ (exists p, In p ps /\ p_default p = None) /\
      e = TypeErr (NotEnoughPositionalArgs
        (length (List.filter (fun p => match p_default p with None => true | Some _ => false end) (s_positional sig))) count)
  | _ => False
  end.
Proof.
  induction ps as [|q ps IH]; intros Hd map s Hm; cbn [fill_positional].
  - unfold ret. split; [reflexivity|]. split; [exact Hm|]. split; [intros p []|reflexivity].
  - inversion Hd as [|? ? Nq Hd']; subst. destruct (p_default q) as [v|] eqn:Ed.
    + specialize (IH Hd' (ninsert map (p_name q) v) s (ninsert_nodup _ _ _ _ Hm)).
      destruct (fill_positional sig count ps _ s) as [m s'|e s'| |]; [| |exact IH|exact IH].
      * destruct IH as (-> & H1 & H2 & H3). split; [reflexivity|]. split; [exact H1|]. split.
        -- intros p [<-|Hp]; [|now apply H2]. exists v. split; [exact Ed|]. rewrite H3 by exact Nq. apply ngetm_ninsert_same.
        -- intros n Hn. rewrite H3 by (intro; apply Hn; now right). apply ngetm_ninsert_other. intros ->. apply Hn. now left.
      * destruct IH as (-> & (p & Hp & H) & E). split; [reflexivity|]. split; [|exact E]. exists p. split; [now right|exact H].
    + unfold fail. split; [reflexivity|]. split; [|reflexivity]. exists q. split; [now left|exact Ed].
Qed.
Lemma fill_named_spec ps : NoDup (List.map p_name ps) -> forall map s, NoDup (nkeys map) ->
  match fill_named ps map s with
  | Ok m s' => s' = s /\ NoDup (nkeys m) /\
      (forall p, In p ps -> ngetm map (p_name p) = None -> exists v, p_default p = Some v /\ ngetm m (p_name p) = Some v) /\
      (forall n v, ngetm map n = Some v -> ngetm m n = Some v) /\
      (forall n, ~ In n (List.map p_name ps) -> ngetm m n = ngetm map n)
  | Err e s' => s' = s /\ exists p, In p ps /\ ngetm map (p_name p) = None /\ p_default p = None /\ e = RuntimeErr (ParamMissing (p_name p))
  | _ => False
  end.
Proof.
  induction ps as [|q ps IH]; intros Hd map s Hm; cbn [fill_named].
  - unfold ret. split; [reflexivity|]. split; [exact Hm|]. split; [intros p []|]. split; auto.
  - inversion Hd as [|? ? Nq Hd']; subst. destruct (nhas map (p_name q)) eqn:Eh.
    + specialize (IH Hd' map s Hm). destruct (fill_named ps map s) as [m s'|e s'| |]; [| |exact IH|exact IH].
      * destruct IH as (-> & H1 & H2 & H3 & H4). split; [reflexivity|]. split; [exact H1|]. split; [|split; [exact H3|]].
        -- intros p [<-|Hp] Hn; [|now apply H2]. apply nhas_true in Eh as [x Hx]. congruence.
        -- intros n Hn. apply H4. intro. apply Hn. now right.
      * destruct IH as (-> & p & Hp & H). split; [reflexivity|]. exists p. split; [now right|exact H].
    + apply nhas_false in Eh. destruct (p_default q) as [v|] eqn:Ed.
      * specialize (IH Hd' (ninsert map (p_name q) v) s (ninsert_nodup _ _ _ _ Hm)).
        assert (Other : forall p, In p ps -> p_name p <> p_name q) by (intros p Hp E; apply Nq; rewrite <- E; now apply in_map).
        destruct (fill_named ps _ s) as [m s'|e s'| |]; [| |exact IH|exact IH].
        -- destruct IH as (-> & H1 & H2 & H3 & H4). split; [reflexivity|]. split; [exact H1|]. split; [|split].
           ++ intros p [<-|Hp] Hn; [|apply H2; [exact Hp|rewrite ngetm_ninsert_other; auto]]. exists v. split; [exact Ed|]. apply H3. apply ngetm_ninsert_same.
           ++ intros n x Hx. apply H3. rewrite ngetm_ninsert_other; [exact Hx|]. intros ->. congruence.
           ++ intros n Hn. rewrite H4 by (intro; apply Hn; now right). apply ngetm_ninsert_other. intros ->. apply Hn. now left.
        -- destruct IH as (-> & p & Hp & Hn & H). split; [reflexivity|]. exists p. split; [now right|]. split; [|exact H].
           rewrite ngetm_ninsert_other in Hn by (now apply Other). exact Hn.
      * unfold fail. split; [reflexivity|]. exists q. split; [now left|]. tauto.
Qed.

(** ** The whole call *)
Definition scope_of (sig : fsig) (s : st) := from_scope s.
Lemma params_cases sig p : In p (params sig) -> In p (s_positional sig) \/ s_spread sig = Some p \/ In p (nvalues (s_named sig)) \/
  s_spread_named sig = Some p \/ (has_content sig = true /\ p = s_content sig).
Proof.
  unfold params. rewrite !in_app_iff. intros [H|[H|[H|[H|H]]]]; [tauto| |tauto| |].
  - destruct (s_spread sig); [|destruct H]. destruct H as [<-|[]]. tauto.
  - destruct (s_spread_named sig); [|destruct H]. destruct H as [<-|[]]. tauto.
  - destruct (has_content sig); [|destruct H]. destruct H as [<-|[]]. tauto.
Qed.
Lemma nodup_skipn A n (l : list A) : NoDup l -> NoDup (skipn n l).
Proof. intro H. rewrite <- (firstn_skipn n l) in H. apply nodup_app in H. tauto. Qed.
Lemma nth_error_skipn' A n (l : list A) x : In x (skipn n l) -> exists i, n <= i /\ nth_error l i = Some x.
Proof.
  revert l. induction n as [|n IH]; intros l H.
  - apply In_nth_error in H as [i H]. exists i. split; [lia|exact H].
  - destruct l as [|y l]; [destruct H|]. apply IH in H as (i & Hi & H). exists (S i). split; [lia|exact H].
Qed.
Lemma nth_error_in_skipn A n (l : list A) i x : nth_error l i = Some x -> n <= i -> In x (skipn n l).
Proof.
  revert l i. induction n as [|n IH]; intros l i H Hi; [eapply nth_error_In; exact H|].
  destruct l as [|y l]; [destruct i; discriminate|]. destruct i as [|i]; [lia|]. cbn in *. eapply IH; [exact H|lia].
Qed.

Lemma build_spec sig gs scope implicits b s : WfSig sig ->
  Bound sig gs (fun p v => In p (nvalues (s_named sig)) /\ implicits && p_implicit p = true /\ ~ In (p_name p) (List.map fst (nameds gs)) /\ scope p v) b ->
  (forall p, In p (nvalues (s_named sig)) -> implicits && p_implicit p = true -> ~ In (p_name p) (List.map fst (nameds gs)) -> exists v, scope p v) ->
  contents gs <> [] ->
  match build sig b s with
  | Ok m s' => s' = s /\ Binds sig gs scope implicits m /\ Acceptable sig gs scope implicits
  | Err e s' => s' = s /\ Complaint sig gs scope implicits e
  | _ => False
  end.
Proof.
  intros W B Hscope Hc. set (imp := fun p v => _) in B.
  assert (L : LookedUp sig gs imp) by (intros p v (H1 & H2 & H3 & H4); now split).
  pose proof (ws_distinct _ W) as D. unfold params in D. rewrite !map_app in D. apply nodup_app in D as (D1 & D & _).
  apply nodup_app in D as (_ & D & _). apply nodup_app in D as (D3 & _ & _).
  unfold build, bind at 1, check_pos_count. rewrite (bd_count _ _ _ _ B).
  destruct (match s_spread sig with None => true | Some _ => false end && (length (s_positional sig) <? length (positionals gs))) eqn:Ect.
  { unfold fail. split; [reflexivity|]. apply andb_prop in Ect as [E1 E2]. apply Nat.ltb_lt in E2. cbn. destruct (s_spread sig); [discriminate|]. tauto. }
  unfold ret at 1. destruct b as [count sp sn m0]. pose proof (bd_count _ _ _ _ B) as Hcount. cbn in Hcount. subst count.
  assert (Count : s_spread sig = None -> length (positionals gs) <= length (s_positional sig)).
  { intro E. rewrite E in Ect. cbn in Ect. apply Nat.ltb_ge in Ect. exact Ect. }
  (* the spread parameter *)
  set (step1 := match s_spread sig with Some param => _ | None => _ end).
  assert (S1 : match step1 s with
    | Ok m s' => s' = s /\ NoDup (nkeys m) /\ (forall p, s_spread sig = Some p -> exists v, ngetm m (p_name p) = Some v /\ Collects sig gs p v) /\
        (forall n, (forall p, s_spread sig = Some p -> p_name p <> n) -> ngetm m n = ngetm m0 n)
    | Err e s' => s' = s /\ Complaint sig gs scope implicits e
    | _ => False end).
  { unfold step1. destruct (s_spread sig) as [q|] eqn:Es.
    - unfold bind. rewrite coerceM_eq. pose proof (bd_spread _ _ _ _ B q Es) as F. cbn [pp_spread_pos] in F.
      destruct (coerce (p_type q) (VList sp)) as [w|e] eqn:Ew.
      + unfold ret. split; [reflexivity|]. split; [apply ninsert_nodup; apply (bd_nodup _ _ _ _ B)|]. split.
        * intros p [= <-]. exists w. split; [apply ngetm_ninsert_same|]. eapply Collects_positional; eassumption.
        * intros n Hn. apply ngetm_ninsert_other. intros ->. now apply (Hn q).
      + split; [reflexivity|]. destruct (coerce_error _ _ _ Ew) as (t1 & t2 & ->). cbn. right; right; left. eauto 6.
    - unfold ret. split; [reflexivity|]. split; [apply (bd_nodup _ _ _ _ B)|]. split; [discriminate|reflexivity]. }
  unfold bind at 1. destruct (step1 s) as [m1 s1|e1 s1| |]; [|exact S1|exact S1|exact S1]. clear step1. destruct S1 as (-> & N1 & V1 & O1).
  (* the named spread parameter *)
  set (step2 := match s_spread_named sig with Some param => _ | None => _ end).
  assert (S2 : match step2 s with
    | Ok m s' => s' = s /\ NoDup (nkeys m) /\ (forall p, s_spread_named sig = Some p -> exists v, ngetm m (p_name p) = Some v /\ Collects sig gs p v) /\
        (forall n, (forall p, s_spread_named sig = Some p -> p_name p <> n) -> ngetm m n = ngetm m1 n)
    | Err e s' => s' = s /\ Complaint sig gs scope implicits e
    | _ => False end).
  { unfold step2. destruct (s_spread_named sig) as [q|] eqn:Es.
    - unfold bind. rewrite coerceM_eq. pose proof (bd_collect _ _ _ _ B q Es) as F. cbn [pp_spread_named] in F.
      destruct (coerce (p_type q) (VDict sn)) as [w|e] eqn:Ew.
      + unfold ret. split; [reflexivity|]. split; [apply ninsert_nodup; exact N1|]. split.
        * intros p [= <-]. exists w. split; [apply ngetm_ninsert_same|]. eapply Collects_named; eassumption.
        * intros n Hn. apply ngetm_ninsert_other. intros ->. now apply (Hn q).
      + split; [reflexivity|]. destruct (coerce_error _ _ _ Ew) as (t1 & t2 & ->). cbn. do 5 right; left. eauto 6.
    - unfold ret. split; [reflexivity|]. split; [exact N1|]. split; [discriminate|reflexivity]. }
  unfold bind at 1. destruct (step2 s) as [m2 s2|e2 s2| |]; [|exact S2|exact S2|exact S2]. clear step2. destruct S2 as (-> & N2 & V2 & O2).
  (* no crash *)
  assert (C0 : has_content sig = true -> exists v, ngetm m0 (p_name (s_content sig)) = Some v /\ GivenTo sig gs (s_content sig) v).
  { intro Hh. destruct (contents gs) as [|a l] eqn:El; [tauto|]. destruct (bd_content_ok _ _ _ _ B a) as [x Hx]; [now rewrite El|].
    assert (G : GivenTo sig gs (s_content sig) x) by (eapply Given_content; [exact Hh|rewrite El; reflexivity|exact Hx]).
    exists x. split; [|exact G]. apply (bd_map _ _ _ _ B). exists (s_content sig). tauto. }
  assert (Keep2 : forall n v, ngetm m0 n = Some v -> ngetm m2 n = Some v).
  { intros n v H. pose proof H as H'. apply (bd_map _ _ _ _ B) in H' as (q & En & Hq).
    assert (Hp1 : forall p, s_spread sig = Some p -> p_name p <> n).
    { intros p Hp E. rewrite <- En in E. destruct Hq as [Hq|Hq].
      - inversion Hq as [i ? a ? G1 G2 G3|? a ? G1 G2 G3|a ? G1 G2 G3]; subst.
        + eapply (pos_spread sig W q p); [eapply nth_error_In; exact G1|exact Hp|now symmetry].
        + eapply (spread_named sig W p q); [exact Hp|exact G1|exact E].
        + eapply (spread_content sig W p (s_content sig)); [exact Hp|now split|exact E].
      - destruct Hq as (G1 & _). eapply (spread_named sig W p q); [exact Hp|exact G1|exact E]. }
    assert (Hp2 : forall p, s_spread_named sig = Some p -> p_name p <> n).
    { intros p Hp E. rewrite <- En in E. destruct Hq as [Hq|Hq].
      - inversion Hq as [i ? a ? G1 G2 G3|? a ? G1 G2 G3|a ? G1 G2 G3]; subst.
        + eapply (pos_collect sig W q p); [eapply nth_error_In; exact G1|exact Hp|now symmetry].
        + eapply (named_collect sig W q p); [exact G1|exact Hp|now symmetry].
        + eapply (collect_content sig W p (s_content sig)); [exact Hp|now split|exact E].
      - destruct Hq as (G1 & _). eapply (named_collect sig W q p); [exact G1|exact Hp|now symmetry]. }
    rewrite (O2 n Hp2), (O1 n Hp1). exact H. }
  assert (NoCrash : negb (is_anonymous (p_name (s_content sig))) && negb (nhas m2 (p_name (s_content sig))) = false).
  { fold (has_content sig). destruct (has_content sig) eqn:Hh; [|reflexivity]. cbn. apply negb_false_iff. apply nhas_true.
    destruct (C0 eq_refl) as (v & Hv & _). exists v. now apply Keep2. }
  rewrite NoCrash. clear NoCrash.
  (* omitted positional parameters *)
  assert (Dp : NoDup (List.map p_name (skipn (length (positionals gs)) (s_positional sig)))).
  { rewrite <- skipn_map. now apply nodup_skipn. }
  unfold bind. pose proof (fill_positional_spec sig (length (positionals gs)) _ Dp m2 s N2) as S3.
  destruct (fill_positional _ _ _ m2 s) as [m3 s3|e3 s3| |]; [| |exact S3|exact S3].
  2:{ destruct S3 as (-> & (p & Hp & Hd) & ->). split; [reflexivity|]. cbn. split; [reflexivity|]. split; [reflexivity|].
      apply nth_error_skipn' in Hp as (i & Hi & Hp). eauto 6. }
  destruct S3 as (-> & N3 & V3 & O3).
  pose proof (fill_named_spec (nvalues (s_named sig)) D3 m3 s N3) as S4.
  assert (Keep3 : forall n v, ngetm m0 n = Some v -> ngetm m3 n = Some v).
  { intros n v H. rewrite O3; [now apply Keep2|]. intro Hn. apply in_map_iff in Hn as (p & En & Hp). apply nth_error_skipn' in Hp as (i & Hi & Hp).
    apply (bd_map _ _ _ _ B) in H as (q & Eq & Hq). destruct Hq as [Hq|(Hq & _)].
    - rewrite <- En in Eq. clear En. inversion Hq as [j r a ? G1 G2 G3|r a ? G1 G2 G3|a ? G1 G2 G3]; subst.
      + pose proof (pos_pos sig W _ _ _ _ Hp G1 (eq_sym Eq)) as ->. assert (j < length (positionals gs)) by (apply nth_error_Some; congruence). lia.
      + eapply (pos_named sig W p q); [eapply nth_error_In; exact Hp|exact G1|now symmetry].
      + eapply (pos_content sig W p (s_content sig)); [eapply nth_error_In; exact Hp|now split|now symmetry].
    - rewrite <- En in Eq. eapply (pos_named sig W p q); [eapply nth_error_In; exact Hp|exact Hq|now symmetry]. }
  assert (From3 : forall q v, In q (nvalues (s_named sig)) -> ngetm m3 (p_name q) = Some v -> ngetm m0 (p_name q) = Some v).
  { intros q v Hq Hv. rewrite O3 in Hv.
    - rewrite O2 in Hv; [rewrite O1 in Hv; [exact Hv|]|].
      + intros p Hp E. now apply (spread_named sig W p q Hp Hq).
      + intros p Hp E. now apply (named_collect sig W q p Hq Hp).
    - intro Hn. apply in_map_iff in Hn as (p & En & Hp). apply nth_error_skipn' in Hp as (i & Hi & Hp).
      now apply (pos_named sig W p q (nth_error_In _ _ Hp) Hq). }
  assert (NotGiven : forall q, In q (nvalues (s_named sig)) -> ngetm m3 (p_name q) = None ->
    ~ In (p_name q) (List.map fst (nameds gs)) /\ implicits && p_implicit q = false).
  { intros q Hq Hn. assert (Ng : ~ In (p_name q) (List.map fst (nameds gs))).
    - intro H. apply in_map_iff in H as ([k a] & E & H). cbn in E. subst k. destruct (bd_named_ok _ _ _ _ B q a Hq H) as [x Hx].
      assert (X : ngetm m3 (p_name q) = Some x); [|congruence]. apply Keep3. apply (bd_map _ _ _ _ B). exists q. split; [reflexivity|]. left. eapply Given_named; eassumption.
    - split; [exact Ng|]. destruct (implicits && p_implicit q) eqn:Ei; [|reflexivity]. destruct (Hscope q Hq Ei Ng) as [x Hx].
      assert (X : ngetm m3 (p_name q) = Some x); [|congruence]. apply Keep3. apply (bd_map _ _ _ _ B). exists q. split; [reflexivity|]. right. now repeat split. }
  destruct (fill_named _ m3 s) as [m4 s4|e4 s4| |]; [| |exact S4|exact S4].
  2:{ destruct S4 as (-> & p & Hp & Hn & Hd & ->). split; [reflexivity|]. cbn. destruct (NotGiven p Hp Hn) as [H1 H2]. exists p. tauto. }
  destruct S4 as (-> & N4 & V4 & K4 & O4). split; [reflexivity|].
  assert (Val : forall p, In p (params sig) -> exists v, ngetm m4 (p_name p) = Some v /\ ValueOf sig gs scope implicits p v).
  { intros p Hp. apply params_cases in Hp as [Hp|[Hp|[Hp|[Hp|[Hp ->]]]]].
    - apply In_nth_error in Hp as [i Hp]. destruct (nth_error (positionals gs) i) as [a|] eqn:Ea.
      + destruct (bd_pos_ok _ _ _ _ B i p a Hp Ea) as [x Hx].
        assert (G : GivenTo sig gs p x) by (eapply Given_positional; eassumption). exists x. split; [|now left].
        apply K4, Keep3. apply (bd_map _ _ _ _ B). exists p. tauto.
      + apply nth_error_None in Ea. destruct (V3 p) as (v & Hd & Hv); [eapply nth_error_in_skipn; eassumption|].
        exists v. split; [now apply K4|]. right; right. eapply Omitted_positional; eassumption.
    - destruct (V1 p Hp) as (v & Hv & Hcl). exists v. split; [|right; now left]. apply K4. rewrite O3, O2; [exact Hv| |].
      + intros q Hq E. now apply (spread_collect sig W p q Hp Hq).
      + intro Hn. apply in_map_iff in Hn as (q & En & Hq). apply nth_error_skipn' in Hq as (i & _ & Hq).
        now apply (pos_spread sig W q p (nth_error_In _ _ Hq) Hp).
    - destruct (ngetm m3 (p_name p)) as [v|] eqn:E3.
      + exists v. split; [now apply K4|]. apply From3 in E3; [|exact Hp]. apply (bd_map _ _ _ _ B) in E3 as (q & Eq & Hq).
        assert (q = p) as ->.
        { apply (params_inj sig W); [|now apply in_params_named|exact Eq]. destruct Hq as [Hq|(Hq & _)]; [eapply given_in; exact Hq|now apply in_params_named]. }
        destruct Hq as [Hq|(_ & H2 & H3 & H4)]; [now left|]. right; right. now apply Omitted_implicit.
      + destruct (V4 p Hp E3) as (v & Hd & Hv). exists v. split; [exact Hv|]. right; right. destruct (NotGiven p Hp E3). now apply Omitted_named.
    - destruct (V2 p Hp) as (v & Hv & Hcl). exists v. split; [|right; now left]. apply K4. rewrite O3; [exact Hv|].
      intro Hn. apply in_map_iff in Hn as (q & En & Hq). apply nth_error_skipn' in Hq as (i & _ & Hq).
      now apply (pos_collect sig W q p (nth_error_In _ _ Hq) Hp).
    - destruct (C0 Hp) as (v & Hv & G). exists v. split; [|now left]. now apply K4, Keep3. }
  split.
  - split; [exact N4|]. split; [|exact Val]. intros n Hn. destruct (in_dec str_eq_dec n (List.map p_name (params sig))) as [H|H]; [exact H|].
    exfalso. assert (Nn : forall p, In p (params sig) -> p_name p <> n) by (intros p Hp E; apply H; rewrite <- E; now apply in_map).
    assert (X : ngetm m4 n = None); [|now apply ngetm_None in X].
    rewrite O4, O3, O2, O1.
    + destruct (ngetm m0 n) as [v|] eqn:E0; [|reflexivity]. apply (bd_map _ _ _ _ B) in E0 as (q & Eq & Hq). exfalso. apply (Nn q); [|exact Eq].
      destruct Hq as [Hq|(Hq & _)]; [eapply given_in; exact Hq|now apply in_params_named].
    + intros p Hp. apply Nn. now apply in_params_spread.
    + intros p Hp. apply Nn. now apply in_params_spread_named.
    + intro Hx. apply in_map_iff in Hx as (q & En & Hq). apply nth_error_skipn' in Hq as (i & _ & Hq). apply (Nn q); [|exact En].
      apply in_params_positional. eapply nth_error_In. exact Hq.
    + intro Hx. apply in_map_iff in Hx as (q & En & Hq). apply (Nn q); [|exact En]. now apply in_params_named.
  - constructor.
    + exact Count.
    + apply (bd_once _ _ _ _ B).
    + apply (bd_known _ _ _ _ B).
    + apply (bd_content _ _ _ _ B).
    + intros p Hp. destruct (Val p Hp) as (v & _ & Hv). eauto.
Qed.

(** ** Which value a parameter has *)
Section Which.
  Variable sig : fsig.
  Hypothesis W : WfSig sig.
  Variables (gs : list given) (scope : fparam -> value -> Prop) (implicits : bool).
  Notation Value := (ValueOf sig gs scope implicits).

  Ltac pos_in := eapply nth_error_In; eassumption.
  Ltac differ := exfalso; first
    [ eapply (pos_spread sig W); [pos_in|eassumption|reflexivity]
    | eapply (pos_named sig W); [pos_in|eassumption|reflexivity]
    | eapply (pos_collect sig W); [pos_in|eassumption|reflexivity]
    | eapply (pos_content sig W); [pos_in|split; [eassumption|reflexivity]|reflexivity]
    | eapply (spread_named sig W); [eassumption|eassumption|reflexivity]
    | eapply (spread_collect sig W); [eassumption|eassumption|reflexivity]
    | eapply (spread_content sig W); [eassumption|split; [eassumption|reflexivity]|reflexivity]
    | eapply (named_collect sig W); [eassumption|eassumption|reflexivity]
    | eapply (named_content sig W); [eassumption|split; [eassumption|reflexivity]|reflexivity]
    | eapply (collect_content sig W); [eassumption|split; [eassumption|reflexivity]|reflexivity] ].
  Ltac value_cases V := let V' := fresh in destruct V as [V'|[V'|V']];
    [ inversion V' as [i0 ? a0 ? G1 G2 G3|? a0 ? G1 G2 G3|a0 ? G1 G2 G3]; subst
    | inversion V' as [? vs0 ? G1 G2 G3|? vs0 ? G1 G2 G3]; subst
    | inversion V' as [i0 ? ? G1 G2 G3|? ? G1 G2 G3 G4|? ? G1 G2 G3 G4]; subst ].

  Lemma value_positional i p v : nth_error (s_positional sig) i = Some p -> Value p v ->
    (exists a, nth_error (positionals gs) i = Some a /\ coerce (p_type p) a = inl v) \/
    (length (positionals gs) <= i /\ p_default p = Some v).
  Proof.
    intros Hp V. value_cases V; try differ.
    - pose proof (pos_pos sig W _ _ _ _ Hp G1 eq_refl) as <-. left. eauto.
    - pose proof (pos_pos sig W _ _ _ _ Hp G1 eq_refl) as <-. now right.
  Qed.
  Lemma value_named p v : In p (nvalues (s_named sig)) -> Value p v ->
    (exists a, In (p_name p, a) (nameds gs) /\ coerce (p_type p) a = inl v) \/
    (~ In (p_name p) (List.map fst (nameds gs)) /\ implicits && p_implicit p = true /\ scope p v) \/
    (~ In (p_name p) (List.map fst (nameds gs)) /\ implicits && p_implicit p = false /\ p_default p = Some v).
  Proof. intros Hp V. value_cases V; try differ; eauto 8. Qed.
  Lemma value_spread p v : s_spread sig = Some p -> Value p v -> exists vs,
    Forall2 (fun a w => coerce (component_type (p_type p)) a = inl w) (skipn (length (s_positional sig)) (positionals gs)) vs /\
    coerce (p_type p) (VList vs) = inl v.
  Proof. intros Hp V. value_cases V; try differ. eauto. Qed.
  Lemma value_collect p v : s_spread_named sig = Some p -> Value p v -> exists vs,
    Forall2 (fun a w => fst a = fst w /\ coerce (component_type (p_type p)) (snd a) = inl (snd w))
        (List.filter (is_extra sig) (nameds gs)) vs /\
    coerce (p_type p) (VDict vs) = inl v.
  Proof. intros Hp V. value_cases V; try differ. eauto. Qed.
  Lemma value_content v : has_content sig = true -> Value (s_content sig) v -> exists a,
    hd_error (contents gs) = Some a /\ coerce (p_type (s_content sig)) a = inl v.
  Proof. intros Hc V. value_cases V; try differ. eauto. Qed.

  Lemma forall2_fun A B (P : A -> B -> Prop) l r r' : (forall a b b', P a b -> P a b' -> b = b') ->
    Forall2 P l r -> Forall2 P l r' -> r = r'.
  Proof.
    intros Hf H. revert r'. induction H as [|a b l r Hab H IH]; intros r' H'; inversion H'; subst; [reflexivity|].
    f_equal; [eapply Hf; eassumption|now apply IH].
  Qed.
  Lemma value_unique p v w : NoDup (List.map fst (nameds gs)) -> (forall q x y, scope q x -> scope q y -> x = y) ->
    In p (params sig) -> Value p v -> Value p w -> v = w.
  Proof.
    intros Hd Hs Hp Hv Hw. apply params_cases in Hp as [Hp|[Hp|[Hp|[Hp|[Hp ->]]]]].
    - apply In_nth_error in Hp as [i Hp]. apply (value_positional i) in Hv; [|exact Hp]. apply (value_positional i) in Hw; [|exact Hp].
      destruct Hv as [(a & H1 & H2)|[H1 H2]], Hw as [(b & H3 & H4)|[H3 H4]]; try congruence.
      + assert (i < length (positionals gs)) by (apply nth_error_Some; congruence). lia.
      + assert (i < length (positionals gs)) by (apply nth_error_Some; congruence). lia.
    - apply value_spread in Hv as (vs & H1 & H2); [|exact Hp]. apply value_spread in Hw as (ws & H3 & H4); [|exact Hp].
      assert (vs = ws) by (eapply forall2_fun; [|exact H1|exact H3]; cbn; congruence). congruence.
    - apply value_named in Hv; [|exact Hp]. apply value_named in Hw; [|exact Hp].
      assert (Hin : forall a, In (p_name p, a) (nameds gs) -> In (p_name p) (List.map fst (nameds gs))) by (intros a Ha; now apply (in_map fst) in Ha).
      destruct Hv as [(a & H1 & H2)|[(H1 & H2 & H3)|(H1 & H2 & H3)]], Hw as [(b & H4 & H5)|[(H4 & H5 & H6)|(H4 & H5 & H6)]]; try congruence;
        try (exfalso; eauto; fail).
      + assert ((p_name p, a) = (p_name p, b)) by (eapply nodup_map_inj; [exact Hd|exact H1|exact H4|reflexivity]). congruence.
      + eapply Hs; eassumption.
    - apply value_collect in Hv as (vs & H1 & H2); [|exact Hp]. apply value_collect in Hw as (ws & H3 & H4); [|exact Hp].
      assert (vs = ws); [|congruence]. eapply forall2_fun; [|exact H1|exact H3]. cbn. intros [k x] [k1 y] [k2 z]. cbn. intros [-> E1] [-> E2]. congruence.
    - apply value_content in Hv as (a & H1 & H2); [|exact Hp]. apply value_content in Hw as (b & H3 & H4); [|exact Hp]. congruence.
  Qed.

  (** A complaint is about a call that is not acceptable. *)
  Lemma forall2_in A B (P : A -> B -> Prop) l r a : Forall2 P l r -> In a l -> exists b, P a b.
  Proof. induction 1; [intros []|]. intros [->|Hi]; eauto. Qed.
  Lemma complaint_unacceptable e : Complaint sig gs scope implicits e -> ~ Acceptable sig gs scope implicits.
  Proof.
    intros C A.
    assert (Rest : (exists i p a, nth_error (s_positional sig) i = Some p /\ nth_error (positionals gs) i = Some a /\
         coerce (p_type p) a = inr e) \/
      (exists p a, s_spread sig = Some p /\ In a (skipn (length (s_positional sig)) (positionals gs)) /\
         coerce (component_type (p_type p)) a = inr e) \/
      (exists p vs, s_spread sig = Some p /\
         Forall2 (fun a w => coerce (component_type (p_type p)) a = inl w) (skipn (length (s_positional sig)) (positionals gs)) vs /\
         coerce (p_type p) (VList vs) = inr e) \/
      (exists p a, In p (nvalues (s_named sig)) /\ In (p_name p, a) (nameds gs) /\ coerce (p_type p) a = inr e) \/
      (exists p n a, s_spread_named sig = Some p /\ In (n, a) (nameds gs) /\ ~ In n (nkeys (s_named sig)) /\
         coerce (component_type (p_type p)) a = inr e) \/
      (exists p vs, s_spread_named sig = Some p /\
         Forall2 (fun a w => fst a = fst w /\ coerce (component_type (p_type p)) (snd a) = inl (snd w))
           (List.filter (is_extra sig) (nameds gs)) vs /\
         coerce (p_type p) (VDict vs) = inr e) \/
      (exists a, In a (if has_content sig then firstn 1 (contents gs) else contents gs) /\ coerce (p_type (s_content sig)) a = inr e) -> False).
    { intros [H|[H|[H|[H|[H|[H|H]]]]]].
      - destruct H as (i & p & a & H1 & H2 & H3). destruct (acc_values _ _ _ _ A p) as [v Hv]; [apply in_params_positional; eapply nth_error_In; exact H1|].
        apply (value_positional i) in Hv as [(b & H4 & H5)|[H4 _]]; [congruence| |exact H1].
        assert (i < length (positionals gs)) by (apply nth_error_Some; congruence). lia.
      - destruct H as (p & a & H1 & H2 & H3). destruct (acc_values _ _ _ _ A p) as [v Hv]; [now apply in_params_spread|].
        apply value_spread in Hv as (vs & H4 & _); [|exact H1]. destruct (forall2_in _ _ _ _ _ _ H4 H2) as [b Hb]. cbn in Hb. congruence.
      - destruct H as (p & vs & H1 & H2 & H3). destruct (acc_values _ _ _ _ A p) as [v Hv]; [now apply in_params_spread|].
        apply value_spread in Hv as (ws & H4 & H5); [|exact H1]. assert (vs = ws) by (eapply forall2_fun; [|exact H2|exact H4]; cbn; congruence). congruence.
      - destruct H as (p & a & H1 & H2 & H3). destruct (acc_values _ _ _ _ A p) as [v Hv]; [now apply in_params_named|].
        apply value_named in Hv as [(b & H4 & H5)|[(H4 & _)|(H4 & _)]]; [| | |exact H1].
        + assert ((p_name p, a) = (p_name p, b)) by (eapply nodup_map_inj; [exact (acc_once _ _ _ _ A)|exact H2|exact H4|reflexivity]). congruence.
        + apply H4. now apply (in_map fst) in H2.
        + apply H4. now apply (in_map fst) in H2.
      - destruct H as (p & n & a & H1 & H2 & H3 & H4). destruct (acc_values _ _ _ _ A p) as [v Hv]; [now apply in_params_spread_named|].
        apply value_collect in Hv as (vs & H5 & _); [|exact H1]. assert (Hf : In (n, a) (List.filter (is_extra sig) (nameds gs))).
        { apply filter_In. split; [exact H2|]. unfold is_extra. cbn. apply negb_true_iff. apply nhas_false. now apply named_none. }
        destruct (forall2_in _ _ _ _ _ _ H5 Hf) as [b [_ Hb]]. cbn in Hb. congruence.
      - destruct H as (p & vs & H1 & H2 & H3). destruct (acc_values _ _ _ _ A p) as [v Hv]; [now apply in_params_spread_named|].
        apply value_collect in Hv as (ws & H4 & H5); [|exact H1]. assert (vs = ws); [|congruence].
        eapply forall2_fun; [|exact H2|exact H4]. cbn. intros [k x] [k1 y] [k2 z]. cbn. intros [-> E1] [-> E2]. congruence.
      - destruct H as (a & H1 & H2). destruct (has_content sig) eqn:Hc.
        + destruct (acc_values _ _ _ _ A (s_content sig)) as [v Hv]; [now apply in_params_content|].
          apply value_content in Hv as (b & H3 & H4); [|exact Hc]. destruct (contents gs); [destruct H1|]. cbn in H1, H3. destruct H1 as [<-|[]]. congruence.
        + pose proof (acc_content _ _ _ _ A) as F. rewrite Hc in F. rewrite Forall_forall in F. apply F in H1 as ->.
          rewrite (ws_no_content _ W Hc) in H2. discriminate. }
    assert (Imp : forall n, (exists p, In p (nvalues (s_named sig)) /\ p_name p = n /\ ~ In n (List.map fst (nameds gs)) /\
        implicits && p_implicit p = true /\ p_default p = None /\ forall v, ~ scope p v) -> False).
    { intros n (p & H1 & <- & H3 & H4 & H5 & H6). destruct (acc_values _ _ _ _ A p) as [v Hv]; [now apply in_params_named|].
      apply value_named in Hv as [(b & H7 & _)|[(_ & _ & H7)|(_ & H7 & _)]]; [| | |exact H1].
      - apply H3. now apply (in_map fst) in H7.
      - now apply H6 in H7.
      - congruence. }
    destruct e as [e|e|e|e|e|e|]; try (apply Rest; exact C).
    all: destruct e; try (apply Rest; exact C); try (eapply Imp; exact C).
    all: cbn in C.
    - destruct C as (H1 & H2 & H3). apply H2. now apply (acc_known _ _ _ _ A).
    - destruct C as (p & H1 & <- & H2 & H3 & H4). destruct (acc_values _ _ _ _ A p) as [v Hv]; [now apply in_params_named|].
      apply value_named in Hv as [(b & H5 & _)|[(_ & H5 & _)|(_ & _ & H5)]]; [| | |exact H1]; try congruence. apply H2. now apply (in_map fst) in H5.
    - destruct C as (a & b & l1 & l2 & l3 & E). pose proof (acc_once _ _ _ _ A) as D. rewrite E, map_app in D. cbn in D. apply nodup_app in D as (_ & D & _).
      inversion D as [|? ? N D']; subst. apply N. rewrite map_app, in_app_iff. right. now left.
    - destruct C as (H1 & -> & -> & H2). pose proof (acc_count _ _ _ _ A H1). lia.
    - destruct C as (-> & _ & i & p & H1 & H2 & H3). destruct (acc_values _ _ _ _ A p) as [v Hv]; [apply in_params_positional; eapply nth_error_In; exact H1|].
      apply (value_positional i) in Hv as [(b & H4 & _)|[_ H4]]; [|congruence|exact H1].
      assert (i < length (positionals gs)) by (apply nth_error_Some; congruence). lia.
    - destruct C as (H1 & v & H2 & H3). pose proof (acc_content _ _ _ _ A) as F. rewrite H1 in F. rewrite Forall_forall in F. now apply F in H2.
  Qed.
End Which.

(** ** The same arguments in another order *)
Definition SameContent (sig : fsig) (gs gs' : list given) : Prop :=
  (has_content sig = true -> hd_error (contents gs) = hd_error (contents gs')) /\
  (Forall (fun v => v = UNIT) (if has_content sig then List.tl (contents gs) else contents gs) <->
   Forall (fun v => v = UNIT) (if has_content sig then List.tl (contents gs') else contents gs')).
Definition SameArguments (sig : fsig) (gs gs' : list given) : Prop :=
  positionals gs = positionals gs' /\ nameds gs = nameds gs' /\ SameContent sig gs gs'.
Lemma same_sym sig gs gs' : SameArguments sig gs gs' -> SameArguments sig gs' gs.
Proof. intros (H1 & H2 & H3 & H4). split; [now symmetry|]. split; [now symmetry|]. split; [intro H; symmetry; now apply H3|tauto]. Qed.
Lemma same_value sig gs gs' scope i p v : SameArguments sig gs gs' -> ValueOf sig gs scope i p v -> ValueOf sig gs' scope i p v.
Proof.
  intros (H1 & H2 & H3 & _) [V|[V|V]].
  - left. inversion V; subst; rewrite ?H1, ?H2 in *.
    + eapply Given_positional; eassumption.
    + eapply Given_named; eassumption.
    + eapply Given_content; [eassumption| |eassumption]. rewrite <- H3; assumption.
  - right; left. inversion V; subst; rewrite ?H1, ?H2 in *; [eapply Collects_positional|eapply Collects_named]; eassumption.
  - right; right. inversion V; subst; rewrite ?H1, ?H2 in *; [eapply Omitted_positional|eapply Omitted_implicit|eapply Omitted_named]; eassumption.
Qed.
Lemma same_acceptable sig gs gs' scope i : SameArguments sig gs gs' -> Acceptable sig gs scope i -> Acceptable sig gs' scope i.
Proof.
  intros H A. pose proof H as (H1 & H2 & H3 & H4). constructor; rewrite <- ?H1, <- ?H2; try (now apply A).
  - apply H4. apply (acc_content _ _ _ _ A).
  - intros p Hp. destruct (acc_values _ _ _ _ A p Hp) as [v Hv]. exists v. now apply (same_value sig gs gs').
Qed.
Lemma binds_unique sig gs gs' (scope : fparam -> value -> Prop) i m m' : WfSig sig -> (forall q x y, scope q x -> scope q y -> x = y) -> SameArguments sig gs gs' ->
  NoDup (List.map fst (nameds gs)) -> Binds sig gs scope i m -> Binds sig gs' scope i m' -> forall n, ngetm m n = ngetm m' n.
Proof.
  intros W Hs S Hd (_ & K & V) (_ & K' & V') n. destruct (in_dec str_eq_dec n (List.map p_name (params sig))) as [H|H].
  - apply in_map_iff in H as (p & <- & Hp). destruct (V p Hp) as (v & E & Hv). destruct (V' p Hp) as (v' & E' & Hv').
    apply (same_value sig gs' gs) in Hv'; [|now apply same_sym]. rewrite E, E'. f_equal. eapply value_unique; eassumption.
  - destruct (ngetm m n) as [x|] eqn:E.
    + exfalso. apply H, K. apply ngetm_In in E. now apply (in_map fst) in E.
    + destruct (ngetm m' n) as [x|] eqn:E'; [|reflexivity]. exfalso. apply H, K'. apply ngetm_In in E'. now apply (in_map fst) in E'.
Qed.

(** ** Calls *)
Lemma give_pure sig g b s b' s' : give sig g b s = Ok b' s' -> s' = s /\ forall s2, give sig g b s2 = Ok b' s2.
Proof.
  destruct g as [v|n v|v]; cbn [give].
  - unfold add_positional_arg. destruct b as [c sp sn m]. destruct (nth_error _ c).
    + unfold bind. rewrite coerceM_eq. destruct (coerce _ v) eqn:E; [|discriminate]. unfold ret. injection 1 as <- <-. split; [reflexivity|].
      intro s2. rewrite coerceM_eq, E. reflexivity.
    + destruct (s_spread sig).
      * unfold bind. rewrite coerceM_eq. destruct (coerce _ v) eqn:E; [|discriminate]. unfold ret. injection 1 as <- <-. split; [reflexivity|].
        intro s2. rewrite coerceM_eq, E. reflexivity.
      * unfold ret. injection 1 as <- <-. now split.
  - unfold add_named_arg. destruct b as [c sp sn m]. destruct (ngetm _ n).
    + unfold bind. rewrite coerceM_eq. destruct (coerce _ v) eqn:E; [|discriminate]. destruct (nhas m n); unfold fail, ret; [discriminate|].
      injection 1 as <- <-. split; [reflexivity|]. intro s2. rewrite coerceM_eq, E. reflexivity.
    + destruct (s_spread_named sig); [|discriminate]. unfold bind. rewrite coerceM_eq. destruct (coerce _ v) eqn:E; [|discriminate].
      destruct (nhas sn n); unfold fail, ret; [discriminate|]. injection 1 as <- <-. split; [reflexivity|]. intro s2. rewrite coerceM_eq, E. reflexivity.
  - unfold add_content_arg. destruct (nhas _ _).
    + destruct (is_unit v); unfold ret, fail; [|discriminate]. injection 1 as <- <-. now split.
    + unfold bind. rewrite coerceM_eq. destruct (coerce _ v) eqn:E; [|discriminate]. unfold ret. injection 1 as <- <-. split; [reflexivity|].
      intro s2. rewrite coerceM_eq, E. reflexivity.
Qed.
Lemma give_all_pure sig gs : forall b s b' s', give_all sig gs b s = Ok b' s' -> s' = s /\ forall s2, give_all sig gs b s2 = Ok b' s2.
Proof.
  induction gs as [|g gs IH]; intros b s b' s'; cbn [give_all].
  - unfold ret. injection 1 as <- <-. now split.
  - unfold bind. destruct (give sig g b s) as [b1 s1|e s1| |] eqn:E; try discriminate. apply give_pure in E as [-> E]. intro H.
    apply IH in H as [-> H]. split; [reflexivity|]. intro s2. rewrite E. apply H.
Qed.
Lemma give_all_app sig l r b s : give_all sig (l ++ r) b s = (let* b := give_all sig l b in give_all sig r b) s.
Proof.
  revert b s. induction l as [|g l IH]; intros b s; [reflexivity|]. cbn [app give_all]. unfold bind. destruct (give sig g b s); [|reflexivity..].
  rewrite IH. reflexivity.
Qed.
Lemma given_bound f gs (s : st) : WfSig (func_sig f) -> HasBeenGiven f gs -> Bound (func_sig f) gs nothing (get_partials f).
Proof.
  intros W H. pose proof (give_all_spec (func_sig f) W nothing gs [] partials_new s (bound_new _)) as P. rewrite (H s) in P.
  apply P. intros p v [].
Qed.
Lemma imp_nothing sig gs : LookedUp sig gs nothing.
Proof. intros p v []. Qed.

(** After the arguments: implicit parameters, content, and the rest *)
Lemma finish_spec sig gs implicits b c s s2 : WfSig sig -> Bound sig gs nothing b -> (implicits = true -> st_stack s <> []) ->
  match (if implicits then bind_implicit_args sig b else ret b) s with
  | Ok b' s' => s' = s /\
    match (let* b := add_content_arg sig c b' in build sig b) s2 with
    | Ok m s' => s' = s2 /\ Binds sig (gs ++ [GContent c]) (from_scope s) implicits m /\ Acceptable sig (gs ++ [GContent c]) (from_scope s) implicits
    | Err e s' => s' = s2 /\ Complaint sig (gs ++ [GContent c]) (from_scope s) implicits e
    | _ => False
    end
  | Err e s' => s' = s /\ Complaint sig (gs ++ [GContent c]) (from_scope s) implicits e
  | _ => False
  end.
Proof.
  intros W B Hs. pose proof (ws_distinct _ W) as D. unfold params in D. rewrite !map_app in D.
  apply nodup_app in D as (_ & D & _). apply nodup_app in D as (_ & D & _). apply nodup_app in D as (D & _ & _).
  assert (En : nameds (gs ++ [GContent c]) = nameds gs) by (rewrite nameds_app; apply app_nil_r).
  set (imp := fun p v => In p (nvalues (s_named sig)) /\ implicits && p_implicit p = true /\ ~ In (p_name p) (List.map fst (nameds (gs ++ [GContent c]))) /\ from_scope s p v).
  assert (L : LookedUp sig gs imp) by (intros p v (H1 & _ & H3 & _); rewrite En in H3; now split).
  assert (Finish : forall b', Bound sig gs imp b' ->
     (forall p, In p (nvalues (s_named sig)) -> implicits && p_implicit p = true -> ~ In (p_name p) (List.map fst (nameds (gs ++ [GContent c]))) -> exists v, from_scope s p v) ->
     match (let* b := add_content_arg sig c b' in build sig b) s2 with
    | Ok m s' => s' = s2 /\ Binds sig (gs ++ [GContent c]) (from_scope s) implicits m /\ Acceptable sig (gs ++ [GContent c]) (from_scope s) implicits
    | Err e s' => s' = s2 /\ Complaint sig (gs ++ [GContent c]) (from_scope s) implicits e
    | _ => False
    end).
  { intros b' B' Hv. unfold bind. pose proof (give_content sig W imp gs c b' s2 B' L) as P. destruct (add_content_arg sig c b' s2) as [b2 s3|e s3| |]; [| |exact P|exact P].
    - destruct P as [-> B2]. apply build_spec; [exact W|exact B2|exact Hv|]. rewrite contents_app. destruct (contents gs); discriminate.
    - destruct P as [-> O]. split; [reflexivity|]. now apply objection_complaint. }
  destruct implicits.
  - unfold bind_implicit_args. pose proof (bind_implicits_given sig gs s W (Hs eq_refl) (nvalues (s_named sig)) nothing b D (incl_refl _) (fun _ _ _ H => H) B (imp_nothing _ _)) as P.
    destruct (bind_implicits _ b s) as [b' s'|e s'| |]; [| |exact P|exact P].
    + destruct P as (-> & B' & Hv). split; [reflexivity|]. apply Finish.
      * eapply bound_ext; [|exact B']. intros p v. unfold nothing, FromScope, imp. rewrite En. cbn [andb]. tauto.
      * intros p Hp Hi Hn. rewrite En in Hn. now apply Hv.
    + destruct P as (-> & p & H1 & H2 & H3 & H4 & H5 & H6). split; [reflexivity|].
      destruct H5 as [-> | ->]; cbn; exists p; rewrite En; tauto.
  - unfold ret. split; [reflexivity|]. apply Finish; [|discriminate]. eapply bound_ext; [|exact B]. intros p v. unfold nothing, imp. cbn [andb]. intuition discriminate.
Qed.

Lemma call_spec f implicits gs0 gs c s : WfSig (func_sig f) -> HasBeenGiven f gs0 -> (implicits = true -> st_stack s <> []) ->
  let all := gs0 ++ gs ++ [GContent c] in
  match call_with f implicits gs c s with
  | Ok m s' => s' = s /\ Binds (func_sig f) all (from_scope s) implicits m /\ Acceptable (func_sig f) all (from_scope s) implicits
  | Err e s' => s' = s /\ Complaint (func_sig f) all (from_scope s) implicits e
  | _ => False
  end.
Proof.
  intros W H Hs all. unfold call_with. unfold bind at 1.
  pose proof (give_all_spec (func_sig f) W nothing gs gs0 (get_partials f) s (given_bound f gs0 s W H) (imp_nothing _ _)) as P.
  destruct (give_all _ gs _ s) as [b s1|e s1| |]; [| |exact P|exact P].
  - destruct P as [-> B]. pose proof (finish_spec (func_sig f) (gs0 ++ gs) implicits b c s s W B Hs) as F. rewrite <- app_assoc in F. fold all in F.
    unfold bind at 1. destruct ((if implicits then bind_implicit_args (func_sig f) b else ret b) s) as [b1 s1|e s1| |]; [|exact F|exact F|exact F].
    destruct F as [-> F]. exact F.
  - destruct P as [-> O]. split; [reflexivity|]. apply objection_complaint. unfold all. rewrite app_assoc. now apply objection_more.
Qed.

Lemma from_scope_fun s q x y : from_scope s q x -> from_scope s q y -> x = y.
Proof. unfold from_scope. congruence. Qed.

Lemma call_exact f implicits gs0 gs c s : WfSig (func_sig f) -> HasBeenGiven f gs0 -> (implicits = true -> st_stack s <> []) ->
  (exists m, call_with f implicits gs c s = Ok m s) <-> Acceptable (func_sig f) (gs0 ++ gs ++ [GContent c]) (from_scope s) implicits.
Proof.
  intros W H Hs. pose proof (call_spec f implicits gs0 gs c s W H Hs) as P. cbn zeta in P. split.
  - intros [m E]. rewrite E in P. tauto.
  - intro A. destruct (call_with f implicits gs c s) as [m s'|e s'| |]; [|exfalso|destruct P|destruct P].
    + destruct P as [-> _]. eauto.
    + destruct P as [_ C]. eapply complaint_unacceptable; eassumption.
Qed.

(** ** Partial application *)
Lemma add_positionals_eq sig vs b s : add_positionals sig vs b s = give_all sig (List.map GPos vs) b s.
Proof. revert b s. induction vs as [|v vs IH]; intros b s; [reflexivity|]. cbn. unfold bind. destruct (add_positional_arg sig v b s); [apply IH|reflexivity..]. Qed.
Lemma add_nameds_eq sig vs b s : add_nameds sig vs b s = give_all sig (List.map (fun nv => GNamed (fst nv) (snd nv)) vs) b s.
Proof. revert b s. induction vs as [|[n v] vs IH]; intros b s; [reflexivity|]. cbn. unfold bind. destruct (add_named_arg sig n v b s); [apply IH|reflexivity..]. Qed.
Lemma bind_partial_eq f pos named c s :
  bind_partial f pos named c s = (let* b := give_all (func_sig f) (stage_given (pos, named, c)) (get_partials f) in close_bound (func_sig f) b f) s.
Proof.
  unfold bind_partial, stage_given. unfold bind at 4. rewrite give_all_app. unfold bind. rewrite add_positionals_eq.
  destruct (give_all _ (List.map GPos pos) _ s); [|reflexivity..]. rewrite give_all_app. unfold bind. rewrite add_nameds_eq.
  destruct (give_all _ (List.map _ named) _ _); [|reflexivity..]. destruct (is_unit c); [reflexivity|]. cbn. unfold bind. destruct (add_content_arg _ _ _ _); reflexivity.
Qed.
Definition TooMany (sig : fsig) (gs : list given) : Prop := s_spread sig = None /\ length (s_positional sig) < length (positionals gs).

Lemma close_bound_eq f b s : WfSig (func_sig f) -> close_bound (func_sig f) b f s =
  if match s_spread (func_sig f) with None => true | Some _ => false end && (length (s_positional (func_sig f)) <? pp_count b)
  then Err (TypeErr (TooManyPositionalArgs (length (s_positional (func_sig f))) (pp_count b))) s else Ok (FBound f b) s.
Proof. intros _. unfold close_bound, bind, check_pos_count. destruct (_ && _); reflexivity. Qed.
Lemma close_spec f gs b s : WfSig (func_sig f) -> Bound (func_sig f) gs nothing b -> give_all (func_sig f) gs partials_new s = Ok b s ->
  match close_bound (func_sig f) b f s with
  | Ok f' s' => s' = s /\ func_sig f' = func_sig f /\ HasBeenGiven f' gs
  | Err e s' => s' = s /\ TooMany (func_sig f) gs
  | _ => False
  end.
Proof.
  intros W B E. rewrite (close_bound_eq f b s W), (bd_count _ _ _ _ B). destruct (_ && _) eqn:Ec.
  - split; [reflexivity|]. apply andb_prop in Ec as [E1 E2]. apply Nat.ltb_lt in E2. split; [|exact E2]. destruct (s_spread (func_sig f)); [discriminate|reflexivity].
  - split; [reflexivity|]. split; [reflexivity|]. intro s2. cbn [func_sig get_partials]. apply give_all_pure in E as [_ E]. apply E.
Qed.
Lemma bind_spec f gs0 gs s : WfSig (func_sig f) -> HasBeenGiven f gs0 ->
  match (let* b := give_all (func_sig f) gs (get_partials f) in close_bound (func_sig f) b f) s with
  | Ok f' s' => s' = s /\ func_sig f' = func_sig f /\ HasBeenGiven f' (gs0 ++ gs)
  | Err e s' => s' = s /\ (Objection (func_sig f) (gs0 ++ gs) e \/ TooMany (func_sig f) (gs0 ++ gs))
  | _ => False
  end.
Proof.
  intros W H. unfold bind. pose proof (give_all_spec (func_sig f) W nothing gs gs0 (get_partials f) s (given_bound f gs0 s W H) (imp_nothing _ _)) as P.
  destruct (give_all _ gs _ s) as [b s1|e s1| |] eqn:E; [| |exact P|exact P].
  - destruct P as [-> B]. assert (Eall : give_all (func_sig f) (gs0 ++ gs) partials_new s = Ok b s) by (rewrite give_all_app; unfold bind; rewrite (H s); exact E).
    pose proof (close_spec f (gs0 ++ gs) b s W B Eall) as C. destruct (close_bound _ b f s); [exact C| |exact C|exact C]. tauto.
  - destruct P as [-> O]. split; [reflexivity|]. now left.
Qed.
Lemma too_many_more sig gs r : TooMany sig gs -> TooMany sig (gs ++ r).
Proof. intros [H1 H2]. split; [exact H1|]. rewrite positionals_app, app_length. lia. Qed.
Lemma stages_spec stages : forall f gs0 s, WfSig (func_sig f) -> HasBeenGiven f gs0 ->
  match bind_stages f stages s with
  | Ok f' s' => s' = s /\ func_sig f' = func_sig f /\ HasBeenGiven f' (gs0 ++ flat_map stage_given stages)
  | Err e s' => s' = s /\ (Objection (func_sig f) (gs0 ++ flat_map stage_given stages) e \/ TooMany (func_sig f) (gs0 ++ flat_map stage_given stages))
  | _ => False
  end.
Proof.
  induction stages as [|[[pos named] c] stages IH]; intros f gs0 s W H; cbn [bind_stages flat_map].
  - unfold ret. rewrite app_nil_r. now split.
  - unfold bind. rewrite bind_partial_eq. pose proof (bind_spec f gs0 (stage_given (pos, named, c)) s W H) as P.
    destruct (bind _ _ s) as [f' s'|e s'| |]; [| |exact P|exact P].
    + destruct P as (-> & Es & H'). rewrite app_assoc. specialize (IH f' _ s ltac:(now rewrite Es) H'). rewrite <- Es.
      destruct (bind_stages f' stages s); [|exact IH..]. destruct IH as (-> & E & G). split; [reflexivity|]. split; [congruence|exact G].
    + destruct P as [-> [O|O]]; (split; [reflexivity|]); rewrite app_assoc; [left; now apply objection_more|right; now apply too_many_more].
Qed.

Lemma map_given_pos vs : positionals (List.map GPos vs) = vs /\ nameds (List.map GPos vs) = [] /\ contents (List.map GPos vs) = [].
Proof. induction vs as [|v vs (H1 & H2 & H3)]; [now repeat split|]. split; [exact (f_equal (cons v) H1)|]. split; [exact H2|exact H3]. Qed.
Lemma map_given_named (vs : list (str * value)) (f := fun nv : str * value => GNamed (fst nv) (snd nv)) :
  positionals (List.map f vs) = [] /\ nameds (List.map f vs) = vs /\ contents (List.map f vs) = [].
Proof. induction vs as [|[n v] vs (H1 & H2 & H3)]; [now repeat split|]. split; [exact H1|]. split; [exact (f_equal (cons (n, v)) H2)|exact H3]. Qed.
Lemma stage_parts pos named c : positionals (stage_given (pos, named, c)) = pos /\ nameds (stage_given (pos, named, c)) = named /\
  contents (stage_given (pos, named, c)) = if is_unit c then [] else [c].
Proof.
  destruct (map_given_pos pos) as (H1 & H2 & H3). destruct (map_given_named named) as (H4 & H5 & H6). unfold stage_given.
  rewrite !positionals_app, !nameds_app, !contents_app, H1, H2, H3, H4, H5, H6. destruct (is_unit c); cbn; rewrite ?app_nil_r; now repeat split.
Qed.
Lemma stages_parts stages : positionals (flat_map stage_given stages) = flat_map (fun st => fst (fst st)) stages /\
  nameds (flat_map stage_given stages) = flat_map (fun st => snd (fst st)) stages /\
  contents (flat_map stage_given stages) = stage_contents stages.
Proof.
  induction stages as [|[[pos named] c] stages (H1 & H2 & H3)]; [now repeat split|]. destruct (stage_parts pos named c) as (H4 & H5 & H6).
  cbn [flat_map]. rewrite positionals_app, nameds_app, contents_app, H1, H2, H3, H4, H5, H6. unfold stage_contents. cbn [List.map snd List.filter fst].
  destruct (is_unit c); cbn; now repeat split.
Qed.

Lemma partial_application f implicits gs0 stages gs c direct d s : WfSig (func_sig f) -> HasBeenGiven f gs0 -> (implicits = true -> st_stack s <> []) ->
  contents gs = [] -> contents direct = [] ->
  positionals direct = flat_map (fun st => fst (fst st)) stages ++ positionals gs ->
  nameds direct = flat_map (fun st => snd (fst st)) stages ++ nameds gs ->
  (stage_contents stages = [] /\ d = c \/ stage_contents stages = [d] /\ c = UNIT) ->
  let staged := (let* f' := bind_stages f stages in call_with f' implicits gs c) s in
  let one_go := call_with f implicits direct d s in
  match staged, one_go with
  | Ok m s1, Ok m' s2 => s1 = s /\ s2 = s /\ forall n, ngetm m n = ngetm m' n
  | Err _ s1, Err _ s2 => s1 = s /\ s2 = s
  | _, _ => False
  end.
Proof.
  intros W H Hs Cg Cd Ep En Hd staged one_go.
  destruct (stages_parts stages) as (P1 & P2 & P3).
  assert (Hc : forall v, contents [GContent v] = [v]) by reflexivity.
  assert (Same : SameArguments (func_sig f) ((gs0 ++ flat_map stage_given stages) ++ gs ++ [GContent c]) (gs0 ++ direct ++ [GContent d])).
  { split; [|split; [|split]].
    - rewrite !positionals_app, P1, Ep, <- !app_assoc. reflexivity.
    - rewrite !nameds_app, P2, En, <- !app_assoc. reflexivity.
    - intro Hh. rewrite !contents_app, P3, Cg, Cd. destruct (contents gs0); [|reflexivity]. destruct Hd as [[-> ->]|[-> ->]]; reflexivity.
    - rewrite !contents_app, P3, Cg, Cd, !Hc. rewrite <- ?app_assoc.
      destruct Hd as [[-> ->]|[-> ->]]; cbn [app]; [tauto|].
      assert (Two : forall l, Forall (fun v => v = UNIT) (l ++ [d; UNIT]) <-> Forall (fun v => v = UNIT) (l ++ [d])).
      { intro l. rewrite !Forall_app. split; intros [F1 F2]; (split; [exact F1|]); inversion F2; subst; now repeat constructor. }
      destruct (has_content (func_sig f)); [|apply Two]. destruct (contents gs0); [|apply Two]. split; intros _; now repeat constructor. }
  pose proof (call_spec f implicits gs0 direct d s W H Hs) as D. cbn zeta in D. fold one_go in D.
  pose proof (call_exact f implicits gs0 direct d s W H Hs) as X. fold one_go in X.
  pose proof (stages_spec stages f gs0 s W H) as S. unfold staged, bind.
  destruct (bind_stages f stages s) as [f' s'|e s'| |]; [| |destruct S|destruct S].
  - destruct S as (-> & Es & H').
    assert (W' : WfSig (func_sig f')) by now rewrite Es.
    pose proof (call_spec f' implicits _ gs c s W' H' Hs) as P. cbn zeta in P. rewrite Es in P.
    pose proof (call_exact f' implicits _ gs c s W' H' Hs) as Y. rewrite Es in Y.
    destruct (call_with f' implicits gs c s) as [m s1|e s1| |]; [| |destruct P|destruct P]; destruct one_go as [m' s2|e' s2| |]; try (destruct D; fail).
    + destruct P as (-> & B & A), D as (-> & B' & A'). split; [reflexivity|]. split; [reflexivity|].
      eapply binds_unique; [exact W|apply from_scope_fun|exact Same|exact (acc_once _ _ _ _ A)|exact B|exact B'].
    + exfalso. destruct P as (-> & B & A). apply (same_acceptable _ _ _ _ _ Same) in A. apply X in A as [m' A]. discriminate.
    + exfalso. destruct D as (-> & B & A). apply (same_acceptable _ _ _ _ _ (same_sym _ _ _ Same)) in A. apply Y in A as [m1 A]. discriminate.
    + destruct P as (-> & _), D as (-> & _). now split.
  - destruct S as [-> O]. assert (Bad : ~ Acceptable (func_sig f) ((gs0 ++ flat_map stage_given stages) ++ gs ++ [GContent c]) (from_scope s) implicits).
    { destruct O as [O|O].
      - eapply complaint_unacceptable; [exact W|]. apply objection_complaint. apply objection_more. exact O.
      - intro A. apply (too_many_more _ _ (gs ++ [GContent c])) in O as [O1 O2]. pose proof (acc_count _ _ _ _ A O1). lia. }
    destruct one_go as [m' s2|e' s2| |]; [| |destruct D|destruct D].
    + exfalso. apply Bad. destruct D as (-> & B & A). apply (same_acceptable _ _ _ _ _ (same_sym _ _ _ Same)). exact A.
    + now destruct D as [-> _].
Qed.

(** ** Calls in the source *)
Lemma is_anonymous_spec n : is_anonymous n = true <-> n = n_anonymous.
Proof. apply str_eqb_eq. Qed.
Lemma compile_args_spec eval sig l : Forall ProperArg l -> forall b s b' s', compile_args eval sig l b s = Ok b' s' ->
  exists gs, Evaluates eval l s gs s' /\ forall s2, give_all sig gs b s2 = Ok b' s2.
Proof.
  induction 1 as [|[n k e] l Ha Hl IH]; intros b s b' s'; cbn [compile_args].
  - unfold ret. injection 1 as <- <-. exists []. split; [constructor|reflexivity].
  - unfold bind at 1. destruct (compile_arg eval sig (Arg n k e) b s) as [b1 s1|? ?| |] eqn:E; try discriminate. intro H. apply IH in H as (gs & Hg & Hb).
    cbn [compile_arg] in E. unfold or_report in E.
    destruct (is_anonymous n) eqn:En.
    + apply is_anonymous_spec in En as ->. unfold arg_is_positional in E. rewrite (proj2 (is_anonymous_spec n_anonymous) eq_refl) in E. destruct k; cbn in E.
      * unfold bind in E. destruct (eval e _ s) as [v s2|? ?| |] eqn:Ev; try discriminate.
        destruct (add_positional_arg sig v b s2) as [b2 s3|? ?| |] eqn:Ea; try discriminate. injection E as <- <-.
        apply (give_pure sig (GPos v)) in Ea as [-> Ea].
        exists (GPos v :: gs). split; [eapply Ev_positional; eassumption|]. intro x. cbn [give_all]. unfold bind. rewrite Ea. apply Hb.
      * unfold bind in E. destruct (eval e _ s) as [v s2|? ?| |] eqn:Ev; try discriminate. destruct v as [| | | |vs| | |]; try discriminate.
        rewrite add_positionals_eq in E. destruct (give_all sig (List.map GPos vs) b s2) as [b2 s3|? ?| |] eqn:Ea; try discriminate. injection E as <- <-.
        apply give_all_pure in Ea as [-> Ea].
        exists (List.map GPos vs ++ gs). split; [eapply Ev_spread; eassumption|]. intro x. rewrite give_all_app. unfold bind. rewrite Ea. apply Hb.
      * unfold bind in E. destruct (eval e _ s) as [v s2|? ?| |] eqn:Ev; try discriminate. destruct v; try discriminate.
        rewrite add_nameds_eq in E. destruct (give_all sig (List.map _ _) b s2) as [b2 s3|? ?| |] eqn:Ea; try discriminate. injection E as <- <-.
        apply give_all_pure in Ea as [-> Ea].
        eexists (List.map (fun nv => GNamed (fst nv) (snd nv)) _ ++ gs). split; [eapply Ev_named_spread; eassumption|]. intro x. rewrite give_all_app. unfold bind. rewrite Ea. apply Hb.
    + assert (Nn : n <> n_anonymous) by (intros ->; rewrite (proj2 (is_anonymous_spec n_anonymous) eq_refl) in En; discriminate).
      destruct k; cbn in Ha; try contradiction. unfold arg_is_positional in E. rewrite En in E. cbn in E.
      unfold bind in E. destruct (eval e _ s) as [v s2|? ?| |] eqn:Ev; try discriminate.
      destruct (add_named_arg sig n v b s2) as [b2 s3|? ?| |] eqn:Ea; try discriminate. injection E as <- <-.
      apply (give_pure sig (GNamed n v)) in Ea as [-> Ea].
      exists (GNamed n v :: gs). split; [eapply Ev_named; eassumption|]. intro x. cbn [give_all]. unfold bind. rewrite Ea. apply Hb.
Qed.

Lemma get_implicit_state n d s v s' : get_implicit n d s = Ok v s' -> s' = s.
Proof.
  intro E. destruct (st_stack s) as [|i k] eqn:Es.
  - unfold get_implicit, bind, frame_lookup, frame_id in E. unfold bind, gets in E. rewrite Es in E. discriminate.
  - assert (Hs : st_stack s <> []) by congruence. destruct (get_implicit_cases n d s Hs) as [[w Ew]|(e & Ee & _)]; congruence.
Qed.
Lemma fill_positional_pure sig c ps : forall map s m s', fill_positional sig c ps map s = Ok m s' -> s' = s.
Proof.
  induction ps as [|p ps IH]; intros map s m s'; cbn [fill_positional]; [unfold ret; injection 1 as _ <-; reflexivity|].
  destruct (p_default p); [apply IH|discriminate].
Qed.
Lemma fill_named_pure ps : forall map s m s', fill_named ps map s = Ok m s' -> s' = s.
Proof.
  induction ps as [|p ps IH]; intros map s m s'; cbn [fill_named]; [unfold ret; injection 1 as _ <-; reflexivity|].
  destruct (nhas _ _); [apply IH|]. destruct (p_default p); [apply IH|discriminate].
Qed.
Lemma build_pure sig b s m s' : build sig b s = Ok m s' -> s' = s.
Proof.
  unfold build, bind at 1, check_pos_count. destruct (_ && _); [discriminate|]. unfold ret at 1. destruct b as [c sp sn map0].
  unfold bind at 1. match goal with |- context [match ?x s with _ => _ end] => destruct (x s) as [m1 s1|? ?| |] eqn:E1 end; try discriminate.
  assert (s1 = s) as ->.
  { destruct (s_spread sig); [|unfold ret in E1; congruence]. unfold bind in E1. rewrite coerceM_eq in E1. destruct (coerce _ _); [|discriminate]. unfold ret in E1. congruence. }
  unfold bind at 1. match goal with |- context [match ?x s with _ => _ end] => destruct (x s) as [m2 s2|? ?| |] eqn:E2 end; try discriminate.
  assert (s2 = s) as ->.
  { destruct (s_spread_named sig); [|unfold ret in E2; congruence]. unfold bind in E2. rewrite coerceM_eq in E2. destruct (coerce _ _); [|discriminate]. unfold ret in E2. congruence. }
  destruct (_ && _); [discriminate|]. unfold bind. destruct (fill_positional _ _ _ _ _) as [m3 s3|? ?| |] eqn:E3; try discriminate.
  apply fill_positional_pure in E3 as ->. apply fill_named_pure.
Qed.
Lemma bind_call_spec eval f gs0 l e s m s' : WfSig (func_sig f) -> HasBeenGiven f gs0 -> Forall ProperArg l ->
  bind_call eval f l e s = Ok m s' ->
  exists gs s1 hint c, Evaluates eval l s gs s1 /\ eval e hint s1 = Ok c s' /\
    (st_stack s1 <> [] -> Binds (func_sig f) (gs0 ++ gs ++ [GContent c]) (from_scope s1) true m).
Proof.
  intros W H Hl. unfold bind_call. unfold bind at 1. destruct (compile_args eval _ l _ s) as [b s1|? ?| |] eqn:E1; try discriminate.
  apply compile_args_spec in E1 as (gs & Hg & Hb); [|exact Hl].
  unfold bind at 1. destruct (bind_implicit_args (func_sig f) b s1) as [b1 s1'|? ?| |] eqn:E2; try discriminate.
  unfold bind at 1. destruct (compile_content_arg eval (func_sig f) e b1 s1') as [b2 s2|? ?| |] eqn:E3; try discriminate.
  unfold compile_content_arg in E3. unfold bind, or_report in E3. destruct (eval e _ s1') as [c s3|? ?| |] eqn:E4; try discriminate.
  destruct (add_content_arg (func_sig f) c b1 s3) as [b3 s4|? ?| |] eqn:E5; try discriminate. injection E3 as <- <-. intro E6.
  assert (s1' = s1) as ->.
  { unfold bind_implicit_args in E2. clear - E2. revert b E2. induction (nvalues (s_named (func_sig f))) as [|p ps IH]; intros b; cbn [bind_implicits].
    - unfold ret. injection 1 as _ <-. reflexivity.
    - destruct (_ || _); [apply IH|]. unfold bind. destruct (get_implicit _ _ s1) as [v s|? ?| |] eqn:E; try discriminate.
      apply get_implicit_state in E as ->. apply IH. }
  exists gs, s1. eexists. exists c. split; [exact Hg|].
  pose proof (give_content (func_sig f) W) as _.
  assert (s4 = s3) as -> by (apply (give_pure (func_sig f) (GContent c)) in E5; tauto).
  assert (Fin : (let* b := add_content_arg (func_sig f) c b1 in build (func_sig f) b) s3 = Ok m s') by (unfold bind; rewrite E5; exact E6).
  assert (s' = s3) as ->.
  { eapply build_pure. exact E6. }
  split; [exact E4|]. intro Hs.
  pose proof (give_all_spec (func_sig f) W nothing gs gs0 (get_partials f) s1 (given_bound f gs0 s W H) (imp_nothing _ _)) as P. rewrite (Hb s1) in P.
  destruct P as [_ B]. pose proof (finish_spec (func_sig f) (gs0 ++ gs) true b c s1 s3 W B (fun _ => Hs)) as F. cbn beta iota in F. rewrite E2 in F.
  destruct F as [_ F]. rewrite Fin in F. rewrite app_assoc. tauto.
Qed.

(** ** Types *)
Lemma coerced_list t l vs : Forall WfValue l -> Forall2 (fun a w => coerce t a = inl w) l vs -> Forall WfValue vs.
Proof.
  intros Hl F. induction F as [|a w l vs E F IH]; [constructor|]. inversion Hl; subst. constructor; [|now apply IH].
  eapply coerce_sound; eassumption.
Qed.
Lemma given_values gs : Forall WfValue (List.map given_value gs) ->
  Forall WfValue (positionals gs) /\ Forall (fun nv => WfValue (snd nv)) (nameds gs) /\ Forall WfValue (contents gs).
Proof.
  induction gs as [|g gs IH]; cbn [List.map]; intro F; [repeat split; constructor|]. inversion F as [|? ? H1 H2]; subst. apply IH in H2 as (A & B & C).
  destruct g; cbn in *; repeat split; auto; constructor; auto.
Qed.
Lemma value_typed sig gs scope implicits p v : WfSig sig -> DefaultsTyped sig -> Forall WfValue (List.map given_value gs) ->
  NoDup (List.map fst (nameds gs)) -> In p (params sig) -> ValueOf sig gs scope implicits p v ->
  HasType (p_type p) v \/
  (In p (nvalues (s_named sig)) /\ ~ In (p_name p) (List.map fst (nameds gs)) /\ implicits && p_implicit p = true /\ scope p v).
Proof.
  intros W Dt Wv Hd Hp [V|[V|V]]; apply given_values in Wv as (W1 & W2 & W3).
  - left. inversion V as [i ? a ? H1 H2 H3|? a ? H1 H2 H3|a ? H1 H2 H3]; subst.
    + eapply coerce_sound; [|exact H3]. rewrite Forall_forall in W1. apply W1. eapply nth_error_In. exact H2.
    + eapply coerce_sound; [|exact H3]. rewrite Forall_forall in W2. now apply W2 in H2.
    + eapply coerce_sound; [|exact H3]. rewrite Forall_forall in W3. apply W3. destruct (contents gs); [discriminate|]. injection H2 as <-. now left.
  - left. inversion V as [? vs ? H1 H2 H3|? vs ? H1 H2 H3]; subst.
    + eapply coerce_sound; [|exact H3]. constructor. eapply coerced_list; [|exact H2]. apply Forall_forall. intros x Hx. rewrite Forall_forall in W1.
      apply W1. rewrite <- (firstn_skipn (length (s_positional sig))), in_app_iff. now right.
    + eapply coerce_sound; [|exact H3]. constructor.
      * change (NoDup (List.map fst vs)). rewrite <- (forall2_keys _ _ (fun a w => coerce (component_type (p_type p)) a = inl w) _ _ H2).
        clear - Hd. induction (nameds gs) as [|a l IH]; [constructor|]. cbn [List.map] in Hd. inversion Hd as [|? ? N D]; subst.
        cbn [List.filter]. destruct (is_extra sig a); [|now apply IH]. cbn. constructor; [|now apply IH]. intro H. apply N.
        apply in_map_iff in H as (x & E & H). apply filter_In in H as [H _]. rewrite <- E. now apply in_map.
      * assert (F : Forall (fun nv => WfValue (snd nv)) (List.filter (is_extra sig) (nameds gs))).
        { apply Forall_forall. intros x Hx. apply filter_In in Hx as [Hx _]. rewrite Forall_forall in W2. now apply W2. }
        clear - F H2. induction H2 as [|a w l vs [_ E] H2 IH]; [constructor|]. inversion F; subst. constructor; [|now apply IH]. eapply coerce_sound; eassumption.
  - inversion V as [i ? ? H1 H2 H3|? ? H1 H2 H3 H4|? ? H1 H2 H3 H4]; subst.
    + left. now apply Dt.
    + right. tauto.
    + left. now apply Dt.
Qed.

(** ** Signatures *)
Lemma compile_param_name eval p s q s' : compile_param eval p s = Ok q s' -> p_name q = param_name p.
Proof.
  destruct p as [n qm im t d]. unfold compile_param, bind. match goal with |- context [match ?x s with _ => _ end] => destruct (x s); try discriminate end.
  unfold ret. injection 1 as <- _. reflexivity.
Qed.
Lemma compile_params_names eval ps : forall s qs s', compile_params eval ps s = Ok qs s' -> List.map p_name qs = List.map param_name ps.
Proof.
  induction ps as [|p ps IH]; intros s qs s'; cbn [compile_params]; [unfold ret; injection 1 as <- _; reflexivity|].
  unfold bind. destruct (compile_param eval p s) as [q s1|? ?| |] eqn:E; try discriminate. apply compile_param_name in E.
  destruct (compile_params eval ps s1) as [qs' s2|? ?| |] eqn:E'; try discriminate. apply IH in E'. unfold ret. injection 1 as <- _. cbn. now rewrite E, E'.
Qed.
Lemma nfrom_distinct T (l : list (str * T)) : NoDup (List.map fst l) -> nfrom l = l.
Proof.
  unfold nfrom. assert (G : forall acc, NoDup (List.map fst (acc ++ l)) -> fold_left (fun m kv => ninsert m (fst kv) (snd kv)) l acc = acc ++ l).
  - induction l as [|[k v] l IH]; intros acc H; [now rewrite app_nil_r|]. cbn [fold_left fst snd]. rewrite ninsert_new.
    + rewrite IH; rewrite <- app_assoc; [reflexivity|exact H].
    + apply ngetm_None. rewrite map_app in H. apply nodup_app in H as (_ & _ & H). intro Hk. apply (H k Hk). now left.
  - intro H. now apply (G []).
Qed.
Lemma named_values l : NoDup (List.map p_name l) -> nvalues (nfrom (List.map (fun p => (p_name p, p)) l)) = l /\
  nkeys (nfrom (List.map (fun p => (p_name p, p)) l)) = List.map p_name l.
Proof.
  intro H. rewrite nfrom_distinct by (rewrite map_map; exact H). unfold nvalues, nkeys. rewrite !map_map. cbn. now rewrite map_id.
Qed.

Lemma split_head A (l : list A) (b : bool) : (b = true -> l <> []) ->
  (match (if b then hd_error l else None) with Some p => [p] | None => [] end) ++ (if b then List.tl l else l) = l.
Proof. destruct b; [|reflexivity]. intro H. destruct l; [now destruct (H eq_refl)|reflexivity]. Qed.

Lemma compile_params_spec eval ps : forall s all s', compile_params eval ps s = Ok all s' -> DeclareAll eval ps s all s'.
Proof.
  induction ps as [|p ps IH]; intros s all s'; cbn [compile_params]; [intros E; injection E as <- <-; constructor|].
  unfold bind at 1. destruct (compile_param eval p s) as [q s1| | |] eqn:Ep; try discriminate.
  unfold bind at 1. destruct (compile_params eval ps s1) as [qs s2| | |] eqn:Eps; try discriminate.
  intros E. injection E as <- <-. econstructor; [|apply IH, Eps]. clear IH Eps.
  destruct p as [n q0 i t d]. unfold compile_param in Ep. cbv zeta in Ep. replace (t_option_if t q0) with (if q0 then t_option t else t) in Ep by (destruct q0; reflexivity).
  destruct d as [e|].
  - unfold bind, catch in Ep. destruct (eval e (if q0 then t_option t else t) s) as [v s3|err s3| |] eqn:Ee; try discriminate.
    + injection Ep as <- <-. apply De_default. exact Ee.
    + injection Ep as <- <-. eapply De_failed. exact Ee.
  - injection Ep as <- <-. apply De_no_default.
Qed.
Lemma signature_wf eval sg s sig s' : ProperSignature sg -> compile_func_signature eval sg s = Ok sig s' ->
  WfSig sig /\ List.map p_name (params sig) = signature_names sg /\ SignatureOf eval sg s sig s'.
Proof.
  destruct sg as [ps np sp nn sn hc]. cbn [ProperSignature signature_names]. intros (Hd & Ha & Hl). unfold compile_func_signature. cbv zeta.
  rewrite firstn_all2 by lia. unfold bind. destruct (compile_params eval ps s) as [all s1|? ?| |] eqn:E; try discriminate.
  pose proof (compile_params_spec _ _ _ _ _ E) as Hdecl.
  apply compile_params_names in E. assert (El : length all = length ps) by (rewrite <- (map_length p_name all), E; apply map_length).
  rewrite El, Hl, Nat.ltb_irrefl. unfold ret. injection 1 as <- <-.
  rewrite <- E in Hd, Ha. rewrite <- E. clear E.
  set (l1 := skipn np all). set (l2 := if sp then List.tl l1 else l1). set (l3 := skipn nn l2). set (l4 := if sn then List.tl l3 else l3).
  assert (L1 : length l1 = (if sp then 1 else 0) + nn + (if sn then 1 else 0) + (if hc then 1 else 0)) by (unfold l1; rewrite skipn_length; lia).
  assert (L2 : length l2 = nn + (if sn then 1 else 0) + (if hc then 1 else 0)) by (unfold l2; destruct sp; [destruct l1; cbn in *; lia|lia]).
  assert (L3 : length l3 = (if sn then 1 else 0) + (if hc then 1 else 0)) by (unfold l3; rewrite skipn_length; lia).
  assert (L4 : length l4 = if hc then 1 else 0) by (unfold l4; destruct sn; [destruct l3; cbn in *; lia|lia]).
  assert (E1 : all = firstn np all ++ l1) by (symmetry; apply firstn_skipn).
  assert (E2 : l1 = match (if sp then hd_error l1 else None) with Some p => [p] | None => [] end ++ l2).
  { symmetry. apply split_head. intros ->. destruct l1; discriminate. }
  assert (E3 : l2 = firstn nn l2 ++ l3) by (symmetry; apply firstn_skipn).
  assert (E4 : l3 = match (if sn then hd_error l3 else None) with Some p => [p] | None => [] end ++ l4).
  { symmetry. apply split_head. intros ->. destruct l3; discriminate. }
  assert (Eall : all = firstn np all ++ match (if sp then hd_error l1 else None) with Some p => [p] | None => [] end ++ firstn nn l2 ++
     match (if sn then hd_error l3 else None) with Some p => [p] | None => [] end ++ l4).
  { rewrite E1 at 1. rewrite E2 at 1. rewrite E3 at 1. rewrite E4 at 1. reflexivity. }
  assert (Dn : NoDup (List.map p_name (firstn nn l2))).
  { rewrite Eall, !map_app in Hd. apply nodup_app in Hd as (_ & Hd & _). apply nodup_app in Hd as (_ & Hd & _). now apply nodup_app in Hd as (Hd & _ & _). }
  destruct (named_values _ Dn) as [Nv Nk].
  clear E1 E2 E3 E4. clearbody l4. clearbody l3. clearbody l2. clearbody l1.
  set (sig := FSig _ _ _ _ _).
  assert (Ec : (if has_content sig then [s_content sig] else []) = l4).
  { unfold has_content, sig. cbn [s_content]. destruct hc.
    - destruct l4 as [|q [|? ?]] eqn:E; try discriminate. cbn [hd_error]. assert (Hq : p_name q <> n_anonymous).
      { intro X. apply Ha. rewrite <- X. apply in_map. rewrite Eall, !in_app_iff. cbn. tauto. }
      destruct (is_anonymous (p_name q)) eqn:Ea; [now apply is_anonymous_spec in Ea|reflexivity].
    - destruct l4; [reflexivity|discriminate]. }
  assert (Ep : params sig = all).
  { unfold params. rewrite Ec. rewrite Eall. unfold sig. cbn [s_positional s_spread s_named s_spread_named]. rewrite Nv. reflexivity. }
  split; [constructor|split; [now rewrite Ep|]].
  - now rewrite Ep.
  - unfold sig. cbn [s_named]. now rewrite Nk, Nv.
  - now rewrite Ep.
  - intro Hh. rewrite Hh in Ec. unfold sig. cbn [s_content]. destruct hc; [destruct l4; discriminate|reflexivity].
  - cbn [SignatureOf]. rewrite Ep. split; [exact Hdecl|]. unfold sig. cbn [s_positional s_spread s_named s_spread_named].
    split; [rewrite firstn_length; lia|]. split; [destruct sp; [destruct l1; [discriminate|reflexivity]|reflexivity]|].
    split; [rewrite <- (map_length snd); change (List.map snd) with (@nvalues fparam); rewrite Nv, firstn_length; lia|].
    split; [destruct sn; [destruct l3; [discriminate|reflexivity]|reflexivity]|].
    fold sig. destruct (has_content sig) eqn:Eh, hc; try reflexivity; rewrite <- Ec in L4; discriminate.
Qed.

(** ** Native functions *)
Fixpoint nodupb (l : list str) : bool :=
  match l with [] => true | x :: l => negb (mem x l) && nodupb l end.
Lemma nodupb_spec l : nodupb l = true -> NoDup l.
Proof.
  induction l as [|x l IH]; cbn; [constructor|]. intro H. apply andb_prop in H as [H1 H2]. constructor; [|now apply IH].
  intro Hi. apply mem_In in Hi. rewrite Hi in H1. discriminate.
Qed.
Lemma native_wf f : WfSig (native_sig f) /\ DefaultsTyped (native_sig f).
Proof.
  split.
  - constructor.
    + apply nodupb_spec. destruct f; vm_compute; reflexivity.
    + destruct f; vm_compute; reflexivity.
    + intro H. apply mem_In in H. revert H. destruct f; vm_compute; discriminate.
    + destruct f; vm_compute; intro H; solve [reflexivity|discriminate H].
  - intros p v. destruct f; cbn; intro H; repeat (destruct H as [<-|H]; [cbn; try discriminate; injection 1 as <-; first [apply HT_int | apply HT_bool | apply HT_none; unfold AcceptsNone; eauto 8]|]); try destruct H.
Qed.
Lemma bind_content_eq f v s : bind_content f v s = (let* b := give_all (func_sig f) [GContent v] (get_partials f) in close_bound (func_sig f) b f) s.
Proof. unfold bind_content. cbn [give_all give]. unfold bind. destruct (add_content_arg _ _ _ s); reflexivity. Qed.
Lemma bind_positional_eq f v s : bind_positional f v s = (let* b := give_all (func_sig f) [GPos v] (get_partials f) in close_bound (func_sig f) b f) s.
Proof. unfold bind_positional. cbn [give_all give]. unfold bind. destruct (add_positional_arg _ _ _ s); reflexivity. Qed.
Lemma methods_given subject name s f s' : evaluate_native_attr subject name s = Ok f s' ->
  exists n, func_sig f = native_sig n /\ (HasBeenGiven f [GContent subject] \/ HasBeenGiven f [GPos subject]).
Proof.
  intro E. unfold evaluate_native_attr in E. destruct (ngetm (native_attr subject) name) as [[n as_content]|]; [|discriminate].
  exists n. destruct (native_wf n) as [W _].
  assert (H : HasBeenGiven (FNative n name (native_sig n)) []) by (intro; reflexivity). destruct as_content.
  - rewrite bind_content_eq in E. pose proof (bind_spec (FNative n name (native_sig n)) [] [GContent subject] s W H) as P. rewrite E in P. cbn in P. tauto.
  - rewrite bind_positional_eq in E. pose proof (bind_spec (FNative n name (native_sig n)) [] [GPos subject] s W H) as P. rewrite E in P. cbn in P. tauto.
Qed.
