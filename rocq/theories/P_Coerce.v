(** Proofs about coercion (C18) and equality (C39) of values. *)
From Verif Require Import Base BaseFacts M_Names M_TagInfo M_Html S_Html P_Html M_TextSubs M_Token M_Types M_Ast M_Diag M_Value S_Types P_Types.

(** ** Values stay well-formed *)
Lemma html_text_normal s : Normal (html_text s).
Proof.
  destruct s as [|c [|d s]]; cbn; [constructor| |constructor; discriminate].
  destruct (N.eqb_spec c 32); [constructor|]. destruct (N.eqb_spec c 10); [constructor|]. constructor; congruence.
Qed.
Definition good_event (e : event) : Prop := match e with EOpen _ a => NoDup (List.map fst a) | _ => True end.
Lemma distinct_events h : DistinctAttrs h <-> Forall good_event (events h).
Proof.
  induction h using html_ind'; cbn [events].
  - split; constructor; exact I.
  - split.
    + inversion 1; subst; [|contradiction]. constructor; [assumption|]. apply Forall_app. split; [now apply IHh|].
      repeat constructor.
    + inversion 1 as [|? ? G F]; subst. apply Forall_app in F as [F _]. constructor; [exact G|now apply IHh].
  - rewrite Forall_flat_map. split.
    + inversion 1; subst; [|contradiction]. rewrite Forall_forall in *. intros x I. apply H; auto.
    + intros F. constructor. rewrite Forall_forall in *. intros x I. apply H; auto.
  - split; [intros _; rewrite Forall_map; apply Forall_forall; intros; exact I|intros; now constructor].
  - split; intros; repeat constructor.
  - split; intros; repeat constructor.
Qed.
Definition WfHtml (h : html) : Prop := Normal h /\ DistinctAttrs h.
Lemma wf_from_iter l : Forall WfHtml l -> WfHtml (from_iter l).
Proof.
  intros F. split.
  - apply from_iter_normal. eapply Forall_impl; [|exact F]. now intros x [].
  - apply distinct_events. rewrite from_iter_events, Forall_flat_map. eapply Forall_impl; [|exact F].
    intros x [_ D]. now apply distinct_events.
Qed.
Lemma wf_html_text s : WfHtml (html_text s).
Proof.
  split; [apply html_text_normal|]. apply distinct_events. rewrite events_html_text, Forall_map. apply Forall_forall.
  intros; exact I.
Qed.
Lemma wf_tag n a c : NoDup (List.map fst a) -> WfHtml c -> WfHtml (HTag n a c).
Proof. intros A [N D]. split; now constructor. Qed.
Lemma wf_html_tag n c : WfHtml c -> WfHtml (html_tag n c).
Proof. apply wf_tag. constructor. Qed.
Lemma wf_empty : WfHtml HEmpty.
Proof. split; constructor; exact I. Qed.
Lemma wf_compile_value v : WfValue v -> WfHtml (compile_value v).
Proof.
  induction v using value_ind'; intros W; cbn [compile_value]; try apply wf_html_text;
    try (apply wf_html_tag, wf_html_text).
  - inversion W; subst. now split.
  - inversion W as [| | | | | |? F|]; subst. apply wf_html_tag, wf_from_iter. rewrite Forall_map, Forall_forall in *.
    intros v I. apply wf_html_tag. auto.
  - inversion W as [| | | | | | |? D F]; subst. apply wf_tag; [repeat constructor; intros []|]. apply wf_from_iter.
    rewrite Forall_map, Forall_forall in *. intros v I. apply wf_html_tag, wf_from_iter.
    constructor; [|constructor; [|constructor]]; apply wf_html_tag; [apply wf_html_text|auto].
Qed.
Lemma wf_of_html h : WfHtml h -> WfValue (of_html h).
Proof.
  intros [N D]. destruct h; cbn; try constructor; auto; cbn; tauto.
Qed.

(** ** Coercion *)
Lemma coerce_opt_eq t v : coerce t v = coerce_opt coerce_base t v. Proof. reflexivity. Qed.
Lemma coerce_base_list t vs : coerce_base (TList t) (VList vs) =
  match coerce_all (coerce t) vs with inl vs => inl (VList vs) | inr e => inr e end.
Proof. reflexivity. Qed.
Lemma coerce_base_dict t vs : coerce_base (TDict t) (VDict vs) =
  match coerce_all (coerce t) (List.map snd vs) with
  | inl vs' => inl (VDict (combine (List.map fst vs) vs'))
  | inr e => inr e
  end.
Proof. reflexivity. Qed.
Lemma coerce_all_spec {A} (f : value -> A + papyri_error) vs ws :
  coerce_all f vs = inl ws <-> Forall2 (fun v w => f v = inl w) vs ws.
Proof.
  revert ws. induction vs as [|v vs IH]; intros ws; cbn.
  - split; [injection 1 as <-; constructor|now inversion 1].
  - destruct (f v) eqn:E.
    + destruct (coerce_all f vs) eqn:R.
      * split; [injection 1 as <-; constructor; [assumption|now apply IH]|].
        inversion 1 as [|? ? ? ? A1 A2]; subst. apply IH in A2. congruence.
      * split; [discriminate|]. inversion 1 as [|? ? ? ? A1 A2]; subst. apply IH in A2. congruence.
    + split; [discriminate|]. inversion 1; congruence.
Qed.

Lemma in_tag_p_block h : html_is_block (in_tag h n_p) = true.
Proof. reflexivity. Qed.
Lemma inline_of_html h : WfHtml h -> html_is_block h = false -> HasType TInline (of_html h).
Proof.
  intros [N D] B. destruct (html_is_empty h) eqn:E.
  - destruct h; try discriminate. constructor. unfold AcceptsNone. tauto.
  - pose proof (not_block_inline h N E B) as I. apply html_is_inline_spec in I.
    destruct h; cbn; try discriminate; try (constructor; assumption); constructor.
Qed.
Lemma html_of_html h : HasType THtml (of_html h).
Proof. destruct h; cbn; first [apply HT_html|apply HT_html_str]. Qed.
Lemma block_of_html h : WfHtml h -> html_is_inline h = false -> HasType TBlock (of_html h).
Proof.
  intros [N D] B. destruct (html_is_empty h) eqn:E.
  - destruct h; try discriminate. constructor. unfold AcceptsNone. tauto.
  - destruct (html_is_block h) eqn:BL.
    + apply html_is_block_spec in BL. destruct h; cbn; try discriminate; now constructor.
    + pose proof (not_block_inline h N E BL). congruence.
Qed.

Definition sound_at (t : ty) : Prop := forall v v', WfValue v -> coerce_base t v = inl v' -> HasType t v' /\ WfValue v'.
Lemma Forall2_Forall_r {A B} (R : A -> B -> Prop) (P : A -> Prop) (Q : B -> Prop) l m :
  (forall a b, P a -> R a b -> Q b) -> Forall P l -> Forall2 R l m -> Forall Q m.
Proof. intros H F; revert m; induction F; inversion 1; subst; constructor; eauto. Qed.
Lemma coerce_opt_sound t : (forall t', t' = t \/ t = TOptional t' -> sound_at t') ->
  forall v v', WfValue v -> coerce t v = inl v' -> HasType t v' /\ WfValue v'.
Proof.
  intros H v v' W C. unfold coerce, coerce_opt in C. destruct t; try (eapply H; eauto; fail).
  destruct (is_unit v) eqn:U.
  - injection C as <-. apply is_unit_spec in U. subst. split; [constructor; unfold AcceptsNone; eauto 10|assumption].
  - destruct (H t (or_intror eq_refl) v v' W C) as [A B]. split; [now constructor|assumption].
Qed.
Lemma combine_snd {A B} (l : list A) (m : list B) : length l = length m -> List.map snd (combine l m) = m.
Proof. revert m; induction l; destruct m; cbn; intros; try discriminate; [reflexivity|]. f_equal. apply IHl. lia. Qed.
Lemma combine_fst {A B} (l : list A) (m : list B) : length l = length m -> List.map fst (combine l m) = l.
Proof. revert m; induction l; destruct m; cbn; intros; try discriminate; [reflexivity|]. f_equal. apply IHl. lia. Qed.

Lemma coerce_sound_n n : forall t, ty_size t <= n -> sound_at t.
Proof.
  induction n as [|n IH]; intros t Sz; [destruct (ty_size_pos t); lia|].
  assert (IHc : forall t', S (ty_size t') <= S n -> forall v v', WfValue v -> coerce t' v = inl v' -> HasType t' v' /\ WfValue v').
  { intros t' L. apply coerce_opt_sound. intros t'' [->| ->]; apply IH; [|cbn in L]; lia. }
  intros v v' W C.
  destruct t.
  - (* none *) cbn [coerce_base] in C. destruct (is_unit v) eqn:U; [|destruct v; discriminate].
    assert (v' = UNIT) as -> by (destruct v; congruence).
    split; [constructor; now left|apply (wf_of_html HEmpty), wf_empty].
  - assert (v' = v) as -> by (cbn [coerce_base] in C; destruct v; congruence). split; [constructor|assumption].
  - (* html *)
    assert (K : v' = v /\ HasType THtml v \/ v' = of_html (compile_value v)).
    { destruct v; cbn [coerce_base] in C; try discriminate C; injection C as <-; auto; left; split;
        first [reflexivity|apply HT_html|apply HT_html_str]. }
    destruct K as [[-> K]| ->]; [auto|]. split; [apply html_of_html|]. now apply wf_of_html, wf_compile_value.
  - (* block *)
    assert (K : v' = of_html (if html_is_inline (compile_value v) then in_tag (compile_value v) n_p else compile_value v)).
    { destruct v; cbn [coerce_base] in C; try discriminate C; injection C as <-; reflexivity. }
    pose proof (wf_compile_value v W) as Wh. subst v'. destruct (html_is_inline (compile_value v)) eqn:E.
    + split; [|apply wf_of_html; now apply wf_html_tag]. constructor. now apply html_is_block_spec.
    + split; [now apply block_of_html|now apply wf_of_html].
  - (* inline *)
    assert (K : v' = v /\ HasType TInline v \/ html_is_block (compile_value v) = false /\ v' = of_html (compile_value v)).
    { destruct v; cbn [coerce_base] in C; try discriminate C.
      all: try (destruct (html_is_block (compile_value _)) eqn:B; [discriminate C|]; injection C as <-; auto; fail).
      injection C as <-. left. split; [reflexivity|constructor]. }
    pose proof (wf_compile_value v W) as Wh.
    destruct K as [[-> K]|[B ->]]; [auto|]. split; [now apply inline_of_html|now apply wf_of_html].
  - destruct v; cbn [coerce_base] in C; try discriminate C; injection C as <-; split; [constructor|assumption].
  - destruct v; cbn [coerce_base] in C; try discriminate C; injection C as <-; split; [constructor|assumption].
  - destruct v; cbn [coerce_base] in C; try discriminate C; injection C as <-; split; constructor.
  - destruct v; cbn [coerce_base] in C; try discriminate C; injection C as <-; split; [constructor|assumption].
  - destruct v; cbn [coerce_base] in C; try discriminate C; injection C as <-; split; [constructor|assumption].
  - (* dict *)
    destruct v; try discriminate C. rewrite coerce_base_dict in C.
    destruct (coerce_all (coerce t) (List.map snd vs)) as [ws|] eqn:E; [|discriminate C]. injection C as <-.
    apply coerce_all_spec in E. inversion W as [| | | | | | |? D F]; subst.
    assert (L : length (List.map fst vs) = length ws)
      by (rewrite <- (Forall2_len _ _ _ E), !map_length; reflexivity).
    assert (G : Forall (fun w => HasType t w /\ WfValue w) ws).
    { eapply (Forall2_Forall_r _ WfValue); [|rewrite Forall_map; exact F|exact E]. intros a b Wa Eb.
      apply (IHc t) in Eb; auto. }
    rewrite <- (combine_snd _ _ L), Forall_map in G.
    split; constructor.
    + eapply Forall_impl; [|exact G]. now intros ? [].
    + now rewrite combine_fst.
    + eapply Forall_impl; [|exact G]. now intros ? [].
  - (* list *)
    destruct v; try discriminate C. rewrite coerce_base_list in C.
    destruct (coerce_all (coerce t) vs) as [ws|] eqn:E; [|discriminate C]. injection C as <-.
    apply coerce_all_spec in E. inversion W as [| | | | | |? F|]; subst.
    assert (G : Forall (fun w => HasType t w /\ WfValue w) ws).
    { eapply (Forall2_Forall_r _ WfValue); [|exact F|exact E]. intros a b Wa Eb. apply (IHc t) in Eb; auto. }
    split; constructor; (eapply Forall_impl; [|exact G]); now intros ? [].
  - destruct v; cbn [coerce_base] in C; discriminate C.
Qed.
Lemma coerce_sound t v v' : WfValue v -> coerce t v = inl v' -> HasType t v' /\ WfValue v'.
Proof. apply coerce_opt_sound. intros t' _. now apply (coerce_sound_n (ty_size t')). Qed.

(** Coercing a value which already has the type *)
Lemma both_levels h : ~ (BlockLevel h /\ InlineLevel h) <-> html_is_block h && html_is_inline h = false.
Proof.
  rewrite <- html_is_block_spec, <- html_is_inline_spec. destruct (html_is_block h), (html_is_inline h); cbn; intuition congruence.
Qed.
Lemma of_html_id h : ~ IsText h -> of_html h = VHtml h.
Proof. destruct h; cbn; tauto. Qed.
Lemma coerce_unit t : AcceptsNone t -> coerce t UNIT = inl UNIT.
Proof. intros [->|[->|[->|[->|[->|[t' ->]]]]]]; reflexivity. Qed.
Lemma coerce_non_option t v : (forall t', t <> TOptional t') -> coerce t v = coerce_base t v.
Proof. unfold coerce, coerce_opt. destruct t; congruence. Qed.
Lemma combine_map_fst_snd {A B} (l : list (A * B)) : combine (List.map fst l) (List.map snd l) = l.
Proof. induction l as [|[a b] l IH]; cbn; [reflexivity|now rewrite IH]. Qed.
Lemma coerce_has_n n : forall t, ty_size t <= n -> forall v, NormalTy t -> WfValue v -> Unambiguous v -> HasType t v ->
  coerce t v = inl v.
Proof.
  induction n as [|n IH]; intros t Sz v NT W U H; [destruct (ty_size_pos t); lia|].
  assert (All : forall t' vs, S (ty_size t') <= S n -> NormalTy t' -> Forall WfValue vs ->
            Forall Unambiguous vs -> Forall (HasType t') vs -> coerce_all (coerce t') vs = inl vs).
  { intros t' vs L N' F1 F2 F3. apply coerce_all_spec. induction vs as [|x vs IHv]; [constructor|].
    inversion F1; inversion F2; inversion F3; subst. constructor; [apply IH; auto; lia|auto]. }
  inversion H as [? A|v0| | | | | | | |s|h B|h B|t' vs F|t' vs F|t' v' H']; subst; try reflexivity.
  - now apply coerce_unit.
  - (* block *)
    inversion W as [| | | | |? N T D| |]; subst.
    unfold coerce; cbn [coerce_opt coerce_base compile_value]. inversion U as [| |? ? A]; subst.
    apply both_levels in A. apply html_is_block_spec in B. rewrite B in A. cbn in A. rewrite A, of_html_id; auto.
  - inversion W as [| | | | |? N T D| |]; subst.
    unfold coerce; cbn [coerce_opt coerce_base compile_value]. inversion U as [| |? ? A]; subst.
    apply both_levels in A. apply html_is_inline_spec in B. rewrite B, andb_true_r in A. rewrite A, of_html_id; auto.
  - rewrite coerce_non_option, coerce_base_dict by discriminate.
    inversion W as [| | | | | | |? D F']; subst. apply EveryPart_dict in U as [_ U].
    rewrite All; [now rewrite combine_map_fst_snd|cbn in Sz; lia|now apply NormalTy_dict| | |]; rewrite Forall_map; auto.
  - rewrite coerce_non_option, coerce_base_list by discriminate.
    inversion W as [| | | | | |? F'|]; subst. apply EveryPart_list in U as [_ U].
    rewrite All; [reflexivity|cbn in Sz; lia|now apply NormalTy_list| | |]; auto.
  - unfold coerce; cbn [coerce_opt]. destruct (is_unit v) eqn:E; [apply is_unit_spec in E; now subst|].
    apply NormalTy_option in NT as [NT A]. rewrite <- (coerce_non_option t').
    + apply IH; auto. cbn in Sz. lia.
    + intros t'' ->. apply A. unfold AcceptsNone. eauto 10.
Qed.
Lemma coerce_has t v : NormalTy t -> WfValue v -> Unambiguous v -> HasType t v -> coerce t v = inl v.
Proof. now apply (coerce_has_n (ty_size t)). Qed.

(** Coercing twice *)
Definition idem_at (t : ty) : Prop := forall v v', coerce_base t v = inl v' -> coerce_base t v' = inl v'.
Lemma coerce_all_idem f vs ws : (forall v w, f v = inl w -> f w = inl w) -> coerce_all f vs = inl ws ->
  coerce_all f ws = inl ws.
Proof. intros H E. apply coerce_all_spec in E. apply coerce_all_spec. induction E; constructor; eauto. Qed.
Lemma coerce_opt_idem t : (forall t', t' = t \/ t = TOptional t' -> idem_at t') ->
  forall v v', coerce t v = inl v' -> coerce t v' = inl v'.
Proof.
  intros H v v' C. unfold coerce, coerce_opt in *. destruct t; try (eapply H; eauto; fail).
  destruct (is_unit v') eqn:U'; [apply is_unit_spec in U'; now subst|].
  destruct (is_unit v) eqn:U; [|eapply H; eauto]. injection C as <-. discriminate U'.
Qed.
Lemma of_html_not_inline h : html_is_inline h = false -> of_html h = VHtml h.
Proof. destruct h; cbn; try discriminate; reflexivity. Qed.
Lemma coerce_idem_n n : forall t, ty_size t <= n -> idem_at t.
Proof.
  induction n as [|n IH]; intros t Sz; [destruct (ty_size_pos t); lia|].
  assert (IHc : forall t', S (ty_size t') <= S n -> forall v v', coerce t' v = inl v' -> coerce t' v' = inl v').
  { intros t' L. apply coerce_opt_idem. intros t'' [->| ->]; apply IH; [|cbn in L]; lia. }
  intros v v' C.
  destruct t.
  - cbn [coerce_base] in C. destruct (is_unit v) eqn:U; [|destruct v; discriminate].
    assert (v' = UNIT) as -> by (destruct v; congruence). reflexivity.
  - assert (v' = v) as -> by (cbn [coerce_base] in C; destruct v; congruence). exact C.
  - assert (K : v' = v \/ v' = of_html (compile_value v)).
    { destruct v; cbn [coerce_base] in C; try discriminate C; injection C as <-; auto. }
    destruct K as [->| ->]; [assumption|]. destruct (compile_value v); reflexivity.
  - assert (K : v' = of_html (if html_is_inline (compile_value v) then in_tag (compile_value v) n_p else compile_value v)).
    { destruct v; cbn [coerce_base] in C; try discriminate C; injection C as <-; reflexivity. }
    subst v'. clear C. destruct (html_is_inline (compile_value v)) eqn:E; [reflexivity|].
    rewrite of_html_not_inline by assumption. cbn [coerce_base compile_value]. rewrite E.
    now rewrite of_html_not_inline.
  - assert (K : v' = v \/ html_is_block (compile_value v) = false /\ v' = of_html (compile_value v)).
    { destruct v; cbn [coerce_base] in C; try discriminate C.
      all: try (destruct (html_is_block (compile_value _)) eqn:B; [discriminate C|]; injection C as <-; auto; fail).
      injection C as <-. now left. }
    destruct K as [->|[B ->]]; [assumption|].
    destruct (compile_value v) eqn:E; cbn [of_html coerce_base compile_value]; try reflexivity; rewrite B; reflexivity.
  - destruct v; cbn [coerce_base] in C; try discriminate C; injection C as <-; reflexivity.
  - destruct v; cbn [coerce_base] in C; try discriminate C; injection C as <-; reflexivity.
  - destruct v; cbn [coerce_base] in C; try discriminate C; injection C as <-; reflexivity.
  - destruct v; cbn [coerce_base] in C; try discriminate C; injection C as <-; reflexivity.
  - destruct v; cbn [coerce_base] in C; try discriminate C; injection C as <-; reflexivity.
  - destruct v; try discriminate C. rewrite coerce_base_dict in C.
    destruct (coerce_all (coerce t) (List.map snd vs)) as [ws|] eqn:E; [|discriminate C]. injection C as <-.
    assert (L : length (List.map fst vs) = length ws).
    { apply coerce_all_spec in E. rewrite <- (Forall2_len _ _ _ E), !map_length; reflexivity. }
    rewrite coerce_base_dict, combine_snd, combine_fst by assumption.
    rewrite (coerce_all_idem _ _ _ (IHc t Sz) E). reflexivity.
  - destruct v; try discriminate C. rewrite coerce_base_list in C.
    destruct (coerce_all (coerce t) vs) as [ws|] eqn:E; [|discriminate C]. injection C as <-.
    rewrite coerce_base_list, (coerce_all_idem _ _ _ (IHc t Sz) E). reflexivity.
  - destruct v; cbn [coerce_base] in C; discriminate C.
Qed.
Lemma coerce_idem t v v' : coerce t v = inl v' -> coerce t v' = inl v'.
Proof. apply coerce_opt_idem. intros t' _. now apply (coerce_idem_n (ty_size t')). Qed.

(** ** Name-keyed maps *)
Lemma ngetm_In {T} (m : nmap T) k v : ngetm m k = Some v -> In (k, v) m.
Proof.
  induction m as [|[k' v'] m IH]; cbn; [discriminate|]. destruct (str_eqb k k') eqn:E; [|auto].
  apply str_eqb_eq in E. injection 1 as <-. subst. now left.
Qed.
Lemma ngetm_NoDup {T} (m : nmap T) k v : NoDup (List.map fst m) -> In (k, v) m -> ngetm m k = Some v.
Proof.
  induction m as [|[k' v'] m IH]; cbn; [tauto|]. intros D I. inversion D as [|? ? N D']; subst.
  destruct I as [I|I].
  - injection I as -> ->. now rewrite str_eqb_refl.
  - destruct (str_eqb k k') eqn:E; [|auto]. apply str_eqb_eq in E. subst. elim N. apply in_map_iff. now exists (k', v).
Qed.
Lemma ngetm_None {T} (m : nmap T) k : ngetm m k = None <-> ~ In k (List.map fst m).
Proof.
  induction m as [|[k' v'] m IH]; cbn; [split; auto|]. destruct (str_eqb k k') eqn:E.
  - apply str_eqb_eq in E. subst. split; [discriminate|tauto].
  - apply str_eqb_neq in E. rewrite IH. intuition congruence.
Qed.
Lemma neqb_spec {T} (eqb : T -> T -> bool) m1 m2 :
  neqb eqb m1 m2 = true <-> length m1 = length m2 /\
    forall k a, In (k, a) m1 -> exists b, ngetm m2 k = Some b /\ eqb a b = true.
Proof.
  unfold neqb. rewrite andb_true_iff, Nat.eqb_eq, forallb_forall. split; intros [L F]; (split; [assumption|]).
  - intros k a I. specialize (F _ I). cbn in F. destruct (ngetm m2 k); [eauto|discriminate].
  - intros [k a] I. destruct (F _ _ I) as (b & G & E). cbn. now rewrite G.
Qed.
Lemma neqb_flip {T} (eqb : T -> T -> bool) m1 m2 : NoDup (List.map fst m1) -> NoDup (List.map fst m2) ->
  neqb eqb m1 m2 = true -> forall k b, In (k, b) m2 -> exists a, ngetm m1 k = Some a /\ eqb a b = true.
Proof.
  intros D1 D2 E k b I. apply neqb_spec in E as [L E].
  assert (Inc : incl (List.map fst m2) (List.map fst m1)).
  { apply NoDup_length_incl; [assumption|rewrite !map_length; lia|]. intros x Hx. apply in_map_iff in Hx.
    destruct Hx as ([k' a] & <- & Ix). destruct (E _ _ Ix) as (b' & G & _). apply ngetm_In in G.
    apply in_map_iff. now exists (k', b'). }
  assert (K : In k (List.map fst m1)) by (apply Inc, in_map_iff; now exists (k, b)).
  apply in_map_iff in K. destruct K as ([k' a] & Ek & Ia). cbn in Ek. subst k'.
  destruct (E _ _ Ia) as (b' & G & Eab). rewrite (ngetm_NoDup _ _ _ D2 I) in G. injection G as <-.
  exists a. split; [now apply ngetm_NoDup|assumption].
Qed.
Lemma neqb_sym {T} (eqb : T -> T -> bool) m1 m2 : NoDup (List.map fst m1) -> NoDup (List.map fst m2) ->
  (forall k a b, In (k, a) m1 -> In (k, b) m2 -> eqb a b = true -> eqb b a = true) ->
  neqb eqb m1 m2 = true -> neqb eqb m2 m1 = true.
Proof.
  intros D1 D2 S E. apply neqb_spec. split; [apply neqb_spec in E; symmetry; tauto|]. intros k b I.
  destruct (neqb_flip _ _ _ D1 D2 E k b I) as (a & G & Eab). exists a. split; [assumption|].
  apply (S k); auto. now apply ngetm_In.
Qed.
Lemma neqb_trans {T} (eqb : T -> T -> bool) m1 m2 m3 :
  (forall k a b c, In (k, a) m1 -> In (k, b) m2 -> In (k, c) m3 -> eqb a b = true -> eqb b c = true -> eqb a c = true) ->
  neqb eqb m1 m2 = true -> neqb eqb m2 m3 = true -> neqb eqb m1 m3 = true.
Proof.
  intros S E1 E2. apply neqb_spec in E1 as [L1 E1], E2 as [L2 E2]. apply neqb_spec. split; [congruence|].
  intros k a I. destruct (E1 _ _ I) as (b & Gb & Eab). apply ngetm_In in Gb as Ib. destruct (E2 _ _ Ib) as (c & Gc & Ebc).
  exists c. split; [assumption|]. apply (S k a b c); auto. now apply ngetm_In.
Qed.
Lemma neqb_refl {T} (eqb : T -> T -> bool) m : NoDup (List.map fst m) ->
  (neqb eqb m m = true <-> forall k a, In (k, a) m -> eqb a a = true).
Proof.
  intros D. rewrite neqb_spec. split.
  - intros [_ E] k a I. destruct (E _ _ I) as (b & G & Eab). rewrite (ngetm_NoDup _ _ _ D I) in G. now injection G as <-.
  - intros E. split; [reflexivity|]. intros k a I. exists a. split; [now apply ngetm_NoDup|eauto].
Qed.

(** ** Equality of lists, as written inside [html_eqb] and [value_eqb] *)
Definition leqb {T} (eqb : T -> T -> bool) : list T -> list T -> bool :=
  fix go l m := match l, m with
                | [], [] => true
                | a :: l, b :: m => eqb a b && go l m
                | _, _ => false
                end.
Lemma leqb_spec {T} (eqb : T -> T -> bool) l m : leqb eqb l m = true <-> Forall2 (fun a b => eqb a b = true) l m.
Proof.
  revert m; induction l as [|a l IH]; intros [|b m]; cbn; split; intros H; try discriminate; try constructor;
    try (now inversion H); try reflexivity; try (apply andb_true_iff in H as [? ?]; auto; now apply IH).
  inversion H; subst. apply andb_true_iff. split; [assumption|now apply IH].
Qed.
Lemma html_eqb_seq l m : html_eqb (HSeq l) (HSeq m) = leqb html_eqb l m. Proof. reflexivity. Qed.
Lemma html_eqb_tag n1 a1 c1 n2 a2 c2 : html_eqb (HTag n1 a1 c1) (HTag n2 a2 c2) =
  str_eqb n1 n2 && neqb ostr_eqb a1 a2 && html_eqb c1 c2. Proof. reflexivity. Qed.
Lemma value_eqb_list l m : value_eqb (VList l) (VList m) = leqb value_eqb l m. Proof. reflexivity. Qed.
Lemma value_eqb_dict l m : value_eqb (VDict l) (VDict m) = neqb value_eqb l m.
Proof.
  cbn. unfold neqb. f_equal. generalize l at 1 2. clear l. intros l. induction l as [|[k a] l IH]; cbn; [reflexivity|]. now rewrite IH.
Qed.
Lemma ostr_eqb_eq a b : ostr_eqb a b = true <-> a = b.
Proof.
  destruct a, b; cbn; try (split; congruence). rewrite str_eqb_eq. split; congruence.
Qed.

Lemma Forall2_sym_Forall {T} (R : T -> T -> Prop) (P : T -> Prop) l m :
  Forall (fun a => forall b, P a -> P b -> R a b -> R b a) l -> Forall P l -> Forall P m -> Forall2 R l m -> Forall2 R m l.
Proof.
  intros F Pl Pm H. induction H; [constructor|]. inversion F; inversion Pl; inversion Pm; subst. constructor; auto.
Qed.
Lemma html_eqb_sym_l a : forall b, DistinctAttrs a -> DistinctAttrs b -> html_eqb a b = true -> html_eqb b a = true.
Proof.
  induction a using html_ind'; intros b Da Db E; destruct b; try discriminate E; try reflexivity.
  - rewrite html_eqb_tag in *. apply andb_true_iff in E as [E E3]. apply andb_true_iff in E as [E1 E2].
    inversion Da; subst; [|contradiction]. inversion Db; subst; [|contradiction].
    repeat rewrite andb_true_iff. repeat split; [now rewrite str_eqb_sym| |now apply IHa].
    eapply neqb_sym; [..|exact E2]; auto. intros k x y _ _ Exy. apply ostr_eqb_eq in Exy. subst. now apply ostr_eqb_eq.
  - rewrite html_eqb_seq in *. apply leqb_spec in E. apply leqb_spec.
    inversion Da; subst; [|contradiction]. inversion Db; subst; [|contradiction].
    eapply (Forall2_sym_Forall _ DistinctAttrs); eauto.
  - cbn in *. now rewrite str_eqb_sym.
Qed.
Lemma html_eqb_trans a : forall b c, html_eqb a b = true -> html_eqb b c = true -> html_eqb a c = true.
Proof.
  induction a using html_ind'; intros b c E1 E2; destruct b; try discriminate E1; destruct c; try discriminate E2; try reflexivity.
  - rewrite html_eqb_tag in *. repeat rewrite andb_true_iff in *. destruct E1 as [[E1 F1] G1], E2 as [[E2 F2] G2].
    apply str_eqb_eq in E1, E2. subst. rewrite str_eqb_refl. repeat split; eauto.
    eapply neqb_trans; [|exact F1|exact F2]. intros k x y z _ _ _ Exy Eyz. apply ostr_eqb_eq in Exy, Eyz. subst.
    now apply ostr_eqb_eq.
  - rewrite html_eqb_seq in *. apply leqb_spec in E1, E2. apply leqb_spec. revert l1 E2. induction E1; intros m E2; inversion E2; subst; constructor.
    + inversion H; subst; eauto.
    + inversion H; subst; auto.
  - cbn in *. apply str_eqb_eq in E1, E2. subst. apply str_eqb_refl.
Qed.
Lemma html_eqb_refl a : DistinctAttrs a -> html_eqb a a = true.
Proof.
  induction a using html_ind'; intros D; try reflexivity.
  - inversion D as [? ? ? ND Dc| |]; subst; [|contradiction]. rewrite html_eqb_tag, str_eqb_refl, IHa by assumption.
    rewrite (proj2 (neqb_refl ostr_eqb a ND)); [reflexivity|]. intros. now apply ostr_eqb_eq.
  - inversion D as [|? Dl|]; subst; [|contradiction]. rewrite html_eqb_seq. apply leqb_spec. clear D.
    induction l; constructor; inversion H; inversion Dl; subst; auto.
  - cbn. apply str_eqb_refl.
Qed.

Lemma value_eqb_sym_l a : forall b, WfValue a -> WfValue b -> value_eqb a b = true -> value_eqb b a = true.
Proof.
  induction a using value_ind'; intros w Wa Wb E; destruct w; try discriminate E.
  - cbn in *. apply Bool.eqb_prop in E. subst. apply Bool.eqb_reflx.
  - cbn in *. now rewrite Z.eqb_sym.
  - cbn in *. now rewrite str_eqb_sym.
  - cbn in *. now rewrite str_eqb_sym.
  - cbn in *. inversion Wa; inversion Wb; subst. now apply html_eqb_sym_l.
  - rewrite value_eqb_list in *. apply leqb_spec in E. apply leqb_spec. inversion Wa; inversion Wb; subst.
    eapply (Forall2_sym_Forall _ WfValue); eauto.
  - rewrite value_eqb_dict in *. inversion Wa as [| | | | | | |? D F]; inversion Wb as [| | | | | | |? D' F']; subst.
    apply neqb_sym; auto. intros k x y Ix Iy. rewrite Forall_forall in *. exact (H (k, x) Ix y (F (k, x) Ix) (F' (k, y) Iy)).
Qed.
Lemma value_eqb_sym a b : WfValue a -> WfValue b -> value_eqb a b = value_eqb b a.
Proof.
  intros A B. destruct (value_eqb a b) eqn:E, (value_eqb b a) eqn:E'; try reflexivity.
  - apply value_eqb_sym_l in E; auto. congruence.
  - apply value_eqb_sym_l in E'; auto. congruence.
Qed.
Lemma value_eqb_trans a : forall b c, value_eqb a b = true -> value_eqb b c = true -> value_eqb a c = true.
Proof.
  induction a using value_ind'; intros w c E1 E2; destruct w; try discriminate E1; destruct c; try discriminate E2.
  - cbn in *. apply Bool.eqb_prop in E1, E2. subst. apply Bool.eqb_reflx.
  - cbn in *. apply Z.eqb_eq in E1, E2. subst. apply Z.eqb_refl.
  - cbn in *. apply str_eqb_eq in E1, E2. subst. apply str_eqb_refl.
  - cbn in *. apply str_eqb_eq in E1, E2. rewrite E1, E2. apply str_eqb_refl.
  - cbn in *. eapply html_eqb_trans; eauto.
  - rewrite value_eqb_list in *. apply leqb_spec in E1, E2. apply leqb_spec. revert vs1 E2.
    induction E1; intros m E2; inversion E2; subst; inversion H; subst; constructor; eauto.
  - rewrite value_eqb_dict in *. eapply neqb_trans; [|exact E1|exact E2]. intros k x y z Ix _ _.
    rewrite Forall_forall in H. apply (H (k, x) Ix).
Qed.
Lemma value_eqb_refl a : WfValue a -> (value_eqb a a = true <-> NoFunctions a).
Proof.
  induction a using value_ind'; intros W.
  - split; [intros; constructor; exact I|]. intros. apply Bool.eqb_reflx.
  - split; [intros; constructor; exact I|]. intros. apply Z.eqb_refl.
  - split; [intros; constructor; exact I|]. intros. apply str_eqb_refl.
  - split; [discriminate|]. inversion 1; subst. contradiction.
  - split; [intros; constructor; exact I|]. intros. apply str_eqb_refl.
  - split; [intros; constructor; exact I|]. intros. apply html_eqb_refl. now inversion W.
  - rewrite value_eqb_list. inversion W as [| | | | | |? F|]; subst. rewrite leqb_spec. split.
    + intros E. constructor; [exact I|]. clear W. induction vs as [|v vs IH]; [constructor|].
      inversion H; inversion F; inversion E; subst. constructor; [now apply H2|auto].
    + intros N. apply EveryPart_list in N as [_ N]. clear W. induction vs as [|v vs IH]; [constructor|].
      inversion H; inversion F; inversion N; subst. constructor; [now apply H2|auto].
  - rewrite value_eqb_dict. inversion W as [| | | | | | |? D F]; subst. rewrite (neqb_refl _ _ D). rewrite Forall_forall in H, F.
    split.
    + intros E. apply EP_dict; [exact I|]. apply Forall_forall. intros [k v] Iv. apply (H (k, v) Iv); [apply (F _ Iv)|].
      eauto.
    + intros N. apply EveryPart_dict in N as [_ N]. rewrite Forall_forall in N. intros k v Iv.
      apply (H (k, v) Iv); [apply (F _ Iv)|apply (N _ Iv)].
Qed.

(** ** Counterexamples *)
Definition link_around_div : value := VHtml (HTag (lit "a") [] (HTag (lit "div") [] HEmpty)).
Lemma link_wf : WfValue link_around_div.
Proof.
  constructor.
  - repeat constructor.
  - intros [].
  - repeat constructor.
Qed.
Lemma link_block : HasType TBlock link_around_div.
Proof. apply HT_block, BL_link, BL_tag; [discriminate|cbn; tauto]. Qed.
Lemma link_inline : HasType TInline link_around_div.
Proof. apply HT_inline, IL_tag. cbn. intuition discriminate. Qed.
Lemma coerce_link_block : exists v', coerce TBlock link_around_div = inl v' /\ v' <> link_around_div.
Proof. eexists. split; [reflexivity|discriminate]. Qed.
Lemma coerce_link_inline : exists e, coerce TInline link_around_div = inr e.
Proof. eexists. reflexivity. Qed.

Definition mixed_list : value := VList [VInt 1; VStr (lit "a"); VInt 2].
Lemma mixed_wf : WfValue mixed_list. Proof. repeat constructor. Qed.
Lemma mixed_type : get_type mixed_list = TList TInt. Proof. reflexivity. Qed.
Lemma mixed_not : ~ HasType (get_type mixed_list) mixed_list.
Proof. rewrite mixed_type, <- check_value_spec. cbn. discriminate. Qed.
Lemma lub_not_upper : HasType TAny (VStr (lit "a")) /\ ~ HasType (lub TAny TInt) (VStr (lit "a")).
Proof. split; [constructor|]. change (lub TAny TInt) with TInt. rewrite <- check_value_spec. discriminate. Qed.

Lemma value_eqb_list_spec l m : value_eqb (VList l) (VList m) = true <-> Forall2 (fun a b => value_eqb a b = true) l m.
Proof. rewrite value_eqb_list. apply leqb_spec. Qed.
Lemma value_eqb_dict_spec l m : NoDup (List.map fst l) -> NoDup (List.map fst m) ->
  (value_eqb (VDict l) (VDict m) = true <->
   (forall k, In k (List.map fst l) <-> In k (List.map fst m)) /\
   forall k a b, In (k, a) l -> In (k, b) m -> value_eqb a b = true).
Proof.
  intros D1 D2. rewrite value_eqb_dict. split.
  - intros E. pose proof (neqb_flip _ _ _ D1 D2 E) as F. apply neqb_spec in E as [L E]. split.
    + intros k. rewrite !in_map_iff. split; intros ([k' v] & <- & I); cbn [fst].
      * destruct (E _ _ I) as (b & G & _). exists (k', b). split; [reflexivity|now apply ngetm_In].
      * destruct (F _ _ I) as (b & G & _). exists (k', b). split; [reflexivity|now apply ngetm_In].
    + intros k a b Ia Ib. destruct (E _ _ Ia) as (b' & G & Eab). rewrite (ngetm_NoDup _ _ _ D2 Ib) in G. now injection G as <-.
  - intros [K E]. apply neqb_spec. split.
    + rewrite <- (map_length fst l), <- (map_length fst m). apply Nat.le_antisymm; apply NoDup_incl_length; auto; intros k; apply K.
    + intros k a I. assert (Ik : In k (List.map fst m)) by (apply K, in_map_iff; now exists (k, a)).
      apply in_map_iff in Ik. destruct Ik as ([k' b] & Ek & Ib). cbn in Ek. subst k'. exists b. split; [now apply ngetm_NoDup|eauto].
Qed.
