(** Property theorems C16 - C20, C39, C41. *)
From Verif Require Import Base M_Token M_Tokenizer M_Names M_TagInfo M_Html S_Html M_Types M_Diag M_Queue M_Value S_Types S_Least P_Types P_Coerce P_TypeText P_Least
  S_Diag P_Diag.

(** C16. The text of a type is tokenised without errors and parsed back to the type, with no token left and nothing
    reported. ([NormalTy] leaves out [T??] and [none?], which are never constructed: [C16_parsed_normal],
    [C17_option_normal] and [C19_reported_normal].) *)
Theorem C16_type_text : forall t, NormalTy t ->
  exists toks, tokenize (t_display t) true = Ret (toks, []) /\ parse_type (PState toks []) = POk t (PState [] []).
Proof. exact type_text_roundtrip. Qed.
Print Assumptions C16_type_text.

Theorem C16_parsed_normal : forall s t s', parse_type s = POk t s' -> NormalTy t.
Proof. exact parse_type_normal. Qed.
Print Assumptions C16_parsed_normal.

Example C16_nonvacuous : NormalTy (TList (TOptional (TDict (TOptional TInt)))) /\
  t_display (TList (TOptional (TDict (TOptional TInt)))) = lit "int? dict? list".
Proof.
  assert (A : forall t, ~ AcceptsNone (TDict t) /\ ~ AcceptsNone TInt).
  { intros t. split; intros [H|[H|[H|[H|[H|[t' H]]]]]]; discriminate. }
  split; [|reflexivity]. apply NT_list, NT_option; [|apply A]. apply NT_dict, NT_option; [|apply (A TInt)].
  constructor. cbn. tauto.
Qed.

(** C17. *)
Theorem C17_option_accepts : forall t v, HasType (t_option t) v <-> HasType t v \/ v = UNIT.
Proof. exact option_spec. Qed.
Print Assumptions C17_option_accepts.
Theorem C17_option_idempotent : forall t, t_option (t_option t) = t_option t.
Proof. exact option_idempotent. Qed.
Print Assumptions C17_option_idempotent.
Theorem C17_option_normal : forall t, NormalTy t -> NormalTy (t_option t).
Proof. exact option_normal. Qed.
Print Assumptions C17_option_normal.
(** The run-time check of a value against a type decides [HasType]. *)
Theorem C17_check_value : forall t v, check_value t v = true <-> HasType t v.
Proof. exact check_value_spec. Qed.
Print Assumptions C17_check_value.

Example C17_nonvacuous : t_option (TList TInt) = TOptional (TList TInt) /\ t_option THtml = THtml /\
  HasType (t_option TInt) UNIT /\ ~ HasType TInt UNIT.
Proof.
  split; [reflexivity|]. split; [reflexivity|]. split.
  - apply C17_option_accepts. now right.
  - rewrite <- C17_check_value. discriminate.
Qed.

(** C18. A coerced value has the type asked for, and is a well-formed value again. *)
Theorem C18_coerce_sound : forall t v v', WfValue v -> coerce t v = inl v' -> HasType t v' /\ WfValue v'.
Proof. exact coerce_sound. Qed.
Print Assumptions C18_coerce_sound.
Theorem C18_coerce_idempotent : forall t v v', coerce t v = inl v' -> coerce t v' = inl v'.
Proof. exact coerce_idem. Qed.
Print Assumptions C18_coerce_idempotent.
(** A value which has the type is delivered unchanged, unless a part of it is a link around block-level content... *)
Theorem C18_coerce_unchanged_partial : forall t v, NormalTy t -> WfValue v -> Unambiguous v -> HasType t v ->
  coerce t v = inl v.
Proof. exact coerce_has. Qed.
Print Assumptions C18_coerce_unchanged_partial.
(** ... which has the types [block] and [inline], but is changed when a block is expected and rejected when inline content
    is expected. *)
Theorem C18_coerce_unchanged_refuted : exists v, WfValue v /\
  (HasType TBlock v /\ exists v', coerce TBlock v = inl v' /\ v' <> v) /\
  (HasType TInline v /\ exists e, coerce TInline v = inr e).
Proof.
  exists link_around_div.
  exact (conj link_wf (conj (conj link_block coerce_link_block) (conj link_inline coerce_link_inline))).
Qed.
Print Assumptions C18_coerce_unchanged_refuted.

Example C18_nonvacuous : WfValue (VList [VInt 1; VStr (lit "a")]) /\
  coerce (TList TStr) (VList [VInt 1; VStr (lit "a")]) = inl (VList [VStr (lit "1"); VStr (lit "a")]) /\
  Unambiguous (VList [VStr (lit "1"); VHtml HEmpty]) /\ HasType (TList (TOptional TStr)) (VList [VStr (lit "1"); VHtml HEmpty]) /\
  (exists e, coerce (TList TInt) (VList [VInt 1; VStr (lit "a")]) = inr e).
Proof.
  split; [repeat constructor|]. split; [reflexivity|]. split.
  - apply EP_list; [exact I|]. repeat constructor. intros [H _]. inversion H.
  - split; [|eexists; reflexivity]. constructor. constructor; [repeat constructor|].
    constructor; [|constructor]. apply (HT_none (TOptional TStr)). right. right. right. right. right. eauto.
Qed.

(** C19. A value has its reported type, unless elements of some type [any] were followed by others ... *)
Theorem C19_reported_type_partial : forall v, WfValue v -> NoLostAny v -> HasType (get_type v) v.
Proof. exact get_type_sound. Qed.
Print Assumptions C19_reported_type_partial.
(** ... as in the list [1, `a`, 2], reported to be an [int list]. *)
Theorem C19_reported_type_refuted : exists v, WfValue v /\ get_type v = TList TInt /\ ~ HasType (get_type v) v.
Proof. exact (ex_intro _ mixed_list (conj mixed_wf (conj mixed_type mixed_not))). Qed.
Print Assumptions C19_reported_type_refuted.
(** It is the strongest type the value has: a type which accepts the value accepts every value of the reported type. This holds
    for values without empty lists and dictionaries, which have no text or no content, and no link that is both block-level and inline ... *)
Theorem C19_reported_type_strongest_partial : forall v c w, NoText v \/ NoContent v -> Filled v -> Unambiguous v ->
  HasType c v -> HasType (get_type v) w -> HasType c w.
Proof. exact reported_least. Qed.
Print Assumptions C19_reported_type_strongest_partial.
(** ... but not for an empty list, which is reported to be a list of unit values. *)
Theorem C19_reported_type_strongest_refuted : exists v c w, HasType c v /\ HasType (get_type v) w /\ ~ HasType c w.
Proof.
  exists (VList []), (TList TInt), (VList [UNIT]). split; [repeat constructor|]. split; [apply reported_empty_list; now exists 1|].
  intro H. rewrite <- check_value_spec in H. discriminate H.
Qed.
Print Assumptions C19_reported_type_strongest_refuted.
Theorem C19_reported_type_empty : (forall w, HasType (get_type (VList [])) w <-> exists n, w = VList (repeat UNIT n)) /\
  (forall w, HasType (get_type (VDict [])) w <-> exists ks, w = VDict (List.map (fun k => (k, UNIT)) ks)).
Proof. split; [exact reported_empty_list|exact reported_empty_dict]. Qed.
Print Assumptions C19_reported_type_empty.
Theorem C19_reported_normal : forall v, NormalTy (get_type v).
Proof. exact get_type_normal. Qed.
Print Assumptions C19_reported_normal.

Example C19_strongest_nonvacuous : let v := VList [VDict [(lit "a", VInt 1)]; VDict [(lit "b", UNIT)]] in
  NoText v /\ NoContent v /\ Filled v /\ Unambiguous v /\ get_type v = TList (TDict (TOptional TInt)).
Proof.
  cbv zeta. split; [|split; [|split; [|split; [|reflexivity]]]]; apply EP_list; auto; try (split; discriminate);
    repeat (constructor; [apply EP_dict; auto; try (split; discriminate); constructor; [apply EP_other; cbn; auto; try (split; discriminate)|constructor]|]); auto.
  - intros [B _]. inversion B.
Qed.
Example C19_nonvacuous :
  let v := VList [VInt 1; UNIT; VInt 2] in
  WfValue v /\ NoLostAny v /\ get_type v = TList (TOptional TInt).
Proof.
  assert (A : forall t, In t [TUnit; THtml; TBlock; TInline; TBool; TInt; TStr; TFunction; TRegex] -> AnyFree t) by (constructor; auto).
  cbv zeta. split; [repeat constructor; intros []|]. split; [|reflexivity]. apply EP_list.
  - intros others e rest E N.
    destruct others as [|x [|y [|z [|]]]]; [congruence| | | |]; cbn in E; try discriminate; injection E as <- <-.
    + right. split; [apply AF_list; cbn|apply A; cbn; tauto]. apply A; cbn; tauto.
    + subst. right. split; [|apply A; cbn; tauto]. apply AF_list. cbn. apply AF_option, A. cbn. tauto.
  - constructor; [|constructor; [|constructor; [|constructor]]]; (apply EP_other; [exact I|]); intros [|x l] e rest E _; discriminate E.
Qed.

(** C20. The common type of two types which do not mention [any] (or of a type and itself) accepts the values of both ... *)
Theorem C20_common_type_upper_partial : forall a b v, a = b \/ AnyFree a /\ AnyFree b ->
  HasType a v \/ HasType b v -> HasType (lub a b) v.
Proof. exact lub_upper. Qed.
Print Assumptions C20_common_type_upper_partial.
(** ... but the common type of [any] and [int] is [int]. *)
Theorem C20_common_type_upper_refuted : exists a b v, HasType a v /\ ~ HasType (lub a b) v.
Proof. exact (ex_intro _ TAny (ex_intro _ TInt (ex_intro _ (VStr (lit "a")) lub_not_upper))). Qed.
Print Assumptions C20_common_type_upper_refuted.
(** It is the strongest such type: a type which accepts the values of both accepts the values of the common type. This
    holds for types of which none mentions text or none mentions content ... *)
Theorem C20_common_type_strongest_partial : forall a b c,
  ((forall h, In h [THtml; TBlock; TInline] -> ~ Mentions h a /\ ~ Mentions h b) \/ (~ Mentions TStr a /\ ~ Mentions TStr b)) ->
  (forall v, HasType a v \/ HasType b v -> HasType c v) -> forall v, HasType (lub a b) v -> HasType c v.
Proof. exact lub_least. Qed.
Print Assumptions C20_common_type_strongest_partial.
(** ... but the common type of [str] and [html] is [any], though [html] accepts every text. *)
Theorem C20_common_type_strongest_refuted : exists a b c v, AnyFree a /\ AnyFree b /\
  (forall v, HasType a v \/ HasType b v -> HasType c v) /\ HasType (lub a b) v /\ ~ HasType c v.
Proof.
  exists TStr, THtml, THtml, (VInt 0). split; [apply AF_base; cbn; tauto|]. split; [apply AF_base; cbn; tauto|]. exact lub_str_html.
Qed.
Print Assumptions C20_common_type_strongest_refuted.
Theorem C20_common_type_commutative : forall a b, lub a b = lub b a.
Proof. exact lub_comm. Qed.
Print Assumptions C20_common_type_commutative.
Theorem C20_common_type_idempotent : forall t, lub t t = t.
Proof. exact lub_refl. Qed.
Print Assumptions C20_common_type_idempotent.

Example C20_nonvacuous : AnyFree (TList TInt) /\ AnyFree (TOptional (TList TStr)) /\
  HasType (TList TInt) (VList [VInt 1]) /\ lub TBlock TInline = THtml /\
  lub TInt (TOptional TInt) = TOptional TInt /\
  (~ Mentions TStr (TList TInt) /\ ~ Mentions TStr (TOptional (TList TBlock))) /\ lub (TList TInt) (TOptional (TList TBlock)) = TOptional (TList TAny).
Proof.
  split; [apply AF_list, AF_base; cbn; tauto|]. split; [apply AF_option, AF_list, AF_base; cbn; tauto|].
  split; [repeat constructor|split; [reflexivity|split; [reflexivity|]]].
  split; [|reflexivity]. split; intro H; repeat match goal with A : Mentions _ _ |- _ => inversion A; clear A; subst end.
Qed.

(** C39. *)
Theorem C39_equality_symmetric : forall a b, WfValue a -> WfValue b -> value_eqb a b = value_eqb b a.
Proof. exact value_eqb_sym. Qed.
Print Assumptions C39_equality_symmetric.
Theorem C39_equality_transitive : forall a b c, value_eqb a b = true -> value_eqb b c = true -> value_eqb a c = true.
Proof. exact value_eqb_trans. Qed.
Print Assumptions C39_equality_transitive.
(** Exactly the values containing no function equal themselves. *)
Theorem C39_equality_reflexive : forall a, WfValue a -> (value_eqb a a = true <-> NoFunctions a).
Proof. exact value_eqb_refl. Qed.
Print Assumptions C39_equality_reflexive.
(** Lists are equal when their elements are, one by one; dictionaries when they have the same keys, in any order, with
    equal values. *)
Theorem C39_equality_lists : forall l m, value_eqb (VList l) (VList m) = true <-> Forall2 (fun a b => value_eqb a b = true) l m.
Proof. exact value_eqb_list_spec. Qed.
Print Assumptions C39_equality_lists.
Theorem C39_equality_dicts : forall l m, NoDup (List.map fst l) -> NoDup (List.map fst m) ->
  (value_eqb (VDict l) (VDict m) = true <->
   (forall k, In k (List.map fst l) <-> In k (List.map fst m)) /\
   forall k a b, In (k, a) l -> In (k, b) m -> value_eqb a b = true).
Proof. exact value_eqb_dict_spec. Qed.
Print Assumptions C39_equality_dicts.

Example C39_nonvacuous :
  value_eqb (VDict [(lit "a", VInt 1); (lit "b", VList [VStr (lit "x")])])
            (VDict [(lit "b", VList [VStr (lit "x")]); (lit "a", VInt 1)]) = true /\
  value_eqb (VList [VInt 1]) (VList [VInt 1; VInt 2]) = false /\
  value_eqb (VFunc (FNative IntAdd (lit "add") (FSig [] None [] None (FParam (lit "_") false TUnit None))))
            (VFunc (FNative IntAdd (lit "add") (FSig [] None [] None (FParam (lit "_") false TUnit None)))) = false.
Proof. repeat split. Qed.

(** C41. After any history of reports and resets, at any reporting level: *)
Theorem C41_diagnostics_exact : forall l ops es, SinceReset ops es ->
  Count is_error es (sk_errors (sink_run l ops)) /\
  Count is_warning es (sk_warnings (sink_run l ops)) /\
  Selected (AtLevel l) es (sk_v (sink_run l ops)).
Proof. exact sink_exact. Qed.
Print Assumptions C41_diagnostics_exact.
(** The test for success: nothing was reported (the marker for "already reported" does not count). *)
Theorem C41_success_iff : forall l ops es, SinceReset ops es ->
  (sink_is_empty (sink_run l ops) = true <-> Forall (fun e => ~ is_error e /\ ~ is_warning e) es).
Proof. exact sink_empty_iff. Qed.
Print Assumptions C41_success_iff.
(** The printed summary starts with "OK" exactly when there was no error. *)
Theorem C41_summary_ok_iff : forall l ops es, SinceReset ops es ->
  ((exists rest, sink_summary (sink_run l ops) = lit "OK" ++ rest) <-> Forall (fun e => ~ is_error e) es).
Proof. exact sink_summary_ok. Qed.
Print Assumptions C41_summary_ok_iff.
(** The question whether there is a diagnostic of some kind: yes exactly if one that is shown at the level was reported. *)
Theorem C41_has_any_iff : forall l ops es p, SinceReset ops es ->
  (sink_has_any p (sink_run l ops) = true <-> exists e, In e es /\ AtLevel l e /\ p e = true).
Proof.
  intros l ops es p H. destruct (sink_exact l ops es H) as (_ & _ & S). unfold sink_has_any. rewrite existsb_exists. clear H.
  induction S as [|x es' out Y S IH|x es' out N S IH]; split.
  - intros (e & [] & _). - intros (e & [] & _).
  - intros (e & [<-|I] & P); [exists x; repeat split; auto; now left|]. destruct IH as [IH _]. destruct IH as (f & J & A & Q); [now exists e|]. exists f. repeat split; auto. now right.
  - intros (e & [<-|I] & A & P); [exists x; split; [now left|exact P]|]. destruct IH as [_ IH]. destruct IH as (f & J & Q); [now exists e|]. exists f. split; [now right|exact Q].
  - intros (e & I & P). destruct IH as [IH _]. destruct IH as (f & J & A & Q); [now exists e|]. exists f. repeat split; auto. now right.
  - intros (e & [<-|I] & A & P); [contradiction|]. destruct IH as [_ IH]. apply IH. now exists e.
Qed.
Print Assumptions C41_has_any_iff.
(** Every history has a part since the last reset. *)
Theorem C41_since_reset : forall ops, exists es, SinceReset ops es.
Proof. exact since_reset_exists. Qed.
Print Assumptions C41_since_reset.

Example C41_nonvacuous :
  let ops := [Report (SyntaxErr UnexpectedEOF); Reset; Report (Warn RedundantOptionType); Report (SyntaxErr UnexpectedEOF)] in
  SinceReset ops [Warn RedundantOptionType; SyntaxErr UnexpectedEOF] /\
  sink_run LError ops = {| sk_v := [SyntaxErr UnexpectedEOF]; sk_errors := 1; sk_warnings := 1; sk_level := LError |}.
Proof. split; [exact (SR_reset [Report (SyntaxErr UnexpectedEOF)] [Warn RedundantOptionType; SyntaxErr UnexpectedEOF])|reflexivity]. Qed.
