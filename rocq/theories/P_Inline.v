(** Proofs for C24_inline_exact and C24_empty_exact. *)
From Verif Require Import Base BaseFacts M_Text M_Names M_TagInfo M_Html M_Sequence S_Html S_Sequence S_Inline P_Html P_Sequence.

Lemma blank_iff h : html_is_whitespace h = true <-> Blank h.
Proof.
  destruct h as [|n a c|l|t| |]; cbn; try (split; [constructor|reflexivity]); try (split; [discriminate|intro B; inversion B]).
  unfold is_whitespace. rewrite forallb_forall. split.
  - intro H. constructor. apply Forall_forall. intros c I. specialize (H c I). apply White_spec. exact H.
  - intros B c I. inversion B as [| | |? F]; subst. rewrite Forall_forall in F. apply White_spec. auto.
Qed.
Lemma first_block h : forall n, block_kind h = Some n -> FirstBlock h n.
Proof.
  induction h as [|m a c IH|l IH|t| |] using html_ind'; intros n; cbn [block_kind]; try discriminate.
  - destruct (str_eqb_spec m n_a) as [->|N].
    + intro E. now apply FB_link, IH.
    + destruct (is_block_name m) eqn:B; [|discriminate]. intro E. injection E as <-. apply FB_tag; [exact N|]. now apply mem_In.
  - intro E. assert (exists before x after, l = before ++ x :: after /\ Forall (fun y => ~ BlockLevel y) before /\ block_kind x = Some n) as (b & x & c & -> & F & K).
    { clear IH. induction l as [|y l IHl]; [discriminate|]. destruct (block_kind y) eqn:Ky; [injection E as <-; now exists [], y, l|].
      destruct (IHl E) as (b & x & c & -> & F & K). exists (y :: b), x, c. repeat split; auto. constructor; [now apply block_kind_none|exact F]. }
    apply FB_seq; [exact F|]. rewrite Forall_forall in IH. apply IH; [apply in_elt|exact K].
Qed.
Fixpoint drop_white (l : list html) : list html := match l with [] => [] | x :: t => if html_is_whitespace x then drop_white t else l end.
Definition add (ch l : list html) : list html := match ch with [] => drop_white l | _ => ch ++ l end.
Lemma add_step ch p l : add (match ch with [] => if html_is_whitespace p then [] else [p] | _ => ch ++ [p] end) l = add ch (p :: l).
Proof. destruct ch as [|c ch]; cbn; [now destruct (html_is_whitespace p)|]. now rewrite <- app_assoc. Qed.
Definition taken_kind (k : content_kind) (breaks : bool) : Prop := k = RequireInline /\ breaks = true \/ k = RequireInlineNoLineBreaks /\ breaks = false.
Lemma taken_run k breaks parent items : taken_kind k breaks -> exists hs es, Taken breaks parent items hs es /\
  forall ch, b_items items (Builder parent k ch None) = Ret (es, Builder parent k (add ch hs) None).
Proof.
  intro K. induction items as [|i items (hs & es & T & R)].
  - exists [], []. split; [constructor|]. intros [|c ch]; cbn; now rewrite ?app_nil_r.
  - destruct i as [p|].
    + destruct (html_is_empty p) eqn:E.
      { destruct p; try discriminate. exists hs, es. split; [now constructor|]. intro ch. cbn [b_items b_item]. unfold push_fuel. cbn [b_push html_is_empty obind]. now rewrite R. }
      destruct (block_kind p) as [n|] eqn:B.
      * eexists hs, _. split; [apply (Taken_block _ _ p n); [now apply first_block|exact T]|]. intro ch. cbn [b_items b_item]. unfold push_fuel. cbn [b_push]. rewrite E.
        destruct K as [[-> _]|[-> _]]; cbn [require_inline]; rewrite B; cbn [obind]; rewrite R; reflexivity.
      * exists (p :: hs), es. split; [apply Taken_piece; [intros ->; discriminate|now apply block_kind_none|exact T]|]. intro ch. cbn [b_items b_item]. unfold push_fuel. cbn [b_push]. rewrite E, <- add_step.
        destruct K as [[-> _]|[-> _]]; cbn [require_inline]; rewrite B; cbn [b_close_child obind].
        all: destruct ch as [|c ch]; [destruct (html_is_whitespace p)|]; rewrite R; reflexivity.
    + destruct breaks.
      * exists (HTag (lit "br") [] HEmpty :: hs), es. split; [apply Taken_break; [reflexivity|exact T]|]. intro ch. destruct K as [[-> _]|[_ K]]; [|discriminate]. cbn [b_items b_item b_newline b_kind b_close_child obind].
        rewrite R, <- add_step. destruct ch; reflexivity.
      * eexists hs, _. split; [apply Taken_no_break; [reflexivity|exact T]|]. intro ch. destruct K as [[_ K]|[-> _]]; [discriminate|]. cbn [b_items b_item b_newline b_kind obind]. now rewrite R.
Qed.
Lemma drop_white_spec l : exists b, l = b ++ drop_white l /\ Forall Blank b /\ forall x t, drop_white l = x :: t -> ~ Blank x.
Proof.
  induction l as [|x l (b & E & F & N)]; [exists []; repeat split; [constructor|discriminate]|]. cbn [drop_white]. destruct (html_is_whitespace x) eqn:W.
  - exists (x :: b). split; [cbn; now f_equal|]. split; [constructor; [now apply blank_iff|exact F]|exact N].
  - exists []. split; [reflexivity|]. split; [constructor|]. intros y t H. injection H as <- <-. intro B. apply blank_iff in B. congruence.
Qed.
Lemma trimmed_is hs : Trimmed hs (pop_white (drop_white hs)).
Proof.
  destruct (drop_white_spec hs) as (b & E & F & N). destruct (pop_white_spec (drop_white hs)) as (w & E' & F' & N').
  exists b, w. split; [now rewrite <- E'|]. split; [exact F|]. split; [eapply Forall_impl; [|exact F']; intros ? ?; now apply blank_iff|]. split.
  - intros x t H. apply (N x (t ++ w)). rewrite E', H. reflexivity.
  - intros i x H B. apply blank_iff in B. rewrite (N' _ _ H) in B. discriminate.
Qed.
Lemma inline_exact k breaks parent items errors h : taken_kind k breaks -> compile_items k parent items = Ret (errors, h) ->
  exists hs ms, Taken breaks parent items hs errors /\ Trimmed hs ms /\ h = from_iter ms.
Proof.
  intros K C. destruct (taken_run k breaks parent items K) as (hs & es & T & R). unfold compile_items, b_new in C. rewrite R in C. cbn [obind add] in C.
  exists hs, (pop_white (drop_white hs)). split; [|split; [apply trimmed_is|]].
  - destruct K as [[-> _]|[-> _]]; cbn in C; injection C as <- <-; exact T.
  - destruct K as [[-> _]|[-> _]]; cbn in C; injection C as <- <-; reflexivity.
Qed.

Definition pieces (items : list item) : list html := flat_map (fun i => match i with Piece p => [p] | ParagraphBreak => [] end) items.
Definition nonempty (h : html) : bool := negb (html_is_empty h).
Lemma empty_run parent items : forall ch, b_items items (Builder parent RequireEmpty ch None) = Ret ([], Builder parent RequireEmpty (add ch (filter nonempty (pieces items))) None).
Proof.
  induction items as [|i items IH]; intro ch; [destruct ch; cbn; now rewrite ?app_nil_r|]. destruct i as [p|].
  - cbn [b_items b_item pieces flat_map app]. fold (pieces items). unfold push_fuel. cbn [b_push filter]. unfold nonempty at 1. destruct (html_is_empty p); cbn [negb]; [cbn [obind]; now rewrite IH|].
    cbn [require_inline b_close_child obind]. rewrite <- add_step. destruct ch as [|c ch]; [destruct (html_is_whitespace p)|]; rewrite IH; reflexivity.
  - cbn [b_items b_item b_newline b_kind obind pieces flat_map app]. fold (pieces items). now rewrite IH.
Qed.
Lemma empty_exact parent items errors h : Forall (fun i => match i with Piece p => Normal p | ParagraphBreak => True end) items ->
  compile_items RequireEmpty parent items = Ret (errors, h) ->
  h = HEmpty /\ ((forall p, In (Piece p) items -> Blank p) /\ errors = [] \/ (exists p, In (Piece p) items /\ ~ Blank p) /\ errors = [NoContentAllowed]).
Proof.
  intros N C. unfold compile_items, b_new in C. rewrite empty_run in C. cbn [obind add] in C. set (l := filter nonempty (pieces items)) in *.
  assert (I : forall p, In p l -> In (Piece p) items).
  { intros p H. apply filter_In in H as [H _]. apply in_flat_map in H as ([q|] & J & H); [destruct H as [->|[]]; exact J|destruct H]. }
  assert (I' : forall p, In (Piece p) items -> p <> HEmpty -> In p l).
  { intros p H E. apply filter_In. split; [apply in_flat_map; exists (Piece p); split; [exact H|now left]|]. destruct p; auto. }
  destruct (drop_white l) as [|x t] eqn:D.
  - cbn in C. injection C as <- <-. split; [reflexivity|]. left. split; [|reflexivity]. intros p H. destruct (html_is_empty p) eqn:E; [destruct p; try discriminate; constructor|].
    destruct (drop_white_spec l) as (b & El & F & _). rewrite D, app_nil_r in El. subst b. rewrite Forall_forall in F. apply F, I'; [exact H|]. intros ->. discriminate.
  - destruct (drop_white_spec l) as (b & El & F & Nx). rewrite D in El, Nx. specialize (Nx x t eq_refl).
    assert (Ix : In (Piece x) items) by (apply I; rewrite El; apply in_elt).
    assert (Hx : Normal x) by (rewrite Forall_forall in N; exact (N _ Ix)).
    assert (Ne : from_iter (pop_white (x :: t)) <> HEmpty).
    { destruct (pop_white_spec (x :: t)) as (w & E' & Fw & _). destruct (pop_white (x :: t)) as [|y m] eqn:P.
      - cbn in E'. subst w. exfalso. apply Nx, blank_iff. now inversion Fw.
      - cbn in E'. injection E' as <- E'. intro Z. pose proof (from_iter_events (x :: m)) as Ev. rewrite Z in Ev. cbn in Ev. symmetry in Ev. apply app_eq_nil in Ev as [Ev _].
        apply Nx. rewrite (events_unique x HEmpty Hx ltac:(constructor) Ev). constructor. }
    cbn [b_into_html] in C. cbn [html_is_empty] in C. destruct (from_iter (pop_white (x :: t))) eqn:Z; try (now elim Ne); cbn in C; injection C as <- <-; (split; [reflexivity|]); right; (split; [now exists x|reflexivity]).
Qed.

Lemma rule_kind n : Rule n (content_kind_for n).
Proof.
  unfold content_kind_for. cbv zeta.
  repeat match goal with |- Rule _ (if mem n ?l then _ else _) => let M := fresh "M" in destruct (mem n l) eqn:M;
    [apply mem_In in M; eapply Rule_row; [|exact M]; cbn; tauto|] end.
  destruct (is_self_closing n) eqn:V; [apply Rule_void; now apply mem_In in V|]. apply Rule_other.
  - intros names k I J. apply mem_In in J. cbn [In rules] in I. repeat (destruct I as [I|I]; [injection I as <- <-; congruence|]). contradiction.
  - intro W. apply mem_In in W. unfold is_self_closing in V. change self_closing_names with void_elements in V. congruence.
Qed.
