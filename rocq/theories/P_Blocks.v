(** Proofs for C24_block_exact and C24_allow_exact. *)
From Verif Require Import Base BaseFacts M_Text M_Names M_TagInfo M_Html M_Sequence S_Html S_Sequence S_Inline S_Blocks P_Html P_Sequence P_Inline.

Definition next_of (run : list html) : option builder :=
  match drop_white run with [] => None | d => Some (Builder (Some n_p) RequireInlineNoLineBreaks d None) end.
Definition para_of (h : html) : list html := match h with HEmpty => [] | _ => [HTag n_p [] h] end.
Definition para (run : list html) : list html := para_of (from_iter (pop_white (drop_white run))).
Definition st parent k ch run : builder := Builder parent k ch (next_of run).
Definition block_sort (k : content_kind) : Prop := k = RequireBlock n_p \/ k = AllowBlock n_p.

Lemma para_is run : Paragraph run (para run).
Proof.
  exists (pop_white (drop_white run)). split; [apply trimmed_is|]. unfold para. destruct (from_iter _); [left; now split|..]; right; (split; [discriminate|reflexivity]).
Qed.
Lemma drop_white_snoc run p : drop_white (run ++ [p]) = match drop_white run with [] => if html_is_whitespace p then [] else [p] | d => d ++ [p] end.
Proof. induction run as [|x run IH]; [reflexivity|]. cbn [app drop_white]. destruct (html_is_whitespace x); [exact IH|reflexivity]. Qed.
Lemma child_html d : b_into_html (Builder (Some n_p) RequireInlineNoLineBreaks d None) = inl (from_iter (pop_white d)).
Proof. reflexivity. Qed.
Lemma close_st parent k ch run : block_sort k -> b_close_child (st parent k ch run) = (None, Builder parent k (ch ++ para run) None).
Proof.
  intro K. unfold st, next_of, para. destruct (drop_white run) as [|x d]; [cbn; now rewrite app_nil_r|]. unfold b_close_child. rewrite child_html.
  assert (wrap_with k = n_p) as -> by (destruct K as [-> | ->]; reflexivity). destruct (from_iter _); cbn; now rewrite ?app_nil_r.
Qed.
Lemma divided_run k parent : block_sort k -> forall items run, exists closed last, Divided run items closed last /\
  forall ch, b_items items (st parent k ch run) = Ret ([], st parent k (ch ++ closed) last).
Proof.
  intros K. assert (WK : wrap_with k = n_p) by (destruct K as [-> | ->]; reflexivity). assert (RI : require_inline k = false) by (destruct K as [-> | ->]; reflexivity).
  induction items as [|i items IH]; intro run.
  - exists [], run. split; [constructor|]. intro ch. cbn. now rewrite app_nil_r.
  - destruct i as [p|].
    + destruct (html_is_empty p) eqn:E.
      { destruct p; try discriminate. destruct (IH run) as (closed & last & D & R). exists closed, last. split; [now constructor|]. intro ch. cbn [b_items b_item]. unfold push_fuel. cbn [b_push html_is_empty obind]. now rewrite R. }
      destruct (html_is_block p) eqn:B.
      * destruct (IH []) as (closed & last & D & R). exists (para run ++ p :: closed), last. assert (BL : BlockLevel p) by now apply block_kind_some.
        split; [apply Div_block; [exact BL|apply para_is|exact D]|]. intro ch. cbn [b_items b_item]. unfold push_fuel. cbn [b_push]. rewrite E. unfold st at 1. rewrite RI. cbv zeta.
        assert ((match k with RequireOneOf names => html_is_all names p | RequireBlock _ | AllowBlock _ => html_is_block p | _ => true end) = true) as -> by (destruct K as [-> | ->]; exact B).
        change (Builder parent k ch (next_of run)) with (st parent k ch run). rewrite close_st by exact K.
        assert (html_is_whitespace p = false) as W by (destruct p; auto; inversion BL). rewrite W.
        replace (match ch ++ para run with [] => _ | _ => _ end) with (st parent k ((ch ++ para run) ++ [p]) []) by (destruct (ch ++ para run); reflexivity).
        cbn [obind]. rewrite R. now rewrite <- !app_assoc.
      * destruct (IH (run ++ [p])) as (closed & last & D & R). exists closed, last.
        split; [apply Div_piece; [intros ->; discriminate|intro BL; apply block_kind_some in BL; congruence|exact D]|]. intro ch. cbn [b_items b_item]. unfold push_fuel. cbn [b_push]. rewrite E. unfold st at 1. rewrite RI. cbv zeta.
        assert ((match k with RequireOneOf names => html_is_all names p | RequireBlock _ | AllowBlock _ => html_is_block p | _ => true end) = false) as -> by (destruct K as [-> | ->]; exact B).
        assert (BK : block_kind p = None) by (unfold html_is_block in B; destruct (block_kind p); [discriminate|reflexivity]).
        specialize (R ch). unfold st at 1, next_of in R. rewrite drop_white_snoc in R. unfold next_of. destruct (drop_white run) as [|x d] eqn:Dr.
        -- destruct (html_is_whitespace p) eqn:W; [cbn [obind]; unfold st at 1, next_of; rewrite Dr; now rewrite R|]. rewrite WK. change (content_kind_for n_p) with RequireInlineNoLineBreaks.
           unfold b_new. cbn [require_inline]. rewrite BK. cbn [b_close_child obind]. now rewrite R.
        -- cbn [require_inline]. rewrite BK. cbn [b_close_child obind]. cbn [app] in *. now rewrite R.
    + destruct (IH []) as (closed & last & D & R). exists (para run ++ closed), last. split; [apply Div_break; [apply para_is|exact D]|]. intro ch. cbn [b_items b_item].
      assert (b_newline (st parent k ch run) = b_close_child (st parent k ch run)) as -> by (destruct K as [-> | ->]; reflexivity). rewrite close_st by exact K. cbn [obind].
      change (Builder parent k (ch ++ para run) None) with (st parent k (ch ++ para run) []). rewrite R. now rewrite <- app_assoc.
Qed.
Lemma paragraph_solid run ps : Paragraph run ps -> Forall (fun x => html_is_whitespace x = false) ps.
Proof. intros (ms & _ & [[_ ->]|[_ ->]]); repeat constructor. Qed.
Lemma divided_solid run items closed last : Divided run items closed last -> Forall (fun x => html_is_whitespace x = false) closed.
Proof.
  induction 1 as [| | |run p ps items closed last B P D IH|run ps items closed last P D IH]; auto.
  - apply Forall_app. split; [now apply paragraph_solid in P|]. constructor; [|exact IH]. destruct p; auto; inversion B.
  - apply Forall_app. split; [now apply paragraph_solid in P|exact IH].
Qed.
Lemma pop_white_solid l : Forall (fun x => html_is_whitespace x = false) l -> pop_white l = l.
Proof.
  intro F. destruct (pop_white_spec l) as (w & E & W & _). destruct w as [|x w]; [now rewrite app_nil_r in E|]. exfalso. rewrite E in F. apply Forall_app in F as [_ F].
  inversion F; inversion W; subst; congruence.
Qed.
Lemma into_st parent k closed last : block_sort k -> Forall (fun x => html_is_whitespace x = false) closed ->
  b_into_html (st parent k closed last) = match k, closed with
    | AllowBlock _, [] => inl (from_iter (pop_white (drop_white last)))
    | _, _ => inl (from_iter (closed ++ para last)) end.
Proof.
  intros K F. assert (P : pop_white (closed ++ para last) = closed ++ para last) by (apply pop_white_solid, Forall_app; split; [exact F|exact (paragraph_solid _ _ (para_is last))]).
  unfold para in *. unfold st, next_of.
  destruct (drop_white last) as [|x d].
  - change (from_iter (pop_white [])) with HEmpty in *. cbn [para_of] in *. rewrite app_nil_r in *. cbn [b_into_html html_is_empty].
    destruct K as [-> | ->]; [now rewrite P|]. destruct closed; [reflexivity|now rewrite P].
  - cbn [b_into_html]. change (pop_white (x :: d)) with (pop_white (x :: d)). set (h := from_iter (pop_white (x :: d))) in *.
    assert (Q : forall c, pop_white (c ++ para_of h) = c ++ para_of h ->
      from_iter (pop_white (if html_is_empty h then c else c ++ [in_tag h n_p])) = from_iter (c ++ para_of h)).
    { intros c P'. transitivity (from_iter (pop_white (c ++ para_of h))); [|now rewrite P']. f_equal. f_equal. destruct h; cbn [html_is_empty]; unfold in_tag, html_tag; now rewrite ?app_nil_r. }
    destruct K as [-> | ->]; cbn [wrap_with]; [exact (f_equal inl (Q closed P))|]. destruct closed as [|y closed]; [reflexivity|exact (f_equal inl (Q _ P))].
Qed.
Lemma block_exact parent items errors h : compile_items (RequireBlock n_p) parent items = Ret (errors, h) ->
  errors = [] /\ exists closed last ps, Divided [] items closed last /\ Paragraph last ps /\ h = from_iter (closed ++ ps).
Proof.
  intro C. destruct (divided_run (RequireBlock n_p) parent (or_introl eq_refl) items []) as (closed & last & D & R).
  unfold compile_items in C. change (b_new (RequireBlock n_p) parent) with (st parent (RequireBlock n_p) [] []) in C. rewrite R in C. cbn [obind app] in C.
  rewrite (into_st _ _ _ _ (or_introl eq_refl) (divided_solid _ _ _ _ D)) in C. injection C as <- <-. split; [reflexivity|]. exists closed, last, (para last). split; [exact D|]. split; [apply para_is|reflexivity].
Qed.
Lemma allow_exact parent items errors h : compile_items (AllowBlock n_p) parent items = Ret (errors, h) ->
  errors = [] /\ exists closed last, Divided [] items closed last /\
  (closed = [] /\ (exists ms, Trimmed last ms /\ h = from_iter ms) \/ closed <> [] /\ exists ps, Paragraph last ps /\ h = from_iter (closed ++ ps)).
Proof.
  intro C. destruct (divided_run (AllowBlock n_p) parent (or_intror eq_refl) items []) as (closed & last & D & R).
  unfold compile_items in C. change (b_new (AllowBlock n_p) parent) with (st parent (AllowBlock n_p) [] []) in C. rewrite R in C. cbn [obind app] in C.
  rewrite (into_st _ _ _ _ (or_intror eq_refl) (divided_solid _ _ _ _ D)) in C. destruct closed as [|x closed]; injection C as <- <-; (split; [reflexivity|]).
  - exists [], last. split; [exact D|]. left. split; [reflexivity|]. exists (pop_white (drop_white last)). split; [apply trimmed_is|reflexivity].
  - exists (x :: closed), last. split; [exact D|]. right. split; [discriminate|]. exists (para last). split; [apply para_is|reflexivity].
Qed.
