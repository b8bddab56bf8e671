(** Proofs about markup: the HTML of its pieces, and how the builder puts them together. *)
From Verif Require Import Base BaseFacts M_Text M_TextSubs M_Names M_TagInfo S_Html M_Html M_Sequence M_Render M_Types M_Diag M_Ast M_Value M_State M_Native M_Eval.
From Verif Require Import P_Html P_Types S_Prose P_Prose P_ProseLex P_ProseParse P_ProseEval S_Markup P_Markup2.

(** ** Block level of sequences *)
Lemma text_not_block h : IsText h -> html_is_block h = false.
Proof. destruct h; cbn; intuition. Qed.
Lemma html_text_not_block s : html_is_block (html_text s) = false.
Proof. destruct s as [|c [|d s]]; cbn; try reflexivity. destruct (c =? 32)%N; [reflexivity|]. now destruct (c =? 10)%N. Qed.
Lemma close_block b : Forall IsText (sb_text b) -> existsb html_is_block (sb_children (sb_close_text b)) = existsb html_is_block (sb_children b).
Proof.
  intros F. unfold sb_close_text. destruct (sb_text b) as [|x [|y l]]; [reflexivity| |]; cbn [sb_children]; rewrite existsb_app; cbn [existsb].
  - inversion F; subst. rewrite (text_not_block x) by assumption. now rewrite !orb_false_r.
  - rewrite html_text_not_block. now rewrite !orb_false_r.
Qed.
Lemma push_block h : forall b, Forall IsText (sb_text b) ->
  Forall IsText (sb_text (sb_push h b)) /\ existsb html_is_block (sb_children (sb_push h b)) = existsb html_is_block (sb_children b) || html_is_block h.
Proof.
  induction h as [|n a c IH|l IH|s| |] using html_ind'; intros b F.
  - cbn. now rewrite orb_false_r.
  - cbn [sb_push]. split.
    + cbn [sb_text]. now destruct (sb_close_events b F) as [_ ->].
    + cbn [sb_children]. rewrite existsb_app, close_block by exact F. cbn [existsb]. now rewrite orb_false_r.
  - rewrite sb_push_seq, html_is_block_seq. revert b F. induction IH as [|x l Hx _ IHl]; intros b F; cbn [fold_left existsb]; [now rewrite orb_false_r|].
    destruct (Hx b F) as [F' E]. destruct (IHl _ F') as [F2 E2]. split; [exact F2|]. now rewrite E2, E, orb_assoc.
  - cbn. rewrite orb_false_r. split; [|reflexivity]. apply Forall_app. split; [exact F|]. now repeat constructor.
  - cbn. rewrite orb_false_r. split; [|reflexivity]. apply Forall_app. split; [exact F|]. now repeat constructor.
  - cbn. rewrite orb_false_r. split; [|reflexivity]. apply Forall_app. split; [exact F|]. now repeat constructor.
Qed.
Lemma block_from_iter l : html_is_block (from_iter l) = existsb html_is_block l.
Proof.
  assert (G : forall l b, Forall IsText (sb_text b) -> Forall IsText (sb_text (fold_left (fun b h => sb_push h b) l b)) /\
    existsb html_is_block (sb_children (fold_left (fun b h => sb_push h b) l b)) = existsb html_is_block (sb_children b) || existsb html_is_block l).
  { clear l. induction l as [|x l IH]; intros b F; cbn [fold_left existsb]; [now rewrite orb_false_r|].
    destruct (push_block x b F) as [F' E]. destruct (IH _ F') as [F2 E2]. split; [exact F2|]. now rewrite E2, E, orb_assoc. }
  destruct (G l sb_new) as [F E]; [constructor|]. unfold from_iter, sb_build. rewrite <- (close_block _ F) in E.
  destruct (sb_children (sb_close_text _)) as [|x [|y r]] eqn:Q.
  - exact E.
  - cbn [existsb] in E. rewrite orb_false_r in E. exact E.
  - rewrite html_is_block_seq. exact E.
Qed.

(** ** HTML of pieces *)
Definition TagOf (n : str) (h : html) : Prop := exists attrs c, h = HTag n attrs c.
Record ElHtml (p : piece) (h : html) : Prop := {
  eh_tag : exists n attrs c, p = Elem n attrs c /\ TagOf n h;
  eh_render : render true h = html_of p;
  eh_block : Block p <-> html_is_block h = true }.
Inductive RunHtml : list piece -> list html -> Prop :=
| rh_end : RunHtml [] []
| rh_char c ps hs : RunHtml ps hs -> RunHtml (Char c :: ps) (html_text [c] :: hs)
| rh_word w ps hs : Letters w -> RunHtml ps hs -> RunHtml (List.map Char w ++ ps) (HText w :: hs)
| rh_elem p h ps hs : ElHtml p h -> Inline p -> RunHtml ps hs -> RunHtml (p :: ps) (h :: hs).
Lemma letters_solid w : Letters w -> Solid w.
Proof.
  intros [N F]. split; [exact N|]. eapply Forall_impl; [|exact F]. intros c L. unfold is_ascii_whitespace. rewrite !orb_false_iff, !N.eqb_neq. destruct L; lia.
Qed.
(** Inline pieces, for the builder *)
Definition Inl (h : html) : Prop := html_is_block h = false /\ html_is_empty h = false.
Lemma run_inl ps hs : RunHtml ps hs -> Forall Inl hs.
Proof.
  induction 1 as [|c ps hs R IH|w ps hs L R IH|p h ps hs E I R IH]; constructor; auto.
  - split; [apply html_text_not_block|]. cbn. destruct (c =? 32)%N; [reflexivity|]. now destruct (c =? 10)%N.
  - now split.
  - destruct E as [(n & a & c & -> & (a' & c' & ->)) Er Eb]. split; [|reflexivity]. destruct (html_is_block _) eqn:B; [|reflexivity]. exfalso. now apply I, Eb.
Qed.
Lemma escaped_char_encode c : escaped_char c = encode_entities [c] false.
Proof. rewrite <- escaped_encode. cbn. now rewrite app_nil_r. Qed.
Lemma char_render c : render true (html_text [c]) = escaped_char c.
Proof.
  cbn [html_text]. destruct (N.eqb_spec c 32) as [->|]; [reflexivity|]. destruct (N.eqb_spec c 10) as [->|]; [reflexivity|]. cbn [render]. now rewrite escaped_char_encode.
Qed.
Lemma run_render ps hs : RunHtml ps hs -> flat_map (render true) hs = List.concat (List.map html_of ps).
Proof.
  induction 1 as [|c ps hs R IH|w ps hs L R IH|p h ps hs E I R IH]; cbn [flat_map List.map List.concat]; [reflexivity| | |].
  - now rewrite char_render, IH.
  - rewrite map_app, concat_app, IH. f_equal. cbn [render]. rewrite <- escaped_encode. unfold escaped. now rewrite map_map.
  - now rewrite (eh_render p h E), IH.
Qed.
Lemma char_white c : html_is_whitespace (html_text [c]) = true -> WhitePiece (Char c).
Proof.
  intros H. exists c. split; [reflexivity|]. apply white_iff. cbn [html_text] in H. destruct (N.eqb_spec c 32) as [E|_]; [now rewrite E|].
  destruct (N.eqb_spec c 10) as [E|_]; [now rewrite E|]. cbn [html_is_whitespace] in H. unfold is_whitespace in H. cbn [forallb] in H. now rewrite andb_true_r in H.
Qed.
Lemma el_white p h : ElHtml p h -> html_is_whitespace h = false.
Proof. intros [(n & a & c & -> & (a' & c' & ->)) _ _]. reflexivity. Qed.
Lemma run_first_white ps hs : RunHtml ps hs -> forall h l, hs = h :: l -> html_is_whitespace h = true -> exists p r, ps = p :: r /\ WhitePiece p.
Proof.
  destruct 1 as [|c ps hs R|w ps hs L R|p h ps hs E I R]; intros x l [= <- <-] W.
  - exists (Char c), ps. split; [reflexivity|]. now apply char_white.
  - now rewrite (solid_white w) in W by now apply letters_solid.
  - now rewrite (el_white p h E) in W.
Qed.
Lemma run_last_white ps hs : RunHtml ps hs -> forall h l, hs = l ++ [h] -> html_is_whitespace h = true -> exists p r, ps = r ++ [p] /\ WhitePiece p.
Proof.
  assert (T : forall {A} (x : A) ns l n, x :: ns = l ++ [n] -> (l = [] /\ ns = [] /\ x = n) \/ exists l', l = x :: l' /\ ns = l' ++ [n]).
  { intros A x ns0 l n E. destruct l as [|y l]; [injection E as -> ->; now left|]. injection E as <- E. right. now exists l. }
  induction 1 as [|c ps hs R IH|w ps hs L R IH|p h ps hs E I R IH]; intros x l El W; [now destruct l| | |]; apply T in El as [(-> & -> & <-) | (l' & -> & En)].
  - inversion R; subst. exists (Char c), []. split; [reflexivity|]. now apply char_white.
  - destruct (IH x l' En W) as (p & r & -> & Wp). exists p, (Char c :: r). auto.
  - now rewrite (solid_white w) in W by now apply letters_solid.
  - destruct (IH x l' En W) as (p & r & -> & Wp). exists p, (List.map Char w ++ r). now rewrite app_assoc.
  - now rewrite (el_white p h E) in W.
  - destruct (IH x l' En W) as (q & r & -> & Wp). exists q, (p :: r). auto.
Qed.
Definition Ends (hs : list html) : Prop := (forall h l, hs = h :: l -> html_is_whitespace h = false) /\ (forall h l, hs = l ++ [h] -> html_is_whitespace h = false).
Lemma run_ends ps hs : RunHtml ps hs -> NoWhiteEnds ps -> Ends hs.
Proof.
  intros R [N1 N2]. split; intros h l E; (destruct (html_is_whitespace h) eqn:W; [|reflexivity]); exfalso.
  - destruct (run_first_white ps hs R h l E W) as (p & r & Ep & Wp). now apply (N1 p r).
  - destruct (run_last_white ps hs R h l E W) as (p & r & Ep & Wp). now apply (N2 p r).
Qed.

(** ** The builder *)
Lemma not_block h : html_is_block h = false -> block_kind h = None.
Proof. apply not_block_spec. Qed.
Lemma pop_ends hs : (forall h l, hs = l ++ [h] -> html_is_whitespace h = false) -> pop_white hs = hs.
Proof. intros E. destruct hs as [|h hs] using rev_ind; [reflexivity|]. apply pop_white_last, (E h hs eq_refl). Qed.
Definition InlineKind (k : content_kind) : Prop := k = RequireInline \/ k = RequireInlineNoLineBreaks.
Lemma push_inline fuel par k cs h : InlineKind k -> Inl h -> (cs = [] -> html_is_whitespace h = false) ->
  b_push (S fuel) h (Builder par k cs None) = Ret (None, Builder par k (cs ++ [h]) None).
Proof.
  intros K [B E] W. cbn [b_push]. rewrite E, (not_block h B). assert (require_inline k = true) as -> by (destruct K as [-> | ->]; reflexivity).
  destruct K as [-> | ->]; (destruct cs as [|c cs]; [cbn; now rewrite (W eq_refl)|reflexivity]).
Qed.
Section Build.
  Variable R : evals.
  Definition NodeGives (n : node) (h : html) : Prop := forall b s, compile_node R n b s = push_piece h b s.
  Lemma gives_push n h b b' s : NodeGives n h -> b_push push_fuel h b = Ret (None, b') -> compile_node R n b s = Ok (None, b') s.
  Proof. intros G P. rewrite G. unfold push_piece, bind, pure. now rewrite P. Qed.
  Lemma inline_more ns hs : Forall2 NodeGives ns hs -> forall par k cs s, InlineKind k -> Forall Inl hs -> (cs = [] -> forall h l, hs = h :: l -> html_is_whitespace h = false) ->
    compile_nodes R ns (Builder par k cs None) s = Ok (Builder par k (cs ++ hs) None) s.
  Proof.
    induction 1 as [|n h ns hs G F IH]; intros par k cs s K I W; [now rewrite app_nil_r|]. inversion I as [|? ? Ih I']; subst.
    erewrite nodes_cons; [|eapply gives_push; [exact G|apply push_inline; [exact K|exact Ih|intros E; exact (W E h hs eq_refl)]]].
    rewrite (IH par k (cs ++ [h]) s K I'); [now rewrite <- app_assoc|]. intros E. now destruct cs.
  Qed.
  Lemma sequence_inline ns hs par k s : Forall2 NodeGives ns hs -> InlineKind k -> Forall Inl hs -> Ends hs -> compile_sequence R ns k par s = Ok (from_iter hs) s.
  Proof.
    intros G K I [E1 E2]. unfold compile_sequence. unfold bind at 1, b_new. rewrite (inline_more ns hs G par k [] s K I (fun _ => E1)). cbn [app].
    assert (b_into_html (Builder par k hs None) = inl (from_iter hs)) as ->; [|reflexivity].
    cbn [b_into_html html_is_empty]. rewrite (pop_ends hs E2). destruct K as [-> | ->]; reflexivity.
  Qed.
  (** Inline content where blocks are allowed *)
  Lemma into_next par k done nxt nxt' n h s : (k = AllowBlock n_p \/ k = RequireBlock n_p) -> NodeGives n h -> Inl h ->
    b_push 3 h nxt = Ret (None, nxt') -> compile_node R n (Builder par k done (Some nxt)) s = Ok (None, Builder par k done (Some nxt')) s.
  Proof.
    intros K G [B E] P. eapply gives_push; [exact G|]. unfold push_fuel. remember 3 as f. cbn [b_push]. rewrite E.
    destruct K as [-> | ->]; cbn [require_inline]; rewrite B, P; reflexivity.
  Qed.
  Notation para cs := (Builder (Some n_p) RequireInlineNoLineBreaks cs None).
  Lemma first_into par k done n h s : (k = AllowBlock n_p \/ k = RequireBlock n_p) -> NodeGives n h -> Inl h -> html_is_whitespace h = false ->
    compile_node R n (Builder par k done None) s = Ok (None, Builder par k done (Some (para [h]))) s.
  Proof.
    intros K G I W. pose proof I as [B E]. eapply gives_push; [exact G|]. unfold push_fuel. remember 3 as f. cbn [b_push]. rewrite E.
    assert (P : b_push f h (para []) = Ret (None, para [h])) by (subst f; apply push_inline; [now right|exact I|auto]).
    destruct K as [-> | ->]; cbn [require_inline]; rewrite B, W; change (b_new (content_kind_for (wrap_with _)) _) with (para []); rewrite P; reflexivity.
  Qed.
  Lemma para_more ns hs : Forall2 NodeGives ns hs -> forall par k done cs rest s, (k = AllowBlock n_p \/ k = RequireBlock n_p) -> Forall Inl hs -> cs <> [] ->
    compile_nodes R (ns ++ rest) (Builder par k done (Some (para cs))) s = compile_nodes R rest (Builder par k done (Some (para (cs ++ hs)))) s.
  Proof.
    induction 1 as [|n h ns hs G F IH]; intros par k done cs rest s K I N; [now rewrite app_nil_r|]. inversion I as [|? ? Ih I']; subst. cbn [app].
    erewrite nodes_cons; [|eapply into_next; [exact K|exact G|exact Ih|apply push_inline; [now right|exact Ih|congruence]]].
    rewrite IH; auto; [now rewrite <- app_assoc|]. now destruct cs.
  Qed.
  Lemma para_first ns hs par k done rest s : Forall2 NodeGives ns hs -> (k = AllowBlock n_p \/ k = RequireBlock n_p) -> Forall Inl hs -> hs <> [] -> Ends hs ->
    compile_nodes R (ns ++ rest) (Builder par k done None) s = compile_nodes R rest (Builder par k done (Some (para hs))) s.
  Proof.
    intros G K I N [E _]. destruct G as [|n h ns hs G F]; [now contradiction N|]. inversion I as [|? ? Ih I']; subst. cbn [app].
    erewrite nodes_cons; [|eapply first_into; [exact K|exact G|exact Ih|exact (E h hs eq_refl)]].
    rewrite (para_more ns hs F); auto. discriminate.
  Qed.
  Definition Whites (ws : list html) : Prop := Forall (fun h => h = HWhitespace) ws.
  Lemma pop_whites hs ws : Whites ws -> (forall h l, hs = l ++ [h] -> html_is_whitespace h = false) -> pop_white (hs ++ ws) = hs.
  Proof.
    intros W E. unfold pop_white. rewrite rev_app_distr. assert (F : Forall (fun h => h = HWhitespace) (rev ws)) by now apply Forall_rev.
    replace (pop_white_rev (rev ws ++ rev hs)) with (pop_white_rev (rev hs)); [exact (pop_ends hs E)|].
    induction F as [|x l -> F IH]; [reflexivity|]. cbn [app pop_white_rev html_is_whitespace]. exact IH.
  Qed.
  Lemma para_html hs ws : Whites ws -> Ends hs -> b_into_html (para (hs ++ ws)) = inl (from_iter hs).
  Proof. intros W [_ E]. cbn [b_into_html html_is_empty]. now rewrite (pop_whites hs ws W E). Qed.
  Lemma sequence_allow ns hs par s : Forall2 NodeGives ns hs -> Forall Inl hs -> Ends hs -> compile_sequence R ns (AllowBlock n_p) par s = Ok (from_iter hs) s.
  Proof.
    intros G I E. unfold compile_sequence, b_new. unfold bind at 1. destruct hs as [|h hs]; [inversion G; reflexivity|].
    rewrite <- (app_nil_r ns). rewrite (para_first ns (h :: hs) par _ [] [] s G); auto; [|discriminate]. cbn [compile_nodes ret].
    assert (b_into_html (Builder par (AllowBlock n_p) [] (Some (para (h :: hs)))) = inl (from_iter (h :: hs))) as ->; [|reflexivity].
    cbn [b_into_html html_is_empty]. now rewrite (pop_ends _ (proj2 E)).
  Qed.
  (** Elements where they belong *)
  Inductive ElsGive : list node -> list html -> Prop :=
  | eg_end : ElsGive [] []
  | eg_gap n ns hs : GapNode n -> ElsGive ns hs -> ElsGive (n :: ns) hs
  | eg_more n h ns hs : NodeGives n h -> ElsGive ns hs -> ElsGive (n :: ns) (h :: hs).
  Definition Fits (k : content_kind) (h : html) : Prop :=
    (exists n a c, h = HTag n a c) /\ match k with RequireOneOf names => html_is_all names h = true | RequireBlock _ | AllowBlock _ => html_is_block h = true | _ => False end.
  Lemma push_fits par k done h : Fits k h -> b_push push_fuel h (Builder par k done None) = Ret (None, Builder par k (done ++ [h]) None).
  Proof.
    intros [(n & a & c & ->) H]. unfold push_fuel. remember 3 as f. cbn [b_push html_is_empty].
    destruct k; cbn [require_inline]; try contradiction; rewrite H; cbn [b_close_child html_is_whitespace]; now destruct done.
  Qed.
  Lemma gap_stays par k done n s : GapNode n -> match k with RequireOneOf _ | RequireBlock _ | AllowBlock _ => True | _ => False end ->
    compile_node R n (Builder par k done None) s = Ok (None, Builder par k done None) s.
  Proof.
    intros [-> | ->] K; destruct k; try contradiction; reflexivity.
  Qed.
  Lemma els_nodes ns hs : ElsGive ns hs -> forall par k done s, match k with RequireOneOf _ | RequireBlock _ | AllowBlock _ => True | _ => False end -> Forall (Fits k) hs ->
    compile_nodes R ns (Builder par k done None) s = Ok (Builder par k (done ++ hs) None) s.
  Proof.
    induction 1 as [|n ns hs Gn G IH|n h ns hs Nh G IH]; intros par k done s K F.
    - now rewrite app_nil_r.
    - erewrite nodes_cons; [|apply gap_stays; auto]. now apply IH.
    - inversion F as [|? ? Fh F']; subst. erewrite nodes_cons; [|eapply gives_push; [exact Nh|now apply push_fits]].
      rewrite IH; auto. now rewrite <- app_assoc.
  Qed.
  Lemma sequence_els ns hs par k s : ElsGive ns hs -> match k with RequireOneOf _ | RequireBlock _ | AllowBlock _ => True | _ => False end -> Forall (Fits k) hs ->
    compile_sequence R ns k par s = Ok (from_iter hs) s.
  Proof.
    intros G K F. unfold compile_sequence, b_new. unfold bind at 1. rewrite (els_nodes ns hs G par k [] s K F). cbn [app].
    assert (b_into_html (Builder par k hs None) = inl (from_iter hs)) as ->; [|reflexivity].
    assert (P : pop_white hs = hs).
    { apply pop_ends. intros h l ->. apply Forall_app in F as [_ F]. inversion F as [|? ? [(n & a & c & ->) _] _]; subst. reflexivity. }
    cbn [b_into_html html_is_empty]. rewrite P. destruct k; try contradiction; try reflexivity. now destruct hs.
  Qed.
End Build.
