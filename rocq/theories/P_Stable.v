(** Content that is already arranged as its tag requires is left alone (C24). *)
From Verif Require Import Base BaseFacts M_Text P_Text M_Names M_TagInfo M_Html M_Sequence S_Html S_Sequence P_Html P_Sequence P_HtmlDec.

Lemma from_iter_one h : Normal h -> from_iter [h] = h.
Proof.
  intro H. apply events_unique; auto; [apply from_iter_normal; repeat constructor; auto|].
  rewrite from_iter_events. cbn. apply app_nil_r.
Qed.
Lemma white_block h : html_is_whitespace h = true -> block_kind h = None.
Proof. destruct h; auto; discriminate. Qed.
Lemma white_all names h : html_is_whitespace h = true -> h = HEmpty \/ html_is_all names h = false.
Proof. destruct h; auto; discriminate. Qed.

Lemma one_white k p c : html_is_whitespace c = true -> compile_items k p [Piece c] = Ret ([], HEmpty).
Proof.
  intro H. unfold compile_items, b_items, b_item, push_fuel. cbn [b_push b_new].
  destruct (html_is_empty c) eqn:E.
  - cbn. destruct k; reflexivity.
  - rewrite (white_block c H). replace (if require_inline k then None else None) with (@None str) by now destruct (require_inline k).
    rewrite H. cbn [b_close_child]. unfold html_is_block. rewrite (white_block c H).
    destruct k; cbn; try reflexivity. destruct (html_is_all names c); reflexivity.
Qed.
Lemma pop_white_one c : html_is_whitespace c = false -> pop_white [c] = [c].
Proof. intro H. unfold pop_white. cbn. now rewrite H. Qed.
Lemma not_white_nonempty c : html_is_whitespace c = false -> html_is_empty c = false.
Proof. destruct c; auto; discriminate. Qed.
(** a piece that is allowed directly in the tag *)
Lemma one_in k p c : html_is_whitespace c = false -> Normal c ->
  match k with
  | RequireOneOf names => html_is_all names c = true
  | RequireBlock _ => html_is_block c = true
  | AllowBlock n => html_is_block c = true \/ content_kind_for n = RequireInlineNoLineBreaks
  | RequireInline | RequireInlineNoLineBreaks => block_kind c = None
  | RequireEmpty => False
  end -> compile_items k p [Piece c] = Ret ([], c).
Proof.
  intros H N A. unfold compile_items, b_items, b_item, push_fuel. cbn [b_push b_new].
  rewrite (not_white_nonempty c H), H. cbn [b_close_child].
  assert (Hr : forall k', (if html_is_empty HEmpty then [c] else [c] ++ [in_tag HEmpty (wrap_with k')]) = [c]) by reflexivity.
  destruct k as [names|w|w| | |]; cbn [require_inline]; try (rewrite A); try contradiction;
    try (cbn; unfold pop_white; cbn; rewrite H; cbn; now rewrite from_iter_one).
  destruct (html_is_block c) eqn:Eb.
  - cbn. unfold pop_white. cbn. rewrite H. cbn. now rewrite from_iter_one.
  - destruct A as [A|A]; [congruence|]. cbn [wrap_with]. rewrite A. unfold html_is_block in Eb.
    destruct (block_kind c) eqn:Ek; [discriminate|]. cbn. rewrite H. cbn. now rewrite from_iter_one.
Qed.

Lemma clean_not_white c : Normal c -> CleanEdges (events c) -> c <> HEmpty -> html_is_whitespace c = false.
Proof.
  intros N C E. destruct (html_is_whitespace c) eqn:H; auto. apply is_whitespace_events in H.
  destruct C as [C|((e & t & C & Hn) & _)]; [now destruct (Normal_nonempty c N E)|].
  rewrite C in H. inversion H as [|x l (ch & -> & Hw) _]; subst. now destruct Hn.
Qed.
Lemma among_all names c : Normal c -> c <> HEmpty -> Forall (TagAmong names) (nodes c) -> html_is_all names c = true.
Proof.
  intros N E H. destruct c as [|n a c|l|s| |]; try congruence; cbn [nodes] in H;
    try (inversion H as [|x l (n' & a' & c' & Hx & _) _]; discriminate).
  - inversion H as [|x l (n' & a' & c' & Hx & Hi) _]; subst. injection Hx as -> -> ->. cbn. now apply mem_In.
  - cbn. apply forallb_forall. intros x Hx. rewrite Forall_forall in H. destruct (H x Hx) as (n' & a' & c' & -> & Hi).
    cbn. now apply mem_In.
Qed.
Lemma nodes_block c : Normal c -> c <> HEmpty -> Forall BlockLevel (nodes c) -> html_is_block c = true.
Proof.
  intros N E H. apply block_kind_some. destruct c as [|n a c|l|s| |]; try congruence; cbn [nodes] in H; try (now inversion H).
  inversion N as [| | | | |l' L _ _ _]; subst. destruct l as [|x l]; [cbn in L; lia|]. inversion H; subst.
  apply BL_seq with x; [now left|assumption].
Qed.
Lemma nodes_not_block c : Forall (fun h => ~ BlockLevel h) (nodes c) -> block_kind c = None.
Proof.
  intro H. apply block_kind_none. destruct c as [|n a c|l|s| |]; cbn [nodes] in H; try (now inversion H); try (intro X; now inversion X).
  intro X. inversion X as [| |l' x Hi Hx]; subst. rewrite Forall_forall in H. now apply (H x Hi).
Qed.

Lemma stable name parent c : Normal c -> CleanEdges (events c) -> Conforms (content_kind_for name) (nodes c) ->
  compile_items (content_kind_for name) parent [Piece c] = Ret ([], c).
Proof.
  intros N C F. destruct (html_is_empty c) eqn:E.
  - destruct c; try discriminate. apply one_white. reflexivity.
  - assert (E' : c <> HEmpty) by (intros ->; discriminate).
    assert (G := kind_for_good name). apply one_in; auto using clean_not_white.
    destruct (content_kind_for name) as [names|w|w| | |]; cbn [Conforms] in F.
    + now apply among_all.
    + now apply nodes_block.
    + destruct F as [F|F]; [left; now apply nodes_block|right].
      rewrite (wrap_block _ G w (or_intror eq_refl)). reflexivity.
    + now apply nodes_not_block.
    + now apply nodes_not_block.
    + destruct c; try discriminate; try congruence. inversion N as [| | | | |l' L _ _ _]; subst. cbn in F. subst. cbn in L. lia.
Qed.
