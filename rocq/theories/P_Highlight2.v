(** Proofs for C40: the elements of highlighted code. *)
From Verif Require Import Base BaseFacts M_Text M_Names M_Int M_SliceRef M_SourceFile M_Html M_Token M_Tokenizer M_Diag M_Highlight S_Html P_Html S_Highlight2.

Definition Piece (h : html) : Prop := CodePiece (events h).
Lemma text_events s : events (html_text s) = List.map EChar s.
Proof.
  unfold html_text. destruct s as [|c [|d s]]; [reflexivity| |reflexivity].
  repeat match goal with |- context [(c =? ?n)%N] => destruct (N.eqb_spec c n) as [E|_]; [subst; reflexivity|] end. reflexivity.
Qed.
Lemma token_piece k s n : Piece (make_token k s n).
Proof.
  assert (S : forall a, ~ In (lit "href") (List.map fst a) -> Piece (HTag n_span a (html_text s))).
  { intros a H. unfold Piece. cbn [events]. rewrite text_events. now apply cp_span. }
  assert (N : forall x (c : bool) y, ~ In (lit "href") (List.map fst ((n_class, x) :: if c then [(n_data_paren_no, y)] else [] : list (str * option str)))).
  { intros x [] y; cbn [List.map fst In]; intros [E|E]; try discriminate; repeat (destruct E as [E|E]; [discriminate|]); destruct E. }
  destruct k; cbn [make_token]; try (apply S, N).
  - unfold Piece. rewrite text_events. constructor.
  - unfold Piece. cbn [events]. rewrite text_events. apply cp_link. now left.
Qed.
Definition Parts (l : lh) : Prop := Forall Piece (lh_parts l).
Ltac out := repeat match goal with
  | H : Ret _ = Ret _ |- _ => injection H as <-
  | H : Panic = Ret _ |- _ => discriminate
  | H : OutOfFuel = Ret _ |- _ => discriminate
  | H : obind ?x _ = Ret _ |- _ => let E := fresh "E" in destruct x eqn:E; cbn [obind] in H; try discriminate
  end.
Lemma close_parts l l' : close_part l = Ret l' -> Parts l -> Parts l'.
Proof.
  unfold close_part. intros H P. destruct (lh_kind l); out; [|assumption]. unfold Parts. cbn. apply Forall_app. split; [exact P|]. repeat constructor. apply token_piece.
Qed.
Lemma other_parts a b k l l' : push_other a b k l = Ret l' -> Parts l -> Parts l'.
Proof.
  unfold push_other. intros H P. destruct (b <=? a); [out; assumption|]. destruct (match lh_kind l with Some k' => hkind_eqb k' k | None => false end); out; [exact P|].
  eapply close_parts in E; eauto.
Qed.
Lemma paren_parts a b k n l l' : push_with_paren_no a b k n l = Ret l' -> Parts l -> Parts l'.
Proof.
  unfold push_with_paren_no. intros H P. out. eapply close_parts in E; eauto. unfold Parts. cbn. apply Forall_app. split; [exact E|]. repeat constructor. apply token_piece.
Qed.
Lemma urls_parts urls start b k uk : forall cur l l', push_urls urls start cur b k uk l = Ret l' -> Parts l -> Parts l'.
Proof.
  induction urls as [|[ma mb] urls IH]; intros cur l l' H P; cbn [push_urls] in H; [now apply other_parts in H|].
  out. apply other_parts in E; [|exact P]. apply other_parts in E0; [|exact E]. apply close_parts in E1; [|exact E0]. now apply IH in H.
Qed.
Lemma push_parts' a b k l l' : lh_push a b k l = Ret l' -> Parts l -> Parts l'.
Proof.
  unfold lh_push. intros H P. out. destruct k; try (now apply other_parts in H); try (now apply urls_parts in H).
  - out. apply paren_parts in H; [exact H|exact P].
  - destruct (lh_stack l) as [|[rpar n] st]; [now apply other_parts in H|]. destruct (str_eqb rpar a0); [|now apply other_parts in H].
    out. apply paren_parts in E0; [exact E0|exact P].
Qed.
Definition Line (h : html) : Prop := CodeLine (events h).
Lemma parts_line l : Forall Piece l -> Line (from_iter l).
Proof.
  intro P. exists (List.map events l). split; [now apply Forall_map|]. rewrite from_iter_events. now rewrite flat_map_concat_map.
Qed.
Lemma text_line s : Line (html_text s).
Proof. exists [List.map EChar s]. split; [repeat constructor|]. rewrite text_events. cbn. now rewrite app_nil_r. Qed.
Lemma take_lines l h l' : take_line l = Ret (h, l') -> Parts l -> Line h /\ Parts l'.
Proof.
  unfold take_line. intros H P. destruct (close_part l) as [l1| |] eqn:E; cbn [obind] in H; try discriminate. injection H as <- <-.
  apply close_parts in E; [|exact P]. split; [now apply parts_line|constructor].
Qed.
Lemma split_lines parts : forall cur dc k l out l' out', push_parts parts cur dc k l out = Ret (l', out') -> Parts l -> Forall Line out ->
  Parts l' /\ Forall Line out'.
Proof.
  induction parts as [|p parts IH]; intros cur dc k l out l' out' H P F; cbn [push_parts] in H.
  - injection H as <- <-. auto.
  - destruct dc.
    + destruct (get_span _ _ _) as [s| |]; cbn [obind] in H; try discriminate. destruct (str_eqb s [10%N]); cbn [obind] in H; [|discriminate].
      destruct (take_line l) as [[h l1]| |] eqn:E; cbn [obind fst snd] in H; try discriminate. apply take_lines in E as [L P1]; [|exact P].
      destruct (lh_push _ _ _ _) as [l2| |] eqn:E2; cbn [obind] in H; try discriminate. apply push_parts' in E2; [|exact P1].
      apply IH in H; auto. apply Forall_app. auto.
    + cbn [obind] in H. destruct (lh_push _ _ _ _) as [l2| |] eqn:E2; cbn [obind] in H; try discriminate. apply push_parts' in E2; [|exact P]. apply IH in H; auto.
Qed.
Lemma tokens_lines toks : forall d t l out l' out', highlight_tokens toks d t l out = Ret (l', out') -> Parts l -> Forall Line out ->
  Parts l' /\ Forall Line out'.
Proof.
  induction toks as [|tok toks IH]; intros d t l out l' out' H P F; cbn [highlight_tokens] in H; [injection H as <- <-; auto|].
  destruct (papyri_kind _ _ _) as [k d']. destruct (push_parts _ _ _ _ _ _) as [[l1 o1]| |] eqn:E; cbn [obind] in H; try discriminate.
  apply split_lines in E as [P1 F1]; auto. now apply IH in H.
Qed.
Lemma ranges_parts rs : forall l l', push_ranges rs l = Ret l' -> Parts l -> Parts l'.
Proof.
  induction rs as [|[[a b] k] rs IH]; intros l l' H P; cbn [push_ranges] in H; [now injection H as <-|].
  destruct (b <=? a); [now apply IH in H|]. destruct (lh_push a b k l) as [l1| |] eqn:E; cbn [obind] in H; try discriminate.
  apply push_parts' in E; [|exact P]. now apply IH in H.
Qed.
Lemma ranges_lines ls : forall l out, highlight_lines ls l = Ret out -> Parts l -> Forall Line out.
Proof.
  induction ls as [|[line rs] ls IH]; intros l out H P; cbn [highlight_lines] in H; [injection H as <-; constructor|].
  destruct rs as [rs|].
  - destruct (push_ranges _ _) as [l1| |] eqn:E; cbn [obind] in H; try discriminate. apply ranges_parts in E; [|exact P].
    destruct (take_line l1) as [[h l2]| |] eqn:E1; cbn [obind fst snd] in H; try discriminate. apply take_lines in E1 as [L P2]; [|exact E].
    destruct (highlight_lines ls l2) as [o| |] eqn:E2; cbn [obind] in H; try discriminate. injection H as <-. constructor; [exact L|]. now apply IH in E2.
  - destruct (highlight_lines ls _) as [o| |] eqn:E2; cbn [obind] in H; try discriminate. injection H as <-. constructor; [apply text_line|]. apply IH in E2; [exact E2|exact P].
Qed.
Lemma highlight_elements syntect src language ls w : syntax_highlight syntect src language = Ret (ls, w) -> Forall (fun h => CodeLine (events h)) ls.
Proof.
  assert (T : Forall Line (no_highlighting src)) by (unfold no_highlighting; apply Forall_map, Forall_forall; intros; apply text_line).
  unfold syntax_highlight. intro H. destruct (str_eqb language (lit "none")); [injection H as <- <-; exact T|].
  destruct (str_eqb language (lit "papyri")).
  - unfold syntax_highlight_papyri in H. destruct (tokenize _ _) as [[toks errs]| |]; cbn [obind fst] in H; try discriminate.
    destruct (highlight_tokens _ _ _ _ _) as [[l o]| |] eqn:E; cbn [obind] in H; try discriminate.
    apply tokens_lines in E as [P F]; [|constructor|constructor].
    destruct (take_line l) as [[h l']| |] eqn:E1; cbn [obind fst] in H; try discriminate. injection H as <- <-.
    apply take_lines in E1 as [L _]; [|exact P]. apply Forall_app. split; [exact F|]. now repeat constructor.
  - destruct (syntect language (lines src)) as [rs|]; [|injection H as <- <-; exact T].
    destruct (highlight_lines _ _) as [o| |] eqn:E; cbn [obind] in H; try discriminate. injection H as <- <-. apply ranges_lines in E; [exact E|constructor].
Qed.
