(** Proofs about markup: how pages are parsed. *)
From Verif Require Import Base BaseFacts M_Text M_Names M_TagInfo M_TextSubs M_Token M_Tokenizer M_TokenText M_Types M_Diag M_Queue M_Ast M_Parser M_ParserPos.
From Verif Require Import S_Front P_Tokenizer S_Parser S_Grammar P_Parser S_Pos P_ParserPos P_ParserWhere S_Prose P_ProseLex P_ProseParse.
From Verif Require Import S_Markup P_Markup1 P_Markup2 P_Markup5.

Lemma parse_page decode ok src text ps : (forall l, ok (regex_text regex_escape l) = true) -> Page false ps text ->
  exists ns, PageNodes false ps ns /\ parse decode ok src text = Ret (ns, []).
Proof.
  intros Ok P. destruct (page_document src decode regex_escape ps text P QLeft (length text) 0 (le_n _)) as (l & El & O & ns & Pn & D). exists ns. split; [exact Pn|].
  assert (T : forall b, tokenize text b = Ret (l, [])).
  { intros b. rewrite tokenize_lex, El. cbn [obind]. destruct (lex_no_adjacent _ _ _ _ _ _ El) as [A _].
    replace (fold_left (fun acc t => push_token b t acc) l []) with (fold_left (fun acc t => push_token false t acc) l []).
    - rewrite push_all by exact A. now rewrite app_nil_r, rev_involutive.
    - destruct b; [|reflexivity]. symmetry. apply fold_push. eapply Forall_impl; [|exact O]. intros t (_ & H & _). exact H. }
  assert (X : Forall LexTok l) by (eapply Forall_impl; [|exact O]; intros t H; apply H).
  destruct (document_accepted src decode ok Ok l ns [] X D) as (ds & Ne & E).
  assert (Pe : parse decode ok src text = Ret (ns, ds)) by (unfold parse; rewrite T; cbn [obind fst snd List.map]; now rewrite E).
  rewrite Pe. destruct ds as [|e ds]; [reflexivity|]. exfalso.
  rewrite parse_erase in Pe. destruct (parse_pos decode ok src text) as [[ns' ps']| |] eqn:Ep; try discriminate Pe. cbn [obind fst snd] in Pe. injection Pe as -> Em.
  destruct (parse_where _ _ _ _ _ _ Ep) as (all & errs & Ha & W). rewrite T in Ha. injection Ha as <- <-.
  destruct ps' as [|[e' p] ps']; [discriminate Em|]. injection Em as -> _. inversion Ne as [|? ? [w ->] _]; subst.
  destruct (W (Warn w) p (or_introl eq_refl)) as [[[] _] | (t & I & _ & A)].
  rewrite Forall_forall in O. destruct (O t I) as (_ & _ & Nq). destruct w; try contradiction.
Qed.
