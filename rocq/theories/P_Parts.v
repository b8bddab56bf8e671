(** Any number of texts divided by blank lines *)
From Verif Require Import Base BaseFacts M_Token M_Tokenizer M_Diag M_Queue M_Ast M_Parser S_Text S_Front S_Parser S_Layout S_Lex S_Refill S_Trail S_Join
  P_Front P_Lex P_Refill P_TrailText P_JoinText.

Lemma join_lexes lines text1 gap text2 ta tb : Lexes 0 QLeft text1 ta [] -> EndsSolid ta -> NoDots ta ->
  Lexes 0 QLeft text2 tb [] -> NoDots tb -> Filled lines true gap -> Not S_Lex.White text2 -> (lines = true -> Not QuoteChar text2) ->
  exists tc, Lexes 0 QLeft (text1 ++ gap ++ text2) (ta ++ tc) [] /\ NoDots (ta ++ tc).
Proof.
  intros L1 S1 D1 L2 D2 F W Q.
  assert (B : Begins (gap ++ text2)).
  { destruct (filled_lexes lines true gap text2 0 QLeft F W Q tb [] 0 L2) as ((c & t & -> & Hc) & _). exists c, (t ++ text2). auto. }
  destruct (lexes_extend ta 0 QLeft text1 (gap ++ text2) L1 S1 B) as (pos & dir & X).
  destruct (filled_lexes lines true gap text2 pos dir F W Q tb [] 0 L2) as (_ & tg & tb' & eb' & G & Gp & _ & _ & _ & Sm & Eb). destruct eb'; [|discriminate].
  exists (tg ++ tb'). split; [exact (X _ _ G)|]. intros t I K. apply in_app_iff in I as [I|I]; [exact (D1 t I K)|]. apply in_app_iff in I as [I|I].
  - unfold Gap in Gp. rewrite Forall_forall in Gp. apply (Gp t I). unfold Significant. rewrite K. repeat split; discriminate.
  - clear -Sm D2 I K. induction Sm as [|a b l l' [E _] Sm IH]; [destruct I|]. destruct I as [->|I]; [apply (D2 a); [now left|congruence]|]. apply IH; [|exact I]. intros u J. apply D2. now right.
Qed.
Lemma not_app P (a b : str) : a <> [] -> Not P a -> Not P (a ++ b).
Proof. intros N H c t E. destruct a as [|x a]; [contradiction|]. injection E as -> _. exact (H c a eq_refl). Qed.
Lemma starts_app a b : a <> [] -> StartsSolid a -> StartsSolid (a ++ b).
Proof. intros N H t r E. destruct a as [|x a]; [contradiction|]. injection E as -> _. exact (H t a eq_refl). Qed.
Lemma broken_more tree trees : trees <> [] -> broken (tree :: trees) = tree ++ AParagraphBreak :: broken trees.
Proof. destruct trees; [contradiction|reflexivity]. Qed.

Lemma parts_parse decode regex_ok path lines texts doc : Parted lines texts doc -> forall trees warnings,
  Forall (Stands lines) texts ->
  Forall2 (fun text r => parse decode regex_ok path text = Ret r /\ fst r <> [] /\ NoErrors (snd r)) texts (combine trees warnings) ->
  length trees = length warnings ->
  parse decode regex_ok path doc = Ret (broken trees, concat warnings) /\ broken trees <> [] /\ NoErrors (concat warnings) /\
  exists toks, Lexes 0 QLeft doc toks [] /\ StartsSolid toks /\ NoDots toks /\ Not S_Lex.White doc /\ (lines = true -> Not QuoteChar doc).
Proof.
  induction 1 as [text|text gap texts doc F D IH]; intros trees warnings St P Len.
  - destruct trees as [|n [|]], warnings as [|d [|]]; cbn in Len; try discriminate; cbn [combine] in P; try (now inversion P).
    inversion P as [|? ? ? ? (E & N & W) P']; subst. cbn [fst snd] in *. cbn [broken concat]. rewrite app_nil_r. apply Forall_cons_iff in St as [(toks & L & S & _ & _ & ND & Wh & Q) _].
    split; [exact E|]. split; [exact N|]. split; [exact W|]. exists toks. auto.
  - destruct trees as [|n trees], warnings as [|d warnings]; cbn in Len; try discriminate; cbn [combine] in P; [now inversion P|]. injection Len as Len.
    inversion P as [|? ? ? ? (E & N & W) P']; subst. cbn [fst snd] in *. apply Forall_cons_iff in St as [(toks & L & S & Es & Ep & ND & Wh & Q) St].
    destruct (IH trees warnings St P' Len) as (Pd & Nd & Wd & td & Ld & Sd & Dd & Whd & Qd).
    assert (Nt : trees <> []) by (intros ->; now apply Nd).
    assert (Nx : text <> []).
    { intros ->. cbn in E. injection E as <- _. now apply N. }
    assert (Ntk : toks <> []) by (intros ->; inversion L; subst; now apply Nx).
    rewrite (broken_more _ _ Nt). cbn [concat]. split; [|split; [destruct n; discriminate|split; [now apply Forall_app|]]].
    + exact (join_parse decode regex_ok path text gap doc lines toks td [] n d (broken trees) (concat warnings) L Es Ep ND Ld Sd Dd F Whd Qd E W N Pd Wd Nd).
    + destruct (join_lexes lines text gap doc toks td L Es ND Ld Dd F Whd Qd) as (tc & Lc & Dc). exists (toks ++ tc). split; [exact Lc|]. split; [now apply starts_app|]. split; [exact Dc|].
      split; [now apply not_app|]. intro Hl. apply not_app; auto.
Qed.
