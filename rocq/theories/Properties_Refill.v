(** Property theorems C84: white space may be wrapped differently and comments added to it. *)
From Verif Require Import Base M_Token M_Tokenizer M_Diag M_State M_Native M_Parser M_Eval M_Lib S_Text S_Lex S_Refill S_Example P_LexStrip P_Layout4 P_Refill Properties_Layout.

(** C84. The white space [g] after some token of a text (not a comment) may be replaced by other white space, with comments in it
    if one likes, as long as a blank line stays a blank line: the text is parsed alike, with the same complaints. The provisos:
    the texts are not among those on which the tokenizer crashes, C69; if there are comments of the form # then what follows does not begin with a quotation mark. *)
Theorem C84_parse_partial : forall decode regex_ok path a g g' b lines blank ta tl errs,
  Uncut (a ++ g ++ b) -> Uncut (a ++ g' ++ b) ->
  Lexes 0 QLeft (a ++ g ++ b) (ta ++ tl) errs -> Spelled ta = a -> Closed ta ->
  Filled lines blank g -> Filled lines blank g' -> Not White b -> (lines = true -> Not QuoteChar b) ->
  parse decode regex_ok path (a ++ g ++ b) = parse decode regex_ok path (a ++ g' ++ b).
Proof.
  intros decode regex_ok path a g g' b lines blank ta tl errs C C' L S Cl F F' N Q.
  destruct (refill_relaid lines blank a g g' b ta tl errs L S Cl F F' N Q) as (toks' & errs' & L' & R & E).
  now apply (C81_parse decode regex_ok path _ _ _ _ _ _ C C' L L' E R).
Qed.
Print Assumptions C84_parse_partial.

(** So it compiles to the same document, with the same exports, reports and effects, from whatever state. *)
Theorem C84_compile_partial : forall X fuel path a g g' b lines blank ta tl errs s,
  Uncut (a ++ g ++ b) -> Uncut (a ++ g' ++ b) ->
  Lexes 0 QLeft (a ++ g ++ b) (ta ++ tl) errs -> Spelled ta = a -> Closed ta ->
  Filled lines blank g -> Filled lines blank g' -> Not White b -> (lines = true -> Not QuoteChar b) ->
  compile X fuel path (a ++ g ++ b) s = compile X fuel path (a ++ g' ++ b) s.
Proof.
  intros X fuel path a g g' b lines blank ta tl errs s C C' L S Cl F F' N Q.
  destruct (refill_relaid lines blank a g g' b ta tl errs L S Cl F F' N Q) as (toks' & errs' & L' & R & E).
  now apply (C81_compile X fuel path _ _ _ _ _ _ s C C' L L' E R).
Qed.
Print Assumptions C84_compile_partial.

Theorem C84_library_partial : forall X fuel a g g' b lines blank ta tl errs,
  Uncut (a ++ g ++ b) -> Uncut (a ++ g' ++ b) ->
  Lexes 0 QLeft (a ++ g ++ b) (ta ++ tl) errs -> Spelled ta = a -> Closed ta ->
  Filled lines blank g -> Filled lines blank g' -> Not White b -> (lines = true -> Not QuoteChar b) ->
  compile_str X fuel (a ++ g ++ b) = compile_str X fuel (a ++ g' ++ b).
Proof.
  intros X fuel a g g' b lines blank ta tl errs C C' L S Cl F F' N Q.
  destruct (refill_relaid lines blank a g g' b ta tl errs L S Cl F F' N Q) as (toks' & errs' & L' & R & E).
  now apply (C81_library X fuel _ _ _ _ _ _ C C' L L' E R).
Qed.
Print Assumptions C84_library_partial.

(** White space alone, whatever follows: lines may be broken elsewhere and indented differently. *)
Theorem C84_white : forall X fuel path a w w' b ta tl errs s,
  Uncut (a ++ w ++ b) -> Uncut (a ++ w' ++ b) ->
  Lexes 0 QLeft (a ++ w ++ b) (ta ++ tl) errs -> Spelled ta = a -> Closed ta ->
  w <> [] -> w' <> [] -> Forall White w -> Forall White w' -> (BlankLine w <-> BlankLine w') -> Not White b ->
  compile X fuel path (a ++ w ++ b) s = compile X fuel path (a ++ w' ++ b) s.
Proof.
  intros X fuel path a w w' b ta tl errs s C C' L S Cl N N' W W' B Nb.
  assert (exists blank, Filled false blank w /\ Filled false blank w') as (blank & F & F').
  { destruct (blank_dec w) as [D|D]; [exists true|exists false]; split; apply filled_white; auto; rewrite <- ?B; split; try tauto; try discriminate. }
  apply (C84_compile_partial X fuel path a w w' b false blank ta tl errs s C C' L S Cl F F' Nb). discriminate.
Qed.
Print Assumptions C84_white.

Lemma short_comment body : ~ In 62%N body -> FirstAfter (lit "-->") body.
Proof.
  intros N a b E. destruct b as [|z b]; [reflexivity|exfalso]. destruct (exists_last (l := z :: b)) as (b0 & y & Eb); [discriminate|]. rewrite Eb in E.
  change (lit "-->") with ([45; 45]%N ++ [62%N]) in E at 1. rewrite !app_assoc in E. apply app_inj_tail in E as [E _].
  assert (In 62%N (body ++ [45; 45]%N)) as I by (rewrite E, !in_app_iff; cbn; tauto). apply in_app_iff in I as [I|I]; [contradiction|]. cbn in I. intuition discriminate.
Qed.
Definition C84_a : str := lit "<b>one</b>".
Definition C84_b : str := lit "two $x".
Definition C84_g : str := lit " ".
(** a space, a comment, a line feed, another comment up to the end of the line, and the line feed after it *)
Definition C84_g' : str := lit " <!-- one -->" ++ [10%N] ++ lit "  # two" ++ [10%N].
Definition C84_toks : list token :=
  [Token LAngle (lit "<") 0 1; Token Name (lit "b") 1 2; Token RAngle (lit ">") 2 3; Token Name (lit "one") 3 6; Token CloseTag (lit "</b>") 6 10].
Lemma C84_line_comment : Filled true false C84_g'.
Proof.
  assert (forall w, Forall White w -> (length (filter (N.eqb 10) w) <= 1) -> (false = true <-> BlankLine w)) as NB.
  { intros w _ L. split; [discriminate|]. intros (a & b & c & ->). rewrite !filter_app in L. cbn in L. rewrite !filter_app in L. cbn in L. rewrite !app_length in L. cbn in L. rewrite app_length in L. cbn in L. lia. }
  assert (forall w, forallb (fun c => existsb (N.eqb c) [32; 9; 10; 12; 13]%N) w = true -> Forall White w) as WH.
  { intros w E. rewrite forallb_forall in E. apply Forall_forall. intros c I. specialize (E c I). apply existsb_exists in E as (d & I' & E). apply N.eqb_eq in E as <-. unfold White. cbn in I'. intuition congruence. }
  change C84_g' with ([32%N] ++ lit "<!--" ++ lit " one " ++ lit "-->" ++ ([10; 32; 32]%N ++ lit "#" ++ lit " two" ++ 10%N :: [])).
  apply (filled_comment true [32%N] (lit " one ") _ false false); [discriminate|apply WH; reflexivity|apply NB; [apply WH; reflexivity|cbn; lia]| |].
  - apply short_comment. cbn. intuition discriminate.
  - apply (filled_line true [10; 32; 32]%N (lit " two") [] false false); [reflexivity|discriminate|apply WH; reflexivity|apply NB; [apply WH; reflexivity|cbn; lia]|cbn; intuition discriminate|].
    apply filled_white; [discriminate|apply WH; reflexivity|apply NB; [apply WH; reflexivity|cbn; lia]].
Qed.

Example C84_nonvacuous : Uncut (C84_a ++ C84_g ++ C84_b) /\ Uncut (C84_a ++ C84_g' ++ C84_b) /\
  (exists tl, Lexes 0 QLeft (C84_a ++ C84_g ++ C84_b) (C84_toks ++ tl) []) /\ Spelled C84_toks = C84_a /\ Closed C84_toks /\
  Filled true false C84_g /\ Filled true false C84_g' /\ Not White C84_b /\ Not QuoteChar C84_b.
Proof.
  split; [apply (tokenize_uncut _ false); vm_compute; discriminate|]. split; [apply (tokenize_uncut _ false); vm_compute; discriminate|]. split; [|split; [reflexivity|split; [|split; [|split; [exact C84_line_comment|]]]]].
  - eexists. apply P_Lex.tokenize_sound. vm_compute. reflexivity.
  - intros before t E. change C84_toks with ([Token LAngle (lit "<") 0 1; Token Name (lit "b") 1 2; Token RAngle (lit ">") 2 3; Token Name (lit "one") 3 6] ++ [Token CloseTag (lit "</b>") 6 10]) in E.
    apply app_inj_tail in E as [_ <-]. split; discriminate.
  - apply filled_white; [discriminate|constructor; [now left|constructor]|]. split; [discriminate|]. intros (x & y & z & E). destruct x as [|? [|? x]]; discriminate.
  - split; intros c t E; injection E as <- <-; unfold White, QuoteChar; lia.
Qed.

(** The proviso about quotation marks is needed: after a comment up to the end of the line, a quotation mark is taken for a
    closing one, although there is white space before it. *)
Definition C84_quoted : str := [34%N] ++ lit "two" ++ [34%N].
Definition C84_noted : str := lit " # note" ++ [10%N].
Theorem C84_quote_refuted : exists a g g' b ta tl,
  Uncut (a ++ g ++ b) /\ Uncut (a ++ g' ++ b) /\
  Lexes 0 QLeft (a ++ g ++ b) (ta ++ tl) [] /\ Spelled ta = a /\ Closed ta /\ Filled true false g /\ Filled true false g' /\ Not White b /\
  (exists h e s, compile (ex_files_X []) 20 (lit "main") (a ++ g ++ b) ex_start = Ok (h, e) s /\
    M_Render.render true h = lit "<p>one " ++ [8220%N] ++ lit "two" ++ [8221%N] ++ lit "</p>") /\
  (exists h e s, compile (ex_files_X []) 20 (lit "main") (a ++ g' ++ b) ex_start = Ok (h, e) s /\
    M_Render.render true h = lit "<p>one " ++ [8221%N] ++ lit "two" ++ [8221%N] ++ lit "</p>").
Proof.
  exists (lit "one"), (lit " "), C84_noted, C84_quoted, [Token Name (lit "one") 0 3]. eexists.
  split; [apply (tokenize_uncut _ false); vm_compute; discriminate|]. split; [apply (tokenize_uncut _ false); vm_compute; discriminate|]. split; [apply P_Lex.tokenize_sound; vm_compute; reflexivity|]. split; [reflexivity|].
  split; [intros before t E; destruct before as [|? [|? before]]; cbn in E; [injection E as <-; split; discriminate|discriminate|discriminate]|].
  assert (forall c, false = true <-> BlankLine [c]) as NB by (intro c; split; [discriminate|]; intros (x & y & z & E); destruct x as [|? [|? x]]; destruct y; discriminate).
  split; [apply filled_white; [discriminate|constructor; [now left|constructor]|apply NB]|]. split.
  { change C84_noted with ([32%N] ++ lit "#" ++ lit " note" ++ 10%N :: []). apply (filled_line true [32%N] (lit " note") [] false false); [reflexivity|discriminate|constructor; [now left|constructor]|apply NB|cbn; intuition discriminate|].
    apply filled_white; [discriminate|constructor; [unfold White; tauto|constructor]|apply NB]. }
  split; [intros c t E; injection E as <- <-; unfold White; lia|].
  split; (eexists; eexists; eexists; split; vm_compute; reflexivity).
Qed.
Print Assumptions C84_quote_refuted.
