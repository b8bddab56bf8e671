(** Property theorems C86 for texts: two texts with a blank line between them. *)
From Verif Require Import Base M_Text M_Names M_TagInfo M_Html M_Sequence M_Types M_Token M_Tokenizer M_Diag M_Ast M_Value M_State M_Matcher M_Binder M_Native M_Parser M_Eval
  S_Html S_Text S_Parser S_Lex S_Refill S_Trail S_Join S_Expr S_Example S_Sequence P_Expr2 P_Blank P_JoinText Properties_Blank.

(** Two texts that are parsed without errors, with a blank line between them, which may have comments in it: the syntax tree is that
    of the first text, a paragraph break, and that of the second, and the warnings are those of the one and then of the other.
    The first text does not end in white space, a comment or a character written as an escape sequence or an entity; the second does
    not begin with white space or a comment; and there is no ... in either of them. *)
Theorem C86_parse : forall decode regex_ok path text1 gap text2 lines toks1 toks2 errs2 nodes1 ds1 nodes2 ds2,
  Lexes 0 QLeft text1 toks1 [] -> EndsSolid toks1 -> EndsPlain toks1 -> NoDots toks1 ->
  Lexes 0 QLeft text2 toks2 errs2 -> StartsSolid toks2 -> NoDots toks2 ->
  Filled lines true gap -> Not S_Lex.White text2 -> (lines = true -> Not QuoteChar text2) ->
  parse decode regex_ok path text1 = Ret (nodes1, ds1) -> NoErrors ds1 -> nodes1 <> [] ->
  parse decode regex_ok path text2 = Ret (nodes2, ds2) -> NoErrors ds2 -> nodes2 <> [] ->
  parse decode regex_ok path (text1 ++ gap ++ text2) = Ret (nodes1 ++ AParagraphBreak :: nodes2, ds1 ++ ds2).
Proof. exact join_parse. Qed.
Print Assumptions C86_parse.

(** So if the whole compiles, then the first text compiles by itself, and its document is the beginning of the document; the
    rest is what the second text makes in the state which the first leaves. *)
Theorem C86_compile : forall X fuel path text1 gap text2 lines toks1 toks2 errs2 nodes1 ds1 nodes2 s h ex s',
  Lexes 0 QLeft text1 toks1 [] -> EndsSolid toks1 -> EndsPlain toks1 -> NoDots toks1 ->
  Lexes 0 QLeft text2 toks2 errs2 -> StartsSolid toks2 -> NoDots toks2 ->
  Filled lines true gap -> Not S_Lex.White text2 -> (lines = true -> Not QuoteChar text2) ->
  parse_source X path text1 = Ret (nodes1, ds1) -> NoErrors ds1 -> nodes1 <> [] ->
  parse_source X path text2 = Ret (nodes2, []) -> nodes2 <> [] ->
  compile X fuel path (text1 ++ gap ++ text2) s = Ok (h, ex) s' ->
  exists hs1 s1 hs2 s2,
  (exists fuel1, compile X fuel1 path text1 s = Ok (from_iter hs1, st_exports s1) (set_stack (st_stack s) (set_exports (st_exports s) s1))) /\
  Makes X (RequireBlock (lit "p")) None nodes2 s1 (from_iter hs2) s2 /\ h = from_iter (hs1 ++ hs2) /\ ex = st_exports s2.
Proof.
  intros X fuel path text1 gap text2 lines toks1 toks2 errs2 nodes1 ds1 nodes2 s h ex s' L1 S1 E1 D1 L2 S2 D2 F W Q P1 N1 Z1 P2 Z2 C.
  assert (N2 : NoErrors []) by constructor. pose proof (C86_parse _ _ _ _ _ _ _ _ _ _ _ _ _ _ L1 S1 E1 D1 L2 S2 D2 F W Q P1 N1 Z1 P2 N2 Z2) as P. rewrite app_nil_r in P.
  destruct (C86_document X fuel path _ s h ex s' nodes1 nodes2 ds1 C P) as (hs1 & s1 & hs2 & s2 & M1 & M2 & H & E). exists hs1, s1, hs2, s2. split; [|auto].
  apply document_spec. exact (document_of X path text1 s nodes1 ds1 _ s1 P1 M1).
Qed.
Print Assumptions C86_compile.

Definition C86_first : str := lit "a <b>c</b>@let(x=2) $x".
Definition C86_gap : str := [10%N] ++ lit "<!--" ++ lit " b " ++ lit "-->" ++ [10; 32; 10]%N.
Definition C86_second : str := lit "<div>$z d</div> e".
Lemma solid_b toks : forallb (fun t => negb (kind_eqb (tk_kind t) Comment || kind_eqb (tk_kind t) Whitespace || kind_eqb (tk_kind t) Newline || kind_eqb (tk_kind t) Escape || kind_eqb (tk_kind t) Entity)) (skipn (pred (length toks)) toks) = true ->
  EndsSolid toks /\ EndsPlain toks.
Proof.
  intro S. split; intros before t ->; rewrite app_length, Nat.add_1_r in S; cbn [pred] in S; rewrite skipn_app, skipn_all, Nat.sub_diag in S; cbn in S; destruct (tk_kind t); try discriminate; repeat split; discriminate.
Qed.
Lemma no_dots_b toks : forallb (fun t => negb (kind_eqb (tk_kind t) Ellipsis)) toks = true -> NoDots toks.
Proof. intros D t I K. rewrite forallb_forall in D. specialize (D t I). rewrite K in D. discriminate D. Qed.
Lemma starts_b t toks : tk_kind t = LAngle -> StartsSolid (t :: toks).
Proof. intros K u after E. injection E as <- _. rewrite K. repeat split; discriminate. Qed.
Example C86_texts_nonvacuous : exists toks1 toks2 nodes1 nodes2 h ex s',
  Lexes 0 QLeft C86_first toks1 [] /\ EndsSolid toks1 /\ EndsPlain toks1 /\ NoDots toks1 /\
  Lexes 0 QLeft C86_second toks2 [] /\ StartsSolid toks2 /\ NoDots toks2 /\
  Filled false true C86_gap /\ Not S_Lex.White C86_second /\
  parse_source ex_X (lit "m") C86_first = Ret (nodes1, []) /\ nodes1 <> [] /\ parse_source ex_X (lit "m") C86_second = Ret (nodes2, []) /\ nodes2 <> [] /\
  compile ex_X 10 (lit "m") (C86_first ++ C86_gap ++ C86_second) ex_start = Ok (h, ex) s'.
Proof.
  assert (exists toks, tokenize C86_first false = Ret (toks, []) /\ forallb (fun t => negb (kind_eqb (tk_kind t) Ellipsis)) toks = true /\
    forallb (fun t => negb (kind_eqb (tk_kind t) Comment || kind_eqb (tk_kind t) Whitespace || kind_eqb (tk_kind t) Newline || kind_eqb (tk_kind t) Escape || kind_eqb (tk_kind t) Entity)) (skipn (pred (length toks)) toks) = true) as (toks1 & T1 & D1 & S1)
    by (eexists; split; [vm_compute; reflexivity|split; reflexivity]).
  assert (exists t toks, tokenize C86_second false = Ret (t :: toks, []) /\ forallb (fun t => negb (kind_eqb (tk_kind t) Ellipsis)) (t :: toks) = true /\ tk_kind t = LAngle) as (t2 & toks2 & T2 & D2 & K2)
    by (eexists _, _; split; [vm_compute; reflexivity|split; reflexivity]).
  assert (exists nodes, parse_source ex_X (lit "m") C86_first = Ret (nodes, []) /\ nodes <> []) as (n1 & P1 & N1) by (eexists; split; [vm_compute; reflexivity|discriminate]).
  assert (exists nodes, parse_source ex_X (lit "m") C86_second = Ret (nodes, []) /\ nodes <> []) as (n2 & P2 & N2) by (eexists; split; [vm_compute; reflexivity|discriminate]).
  assert (exists h ex s', compile ex_X 10 (lit "m") (C86_first ++ C86_gap ++ C86_second) ex_start = Ok (h, ex) s') as (h & ex & s' & C) by (eexists _, _, _; vm_compute; reflexivity).
  exists toks1, (t2 :: toks2), n1, n2, h, ex, s'. destruct (solid_b _ S1) as (A & B).
  split; [exact (P_Lex.tokenize_sound _ _ _ T1)|]. split; [exact A|]. split; [exact B|]. split; [exact (no_dots_b _ D1)|].
  split; [exact (P_Lex.tokenize_sound _ _ _ T2)|]. split; [exact (starts_b _ _ K2)|].
  split; [exact (no_dots_b _ D2)|].
  split; [|split; [|exact (conj P1 (conj N1 (conj P2 (conj N2 C))))]].
  - clear. unfold C86_gap. change true with (false || true). apply filled_comment.
    + discriminate.
    + constructor; [unfold S_Lex.White; tauto|constructor].
    + split; [discriminate|]. intros (x & y & z & E). destruct x as [|? [|? x]]; destruct y; discriminate.
    + intros a b E. destruct a as [|c1 [|c2 [|c3 a]]]; cbn in E; try discriminate E. injection E as _ _ _ E. apply (f_equal (@length N)) in E. rewrite !app_length in E. cbn in E. destruct b; [reflexivity|cbn in E; lia].
    + apply filled_white; [discriminate|repeat (constructor; [unfold S_Lex.White; tauto|]); constructor|]. split; [intros _; now exists [], [32%N], []|reflexivity].
  - clear. intros c r E. injection E as <- _. unfold S_Lex.White. intuition discriminate.
Qed.

(** A space written as an escape sequence at the end of the first text is not part of its tree, but is part of the tree of the whole. *)
Theorem C86_plain_matters : exists text1 gap text2 nodes1 nodes2 nodes,
  parse_source ex_X (lit "m") text1 = Ret (nodes1, []) /\ parse_source ex_X (lit "m") text2 = Ret (nodes2, []) /\ Filled false true gap /\
  parse_source ex_X (lit "m") (text1 ++ gap ++ text2) = Ret (nodes, []) /\ nodes <> nodes1 ++ AParagraphBreak :: nodes2.
Proof.
  exists (lit "a\x20"), [10; 10]%N, (lit "b"). eexists _, _, _. split; [vm_compute; reflexivity|]. split; [vm_compute; reflexivity|]. split; [|split; [vm_compute; reflexivity|discriminate]].
  apply filled_white; [discriminate|repeat (constructor; [unfold S_Lex.White; tauto|]); constructor|]. split; [intros _; now exists [], [], []|reflexivity].
Qed.
Print Assumptions C86_plain_matters.
