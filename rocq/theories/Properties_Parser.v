(** Property theorems C43 and C54 (the parser). [decode] is what the library for entities makes of an entity, [regex_ok] whether
    the library for regular expressions accepts one; it is assumed to accept those made for patterns. *)
From Verif Require Import Base M_Names M_Token M_Tokenizer M_TokenText M_Diag M_Queue M_Ast M_Parser.
From Verif Require Import S_Front S_Escapes S_Grammar S_Parser P_Escape P_Escapes P_ParserSound P_ParserComplete P_ParserLex P_Parser P_ParserEnds.

(** C43: the parser ends without a crash on every source (whose escapes are well formed, see C15), *)
Theorem C43_terminates : forall decode regex_ok path text, (forall ps, regex_ok (regex_text regex_escape ps) = true) ->
  EscapesRead text -> exists ns ds, parse decode regex_ok path text = Ret (ns, ds).
Proof.
  intros decode regex_ok path text R G. destruct (proj1 (escapes_read _) G) as (toks & errs & T & N).
  destruct (parse_total path decode regex_ok R text toks errs T N) as (ns & ds & _ & P & _). eauto.
Qed.
Print Assumptions C43_terminates.
(** that is, it only crashes where the tokenizer crashes (C15_crashes says when) or has complained about an escape, *)
Theorem C15_parser_partial : forall decode regex_ok path text, (forall ps, regex_ok (regex_text regex_escape ps) = true) ->
  parse decode regex_ok path text = Panic ->
  tokenize text true = Panic \/ exists toks errs place, tokenize text true = Ret (toks, errs) /\ In (TokenInvalidEscape, place) errs.
Proof.
  intros decode regex_ok path text R P. destruct (tokenize text true) as [[toks errs]| |] eqn:T; [|now left|unfold parse in P; rewrite T in P; discriminate].
  right. destruct (complained_dec errs) as [(p & I)|N]; [eauto|]. destruct (parse_total path decode regex_ok R text toks errs T N) as (ns & ds & _ & P' & _). congruence.
Qed.
Print Assumptions C15_parser_partial.
(** (escapes being complained about exactly if they cannot be decoded) *)
Theorem C15_decode_exact : forall src strip toks errs tok, tokenize src strip = Ret (toks, errs) -> In tok toks -> tk_kind tok = Escape ->
  ((exists r, unescape_char (tk_text tok) = Ret r) <-> ~ In (TokenInvalidEscape, (tk_start tok, tk_end tok)) errs).
Proof. exact decodes_iff. Qed.
Print Assumptions C15_decode_exact.
(** it comes to an end on every text, also on those it crashes on (C15), *)
Theorem C43_ends : forall decode regex_ok path text, parse decode regex_ok path text <> OutOfFuel.
Proof.
  intros decode regex_ok path text. unfold parse. destruct (tokenize text true) as [r| |] eqn:E; [|discriminate|now apply P_Tokenizer.tokenize_terminates in E].
  cbn [obind]. pose proof (parse_root_ends path decode regex_ok (PState (fst r) (List.map (fun e => SyntaxErr (fst e)) (snd r)))) as H.
  destruct (parse_root _ _ _ _); congruence.
Qed.
Print Assumptions C43_ends.
(** it leaves no token behind, *)
Theorem C43_all_tokens : forall decode regex_ok path toks d, (forall ps, regex_ok (regex_text regex_escape ps) = true) ->
  Forall LexTok toks -> exists ns ds, parse_root path decode regex_ok (PState toks d) = POk ns (PState [] (d ++ ds)).
Proof. intros decode regex_ok path toks d R X. destruct (parse_root_total path decode regex_ok R toks d X) as (ns & ds & H & _). eauto. Qed.
Print Assumptions C43_all_tokens.
(** each of its parts takes the tokens in order and only gives up with an error (a node or an expression is read after its
    first token has been taken), *)
Theorem C43_in_order : forall decode regex_ok path n toks d t, (forall ps, regex_ok (regex_text regex_escape ps) = true) ->
  Forall LexTok (t :: toks) -> length (t :: toks) < n ->
  Takes toks d (r_node (parsers_n path decode regex_ok n) t (PState toks d)) /\
  Takes toks d (r_expr_tok (parsers_n path decode regex_ok n) t (PState toks d)) /\
  Takes (t :: toks) d (r_pattern (parsers_n path decode regex_ok n) (PState (t :: toks) d)).
Proof.
  intros decode regex_ok path n toks d t R X L. destruct (parsers_spec path decode regex_ok R n) as (HE & HP & HN). inversion X; subst. cbn in L.
  split; [|split]; (eapply spec_takes; [eauto|eauto|cbn; Lia.lia]).
Qed.
Print Assumptions C43_in_order.
(** and either some error is reported, or all tokens, from first to last, make up a document of the grammar. *)
Theorem C43_accounted : forall decode regex_ok path toks d ns ds, (forall ps, regex_ok (regex_text regex_escape ps) = true) ->
  Forall LexTok toks -> parse_root path decode regex_ok (PState toks d) = POk ns (PState [] (d ++ ds)) ->
  NoErrors ds -> Document path decode regex_escape toks ns.
Proof.
  intros decode regex_ok path toks d ns ds R X P N. destruct (parse_root_total path decode regex_ok R toks d X) as (ns' & ds' & H & D).
  rewrite H in P. injection P as -> E. apply app_inv_head in E. subst. apply D, clean_spec. auto.
Qed.
Print Assumptions C43_accounted.
(** The tokens of a source satisfy the hypothesis. *)
Theorem C43_lexemes : forall text toks errs, tokenize text true = Ret (toks, errs) ->
  (forall place, ~ In (TokenInvalidEscape, place) errs) -> Forall LexTok toks.
Proof. exact token_lexeme. Qed.
Print Assumptions C43_lexemes.

(** C54: the parser accepts exactly the documents of the grammar, *)
Theorem C54_accepts : forall decode regex_ok path text ns, (forall ps, regex_ok (regex_text regex_escape ps) = true) ->
  (exists ds, parse decode regex_ok path text = Ret (ns, ds) /\ NoErrors ds) <->
  (exists toks, tokenize text true = Ret (toks, []) /\ Document path decode regex_escape toks ns).
Proof. intros decode regex_ok path text ns R. apply parse_accepts; auto. Qed.
Print Assumptions C54_accepts.
(** and each has one syntax tree only. *)
Theorem C54_unambiguous : forall decode path toks ns ns', Forall LexTok toks ->
  Document path decode regex_escape toks ns -> Document path decode regex_escape toks ns' -> ns = ns'.
Proof. intros decode path toks ns ns' X D D'. eapply (document_unique path decode (fun _ => true)); eauto. Qed.
Print Assumptions C54_unambiguous.

(** The text of a pattern with names in it, made part of a regular expression, stands for itself only. *)
Theorem C54_pattern_text : forall s, Literal (regex_escape s) s /\ forall s', Literal (regex_escape s) s' -> s' = s.
Proof. intro s. pose proof (regex_escape_literal s) as H. split; [exact H|]. intros s' H'. exact (literal_unique _ _ _ H' H). Qed.
Print Assumptions C54_pattern_text.

Definition C43_sample : str := lit "Some <b title=""x"">bold &amp; text</b>, @let(x=[1, *$l]) {@f($x, k=.) ... and
@match $x {[1, $y:int] -> $y, ""a $z"" | $z -> {\x41 $z}}}".
Definition C43_decode (s : str) : str := [38%N].
Example C43_nonvacuous : EscapesRead C43_sample /\
  exists toks ns, tokenize C43_sample true = Ret (toks, []) /\ length ns = 6 /\ Document (lit "a") C43_decode regex_escape toks ns.
Proof.
  assert (exists ns ds, parse C43_decode (fun _ => true) (lit "a") C43_sample = Ret (ns, ds) /\ length ns = 6 /\ NoErrors ds) as (ns & ds & P & L & N).
  { do 2 eexists. split; [vm_compute; reflexivity|]. split; [reflexivity|constructor]. }
  destruct (proj1 (C54_accepts C43_decode (fun _ => true) (lit "a") C43_sample ns (fun _ => eq_refl))) as (toks & T & D); [eauto|].
  split; [apply escapes_read; exists toks, []; split; [exact T|intros ? []]|eauto].
Qed.
(** Backslashes in comments and verbatim text are no escapes; a backslash at the end of a line is a malformed one, and crashes. *)
Example C15_parser_nonvacuous : EscapesRead (lit "`\x` <!-- \u --> \n") /\
  parse C43_decode (fun _ => true) (lit "a") [92%N; 10%N] = Panic /\ exists toks errs, tokenize [92%N; 10%N] true = Ret (toks, errs) /\ errs = [(TokenInvalidEscape, (0, 1))].
Proof.
  split; [apply escapes_read; do 2 eexists; split; [vm_compute; reflexivity|intros ? []]|]. split; [vm_compute; reflexivity|].
  do 2 eexists. split; [vm_compute; reflexivity|reflexivity].
Qed.
(** Not every malformed escape makes the parser crash: one where no text may be is reported, and not decoded. *)
Example C15_parser_skipped : exists toks errs ns ds, tokenize (lit "@f(\x)") true = Ret (toks, errs) /\ errs = [(TokenInvalidEscape, (3, 5))] /\
  parse C43_decode (fun _ => true) (lit "a") (lit "@f(\x)") = Ret (ns, ds).
Proof. do 4 eexists. split; [vm_compute; reflexivity|]. split; [reflexivity|vm_compute; reflexivity]. Qed.
Example C54_nonvacuous : let text := lit "@let(x=1, x=2) $x }" in
  exists ns, parse C43_decode (fun _ => true) (lit "a") text = Ret (ns, [SyntaxErr (ArgDuplicateName (lit "x")); SyntaxErr (TokenUnmatched RBrace)]).
Proof. eexists. vm_compute. reflexivity. Qed.
Example C54_pattern_text_nonvacuous : regex_escape (lit "a.b") = lit "a\.b".
Proof. reflexivity. Qed.
