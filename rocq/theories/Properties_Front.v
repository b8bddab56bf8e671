(** Property theorems C12-C15 and C44-C46 (tokens, escapes, number literals, substitutions). *)
From Verif Require Import Base BaseFacts M_Token M_Tokenizer M_TokenText M_TextSubs S_Front S_TextSubs
  P_Tokenizer P_Front P_Escape P_TextSubs.

(** C12 *)
Theorem C12_tokens_tile : forall src toks errs, tokenize src false = Ret (toks, errs) -> Tiles 0 src toks.
Proof. exact tokenize_tiles. Qed.
Print Assumptions C12_tokens_tile.
Theorem C12_tokens_concat : forall src toks errs, tokenize src false = Ret (toks, errs) ->
  List.concat (map tk_text toks) = src.
Proof. intros src toks errs H. eapply tiles_concat, tokenize_tiles, H. Qed.
Print Assumptions C12_tokens_concat.
Theorem C12_terminates : forall src strip, tokenize src strip <> OutOfFuel.
Proof. exact tokenize_terminates. Qed.
Print Assumptions C12_terminates.
(** Whatever the mode, the text of a token is the source text at its span. *)
Theorem C12_token_text : forall src strip toks errs tok, tokenize src strip = Ret (toks, errs) -> In tok toks ->
  exists before after, src = before ++ tk_text tok ++ after /\
    tk_start tok = blen before /\ tk_end tok = blen (before ++ tk_text tok).
Proof.
  intros src strip toks errs tok H Hin.
  destruct (token_at _ _ _ _ _ H Hin) as (b & a & len & k & err & d & E1 & E2 & E3 & _).
  exists b, a. rewrite blen_app, <- E2. auto.
Qed.
Print Assumptions C12_token_text.
(** The kind of a punctuation or keyword token says what its text is. *)
Theorem C12_punctuation : forall src strip toks errs tok, tokenize src strip = Ret (toks, errs) -> In tok toks ->
  fixed_text (tk_kind tok) <> [] -> In (tk_text tok) (fixed_text (tk_kind tok)).
Proof. exact token_fixed. Qed.
Print Assumptions C12_punctuation.
Definition C12_sample : str := lit "a <b>`x`</b> # note
  $v::1 -12".
Example C12_nonvacuous : exists toks, tokenize C12_sample false = Ret (toks, []) /\ length toks = 14.
Proof. eexists. split; [vm_compute; reflexivity|reflexivity]. Qed.

(** C13 *)
Theorem C13_stripped : forall src all errs toks errs',
  tokenize src false = Ret (all, errs) -> tokenize src true = Ret (toks, errs') -> Stripped all toks /\ errs' = errs.
Proof. exact tokenize_stripped. Qed.
Print Assumptions C13_stripped.
Theorem C13_whitespace_normal : forall src toks errs, tokenize src true = Ret (toks, errs) ->
  Forall (fun t => tk_kind t <> Comment) toks /\ NoAdjacentWhite toks.
Proof.
  intros src toks errs H. destruct (tokenize_both src true false) as [[all errs'] H']; [now exists (toks, errs)|].
  destruct (tokenize_stripped _ _ _ _ _ H' H) as [St _]. eapply stripped_facts; exact St.
Qed.
Print Assumptions C13_whitespace_normal.
Theorem C13_significant_kept : forall src all errs toks errs',
  tokenize src false = Ret (all, errs) -> tokenize src true = Ret (toks, errs') ->
  filter significant_b toks = filter significant_b all.
Proof. intros src all errs toks errs' H H'. eapply stripped_significant, tokenize_stripped; eassumption. Qed.
Print Assumptions C13_significant_kept.
Definition C13_sample : str := lit "a  <!-- x --> <!-- y -->

# z

b".
Example C13_nonvacuous : exists all toks,
  tokenize C13_sample false = Ret (all, []) /\ tokenize C13_sample true = Ret (toks, []) /\
  map tk_kind all = [Name; Whitespace; Comment; Whitespace; Comment; Newline; Comment; Newline; Name] /\
  map tk_kind toks = [Name; Newline; Name].
Proof. do 2 eexists. repeat split; vm_compute; reflexivity. Qed.

(** C14, in any context where a token starts at the opening delimiter. *)
Theorem C14_verbatim : forall n w before after strip toks errs tok,
  1 <= n -> VerbatimBody n w -> n >= 3 \/ ~ In 10%N w -> (forall t, after <> 96%N :: t) ->
  tokenize (before ++ ticks n ++ w ++ ticks n ++ after) strip = Ret (toks, errs) ->
  In tok toks -> tk_start tok = blen before ->
  (exists k, tk_kind tok = Verbatim k) /\ tk_text tok = ticks n ++ w ++ ticks n /\
  get_verbatim_text (tk_text tok) = w /\ (forall e r, ~ In (e, (tk_start tok, r)) errs).
Proof. exact verbatim_token. Qed.
Print Assumptions C14_verbatim.
Definition C14_body : str := lit "a `b` \n &lt; <!-- $x".
Example C14_nonvacuous : VerbatimBody 2 C14_body /\ exists toks tok,
  tokenize (lit "x " ++ ticks 2 ++ C14_body ++ ticks 2 ++ lit " y") true = Ret (toks, []) /\
  In tok toks /\ tk_start tok = blen (lit "x ").
Proof.
  split.
  - assert (L : forall s, ticks 2 ++ s = 96%N :: 96%N :: s) by reflexivity.
    split; [discriminate|]. split; [|split].
    + intros a b. rewrite L. cbn. intros E.
      repeat (destruct a as [|? a]; [cbn in E; discriminate E|cbn in E; injection E as _ E]). destruct a; discriminate E.
    + intros t; discriminate.
    + intros t E. apply (f_equal (@rev N)) in E. rewrite rev_app_distr in E. discriminate E.
  - do 2 eexists. split; [vm_compute; reflexivity|]. split; [right; right; left; reflexivity|reflexivity].
Qed.

(** C15 is false. Tokenizing can crash on a non-ASCII character within the digits of a numeric escape ... *)
Theorem C15_tokenize_refuted : exists src, tokenize src true = Panic.
Proof. exists (lit "\x1" ++ [233%N]). vm_compute. reflexivity. Qed.
Print Assumptions C15_tokenize_refuted.
(** ... and although malformed escapes are reported, decoding the token then crashes: a numeric escape with missing digits
    and a backslash at the end of a line. *)
Theorem C15_decode_refuted : exists src src' tok tok' e e',
  tokenize src true = Ret ([tok], [e]) /\ tk_kind tok = Escape /\ unescape_char (tk_text tok) = Panic /\
  (exists rest, tokenize src' true = Ret (tok' :: rest, [e'])) /\ tk_kind tok' = Escape /\
  unescape_char (tk_text tok') = Panic.
Proof.
  exists (lit "\x"), [92%N; 10%N]. do 4 eexists. split; [vm_compute; reflexivity|]. split; [reflexivity|].
  split; [reflexivity|]. split; [eexists; vm_compute; reflexivity|]. split; reflexivity.
Qed.
Print Assumptions C15_decode_refuted.
(** These are the only crashes: sources whose backslashes are followed by complete escapes are tokenized, and all their
    escapes decode. (Numbers and entities never crash: their decoding is total, C44/C45.) *)
Theorem C15_no_crash_partial : forall src strip,
  (forall before after, src = before ++ 92%N :: after -> GoodEscape after) ->
  exists toks errs, tokenize src strip = Ret (toks, errs) /\
    forall tok, In tok toks -> tk_kind tok = Escape -> exists c e, unescape_char (tk_text tok) = Ret (c, e).
Proof.
  intros src strip H. destruct (no_crash src strip H) as (toks & errs & E & U). exists toks, errs. split; [exact E|].
  intros tok Hin Hk. destruct (U tok Hin Hk) as [[c e] R]. now exists c, e.
Qed.
Print Assumptions C15_no_crash_partial.
Example C15_nonvacuous : forall before after, (lit "a\n\xAF\u" ++ lit "12abc") = before ++ 92%N :: after -> GoodEscape after.
Proof. apply escapes_ok_spec. reflexivity. Qed.

(** C44. Numeric escapes are one token, without diagnostic, and decode to the character with that code; surrogates and
    codes beyond Unicode are reported and replaced. *)
Theorem C44_numeric : forall c n digits code before after strip toks errs tok,
  EscapeDigits c n -> length digits = n -> HexValue digits code ->
  tokenize (before ++ (92%N :: c :: digits) ++ after) strip = Ret (toks, errs) ->
  In tok toks -> tk_start tok = blen before ->
  tk_kind tok = Escape /\ tk_text tok = 92%N :: c :: digits /\ (forall e r, ~ In (e, (tk_start tok, r)) errs) /\
  (~ Surrogate code -> (code < 1114112)%N -> unescape_char (tk_text tok) = Ret (code, None)) /\
  (Surrogate code \/ (1114112 <= code)%N ->
     unescape_char (tk_text tok) = Ret (65533%N, Some TokenInvalidEscape)).
Proof.
  intros c n digits code before after strip toks errs tok D L H HT Hin Hst.
  destruct (escape_token c digits before after strip toks errs tok) as (K & T & Er); auto.
  - destruct D; discriminate.
  - left. exists n. split; [exact D|]. split; [exact L|]. eapply hex_value_digits; exact H.
  - split; [exact K|]. split; [exact T|]. split; [exact Er|]. rewrite T, (unescape_numeric _ _ _ _ D L H). unfold Surrogate.
    split; intros; destruct (_ || _) eqn:B; auto; lia.
Qed.
Print Assumptions C44_numeric.
(** Other escapes: [n] and [t] are control characters, anything else stands for itself. *)
Theorem C44_simple : forall c before after strip toks errs tok,
  c <> 10%N -> (forall n, ~ EscapeDigits c n) ->
  tokenize (before ++ [92%N; c] ++ after) strip = Ret (toks, errs) -> In tok toks -> tk_start tok = blen before ->
  tk_kind tok = Escape /\ tk_text tok = [92%N; c] /\ (forall e r, ~ In (e, (tk_start tok, r)) errs) /\
  (c = 110%N -> unescape_char (tk_text tok) = Ret (10%N, None)) /\
  (c = 116%N -> unescape_char (tk_text tok) = Ret (9%N, None)) /\
  (c <> 110%N -> c <> 116%N -> unescape_char (tk_text tok) = Ret (c, None)).
Proof.
  intros c before after strip toks errs tok Hc Hn HT Hin Hst.
  destruct (escape_token c [] before after strip toks errs tok) as (K & T & Er); auto.
  split; [exact K|]. split; [exact T|]. split; [exact Er|]. rewrite T, (unescape_other _ Hn).
  destruct (N.eqb_spec c 110), (N.eqb_spec c 116); repeat split; intros; congruence.
Qed.
Print Assumptions C44_simple.
Example C44_nonvacuous : HexValue (lit "12aB") 4779 /\ exists toks tok,
  tokenize (lit "x\u" ++ lit "12aBz") true = Ret (toks, []) /\ In tok toks /\ tk_start tok = blen (lit "x") /\
  unescape_char (tk_text tok) = Ret (4779%N, None).
Proof.
  split.
  - apply (HV_snoc (lit "12a") 298 66 11); [|apply (Hex_up 11); lia].
    apply (HV_snoc (lit "12") 18 97 10); [|apply (Hex_low 10); lia].
    apply (HV_snoc (lit "1") 1 50 2); [|apply (Hex_num 2); lia].
    apply (HV_snoc [] 0 49 1); [constructor|apply (Hex_num 1); lia].
  - do 2 eexists. split; [vm_compute; reflexivity|]. split; [right; left; reflexivity|]. split; reflexivity.
Qed.

(** C45. The decimal spelling of any integer is one number token and denotes it if it fits in 64 bits ... *)
Theorem C45_literal : forall z before after strip toks errs tok,
  (forall c t, after = c :: t -> is_ascii_digit c = false) ->
  tokenize (before ++ zdec z ++ after) strip = Ret (toks, errs) -> In tok toks -> tk_start tok = blen before ->
  tk_kind tok = Number /\ tk_text tok = zdec z /\ (forall e r, ~ In (e, (tk_start tok, r)) errs) /\
  ((- 2 ^ 63 <= z < 2 ^ 63)%Z -> parse_number (tk_text tok) = inl z) /\
  (~ (- 2 ^ 63 <= z < 2 ^ 63)%Z -> parse_number (tk_text tok) = inr TokenInvalidNumber).
Proof.
  intros z before after strip toks errs tok Ha HT Hin Hst.
  destruct (number_token (zdec z) before after strip toks errs tok) as (K & T & Er); auto; [apply zdec_number|].
  split; [exact K|]. split; [exact T|]. split; [exact Er|]. rewrite T. unfold parse_number. rewrite parse_zdec, <- in_i64_spec.
  destruct (in_i64 z); split; intros H; try reflexivity; [now destruct H|discriminate].
Qed.
Print Assumptions C45_literal.
(** ... and so is any digit string, leading zeros included. *)
Theorem C45_value : forall digits n, DecValue digits n -> digits <> [] ->
  ((n < 2 ^ 63)%N -> parse_number digits = inl (Z.of_N n)) /\
  ((2 ^ 63 <= n)%N -> parse_number digits = inr TokenInvalidNumber) /\
  ((n <= 2 ^ 63)%N -> parse_number (45%N :: digits) = inl (- Z.of_N n)%Z) /\
  ((2 ^ 63 < n)%N -> parse_number (45%N :: digits) = inr TokenInvalidNumber).
Proof.
  intros digits n H Hne. destruct (parse_i64_spec digits n H Hne) as [P Q]. unfold parse_number. rewrite P, Q.
  change (2 ^ 63)%N with 9223372036854775808%N.
  destruct (in_i64 (Z.of_N n)) eqn:E1, (in_i64 (- Z.of_N n)) eqn:E2; unfold in_i64, i64_min, i64_max in E1, E2;
    (split; [|split; [|split]]); intros; try reflexivity; lia.
Qed.
Print Assumptions C45_value.
Example C45_nonvacuous :
  parse_number (zdec (-9223372036854775808)) = inl (-9223372036854775808)%Z /\
  parse_number (zdec 9223372036854775808) = inr TokenInvalidNumber /\
  exists toks tok, tokenize (lit "a " ++ zdec (-9223372036854775808) ++ lit "]") true = Ret (toks, []) /\
    In tok toks /\ tk_start tok = blen (lit "a ").
Proof.
  split; [reflexivity|]. split; [reflexivity|]. do 2 eexists. split; [vm_compute; reflexivity|].
  split; [right; right; left; reflexivity|reflexivity].
Qed.

(** C46 *)
Theorem C46_substitutions : forall s out, substitutions s = out <-> Substituted s out.
Proof. exact substitutions_spec. Qed.
Print Assumptions C46_substitutions.
Theorem C46_unchanged : forall s, (forall p r, Documented p r -> ~ Contains p s) -> substitutions s = s.
Proof. exact unchanged. Qed.
Print Assumptions C46_unchanged.
(** None of the sequences is left, so applying the substitutions again changes nothing. *)
Theorem C46_none_left : forall s p r, Documented p r -> ~ Contains p (substitutions s).
Proof. intros s p r D. eapply no_sequence_left; [apply substituted_ok|exact D]. Qed.
Print Assumptions C46_none_left.
Theorem C46_idempotent : forall s, substitutions (substitutions s) = substitutions s.
Proof. exact substitutions_idem. Qed.
Print Assumptions C46_idempotent.
Example C46_nonvacuous :
  substitutions (lit "a----1 <-> <-- +/-2 (c)") =
  lit "a" ++ [8212%N] ++ [8722%N] ++ lit "1 " ++ [8596%N] ++ lit " " ++ [8592%N] ++ lit "- " ++ [177%N] ++ lit "2 " ++ [169%N].
Proof. vm_compute. reflexivity. Qed.
