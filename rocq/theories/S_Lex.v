(** The lexical grammar of Papyri: which texts are tokens, of which kind, and with which complaint. Independent of the
    tokenizer: characters are given by code points, texts by their shape, "longest" by what may not follow. *)
From Verif Require Import Base M_Token S_Text.

Definition White (c : N) : Prop := c = 32%N \/ c = 9%N \/ c = 10%N \/ c = 12%N \/ c = 13%N.
Definition Digit (c : N) : Prop := (48 <= c <= 57)%N.
Definition HexDigitChar (c : N) : Prop := Digit c \/ (97 <= c <= 102)%N \/ (65 <= c <= 70)%N.
(** The characters with a meaning of their own. *)
Definition special : str := lit "()[]{}<>.,-=:*!?/|#@$&\`'""".
Definition Raw (c : N) : Prop := ~ In c special /\ ~ LetterOrDigit c /\ ~ White c.
(** The text does not begin with a character of the class. *)
Definition Not (P : N -> Prop) (s : str) : Prop := forall c t, s = c :: t -> ~ P c.
Definition NotText (p s : str) : Prop := forall t, s <> p ++ t.
(** [p] occurs in [s]. *)
Definition Occurs (p s : str) : Prop := exists a b, s = a ++ p ++ b.
(** [p] occurs in [s ++ p] nowhere but at the end. *)
Definition FirstAfter (p s : str) : Prop := forall a b, s ++ p = a ++ p ++ b -> b = [].
(** A blank line: at least two line feeds. *)
Definition BlankLine (s : str) : Prop := exists a b c, s = a ++ 10%N :: b ++ 10%N :: c.

Inductive NameKind : str -> token_kind -> Prop :=
| nk_true : NameKind (lit "True") (Boolean true)
| nk_false : NameKind (lit "False") (Boolean false)
| nk_underscore : NameKind (lit "_") Underscore
| nk_other w : ~ In w [lit "True"; lit "False"; lit "_"] -> NameKind w Name.
Inductive AtKind : str -> token_kind -> Prop :=
| ak_export : AtKind (lit "export") (Kw KExport)
| ak_fn : AtKind (lit "fn") (Kw KFn)
| ak_implicit : AtKind (lit "implicit") (Kw KImplicit)
| ak_let : AtKind (lit "let") (Kw KLet)
| ak_match : AtKind (lit "match") (Kw KMatch)
| ak_other w : ~ In w [lit "export"; lit "fn"; lit "implicit"; lit "let"; lit "match"] -> AtKind w FuncName.
(** Punctuation, and what may not follow it. *)
Definition punctuation : list (str * list str * token_kind) :=
  [ (lit "(", [], LPar); (lit ")", [], RPar); (lit "[", [], LSqb); (lit "]", [], RSqb); (lit "{", [], LBrace); (lit "}", [], RBrace);
    (lit "<", [lit "!--"; lit "/"], LAngle); (lit ">", [], RAngle); (lit "/>", [], RAngle);
    (lit "->", [], Arrow); (lit "|", [], Bar); (lit ",", [], Comma); (lit "=", [], Equals); (lit "!", [], ExclamationMark);
    (lit "*", [lit "*"], Asterisk); (lit "**", [], DoubleAsterisk); (lit ":", [lit ":"], Colon); (lit "::", [], DoubleColon);
    (lit "?", [lit "::"], QuestionMark); (lit "?::", [], QuestionMarkDoubleColon);
    (lit ".", [lit ".."], Dot); (lit "...", [], Ellipsis) ].
(** Numeric escapes: the letter, and how many hexadecimal digits follow. *)
Definition numeric_escapes : list (N * nat) := [(120%N, 2); (117%N, 4); (85%N, 8)].

(** [Lexeme dir text rest kind complaint]: [text], when followed by [rest], is a token; quotes point as [dir] says. *)
Inductive Lexeme (dir : quote_dir) : str -> str -> token_kind -> option syntax_error -> Prop :=
(** a comment up to the end of the line takes the line break and indentation after it along, but not a blank line *)
| lx_line_comment line gap rest : ~ In 10%N line -> Forall White gap -> Not White rest -> Not (fun c => c <> 10%N) (gap ++ rest) ->
    ~ BlankLine gap -> Lexeme dir (35%N :: line ++ gap) rest Comment None
| lx_line_comment_blank line gap rest : ~ In 10%N line -> Forall White gap -> Not White rest -> Not (fun c => c <> 10%N) (gap ++ rest) ->
    BlankLine gap -> Lexeme dir (35%N :: line) (gap ++ rest) Comment None
| lx_comment body rest : FirstAfter (lit "-->") body -> Lexeme dir (lit "<!--" ++ body ++ lit "-->") rest Comment None
| lx_comment_open body : ~ Occurs (lit "-->") body -> Lexeme dir (lit "<!--" ++ body) [] Comment None
| lx_blank w rest : Forall White w -> Not White rest -> BlankLine w -> Lexeme dir w rest Newline None
| lx_space w rest : w <> [] -> Forall White w -> Not White rest -> ~ BlankLine w -> Lexeme dir w rest Whitespace None
| lx_name w k rest : Identifier w -> Not LetterOrDigit rest -> NameKind w k -> Lexeme dir w rest k None
| lx_variable w rest : Identifier w -> Not LetterOrDigit rest -> Lexeme dir (36%N :: w) rest VarName None
| lx_function w k rest : Identifier w -> Not LetterOrDigit rest -> AtKind w k -> Lexeme dir (64%N :: w) rest k None
| lx_number w rest : w <> [] -> Forall Digit w -> Not Digit rest -> Lexeme dir w rest Number None
| lx_negative w rest : w <> [] -> Forall Digit w -> Not Digit rest -> Lexeme dir (45%N :: w) rest Number None
(** entities *)
| lx_entity c w rest : Letter c /\ c <> 95%N \/ c = 35%N -> Forall (fun c => ~ White c /\ c <> 59%N) w ->
    Lexeme dir (38%N :: c :: w ++ [59%N]) rest Entity None
| lx_entity_open c w rest : Letter c /\ c <> 95%N \/ c = 35%N -> Forall (fun c => ~ White c /\ c <> 59%N) w -> Not (fun c => ~ White c) rest ->
    Lexeme dir (38%N :: c :: w) rest Entity (Some TokenEntityMissingSemicolon)
| lx_ampersand rest : Not (fun c => Letter c /\ c <> 95%N \/ c = 35%N) rest -> Lexeme dir [38%N] rest Ampersand None
(** escapes *)
| lx_escape c rest : c <> 10%N -> ~ In c (map fst numeric_escapes) -> Lexeme dir [92%N; c] rest Escape None
| lx_escape_number c n digits rest : In (c, n) numeric_escapes -> length digits = n -> Forall HexDigitChar digits ->
    Lexeme dir (92%N :: c :: digits) rest Escape None
| lx_escape_short c n rest : In (c, n) numeric_escapes -> ~ (n <= length rest /\ Forall HexDigitChar (firstn n rest)) ->
    Lexeme dir [92%N; c] rest Escape (Some TokenInvalidEscape)
| lx_escape_line rest : Lexeme dir [92%N] (10%N :: rest) Escape (Some TokenInvalidEscape)
| lx_escape_end : Lexeme dir [92%N] [] RawText (Some (TokenExpectedWasEOF Escape))
(** verbatim text between runs of backticks of the same length *)
| lx_verbatim n w rest : 1 <= n -> w <> [] -> Not (eq 96%N) w -> FirstAfter (repeat 96%N n) w -> Not (eq 96%N) rest ->
    n >= 3 \/ ~ In 10%N w ->
    Lexeme dir (repeat 96%N n ++ w ++ repeat 96%N n) rest (Verbatim (if 3 <=? n then VMultiline else VSimple)) None
| lx_verbatim_lines n w rest : 1 <= n -> w <> [] -> Not (eq 96%N) w -> FirstAfter (repeat 96%N n) w -> Not (eq 96%N) rest ->
    n < 3 -> In 10%N w ->
    Lexeme dir (repeat 96%N n ++ w ++ repeat 96%N n) rest (Verbatim VSimple) (Some TokenVerbatimMultilineNotEnoughBackticks)
| lx_verbatim_ticks n m w rest : 1 <= n -> n < m -> w <> [] -> Not (eq 96%N) w -> FirstAfter (repeat 96%N n) w -> Not (eq 96%N) rest ->
    Lexeme dir (repeat 96%N n ++ w ++ repeat 96%N m) rest (Verbatim (if 3 <=? n then VMultiline else VSimple))
      (Some TokenVerbatimTooManyBackticks)
| lx_verbatim_open n w : 1 <= n -> Not (eq 96%N) w -> ~ Occurs (repeat 96%N n) w ->
    Lexeme dir (repeat 96%N n ++ w) [] (Verbatim (if 3 <=? n then VMultiline else VSimple)) (Some TokenVerbatimEOF)
(** closing tags *)
| lx_close w rest : Identifier w -> Lexeme dir (lit "</" ++ w ++ lit ">") rest CloseTag None
| lx_close_any rest : Lexeme dir (lit "</>") rest CloseTag None
| lx_close_name w rest : Identifier w -> Not LetterOrDigit rest -> Not (eq 62%N) rest ->
    Lexeme dir (lit "</" ++ w) rest RawText (Some TagCloseMalformed)
| lx_close_bad rest : Not Letter rest -> Not (eq 62%N) rest -> Lexeme dir (lit "</") rest RawText (Some TagCloseMalformed)
| lx_punctuation p no k rest : In (p, no, k) punctuation -> Forall (fun q => NotText q rest) no -> Lexeme dir p rest k None
| lx_single_quote rest : Lexeme dir [39%N] rest (Quote QSingle dir) None
| lx_double_quote rest : Lexeme dir [34%N] rest (Quote QDouble dir) None
(** anything else, including the special characters which do not begin one of the above *)
| lx_raw c w rest : Raw c \/ c = 36%N /\ Not Letter (w ++ rest) \/ c = 64%N /\ Not Letter (w ++ rest) \/
      c = 45%N /\ Not Digit (w ++ rest) /\ Not (eq 62%N) (w ++ rest) \/ c = 47%N /\ Not (eq 62%N) (w ++ rest) ->
    Forall Raw w -> Not Raw rest -> Lexeme dir (c :: w) rest RawText None.

(** The direction of a quote: left at the start of the text, after white space and after an opening; otherwise right. *)
Definition opening : list token_kind := [Equals; LBrace; LPar; LSqb; RAngle; Newline; Whitespace].
Inductive After : token_kind -> quote_dir -> Prop :=
| after_opening k : In k opening -> After k QLeft
| after_other k : ~ In k opening -> After k QRight.

(** [Lexes pos dir src toks complaints]: the tokens of the text [src] which begins at byte [pos], and the complaints about
    them, each at the span of its token. *)
Inductive Lexes : nat -> quote_dir -> str -> list token -> list (syntax_error * (nat * nat)) -> Prop :=
| lexes_end pos dir : Lexes pos dir [] [] []
| lexes_more pos dir text rest k complaint next toks errs :
    Lexeme dir text rest k complaint -> After k next -> Lexes (pos + blen text) next rest toks errs ->
    Lexes pos dir (text ++ rest) (Token k text pos (pos + blen text) :: toks)
      (match complaint with Some e => [(e, (pos, pos + blen text))] | None => [] end ++ errs).

(** A numeric escape whose digits, counted in bytes, would end inside a character: the tokenizer crashes on it (see C15). *)
Definition CutEscape (s : str) : Prop :=
  exists c n rest, s = 92%N :: c :: rest /\ In (c, n) numeric_escapes /\ n <= blen rest /\ forall a b, rest = a ++ b -> blen a <> n.
(** [Reads dir src rest]: the text [src] consists of some tokens and [rest]. *)
Inductive Reads : quote_dir -> str -> str -> Prop :=
| reads_none dir rest : Reads dir rest rest
| reads_more dir text after k complaint next rest : Lexeme dir text after k complaint -> After k next -> Reads next after rest ->
    Reads dir (text ++ after) rest.
(** No token of the text is such an escape. *)
Definition Uncut (src : str) : Prop := forall rest, Reads QLeft src rest -> ~ CutEscape rest.
