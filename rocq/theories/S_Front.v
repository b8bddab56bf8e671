(** Specifications for the front end: what a token stream and the decoding of tokens should be. *)
From Verif Require Import Base M_Token.

(** Tokens tile a stretch of the source: each covers the non-empty text at its span, and the spans are adjacent. *)
Inductive Tiles : nat -> str -> list token -> Prop :=
| Tiles_nil : forall pos, Tiles pos [] []
| Tiles_cons : forall pos tok rest toks,
    tk_text tok <> [] -> tk_start tok = pos -> tk_end tok = pos + blen (tk_text tok) ->
    Tiles (tk_end tok) rest toks -> Tiles pos (tk_text tok ++ rest) (tok :: toks).

Definition Significant (t : token) := tk_kind t <> Comment /\ tk_kind t <> Whitespace /\ tk_kind t <> Newline.
Definition White (t : token) := tk_kind t = Whitespace \/ tk_kind t = Newline.

(** What a run of whitespace and comments between two significant tokens amounts to. *)
Inductive GapToken : list token -> list token -> Prop :=
| Gap_comment_only : forall g, Forall (fun t => tk_kind t = Comment) g -> GapToken g []
| Gap_space : forall before t after, Forall (fun t => tk_kind t = Comment) before -> tk_kind t = Whitespace ->
    Forall (fun t => tk_kind t <> Newline) after -> GapToken (before ++ t :: after) [t]
| Gap_break : forall before t after, tk_kind t = Newline -> Forall (fun t => tk_kind t <> Newline) after ->
    GapToken (before ++ t :: after) [t].

(** The token stream without comments, each gap reduced to at most one whitespace token. *)
Inductive Stripped : list token -> list token -> Prop :=
| Str_end : forall gap r, Forall (fun t => ~ Significant t) gap -> GapToken gap r -> Stripped gap r
| Str_next : forall gap r t rest out, Forall (fun t => ~ Significant t) gap -> GapToken gap r -> Significant t ->
    Stripped rest out -> Stripped (gap ++ t :: rest) (r ++ t :: out).

Inductive NoAdjacentWhite : list token -> Prop :=
| NAW_nil : NoAdjacentWhite []
| NAW_one : forall t, NoAdjacentWhite [t]
| NAW_cons : forall t u l, ~ (White t /\ White u) -> NoAdjacentWhite (u :: l) -> NoAdjacentWhite (t :: u :: l).

(** Verbatim text delimited by [n] backticks (character 96). *)
Definition ticks (n : nat) : str := repeat 96%N n.
Definition VerbatimBody (n : nat) (w : str) :=
  w <> [] /\ (forall a b, w <> a ++ ticks n ++ b) /\ (forall t, w <> 96%N :: t) /\ (forall t, w <> t ++ [96%N]).

(** Value of a hexadecimal digit string. *)
Inductive HexDigit : char -> N -> Prop :=
| Hex_num : forall d, (d < 10)%N -> HexDigit (48 + d)%N d
| Hex_low : forall d, (10 <= d < 16)%N -> HexDigit (97 + (d - 10))%N d
| Hex_up : forall d, (10 <= d < 16)%N -> HexDigit (65 + (d - 10))%N d.
Inductive HexValue : str -> N -> Prop :=
| HV_nil : HexValue [] 0
| HV_snoc : forall s n c d, HexValue s n -> HexDigit c d -> HexValue (s ++ [c]) (n * 16 + d)%N.

(** Number of hexadecimal digits of the numeric escapes. *)
Inductive EscapeDigits : char -> nat -> Prop :=
| ED_x : EscapeDigits 120%N 2
| ED_u : EscapeDigits 117%N 4
| ED_U : EscapeDigits 85%N 8.
(** A well-formed escape sequence after the backslash. *)
Definition GoodEscape (after : str) :=
  after = [] \/
  exists c rest, after = c :: rest /\ c <> 10%N /\
    (forall n, EscapeDigits c n -> n <= length rest /\ forallb is_ascii_hexdigit (firstn n rest) = true).
Definition Surrogate (n : N) := (55296 <= n <= 57343)%N.

(** Value of a decimal digit string. *)
Inductive DecValue : str -> N -> Prop :=
| DV_nil : DecValue [] 0
| DV_snoc : forall s n d, DecValue s n -> (d < 10)%N -> DecValue (s ++ [(48 + d)%N]) (n * 10 + d)%N.

(** Punctuation and keywords: the texts of tokens of a kind, if there are finitely many. *)
Definition fixed_text (k : token_kind) : list str :=
  match k with
  | LPar => [lit "("] | RPar => [lit ")"] | LSqb => [lit "["] | RSqb => [lit "]"] | LBrace => [lit "{"] | RBrace => [lit "}"]
  | LAngle => [lit "<"] | RAngle => [lit ">"; lit "/>"] | Ampersand => [lit "&"] | Arrow => [lit "->"] | Asterisk => [lit "*"]
  | Bar => [lit "|"] | Colon => [lit ":"] | Comma => [lit ","] | Dot => [lit "."] | DoubleAsterisk => [lit "**"]
  | DoubleColon => [lit "::"] | Ellipsis => [lit "..."] | Equals => [lit "="] | ExclamationMark => [lit "!"]
  | QuestionMark => [lit "?"] | QuestionMarkDoubleColon => [lit "?::"] | Quote QSingle _ => [lit "'"] | Quote QDouble _ => [lit """"]
  | Underscore => [lit "_"] | Boolean true => [lit "True"] | Boolean false => [lit "False"]
  | Kw KExport => [lit "@export"] | Kw KFn => [lit "@fn"] | Kw KImplicit => [lit "@implicit"] | Kw KLet => [lit "@let"]
  | Kw KMatch => [lit "@match"]
  | _ => []
  end.

Definition significant_b (t : token) : bool :=
  match tk_kind t with Comment | Whitespace | Newline => false | _ => true end.

(** Every backslash starts a complete escape. *)
Definition EscapesWellFormed (src : str) := forall before after, src = before ++ 92%N :: after -> GoodEscape after.
