(** Specifications for text utilities, independent of the model's helpers: character classes are given by explicit
    code point ranges. *)
From Coq Require Import List NArith String Ascii.
Import ListNotations.
Local Open Scope N_scope.

(** [a-zA-Z_] and [a-zA-Z0-9_]. *)
Definition Letter (c : N) : Prop := (97 <= c <= 122) \/ (65 <= c <= 90) \/ c = 95.
Definition LetterOrDigit (c : N) : Prop := Letter c \/ (48 <= c <= 57).
(** [a-zA-Z_][a-zA-Z0-9_]* *)
Definition Identifier (s : list N) : Prop :=
  exists c t, s = c :: t /\ Letter c /\ Forall LetterOrDigit t.
(** No upper case letter. *)
Definition Lowercase (s : list N) : Prop := Forall (fun c => ~ (65 <= c <= 90)) s.

(** Entity decoding, the reverse direction of escaping: the five predefined entities of XML/HTML. *)
Definition starts (p s : list N) : Prop := exists t, s = p ++ t.

(** Unicode White_Space *)
Definition WhiteSpace (c : N) : Prop :=
  (9 <= c <= 13) \/ In c [32; 133; 160; 5760; 8232; 8233; 8239; 8287; 12288] \/ (8192 <= c <= 8202).

(** Decoding entities: [Decodes e s] says the escaped text [e] denotes the plain text [s]. *)
Inductive Decodes : list N -> list N -> Prop :=
| dec_nil : Decodes [] []
| dec_plain c e s : c <> 38 -> c <> 60 -> c <> 62 -> Decodes e s -> Decodes (c :: e) (c :: s)
| dec_lt e s : Decodes e s -> Decodes ([38;108;116;59] ++ e) (60 :: s)           (* &lt; *)
| dec_gt e s : Decodes e s -> Decodes ([38;103;116;59] ++ e) (62 :: s)           (* &gt; *)
| dec_amp e s : Decodes e s -> Decodes ([38;97;109;112;59] ++ e) (38 :: s)       (* &amp; *)
| dec_quot e s : Decodes e s -> Decodes ([38;113;117;111;116;59] ++ e) (34 :: s) (* &quot; *)
| dec_apos e s : Decodes e s -> Decodes ([38;97;112;111;115;59] ++ e) (39 :: s). (* &apos; *)

(** What a code fence body should look like once its common indentation is removed (C08).
    [ls] are the lines of the body without trailing white space, the leading blank ones dropped, and [ind] is the
    indentation of the first of them: each line loses exactly [ind] if it starts with it, else all its indentation. *)
Inductive Dedents (ind : list N) : list N -> list N -> Prop :=
| dedent_common l : Dedents ind (ind ++ l) l
| dedent_less w l : (forall t, w ++ l <> ind ++ t) -> Forall WhiteSpace w ->
    (forall c t, l = c :: t -> ~ WhiteSpace c) -> Dedents ind (w ++ l) l.

(** [SplitLines s ls]: [ls] are the lines of [s]; a line ends at LF or CR LF, the last line may be unterminated. *)
Inductive SplitLines : list N -> list (list N) -> Prop :=
| sl_nil : SplitLines [] []
| sl_last l : l <> [] -> ~ In 10 l -> SplitLines l [l]
| sl_lf l rest ls : ~ In 10 l -> (forall i, l <> i ++ [13]) -> SplitLines rest ls -> SplitLines (l ++ 10 :: rest) (l :: ls)
| sl_crlf l rest ls : ~ In 10 l -> SplitLines rest ls -> SplitLines (l ++ [13; 10] ++ rest) (l :: ls).

(** [TrimmedEnd s t]: [t] is [s] without its trailing white space. *)
Definition TrimmedEnd (s t : list N) : Prop :=
  exists w, s = t ++ w /\ Forall WhiteSpace w /\ (forall i c, t = i ++ [c] -> ~ WhiteSpace c).
(** [Trimmed s t]: without leading and trailing white space. *)
Definition Trimmed (s t : list N) : Prop :=
  exists v w, s = v ++ t ++ w /\ Forall WhiteSpace v /\ Forall WhiteSpace w
    /\ (forall c r, t = c :: r -> ~ WhiteSpace c) /\ (forall i c, t = i ++ [c] -> ~ WhiteSpace c).

(** [FenceBody ind s out] says what the body [s] of a code fence should become (C08), [ind] being the indentation of
    its first non-blank line. *)
Inductive FenceBody : list N -> list N -> list N -> Prop :=
| fb_blank s t ls : TrimmedEnd s t -> SplitLines t ls -> Forall (Forall WhiteSpace) ls -> FenceBody [] s []
| fb_plain s t blanks c first rest out : TrimmedEnd s t -> SplitLines t (blanks ++ (c :: first) :: rest) ->
    Forall (Forall WhiteSpace) blanks -> ~ WhiteSpace c -> Trimmed s out -> FenceBody [] s out
| fb_indented s t blanks ind c first rest outs : TrimmedEnd s t ->
    SplitLines t (blanks ++ (ind ++ c :: first) :: rest) ->
    Forall (Forall WhiteSpace) blanks -> Forall WhiteSpace ind -> ind <> [] -> ~ WhiteSpace c ->
    Forall2 (Dedents ind) ((ind ++ c :: first) :: rest) outs ->
    FenceBody ind s (flat_map (fun l => l ++ [10]) outs).

(** Making an identifier of a text (C04): letters and digits are kept, and what is between them becomes one underscore. *)
Definition AsciiLetter (c : N) : Prop := (97 <= c <= 122) \/ (65 <= c <= 90).
Definition AsciiAlnum (c : N) : Prop := AsciiLetter c \/ (48 <= c <= 57).
Inductive Squeezed : list N -> list N -> Prop :=
| sq_nil : Squeezed [] []
| sq_keep c t r : AsciiAlnum c -> Squeezed t r -> Squeezed (c :: t) (c :: r)
| sq_gap g t r : g <> [] -> Forall (fun c => ~ AsciiAlnum c) g -> (forall c t', t = c :: t' -> AsciiAlnum c) ->
    Squeezed t r -> Squeezed (g ++ t) (95 :: r).
(** [LowerOf s t]: [t] is [s] with A-Z replaced by a-z. *)
Definition LowerOf (s t : list N) : Prop :=
  Forall2 (fun c d => (65 <= c <= 90 /\ d = c + 32) \/ (~ (65 <= c <= 90) /\ d = c)) s t.
