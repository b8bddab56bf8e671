(** Specification for C84: what may stand in the place of white space. *)
From Verif Require Import Base M_Token S_Text S_Lex.

(** White space, with comments in it: begins and ends with white space. [lines]: there may be comments which begin with # and
    go to the end of the line. The second argument says whether there is a blank line in it. *)
Inductive Filled (lines : bool) : bool -> str -> Prop :=
| filled_white w blank : w <> [] -> Forall White w -> (blank = true <-> BlankLine w) -> Filled lines blank w
| filled_comment w body g blank more : w <> [] -> Forall White w -> (blank = true <-> BlankLine w) -> FirstAfter (lit "-->") body ->
    Filled lines more g -> Filled lines (blank || more) (w ++ lit "<!--" ++ body ++ lit "-->" ++ g)
| filled_line w line g blank more : lines = true -> w <> [] -> Forall White w -> (blank = true <-> BlankLine w) -> ~ In 10%N line ->
    Filled lines more (10%N :: g) -> Filled lines (blank || more) (w ++ lit "#" ++ line ++ 10%N :: g).

(** The tokens of a part of the text, and the last of them: not a comment (a comment may take the white space after it along)
    and not a backslash left alone. *)
Definition Spelled (toks : list token) : str := concat (map tk_text toks).
Definition Closed (toks : list token) : Prop := forall before t, toks = before ++ [t] -> tk_kind t <> Comment /\ tk_text t <> lit "\".
Definition QuoteChar (c : N) : Prop := c = 39%N \/ c = 34%N.
