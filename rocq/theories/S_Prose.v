(** Specification of what prose compiles to: text in which no construct of the language starts. Independent of the model. *)
From Verif Require Import Base S_TextSubs.

Definition Letter (c : char) : Prop := (97 <= c <= 122)%N \/ (65 <= c <= 90)%N.
Definition Digit (c : char) : Prop := (48 <= c <= 57)%N.
(** space, tab, line feed, form feed, carriage return *)
Definition WhiteChar (c : char) : Prop := In c [32; 9; 10; 12; 13]%N.

(** No comment, escape, verbatim, tag, list, template or dictionary: none of #, backslash, backtick, <, and the brackets and
    braces. A dollar or at sign is not followed by a letter or underscore (so it names nothing), nor an ampersand by a letter
    (so it starts no entity). *)
Definition starters : str := lit "#\`<[]{}".
Definition Prose (s : str) : Prop :=
  (forall c, In c s -> ~ In c starters) /\
  (forall a c d b, s = a ++ c :: d :: b ->
    (In c (lit "$@") -> ~ Letter d /\ d <> 95%N) /\ (In c (lit "&") -> ~ Letter d)).

(** A text consists of paragraphs, which are separated by white space with two line feeds or more, and these consist of words,
    which are separated by other white space. WhiteChar space around the text does not matter. *)
Definition Word (w : str) : Prop := w <> [] /\ Forall (fun c => ~ WhiteChar c) w.
Definition Blank (g : str) : Prop := Forall WhiteChar g.
Definition line_feeds (g : str) : nat := count_occ N.eq_dec g 10%N.
Inductive Words : str -> list str -> Prop :=
| words_one w : Word w -> Words w [w]
| words_more w g s ws : Word w -> Blank g -> g <> [] -> line_feeds g <= 1 -> Words s ws -> Words (w ++ g ++ s) (w :: ws).
Inductive Paragraphs : str -> list (list str) -> Prop :=
| pars_one s ws : Words s ws -> Paragraphs s [ws]
| pars_more s ws g t ps : Words s ws -> Blank g -> 2 <= line_feeds g -> Paragraphs t ps -> Paragraphs (s ++ g ++ t) (ws :: ps).
Inductive Laid : str -> list (list str) -> Prop :=
| laid_blank s : Blank s -> Laid s []
| laid_some a s b ps : Blank a -> Paragraphs s ps -> Blank b -> Laid (a ++ s ++ b) ps.

(** A quotation mark opens a quotation at the start of a word, and behind (, = and > unless the latter ends an arrow ->. *)
Definition Opens (before : str) : Prop :=
  before = [] \/ (exists a c, before = a ++ [c] /\ In c (lit "(=")) \/
  (exists a, before = a ++ lit ">") /\ ~ (exists a, before = a ++ lit "->").
(** [Typeset before w u]: the characters [w] of a word, behind [before], become [u]. Quotation marks become curly, three full
    stops an ellipsis, and a vertical bar a word joiner. *)
Inductive Typeset : str -> str -> str -> Prop :=
| ts_end before : Typeset before [] []
| ts_open before q o w u : Opens before -> In (q, o) [(39, 8216); (34, 8220)]%N ->
    Typeset (before ++ [q]) w u -> Typeset before (q :: w) (o :: u)
| ts_close before q o w u : ~ Opens before -> In (q, o) [(39, 8217); (34, 8221)]%N ->
    Typeset (before ++ [q]) w u -> Typeset before (q :: w) (o :: u)
| ts_dots before w u : Typeset (before ++ lit "...") w u -> Typeset before (lit "..." ++ w) (8230%N :: u)
| ts_joiner before w u : Typeset (before ++ lit "|") w u -> Typeset before (lit "|" ++ w) (8288%N :: u)
| ts_copy before c w u : ~ In c (lit "'""|") -> ~ StartsWith (lit "...") (c :: w) ->
    Typeset (before ++ [c]) w u -> Typeset before (c :: w) (c :: u).
(** What a word becomes: typeset, then the documented sequences are replaced. *)
Definition Written (w t : str) : Prop := exists u, Typeset [] w u /\ Substituted u t.

(** The page *)
Definition escaped_char (c : char) : str :=
  if (c =? 60)%N then lit "&lt;" else if (c =? 62)%N then lit "&gt;" else if (c =? 38)%N then lit "&amp;" else [c].
Definition escaped (t : str) : str := List.concat (List.map escaped_char t).
Fixpoint spaced (ts : list str) : str :=
  match ts with [] => [] | [t] => t | t :: ts => t ++ lit " " ++ spaced ts end.
Definition paragraph (ts : list str) : str := lit "<p>" ++ spaced (List.map escaped ts) ++ lit "</p>".
Definition page (ps : list (list str)) : str := List.concat (List.map paragraph ps).
(** The same without HTML: every paragraph is followed by an empty line. *)
Definition bare_page (ps : list (list str)) : str := List.concat (List.map (fun ts => spaced ts ++ [10%N; 10%N]) ps).
