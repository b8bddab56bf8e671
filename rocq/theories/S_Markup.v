(** Specification for C68: a page written as markup. Independent of the model. *)
From Verif Require Import Base S_Front S_Prose.

(** ** Pages
    Characters, and elements with attributes and content *)
Inductive piece := Char (c : char) | Elem (name : str) (attrs : list (str * str)) (content : list piece).
(** How they are written in HTML. Attribute names are written with hyphens for underscores. *)
Definition void_tags : list str := List.map lit
  ["area"; "base"; "br"; "col"; "command"; "embed"; "hr"; "img"; "input"; "keygen"; "link"; "menuitem"; "meta"; "param";
   "source"; "track"; "wbr"]%string.
Definition quoted_char (c : char) : str := if (c =? 34)%N then lit "&quot;" else if (c =? 39)%N then lit "&apos;" else escaped_char c.
Definition attribute (nv : str * str) : str :=
  lit " " ++ List.map (fun c => if (c =? 95)%N then 45%N else c) (fst nv) ++ lit "=""" ++ List.concat (List.map quoted_char (snd nv)) ++ lit """".
Fixpoint html_of (p : piece) : str :=
  match p with
  | Char c => escaped_char c
  | Elem n attrs content =>
    lit "<" ++ n ++ List.concat (List.map attribute attrs) ++ lit ">" ++ List.concat (List.map html_of content) ++
    (if mem n void_tags then [] else lit "</" ++ n ++ lit ">")
  end.

(** ** What may be where *)
Definition block_tags : list str := List.map lit
  ["address"; "article"; "aside"; "base"; "blockquote"; "body"; "dd"; "details"; "div"; "dl"; "dt"; "fieldset"; "figcaption";
   "figure"; "footer"; "form"; "h1"; "h2"; "h3"; "h4"; "h5"; "h6"; "head"; "header"; "hgroup"; "hr"; "html"; "iframe"; "li";
   "link"; "main"; "menu"; "meta"; "nav"; "ol"; "p"; "pre"; "script"; "section"; "style"; "table"; "template"; "title"; "ul"]%string.
(** A link is block-level if it contains something that is. *)
Inductive Block : piece -> Prop :=
| block_tag n attrs c : In n block_tags -> Block (Elem n attrs c)
| block_link attrs c p : In p c -> Block p -> Block (Elem (lit "a") attrs c).
Definition Inline (p : piece) : Prop := ~ Block p.
(** Tags for sections consist of blocks; some others of blocks or of inline content; lists, tables and the like of certain
    elements. All others, but for void ones, have inline content. *)
Definition section_tags : list str := List.map lit ["article"; "aside"; "blockquote"; "footer"; "header"; "main"; "nav"; "section"]%string.
Definition flow_tags : list str := List.map lit
  ["a"; "address"; "body"; "details"; "div"; "fieldset"; "figcaption"; "figure"; "form"; "li"]%string.
Definition item_tags : list (list string * list string) :=
  [(["dl"], ["dd"; "dt"]); (["hgroup"], ["p"; "h1"; "h2"; "h3"; "h4"; "h5"; "h6"]); (["html"], ["body"; "head"]);
   (["head"], ["base"; "link"; "meta"; "noscript"; "script"; "style"; "template"; "title"]); (["menu"; "ol"; "ul"], ["li"]);
   (["table"], ["tr"; "tbody"; "tfoot"; "thead"; "caption"; "colgroup"]); (["tbody"; "tfoot"; "thead"], ["tr"]);
   (["tr"], ["td"; "th"])]%string.
Definition InlineTag (n : str) : Prop :=
  ~ In n section_tags /\ ~ In n void_tags /\ (forall ns items, In (ns, items) item_tags -> ~ In n (List.map lit ns)).
(** Whether pieces that are all elements may be the content of this tag *)
Inductive Holds (n : str) (c : list piece) : Prop :=
| holds_blocks : In n section_tags \/ In n flow_tags -> Forall Block c -> Holds n c
| holds_items ns items : In (ns, items) item_tags -> In n (List.map lit ns) ->
    Forall (fun p => exists m attrs d, p = Elem m attrs d /\ In m (List.map lit items)) c -> Holds n c.
(** White space at the ends of inline content would be dropped. *)
Definition WhitePiece (p : piece) : Prop := exists c, p = Char c /\ WhiteChar c.
Definition NoWhiteEnds (c : list piece) : Prop :=
  (forall p l, c = p :: l -> ~ WhitePiece p) /\ (forall p l, c = l ++ [p] -> ~ WhitePiece p).

(** ** How pages are written *)
Definition LowerName (others : str) (n : str) : Prop :=
  exists c l, n = c :: l /\ (97 <= c <= 122)%N /\ Forall (fun d => (97 <= d <= 122)%N \/ Digit d \/ In d others) l.
(** Every character can be written as an escape sequence. *)
Inductive Spelled : char -> str -> Prop :=
| sp_plain c : ~ In c (lit "xuUnt") -> c <> 10%N -> Spelled c (lit "\" ++ [c])
| sp_newline : Spelled 10%N (lit "\n")
| sp_tab : Spelled 9%N (lit "\t")
| sp_code c k n digits : EscapeDigits k n -> length digits = n -> HexValue digits c -> (c < 1114112)%N -> ~ Surrogate c ->
    Spelled c (lit "\" ++ k :: digits).
Definition Letters (w : str) : Prop := w <> [] /\ Forall Letter w.
(** Texts written with escape sequences, words and single spaces *)
Inductive Value : str -> str -> Prop :=
| val_end : Value [] []
| val_char c e v s : Spelled c e -> Value v s -> Value (c :: v) (e ++ s)
| val_word w v s : Letters w -> (forall c r, s = c :: r -> ~ Letter c) -> Value v s -> Value (w ++ v) (w ++ s)
| val_space v s : (forall c r, s = c :: r -> ~ WhiteChar c) -> Value v s -> Value (32%N :: v) (32%N :: s).
Inductive Attributes : list (str * str) -> str -> Prop :=
| att_end : Attributes [] []
| att_more n v s l r : LowerName (lit "_") n -> ~ In n (List.map fst l) -> Value v s -> Attributes l r ->
    Attributes ((n, v) :: l) (lit " " ++ n ++ lit "=""" ++ s ++ lit """" ++ r).
Inductive Run : list piece -> str -> Prop :=
| run_end : Run [] []
| run_char c e ps s : Spelled c e -> Run ps s -> Run (Char c :: ps) (e ++ s)
| run_word w ps s : Letters w -> (forall c r, s = c :: r -> ~ Letter c) -> Run ps s -> Run (List.map Char w ++ ps) (w ++ s)
| run_space ps s : (forall c r, s = c :: r -> ~ WhiteChar c) -> Run ps s -> Run (Char 32%N :: ps) (32%N :: s)
| run_elem p e ps s : Element p e -> Inline p -> Run ps s -> Run (p :: ps) (e ++ s)
(** elements, and white space between them *)
with Elements : list piece -> str -> Prop :=
| els_end g : Blank g -> Elements [] g
| els_more g p e ps s : Blank g -> Element p e -> Elements ps s -> Elements (p :: ps) (g ++ e ++ s)
with Element : piece -> str -> Prop :=
| el_void n attrs a : In n void_tags -> Attributes attrs a -> Element (Elem n attrs []) (lit "<" ++ n ++ a ++ lit ">")
| el_inline n attrs a c s : LowerName [] n -> InlineTag n -> Attributes attrs a -> Run c s -> NoWhiteEnds c ->
    Element (Elem n attrs c) (lit "<" ++ n ++ a ++ lit ">" ++ s ++ lit "</" ++ n ++ lit ">")
| el_holds n attrs a c s : LowerName [] n -> Holds n c -> Attributes attrs a -> Elements c s ->
    Element (Elem n attrs c) (lit "<" ++ n ++ a ++ lit ">" ++ s ++ lit "</" ++ n ++ lit ">").
(** A page consists of blocks and paragraphs, which need no tag; a paragraph is ended by a blank line or by a block.
    [after] tells that a paragraph is before. *)
Inductive Page : bool -> list piece -> str -> Prop :=
| page_end after g : Blank g -> Page after [] g
| page_block after g p e ps s : Blank g -> Element p e -> Block p -> Page false ps s -> Page after (p :: ps) (g ++ e ++ s)
| page_par after g c e ps s : Blank g -> (after = true -> 2 <= line_feeds g) -> c <> [] -> NoWhiteEnds c -> Run c e -> Page true ps s ->
    Page after (Elem (lit "p") [] c :: ps) (g ++ e ++ s).

(** ** Which pages there are *)
Inductive Fine : piece -> Prop :=
| fine_char c : Fine (Char c)
| fine_void n attrs : In n void_tags -> FineAttributes attrs -> Fine (Elem n attrs [])
| fine_inline n attrs c : LowerName [] n -> InlineTag n -> FineAttributes attrs -> FineAll c -> Forall Inline c -> NoWhiteEnds c -> Fine (Elem n attrs c)
| fine_holds n attrs c : LowerName [] n -> Holds n c -> FineAttributes attrs -> FineAll c -> Fine (Elem n attrs c)
with FineAll : list piece -> Prop :=
| fine_none : FineAll []
| fine_more p ps : Fine p -> FineAll ps -> FineAll (p :: ps)
with FineAttributes : list (str * str) -> Prop :=
| fine_attrs l : NoDup (List.map fst l) -> Forall (fun nv => LowerName (lit "_") (fst nv)) l -> FineAttributes l.
