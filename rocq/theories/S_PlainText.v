(** Specification for C79: a document as plain text. *)
From Verif Require Import Base M_Names M_Html S_Html.

(** The block elements of HTML, with those of the head of a document *)
Definition block_elements : list str := List.map lit
  ["!DOCTYPE"; "address"; "article"; "aside"; "base"; "blockquote"; "body"; "dd"; "details"; "div"; "dl"; "dt";
   "fieldset"; "figcaption"; "figure"; "footer"; "form"; "h1"; "h2"; "h3"; "h4"; "h5"; "h6"; "head"; "header";
   "hgroup"; "hr"; "html"; "iframe"; "li"; "link"; "main"; "menu"; "meta"; "nav"; "ol"; "p"; "pre"; "script";
   "section"; "style"; "table"; "template"; "title"; "ul"]%string.
Definition LF : char := 10%N.
Definition HORIZONTAL_BAR : char := 8213%N.
(** What stands for the end of an element: an empty line after a paragraph, a bar for a rule, the end of the line after any other block *)
Inductive BreakAfter : str -> str -> Prop :=
| ba_paragraph : BreakAfter (lit "p") [LF; LF]
| ba_rule : BreakAfter (lit "hr") [LF; HORIZONTAL_BAR; LF; LF]
| ba_block n : In n block_elements -> n <> lit "p" -> n <> lit "hr" -> BreakAfter n [LF]
| ba_inline n : ~ In n block_elements -> BreakAfter n [].
(** The plain text of a document given by its characters and tags (see [events]) *)
Inductive PlainText : list event -> str -> Prop :=
| pt_nil : PlainText [] []
| pt_char c es t : PlainText es t -> PlainText (EChar c :: es) (c :: t)
| pt_open n a es t : PlainText es t -> PlainText (EOpen n a :: es) t
| pt_close n b es t : BreakAfter n b -> PlainText es t -> PlainText (EClose n :: es) (b ++ t).
