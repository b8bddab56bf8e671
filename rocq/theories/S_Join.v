(** Specification for C86: texts that may stand before and after a blank line. *)
From Verif Require Import Base M_Token M_Tokenizer M_Ast S_Lex S_Refill S_Trail.

(** The first token, if there is one, is neither a comment nor white space. *)
Definition StartsSolid (toks : list token) : Prop :=
  forall t after, toks = t :: after -> tk_kind t <> Comment /\ tk_kind t <> Whitespace /\ tk_kind t <> Newline.
(** The last token is not a character written as an escape sequence or an entity: it could be a space. *)
Definition EndsPlain (toks : list token) : Prop := forall before t, toks = before ++ [t] -> tk_kind t <> Escape /\ tk_kind t <> Entity.

(** The document consists of the texts, in order, with a blank line between any two, which may have comments in it. *)
Inductive Parted (lines : bool) : list str -> str -> Prop :=
| parted_one text : Parted lines [text] text
| parted_more text gap texts doc : Filled lines true gap -> Parted lines texts doc -> Parted lines (text :: texts) (text ++ gap ++ doc).
(** The trees, in order, with a paragraph break between any two. *)
Fixpoint broken (trees : list (list node)) : list node :=
  match trees with
  | [] => []
  | [tree] => tree
  | tree :: trees => tree ++ AParagraphBreak :: broken trees
  end.
(** A text that may stand between two blank lines. *)
Definition Stands (lines : bool) (text : str) : Prop :=
  exists toks, Lexes 0 QLeft text toks [] /\ StartsSolid toks /\ EndsSolid toks /\ EndsPlain toks /\ NoDots toks /\
  Not S_Lex.White text /\ (lines = true -> Not QuoteChar text).
