(** Specification for C85: texts after which white space does not matter. *)
From Verif Require Import Base M_Token.

(** The last token, if there is one, is neither a comment nor white space. *)
Definition EndsSolid (toks : list token) : Prop :=
  forall before t, toks = before ++ [t] -> tk_kind t <> Comment /\ tk_kind t <> Whitespace /\ tk_kind t <> Newline.
(** There is no ... among the tokens. *)
Definition NoDots (toks : list token) : Prop := forall t, In t toks -> tk_kind t <> Ellipsis.
