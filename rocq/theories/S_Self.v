(** Specification for C68: simple pages, which need no escape sequences. *)
From Verif Require Import Base S_Front S_Prose S_Markup.

(** Letters, and spaces that do not follow on each other *)
Definition Simple (c : char) : Prop := Letter c \/ c = 32%N.
Definition NoDoubleSpace (c : list piece) : Prop := forall a b, c <> a ++ Char 32%N :: Char 32%N :: b.
(** Names of attributes without underscores (which are written as hyphens) *)
Definition SimpleAttribute (nv : str * str) : Prop :=
  ~ In 95%N (fst nv) /\ Forall Simple (snd nv) /\ NoDoubleSpace (List.map Char (snd nv)).
Inductive SimplePiece : piece -> Prop :=
| simple_char c : Simple c -> SimplePiece (Char c)
| simple_elem n attrs c : Forall SimpleAttribute attrs -> Forall SimplePiece c -> NoDoubleSpace c -> SimplePiece (Elem n attrs c).
