(** Specification for C74: a question mark after a type that has none as a value anyway. *)
From Verif Require Import Base M_Token.

(** Words that are types with the value none, and the question mark itself *)
Definition optional_words : list str := List.map lit ["any"; "none"; "html"; "block"; "inline"; "?"]%string.
(** One of them, a question mark after it, and nothing but white space between them *)
Definition Redundant (toks : list token) : Prop :=
  exists before word white mark after, toks = before ++ word :: white ++ mark :: after /\
    In (tk_text word) optional_words /\ (forall t, In t white -> tk_kind t = Whitespace \/ tk_kind t = Newline) /\ tk_text mark = lit "?".
