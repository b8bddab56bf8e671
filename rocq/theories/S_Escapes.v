(** Texts without malformed escapes (C15, C43). Only the escapes count that are tokens of the text by the lexical grammar (S_Lex):
    backslashes in comments and in verbatim text are no escapes. *)
From Verif Require Import Base M_Token S_Front S_Lex.

Definition EscapesRead (src : str) : Prop :=
  Uncut src /\ forall toks errs, Lexes 0 QLeft src toks errs -> forall place, ~ In (TokenInvalidEscape, place) errs.
