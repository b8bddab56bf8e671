(** What the parser is for: the syntax tree of a document, or diagnostics. *)
From Verif Require Import Base M_Token M_Diag M_Queue M_Ast S_Grammar.

(** Diagnostics without an error: there are only warnings. *)
Definition NoErrors (ds : list papyri_error) : Prop := Forall (fun e => exists w, e = Warn w) ds.
(** [Takes toks d r]: with the tokens [toks] ahead and the diagnostics [d] reported before, the parser has taken some of the
    tokens, in order, and added to the diagnostics; if it has given up, then it has reported an error. *)
Definition Takes {A} (toks : tokens) (d : list papyri_error) (r : pres A) : Prop :=
  match r with
  | POk _ s => exists taken more, toks = taken ++ ps_tokens s /\ ps_diags s = d ++ more
  | PErr s => exists taken more, toks = taken ++ ps_tokens s /\ ps_diags s = d ++ more /\ ~ NoErrors more
  | PPanic | PFuel => False
  end.

(** The characters that mean something else than themselves in a regular expression (or may, in some setting of it) *)
Definition regex_special : list char := lit "\.+*?()|[]{}^$#&-~".
(** [Literal r s]: as a regular expression, [r] matches just the text [s]: each special character of [s] is written with a
    backslash before it, and each other one as it stands. *)
Inductive Literal : str -> str -> Prop :=
| lit_end : Literal [] []
| lit_plain c r s : ~ In c regex_special -> Literal r s -> Literal (c :: r) (c :: s)
| lit_escaped c r s : In c regex_special -> Literal r s -> Literal (92%N :: c :: r) (c :: s).
