(** Specification for C41: histories of reports and resets of a diagnostic sink. *)
From Verif Require Import Base M_Diag.

Inductive sink_op := Report (e : papyri_error) | Reset.
Definition sink_do (d : sink) (o : sink_op) : sink :=
  match o with Report e => sink_add e d | Reset => sink_clear d end.
Definition sink_run (l : level) (ops : list sink_op) : sink := fold_left sink_do ops (sink_new l).

(** What was reported since the last reset. *)
Inductive SinceReset : list sink_op -> list papyri_error -> Prop :=
| SR_reset ops es : SinceReset (ops ++ Reset :: List.map Report es) es
| SR_none es : SinceReset (List.map Report es) es.

Definition is_error (e : papyri_error) : Prop := match e with Warn _ | AlreadyReported => False | _ => True end.
Definition is_warning (e : papyri_error) : Prop := match e with Warn _ => True | _ => False end.
(** At or above a reporting level. *)
Definition AtLevel (l : level) (e : papyri_error) : Prop :=
  match l with
  | LAll => True
  | LWarning => is_warning e \/ is_error e
  | LError => is_error e
  | LIgnoreAll => False
  end.
(** [Selected P l l'] : [l'] is the members of [l] satisfying [P], in order. *)
Inductive Selected {A} (P : A -> Prop) : list A -> list A -> Prop :=
| Sel_nil : Selected P [] []
| Sel_yes x l l' : P x -> Selected P l l' -> Selected P (x :: l) (x :: l')
| Sel_no x l l' : ~ P x -> Selected P l l' -> Selected P (x :: l) l'.
Definition Count {A} (P : A -> Prop) (l : list A) (n : N) : Prop := exists l', Selected P l l' /\ N.of_nat (length l') = n.
