(** Specification for C19: values whose reported type is the strongest one they have. *)
From Verif Require Import Base M_Html M_Types M_Value S_Types.

(** No part is an empty list or dictionary. *)
Definition Filled (v : value) : Prop := EveryPart (fun v => v <> VList [] /\ v <> VDict []) v.
(** No part is text. *)
Definition NoText (v : value) : Prop := EveryPart (fun v => match v with VStr _ => False | _ => True end) v.
(** No part is content, except for the unit value. *)
Definition NoContent (v : value) : Prop := EveryPart (fun v => match v with VHtml h => h = HEmpty | _ => True end) v.
