(** Specification for C81: layout. Two texts are laid out alike if they consist of the same words and signs, with gaps at the
    same places: a gap may have any white space and comments, as long as a blank line stays a blank line. *)
From Verif Require Import Base M_Token S_Front.

(** A gap is what is between two significant tokens: white space and comments. *)
Definition Gap (g : list token) : Prop := Forall (fun t => ~ Significant t) g.
Definition Has (k : token_kind) (g : list token) : Prop := exists t, In t g /\ tk_kind t = k.
Definition AnyWhite (g : list token) : Prop := exists t, In t g /\ White t.
(** Gaps of the same sort: none; comments only; white space without a blank line; white space with one. *)
Definition SameGap (g g' : list token) : Prop :=
  Gap g /\ Gap g' /\ (g = [] <-> g' = []) /\ (AnyWhite g <-> AnyWhite g') /\ (Has Newline g <-> Has Newline g').
Inductive Relaid : list token -> list token -> Prop :=
| relaid_end g g' : SameGap g g' -> Relaid g g'
| relaid_more g g' t t' l l' : SameGap g g' -> Significant t -> tk_kind t = tk_kind t' -> tk_text t = tk_text t' ->
    Relaid l l' -> Relaid (g ++ t :: l) (g' ++ t' :: l').
