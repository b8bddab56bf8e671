(** Specification vocabulary for the native functions (C38, C48, C49, C52, C53). *)
From Coq Require Import Permutation Sorted.
From Verif Require Import Base M_Names M_Html M_Types M_Token M_Diag M_Ast M_Value M_State M_Binder.

(** ** Callbacks *)
Section Callbacks.
  (** how a call of a function, with its parameters bound, is evaluated where a type is expected *)
  Variable call : func -> nmap value -> ty -> str -> EM value.

  (** Applying [f] to the content [v], where the type [t] is expected, returns [r] ... *)
  Definition Returns (t : ty) (f : func) (src : str) (v : value) (s : st) (r : value) (s' : st) : Prop :=
    exists bs s1, bind_synthetic_call f false v s = Ok bs s1 /\ call f bs t src s1 = Ok r s'.
  (** ... or fails. *)
  Definition Fails (t : ty) (f : func) (src : str) (v : value) (s : st) (e : papyri_error) (s' : st) : Prop :=
    bind_synthetic_call f false v s = Err e s' \/
    exists bs s1, bind_synthetic_call f false v s = Ok bs s1 /\ call f bs t src s1 = Err e s'.
  (** A predicate answers with a boolean. *)
  Definition Answers (f : func) (src : str) (v : value) (s : st) (b : bool) (s' : st) : Prop :=
    Returns TBool f src v s (VBool b) s'.
End Callbacks.

(** One step for each value, from left to right, each in the state the one before has left; the results in order. *)
Inductive InTurn {A} (Step : value -> st -> A -> st -> Prop) : list value -> st -> list A -> st -> Prop :=
| IT_nil s : InTurn Step [] s [] s
| IT_cons v vs s r s1 rs s2 : Step v s r s1 -> InTurn Step vs s1 rs s2 -> InTurn Step (v :: vs) s (r :: rs) s2.
(** The steps succeed for some values and the next one fails; those after it are not taken. *)
Definition FailsAt {A} (Step : value -> st -> A -> st -> Prop) (Fail : value -> st -> papyri_error -> st -> Prop)
    (vs : list value) (s : st) (e : papyri_error) (s' : st) : Prop :=
  exists before v after rs s1, vs = before ++ v :: after /\ InTurn Step before s rs s1 /\ Fail v s1 e s'.

(** The predicate answers [b] for all of them. *)
Definition AllAnswer {A} (Step : value -> st -> A -> st -> Prop) (b : A) (vs : list value) (s s' : st) : Prop :=
  InTurn Step vs s (repeat b (length vs)) s'.
(** The first value for which the answer is [b] is [v]; the ones after it are not asked about. *)
Definition FirstAnswer (Step : value -> st -> bool -> st -> Prop) (b : bool) (vs : list value) (s : st) (v : value) (s' : st) : Prop :=
  exists before after s1, vs = before ++ v :: after /\ AllAnswer Step (negb b) before s s1 /\ Step v s1 b s'.

(** The elements whose flag is set. *)
Fixpoint selected {A} (l : list A) (flags : list bool) : list A :=
  match l, flags with
  | x :: l, true :: flags => x :: selected l flags
  | _ :: l, false :: flags => selected l flags
  | _, _ => []
  end.
(** The elements with the separator between any two. *)
Inductive Between {A} (sep : A) : list A -> list A -> Prop :=
| Bt_nil : Between sep [] []
| Bt_one x : Between sep [x] [x]
| Bt_cons x y l out : Between sep (y :: l) out -> Between sep (x :: y :: l) (x :: sep :: out).

(** The items of the elements that are lists, and the other elements. *)
Inductive Flattened : list value -> list value -> Prop :=
| Fl_nil : Flattened [] []
| Fl_list l vs out : Flattened vs out -> Flattened (VList l :: vs) (l ++ out)
| Fl_other v vs out : (forall l, v <> VList l) -> Flattened vs out -> Flattened (v :: vs) (v :: out).
(** An optional function parameter: none, or a function. *)
Definition OptFunc (v : value) (f : option func) : Prop := match f with None => v = UNIT | Some f => v = VFunc f end.

(** ** Sorting *)

(** Strings are ordered as in a dictionary, by their characters. *)
Definition StrLe (a b : str) : Prop :=
  (exists rest, b = a ++ rest) \/
  exists p x y a' b', a = p ++ x :: a' /\ b = p ++ y :: b' /\ (x < y)%N.
Inductive KeyLe : value -> value -> Prop :=
| KL_int x y : (x <= y)%Z -> KeyLe (VInt x) (VInt y)
| KL_str x y : StrLe x y -> KeyLe (VStr x) (VStr y).
(** The keys are all integers, or all strings. *)
Definition Comparable (ks : list value) : Prop :=
  (forall k, In k ks -> exists i, k = VInt i) \/ (forall k, In k ks -> exists s, k = VStr s).
Definition IsKey (k : value) : Prop := (exists i, k = VInt i) \/ exists s, k = VStr s.
(** the elements with a given key, in order *)
Inductive WithKey (k : value) : list (value * value) -> list value -> Prop :=
| WK_nil : WithKey k [] []
| WK_take v l out : WithKey k l out -> WithKey k ((k, v) :: l) (v :: out)
| WK_skip k' v l out : k' <> k -> WithKey k l out -> WithKey k ((k', v) :: l) out.
(** [out] has the same elements as [l], ordered by key (the other way round if [reversed]); those with the same key are in the
    same order as in [l]. *)
Definition StablySorted (reversed : bool) (l out : list (value * value)) : Prop :=
  Permutation l out /\
  StronglySorted (fun a b => if reversed then KeyLe (fst b) (fst a) else KeyLe (fst a) (fst b)) out /\
  forall k vs, WithKey k l vs <-> WithKey k out vs.

(** The key of an element: the element itself, or what the key function returns. *)
Definition KeyOf call (key : option func) (src : str) (v : value) (s : st) (k : value) (s' : st) : Prop :=
  match key with
  | None => k = v /\ s' = s
  | Some f => Returns call TAny f src v s k s'
  end.
Definition KeyFails call (key : option func) (src : str) (v : value) (s : st) (e : papyri_error) (s' : st) : Prop :=
  match key with
  | None => False
  | Some f => Fails call TAny f src v s e s'
  end.

(** ** Integers *)

Definition Int64 (z : Z) : Prop := (- 9223372036854775808 <= z <= 9223372036854775807)%Z.
Fixpoint sum (l : list Z) : Z := match l with [] => 0%Z | x :: l => (x + sum l)%Z end.
(** The number a decimal numeral denotes: [value ds] is the sum of the digits times their powers of ten. *)
Fixpoint numeral (ds : str) : Z :=
  match ds with [] => 0%Z | d :: ds => ((Z.of_N d - 48) * 10 ^ Z.of_nat (length ds) + numeral ds)%Z end.
Definition Digits (ds : str) : Prop := ds <> [] /\ Forall (fun d => (48 <= d <= 57)%N) ds.
Definition Denotes (s : str) (i : Z) : Prop :=
  exists ds, Digits ds /\
    ((s = ds /\ i = numeral ds) \/ (s = 43%N :: ds /\ i = numeral ds) \/ (s = 45%N :: ds /\ i = (- numeral ds)%Z)).

(** ** Strings *)

(** [sep] occurs in [s] at the position [i]. *)
Definition OccursAt (sep s : str) (i : nat) : Prop := exists a b, s = a ++ sep ++ b /\ length a = i.
(** The parts of [s] between the leftmost occurrences of [sep]. *)
Inductive SplitBy (sep : str) : str -> list str -> Prop :=
| SB_last s : (forall i, ~ OccursAt sep s i) -> SplitBy sep s [s]
| SB_more a s parts :
    (forall i, OccursAt sep (a ++ sep ++ s) i -> length a <= i) -> SplitBy sep s parts ->
    SplitBy sep (a ++ sep ++ s) (a :: parts).
