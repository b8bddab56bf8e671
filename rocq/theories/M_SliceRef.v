(** Model of /repo/src/utils/sliceref.rs. *)
From Verif Require Import Base.

(** sliceref.rs:8-12. Simplification: offsets are unbounded naturals (u32 in the code, so lists are shorter than 2^32). *)
Record slice_ref (A : Type) := SliceRef { original : list A; sr_a : nat; sr_b : nat }.
Arguments SliceRef {A}. Arguments original {A}. Arguments sr_a {A}. Arguments sr_b {A}.

Section SliceRef.
  Context {A : Type}.
  (** sliceref.rs:14-20 *)
  Definition sr_from (l : list A) : slice_ref A := SliceRef l 0 (List.length l).
  (** sliceref.rs:22-26, [&original[a..b]]: panics unless [a <= b <= original.len()]. *)
  Definition sr_as_ref (s : slice_ref A) : outcome (list A) :=
    if (sr_a s <=? sr_b s) && (sr_b s <=? List.length (original s))
    then Ret (firstn (sr_b s - sr_a s) (skipn (sr_a s) (original s)))
    else Panic.
  (** sliceref.rs:30-32, [&original[a + i]]: panics when out of range of the original slice. *)
  Definition sr_get (s : slice_ref A) (i : nat) : outcome A :=
    match nth_error (original s) (sr_a s + i) with Some x => Ret x | None => Panic end.
  (** sliceref.rs:35-37 *)
  Definition sr_is_empty (s : slice_ref A) : bool := sr_a s =? sr_b s.
  (** sliceref.rs:40-42 (a subtraction that cannot underflow while [a <= b]) *)
  Definition sr_len (s : slice_ref A) : nat := sr_b s - sr_a s.
  (** sliceref.rs:46-54; note the bound is checked against the original slice, not against this one. *)
  Definition sr_slice (s : slice_ref A) (a b : nat) : outcome (slice_ref A) :=
    if (b <? a) || (List.length (original s) <? sr_a s + b) then Panic
    else Ret (SliceRef (original s) (sr_a s + a) (sr_a s + b)).

  (** names.rs:51-61, [Compiler::list_get]: element, or [None] for IndexOutOfRange. Indices are i64 values; the
      additions cannot overflow since [-n <= i < 0] there. *)
  Definition list_get (s : slice_ref A) (i : Z) : outcome (option A) :=
    let n := Z.of_nat (sr_len s) in
    if ((0 <=? i) && (i <? n))%Z then obind (sr_get s (Z.to_nat i)) (fun x => Ret (Some x))
    else if ((- n <=? i) && (i <? 0))%Z then obind (sr_get s (Z.to_nat (i + n))) (fun x => Ret (Some x))
    else Ret None.

  (** native.rs:323-331, [list::slice]. [end_] is the optional second argument. *)
  Definition native_slice (s : slice_ref A) (start : Z) (end_ : option Z) : outcome (slice_ref A) :=
    let n := Z.of_nat (sr_len s) in
    let e := match end_ with Some e => e | None => n end in
    let a := (if start <? 0 then Z.max 0 (start + n) else Z.min start n)%Z in
    let b := (if e <? 0 then Z.max 0 (e + n) else Z.min e n)%Z in
    sr_slice s (Z.to_nat (Z.min a b)) (Z.to_nat b).
End SliceRef.
