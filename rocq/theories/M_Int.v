(** 64-bit signed integer arithmetic ([value::Int] is [i64], value.rs:13). *)
From Verif Require Import Base.

(** the range of [i64] (value.rs:13) *)
Definition i64_ok (z : Z) : bool := ((- 2 ^ 63 <=? z) && (z <? 2 ^ 63))%Z.
(** [i64] arithmetic without overflow checks (value.rs:13) *)
Definition i64_wrap (z : Z) : Z := ((z + 2 ^ 63) mod 2 ^ 64 - 2 ^ 63)%Z.
(** The result of an addition or negation whose exact result is [z]. Out of range it panics when overflow checks are
    compiled in ([checks], the default of debug builds), and wraps around otherwise (the default of release builds,
    Cargo.toml:16-20). *)
Definition i64 (checks : bool) (z : Z) : outcome Z :=
  if i64_ok z then Ret z else if checks then Panic else Ret (i64_wrap z).
