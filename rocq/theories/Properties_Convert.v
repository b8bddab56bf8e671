(** Property theorems C71: conversion of values. *)
From Verif Require Import Base M_Names M_Html S_Html M_Types M_Diag M_Value S_Types S_Native S_Convert P_Html P_Coerce P_Convert1 P_Convert.

(** C71. Where a value of some type is expected, a value is converted exactly by the rules of [Converts] ... *)
Theorem C71_converts : forall t v v', NormalTy t -> WfValue v -> (coerce t v = inl v' <-> Converts t v v').
Proof. exact converts_iff. Qed.
Print Assumptions C71_converts.
(** ... and if they do not apply, the error tells what was expected and what was given at the first place where it fails. *)
Theorem C71_refused : forall t v e, NormalTy t -> WfValue v ->
  (coerce t v = inr e <-> exists expected was, e = TypeErr (ExpectedWas expected was) /\ Refused t v expected was).
Proof. exact refused_iff. Qed.
Print Assumptions C71_refused.
(** As HTML, every value is shown by the rules of [Shown]. *)
Theorem C71_shown : forall v h, WfValue v -> (compile_value v = h <-> Normal h /\ Shown v (events h)).
Proof.
  intros v h W. split.
  - intros <-. split; [now apply normal_value|]. apply shown_html; auto. now apply normal_value.
  - intros [N S]. apply (shown_html v) in S; auto.
Qed.
Print Assumptions C71_shown.

Example C71_nonvacuous :
  let t := TDict (TList TStr) in
  let v := VDict [(lit "a", VList [VInt (-12); VBool true]); (lit "b", VList [VStr (lit "x"); UNIT; VInt 3])] in
  NormalTy t /\ WfValue v /\ Refused t v TStr TUnit /\
  Converts (TDict (TList (TOptional TStr))) v
    (VDict [(lit "a", VList [VStr (lit "-12"); VStr (lit "True")]); (lit "b", VList [VStr (lit "x"); UNIT; VStr (lit "3")])]) /\
  (exists h, Converts TBlock (VInt (-12)) (VHtml h) /\ events h = element "p" [] (txt (minus_sign :: lit "12"))).
Proof.
  cbv zeta.
  assert (N : NormalTy (TDict (TList TStr)) /\ NormalTy (TDict (TList (TOptional TStr))) /\ NormalTy TBlock).
  { assert (S : NormalTy TStr) by (constructor; cbn; tauto). split; [now apply NT_dict, NT_list|]. split; [|constructor; cbn; tauto].
    apply NT_dict, NT_list, NT_option; [exact S|]. intros [A|[A|[A|[A|[A|[? A]]]]]]; discriminate A. }
  assert (W : WfValue (VDict [(lit "a", VList [VInt (-12); VBool true]); (lit "b", VList [VStr (lit "x"); UNIT; VInt 3])])).
  { repeat constructor; cbn; intuition discriminate. }
  destruct N as (N1 & N2 & N3). split; [exact N1|]. split; [exact W|]. split; [|split].
  - assert (exists x a, TypeErr (ExpectedWas TStr TUnit) = TypeErr (ExpectedWas x a) /\
      Refused (TDict (TList TStr)) (VDict [(lit "a", VList [VInt (-12); VBool true]); (lit "b", VList [VStr (lit "x"); UNIT; VInt 3])]) x a) as (x & a & [= <- <-] & R).
    { apply C71_refused; [exact N1|exact W|reflexivity]. }
    exact R.
  - apply C71_converts; [exact N2|exact W|reflexivity].
  - eexists. split; [apply C71_converts; [exact N3|constructor|reflexivity]|reflexivity].
Qed.
