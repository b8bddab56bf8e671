(** What scopes, lookup and the effects of evaluation mean, for the properties about evaluation. *)
From Verif Require Import Base M_Names M_Html M_Path M_Types M_Diag M_Value M_State.

(** A scope's parent was created before the scope. *)
Definition WellScoped (h : list frame) : Prop :=
  forall i f p, nth_error h i = Some f -> fr_parent f = Some p -> p < i.
(** The scopes around a point of the program: scope [i], then the scopes that enclose it, innermost first. *)
Inductive Enclosing (h : list frame) : nat -> list nat -> Prop :=
| enc_top i f : nth_error h i = Some f -> fr_parent f = None -> Enclosing h i [i]
| enc_in i f p is : nth_error h i = Some f -> fr_parent f = Some p -> Enclosing h p is -> Enclosing h i (i :: is).
(** Scope [i] binds the name [n] to the value [v]. *)
Definition BindsAt (h : list frame) (i : nat) (n : str) (v : value) : Prop :=
  exists f, nth_error h i = Some f /\ ngetm (fr_locals f) n = Some v.
(** ... by an implicit declaration *)
Definition BindsImplicitlyAt (h : list frame) (i : nat) (n : str) (v : value) : Prop :=
  exists f, nth_error h i = Some f /\ ngetm (fr_locals f) n = Some v /\ In n (fr_implicit f).
(** The first scope of the list for which [B] gives a value gives [v]. *)
Definition Innermost (B : nat -> value -> Prop) (is : list nat) (v : value) : Prop :=
  exists inner i outer, is = inner ++ i :: outer /\ B i v /\ (forall j, In j inner -> forall w, ~ B j w).
Definition Nowhere (B : nat -> value -> Prop) (is : list nat) : Prop := forall i, In i is -> forall w, ~ B i w.

(** In scope [i] of heap [h] the name [n] means [v]. *)
Definition Means (h : list frame) (i : nat) (n : str) (v : value) : Prop :=
  exists is, Enclosing h i is /\ Innermost (fun j => BindsAt h j n) is v.
Definition MeansNothing (h : list frame) (i : nat) (n : str) : Prop :=
  exists is, Enclosing h i is /\ Nowhere (fun j => BindsAt h j n) is.
Definition MeansImplicitly (h : list frame) (i : nat) (n : str) (v : value) : Prop :=
  exists is, Enclosing h i is /\ Innermost (fun j => BindsImplicitlyAt h j n) is v.
Definition MeansNothingImplicitly (h : list frame) (i : nat) (n : str) : Prop :=
  exists is, Enclosing h i is /\ Nowhere (fun j => BindsImplicitlyAt h j n) is.

(** The state of a running compiler: scopes are well-founded, and the scopes on the call stack, and the one around source
    files, exist. *)
Definition Running (s : st) : Prop :=
  WellScoped (st_heap s) /\ st_root s < length (st_heap s) /\ Forall (fun i => i < length (st_heap s)) (st_stack s).

(** The state after a computation that returned, normally or with an error *)
Definition after {A} (r : res A) : option st := match r with Ok _ s | Err _ s => Some s | Crash _ | NoFuel => None end.

(** No scope but the current one has changed; new scopes may have been created. *)
Definition SameElsewhere (s s' : st) : Prop :=
  st_stack s' = st_stack s /\ st_root s' = st_root s /\ length (st_heap s) <= length (st_heap s') /\
  forall i f, nth_error (st_heap s) i = Some f -> exists f', nth_error (st_heap s') i = Some f' /\
    fr_parent f' = fr_parent f /\ (hd_error (st_stack s) <> Some i -> f' = f).
(** ... not even the current one *)
Definition SameScopes (s s' : st) : Prop :=
  st_stack s' = st_stack s /\ st_root s' = st_root s /\
  exists new, st_heap s' = st_heap s ++ new.

(** The same result, with another call stack *)
Definition restack {A} (k : list nat) (r : res A) : res A :=
  match r with
  | Ok a s => Ok a (set_stack k s)
  | Err e s => Err e (set_stack k s)
  | Crash c => Crash c
  | NoFuel => NoFuel
  end.

(** At least one error was recorded. *)
Definition HasError (s : st) : Prop := (0 < sk_errors (st_sink s))%N.

(** A function written in the language itself (not a native one), possibly with arguments already bound *)
Inductive IsClosure : func -> Prop :=
| closure_base n c sig body : IsClosure (FClosure n c sig body)
| closure_bound f p : IsClosure f -> IsClosure (FBound f p).

(** When a source is compiled: one scope, inside the outermost one, and no exports *)
Definition new_compiler (s : st) : st :=
  set_stack [length (st_heap s)] (set_exports [] (set_heap (st_heap s ++ [Frame (Some (st_root s)) [] []]) s)).
