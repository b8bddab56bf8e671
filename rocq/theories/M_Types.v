(** Model of /repo/src/parser/types.rs (the types of the Papyri language and their printed form) and of the part of
    /repo/src/compiler/types.rs that does not involve values. *)
From Verif Require Import Base.

(** parser/types.rs:9-55 *)
Inductive ty :=
| TUnit | TAny | THtml | TBlock | TInline | TBool | TInt | TStr | TFunction | TRegex
| TDict (t : ty) | TList (t : ty) | TOptional (t : ty).

(** The derived [PartialEq], parser/types.rs:7 *)
Fixpoint ty_eqb (a b : ty) : bool :=
  match a, b with
  | TUnit, TUnit | TAny, TAny | THtml, THtml | TBlock, TBlock | TInline, TInline | TBool, TBool | TInt, TInt
  | TStr, TStr | TFunction, TFunction | TRegex, TRegex => true
  | TDict a, TDict b | TList a, TList b | TOptional a, TOptional b => ty_eqb a b
  | _, _ => false
  end.

(** parser/types.rs:91-98 *)
Definition unit_is_assignable (t : ty) : bool :=
  match t with TAny | THtml | TBlock | TInline | TUnit | TOptional _ => true | _ => false end.
(** parser/types.rs:71-77 *)
Definition t_option (t : ty) : ty := if unit_is_assignable t then t else TOptional t.
(** parser/types.rs:80-82 *)
Definition t_option_if (t : ty) (c : bool) : ty := if c then t_option t else t.
(** parser/types.rs:86-88 *)
Definition t_is_html (t : ty) : bool := match t with THtml | TBlock | TInline => true | _ => false end.

(** parser/types.rs:101-119 *)
Fixpoint t_display (t : ty) : str :=
  match t with
  | TAny => lit "any" | THtml => lit "html" | TBlock => lit "block" | TInline => lit "inline" | TUnit => lit "none"
  | TBool => lit "bool" | TInt => lit "int" | TStr => lit "str" | TFunction => lit "function" | TRegex => lit "regex"
  | TDict t => t_display t ++ lit " dict"
  | TList t => t_display t ++ lit " list"
  | TOptional t => t_display t ++ lit "?"
  end.

(** compiler/types.rs:13-20 *)
Fixpoint component_type (t : ty) : ty :=
  match t with
  | TDict t | TList t => t
  | TOptional t => component_type t
  | TBlock | THtml => THtml
  | _ => TAny
  end.

(** compiler/types.rs:24-39. The recursive calls are on a component of one or both types; [fuel] (the sum of the sizes)
    makes the definition structural, see [lub] and [lub_unfold]. *)
Fixpoint ty_size (t : ty) : nat :=
  match t with TDict t | TList t | TOptional t => S (ty_size t) | _ => 1 end.
(** compiler/types.rs:24-39 *)
Definition lub_step (rec : ty -> ty -> ty) (a b : ty) : ty :=
  if ty_eqb a b then a
  else if ty_eqb a TAny then b else if ty_eqb b TAny then a
  else if ty_eqb b TUnit then t_option a else if ty_eqb a TUnit then t_option b
  else if t_is_html a && t_is_html b then THtml
  else match a, b with
       | TList a, TList b => TList (rec a b)
       | TDict a, TDict b => TDict (rec a b)
       | TOptional a, TOptional b => t_option (rec a b)
       | TOptional a, b | b, TOptional a => t_option (rec a b)
       | _, _ => TAny
       end.
(** compiler/types.rs:24-39; the code recurses on the types *)
Fixpoint lub_fuel (fuel : nat) : ty -> ty -> ty :=
  match fuel with
  | 0 => fun _ _ => TAny
  | S fuel => lub_step (lub_fuel fuel)
  end.
(** compiler/types.rs:24-39 *)
Definition lub (a b : ty) : ty := lub_fuel (ty_size a + ty_size b) a b.
