(** Specification for C86: content made of several parts, one after the other. *)
From Verif Require Import Base M_TagInfo M_Html M_Ast M_State M_Native M_Eval S_Expr.

(** [Made X trees s h s']: the trees are compiled one after the other, each in the state which the one before leaves, and their
    contents, one after the other, are the content [h]. *)
Inductive Made (X : externals) : list (list node) -> st -> html -> st -> Prop :=
| made_one tree s h s' : Makes X (RequireBlock (lit "p")) None tree s h s' -> Made X [tree] s h s'
| made_more tree trees s hs1 s1 hs2 s' : Makes X (RequireBlock (lit "p")) None tree s (from_iter hs1) s1 -> Made X trees s1 (from_iter hs2) s' ->
    Made X (tree :: trees) s (from_iter (hs1 ++ hs2)) s'.
