(** Specification for C24: the pieces of content a text consists of. *)
From Verif Require Import Base M_Text M_Names M_TagInfo M_Html M_Sequence M_Types M_Token M_Diag M_Ast M_Value M_State M_Matcher M_Binder M_Native M_Eval S_Expr.

(** [Gives X ns s items s']: the nodes, one after the other, give these pieces. A node that fails gives no piece, and the others the
    same as without it. ([Adds], [Effects], [Breaks]: S_Expr.) *)
Inductive Gives (X : externals) : list node -> st -> list item -> st -> Prop :=
| gv_nil s : Gives X [] s [] s
| gv_adds n ns s i s1 items s' : Adds X n s i s1 -> Gives X ns s1 items s' -> Gives X (n :: ns) s (i :: items) s'
| gv_effects n ns s s1 items s' : Effects X n s s1 -> Gives X ns s1 items s' -> Gives X (n :: ns) s items s'
| gv_breaks n ns s e s1 items s' : Breaks X n s e s1 -> Gives X ns (reported e s1) items s' -> Gives X (n :: ns) s items s'.
