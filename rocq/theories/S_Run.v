(** What can happen in one run of the compiler, after some point of it. *)
From Verif Require Import Base M_Names M_Html M_Path M_Types M_Diag M_Ast M_Value M_State M_Native M_Eval S_Scope.

Section Run.
  Variable X : externals.
  (** Expressions are evaluated, functions called, modules loaded, and further documents compiled, whether with success or not. *)
  Inductive Later : st -> st -> Prop :=
  | later_now s : Later s s
  | later_eval fuel e t s s1 s2 : after (e_node (evals_n X fuel) e t s) = Some s1 -> Later s1 s2 -> Later s s2
  | later_call fuel f bs t src s s1 s2 :
      after (e_call (evals_n X fuel) f bs t src s) = Some s1 -> Later s1 s2 -> Later s s2
  | later_load fuel path s s1 s2 :
      after (load_cached X (evals_n X fuel) path s) = Some s1 -> Later s1 s2 -> Later s s2
  | later_compile fuel path text s s1 s2 :
      after (compile X fuel path text s) = Some s1 -> Later s1 s2 -> Later s s2
  | later_reset s s1 s2 : after (reset s) = Some s1 -> Later s1 s2 -> Later s s2.
End Run.

(** A module that is being compiled *)
Definition InProgress (k : str) (s : st) : Prop := ngetm (st_mods s) k = Some MBusy.
(** The state in which the source of module [k] is compiled, having asked for it in state [s]: it is in progress, there
    is no output collector; the rest is as it was. *)
Definition WhileLoading (k : str) (s s' : st) : Prop :=
  InProgress k s' /\ st_out s' = None /\ st_heap s' = st_heap s /\ st_stack s' = st_stack s /\ st_sink s' = st_sink s /\
  st_exports s' = st_exports s /\ st_uids s' = st_uids s /\ st_root s' = st_root s /\
  (forall j, j <> k -> ngetm (st_mods s') j = ngetm (st_mods s) j).
