(** The scopes of the standard library (C61). *)
From Verif Require Import Base BaseFacts M_Text M_Names M_TagInfo M_Html M_HtmlParse M_Sequence M_Path M_Types M_Diag M_Ast M_Value M_State M_Matcher M_Binder M_Native M_Eval M_Std.
From Verif Require Import S_Html S_Sequence P_Html P_Sequence P_Stable S_Scope P_Built P_State P_Scope S_Lib P_Std S_Std.

(** ** The scopes of the standard library *)
Definition std_heap : list frame :=
  Eval vm_compute in
  match compile_sequence (step (Ext true (fun s => s) (fun s => s) (fun s => s) (fun _ => None) (fun _ _ => None) (fun _ _ => [])
      (fun _ _ => false) (fun _ _ => 0) (fun _ s => [s]) (fun s => s) (fun _ => ([], DComment)) (fun _ _ => None) None
      (fun _ => None) (fun _ => None) (fun _ => None)) (evals_n (Ext true (fun s => s) (fun s => s) (fun s => s) (fun _ => None) (fun _ _ => None) (fun _ _ => [])
      (fun _ _ => false) (fun _ _ => 0) (fun _ s => [s]) (fun s => s) (fun _ => ([], DComment)) (fun _ _ => None) None
      (fun _ => None) (fun _ => None) (fun _ => None)) 40)) std_ast RequireEmpty None (set_stack [1] (set_heap [native_frame; Frame (Some 0) [] []] (context_start LWarning None))) with
  | Ok _ s => st_heap s ++ [Frame (Some 0) (st_exports s) []]
  | _ => []
  end.
Lemma std_heap_plus X fuel level out : x_regex X std_regex <> None ->
  exists s, context_new X std_papyri (40 + fuel) level out = Ok tt s /\ st_heap s = std_heap /\ st_root s = 2.
Proof.
  intro H. unfold context_new, compile_stdlib, compile_source, bind at 1. unfold bind at 1. unfold pure, parse_source. rewrite std_parses by (destruct (x_regex X std_regex); congruence).
  destruct level, out; vm_compute; (eexists; split; [reflexivity|split; reflexivity]).
Qed.
Lemma starts_heap s : Starts s -> st_heap s = std_heap /\ st_root s = 2.
Proof.
  intros (X & fuel & level & out & H & L & E). replace fuel with (40 + (fuel - 40)) in E by lia.
  destruct (std_heap_plus X (fuel - 40) level out H) as (s' & E' & Hh & Hr). rewrite E' in E. inversion E; subst. auto.
Qed.
