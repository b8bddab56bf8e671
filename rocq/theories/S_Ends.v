(** Specification for C67: evaluation with a limit on the nesting of calls, and programs without calls. *)
From Verif Require Import Base M_Names M_TagInfo M_Types M_Diag M_Ast M_Value M_State M_Eval M_Html M_Sequence M_Native.

(** ** A limit on the nesting of calls
    [limited X d fuel] evaluates as [evals_n X fuel] does, but a function call nested in [d] others gives [Crash FStdlib]
    (evaluation has no such crash of its own). As for [evals_n], [fuel] bounds the recursion. *)
Fixpoint limited_node (X : externals) (call : nat -> func -> nmap value -> ty -> str -> EM value) (fuel : nat) : expr -> ty -> EM value :=
  match fuel with
  | 0 => fun _ _ _ => NoFuel
  | S fuel => evaluate_node X (Evals (limited_node X call fuel) (call fuel))
  end.
Fixpoint limited_call (X : externals) (d : nat) (fuel : nat) : func -> nmap value -> ty -> str -> EM value :=
  match d with
  | 0 => fun _ _ _ _ => crash FStdlib
  | S d =>
    match fuel with
    | 0 => fun _ _ _ _ _ => NoFuel
    | S fuel => evaluate_call X (Evals (limited_node X (limited_call X d) fuel) (limited_call X d fuel))
    end
  end.
Definition limited (X : externals) (d fuel : nat) : evals := Evals (limited_node X (limited_call X d) fuel) (limited_call X d fuel).
(** Compiling a source file with this limit *)
Definition compile_limited (X : externals) (d fuel : nat) (path text : str) : EM (html * nmap value) :=
  compile_source X (limited X d fuel) path text (RequireBlock n_p).

(** ** Programs without calls
    Whether evaluating it may call a function. The body of a function definition is not evaluated by the definition. *)
Fixpoint calls_expr (e : expr) : bool :=
  match e with
  | EUnit | EBool _ | EInt _ | EBareString _ | EVerbatim _ | ETemplate _ | EName _ => false
  | EFuncCall _ _ _ _ => true
  | EFuncDef d => calls_def d
  | ELetIn l => calls_let l
  | EMatch e bs => calls_expr e || existsb (fun b => calls_pattern (fst b) || calls_expr (snd b)) bs
  | EGroup ns => existsb calls_node ns
  | EList l => existsb (fun x => calls_expr (fst x)) l
  | ETag _ l ns => existsb calls_attr l || existsb calls_node ns
  end
with calls_def (d : func_def) : bool := match d with FuncDef _ (Signature ps _ _ _ _ _) _ => existsb calls_param ps end
with calls_param (p : param) : bool := match p with Param _ _ _ _ (Some e) => calls_expr e | Param _ _ _ _ None => false end
with calls_let (l : let_in) : bool := match l with LetIn _ vs e => existsb (fun x => calls_expr (snd x)) vs || calls_expr e end
with calls_attr (t : tag_attr) : bool :=
  match t with TAttr _ _ (Some e) | TSpread e => calls_expr e | TAttr _ _ None => false end
with calls_pattern (p : pattern) : bool :=
  match p with
  | PEquals e => calls_expr e
  | PAnd p q | POr p q _ => calls_pattern p || calls_pattern q
  | PExactList ps | PSpreadList ps _ | PExactHtml ps | PSpreadHtml ps _ => existsb calls_pattern ps
  | PDict l r => existsb (fun x => calls_pattern (snd x)) l || match r with Some p => calls_pattern p | None => false end
  | PTag p q r => calls_pattern p || calls_pattern q || calls_pattern r
  | PIgnore | PLiteralNone | PLiteralName _ | PVarName _ | PRegex _ _ | PTyped _ | PTypeOf _ => false
  end
with calls_node (n : node) : bool :=
  match n with
  | AExport e => calls_export e
  | AExpr e => calls_expr e
  | AFuncDef d => calls_def d
  | ACodeFence _ _ _ => true
  | AText _ | AChar _ | AWhitespace | AParagraphBreak => false
  end
with calls_export (e : M_Ast.export) : bool :=
  match e with
  | ExNames vs => existsb (fun x => calls_expr (snd x)) vs
  | ExLetIn l => calls_let l
  | ExFuncDef d => calls_def d
  end.
