(** Model of /repo/src/parser/ast.rs: the syntax tree. Source spans are left out, except that nodes which read the source
    text through their span (bare strings, verbatim strings, template literals, code fences) hold that text, and function
    calls and code fences hold the path of the source file they occur in (used to resolve relative paths, native.rs:552-565). *)
From Verif Require Import Base M_Names M_Types.

(** ast.rs:194-198 *)
Inductive spread_kind := NoSpread | PosSpread | NamedSpread.

(** ast.rs:433-439, 466-506: a variable, an attribute [subject::attr] or an element [subject::index]; the flag says
    whether the access is written [?::]. *)
Inductive name_expr :=
| NSimple (n : str)
| NAttr (subject : name_expr) (coalescing : bool) (attr : str)
| NIndex (subject : name_expr) (coalescing : bool) (index : Z).
(** ast.rs:454-463 *)
Fixpoint is_coalescing (n : name_expr) : bool :=
  match n with
  | NSimple _ => false
  | NAttr s c _ => if c then true else is_coalescing s
  | NIndex s c _ => if c then true else is_coalescing s
  end.

(** ast.rs:216-230 *)
Inductive template_part :=
| TPLit (s : str)
| TPChar (c : char)
| TPName (n : name_expr)
| TPWhitespace.

(** ast.rs:38-44 *)
Inductive tag_name :=
| TNLit (n : str)
| TNName (n : name_expr).

Inductive expr :=                                                                     (* ast.rs:510-552 *)
| EUnit
| EBool (b : bool)
| EInt (i : Z)
| EBareString (s : str)
| EVerbatim (s : str)                                        (* the token text, quotes included *)
| EFuncCall (src : str) (f : name_expr) (args : list arg) (content : expr)            (* ast.rs:200-214 *)
| EFuncDef (d : func_def)
| ELetIn (l : let_in)
| EMatch (value : expr) (branches : list (pattern * expr))                            (* ast.rs:239-250 *)
| EGroup (children : list node)
| EList (children : list (expr * bool))
| ETemplate (parts : list template_part)
| ETag (name : tag_name) (attrs : list tag_attr) (children : list node)               (* ast.rs:47-61 *)
| EName (n : name_expr)
with arg :=                                                                           (* ast.rs:162-178 *)
| Arg (name : str) (kind : spread_kind) (value : expr)
with func_def :=                                                                      (* ast.rs:107-121 *)
| FuncDef (name : str) (s : signature) (body : expr)
with signature :=                                                                     (* ast.rs:87-105 *)
| Signature (params : list param) (positional_count : nat) (positional_spread : bool) (named_count : nat)
            (named_spread has_content : bool)
with param :=                                                                         (* ast.rs:63-85 *)
| Param (name : str) (question_mark is_implicit : bool) (t : ty) (default : option expr)
with let_in :=                                                                        (* ast.rs:123-137 *)
| LetIn (is_implicit : bool) (vars : list (str * expr)) (child : expr)
with tag_attr :=                                                                      (* ast.rs:9-35 *)
| TAttr (name : str) (question_mark : bool) (value : option expr)
| TSpread (value : expr)
with pattern :=                                                                       (* ast.rs:252-345 *)
| PIgnore
| PLiteralNone
| PLiteralName (n : str)
| PVarName (n : str)
| PEquals (e : expr)
| PAnd (p q : pattern)
| POr (p q : pattern) (names : list str)
| PRegex (regex : str) (names : list str)
| PTyped (t : ty)
| PTypeOf (n : str)
| PExactList (ps : list pattern)
| PSpreadList (ps : list pattern) (spread : nat)
| PDict (attrs : list (str * pattern)) (spread : option pattern)
| PTag (name attrs content : pattern)
| PExactHtml (ps : list pattern)
| PSpreadHtml (ps : list pattern) (spread : nat)
with node :=                                                                          (* ast.rs:583-607 *)
| AExport (e : export)
| AExpr (e : expr)
| AFuncDef (d : func_def)
| ACodeFence (src : str) (text : str) (is_multiline : bool)
| AText (s : str)
| AChar (c : char)
| AWhitespace
| AParagraphBreak
with export :=                                                                        (* ast.rs:139-150 *)
| ExNames (vars : list (str * expr))
| ExLetIn (l : let_in)
| ExFuncDef (d : func_def).

(** ast.rs:576-578 *)
Definition expr_is_literal (e : expr) : bool :=
  match e with EUnit | EBool _ | EInt _ | EBareString _ | EVerbatim _ => true | _ => false end.
(** ast.rs:626-633 *)
Definition node_is_whitespace (n : node) : bool :=
  match n with
  | AWhitespace | AParagraphBreak => true
  | AChar c => is_ascii_whitespace c
  | _ => false
  end.

(** ast.rs:374-413: the names a pattern binds, as the set (list without duplicates, in insertion order) [out]. *)
Definition set_add (n : str) (out : list str) : list str := if mem n out then out else out ++ [n].
(** ast.rs:374-413 *)
Fixpoint get_name_ids (p : pattern) (out : list str) : list str :=
  let all := (fix go ps out := match ps with [] => out | p :: ps => go ps (get_name_ids p out) end) in
  match p with
  | PVarName n | PTypeOf n => set_add n out
  | PAnd p q => get_name_ids q (get_name_ids p out)
  | POr _ _ names | PRegex _ names => fold_left (fun out n => set_add n out) names out
  | PTag n a c => get_name_ids c (get_name_ids a (get_name_ids n out))
  | PExactList ps | PSpreadList ps _ | PExactHtml ps | PSpreadHtml ps _ => all ps out
  | PDict attrs spread =>
    let out := (fix go attrs out := match attrs with
                                    | [] => out
                                    | (_, p) :: attrs => go attrs (get_name_ids p out)
                                    end) attrs out in
    match spread with Some p => get_name_ids p out | None => out end
  | PIgnore | PLiteralNone | PLiteralName _ | PEquals _ | PTyped _ => out
  end.

(** ast.rs:417-429 *)
Fixpoint can_match_html (p : pattern) : bool :=
  match p with
  | PAnd p q | POr p q _ => can_match_html p && can_match_html q
  | PEquals (EBool _) | PEquals (EInt _) | PEquals (EList _) => false
  | PExactList _ | PSpreadList _ _ | PDict _ _ => false
  | _ => true
  end.
