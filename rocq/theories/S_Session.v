(** Specification for C47, C57 and C58: the states of the compiler between compilations. *)
From Verif Require Import Base M_Text M_Token M_Tokenizer M_Names M_Html M_Path M_Types M_Diag S_Html M_Ast M_Parser M_Value M_State M_Native M_Eval M_Std S_Grammar S_Types S_Scope S_Safe.

(** What is assumed of the library for regular expressions, where [groups] is the number of groups of each: a match has a
    text for each group and one for all of it, and the groups in the regular expression for a template are its variables. *)
Record RegexLibrary (X : externals) (groups : str -> nat) : Prop := {
  rl_captures : GroupsAre X groups;
  rl_templates : forall ps, Forall SimplePart ps -> x_regex X (regex_text regex_escape ps) <> None ->
    groups (regex_text regex_escape ps) = length (regex_vars ps)
}.
(** The program [text] follows the discipline. *)
Definition Disciplined (X : externals) (T : list (str * ty)) (path text : str) : Prop :=
  forall root errs, parse_source X path text = Ret (root, errs) -> forallb (every_node (discipline T)) root = true.
(** The environment and programs are unrestricted in mode [Lax]. In mode [Plain], the library for HTML gives names that can
    be written in HTML, and void elements without content. In mode [Strict], the library behaves, the table has the
    native functions' implicit parameter, and the programs in all files follow the discipline. *)
Definition Environment (m : mode) (X : externals) : Prop :=
  match m with
  | Lax => True
  | Plain => forall s, PlainDom (x_lower X) (snd (x_html_parse X s))
  | Strict groups T =>
    RegexLibrary X groups /\ ngetm T (lit "language") = Some (TOptional TStr) /\
    forall path text, x_read X path = Some text -> Disciplined X T path text
  end.
Definition Program (m : mode) (X : externals) (path text : str) : Prop :=
  match m with Strict _ T => Disciplined X T path text | _ => True end.

(** The states of a compiler that is in use: at first, the standard library is compiled; then, any number of times and in
    any order, a text or a file is compiled, the collected files are taken out, and the compiler is reset. What the
    environment [X] answers may change in between. *)
Inductive Session (m : mode) : st -> Prop :=
| ses_new X fuel level out s : Environment m X -> x_regex X (lit "^(?s:(.+?)/)$") <> None -> Program m X (lit "<stdlib>") std_papyri ->
    context_new X std_papyri fuel level out = Ok tt s -> Session m s
| ses_text X fuel path text s r s' : Session m s -> Environment m X -> Program m X path text ->
    compile X fuel path text s = Ok r s' -> Session m s'
| ses_file X fuel path s s' : Session m s -> Environment m X -> after (load_uncached X (evals_n X fuel) path s) = Some s' -> Session m s'
| ses_take s o : Session m s -> st_out s = Some o -> Session m (set_out (Some (snd (take_iter o))) s)
| ses_reset s s' : Session m s -> reset s = Ok tt s' -> Session m s'.

(** For the examples: the number of groups of a regular expression in which there are no character classes: opening
    parentheses that are neither escaped nor followed by a question mark *)
Fixpoint groups_in (s : str) : nat :=
  match s with
  | [] => 0
  | c :: t =>
    if (c =? c_of "\")%N then match t with [] => 0 | _ :: t => groups_in t end
    else if (c =? c_of "(")%N then (match t with d :: _ => if (d =? c_of "?")%N then 0 else 1 | [] => 1 end) + groups_in t
    else groups_in t
  end.
Definition ex_table : list (str * ty) := [(lit "language", TOptional TStr)].
