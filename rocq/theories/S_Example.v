(** A small environment for the examples: two files that import each other, and one that writes a file. *)
From Verif Require Import Base M_Names M_Html M_HtmlParse M_Path M_Types M_Diag M_Ast M_Value M_State M_Native M_Eval.

Definition ex_files : list str := [lit "a.papyri"; lit "b.papyri"; lit "w.papyri"].
Definition ex_text (path : str) : str :=
  if str_eqb path (lit "a.papyri") then lit "@import ""b"" @export(x=1)."
  else if str_eqb path (lit "b.papyri") then lit "@import ""a"" @export(y=2)."
  else lit "hello".
Definition ex_X : externals :=
  {| x_checks := true; x_deunicode := fun s => s; x_lower := List.map to_ascii_lower; x_upper := fun s => s;
     x_regex := fun _ => None; x_captures := fun _ _ => None; x_captures_iter := fun _ _ => []; x_is_match := fun _ _ => false;
     x_find_count := fun _ _ => 0; x_split := fun _ s => [s]; x_decode := fun _ => [];
     x_html_parse := fun s => ([], DDocument [DText s]); x_syntect := fun _ _ => None;
     x_fetch := None;
     x_read := fun p => if mem p ex_files then Some (ex_text p) else None;
     x_canonicalize := fun p => if mem p ex_files then Some p else None;
     x_list_dir := fun _ => None |}.
(** `@import "f"` and `@write_file...`, as syntax trees; [$x] *)
Definition ex_call (f : string) (content : string) : expr := EFuncCall (lit "main.papyri") (NSimple (lit f)) [] (EBareString (lit content)).
Definition ex_var (n : string) : expr := EName (NSimple (lit n)).
Definition ex_let (n : string) (e body : expr) : expr := ELetIn (LetIn false [(lit n, e)] body).
Definition ex_start : st := context_start LWarning (Some (lit "out")).
(** with one scope on the call stack, in which [x] is 1, inside one in which [x] is 5 and [y] is implicitly 2 *)
Definition ex_scoped : st :=
  set_stack [2] (set_heap [native_frame; Frame (Some 0) [(lit "x", VInt 5); (lit "y", VInt 2)] [lit "y"]; Frame (Some 1) [(lit "x", VInt 1)] []] ex_start).
(** An environment with the given files, where every regular expression is accepted *)
Definition ex_files_X (files : list (str * str)) : externals :=
  {| x_checks := true; x_deunicode := fun s => s; x_lower := List.map to_ascii_lower; x_upper := fun s => s;
     x_regex := fun _ => Some []; x_captures := fun _ _ => None; x_captures_iter := fun _ _ => []; x_is_match := fun _ _ => false;
     x_find_count := fun _ _ => 0; x_split := fun _ s => [s]; x_decode := fun _ => []; x_html_parse := fun s => ([], DDocument [DText s]); x_syntect := fun _ _ => None;
     x_fetch := None;
     x_read := ngetm files;
     x_canonicalize := fun p => if mem p (List.map fst files) then Some p else None;
     x_list_dir := fun _ => None |}.
