(** Examples for C47, C57, C58 and C32: programs, an environment and a state. *)
From Verif Require Import Base M_Names M_Types M_Diag M_Ast M_Value M_State M_Native M_Eval S_Session S_Example.

Definition ex_coalescing : str := lit "@let(n=.) @list::filter(@fn $_x -> @n?::y.) [1]".
Definition ex_implicit : str := lit "@implicit(language=5) {`x`}".
Definition ex_same_name : str := lit "@fn f($x: int) $x: str -> $x @f hello".
(** a file, and programs that use it *)
Definition ex_library_text : str := lit "@export @fn twice($_f: function) $x: int -> {@_f $x @_f $x}".
Definition ex_library_X : externals := ex_files_X [(lit "a.papyri", ex_library_text)].
Definition ex_program : str := lit "@implicit(language=text, y=3) {@let(n=2, lib=@import ""a"") {`x` @list::map(@fn $x: int -> {<b>$x</b>}) [1, $n] @match abc {'a$x' -> $x, _ -> c} @fn g($y: @implicit int) $z -> {$z $y} @g d @lib::twice(@fn $q -> $q) 4}}".
(** code whose first line begins with an ideographic space: the compiler panics for a remaining cause (C08) *)
Definition ex_remaining : str := lit "```" ++ [12288; 97]%N ++ lit "```".
Definition ex_table_y : list (str * ty) := (lit "y", TInt) :: ex_table.
(** where code is running, in a scope in which [x] is 5 *)
Definition ex_running : st := set_stack [1] (set_heap [native_frame; Frame (Some 0) [(lit "x", VInt 5)] []] (context_start LWarning None)).
