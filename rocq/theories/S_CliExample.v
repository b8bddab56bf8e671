(** An example for C42: a host with some files. *)
From Verif Require Import Base M_Names M_Html M_Types M_Diag M_Value M_State M_Native M_Cli S_Example.

Definition ex_host (files : list (str * str)) (stdin : option str) : host := {|
  h_X := fun _ => ex_files_X files; h_cwd := Some (lit "/w"); h_is_dir := fun _ => false; h_canonicalize := fun _ => None;
  h_walk := fun _ => []; h_glob := fun _ => None; h_mtime := fun _ _ => None; h_write := fun _ _ => WritingOk; h_stdin := stdin; h_stdout := true |}.
Definition ex_options (out_dir : option str) (stdin : bool) (paths : list str) : options :=
  Options false false false false false stdin out_dir false paths.
(** A source without errors, one with an error, a library, and two sources that import a module with an error *)
Definition ex_files : list (str * str) :=
  [(lit "b/x.papyri", lit "Hello"); (lit "a.papyri", lit "$y"); (lit "z.lib.papyri", lit "$y");
   (lit "m.papyri", lit "$y"); (lit "p.papyri", lit "@import `m.papyri` x"); (lit "q.papyri", lit "@import `m.papyri` x")].
(** A host whose disk is full: small files can be created, but an error comes when they are closed. *)
Definition ex_full_host (files : list (str * str)) : host := {|
  h_X := fun _ => ex_files_X files; h_cwd := Some (lit "/w"); h_is_dir := fun _ => false; h_canonicalize := fun _ => None;
  h_walk := fun _ => []; h_glob := fun _ => None; h_mtime := fun _ _ => None; h_write := fun _ _ => ClosingFailed; h_stdin := None; h_stdout := true |}.
