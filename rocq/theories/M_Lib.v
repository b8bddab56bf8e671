(** Model of /repo/src/lib.rs: compiling a text. *)
From Verif Require Import Base M_Names M_Html M_Render M_Types M_Diag M_Ast M_Value M_State M_Native M_Eval M_Std.

(** context.rs:43-43 with [http_client = None]: network requests are refused *)
Definition no_network (X : externals) : externals :=
  {| x_checks := x_checks X; x_deunicode := x_deunicode X; x_lower := x_lower X; x_upper := x_upper X; x_regex := x_regex X;
     x_captures := x_captures X; x_captures_iter := x_captures_iter X; x_is_match := x_is_match X; x_find_count := x_find_count X;
     x_split := x_split X; x_decode := x_decode X; x_html_parse := x_html_parse X; x_syntect := x_syntect X; x_fetch := None;
     x_read := x_read X; x_canonicalize := x_canonicalize X; x_list_dir := x_list_dir X |}.

(** The results of [compile_str] (lib.rs:18): a document, or diagnostics *)
Inductive compiled := Document (out : str) | Diagnostics (ds : list papyri_error).
(** lib.rs:18-32. [compile_synthetic] (module_loader.rs:86-89) is [compile] with a name instead of a path. Rendering to a
    vector and reading it as UTF-8 cannot fail: a text is modelled by its characters. *)
Definition compile_str (X : externals) (fuel : nat) (src : str) : outcome compiled :=
  let X := no_network X in
  match context_new X std_papyri fuel LWarning None with
  | Ok _ s =>
    match compile X fuel (lit "<string>") src s with
    | Ok (out, _) s =>
      if sink_is_empty (st_sink s) then Ret (Document (render true out)) else Ret (Diagnostics (sk_v (st_sink s)))
    | Err _ _ => Panic
    | Crash _ => Panic
    | NoFuel => OutOfFuel
    end
  | Err _ _ => Panic
  | Crash _ => Panic
  | NoFuel => OutOfFuel
  end.
