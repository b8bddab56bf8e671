(** Model of /repo/src/compiler/render.rs. Writing to the output writer is concatenation (write errors, lines 24-79,
    abort rendering and are not modelled). *)
From Verif Require Import Base M_Text M_Names M_TagInfo M_Html.

(** render.rs:56-57: [replace('_', "-")] *)
Definition attr_display (k : str) : str := List.map (fun c => if (c =? 95)%N then 45%N else c) k.
(** render.rs:55-62 *)
Definition render_attr (kv : str * option str) : str :=
  lit " " ++ attr_display (fst kv)
  ++ match snd kv with
     | Some v => lit "=""" ++ encode_entities v true ++ lit """"
     | None => []
     end.
(** render.rs:23-80; U+2015 is 8213. *)
Fixpoint render (as_html : bool) (h : html) : str :=
  match h with
  | HTag name attrs content =>
    (if as_html then lit "<" ++ name ++ flat_map render_attr attrs ++ lit ">" else [])
    ++ render as_html content
    ++ (if negb as_html then
          if str_eqb name n_p then [10%N; 10%N]
          else if str_eqb name n_hr then [10%N; 8213%N; 10%N; 10%N]
          else if is_block_name name then [10%N]
          else []
        else if negb (is_self_closing name) then lit "</" ++ name ++ lit ">"
        else if str_eqb name n_doctype then [10%N]
        else [])
  | HSeq l => flat_map (render as_html) l
  | HText t => if as_html then encode_entities t false else t
  | HWhitespace => [32%N]
  | HRawNewline => [10%N]
  | HEmpty => []
  end.
