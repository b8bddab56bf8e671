(** Model of /repo/src/compiler/html.rs, and of the data type of compiler/tag.rs. *)
From Verif Require Import Base M_Text M_Names M_TagInfo.

(** html.rs:16-38 and tag.rs:16-20. A tag has a name, attributes (an insertion-ordered map to optional values, distinct
    keys) and content. *)
Inductive html :=
| HEmpty
| HTag (name : str) (attrs : nmap (option str)) (content : html)
| HSeq (l : list html)
| HText (s : str)
| HWhitespace
| HRawNewline.

(** html.rs:64-71 *)
Definition html_text (s : str) : html :=
  match s with
  | [] => HEmpty
  | [c] => if (c =? 32)%N then HWhitespace else if (c =? 10)%N then HRawNewline else HText s
  | _ => HText s
  end.
(** html.rs:75-82 *)
Definition html_tag (name : str) (content : html) : html := HTag name [] content.
(** html.rs:80-82 *)
Definition in_tag (h : html) (name : str) : html := html_tag name h.
(** html.rs:86-88 *)
Definition html_is_empty (h : html) : bool := match h with HEmpty => true | _ => false end.

(** html.rs:99-109 *)
Fixpoint block_kind (h : html) : option str :=
  match h with
  | HTag name _ content =>
    if str_eqb name n_a then block_kind content
    else if is_block_name name then Some name else None
  | HSeq l =>
    (fix find_map l := match l with
                       | [] => None
                       | x :: l => match block_kind x with Some n => Some n | None => find_map l end
                       end) l
  | _ => None
  end.
(** html.rs:93-95 *)
Definition html_is_block (h : html) : bool := match block_kind h with Some _ => true | None => false end.
(** html.rs:114-125 *)
Fixpoint html_is_inline (h : html) : bool :=
  match h with
  | HText _ | HWhitespace | HRawNewline => true
  | HTag name _ _ => negb (is_block_name name)
  | HSeq l => forallb html_is_inline l
  | HEmpty => false
  end.
(** html.rs:129-139 *)
Definition html_is_whitespace (h : html) : bool :=
  match h with
  | HEmpty | HWhitespace | HRawNewline => true
  | HText t => is_whitespace t
  | _ => false
  end.
(** html.rs:144-151 *)
Fixpoint html_is_all (names : list str) (h : html) : bool :=
  match h with
  | HTag name _ _ => mem name names
  | HSeq l => forallb (html_is_all names) l
  | HEmpty => true
  | _ => false
  end.
(** html.rs:153-159 *)
Definition html_nodes (h : html) : list html :=
  match h with HEmpty => [] | HSeq l => l | _ => [h] end.

(** the derived equality of the values of attributes, tag.rs, used in html.rs:162-178 *)
Definition ostr_eqb (a b : option str) : bool :=
  match a, b with Some a, Some b => str_eqb a b | None, None => true | _, _ => false end.
(** html.rs:165-179 and tag.rs:41-45; attribute maps are compared regardless of order ([IndexMap == IndexMap]). *)
Fixpoint html_eqb (a b : html) : bool :=
  match a, b with
  | HEmpty, HEmpty | HWhitespace, HWhitespace | HRawNewline, HRawNewline => true
  | HTag n1 a1 c1, HTag n2 a2 c2 => str_eqb n1 n2 && neqb ostr_eqb a1 a2 && html_eqb c1 c2
  | HText s, HText t => str_eqb s t
  | HSeq l, HSeq m =>
    (fix go l m := match l, m with
                   | [], [] => true
                   | x :: l, y :: m => html_eqb x y && go l m
                   | _, _ => false
                   end) l m
  | _, _ => false
  end.

(** html.rs:182-185 *)
Record seq_builder := { sb_children : list html; sb_text : list html }.
(** html.rs:187-193 *)
Definition sb_new : seq_builder := {| sb_children := []; sb_text := [] |}.
(** html.rs:217-224: the text of one node of [current_text_node]; other nodes are an internal error, and are never
    pushed there (proved: [sb_text_nodes]). *)
Definition text_node_str (h : html) : str :=
  match h with HText t => t | HWhitespace => [32%N] | HRawNewline => [10%N] | _ => [] end.
(** html.rs:213-229 *)
Definition sb_close_text (b : seq_builder) : seq_builder :=
  match sb_text b with
  | [] => b
  | [x] => {| sb_children := sb_children b ++ [x]; sb_text := [] |}
  | nodes => {| sb_children := sb_children b ++ [html_text (flat_map text_node_str nodes)]; sb_text := [] |}
  end.
(** html.rs:195-211 *)
Fixpoint sb_push (h : html) (b : seq_builder) : seq_builder :=
  match h with
  | HEmpty => b
  | HSeq l => (fix push_all l b := match l with [] => b | x :: l => push_all l (sb_push x b) end) l b
  | HTag _ _ _ => let b := sb_close_text b in {| sb_children := sb_children b ++ [h]; sb_text := sb_text b |}
  | _ => {| sb_children := sb_children b; sb_text := sb_text b ++ [h] |}
  end.
(** html.rs:231-238 *)
Definition sb_build (b : seq_builder) : html :=
  match sb_children (sb_close_text b) with
  | [] => HEmpty
  | [x] => x
  | l => HSeq l
  end.
(** html.rs:51-57 *)
Definition from_iter (l : list html) : html := sb_build (fold_left (fun b h => sb_push h b) l sb_new).

(** tag.rs:31-37: [None] is the internal error "Duplicate attribute". *)
Definition str_attr (attrs : nmap (option str)) (k v : str) : option (nmap (option str)) :=
  if nhas attrs k then None else Some (ninsert attrs k (Some v)).
