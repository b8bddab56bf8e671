(** Model of /repo/src/utils/string_pool.rs and const_strs.rs. *)
From Verif Require Import Base.

(** const_strs.rs:26-173, the strings that are always pooled, in declaration order. *)
Definition const_strs : list str := List.map lit
  ["<anonymous>"; "!DOCTYPE"; "a"; "add"; "address"; "all"; "and"; "any"; "area"; "args";
   "article"; "aside"; "b"; "base"; "bind"; "blockquote"; "body"; "bool"; "br"; "caption";
   "class"; "code"; "code_block"; "col"; "colgroup"; "command"; "compile"; "contains"; "count"; "data_line_no";
   "data_paren_no"; "dd"; "details"; "dict"; "div"; "dl"; "dt"; "embed"; "ends_with"; "enumerate";
   "escape_html"; "fetch_html"; "fetch_raw"; "fieldset"; "figcaption"; "figure"; "file"; "filter"; "first_line_no"; "find";
   "find_all"; "flat"; "footer"; "form"; "from"; "function"; "get"; "h1"; "h2"; "h3";
   "h4"; "h5"; "h6"; "head"; "header"; "hgroup"; "hr"; "href"; "html"; "html_nodes";
   "i"; "iframe"; "img"; "import"; "include"; "input"; "int"; "is_empty"; "is_whitespace"; "items";
   "join"; "key"; "keygen"; "keys"; "kwargs"; "language"; "len"; "li"; "link"; "list";
   "lower"; "main"; "map"; "max_length"; "menu"; "menuitem"; "meta"; "name"; "nav"; "negate";
   "net"; "new"; "noscript"; "ol"; "or"; "p"; "param"; "parse"; "path"; "pre";
   "raise"; "read"; "regex"; "reversed"; "script"; "section"; "sep"; "slice"; "sorted"; "source";
   "span"; "split"; "starts_with"; "str"; "style"; "table"; "tag_name"; "tbody"; "td"; "template";
   "test"; "tfoot"; "th"; "thead"; "title"; "tr"; "track"; "trim"; "ul"; "unique_id";
   "upper"; "values"; "wbr"; "write"]%string.

(** const_strs.rs:13-21: the constants [str_ids::X]; an id is its position in the list above. *)
Definition ID_ANONYMOUS : nat := 0. (* "<anonymous>" *)
(** const_strs.rs:28 *)
Definition ID_DOCTYPE : nat := 1. (* "!DOCTYPE" *)
(** const_strs.rs:29 *)
Definition ID_A : nat := 2. (* "a" *)
(** const_strs.rs:96 *)
Definition ID_HTML : nat := 68. (* "html" *)
(** const_strs.rs:115 *)
Definition ID_LI : nat := 87. (* "li" *)
(** const_strs.rs:133 *)
Definition ID_P : nat := 105. (* "p" *)
(** const_strs.rs:172 *)
Definition ID_WRITE : nat := 143. (* "write" *)

(** string_pool.rs:34, [StringPool(IndexSet<Rc<str>>)]: the pooled strings in insertion order. Ids are positions;
    simplification: ids are unbounded (the code panics after 2^32 - 2 names, [NameID::of], lines 15-18). *)
Definition pool := list str.

(** [IndexSet::get_index_of]. Used in string_pool.rs:73-76. *)
Fixpoint index_of (s : str) (p : pool) : option nat :=
  match p with
  | [] => None
  | x :: p => if str_eqb s x then Some 0 else match index_of s p with Some i => Some (S i) | None => None end
  end.

(** [IndexSet::insert_full]: appends unless present. Used in string_pool.rs:55-64. *)
Definition insert_full (s : str) (p : pool) : nat * pool :=
  match index_of s p with
  | Some i => (i, p)
  | None => (List.length p, p ++ [s])
  end.

(** string_pool.rs:45-51: [IndexSet::from_iter(CONST_STRS)] inserts the strings one after the other. *)
Definition pool_new : pool := fold_left (fun p s => snd (insert_full s p)) const_strs [].

(** string_pool.rs:55-64 *)
Definition pool_insert (s : str) (p : pool) : nat * pool :=
  match index_of s p with
  | Some id => (id, p)
  | None => insert_full s p
  end.

(** string_pool.rs:73-76 *)
Definition get_id_if_present (s : str) (p : pool) : option nat := index_of s p.

(** string_pool.rs:81-86; [None] is the internal compiler error. *)
Definition pool_get (id : nat) (p : pool) : option str := nth_error p id.

Section Lowercase.
  (** [str::to_lowercase] (Unicode tables, external). *)
  Variable to_lowercase : str -> str.
  (** string_pool.rs:68-71 *)
  Definition insert_lowercase (s : str) (p : pool) : nat * pool := pool_insert (to_lowercase s) p.

  (** Operations on a pool during compilation. string_pool.rs:55-71 *)
  Inductive pool_op := PInsert (s : str) | PInsertLower (s : str).
  (** the string of an operation, string_pool.rs:55-71 *)
  Definition op_string (o : pool_op) : str := match o with PInsert s => s | PInsertLower s => to_lowercase s end.
  (** string_pool.rs:55-71 *)
  Definition pool_step (o : pool_op) (p : pool) : nat * pool :=
    match o with PInsert s => pool_insert s p | PInsertLower s => insert_lowercase s p end.
  (** a history of operations, string_pool.rs:55-71 *)
  Fixpoint pool_run (ops : list pool_op) (p : pool) : list nat * pool :=
    match ops with
    | [] => ([], p)
    | o :: ops => let '(id, p) := pool_step o p in let '(ids, p) := pool_run ops p in (id :: ids, p)
    end.
End Lowercase.
