(** Model of /repo/src/utils/sourcefile.rs. *)
From Verif Require Import Base.

(** sourcefile.rs:117-131, the table of coordinates: one entry per char plus one. Line and column are u32 in the
    code; simplification: unbounded. *)
Fixpoint line_col_coords (s : str) (line col : nat) : list (nat * nat) :=
  match s with
  | [] => []
  | c :: t =>
    let line' := if (c =? 10)%N then line + 1 else line in
    let col' := if (c =? 10)%N then 1 else col + 1 in
    (line', col') :: line_col_coords t line' col'
  end.
(** sourcefile.rs:117-133. [index] is a byte offset (spans and [eof_range] are in bytes) and indexes the table. *)
Definition index_to_line_col (s : str) (index : nat) : outcome (nat * nat) :=
  match nth_error ((1, 1) :: line_col_coords s 1 1) index with Some p => Ret p | None => Panic end.

(** sourcefile.rs:103-106, for a range of this file: [&self.src[start..end]]. *)
Definition get_span (s : str) (start end_ : nat) : outcome str :=
  if end_ <? start then Panic
  else match split_bytes s end_ with
       | None => Panic
       | Some (pre, _) => match split_bytes pre start with None => Panic | Some (_, span) => Ret span end
       end.

(** sourcefile.rs:110-113 *)
Definition eof_index (s : str) : nat := blen s.

(** sourcefile.rs:11-13. Path::extension is the part of the file name after its last '.', if the name has a '.'
    which is not its first character. *)
Fixpoint rsplit_dot (s : str) : option (str * str) :=
  match s with
  | [] => None
  | c :: t =>
    match rsplit_dot t with
    | Some (a, b) => Some (c :: a, b)
    | None => if (c =? 46)%N then Some ([], t) else None
    end
  end.
(** [Path::extension] (std), used in sourcefile.rs:11-13 *)
Definition file_extension (name : str) : option str :=
  match rsplit_dot name with
  | Some (_ :: _, ext) => Some ext
  | _ => None
  end.
(** sourcefile.rs:11-13, on the file name *)
Definition is_papyri_file (name : str) : bool :=
  match file_extension name with
  | Some ext => str_eqb (List.map to_ascii_lower ext) (lit "papyri")
  | None => false
  end.
(** sourcefile.rs:17-20 *)
Definition ends_with (suffix s : str) : bool :=
  match strip_prefix (rev suffix) (rev s) with Some _ => true | None => false end.
(** sourcefile.rs:17-20 *)
Definition is_papyri_library (path : str) : bool := ends_with (lit ".lib.papyri") (List.map to_ascii_lower path).
