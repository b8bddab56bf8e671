(** Specifications for C05, C06, C10, C11, independent of the model. *)
From Coq Require Import List NArith ZArith Lia String Ascii.
From Verif Require Import Base.
Import ListNotations.

(** C06. Line and column (both from 1) of the position reached after reading [pre]: the line is one more than the
    number of line feeds, the column one more than the number of characters after the last line feed. *)
Inductive LineCol (pre : list N) : nat -> nat -> Prop :=
| line_col_first : ~ In 10%N pre -> LineCol pre 1 (1 + List.length pre)
| line_col_next before last :
    pre = before ++ 10%N :: last -> ~ In 10%N last ->
    LineCol pre (2 + count_occ N.eq_dec before 10%N) (1 + List.length last).

(** C11. The part of a list from position [i] to position [j], where negative positions count from the end and
    positions outside the list are moved to its nearest end. *)
Definition clamp (n i : Z) : Z := Z.min n (Z.max 0 (if (i <? 0)%Z then i + n else i)).
Inductive Slice {A} (l : list A) (i j : Z) : list A -> Prop :=
| slice_part pre out post :
    l = pre ++ out ++ post ->
    Z.of_nat (List.length pre) = clamp (Z.of_nat (List.length l)) i ->
    Z.of_nat (List.length pre + List.length out) = clamp (Z.of_nat (List.length l)) j ->
    Slice l i j out
| slice_empty :
    (clamp (Z.of_nat (List.length l)) j < clamp (Z.of_nat (List.length l)) i)%Z -> Slice l i j [].
(** The element at position [i], negative positions counting from the end. *)
Inductive ElementAt {A} (l : list A) : Z -> A -> Prop :=
| elem_front pre x post : l = pre ++ x :: post -> ElementAt l (Z.of_nat (List.length pre)) x
| elem_back pre x post : l = pre ++ x :: post -> ElementAt l (- Z.of_nat (S (List.length post))) x.

(** C10. What a path denotes on a file system without symbolic links: directories are lists of names from the root. *)
Definition ValidName (n : list N) : Prop := n <> [] /\ ~ In 47%N n /\ n <> lit "." /\ n <> lit "..".
Definition AtSlash (p : list N) : Prop := p = [] \/ exists q, p = 47%N :: q.
Inductive Resolves : list (list N) -> list N -> list (list N) -> Prop :=
| res_end d : Resolves d [] d
| res_slash d p f : Resolves d p f -> Resolves d (47%N :: p) f
| res_dot d p f : AtSlash p -> Resolves d p f -> Resolves d (lit "." ++ p) f
| res_dotdot d p f : AtSlash p -> Resolves (removelast d) p f -> Resolves d (lit ".." ++ p) f
| res_name d n p f : ValidName n -> AtSlash p -> Resolves (d ++ [n]) p f -> Resolves d (n ++ p) f.
Definition Absolute (p : list N) : Prop := exists q, p = 47%N :: q.
(** [Denotes cwd p f]: seen from the directory [cwd], path [p] is the file or directory [f]. *)
Inductive Denotes (cwd : list (list N)) : list N -> list (list N) -> Prop :=
| den_abs p f : Absolute p -> Resolves [] p f -> Denotes cwd p f
| den_rel p f : ~ Absolute p -> Resolves cwd p f -> Denotes cwd p f.
(** An absolute path without ".." parts. *)
Definition NoParent (p : list N) : Prop := forall a b, p = a ++ lit "/.." ++ b -> ~ AtSlash b.
(** What becomes of a sequence of requests, each a path seen from the output directory with a content: the requests for a
    file inside the output directory [dir] are answered with [true] and written there, in order; the others are answered
    with [false] and not written. *)
Inductive Written {T} (cwd dir : list (list N)) (from_base : list N -> list N) :
  list (list N * T) -> list bool -> list (list N * T) -> Prop :=
| written_none : Written cwd dir from_base [] [] []
| written_inside rel t path names reqs oks files : Denotes cwd (from_base rel) (dir ++ names) -> Denotes cwd path (dir ++ names) ->
    Written cwd dir from_base reqs oks files -> Written cwd dir from_base ((rel, t) :: reqs) (true :: oks) ((path, t) :: files)
| written_outside rel t reqs oks files : (forall names, ~ Denotes cwd (from_base rel) (dir ++ names)) ->
    Written cwd dir from_base reqs oks files -> Written cwd dir from_base ((rel, t) :: reqs) (false :: oks) files.
