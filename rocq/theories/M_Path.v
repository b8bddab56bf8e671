(** Model of /repo/src/utils/relpath.rs (make_relative), outfiles.rs, and of the parts of std::path (Unix) and of the
    normalize-path crate (0.2.0) that they use. *)
From Verif Require Import Base.

(** std::path::Component (Unix, so no Prefix). Used in relpath.rs:11-17. *)
Inductive comp := Root | Cur | Par | Norm (name : str).

(** std: equality of [Component], for [strip_prefix] in relpath.rs:11-17 *)
Definition comp_eqb (x y : comp) : bool :=
  match x, y with
  | Root, Root => true | Cur, Cur => true | Par, Par => true
  | Norm a, Norm b => str_eqb a b
  | _, _ => false
  end.

(** Splitting at '/' (47). std, for [components] in relpath.rs:11-17. *)
Fixpoint split_slash (s : str) : list str :=
  match s with
  | [] => [[]]
  | c :: t =>
    if (c =? 47)%N then [] :: split_slash t
    else match split_slash t with x :: xs => (c :: x) :: xs | [] => [[c]] end
  end.

(** std: one part of [Path::components], for relpath.rs:11-17 *)
Definition part_comp (p : str) : list comp :=
  if str_eqb p [] then []
  else if str_eqb p (lit ".") then []
  else if str_eqb p (lit "..") then [Par]
  else [Norm p].

(** [Path::components] (std): a leading '/' is a root, empty and "." parts vanish except a leading "." of a relative
    path. For relpath.rs:11-17. *)
Definition components (s : str) : list comp :=
  match s with
  | c :: t =>
    if (c =? 47)%N then Root :: flat_map part_comp (split_slash t)
    else match split_slash s with
         | first :: rest => (if str_eqb first (lit ".") then [Cur] else part_comp first) ++ flat_map part_comp rest
         | [] => []
         end
  | [] => []
  end.

(** [Path::is_absolute] (std, Unix), for [join] in relpath.rs:11-17 *)
Definition is_absolute (s : str) : bool := match s with c :: _ => (c =? 47)%N | [] => false end.

(** [Path::join]/[PathBuf::push] (std, Unix). Used in relpath.rs:11-17. *)
Definition join (base rel : str) : str :=
  if is_absolute rel then rel
  else match rev base with
       | [] => rel
       | c :: _ => if (c =? 47)%N then base ++ rel else base ++ lit "/" ++ rel
       end.

(** [PathBuf::pop] on components: the root and the empty path have no parent. For [normalize] in relpath.rs:11-17. *)
Definition pop (cs : list comp) : list comp :=
  match rev cs with
  | [] => []
  | Root :: _ => cs
  | _ :: t => rev t
  end.

(** normalize-path 0.2.0, [NormalizePath::normalize]: root and names are pushed, "." is dropped, ".." pops. Pushing a
    root component replaces the path. Used in relpath.rs:11-17. *)
Definition normalize (cs : list comp) : list comp :=
  fold_left (fun ret c =>
    match c with
    | Root => [Root]
    | Cur => ret
    | Par => pop ret
    | Norm n => ret ++ [Norm n]
    end) cs [].

(** [Path::strip_prefix] (std): by components. Used in relpath.rs:11-17. *)
Fixpoint strip_comps (p s : list comp) : option (list comp) :=
  match p, s with
  | [], _ => Some s
  | x :: p, y :: s => if comp_eqb x y then strip_comps p s else None
  | _ :: _, [] => None
  end.

(** relpath.rs:11-17 *)
Definition make_relative (base rel : str) : option (list comp) :=
  strip_comps (components base) (normalize (components (join base rel))).

(** A component list as a path string again ([as_path]/[to_path_buf]). Used in relpath.rs:11-17. *)
Fixpoint join_names (cs : list comp) : str :=
  match cs with
  | [] => []
  | [c] => match c with Norm n => n | Par => lit ".." | Cur => lit "." | Root => lit "/" end
  | c :: cs => match c with
               | Root => lit "/" ++ join_names cs
               | Norm n => n ++ lit "/" ++ join_names cs
               | Par => lit ".." ++ lit "/" ++ join_names cs
               | Cur => lit "." ++ lit "/" ++ join_names cs
               end
  end.

Section OutFiles.
  Context {T : Type}.
  (** outfiles.rs:7-10 *)
  Record out_files := OutFiles { base_path : str; out_v : list (list comp * T) }.
  (** outfiles.rs:15-20 *)
  Definition out_files_new (base : str) : out_files := OutFiles base [].
  (** outfiles.rs:23-25 *)
  Definition out_is_empty (o : out_files) : bool := match out_v o with [] => true | _ => false end.
  (** outfiles.rs:31-37 *)
  Definition try_push (o : out_files) (path : str) (t : T) : bool * out_files :=
    match make_relative (base_path o) path with
    | None => (false, o)
    | Some p => (true, OutFiles (base_path o) (out_v o ++ [(p, t)]))
    end.
  (** outfiles.rs:41-45 *)
  Definition take_iter (o : out_files) : list (str * T) * out_files :=
    (List.map (fun '(p, t) => (join (base_path o) (join_names p), t)) (out_v o), OutFiles (base_path o) []).

  (** a history of calls of [try_push], outfiles.rs:31-37 *)
  Fixpoint push_all (o : out_files) (reqs : list (str * T)) : list bool * out_files :=
    match reqs with
    | [] => ([], o)
    | (p, t) :: reqs =>
      let '(ok, o) := try_push o p t in
      let '(oks, o) := push_all o reqs in (ok :: oks, o)
    end.
End OutFiles.
Arguments out_files : clear implicits.
