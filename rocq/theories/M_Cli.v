(** Model of /repo/src/bin/papyri.rs, the command line tool, and of relpath.rs:25-61. *)
From Verif Require Import Base M_Text M_Names M_Html M_Render M_Types M_Diag M_Ast M_Value M_SourceFile M_Path M_State M_Native M_Eval M_Std M_Lib.

(** papyri.rs:29-67. Parsing the arguments (the arg crate) is not modelled. *)
Record options := Options {
  o_version : bool; o_skip_unchanged : bool; o_silent : bool; o_ignore_warnings : bool; o_text : bool; o_stdin : bool;
  o_out_dir : option str; o_allow_http : bool; o_paths : list str
}.

(** What the tool does, seen from outside. The text of an error of the operating system is not modelled: the event says
    which error it is. Output and file system calls of papyri.rs:8-303. *)
Inductive event :=
| Said (line : str)                               (* a line on stdout *)
| Summary (line : str)                            (* a line on stderr about the diagnostics of a source *)
| FileError (path : str)                          (* a line on stderr: an error met while searching a directory *)
| NotPapyri (path : str)                          (* a line on stderr: not a Papyri source file *)
| Compiled (src : str) (ds : list papyri_error)   (* the source was compiled, and its diagnostics printed to stderr *)
| Wrote (path text : str)                         (* the file was created or replaced *)
| Damaged (path : str)                            (* the file was created or replaced, but writing to it failed *)
| Printed (text : str).                           (* the output of compiling stdin, on stdout *)

(** Why the tool fails: the message is printed to stderr, and the exit status is 1. papyri.rs:8-27 and the [Err] values of papyri.rs:102-303. *)
Inductive reason :=
| StdinWithPaths | StdinWithOut | StdinUnreadable | StdinDiagnosed (summary : str) | StdoutFailed
| NoWorkingDirectory
| BadPattern (pattern : str) | PatternError (pattern : str)
| NoOutputPath (src : str)
| Unreadable (src : str)
| NoDirectory (path : str) | NoFile (path : str) | WriteFailed (path : str)
| SomeFailed (message : str).

(** [ClosingFailed]: the error came when the buffered text was written as the file was closed, see [write_file] in M_RenderIo. papyri.rs:284-302. *)
Inductive written := CreateDirFailed | CreateFailed | WritingFailed | ClosingFailed | WritingOk.
(** The operating system, and the foreign libraries. What it answers may depend on what the tool has done before. Used in papyri.rs:102-312 and relpath.rs:25-61. *)
Record host := Host {
  h_X : list event -> externals;
  h_cwd : option str;                            (* current_dir and canonicalize *)
  h_is_dir : str -> bool;                        (* Path::is_dir *)
  h_canonicalize : str -> option str;            (* fs::canonicalize, while the source files are searched for *)
  h_walk : str -> list (str + str);              (* walkdir: the path of an error, or of an entry *)
  h_glob : str -> option (list (option str));    (* glob::glob: unless the pattern is bad, errors and paths *)
  h_mtime : list event -> str -> option N;       (* fs::metadata, modified *)
  h_write : list event -> str -> written;        (* create_dir_all of the parent, File::create, and writing *)
  h_stdin : option str;                          (* all of stdin, if it can be read and is UTF-8 *)
  h_stdout : bool                                (* writing to stdout succeeds *)
}.

(** The state of the compiler, and what was done so far. papyri.rs:70-73 ([Main], without the options) and the results of its methods. *)
Inductive cres (A : Type) :=
| Go (a : A) (s : st) (evs : list event)
| Stop (r : reason) (evs : list event)
| Ice (evs : list event)                         (* the process is aborted: an internal error, or a panic *)
| Starved.                                       (* the fuel of the evaluator is spent *)
Arguments Go {A}. Arguments Stop {A}. Arguments Ice {A}. Arguments Starved {A}.
(** the monad the model of papyri.rs:70-303 is written in; no counterpart in the code *)
Definition CM (A : Type) := st -> list event -> cres A.
(** the monad the model of papyri.rs:70-303 is written in; no counterpart in the code *)
Definition cret {A} (a : A) : CM A := Go a.
(** the monad the model of papyri.rs:70-303 is written in; no counterpart in the code: the [?] operator of papyri.rs:102-303 *)
Definition cbind {A B} (m : CM A) (f : A -> CM B) : CM B :=
  fun s evs => match m s evs with Go a s evs => f a s evs | Stop r evs => Stop r evs | Ice evs => Ice evs | Starved => Starved end.
(** the monad the model of papyri.rs:70-303 is written in; no counterpart in the code: printing or writing *)
Definition emit (e : event) : CM unit := fun s evs => Go tt s (evs ++ [e]).
(** the monad the model of papyri.rs:70-303 is written in; no counterpart in the code: returning [Err] *)
Definition stop {A} (r : reason) : CM A := fun _ evs => Stop r evs.
(** the monad the model of papyri.rs:70-303 is written in; no counterpart in the code: [errors::ice], errors/mod.rs:31-33 *)
Definition ice {A} : CM A := fun _ evs => Ice evs.
(** the monad the model of papyri.rs:70-303 is written in; no counterpart in the code: running a method of the compiler *)
Definition compiler {A} (m : list event -> EM A) (r : reason) : CM A :=
  fun s evs => match m evs s with Ok a s => Go a s evs | Err _ _ => Stop r evs | Crash _ => Ice evs | NoFuel => Starved end.
(** the monad the model of papyri.rs:70-303 is written in; no counterpart in the code: asking the operating system *)
Definition ask {A} (f : list event -> A) : CM A := fun s evs => Go (f evs) s evs.
(** the monad the model of papyri.rs:70-303 is written in; no counterpart in the code: reading the state of the compiler *)
Definition look {A} (f : st -> A) : CM A := fun s evs => Go (f s) s evs.
Declare Scope cli_scope.
(** the monad the model of papyri.rs:70-303 is written in; no counterpart in the code *)
Notation "'do' x <- m ;; n" := (cbind m (fun x => n)) (at level 200, x name, m at level 100, n at level 200) : cli_scope.
(** the monad the model of papyri.rs:70-303 is written in; no counterpart in the code *)
Notation "m ;;> n" := (cbind m (fun _ => n)) (at level 100, right associativity) : cli_scope.
Local Open Scope cli_scope.

(** Path::file_name (std): the last component, if it is a name. Used in papyri.rs:172-282. *)
Definition file_name (path : str) : option str :=
  match rev (components path) with Norm n :: _ => Some n | _ => None end.
(** sourcefile.rs:11-13, for a path *)
Definition is_papyri_path (path : str) : bool := match file_name path with Some n => is_papyri_file n | None => false end.
(** Path::file_stem (std). Used in papyri.rs:265-282. *)
Definition file_stem (name : str) : str :=
  match rsplit_dot name with Some (c :: t, _) => c :: t | _ => name end.
(** PathBuf::set_extension (std). Simplification: the result is written without superfluous separators and dots. Used in papyri.rs:265-282. *)
Definition set_extension (path ext : str) : option str :=
  match file_name path with
  | Some n => Some (join_names (removelast (components path) ++ [Norm (file_stem n ++ lit "." ++ ext)]))
  | None => None
  end.

(** The order of paths (std): by their components. Used by [paths.sort()], relpath.rs:60. *)
Fixpoint str_leb (a b : str) : bool :=
  match a, b with
  | [], _ => true
  | _ :: _, [] => false
  | x :: a, y :: b => if (x =? y)%N then str_leb a b else (x <? y)%N
  end.
(** std: the derived order of [Component], used by [paths.sort()], relpath.rs:60 *)
Definition comp_rank (c : comp) : nat := match c with Root => 0 | Cur => 1 | Par => 2 | Norm _ => 3 end.
(** std: the derived order of [Component], used by [paths.sort()], relpath.rs:60 *)
Definition comp_leb (x y : comp) : bool :=
  match x, y with Norm a, Norm b => str_leb a b | _, _ => comp_rank x <=? comp_rank y end.
(** std: [Iterator::cmp] on components, used by [paths.sort()], relpath.rs:60 *)
Fixpoint comps_leb (a b : list comp) : bool :=
  match a, b with
  | [], _ => true
  | _ :: _, [] => false
  | x :: a, y :: b => if comp_eqb x y then comps_leb a b else comp_leb x y
  end.
(** std: [Ord for Path], used by [paths.sort()], relpath.rs:60 *)
Definition path_leb (a b : str) : bool := comps_leb (components a) (components b).
(** std: equality of components, used by [IndexSet] in papyri.rs:172-210 *)
Fixpoint comps_eqb (a b : list comp) : bool :=
  match a, b with
  | [], [] => true
  | x :: a, y :: b => comp_eqb x y && comps_eqb a b
  | _, _ => false
  end.
(** Equality of paths (std): of their components. Used by [IndexSet] in papyri.rs:172-210. *)
Definition path_eqb (a b : str) : bool := comps_eqb (components a) (components b).
(** std: one step of [sort], relpath.rs:60 *)
Fixpoint path_insert (p : str) (l : list str) : list str :=
  match l with
  | [] => [p]
  | q :: l => if path_leb p q then p :: q :: l else q :: path_insert p l
  end.
(** slice::sort (std), which is stable. relpath.rs:60. *)
Definition path_sort (l : list str) : list str := fold_right path_insert [] l.
(** IndexSet::insert (indexmap): a path equal to one that is there already is not added. papyri.rs:172-210. *)
Definition set_insert (l : list str) (p : str) : list str := if existsb (path_eqb p) l then l else l ++ [p].

(** relpath.rs:25-61. The paths of the errors, in order, and unless the directory itself cannot be resolved, the source
    files found. That walkdir has an error that is not an IO error (a loop of links, which are not followed) is not
    modelled. *)
Definition find_sources (canon : str -> option str) (entries : list (str + str)) (dir : str) : list str * option (list str) :=
  match canon dir with
  | None => ([dir], None)
  | Some base =>
    let visit e :=
      match e with
      | inl p => inl p
      | inr p =>
        match canon p with
        | None => inl p
        | Some q => inr (match make_relative base q with Some cs => Some (join_names cs) | None => None end)
        end
      end in
    let visited := List.map visit entries in
    (flat_map (fun v => match v with inl p => [p] | inr _ => [] end) visited,
     Some (path_sort (List.filter is_papyri_path (flat_map (fun v => match v with inr (Some p) => [p] | _ => [] end) visited))))
  end.

Section Cli.
  Variable H : host.
  Variable O : options.
  Variable fuel : nat.

  (** papyri.rs:84-89: without --allow-http there is no HTTP client *)
  Definition cli_X (evs : list event) : externals := if o_allow_http O then h_X H evs else no_network (h_X H evs).

  (** a [for] loop, as in papyri.rs:172-263 *)
  Fixpoint each {A} (f : A -> CM unit) (l : list A) : CM unit :=
    match l with [] => cret tt | x :: l => f x ;;> each f l end.
  (** [if !self.options.silent { println!(..) }], papyri.rs:167, 216, 225, 248 and 298 *)
  Definition say (line : str) : CM unit := if o_silent O then cret tt else emit (Said line).

  (** papyri.rs:180-186 *)
  Fixpoint add_entries (p : str) (entries : list (option str)) (paths : list str) : CM (list str) :=
    match entries with
    | [] => cret paths
    | None :: _ => stop (PatternError p)
    | Some q :: entries => add_entries p entries (if is_papyri_path q then set_insert paths q else paths)
    end.
  (** papyri.rs:175-203, one path *)
  Definition add_path (paths : list str) (p : str) : CM (list str) :=
    if looks_like_glob p then
      match h_glob H p with
      | None => stop (BadPattern p)
      | Some entries => add_entries p entries paths
      end
    else if h_is_dir H p then
      let found := find_sources (h_canonicalize H) (h_walk H p) p in
      each (fun q => emit (FileError q)) (fst found) ;;>
      cret (match snd found with Some l => fold_left set_insert (List.map (join p) l) paths | None => paths end)
    else if is_papyri_path p then cret (set_insert paths p)
    else emit (NotPapyri p) ;;> cret paths.
  (** papyri.rs:172-206 *)
  Fixpoint add_paths (ps : list str) (paths : list str) : CM (list str) :=
    match ps with
    | [] => cret paths
    | p :: ps => do paths <- add_path paths p;; add_paths ps paths
    end.
  (** papyri.rs:172-210 *)
  Definition get_source_paths (ps : list str) : CM (list str) :=
    do paths <- add_paths ps [];; cret (path_sort paths).

  (** papyri.rs:265-282 *)
  Definition extension : str := if o_text O then lit "txt" else lit "html".
  (** papyri.rs:265-282 *)
  Definition get_out_path (src in_dir : str) : CM str :=
    do base <- match o_out_dir O with
               | Some d => match make_relative in_dir src with
                           | Some cs => cret (join d (join_names cs))
                           | None => stop (NoOutputPath src)
                           end
               | None => cret src
               end;;
    match set_extension base extension with Some p => cret p | None => ice end.

  (** papyri.rs:305-312 *)
  Definition is_unchanged (evs : list event) (src out : str) : bool :=
    match h_mtime H evs src, h_mtime H evs out with
    | Some a, Some b => (a <=? b)%N
    | _, _ => false
    end.

  (** papyri.rs:284-302 *)
  Definition write_out_file (f : str * html) : CM unit :=
    do w <- ask (fun evs => h_write H evs (fst f));;
    match w with
    | CreateDirFailed => stop (NoDirectory (fst f))
    | CreateFailed => stop (NoFile (fst f))
    | WritingFailed => emit (Damaged (fst f)) ;;> stop (WriteFailed (fst f))
    | ClosingFailed => emit (Damaged (fst f)) ;;> say (lit "    => " ++ fst f)
    | WritingOk => emit (Wrote (fst f) (render (negb (o_text O)) (snd f))) ;;> say (lit "    => " ++ fst f)
    end.

  (** papyri.rs:75-80 *)
  Inductive source_result := OkWroteFiles (k : N) | SkippedLibrary | SkippedUnchanged | SkippedNoOutput | Failed.
  (** outfiles.rs:41-45, context.rs: the collected files, which are no longer in the collection *)
  Definition take_out_files : CM (list (str * html)) :=
    fun s evs => match st_out s with
                 | Some o => Go (fst (take_iter o)) (set_out (Some (snd (take_iter o))) s) evs
                 | None => Go [] s evs
                 end.
  (** html.rs: is_empty. html.rs:86-88 *)
  Definition html_is_empty (h : html) : bool := match h with HEmpty => true | _ => false end.
  (** papyri.rs:212-263 *)
  Definition process_source_file (src in_dir : str) : CM source_result :=
    if is_papyri_library src then say (src ++ lit " (library, skipping)") ;;> cret SkippedLibrary
    else
      do out <- get_out_path src in_dir;;
      do same <- ask (fun evs => o_skip_unchanged O && is_unchanged evs src out);;
      if same then say (src ++ lit " (unchanged, skipping)") ;;> cret SkippedUnchanged
      else
        compiler (fun _ => reset) (Unreadable src) ;;>
        do r <- compiler (fun evs => load_uncached (cli_X evs) (evals_n (cli_X evs) fuel) src) (Unreadable src);;
        do collected <- take_out_files;;
        let to_write := collected ++ (if html_is_empty (fst r) then [] else [(out, fst r)]) in
        do d <- look st_sink;;
        emit (Compiled src (sk_v d)) ;;>
        (if sink_is_empty d then say (src ++ lit " (" ++ (match to_write with [] => lit "no output, skipping" | _ => lit "OK" end) ++ lit ")")
         else emit (Summary (src ++ lit " (" ++ sink_summary d ++ lit ")"))) ;;>
        if (0 <? sk_errors d)%N then cret Failed
        else match to_write with
             | [] => cret SkippedNoOutput
             | _ => each write_out_file to_write ;;> cret (OkWroteFiles (N.of_nat (length to_write)))
             end.

  (** papyri.rs:135-157: files written, OK, failed, skipped *)
  Definition tally := (N * N * N * N)%type.
  (** papyri.rs:144-157 *)
  Definition count (t : tally) (r : source_result) : tally :=
    let '(w, ok, bad, skip) := t in
    match r with
    | OkWroteFiles k => (w + k, ok + 1, bad, skip)
    | SkippedLibrary | SkippedUnchanged | SkippedNoOutput => (w, ok, bad, skip + 1)
    | Failed => (w, ok, bad + 1, skip)
    end%N.
  (** papyri.rs:143-158 *)
  Fixpoint process_all (srcs : list str) (in_dir : str) (t : tally) : CM tally :=
    match srcs with
    | [] => cret t
    | src :: srcs => do r <- process_source_file src in_dir;; process_all srcs in_dir (count t r)
    end.
  (** papyri.rs:160-163 *)
  Definition message (t : tally) : str :=
    let '(w, ok, bad, skip) := t in
    dec w ++ lit " file" ++ pluralise w ++ lit " written; " ++ dec ok ++ lit " OK, " ++ dec bad ++ lit " failed, " ++ dec skip ++ lit " skipped".

  (** papyri.rs:102-127 *)
  Definition run_stdin (paths : list str) : CM unit :=
    match paths, o_out_dir O with
    | _ :: _, _ => stop StdinWithPaths
    | [], Some _ => stop StdinWithOut
    | [], None =>
      match h_stdin H with
      | None => stop StdinUnreadable
      | Some text =>
        do r <- compiler (fun evs => compile (cli_X evs) fuel (lit "<stdin>") text) StdinUnreadable;;
        do d <- look st_sink;;
        if sink_is_empty d then
          (if h_stdout H then emit (Printed (render (negb (o_text O)) (fst r))) else stop StdoutFailed)
        else emit (Compiled (lit "<stdin>") (sk_v d)) ;;> stop (StdinDiagnosed (sink_summary d))
      end
    end.
  (** papyri.rs:129-170 *)
  Definition run (paths : list str) : CM unit :=
    if o_stdin O then run_stdin paths
    else match h_cwd H with
         | None => stop NoWorkingDirectory
         | Some in_dir =>
           do srcs <- get_source_paths paths;;
           do t <- process_all srcs in_dir (0, 0, 0, 0)%N;;
           let '(_, _, bad, _) := t in
           if (0 <? bad)%N then stop (SomeFailed (message t)) else say (message t)
         end.
End Cli.

(** The exit status of the process is 0 on success and 1 on failure; [Aborted] is an internal error or a panic. papyri.rs:8-27. *)
Inductive status := Success | Failure (r : reason) | Aborted.
(** papyri.rs:8-26. [version] is the line printed for --version. *)
Definition main (H : host) (O : options) (fuel : nat) (version : str) : outcome (status * list event) :=
  if o_version O then Ret (Success, [Said version])
  else
    let O := {| o_version := o_version O; o_skip_unchanged := o_skip_unchanged O; o_silent := o_silent O || o_stdin O;
                o_ignore_warnings := o_ignore_warnings O; o_text := o_text O; o_stdin := o_stdin O; o_out_dir := o_out_dir O;
                o_allow_http := o_allow_http O; o_paths := o_paths O |} in
    let paths := match o_paths O with [] => if o_stdin O then [] else [lit "."] | ps => ps end in
    match context_new (cli_X H O []) std_papyri fuel (if o_ignore_warnings O then LError else LWarning) (o_out_dir O) with
    | Ok _ s =>
      match run H O fuel paths s [] with
      | Go _ _ evs => Ret (Success, evs)
      | Stop r evs => Ret (Failure r, evs)
      | Ice evs => Ret (Aborted, evs)
      | Starved => OutOfFuel
      end
    | NoFuel => OutOfFuel
    | _ => Ret (Aborted, [])
    end.
