(** Specification for C42: what the command line tool does with its sources. *)
From Verif Require Import Base M_Names M_Html M_Render M_Types M_Diag M_Value M_SourceFile M_Path M_State M_Native M_Eval M_Std M_Lib M_Cli.
From Verif Require Import S_Util S_Diag S_Lib S_Alone.

Definition HasError (ds : list papyri_error) : Prop := Exists is_error ds.

(** * Names of files *)
(** The rest of a path after the last name: only separators and dots *)
Inductive Idle : list N -> Prop :=
| idle_nil : Idle []
| idle_slash t : Idle t -> Idle (47%N :: t)
| idle_dot t : AtSlash t -> Idle t -> Idle (lit "/." ++ t).
(** The last name in a path *)
Definition LastName (p n : str) : Prop :=
  ValidName n /\ exists pre tail, p = pre ++ n ++ tail /\ (pre = [] \/ exists q, pre = q ++ lit "/") /\ Idle tail.
(** Equal but for the case of ASCII letters *)
Definition SameLetters (a b : str) : Prop := Forall2 (fun x y => to_ascii_lower x = to_ascii_lower y) a b.
Definition PapyriName (n stem : str) : Prop := stem <> [] /\ exists ext, n = stem ++ lit "." ++ ext /\ SameLetters ext (lit "papyri").
Definition PapyriFile (p : str) : Prop := exists n stem, LastName p n /\ PapyriName n stem.
(** The path ends in ".lib.papyri". *)
Definition Library (p : str) : Prop := exists a b, p = a ++ b /\ SameLetters b (lit ".lib.papyri").

(** The file a source is compiled to, seen from the working directory [wd]: next to the source, or in the same place under
    the output directory, and with another extension. An empty name for the output directory, and a "source file" that is the
    working directory itself, are excluded. *)
Definition OutPath (text : bool) (out_dir : option str) (in_dir src out : str) : Prop :=
  forall wd, Absolute in_dir -> NoParent in_dir -> Denotes [] in_dir wd -> out_dir <> Some [] -> ~ Denotes wd src wd ->
  exists dir n stem, let new := stem ++ lit "." ++ (if text then lit "txt" else lit "html") in
    LastName src n /\ PapyriName n stem /\ Denotes wd src (dir ++ [n]) /\
    match out_dir with
    | None => Denotes wd out (dir ++ [new])
    | Some o => exists sub od, dir = wd ++ sub /\ Denotes wd o od /\ Denotes wd out (od ++ sub ++ [new])
    end.

(** * Searching for source files *)
Definition IsPattern (arg : str) : Prop := Exists (fun c => In c (lit "*?[]")) arg.
Section Found.
  Variable H : host.
  Inductive Found (arg : str) : str -> Prop :=
  | found_glob entries p : IsPattern arg -> h_glob H arg = Some entries -> In (Some p) entries -> PapyriFile p -> Found arg p
  | found_dir base e q names : ~ IsPattern arg -> h_is_dir H arg = true ->
      h_canonicalize H arg = Some base -> In (inr e) (h_walk H arg) -> h_canonicalize H e = Some q ->
      make_relative base q = Some names -> PapyriFile (join_names names) -> Found arg (join arg (join_names names))
  | found_file : ~ IsPattern arg -> h_is_dir H arg = false -> PapyriFile arg -> Found arg arg.
End Found.
(** The same path, apart from superfluous separators and dots *)
Definition SamePath (p q : str) : Prop := components p = components q.
(** The order of paths: by the first part in which they differ *)
Inductive StrBefore : str -> str -> Prop :=
| before_end c t : StrBefore [] (c :: t)
| before_char c d s t : (c < d)%N -> StrBefore (c :: s) (d :: t)
| before_rest c s t : StrBefore s t -> StrBefore (c :: s) (c :: t).
Inductive PartBefore : comp -> comp -> Prop :=
| part_root c : c <> Root -> PartBefore Root c
| part_dot c : c <> Root -> c <> Cur -> PartBefore Cur c
| part_parent n : PartBefore Par (Norm n)
| part_name m n : StrBefore m n -> PartBefore (Norm m) (Norm n).
Inductive PartsBefore : list comp -> list comp -> Prop :=
| parts_end c t : PartsBefore [] (c :: t)
| parts_first c d s t : PartBefore c d -> PartsBefore (c :: s) (d :: t)
| parts_rest c s t : PartsBefore s t -> PartsBefore (c :: s) (c :: t).
Definition PathBefore (p q : str) : Prop := PartsBefore (components p) (components q).
Inductive Increasing : list str -> Prop :=
| incr_nil : Increasing []
| incr_cons p l : Forall (PathBefore p) l -> Increasing l -> Increasing (p :: l).

(** * Sources, one after the other *)
Section Treated.
  Variable H : host.
  Variable O : options.
  Variable fuel : nat.
  Variable in_dir : str.
  Definition reporting : level := if o_ignore_warnings O then LError else LWarning.

  (** Nothing is left of what was compiled before, except for the modules that were loaded: nothing is reported, no unique id
      is taken, and no output is collected. *)
  Definition Ready (s : st) : Prop :=
    st_sink s = sink_new reporting /\ st_uids s = [] /\
    match o_out_dir O, st_out s with
    | Some d, Some o => base_path o = d /\ out_v o = []
    | None, None => True
    | _, _ => False
    end.
  (** The compiler is a new one, or was used and then reset. *)
  Definition Reset (s : st) : Prop :=
    exists new before, context_new (cli_X H O []) std_papyri fuel reporting (o_out_dir O) = Ok tt new /\ Used new before /\ reset before = Ok tt s.
  (** The source is compiled: [es] is reported, of which [ds] is printed, [collected] was written by the source, and [h] is its own output. *)
  Definition CompilationOf (before : list event) (src : str) (es ds : list papyri_error) (collected : list (str * html)) (h : html) : Prop :=
    let X := cli_X H O before in
    exists text s0 exports s, x_read X src = Some text /\ Ready s0 /\ Reset s0 /\ compile X fuel src text s0 = Ok (h, exports) s /\
      Reported s0 s es /\ Selected (AtLevel reporting) es ds /\
      collected = match o_out_dir O, st_out s with
                  | Some d, Some o => List.map (fun f => (join d (join_names (fst f)), snd f)) (out_v o)
                  | _, _ => []
                  end.
  Definition Compilation (before : list event) (src : str) (ds : list papyri_error) (collected : list (str * html)) (h : html) : Prop :=
    exists es, CompilationOf before src es ds collected h.
  (** What a new compiler does with the source, if that asks for no module *)
  Definition Alone (before : list event) (src : str) (ds : list papyri_error) (collected : list (str * html)) (h : html) : Prop :=
    let X := cli_X H O before in
    exists new text exports new', context_new (cli_X H O []) std_papyri fuel reporting (o_out_dir O) = Ok tt new /\
      x_read X src = Some text /\ compile X fuel src text new = Ok (h, exports) new' /\ (forall k, ~ Known new' k) /\
      ds = sk_v (st_sink new') /\
      collected = match o_out_dir O, st_out new' with
                  | Some d, Some o => List.map (fun f => (join d (join_names (fst f)), snd f)) (out_v o)
                  | _, _ => []
                  end.
  (** The files to write: those collected, and the output of the source unless it is empty. *)
  Definition FilesOf (src : str) (collected : list (str * html)) (h : html) (files : list (str * html)) : Prop :=
    exists out, OutPath (o_text O) (o_out_dir O) in_dir src out /\ (h = HEmpty /\ files = collected \/ h <> HEmpty /\ files = collected ++ [(out, h)]).
  (** A line is printed, unless the tool is to be silent. *)
  Definition said (line : str) : list event := if o_silent O then [] else [Said line].
  Definition plural (n : N) : str := if (n =? 1)%N then [] else lit "s".
  (** The line about a source: [quiet] if nothing was reported, else how many errors and warnings *)
  Inductive Summarised (src : str) (es : list papyri_error) (quiet : str) : list event -> Prop :=
  | sum_quiet : Forall (fun e => ~ Diagnostic e) es -> Summarised src es quiet (said (src ++ lit " (" ++ quiet ++ lit ")"))
  | sum_warnings w : Count is_error es 0 -> Count is_warning es w -> w <> 0%N ->
      Summarised src es quiet [Summary (src ++ lit " (OK, " ++ dec w ++ lit " warning" ++ plural w ++ lit ")")]
  | sum_errors e w : Count is_error es e -> Count is_warning es w -> e <> 0%N ->
      Summarised src es quiet [Summary (src ++ lit " (failed, " ++ dec e ++ lit " error" ++ plural e ++ lit ", " ++ dec w ++ lit " warning" ++ plural w ++ lit ")")].
  (** These files are written, in this order. An error that comes only when a file is closed makes no difference to what is said. *)
  Inductive Writes : list (str * html) -> list event -> Prop :=
  | writes_none : Writes [] []
  | writes_file p h fs evs : Writes fs evs -> Writes ((p, h) :: fs) (Wrote p (render (negb (o_text O)) h) :: said (lit "    => " ++ p) ++ evs)
  | writes_lost p h fs evs : (exists before, h_write H before p = ClosingFailed) -> Writes fs evs ->
      Writes ((p, h) :: fs) (Damaged p :: said (lit "    => " ++ p) ++ evs).

  Inductive verdict := IsOk (files : N) | IsFailed | IsSkipped.
  Inductive Treated (before : list event) (src : str) : list event -> verdict -> Prop :=
  | treated_library : Library src -> Treated before src (said (src ++ lit " (library, skipping)")) IsSkipped
  | treated_unchanged out a b : ~ Library src -> OutPath (o_text O) (o_out_dir O) in_dir src out ->
      o_skip_unchanged O = true -> h_mtime H before src = Some a -> h_mtime H before out = Some b -> (a <= b)%N ->
      Treated before src (said (src ++ lit " (unchanged, skipping)")) IsSkipped
  | treated_failed es ds collected h evs : ~ Library src -> CompilationOf before src es ds collected h -> HasError ds ->
      Summarised src es [] evs -> Treated before src (Compiled src ds :: evs) IsFailed
  | treated_empty es ds collected h evs : ~ Library src -> CompilationOf before src es ds collected h -> ~ HasError ds ->
      FilesOf src collected h [] -> Summarised src es (lit "no output, skipping") evs -> Treated before src (Compiled src ds :: evs) IsSkipped
  | treated_written es ds collected h files line evs : ~ Library src -> CompilationOf before src es ds collected h -> ~ HasError ds ->
      FilesOf src collected h files -> files <> [] -> Summarised src es (lit "OK") line -> Writes files evs ->
      Treated before src (Compiled src ds :: line ++ evs) (IsOk (N.of_nat (length files))).
  (** The tool stops in the middle of a source. *)
  Inductive Interrupted (before : list event) (src : str) : list event -> reason -> Prop :=
  | int_path d : o_out_dir O = Some d -> (forall wd, Absolute in_dir -> NoParent in_dir -> Denotes [] in_dir wd ->
        forall sub, ~ Denotes wd src (wd ++ sub)) -> Interrupted before src [] (NoOutputPath src)
  | int_read : x_read (cli_X H O before) src = None -> Interrupted before src [] (Unreadable src)
  | int_write es ds collected h files done_ p doc rest line evs evs' r : CompilationOf before src es ds collected h -> ~ HasError ds ->
      FilesOf src collected h files -> files = done_ ++ (p, doc) :: rest -> Summarised src es (lit "OK") line -> Writes done_ evs ->
      (evs' = [] /\ r = NoDirectory p \/ evs' = [] /\ r = NoFile p \/ evs' = [Damaged p] /\ r = WriteFailed p) ->
      Interrupted before src (Compiled src ds :: line ++ evs ++ evs') r.

  Inductive TreatedAll : list event -> list str -> list event -> list verdict -> Prop :=
  | all_nil before : TreatedAll before [] [] []
  | all_cons before src srcs evs rest v vs : Treated before src evs v -> TreatedAll (before ++ evs) srcs rest vs ->
      TreatedAll before (src :: srcs) (evs ++ rest) (v :: vs).
End Treated.

(** Numbers for the final message *)
Fixpoint files_written (vs : list verdict) : N :=
  match vs with [] => 0 | IsOk k :: vs => k + files_written vs | _ :: vs => files_written vs end%N.
Definition is_ok (v : verdict) : Prop := match v with IsOk _ => True | _ => False end.
Definition totals (vs : list verdict) (w ok bad skip : N) : Prop :=
  files_written vs = w /\ Count is_ok vs ok /\ Count (fun v => v = IsFailed) vs bad /\ Count (fun v => v = IsSkipped) vs skip.
Definition final_line (w ok bad skip : N) : str :=
  dec w ++ lit " file" ++ plural w ++ lit " written; " ++ dec ok ++ lit " OK, " ++ dec bad ++ lit " failed, " ++ dec skip ++ lit " skipped".

(** A complaint about an argument, while source files are searched for *)
Definition Complaint (e : event) : Prop := match e with FileError _ | NotPapyri _ => True | _ => False end.
(** The source files: those found from the arguments (the working directory, if there is none), each once, in order *)
Definition Sources (H : host) (O : options) (srcs : list str) : Prop :=
  let args := match o_paths O with [] => [lit "."] | ps => ps end in
  Increasing srcs /\ (forall p, In p srcs -> exists arg, In arg args /\ Found H arg p) /\
  (forall arg p, In arg args -> Found H arg p -> exists q, In q srcs /\ SamePath p q).

(** Only lines are printed. *)
Definition Line (e : event) : Prop := match e with Said _ | Summary _ => True | _ => False end.
(** A write to a file, and what has to come before it: a source was compiled, no error was printed for it, and since then there
    were only its own writes. *)
Definition IsWrite (e : event) (p : str) : Prop := (exists text, e = Wrote p text) \/ e = Damaged p.
Definition Clean (before : list event) : Prop :=
  exists a src ds b, before = a ++ Compiled src ds :: b /\ ~ HasError ds /\ Forall (fun e => Line e \/ exists p, IsWrite e p) b.
(** Some source had an error. *)
Definition SomeError (evs : list event) : Prop := exists src ds, In (Compiled src ds) evs /\ HasError ds.
(** The working directory is given by an absolute path without "..", and cannot be read as a file. *)
Definition SaneDirectory (H : host) (in_dir : str) (wd : list str) : Prop :=
  Absolute in_dir /\ NoParent in_dir /\ Denotes [] in_dir wd /\ forall evs p, Denotes wd p wd -> x_read (h_X H evs) p = None.
