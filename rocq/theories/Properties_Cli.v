(** Property theorems C42 and C56 (the command line tool). [H] is what the operating system and the foreign libraries answer; it
    is assumed that the library for regular expressions accepts the one in the standard library. *)
From Verif Require Import Base M_Names M_Html M_Render M_Types M_Diag M_Value M_SourceFile M_Path M_State M_Native M_Eval M_Std M_Lib M_Cli.
From Verif Require Import S_Util S_Diag S_Lib S_Cli S_Example S_CliExample P_Path P_Std P_CliPath P_Cli.

(** A run with source files. Either there is no compiler or no working directory, and nothing happens; or there are complaints about
    arguments, and a bad pattern ends the run; or the source files found are taken one after the other, in order, each of them
    exactly once, until all are done or the run is interrupted. At the end the numbers are reported, and the run fails if
    and only if some source failed. *)
Theorem C42_run : forall H O fuel version status evs, o_version O = false -> o_stdin O = false -> x_regex (h_X H []) std_regex <> None ->
  main H O fuel version = Ret (status, evs) ->
  (status = Aborted /\ evs = []) \/ (status = Failure NoWorkingDirectory /\ h_cwd H = None /\ evs = []) \/
  exists in_dir complaints rest, h_cwd H = Some in_dir /\ evs = complaints ++ rest /\ Forall Complaint complaints /\
    (rest = [] /\ (exists arg, In arg (match o_paths O with [] => [lit "."] | ps => ps end) /\
                     (status = Failure (BadPattern arg) \/ status = Failure (PatternError arg))) \/
     exists srcs, Sources H O srcs /\
     ((exists new vs ok bad skip, TreatedAll H O fuel in_dir complaints srcs new vs /\ totals vs (files_written vs) ok bad skip /\
         let line := final_line (files_written vs) ok bad skip in
         (bad = 0%N /\ status = Success /\ rest = new ++ (if o_silent O then [] else [Said line]) \/
          bad <> 0%N /\ status = Failure (SomeFailed line) /\ rest = new)) \/
      (exists done_ src others new vs new' r, srcs = done_ ++ src :: others /\ TreatedAll H O fuel in_dir complaints done_ new vs /\
         Interrupted H O fuel in_dir (complaints ++ new) src new' r /\ rest = new ++ new' /\ status = Failure r) \/
      (exists done_ others vs, srcs = done_ ++ others /\ TreatedAll H O fuel in_dir complaints done_ rest vs /\ status = Aborted))).
Proof. exact run_spec. Qed.
Print Assumptions C42_run.

(** A file is written only right after a source for which no error was printed. *)
Theorem C42_no_output_on_error : forall H O fuel version status evs, x_regex (h_X H []) std_regex <> None -> main H O fuel version = Ret (status, evs) ->
  forall before e after p, evs = before ++ e :: after -> IsWrite e p -> Clean before.
Proof. exact writes_clean. Qed.
Print Assumptions C42_no_output_on_error.

(** With an output directory, every file written is inside it. *)
Theorem C42_inside_out_dir : forall H O fuel version status evs in_dir d wd od, x_regex (h_X H []) std_regex <> None ->
  main H O fuel version = Ret (status, evs) -> h_cwd H = Some in_dir -> SaneDirectory H in_dir wd -> o_out_dir O = Some d -> d <> [] -> Denotes wd d od ->
  forall e p, In e evs -> IsWrite e p -> exists names, Forall ValidName names /\ Denotes wd p (od ++ names).
Proof. exact writes_inside. Qed.
Print Assumptions C42_inside_out_dir.

(** The run succeeds only if no error was printed for any source; and if it fails with the final message, there was such an error. *)
Theorem C42_exit_status : forall H O fuel version status evs, x_regex (h_X H []) std_regex <> None -> main H O fuel version = Ret (status, evs) ->
  (status = Success -> ~ SomeError evs) /\ (forall line, status = Failure (SomeFailed line) -> SomeError evs).
Proof. exact exit_spec. Qed.
Print Assumptions C42_exit_status.

(** A run with stdin: the document is printed if nothing was reported. *)
Theorem C42_stdin : forall H O fuel version status evs, o_version O = false -> o_stdin O = true -> x_regex (h_X H []) std_regex <> None ->
  main H O fuel version = Ret (status, evs) ->
  (exists text s0 h exports s es, h_stdin H = Some text /\ Fresh (reporting O) None s0 /\ compile (cli_X H O []) fuel (lit "<stdin>") text s0 = Ok (h, exports) s /\
     Reported s0 s es /\
     (Forall (fun e => ~ Diagnostic e) es /\ (evs = [Printed (render (negb (o_text O)) h)] /\ status = Success \/ evs = [] /\ status = Failure StdoutFailed) \/
      ~ Forall (fun e => ~ Diagnostic e) es /\ exists ds line, Selected (AtLevel (reporting O)) es ds /\ evs = [Compiled (lit "<stdin>") ds] /\ status = Failure (StdinDiagnosed line))) \/
  evs = [] /\ (status = Aborted \/ status = Failure StdinWithPaths /\ o_paths O <> [] \/ status = Failure StdinWithOut /\ o_out_dir O <> None \/
    status = Failure StdinUnreadable /\ h_stdin H = None).
Proof. exact run_stdin_spec. Qed.
Print Assumptions C42_stdin.

(** The status does not say whether something went wrong: an argument that is not a source file is complained about, but the
    run succeeds; *)
Theorem C42_complaint_refuted : exists H O fuel line, x_regex (h_X H []) std_regex <> None /\
  main H O fuel [] = Ret (Success, [NotPapyri (lit "x.txt"); Said line]).
Proof. exists (ex_host [] None), (ex_options None false [lit "x.txt"]), 50. eexists. split; [discriminate|]. vm_compute. reflexivity. Qed.
Print Assumptions C42_complaint_refuted.
(** and a warning makes the run fail with stdin, but not with a file. *)
Theorem C42_stdin_warning_refuted : exists H O O' fuel w line evs, x_regex (h_X H []) std_regex <> None /\
  main H O fuel [] = Ret (Failure (StdinDiagnosed line), [Compiled (lit "<stdin>") [Warn w]]) /\
  main H O' fuel [] = Ret (Success, Compiled (lit "w.papyri") [Warn w] :: evs).
Proof.
  exists (ex_host [(lit "w.papyri", lit "@fn f . -> 1 @fn f . -> 1")] (Some (lit "@fn f . -> 1 @fn f . -> 1"))), (ex_options None true []), (ex_options None false [lit "w.papyri"]), 50.
  eexists _, _, _. split; [discriminate|]. split; vm_compute; reflexivity.
Qed.
Print Assumptions C42_stdin_warning_refuted.

(** Nor does it say whether the files were written: an error that comes only when a file is closed is lost (see C78). *)
Theorem C42_lost_refuted : exists H O fuel, x_regex (h_X H []) std_regex <> None /\
  main H O fuel [] = Ret (Success, [Compiled (lit "a.papyri") []; Said (lit "a.papyri (OK)"); Damaged (lit "a.html"); Said (lit "    => a.html");
                                    Said (lit "1 file written; 1 OK, 0 failed, 0 skipped")]).
Proof.
  exists (ex_full_host [(lit "a.papyri", lit "Hello")]), (ex_options None false [lit "a.papyri"]), 50. split; [discriminate|]. vm_compute. reflexivity.
Qed.
Print Assumptions C42_lost_refuted.

(** Each source starts afresh: with no diagnostics, no unique ids and no collected files of the sources before. What remains are
    the modules that were loaded. *)
Theorem C56_fresh_partial : forall H O fuel version status evs, o_stdin O = false -> x_regex (h_X H []) std_regex <> None ->
  main H O fuel version = Ret (status, evs) ->
  forall before src ds after, evs = before ++ Compiled src ds :: after -> exists collected h, Compilation H O fuel before src ds collected h.
Proof. exact compiled_fresh. Qed.
Print Assumptions C56_fresh_partial.
(** Clearing the compiler between two sources: diagnostics and unique ids are forgotten, nothing else changes; if there are collected
    files nobody has taken, they are not lost silently. *)
Theorem C56_reset : forall s,
  ((forall o, st_out s = Some o -> out_v o = []) -> exists s', reset s = Ok tt s' /\
     (sk_v (st_sink s') = [] /\ sk_errors (st_sink s') = 0%N /\ sk_warnings (st_sink s') = 0%N /\ sk_level (st_sink s') = sk_level (st_sink s)) /\
     st_uids s' = [] /\ st_heap s' = st_heap s /\ st_stack s' = st_stack s /\ st_exports s' = st_exports s /\ st_mods s' = st_mods s /\
     st_out s' = st_out s /\ st_root s' = st_root s) /\
  (forall o, st_out s = Some o -> out_v o <> [] -> reset s = Crash FUncollected).
Proof. exact reset_spec. Qed.
Print Assumptions C56_reset.
(** So the result for a source depends on the other sources: alone it fails, because a module it imports has an error; after
    another source that imports the same module, it succeeds. *)
Theorem C56_independent_refuted : exists H O O' fuel src text ds line line' rest evs rest', x_regex (h_X H []) std_regex <> None /\
  O = ex_options None false [src] /\ HasError ds /\
  main H O fuel [] = Ret (Failure (SomeFailed line), Compiled src ds :: rest) /\ (forall p t, ~ In (Wrote p t) rest) /\
  main H O' fuel [] = Ret (Failure (SomeFailed line'), evs ++ Compiled src [] :: rest') /\ In (Wrote (lit "q.html") text) rest'.
Proof.
  exists (ex_host ex_files None). eexists. exists (ex_options None false [lit "p.papyri"; lit "q.papyri"]), 50, (lit "q.papyri"). eexists. exists [NameErr (NoSuchVariable (lit "y"))].
  eexists _, _, _. exists [Compiled (lit "p.papyri") [NameErr (NoSuchVariable (lit "y"))]; Summary (lit "p.papyri (failed, 1 error, 0 warnings)")]. eexists.
  split; [discriminate|]. split; [reflexivity|]. split; [left; exact I|]. split; [vm_compute; reflexivity|]. split; [|split; [vm_compute; reflexivity|]].
  - intros p t [E|[]]. discriminate E.
  - right. left. reflexivity.
Qed.
Print Assumptions C56_independent_refuted.
(** Unique ids are forgotten between two sources, but the modules they occur in are kept: of two sources with the same text, the second
    gets another page than the first, with the same unique id twice. *)
Theorem C56_unique_ids_refuted : exists H fuel text a evs, x_regex (h_X H []) std_regex <> None /\
  x_read (h_X H []) (lit "a.papyri") = Some text /\ x_read (h_X H []) (lit "b.papyri") = Some text /\
  main H (ex_options None false [lit "a.papyri"; lit "b.papyri"]) fuel [] =
    Ret (Success, a ++ Wrote (lit "a.html") (lit "<p id=""part"">A</p><p id=""part_2"">B</p>") :: evs ++
      [Wrote (lit "b.html") (lit "<p id=""part"">A</p><p id=""part"">B</p>"); Said (lit "    => b.html");
       Said (lit "2 files written; 2 OK, 0 failed, 0 skipped")]).
Proof.
  exists (ex_host [(lit "m.papyri", lit "@let(j=@str::unique_id part) <p id=$j>A</p>");
                   (lit "a.papyri", lit "@include `m.papyri` @let(j=@str::unique_id part) <p id=$j>B</p>");
                   (lit "b.papyri", lit "@include `m.papyri` @let(j=@str::unique_id part) <p id=$j>B</p>")] None), 50.
  eexists. exists [Compiled (lit "a.papyri") []; Said (lit "a.papyri (OK)")], [Said (lit "    => a.html"); Compiled (lit "b.papyri") []; Said (lit "b.papyri (OK)")].
  split; [discriminate|]. split; [reflexivity|]. split; [reflexivity|]. vm_compute. reflexivity.
Qed.
Print Assumptions C56_unique_ids_refuted.
(** Two sources may be compiled to the same file. *)
Theorem C56_same_output_refuted : exists H O fuel line evs evs', x_regex (h_X H []) std_regex <> None /\
  main H O fuel [] = Ret (Success, evs ++ Wrote (lit "a.html") (lit "<p>1</p>") :: evs' ++ [Wrote (lit "a.html") (lit "<p>2</p>"); line; Said (lit "2 files written; 2 OK, 0 failed, 0 skipped")]).
Proof.
  exists (ex_host [(lit "a.PAPYRI", lit "1"); (lit "a.papyri", lit "2")] None), (ex_options None false [lit "a.papyri"; lit "a.PAPYRI"]), 50. eexists.
  exists [Compiled (lit "a.PAPYRI") []; Said (lit "a.PAPYRI (OK)")], [Said (lit "    => a.html"); Compiled (lit "a.papyri") []; Said (lit "a.papyri (OK)")].
  split; [discriminate|]. vm_compute. reflexivity.
Qed.
Print Assumptions C56_same_output_refuted.

Example C42_nonvacuous : x_regex (h_X (ex_host ex_files None) []) std_regex <> None /\ SaneDirectory (ex_host ex_files None) (lit "/w") [lit "w"] /\
  Denotes [lit "w"] (lit "out") [lit "w"; lit "out"] /\
  main (ex_host ex_files None) (ex_options (Some (lit "out")) false [lit "b/x.papyri"; lit "a.papyri"; lit "z.lib.papyri"; lit "a.papyri/."]) 50 [] =
  Ret (Failure (SomeFailed (lit "1 file written; 1 OK, 1 failed, 1 skipped")),
       [Compiled (lit "a.papyri") [NameErr (NoSuchVariable (lit "y"))]; Summary (lit "a.papyri (failed, 1 error, 0 warnings)");
        Compiled (lit "b/x.papyri") []; Said (lit "b/x.papyri (OK)"); Wrote (lit "out/b/x.html") (lit "<p>Hello</p>"); Said (lit "    => out/b/x.html");
        Said (lit "z.lib.papyri (library, skipping)")]).
Proof.
  split; [discriminate|]. split; [exact ex_sane|]. split; [now apply Denotes_walk|]. vm_compute. reflexivity.
Qed.

(** A source that is not the first one, and a state with diagnostics and unique ids *)
Example C56_nonvacuous : let H := ex_host ex_files None in
  let O := ex_options (Some (lit "out")) false [lit "b/x.papyri"; lit "a.papyri"] in
  x_regex (h_X H []) std_regex <> None /\
  (exists before status rest, main H O 50 [] = Ret (status, before ++ Compiled (lit "b/x.papyri") [] :: rest) /\
     In (Compiled (lit "a.papyri") [NameErr (NoSuchVariable (lit "y"))]) before) /\
  (exists s s', sk_v (st_sink s) <> [] /\ st_uids s <> [] /\ st_out s <> None /\ (forall o, st_out s = Some o -> out_v o = []) /\ reset s = Ok tt s').
Proof.
  cbv zeta. split; [discriminate|]. split.
  - exists [Compiled (lit "a.papyri") [NameErr (NoSuchVariable (lit "y"))]; Summary (lit "a.papyri (failed, 1 error, 0 warnings)")].
    eexists _, _. split; [vm_compute; reflexivity|]. left. reflexivity.
  - set (s := set_uids [lit "id"] (set_sink (sink_add (NameErr (NoSuchVariable (lit "y"))) (sink_new LWarning)) ex_start)).
    exists s. eexists. split; [discriminate|]. split; [discriminate|]. split; [discriminate|].
    split; [intros o [= <-]; reflexivity|]. reflexivity.
Qed.
