(** C83: a source is compiled the same way by a new compiler and by one that was used for other sources before. *)
From Verif Require Import Base M_Text M_Names M_Html M_Types M_Diag M_Ast M_Value M_State M_Native M_Eval M_Std S_Scope S_Lib S_Alone P_Alone S_Example.
From Verif Require Import M_Cli S_Cli S_CliExample P_AloneCli.

(** Whatever was compiled before, once the compiler has been reset, a text is compiled as by a new compiler, if none of the
    modules it asks for was asked for before: it has the same output, exports, diagnostics, collected files and unique ids. *)
Theorem C83_text : forall X0 fuel0 level out_dir new before used X fuel path text output exports new',
  x_regex X0 std_regex <> None -> context_new X0 std_papyri fuel0 level out_dir = Ok tt new ->
  Used new before -> reset before = Ok tt used ->
  compile X fuel path text new = Ok (output, exports) new' ->
  (forall k, Known new' k -> ~ Known used k) ->
  exists r used', compile X fuel path text used = Ok (output, rm (rv r) exports) used' /\ SameUpToScopes r new new' used used'.
Proof. exact alone_text. Qed.
Print Assumptions C83_text.
(** The same holds for a file; it may not be readable, and the error is the same then. *)
Theorem C83_file : forall X0 fuel0 level out_dir new before used X fuel path,
  x_regex X0 std_regex <> None -> context_new X0 std_papyri fuel0 level out_dir = Ok tt new ->
  Used new before -> reset before = Ok tt used ->
  match load_uncached X (evals_n X fuel) path new with
  | Ok (output, exports) new' => (forall k, Known new' k -> ~ Known used k) ->
    exists r used', load_uncached X (evals_n X fuel) path used = Ok (output, rm (rv r) exports) used' /\ SameUpToScopes r new new' used used'
  | Err e new' => (forall k, Known new' k -> ~ Known used k) ->
    exists r used', load_uncached X (evals_n X fuel) path used = Err e used' /\ SameUpToScopes r new new' used used'
  | _ => True
  end.
Proof. exact alone_file. Qed.
Print Assumptions C83_file.

(** In a run of the command line tool with any number of sources, one that asks for no module gets the diagnostics, the output and
    the collected files it gets from a new compiler. (What is written for this output: C42.) *)
Theorem C83_tool : forall H O fuel version status evs, o_stdin O = false -> x_regex (h_X H []) std_regex <> None ->
  main H O fuel version = Ret (status, evs) ->
  forall before src ds after ds' collected output, evs = before ++ Compiled src ds :: after ->
  Alone H O fuel before src ds' collected output ->
  ds = ds' /\ Compilation H O fuel before src ds collected output.
Proof. exact alone_run. Qed.
Print Assumptions C83_tool.
Theorem C83_tool_output : forall H O fuel before src es ds collected output ds' collected' output', x_regex (h_X H []) std_regex <> None ->
  CompilationOf H O fuel before src es ds collected output -> Alone H O fuel before src ds' collected' output' ->
  ds = ds' /\ collected = collected' /\ output = output'.
Proof. exact alone_tool. Qed.
Print Assumptions C83_tool_output.

(** One source imports a module and has an error; the next imports another module and exports its function. *)
Definition ex_alone_X := ex_files_X
  [(lit "m.papyri", lit "@fn g $x -> $x @export(g=$g).");
   (lit "n.papyri", lit "@fn f $x -> <b>$x</b> @export(f=$f).");
   (lit "a.papyri", lit "@let(m=@import `m.papyri`) { <p id=@str::unique_id part>$y</p> }");
   (lit "b.papyri", lit "@let(m=@import `n.papyri`) { @export(f=$m::f). @m::f Hello }")].
Lemma ex_alone_regex : x_regex ex_alone_X std_regex <> None. Proof. discriminate. Qed.
Example C83_nonvacuous : exists new before used exports new',
  context_new ex_alone_X std_papyri 50 LWarning None = Ok tt new /\ Used new before /\ reset before = Ok tt used /\
  nkeys (st_mods used) = [lit "m.papyri"] /\ length (st_heap new) < length (st_heap used) /\
  load_uncached ex_alone_X (evals_n ex_alone_X 50) (lit "b.papyri") new =
    Ok (HTag (lit "p") [] (HTag (lit "b") [] (HText (lit "Hello"))), exports) new' /\
  nkeys (st_mods new') = [lit "n.papyri"] /\
  (exists n x c s b, exports = [(n, VFunc (FClosure x c s b))] /\ length (st_heap new) <= c) /\
  (forall k, Known new' k -> ~ Known used k).
Proof.
  destruct (two_sources (context_new ex_alone_X std_papyri 50 LWarning None) (load_uncached ex_alone_X (evals_n ex_alone_X 50) (lit "a.papyri"))
    (load_uncached ex_alone_X (evals_n ex_alone_X 50) (lit "b.papyri")) [lit "m.papyri"] [lit "n.papyri"] 3 6 (HTag (lit "p") [] (HTag (lit "b") [] (HText (lit "Hello")))) 5)
    as (new & va & before & n & x & s & b & new' & C & A & B & M & M' & L & L'); [vm_compute; reflexivity|].
  destruct (used_two _ _ _ _ _ _ _ C ex_alone_regex A) as (U & used & R & Lh & Lm).
  exists new, before, used, [(n, VFunc (FClosure x 5 s b))], new'. split; [exact C|]. split; [exact U|]. split; [exact R|].
  split; [now rewrite Lm|]. split; [rewrite Lh; lia|]. split; [exact B|]. split; [exact M'|].
  split; [exists n, x, 5, s, b; split; [reflexivity|lia]|]. apply (distinct_known _ _ (lit "m.papyri") (lit "n.papyri")); [now rewrite Lm|exact M'|discriminate].
Qed.
(** After a source with an error, one without *)
Example C83_tool_nonvacuous :
  let H := ex_host [(lit "a.papyri", lit "@let(v=1) { $y }"); (lit "b.papyri", lit "@let(v=2) { Hello $v }")] None in
  let O := ex_options None false [lit "a.papyri"; lit "b.papyri"] in
  let before := [Compiled (lit "a.papyri") [NameErr (NoSuchVariable (lit "y"))]; Summary (lit "a.papyri (failed, 1 error, 0 warnings)")] in
  let output := HTag (lit "p") [] (HText (lit "Hello 2")) in
  (exists status after, main H O 50 [] = Ret (status, before ++ Compiled (lit "b.papyri") [] :: after) /\ In (Wrote (lit "b.html") (lit "<p>Hello 2</p>")) after) /\
  Alone H O 50 before (lit "b.papyri") [] [] output.
Proof.
  cbv zeta. split; [eexists _, _; split; [vm_compute; reflexivity|]; right; left; reflexivity|].
  match goal with |- Alone ?H ?O ?f ?b ?s _ _ ?h =>
    destruct (alone_if (context_new (cli_X H O []) std_papyri f (reporting O) (o_out_dir O)) (x_read (cli_X H O b) s) (fun t => compile (cli_X H O b) f s t) [] h)
      as (new & text & exports & new' & C & RD & E & K & D); [vm_compute; reflexivity|] end.
  exists new, text, exports, new'. split; [exact C|]. split; [exact RD|]. split; [exact E|]. split; [exact K|]. split; [exact D|reflexivity].
Qed.
