(** C82: which diagnostics and progress lines are shown has no influence on what is compiled. *)
From Verif Require Import Base M_Names M_Html M_Types M_Diag M_Value M_State M_Native M_Eval M_Std M_Lib M_Cli S_Diag S_Levels P_Levels P_LevelsLib.
From Verif Require Import S_Example S_CliExample.

(** A context for one level of reporting, and one for another, are alike; *)
Theorem C82_context : forall X fuel l l' out_dir,
  SameEnd l l' (context_new X std_papyri fuel l out_dir) (context_new X std_papyri fuel l' out_dir).
Proof. intros. apply same_context. Qed.
Print Assumptions C82_context.
(** and they stay so, with the same results, whatever is compiled. *)
Theorem C82_compile : forall X fuel l l' path text s s', Alike l l' s s' ->
  SameEnd l l' (compile X fuel path text s) (compile X fuel path text s').
Proof. intros X fuel l l' path text s s'. apply sames_compile. Qed.
Print Assumptions C82_compile.
Theorem C82_reset : forall l l' s s', Alike l l' s s' -> SameEnd l l' (reset s) (reset s').
Proof. intros l l' s s'. apply sames_reset. Qed.
Print Assumptions C82_reset.

(** The command line tool reads and writes the same files and ends in the same way, with or without --silent and
    --ignore-warnings. *)
Theorem C82_tool : forall H O O' fuel version, SameTask O O' -> Indifferent H O O' -> o_version O = false ->
  SameRun O O' (main H O fuel version) (main H O' fuel version).
Proof. exact same_main. Qed.
Print Assumptions C82_tool.

(** A source with a warning and one with an error, with and without the two options *)
Example C82_nonvacuous :
  let H := ex_host [(lit "a.papyri", lit "@fn f $x: int?? -> $x"); (lit "b.papyri", lit "$y"); (lit "c.papyri", lit "Hi")] None in
  let O := ex_options None false [lit "a.papyri"; lit "b.papyri"; lit "c.papyri"] in
  let O' := Options false false true true false false None false [lit "a.papyri"; lit "b.papyri"; lit "c.papyri"] in
  SameTask O O' /\ Indifferent H O O' /\
  exists st evs evs', main H O 50 [] = Ret (st, evs) /\ main H O' 50 [] = Ret (st, evs') /\
    In (Compiled (lit "a.papyri") [Warn RedundantOptionType]) evs /\ In (Compiled (lit "a.papyri") []) evs' /\
    In (Wrote (lit "c.html") (lit "<p>Hi</p>")) evs' /\ length evs' < length evs.
Proof.
  cbv zeta. split; [repeat split|]. split; [intros a b _; repeat split|].
  eexists _, _, _. split; [vm_compute; reflexivity|]. split; [vm_compute; reflexivity|].
  repeat split; try (cbn [length]; lia); vm_compute; auto 20.
Qed.
