(** Proofs for C82: the whole tool. *)
From Verif Require Import Base M_Names M_Html M_Types M_Diag M_Value M_State M_Native M_Eval M_Std M_Cli S_Diag S_Levels P_Levels.

Definition main_std (std : str) (H : host) (O : options) (fuel : nat) (version : str) : outcome (status * list event) :=
  if o_version O then Ret (Success, [Said version])
  else
    let O := {| o_version := o_version O; o_skip_unchanged := o_skip_unchanged O; o_silent := o_silent O || o_stdin O;
                o_ignore_warnings := o_ignore_warnings O; o_text := o_text O; o_stdin := o_stdin O; o_out_dir := o_out_dir O;
                o_allow_http := o_allow_http O; o_paths := o_paths O |} in
    let paths := match o_paths O with [] => if o_stdin O then [] else [lit "."] | ps => ps end in
    match context_new (cli_X H O []) std fuel (if o_ignore_warnings O then LError else LWarning) (o_out_dir O) with
    | Ok _ s =>
      match run H O fuel paths s [] with
      | Go _ _ evs => Ret (Success, evs)
      | Stop r evs => Ret (Failure r, evs)
      | Ice evs => Ret (Aborted, evs)
      | Starved => OutOfFuel
      end
    | NoFuel => OutOfFuel
    | _ => Ret (Aborted, [])
    end.
Definition quieted (O : options) : options :=
  {| o_version := o_version O; o_skip_unchanged := o_skip_unchanged O; o_silent := o_silent O || o_stdin O;
     o_ignore_warnings := o_ignore_warnings O; o_text := o_text O; o_stdin := o_stdin O; o_out_dir := o_out_dir O;
     o_allow_http := o_allow_http O; o_paths := o_paths O |}.
Lemma silent_quieted O : Silent (quieted O) <-> Silent O.
Proof. unfold Silent, quieted. cbn. rewrite Bool.orb_true_iff. tauto. Qed.
Lemma deeds_quieted O O' a b : SameDeeds (quieted O) (quieted O') a b <-> SameDeeds O O' a b.
Proof.
  split; induction 1; rewrite ?silent_quieted in *;
    [constructor|apply deeds_said|apply deeds_silent|apply deeds_silent'|apply deeds_shown|apply deeds_other
    |constructor|apply deeds_said|apply deeds_silent|apply deeds_silent'|apply deeds_shown|apply deeds_other];
    rewrite ?silent_quieted; assumption.
Qed.
Lemma same_main_std std H O O' fuel v : SameTask O O' -> Indifferent H O O' -> o_version O = false ->
  SameRun O O' (main_std std H O fuel v) (main_std std H O' fuel v).
Proof.
  intros T I V. unfold main_std. fold (quieted O). fold (quieted O').
  assert (V' : o_version O' = false) by (rewrite <- V; symmetry; apply T). rewrite V, V'.
  assert (T' : SameTask (quieted O) (quieted O')) by exact T.
  assert (I' : Indifferent H (quieted O) (quieted O')). { intros a b D. apply I. now apply deeds_quieted. }
  assert (S : forall o, o_stdin (quieted o) = true -> o_silent (quieted o) = true).
  { intros o E. cbn in *. rewrite E. apply Bool.orb_true_r. }
  assert (EX : cli_X H (quieted O) [] = cli_X H (quieted O') []) by (apply (cli_X_same H (quieted O) (quieted O') T' I'); constructor).
  cbv zeta. rewrite <- EX. replace (o_out_dir (quieted O')) with (o_out_dir (quieted O)) by apply T.
  replace (o_paths (quieted O')) with (o_paths (quieted O)) by apply T. replace (o_stdin (quieted O')) with (o_stdin (quieted O)) by apply T.
  pose proof (sames_stdlib (level_of (quieted O)) (level_of (quieted O')) (cli_X H (quieted O) []) std fuel _ _
    (alike_start (level_of (quieted O)) (level_of (quieted O')) (o_out_dir (quieted O)))) as C.
  unfold context_new. fold (level_of (quieted O)). fold (level_of (quieted O')). destruct C as [u s s' Al|e s s' Al|c|]; try (constructor; constructor).
  pose proof (cs_run H (quieted O) (quieted O') fuel T' I' (S O) (S O')
    (match o_paths (quieted O) with [] => if o_stdin (quieted O) then [] else [lit "."] | ps => ps end) s s' [] [] Al (deeds_none _ _)) as R.
  destruct R as [a s1 s2 x y _ D|r x y D|x y D|]; [| | |apply same_starved]; apply same_run; apply (proj1 (deeds_quieted _ _ _ _)); exact D.
Qed.
Lemma same_main H O O' fuel v : SameTask O O' -> Indifferent H O O' -> o_version O = false ->
  SameRun O O' (main H O fuel v) (main H O' fuel v).
Proof. exact (same_main_std std_papyri H O O' fuel v). Qed.
Lemma same_context X fuel l l' o : SameEnd l l' (context_new X std_papyri fuel l o) (context_new X std_papyri fuel l' o).
Proof. exact (sames_stdlib l l' X std_papyri fuel _ _ (alike_start l l' o)). Qed.
