(** Proofs about sound states: sessions (C47, C57, C58). *)
From Verif Require Import Base BaseFacts M_Text M_Token M_Tokenizer M_Names M_TagInfo M_SliceRef M_Html M_Sequence S_Html P_Html P_Sequence M_Path M_Types M_Token M_Diag M_Queue M_Ast M_Parser M_Value M_State M_Matcher M_Binder M_Native M_Eval M_Std
  S_Grammar S_Util P_Util S_Types P_Types P_Coerce S_Scope P_State P_Scope S_Call P_Call P_Match S_Safe S_Session P_SafeBase P_SafeMonad P_SafeBind P_SafeMatch P_SafeHtml P_SafeNative P_SafeEval P_SafeRun
  P_ParserWf S_Lib P_Std.

Lemma groups_escape s t : groups_in (regex_escape s ++ t) = groups_in t.
Proof.
  induction s as [|c s IH]; [reflexivity|]. unfold regex_escape in *. cbn [flat_map]. rewrite <- app_assoc. destruct (is_meta c) eqn:E; cbn [app groups_in].
  - change ((c_of "\"%string =? c_of "\"%string)%N) with true. cbn iota. exact IH.
  - replace ((c =? c_of "\"%string)%N) with false by (symmetry; apply N.eqb_neq; intros ->; vm_compute in E; discriminate).
    replace ((c =? c_of "("%string)%N) with false by (symmetry; apply N.eqb_neq; intros ->; vm_compute in E; discriminate). exact IH.
Qed.
Lemma groups_template ps : Forall SimplePart ps -> groups_in (regex_text regex_escape ps) = length (regex_vars ps).
Proof.
  intro H. unfold regex_text. change (groups_in (lit "^(?s:" ++ flat_map (regex_part regex_escape) ps ++ lit ")$")) with
    (groups_in (flat_map (regex_part regex_escape) ps ++ lit ")$")).
  induction ps as [|p ps IH]; [reflexivity|]. inversion H as [|? ? Hp Hs]; subst. specialize (IH Hs). unfold regex_vars in *. cbn [flat_map]. rewrite <- app_assoc, app_length, <- IH.
  destruct p as [s|c|n|]; cbn [regex_part].
  - now rewrite groups_escape.
  - now rewrite groups_escape.
  - destruct (Hp n eq_refl) as [x ->]. reflexivity.
  - reflexivity.
Qed.
Lemma environment_covers m X : Environment m X -> Covers m.
Proof. destruct m; cbn; tauto. Qed.
Lemma environment_groups m X : Environment m X -> forall g T, m = Strict g T -> GroupsAre X g.
Proof. intros H g T ->. cbn in H. destruct H as [[H _] _]. exact H. Qed.
Lemma environment_plain m X : Environment m X -> m = Plain -> forall s, PlainDom (x_lower X) (snd (x_html_parse X s)).
Proof. intros H ->. exact H. Qed.
Lemma good_program m X path text : Environment m X -> Program m X path text ->
  forall root errs, parse_source X path text = Ret (root, errs) -> Forall (GoodNode m) root.
Proof.
  intros E P root errs H. apply Forall_forall. intros n Hn. unfold GoodNode. destruct m as [| |g T]; [exact I| |].
  { assert (W : forallb (every_node named) root = true).
    { apply (made_named groups_in). eapply parse_made; [|exact H]. intros ps S _. now apply groups_template. }
    rewrite forallb_forall in W. auto. }
  destruct E as ([_ L] & _ & _).
  split.
  - assert (W : forallb (every_node (well_formed g)) root = true).
    { eapply parse_wf; [|exact H]. intros ps S Ho. apply L; auto. intro K. cbv beta in Ho. rewrite K in Ho. discriminate. }
    rewrite forallb_forall in W. auto.
  - specialize (P _ _ H). rewrite forallb_forall in P. auto.
Qed.
Lemma good_sources m X : Environment m X -> GoodSources m X.
Proof.
  intros E path text root errs Hr. eapply good_program; [exact E|]. unfold Program. destruct m; [exact I|exact I|]. destruct E as (_ & _ & E). auto.
Qed.

Lemma compile_panics X fuel path text s : parse_source X path text = Panic -> compile X fuel path text s = Crash FParser.
Proof. intro N. unfold compile, compile_source. unfold bind at 1. rewrite N. reflexivity. Qed.
Lemma parse_panics X path text : parse_source X path text = Panic \/ parse_source X path text <> Panic.
Proof. destruct (parse_source X path text); [right|left|right]; congruence. Qed.
Section Use.
  Variable m : mode.
  Variable X : externals.
  Hypothesis env : Environment m X.
  Lemma use_compile fuel path text s : Sound m s -> Program m X path text -> Loose m \/ parse_source X path text <> Panic ->
    Post m X (fun k r => GoodHtml m (fst r) /\ GoodExports m k (snd r)) s (compile X fuel path text s).
  Proof.
    intros S P N. apply (top_compile m X (environment_covers _ _ env) (environment_groups _ _ env) (good_sources _ _ env) (environment_plain _ _ env) fuel (length (st_heap s))); auto.
    - intro Q. destruct N as [N|N]; [now left|now elim N].
    - now apply good_program.
  Qed.
  Lemma use_evals fuel : EvalSafe m X (evals_n X fuel) /\ CallSafe m X (evals_n X fuel).
  Proof. apply evals_safe; [eapply environment_covers|eapply environment_groups|eapply good_sources|eapply environment_plain]; exact env. Qed.
  Lemma use_load fuel path s : Sound m s -> Post m X (fun k r => GoodHtml m (fst r) /\ GoodExports m k (snd r)) s (load_uncached X (evals_n X fuel) path s).
  Proof.
    intro S. unfold load_uncached. destruct (x_read X path) as [text|] eqn:E.
    - destruct (use_evals fuel) as [A B]. apply (top_compile_source m X (environment_covers _ _ env) (environment_groups _ _ env) (environment_plain _ _ env) (evals_n X fuel) A B (length (st_heap s))); auto.
      + intro P. right. exists path, text. auto.
      + intros root errs. now apply (good_sources _ _ env path).
      + unfold good_kind, all_kinds. cbn. tauto.
    - cbn. split; [exact S|]. apply step_refl.
  Qed.
  Lemma use_new std fuel level out s : Program m X (lit "<stdlib>") std -> context_new X std fuel level out = Ok tt s -> Sound m s.
  Proof.
    intros P. unfold context_new, compile_stdlib. generalize (sound_start m level out). generalize (context_start level out). intros s0 S0.
    assert (N : parse_source X (lit "<stdlib>") std = Panic \/ parse_source X (lit "<stdlib>") std <> Panic) by apply parse_panics.
    destruct N as [N|N]; [unfold bind at 1, compile_source; unfold bind at 1; rewrite N; discriminate|].
    assert (H : Post m X (fun k r => GoodHtml m (fst r) /\ GoodExports m k (snd r)) s0 (compile_source X (evals_n X fuel) (lit "<stdlib>") std RequireEmpty s0)).
    { destruct (use_evals fuel) as [A B]. apply (top_compile_source m X (environment_covers _ _ env) (environment_groups _ _ env) (environment_plain _ _ env) (evals_n X fuel) A B (length (st_heap s0))); auto.
      - intro Q. now elim N.
      - now apply good_program.
      - unfold good_kind, all_kinds. cbn. tauto. }
    unfold bind at 1. destruct (compile_source _ _ _ _ _ s0) as [[h ex] s1|e s1|c|]; intro K; try discriminate K.
    destruct H as (S1 & _ & _ & Gx). cbn [snd] in *.
    assert (Lr : st_root s1 < length (st_heap s1)) by (destruct S1 as [[_ [R _]] _ _ _ _]; exact R).
    unfold bind, gets, new_frame, modify in K. cbn beta iota in K.
    set (f := Frame (Some (st_root s1)) ex []) in *. set (s2 := set_heap (st_heap s1 ++ [f]) s1) in *.
    assert (S2 : Sound m s2).
    { apply sound_heap; [exact S1|cbn; intros p [= <-]; exact Lr|]. apply goodframe_new. apply (goodmap_mono m (length (st_heap s1))); [lia|apply Gx]. }
    assert (S3 : Sound m (set_root (length (st_heap s1)) s2)).
    { destruct S2 as [(W & _ & St) F Ex M O]. constructor; auto. split; [exact W|]. split; [|exact St]. cbn. rewrite app_length. cbn. lia. }
    destruct (sink_is_empty _) in K; [|discriminate K]. unfold ret in K. injection K as <-. exact S3.
  Qed.
End Use.

Lemma sound_sink m d s : Sound m s -> Sound m (set_sink d s).
Proof. intros [R F E M O]. constructor; auto. Qed.
Lemma sound_uids m u s : Sound m s -> Sound m (set_uids u s).
Proof. intros [R F E M O]. constructor; auto. Qed.
Theorem session_sound m s : Session m s -> Sound m s.
Proof.
  induction 1 as [X fuel level out s E Hr P H|X fuel path text s r s' _ IH E P H|X fuel path s s' _ IH E H|s o _ IH H|s s' _ IH H].
  - exact (use_new m X E std_papyri fuel level out s P H).
  - destruct (parse_panics X path text) as [N|N]; [rewrite (compile_panics _ _ _ _ _ N) in H; discriminate H|].
    pose proof (use_compile m X E fuel path text s IH P (or_intror N)) as K. rewrite H in K. apply K.
  - pose proof (use_load m X E fuel path s IH) as K. destruct (load_uncached _ _ _ s); try discriminate H; injection H as <-; apply K.
  - destruct IH as [R F Ex M O]. constructor; auto. intros o' [= <-]. constructor.
  - unfold reset, bind, modify, gets in H. cbn beta iota in H.
    set (s2 := set_uids [] (set_sink (sink_clear (st_sink s)) s)) in *.
    assert (S2 : Sound m s2) by (apply sound_uids, sound_sink, IH).
    destruct (st_out s2) as [o|]; [destruct (M_Path.out_is_empty o); [|discriminate H]|]; unfold ret in H; injection H as <-; exact S2.
Qed.

(** ** The example *)
Lemma disciplined_of X T path text ast es : parse_source X path text = Ret (ast, es) -> forallb (every_node (discipline T)) ast = true -> Disciplined X T path text.
Proof. intros E H root errs E'. rewrite E in E'. injection E' as <- <-. exact H. Qed.
Lemma std_disciplined : forallb (every_node (discipline ex_table)) std_ast = true.
Proof. vm_compute. reflexivity. Qed.
Lemma std_source X : x_regex X std_regex <> None -> parse_source X (lit "<stdlib>") std_papyri = Ret (std_ast, []).
Proof. intro H. apply (std_parses (x_decode X)). destruct (x_regex X std_regex); congruence. Qed.
Lemma std_program X : x_regex X std_regex <> None -> Disciplined X ex_table (lit "<stdlib>") std_papyri.
Proof. intro H. exact (disciplined_of X ex_table _ _ std_ast [] (std_source X H) std_disciplined). Qed.
