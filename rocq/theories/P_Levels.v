(** Proofs for C82. *)
From Verif Require Import Base BaseFacts M_Text P_Text M_Names M_TagInfo M_Html M_Path M_SourceFile M_Sequence M_Types M_Diag M_Value M_State M_Matcher M_Binder M_Native
  M_Eval M_Cli P_Built S_Scope P_State S_Diag S_Levels.

Section Levels.
Variables l l' : level.
Definition kept (d d' : sink) : Prop :=
  sk_errors d = sk_errors d' /\ sk_warnings d = sk_warnings d' /\ sk_level d = l /\ sk_level d' = l' /\ Shows l l' (sk_v d) (sk_v d').
Lemma alike_iff s s' : Alike l l' s s' <-> exists d, s' = set_sink d s /\ kept (st_sink s) d.
Proof.
  split.
  - intros [? ? ? ? ? ? ? ? ? ? ? ? ?]. exists (st_sink s'). split; [|repeat split; assumption].
    destruct s, s'; cbn in *; subst; reflexivity.
  - intros (d & -> & A & B & C & D & E). destruct s; constructor; cbn in *; auto.
Qed.
Lemma selected_snoc (P : papyri_error -> Prop) a b x : Selected P a b -> P x -> Selected P (a ++ [x]) (b ++ [x]).
Proof. induction 1; intro Hx; cbn [app]; [repeat constructor; assumption|apply Sel_yes; auto|apply Sel_no; auto]. Qed.
Lemma selected_snoc_no (P : papyri_error -> Prop) a b x : Selected P a b -> ~ P x -> Selected P (a ++ [x]) b.
Proof. induction 1; intro Hx; cbn [app]; [repeat constructor; assumption|apply Sel_yes; auto|apply Sel_no; auto]. Qed.
Lemma selected_add k a b e : Selected (AtLevel k) a b ->
  Selected (AtLevel k) (a ++ [e]) (if should_report k (severity_of e) then b ++ [e] else b).
Proof.
  intro H. destruct (should_report k (severity_of e)) eqn:E; [apply selected_snoc|apply selected_snoc_no]; auto;
    destruct k, e; cbn in *; try discriminate E; unfold is_error, is_warning; cbn; try tauto; auto; intuition discriminate.
Qed.
Lemma kept_add d d' e : kept d d' -> kept (sink_add e d) (sink_add e d').
Proof.
  intros (A & B & C & D & r & E & F). unfold kept, sink_add. cbn [sk_errors sk_warnings sk_level sk_v]. rewrite A, B, C, D.
  repeat split. exists (r ++ [e]). split; apply selected_add; assumption.
Qed.
Definition same {A} (m : EM A) : Prop := forall s d, kept (st_sink s) d ->
  match m s with
  | Ok a s1 => exists d1, m (set_sink d s) = Ok a (set_sink d1 s1) /\ kept (st_sink s1) d1
  | Err e s1 => exists d1, m (set_sink d s) = Err e (set_sink d1 s1) /\ kept (st_sink s1) d1
  | Crash c => m (set_sink d s) = Crash c
  | NoFuel => m (set_sink d s) = NoFuel
  end.
Lemma built_same K w A (m : EM A) : Built K w A m -> same m.
Proof.
  induction 1 as [w A a|w A e|w A e He|w A|w A|w A c r|w A B m f Hm IHm Hf IHf|w A m Hm IHm|w A m Hm IHm|w e|w|w n imp|w n|w g Hg Hk
                    |w A c bs w' m Hm IHm|w n v|w d b n|w p h|w A w' m Hm IHm|w p k m HK Hm IHm]; intros s d0 E.
  - cbn. eauto.
  - cbn. eauto.
  - cbn. eexists. split; [reflexivity|]. now apply kept_add.
  - reflexivity.
  - reflexivity.
  - unfold pure. destruct r; [eauto|reflexivity|reflexivity].
  - unfold bind. specialize (IHm s d0 E). destruct (m s) as [a s1|e s1| |].
    + destruct IHm as (d1 & -> & E1). apply (IHf a s1 d1 E1).
    + destruct IHm as (d1 & -> & E1). eexists. split; [reflexivity|exact E1].
    + now rewrite IHm.
    + now rewrite IHm.
  - unfold catch. specialize (IHm s d0 E). destruct (m s) as [a s1|e s1| |].
    + destruct IHm as (d1 & -> & E1). eexists. split; [reflexivity|exact E1].
    + destruct IHm as (d1 & -> & E1). eexists. split; [reflexivity|exact E1].
    + now rewrite IHm.
    + now rewrite IHm.
  - unfold or_report. specialize (IHm s d0 E). destruct (m s) as [a s1|e s1| |].
    + destruct IHm as (d1 & -> & E1). eexists. split; [reflexivity|exact E1].
    + destruct IHm as (d1 & -> & E1). eexists. split; [reflexivity|]. now apply kept_add.
    + now rewrite IHm.
    + now rewrite IHm.
  - cbn. eexists. split; [reflexivity|]. now apply kept_add.
  - unfold frame_id. cbn [st_stack set_sink]. destruct (st_stack s); [reflexivity|eauto].
  - unfold frame_lookup, bind, frame_id. cbn [st_stack st_heap set_sink]. destruct (st_stack s); [reflexivity|].
    eexists. split; [reflexivity|exact E].
  - unfold frame_has, bind, frame_id. cbn [st_stack st_heap set_sink]. destruct (st_stack s); [reflexivity|].
    eexists. split; [reflexivity|exact E].
  - unfold with_frame, bind, frame_id. cbn [st_stack st_heap set_sink]. destruct (st_stack s); [reflexivity|].
    eexists. split; [reflexivity|exact E].
  - rewrite !in_call_frame_eq. cbn [st_heap set_sink]. destruct (c <? length (st_heap s)); [|reflexivity].
    change (push_scope c bs (set_sink d0 s)) with (set_sink d0 (push_scope c bs s)).
    specialize (IHm (push_scope c bs s) d0 E). destruct (m (push_scope c bs s)) as [a s1|e s1| |].
    + destruct IHm as (d1 & -> & E1). eexists. split; [reflexivity|exact E1].
    + destruct IHm as (d1 & -> & E1). eexists. split; [reflexivity|exact E1].
    + now rewrite IHm.
    + now rewrite IHm.
  - unfold M_State.export, bind, gets, modify. cbn [st_exports set_sink]. destruct (nhas (st_exports s) n).
    + eexists. split; [reflexivity|]. now apply kept_add.
    + eexists. split; [reflexivity|exact E].
  - unfold new_unique_id. cbn [st_uids set_sink]. destruct (get_unique_id d (st_uids s) b n) as [[id used]| |]; [eexists; split; [reflexivity|exact E]|reflexivity|reflexivity].
  - unfold push_out_file. cbn [st_out set_sink]. destruct (st_out s) as [o|]; [|eexists; split; [reflexivity|exact E]].
    destruct (try_push o p h) as [[|] o']; (eexists; split; [reflexivity|exact E]).
  - pose proof (IHm (new_compiler s) d0 E) as IH.
    assert (Q : forall s0, with_compiler m s0 =
      match m (new_compiler s0) with
      | Ok a s1 => Ok (a, st_exports s1) (set_stack (st_stack s0) (set_exports (st_exports s0) s1))
      | Err e s1 => Err e (set_stack (st_stack s0) (set_exports (st_exports s0) s1))
      | Crash c => Crash c
      | NoFuel => NoFuel
      end) by reflexivity.
    rewrite !Q. change (new_compiler (set_sink d0 s)) with (set_sink d0 (new_compiler s)).
    destruct (m (new_compiler s)) as [a s1|e s1| |].
    + destruct IH as (d1 & -> & E1). eexists. split; [reflexivity|exact E1].
    + destruct IH as (d1 & -> & E1). eexists. split; [reflexivity|exact E1].
    + now rewrite IH.
    + now rewrite IH.
  - unfold cached, bind, module_state_of, gets. cbn [st_mods set_sink]. destruct (ngetm (st_mods s) k) as [[o x| |]|]; try (eexists; split; [reflexivity|exact E]).
    rewrite !load_module_eq. change (start_module k (set_sink d0 s)) with (set_sink d0 (start_module k s)).
    specialize (IHm (start_module k s) d0 E). destruct (m (start_module k s)) as [[o x] s1|e s1| |].
    + destruct IHm as (d1 & -> & E1). eexists. split; [reflexivity|exact E1].
    + destruct IHm as (d1 & -> & E1). eexists. split; [reflexivity|exact E1].
    + now rewrite IHm.
    + now rewrite IHm.
Qed.
Definition sames {A} (m : EM A) : Prop := forall s s', Alike l l' s s' -> SameEnd l l' (m s) (m s').
Lemma same_sames A (m : EM A) : same m -> sames m.
Proof.
  intros H s s' Al. apply alike_iff in Al as (d & -> & E). specialize (H s d E). destruct (m s) as [a s1|e s1| |].
  - destruct H as (d1 & -> & E1). constructor. apply alike_iff. eauto.
  - destruct H as (d1 & -> & E1). constructor. apply alike_iff. eauto.
  - rewrite H. constructor.
  - rewrite H. constructor.
Qed.
Lemma sames_compile X fuel p t : sames (compile X fuel p t).
Proof. eapply same_sames, built_same, (built_compile X fuel p t false). Qed.
Lemma sames_load X fuel p : sames (load_uncached X (evals_n X fuel) p).
Proof.
  assert (B : Built any_key false _ (load_uncached X (evals_n X fuel) p)). { apply built_load_uncached; intros; apply built_evals; intros; exact I. }
  eapply same_sames, built_same, B.
Qed.
Lemma shows_nil : Shows l l' [] [].
Proof. exists []. split; constructor. Qed.
Lemma alike_start o : Alike l l' (context_start l o) (context_start l' o).
Proof. constructor; try reflexivity. apply shows_nil. Qed.
Lemma sames_bind A B (m : EM A) (f : A -> EM B) : sames m -> (forall a, sames (f a)) -> sames (bind m f).
Proof. intros Hm Hf s s' H. unfold bind. destruct (Hm s s' H); try constructor; auto. now apply Hf. Qed.
Lemma sames_gets A B (g : st -> A) (f : A -> EM B) : (forall s s', Alike l l' s s' -> g s = g s') -> (forall a, sames (f a)) -> sames (bind (gets g) f).
Proof. intros Hg Hf s s' H. unfold bind, gets. rewrite (Hg s s' H). now apply Hf. Qed.
Lemma sink_empty_alike s s' : Alike l l' s s' -> sink_is_empty (st_sink s) = sink_is_empty (st_sink s').
Proof. intros [? ? ? ? ? ? ? ? A B ? ? ?]. unfold sink_is_empty. now rewrite A, B. Qed.
Lemma sink_summary_alike s s' : Alike l l' s s' -> sink_summary (st_sink s) = sink_summary (st_sink s').
Proof. intros [? ? ? ? ? ? ? ? A B ? ? ?]. unfold sink_summary. now rewrite A, B. Qed.
Lemma sames_stdlib X std fuel : sames (compile_stdlib X std fuel).
Proof.
  unfold compile_stdlib. apply sames_bind.
  - assert (B : Built any_key false _ (compile_source X (evals_n X fuel) (lit "<stdlib>") std RequireEmpty)).
    { apply built_compile_source; intros; apply built_evals; intros; exact I. }
    eapply same_sames, built_same, B.
  - intro r. apply sames_gets; [intros s s' H; apply H|]. intro base. apply sames_bind.
    + intros s s' H. unfold new_frame. rewrite <- (al_heap _ _ _ _ H). constructor. apply alike_iff in H as (d & -> & E). apply alike_iff. exists d. split; [reflexivity|exact E].
    + intro i. apply sames_bind.
      * intros s s' H. constructor. apply alike_iff in H as (d & -> & E). apply alike_iff. exists d. split; [reflexivity|exact E].
      * intros _ s s' H. unfold bind, gets. rewrite (sink_empty_alike s s' H). destruct (sink_is_empty (st_sink s')); constructor. exact H.
Qed.
Lemma sames_reset : sames reset.
Proof.
  intros s s' H. apply alike_iff in H as (d & -> & E). unfold reset, bind, modify, gets. cbn [st_out st_sink set_sink set_uids].
  assert (K : kept (sink_clear (st_sink s)) (sink_clear d)).
  { destruct E as (A & B & C & D & F). repeat split; try assumption. apply shows_nil. }
  assert (Al : Alike l l' (set_uids [] (set_sink (sink_clear (st_sink s)) s)) (set_uids [] (set_sink (sink_clear d) (set_sink d s)))).
  { apply alike_iff. exists (sink_clear d). split; [reflexivity|exact K]. }
  destruct (st_out s) as [o|]; [|constructor; exact Al]. destruct (out_is_empty o); constructor. exact Al.
Qed.
End Levels.

(** * The command line tool *)
Section Tool.
Variable H : host.
Variables O O' : options.
Variable fuel : nat.
Hypothesis HT : SameTask O O'.
Hypothesis HH : Indifferent H O O'.
Hypothesis HS : o_stdin O = true -> o_silent O = true.
Hypothesis HS' : o_stdin O' = true -> o_silent O' = true.
Notation l := (level_of O).
Notation l' := (level_of O').
Inductive csame {A} : cres A -> cres A -> Prop :=
| cs_go a s s' x y : Alike l l' s s' -> SameDeeds O O' x y -> csame (Go a s x) (Go a s' y)
| cs_stop r x y : SameDeeds O O' x y -> csame (Stop r x) (Stop r y)
| cs_ice x y : SameDeeds O O' x y -> csame (Ice x) (Ice y)
| cs_starved : csame Starved Starved.
Definition csames {A} (m m' : CM A) : Prop := forall s s' x y, Alike l l' s s' -> SameDeeds O O' x y -> csame (m s x) (m' s' y).
Lemma cs_ret A (a : A) : csames (cret a) (cret a).
Proof. intros s s' x y Hs Hx. now constructor. Qed.
Lemma cs_bind A B (m m' : CM A) (f f' : A -> CM B) : csames m m' -> (forall a, csames (f a) (f' a)) -> csames (cbind m f) (cbind m' f').
Proof. intros Hm Hf s s' x y Hs Hx. unfold cbind. destruct (Hm s s' x y Hs Hx); try (constructor; assumption). now apply Hf. Qed.
Lemma cs_emit e : (forall line, e <> Said line) -> (forall src ds, e <> Compiled src ds) -> csames (emit e) (emit e).
Proof. intros A B s s' x y Hs Hx. constructor; [exact Hs|]. now apply deeds_other. Qed.
Lemma cs_halt A r : csames (@stop A r) (stop r).
Proof. intros s s' x y Hs Hx. now constructor. Qed.
Lemma cs_abort A : csames (@ice A) ice.
Proof. intros s s' x y Hs Hx. now constructor. Qed.
Lemma cs_say line : csames (say O line) (say O' line).
Proof.
  intros s s' x y Hs Hx. unfold say.
  assert (S : Silent O <-> o_silent O = true) by (unfold Silent; tauto).
  assert (S' : Silent O' <-> o_silent O' = true) by (unfold Silent; tauto).
  destruct (o_silent O) eqn:E, (o_silent O') eqn:E'; constructor; try assumption.
  - apply deeds_silent; [now apply S|now rewrite S'|exact Hx].
  - apply deeds_silent'; [now rewrite S|now apply S'|exact Hx].
  - apply deeds_said; [now rewrite S|now rewrite S'|exact Hx].
Qed.
Lemma cs_compiler A (m m' : list event -> EM A) r : (forall x y, SameDeeds O O' x y -> m x = m' y) -> (forall x, sames l l' (m x)) -> csames (compiler m r) (compiler m' r).
Proof.
  intros E S s s' x y Hs Hx. unfold compiler. rewrite <- (E x y Hx). destruct (S x s s' Hs); constructor; assumption.
Qed.
Lemma cs_ask A (f f' : list event -> A) : (forall x y, SameDeeds O O' x y -> f x = f' y) -> csames (ask f) (ask f').
Proof. intros E s s' x y Hs Hx. unfold ask. rewrite (E x y Hx). now constructor. Qed.
Lemma cs_each A (f f' : A -> CM unit) : (forall a, csames (f a) (f' a)) -> forall xs, csames (each f xs) (each f' xs).
Proof. intros E xs. induction xs as [|a xs IH]; cbn [each]; [apply cs_ret|]. apply cs_bind; auto. Qed.
Lemma cli_X_same x y : SameDeeds O O' x y -> cli_X H O x = cli_X H O' y.
Proof. intro E. unfold cli_X. destruct HT as (_ & _ & _ & _ & _ & <- & _). now destruct (HH x y E) as (-> & _). Qed.
Lemma cs_entries p entries : forall paths, csames (add_entries p entries paths) (add_entries p entries paths).
Proof. induction entries as [|[q|] entries IH]; intro paths; cbn [add_entries]; [apply cs_ret|apply IH|apply cs_halt]. Qed.
Ltac other := apply cs_emit; discriminate.
Lemma cs_add_paths ps : forall paths, csames (add_paths H ps paths) (add_paths H ps paths).
Proof.
  induction ps as [|p ps IH]; intro paths; cbn [add_paths]; [apply cs_ret|]. apply cs_bind; [|intro; apply IH].
  unfold add_path. destruct (looks_like_glob p).
  - destruct (h_glob H p); [apply cs_entries|apply cs_halt].
  - destruct (h_is_dir H p).
    + cbv zeta. apply cs_bind; [apply cs_each; intro; other|]. intros _. apply cs_ret.
    + destruct (is_papyri_path p); [apply cs_ret|]. apply cs_bind; [other|]. intros _. apply cs_ret.
Qed.
Lemma cs_out_path src in_dir : csames (get_out_path O src in_dir) (get_out_path O' src in_dir).
Proof.
  unfold get_out_path, extension. destruct HT as (_ & _ & <- & _ & <- & _). apply cs_bind.
  - destruct (o_out_dir O); [|apply cs_ret]. destruct (make_relative in_dir src); [apply cs_ret|apply cs_halt].
  - intro b. destruct (set_extension b _); [apply cs_ret|apply cs_abort].
Qed.
Lemma cs_write f : csames (write_out_file H O f) (write_out_file H O' f).
Proof.
  unfold write_out_file. apply cs_bind.
  - apply cs_ask. intros x y E. now destruct (HH x y E) as (_ & _ & ->).
  - intros [| | | |]; try apply cs_halt.
    + apply cs_bind; [other|]. intros _. apply cs_halt.
    + apply cs_bind; [other|]. intros _. apply cs_say.
    + destruct HT as (_ & _ & <- & _). apply cs_bind; [other|]. intros _. apply cs_say.
Qed.
Lemma cs_take : csames take_out_files take_out_files.
Proof.
  intros s s' x y Hs Hx. unfold take_out_files. rewrite <- (al_out _ _ _ _ Hs). destruct (st_out s) as [o|]; constructor; try assumption.
  apply alike_iff in Hs as (d & -> & E). apply alike_iff. exists d. split; [reflexivity|exact E].
Qed.
Lemma cs_look A (k k' : sink -> CM A) : (forall d d', kept l l' d d' -> csames (k d) (k' d')) ->
  csames (cbind (look st_sink) k) (cbind (look st_sink) k').
Proof.
  intros E s s' x y Hs Hx. unfold cbind, look. apply alike_iff in Hs as (d & -> & K). cbn [st_sink set_sink].
  apply E; [exact K| |exact Hx]. apply alike_iff. eauto.
Qed.
Lemma cs_shown src d d' : kept l l' d d' -> csames (emit (Compiled src (sk_v d))) (emit (Compiled src (sk_v d'))).
Proof. intros K s s' x y Hs Hx. constructor; [exact Hs|]. apply deeds_shown; [apply K|exact Hx]. Qed.
Lemma kept_empty d d' : kept l l' d d' -> sink_is_empty d = sink_is_empty d'.
Proof. intros (A & B & _). unfold sink_is_empty. now rewrite A, B. Qed.
Lemma kept_summary d d' : kept l l' d d' -> sink_summary d = sink_summary d'.
Proof. intros (A & B & _). unfold sink_summary. now rewrite A, B. Qed.
Lemma cs_process src in_dir : csames (process_source_file H O fuel src in_dir) (process_source_file H O' fuel src in_dir).
Proof.
  unfold process_source_file. destruct (is_papyri_library src).
  { apply cs_bind; [apply cs_say|]. intros _. apply cs_ret. }
  apply cs_bind; [apply cs_out_path|]. intro out. apply cs_bind.
  { apply cs_ask. intros x y E. unfold is_unchanged. destruct HT as (_ & <- & _). destruct (HH x y E) as (_ & -> & _). reflexivity. }
  intros [|].
  { apply cs_bind; [apply cs_say|]. intros _. apply cs_ret. }
  apply cs_bind. { apply cs_compiler; [reflexivity|]. intro. apply sames_reset. }
  intros _. apply cs_bind.
  { apply cs_compiler; [intros x y E; now rewrite (cli_X_same x y E)|]. intro. apply sames_load. }
  intro r. apply cs_bind; [apply cs_take|]. intro collected. cbv zeta. apply cs_look. intros d d' K.
  apply cs_bind; [now apply cs_shown|]. intros _. apply cs_bind.
  { rewrite (kept_empty d d' K), (kept_summary d d' K). destruct (sink_is_empty d'); [apply cs_say|other]. }
  intros _. replace (sk_errors d') with (sk_errors d) by apply K. destruct (0 <? sk_errors d)%N; [apply cs_ret|].
  destruct (collected ++ _); [apply cs_ret|]. apply cs_bind; [apply cs_each; intro; apply cs_write|]. intros _. apply cs_ret.
Qed.
Lemma cs_process_all in_dir srcs : forall t, csames (process_all H O fuel srcs in_dir t) (process_all H O' fuel srcs in_dir t).
Proof. induction srcs as [|src srcs IH]; intro t; cbn [process_all]; [apply cs_ret|]. apply cs_bind; [apply cs_process|]. intro r. apply IH. Qed.
Lemma cs_run paths : csames (run H O fuel paths) (run H O' fuel paths).
Proof.
  unfold run. replace (o_stdin O') with (o_stdin O) by apply HT. case (o_stdin O).
  - unfold run_stdin. replace (o_out_dir O') with (o_out_dir O) by apply HT.
    replace (o_text O') with (o_text O) by apply HT.
    destruct paths; [|apply cs_halt]. destruct (o_out_dir O); [apply cs_halt|]. destruct (h_stdin H) as [text|]; [|apply cs_halt].
    apply cs_bind. { apply cs_compiler; [intros x y E; now rewrite (cli_X_same x y E)|]. intro. apply sames_compile. }
    intro r. apply cs_look. intros d d' K. rewrite (kept_empty d d' K), (kept_summary d d' K).
    destruct (sink_is_empty d').
    + destruct (h_stdout H); [other|apply cs_halt].
    + apply cs_bind; [now apply cs_shown|]. intros _. apply cs_halt.
  - destruct (h_cwd H); [|apply cs_halt]. apply cs_bind.
    { unfold get_source_paths. apply cs_bind; [apply cs_add_paths|]. intro. apply cs_ret. }
    intro srcs. apply cs_bind; [apply cs_process_all|]. intros [[[w ok] bad] skip]. destruct (0 <? bad)%N; [apply cs_halt|apply cs_say].
Qed.
End Tool.
