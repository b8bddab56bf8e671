(** Proofs about sound states: modules, calls, and whole runs (C47, C57). *)
From Verif Require Import Base BaseFacts M_Names M_TagInfo M_SliceRef M_Html M_Sequence S_Html P_Html P_Sequence M_Path M_Types M_Token M_Diag M_Queue M_Ast M_Value M_State M_Matcher M_Binder M_Native M_Eval
  S_Util P_Util S_Types P_Types P_Coerce S_Scope P_State P_Scope S_Call P_Call P_Match S_Safe P_SafeBase P_SafeMonad P_SafeBind P_SafeMatch P_SafeHtml P_SafeNative P_SafeEval.

Section Run.
  Variable m : mode.
  Variable X : externals.
  Notation Safe := (Safe m X).
  Hypothesis cover : Covers m.
  Hypothesis groups_are : forall g T, m = Strict g T -> GroupsAre X g.
  Hypothesis sources : GoodSources m X.
  Hypothesis dom_plain : m = Plain -> forall s, PlainDom (x_lower X) (snd (x_html_parse X s)).

  (** Safe even when no code is running *)
  Definition SafeTop {A} (n : nat) (Q : nat -> A -> Prop) (p : EM A) : Prop :=
    forall s, Sound m s -> n <= length (st_heap s) -> Post m X Q s (p s).
  Lemma top_safe A n (Q : nat -> A -> Prop) p : SafeTop n Q p -> Safe n Q p.
  Proof. intros H s S L K. now apply H. Qed.
  Lemma top_bind A B n (Q : nat -> A -> Prop) (Q' : nat -> B -> Prop) p f :
    SafeTop n Q p -> (forall k a, n <= k -> Q k a -> SafeTop k Q' (f a)) -> SafeTop n Q' (bind p f).
  Proof.
    intros H1 H2 s S L. specialize (H1 s S L). unfold bind. destruct (p s) as [a s1|e s1|c|]; cbn in *; auto.
    destruct H1 as (S1 & St1 & Hq). assert (L1 : n <= length (st_heap s1)) by (destruct St1; lia).
    specialize (H2 _ a L1 Hq s1 S1 (le_n _)). destruct (f a s1) as [b s2|e s2|c|]; cbn in *; auto.
    - destruct H2 as (A2 & B2 & C2). split; [exact A2|]. split; [eapply step_trans; eassumption|exact C2].
    - destruct H2 as (A2 & B2). split; [exact A2|]. eapply step_trans; eassumption.
  Qed.
  Lemma top_pure A n (Q : nat -> A -> Prop) c r : (r = Panic -> Allowed m X c) -> (forall a k, r = Ret a -> n <= k -> Q k a) -> SafeTop n Q (pure c r).
  Proof.
    intros H1 H2 s S L. unfold pure. destruct r; cbn; auto. split; [exact S|]. split; [apply step_refl|]. now apply H2.
  Qed.
  Lemma top_report_all es : forall n, SafeTop n (fun _ _ => True) (report_all es).
  Proof.
    induction es as [|e es IH]; intros n; cbn [report_all].
    - intros s S L. cbn. split; [exact S|]. split; [apply step_refl|exact I].
    - eapply (top_bind _ _ n (fun _ _ => True)); [|intros; apply IH]. intros s S L. cbn. split; [now apply sound_sink|]. split; [repeat split; auto|exact I].
  Qed.
  Lemma top_with_compiler A n (Q : nat -> A -> Prop) p : (forall k, n <= k -> Safe k Q p) ->
    SafeTop n (fun k r => Q k (fst r) /\ GoodExports m k (snd r)) (with_compiler p).
  Proof.
    intros H s S L. unfold with_compiler. cbv zeta. set (i := length (st_heap s)).
    set (s1 := set_stack [i] (set_exports [] (set_heap (st_heap s ++ [Frame (Some (st_root s)) [] []]) s))).
    assert (S1 : Sound m s1).
    { assert (S0 : Sound m (set_heap (st_heap s ++ [Frame (Some (st_root s)) [] []]) s)).
      { apply sound_heap; [exact S| |apply goodframe_new, map_nil]. cbn. intros q [= <-]. destruct (so_running _ _ S) as (_ & R & _). exact R. }
      destruct S0 as [R F E M O]. cbn in *. constructor; cbn; auto.
      - destruct R as (R1 & R2 & R3). repeat split; auto. cbn. constructor; [|constructor]. rewrite app_length. cbn. unfold i. lia.
      - split; [apply map_nil|constructor]. }
    assert (L1 : length (st_heap s1) = Datatypes.S i) by (cbn; rewrite app_length; cbn; unfold i; lia).
    specialize (H i L s1 S1 ltac:(lia) ltac:(cbn; discriminate)).
    assert (B : forall s', Sound m s' -> Step s1 s' -> Sound m (set_stack (st_stack s) (set_exports (st_exports s) s')) /\ Step s (set_stack (st_stack s) (set_exports (st_exports s) s'))).
    { intros s' S' (A1 & A2 & A3). rewrite L1 in A1. cbn in A3. assert (Le : i <= length (st_heap s')) by lia. split.
      - destruct S' as [R F E M O]. constructor; cbn; auto.
        + destruct R as (R1 & R2 & R3). repeat split; auto. cbn. destruct (so_running _ _ S) as (_ & _ & R4). eapply Forall_impl; [|exact R4]. cbn. intros. fold i in H0. lia.
        + apply (goodexports_mono m i); [exact Le|]. apply (so_exports _ _ S).
      - repeat split; cbn; auto. }
    destruct (p s1) as [a s'|e s'|c|]; cbn in H |- *; auto.
    - destruct H as (S' & St & Hq). destruct (B s' S' St) as [B1 B2]. split; [exact B1|]. split; [exact B2|]. split; [exact Hq|apply (so_exports _ _ S')].
    - destruct H as (S' & St). now apply B.
  Qed.
  Notation GoodLoaded := (fun k (r : html * nmap value) => GoodHtml m (fst r) /\ GoodExports m k (snd r)).

  Section Step.
    Variable R : evals.
    Hypothesis eval_full : EvalSafe m X R.
    Hypothesis call_safe : CallSafe m X R.

    Lemma top_compile_source n path text kind : (parse_source X path text = Panic -> Allowed m X FParser) ->
      (forall root errs, parse_source X path text = Ret (root, errs) -> Forall (GoodNode m) root) -> good_kind kind ->
      SafeTop n GoodLoaded (compile_source X R path text kind).
    Proof.
      intros N G K. unfold compile_source. eapply (top_bind _ _ n (fun _ r => Forall (GoodNode m) (fst r))).
      - apply top_pure; [exact N|]. intros [root errs] k E _. eapply G. exact E.
      - intros k [root errs] L F. cbn in F. eapply (top_bind _ _ k (fun _ _ => True)); [apply top_report_all|]. intros k2 u L2 _.
        apply (top_with_compiler _ k2 (fun _ h => GoodHtml m h)). intros j Lj. eapply (safe_weaken m X _ j j); [eapply safe_sequence; eassumption|lia|]. intros i h Li [H _]. exact H.
    Qed.
    Lemma safe_load_uncached n path : Safe n GoodLoaded (load_uncached X R path).
    Proof.
      unfold load_uncached. destruct (x_read X path) as [text|] eqn:E; [|apply safe_fail]. apply top_safe, top_compile_source.
      - intro P. right. exists path, text. auto.
      - intros root errs. now apply sources.
      - unfold good_kind, all_kinds. cbn. tauto.
    Qed.
    Lemma modules_set n mods k ms : Forall (fun km => GoodModule m n (snd km)) mods -> GoodModule m n ms -> Forall (fun km => GoodModule m n (snd km)) (ninsert mods k ms).
    Proof.
      intros F G. induction F as [|[x y] mods H F IH]; cbn; [now constructor|]. destruct (str_eqb k x); constructor; auto.
    Qed.
    Lemma safe_load_module n k p : Safe n GoodLoaded p -> Safe n GoodLoaded (load_module k p).
    Proof.
      intros H s S L K. unfold load_module. cbv zeta. set (s1 := set_out None (set_trace (st_trace s ++ [k]) (set_mods (ninsert (st_mods s) k MBusy) s))).
      assert (S1 : Sound m s1).
      { destruct S as [R1 F E M O]. constructor; cbn; auto; [now apply modules_set|discriminate]. }
      specialize (H s1 S1 L K).
      assert (B : forall s' r, Sound m s' -> Step s1 s' -> GoodModule m (length (st_heap s')) r ->
        Sound m (set_mods (ninsert (st_mods s') k r) (set_out (st_out s) s')) /\ Step s (set_mods (ninsert (st_mods s') k r) (set_out (st_out s) s'))).
      { intros s' r [R1 F E M O] (A1 & A2 & A3) G. split; [|repeat split; auto]. constructor; cbn; auto; [now apply modules_set|]. apply (so_outputs _ _ S). }
      destruct (p s1) as [[out ex] s'|e s'|c|]; cbn in H |- *; auto.
      - destruct H as (S' & St & G1 & G2). destruct (B s' (MLoaded out ex) S' St (conj G1 G2)) as [B1 B2]. split; [exact B1|]. split; [exact B2|]. now split.
      - destruct H as (S' & St). now apply B.
    Qed.
    Lemma safe_cached n path k p : (forall n, Safe n GoodLoaded p) -> Safe n GoodLoaded (cached path k p).
    Proof.
      intro H. unfold cached, module_state_of. apply (safe_bind m X _ _ n (fun j r => forall ms, r = Some ms -> GoodModule m j ms)).
      - apply safe_gets. intros s S L K ms E. pose proof (so_modules _ _ S) as F. rewrite Forall_forall in F. apply ngetm_In in E. exact (F _ E).
      - intros j [[out ex| |]|] L G; try apply safe_fail; [|now apply safe_load_module]. specialize (G _ eq_refl) as [G1 G2].
        apply safe_ret. intros i Li. split; [exact G1|now apply (goodexports_mono m j)].
    Qed.
    Lemma safe_load_cached n path : Safe n GoodLoaded (load_cached X R path).
    Proof. unfold load_cached. destruct (x_canonicalize X path); [|apply safe_fail]. apply safe_cached. intro. apply safe_load_uncached. Qed.

    Lemma safe_call f : forall n bs t src, Good m n (VFunc f) -> Bindings m (func_sig f) n bs ->
      Safe n (fun k v => Good m k v /\ Fits m t v) (evaluate_call X R f bs t src).
    Proof.
      induction f as [x c sig body|g x sig|f IH p]; intros n bs t src G B; cbn [evaluate_call].
      - apply good_func in G as [(Hc & _ & Gb) _]. destruct B as [B _]. apply safe_in_call_frame; [exact Hc|exact B|]. intros k L. now apply eval_safe.
      - apply good_func in G as [E _]. cbn in E, B. subst sig. apply safe_or_report.
        eapply safe_bind; [apply (safe_evaluate_native m X cover _ call_safe _ safe_load_cached dom_plain); exact B|]. intros k v L Gv.
        eapply (safe_weaken m X _ k); [now apply safe_coerce|lia|]. intros j a Lj [A C]. split; [exact A|now left].
      - apply IH; [|exact B]. apply good_func in G as [G H]. apply good_func. cbn in *. split; [tauto|]. now apply Forall_app in H.
    Qed.
    Lemma literal_result e w s : literal e = Some w -> forall v s', evaluate_node X R e TAny s = Ok v s' -> v = w \/ exists a b, w = VStr a /\ v = VStr b.
    Proof.
      destruct e; cbn [literal evaluate_node]; intros [= <-] v s' H; cbv zeta in H.
      1-5: cbn in H; injection H as <- _; eauto.
      unfold bind at 1 2 in H. destruct (template_text _ _); try discriminate H. cbn in H. injection H as <- _. eauto.
    Qed.
    Lemma step_eval : EvalSafe m X (step X R).
    Proof.
      intros n e t G s S L K. cbn [step e_node]. pose proof (safe_node m X cover groups_are R eval_full call_safe n e t G s S L K) as H.
      destruct (evaluate_node X R e t s) as [v s'|er s'|c|] eqn:E; cbn in H |- *; auto. destruct H as (A & B & C). split; [exact A|]. split; [exact B|]. split; [exact C|].
      intros -> w Hw t' Ht. eapply like_literal; [exact Hw|exact Ht|]. eapply literal_result; eassumption.
    Qed.
    Lemma step_call : CallSafe m X (step X R).
    Proof. intros n f bs t src G B. now apply safe_call. Qed.
  End Step.

  Lemma evals_safe fuel : EvalSafe m X (evals_n X fuel) /\ CallSafe m X (evals_n X fuel).
  Proof.
    induction fuel as [|fuel [IH1 IH2]].
    - split; intros n; intros; intros s S L K; exact I.
    - split; [now apply step_eval|now apply step_call].
  Qed.
  Theorem top_compile fuel n path text : (parse_source X path text = Panic -> Allowed m X FParser) ->
    (forall root errs, parse_source X path text = Ret (root, errs) -> Forall (GoodNode m) root) ->
    SafeTop n GoodLoaded (compile X fuel path text).
  Proof.
    intros N G. unfold compile. destruct (evals_safe fuel) as [H1 H2]. apply top_compile_source; auto. unfold good_kind, all_kinds. cbn. tauto.
  Qed.
End Run.

(** ** The context in which a program is compiled *)
Lemma native_groups_good m n : Good m n (VDict []) /\ GoodMap m n (fr_locals native_frame).
Proof.
  split; [apply good_dict, named_nil|]. unfold native_frame. cbn [fr_locals]. apply map_from. rewrite map_app, map_map. apply Forall_app. split.
  - apply Forall_map, Forall_forall. intros g Hg. cbn [snd]. apply good_dict. split.
    + apply map_from. rewrite map_map. apply Forall_map, Forall_forall. intros nf _. apply good_native.
    + apply plain_from. intros _. rewrite map_map. cbn [fst]. apply Forall_forall. intros x Hx. apply in_map_iff in Hx as (nf & <- & Hf).
      apply plain_ascii. assert (K : forallb (fun g => forallb (fun nf => is_plain (fst nf)) (snd g)) native_groups = true) by (vm_compute; reflexivity).
      rewrite forallb_forall in K. specialize (K _ Hg). rewrite forallb_forall in K. exact (K _ Hf).
  - rewrite map_map. apply Forall_map, Forall_forall. intros nf _. apply good_native.
Qed.
Lemma sound_start m level out : Sound m (context_start level out).
Proof.
  constructor; cbn [context_start st_heap st_exports st_mods st_out st_root st_stack length].
  - split; [|split]; cbn; [|lia|constructor]. intros i f p Hn Hp. destruct i as [|[|i]]; cbn in Hn; try discriminate. injection Hn as <-. discriminate.
  - constructor; [|constructor]. split; [apply native_groups_good|]. destruct m; [exact I|exact I|]. intros k [].
  - split; [apply map_nil|constructor].
  - constructor.
  - intros o E. destruct out; [|discriminate]. injection E as <-. constructor.
Qed.
