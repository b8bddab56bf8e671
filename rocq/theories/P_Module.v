(** Loading of modules. *)
From Verif Require Import Base BaseFacts M_Text P_Text M_Names M_Html M_Path M_Types M_Diag M_Ast M_Value M_State M_Matcher M_Binder
  M_Native M_Eval P_Built S_Scope P_State S_Run.

Section Run.
  Variable X : externals.
  Notation R := (evals_n X).
  Notation load fuel := (load_cached X (R fuel)).

  Lemma later_modules s s' : Later X s s' -> exists new, Modules s s' new.
  Proof.
    induction 1 as [s|fuel e t s s1 s2 H H' IH|fuel f bs t src s s1 s2 H H' IH|fuel p s s1 s2 H H' IH|fuel p t s s1 s2 H H' IH|s s1 s2 H H' IH].
    - exists []. now apply modules_same.
    - destruct (built_modules any_key true _ _ (built_node X fuel e t true) _ _ H) as [n1 H1]. destruct IH as [n2 H2].
      exists (n1 ++ n2). now apply modules_trans with s1.
    - destruct (built_modules any_key true _ _ (built_call X fuel f bs t src true) _ _ H) as [n1 H1]. destruct IH as [n2 H2].
      exists (n1 ++ n2). now apply modules_trans with s1.
    - destruct (built_modules any_key true _ _ (built_load X fuel p true) _ _ H) as [n1 H1]. destruct IH as [n2 H2].
      exists (n1 ++ n2). now apply modules_trans with s1.
    - destruct (built_modules any_key true _ _ (built_compile X fuel p t true) _ _ H) as [n1 H1]. destruct IH as [n2 H2].
      exists (n1 ++ n2). now apply modules_trans with s1.
    - destruct IH as [n2 H2]. exists ([] ++ n2). apply modules_trans with s1; [|exact H2].
      unfold reset, bind, modify, gets in H. st_simpl. destruct (st_out s) as [o|].
      + destruct (out_is_empty o); [|discriminate]. injection H as <-. now apply modules_same.
      + injection H as <-. now apply modules_same.
  Qed.
  Lemma later_state s s' k x : Later X s s' -> ngetm (st_mods s) k = Some x -> ngetm (st_mods s') k = Some x.
  Proof. intros H Hk. destruct (later_modules s s' H) as [n (_ & _ & C & _)]. auto. Qed.

  Lemma load_eq fuel path k : x_canonicalize X path = Some k ->
    load fuel path = cached path k (load_uncached X (R fuel) path).
  Proof. intro E. unfold load_cached. rewrite E. reflexivity. Qed.
  Lemma cached_loaded path k m s o x : ngetm (st_mods s) k = Some (MLoaded o x) -> cached path k m s = Ok (o, x) s.
  Proof. intro E. unfold cached, bind, module_state_of, gets. rewrite E. reflexivity. Qed.
  Lemma cached_busy path k m s : ngetm (st_mods s) k = Some MBusy -> cached path k m s = Err (ModuleErr (CircularImport path)) s.
  Proof. intro E. unfold cached, bind, module_state_of, gets. rewrite E. reflexivity. Qed.
  Lemma cached_error path k m s : ngetm (st_mods s) k = Some MError -> cached path k m s = Err (ModuleErr (PreviousError path)) s.
  Proof. intro E. unfold cached, bind, module_state_of, gets. rewrite E. reflexivity. Qed.
  Lemma cached_result path k m s :
    match cached path k m s with
    | Ok (o, x) s' => ngetm (st_mods s') k = Some (MLoaded o x)
    | Err e s' => ngetm (st_mods s') k = Some MError \/ ngetm (st_mods s) k = Some MBusy
    | _ => True
    end.
  Proof.
    unfold cached, bind, module_state_of, gets. destruct (ngetm (st_mods s) k) as [[o x| |]|] eqn:E.
    - exact E.
    - right. reflexivity.
    - left. exact E.
    - rewrite load_module_eq. destruct (m (start_module k s)) as [[o x] s1|e s1| |]; try exact I; st_simpl.
      + apply ngetm_ninsert_same.
      + left. apply ngetm_ninsert_same.
  Qed.

  Lemma same_exports fuel fuel' path path' k s o x s1 s2 :
    x_canonicalize X path = Some k -> x_canonicalize X path' = Some k ->
    load fuel path s = Ok (o, x) s1 -> Later X s1 s2 ->
    load fuel' path' s2 = Ok (o, x) s2.
  Proof.
    intros E1 E2 H HL. rewrite (load_eq _ _ _ E1) in H. rewrite (load_eq _ _ _ E2).
    pose proof (cached_result path k (load_uncached X (R fuel) path) s) as Hc. rewrite H in Hc.
    apply cached_loaded. eapply later_state; eauto.
  Qed.
  Lemma failure_remembered fuel fuel' path path' k s e s1 s2 :
    x_canonicalize X path = Some k -> x_canonicalize X path' = Some k ->
    ~ InProgress k s ->
    load fuel path s = Err e s1 -> Later X s1 s2 ->
    load fuel' path' s2 = Err (ModuleErr (PreviousError path')) s2.
  Proof.
    intros E1 E2 Hb H HL. rewrite (load_eq _ _ _ E1) in H. rewrite (load_eq _ _ _ E2).
    pose proof (cached_result path k (load_uncached X (R fuel) path) s) as Hc. rewrite H in Hc.
    destruct Hc as [Hc|Hc]; [|contradiction]. apply cached_error. eapply later_state; eauto.
  Qed.
  (** An import compiles the file, with the module marked as in progress, or does nothing. *)
  Lemma load_once fuel path k s : x_canonicalize X path = Some k ->
    match ngetm (st_mods s) k with
    | None => exists s0, WhileLoading k s s0 /\ st_trace s0 = st_trace s ++ [k] /\
        (forall o x s1, load_uncached X (R fuel) path s0 = Ok (o, x) s1 ->
           load fuel path s = Ok (o, x) (set_mods (ninsert (st_mods s1) k (MLoaded o x)) (set_out (st_out s) s1))) /\
        (forall e s1, load_uncached X (R fuel) path s0 = Err e s1 ->
           load fuel path s = Err e (set_mods (ninsert (st_mods s1) k MError) (set_out (st_out s) s1)))
    | Some _ => after (load fuel path s) = Some s
    end.
  Proof.
    intro E. rewrite (load_eq _ _ _ E). destruct (ngetm (st_mods s) k) as [x|] eqn:Ek.
    - unfold cached, bind, module_state_of, gets. rewrite Ek. destruct x; reflexivity.
    - exists (start_module k s). split; [|split; [reflexivity|]].
      + unfold WhileLoading, InProgress, start_module. st_simpl. repeat split; [apply ngetm_ninsert_same|].
        intros j Hj. now apply ngetm_ninsert_other.
      + split; intros; unfold cached, bind, module_state_of, gets; rewrite Ek, load_module_eq, H; reflexivity.
  Qed.
  Lemma circular fuel path' k s s' :
    x_canonicalize X path' = Some k -> InProgress k s -> Later X s s' ->
    load fuel path' s' = Err (ModuleErr (CircularImport path')) s'.
  Proof. intros E Hb HL. rewrite (load_eq _ _ _ E). apply cached_busy. eapply later_state; eauto. Qed.
  Lemma none_in_progress s s' : Later X s s' -> (forall k, ~ InProgress k s) -> forall k, ~ InProgress k s'.
  Proof.
    intros HL Hn k Hk. destruct (later_modules s s' HL) as [n (A1 & B1 & C1 & D1 & E1 & F1)]. unfold InProgress in *.
    destruct (ngetm (st_mods s) k) as [x|] eqn:E.
    - rewrite (C1 k x E) in Hk. injection Hk as ->. now apply (Hn k).
    - destruct (in_dec str_eq_dec k n) as [Hi|Hi].
      + destruct (F1 k Hi) as (x & Hx & Hb). congruence.
      + rewrite (E1 k E Hi) in Hk. discriminate.
  Qed.
  Lemma in_progress_same s s' k : Later X s s' -> (InProgress k s <-> InProgress k s').
  Proof.
    intros HL. split; [apply (later_state s s' k _ HL)|]. intro Hk.
    destruct (later_modules s s' HL) as [n (A1 & B1 & C1 & D1 & E1 & F1)]. unfold InProgress in *.
    destruct (ngetm (st_mods s) k) as [x|] eqn:E; [rewrite (C1 k x E) in Hk; congruence|].
    destruct (in_dec str_eq_dec k n) as [Hi|Hi].
    + destruct (F1 k Hi) as (x & Hx & Hb). congruence.
    + rewrite (E1 k E Hi) in Hk. discriminate.
  Qed.
  Lemma compiled_once s s' : Later X s s' -> exists new, st_trace s' = st_trace s ++ new /\ NoDup new /\
    forall k, In k new <-> ngetm (st_mods s) k = None /\ exists x, ngetm (st_mods s') k = Some x.
  Proof.
    intro HL. destruct (later_modules s s' HL) as [n (A1 & B1 & C1 & D1 & E1 & F1)]. exists n. split; [exact A1|]. split; [exact B1|].
    intro k. split.
    - intro Hk. split; [auto|]. destruct (F1 k Hk) as (x & Hx & _). eauto.
    - intros [Hn [x Hx]]. destruct (in_dec str_eq_dec k n) as [Hi|Hi]; [exact Hi|]. rewrite (E1 k Hn Hi) in Hx. discriminate.
  Qed.

  (** Only files are ever asked for, so at most as many files are compiled as there are. *)
  Section Files.
    Variable files : list str.
    Hypothesis Hfiles : forall p k, x_canonicalize X p = Some k -> In k files.
    Let K k := In k files.
    Lemma later_keys s s' : Later X s s' ->
      (forall k x, ngetm (st_mods s) k = Some x -> K k) -> (forall k x, ngetm (st_mods s') k = Some x -> K k).
    Proof.
      induction 1 as [s|fuel e t s s1 s2 H H' IH|fuel f bs t src s s1 s2 H H' IH|fuel p s s1 s2 H H' IH|fuel p t s s1 s2 H H' IH|s s1 s2 H H' IH];
        intro Hs; try apply IH; auto.
      - eapply (built_keys K true); [|exact H|exact Hs]. now apply built_evals.
      - eapply (built_keys K true); [|exact H|exact Hs]. now apply built_evals.
      - eapply (built_keys K true); [|exact H|exact Hs]. apply built_load_cached; auto; intro; now apply built_evals.
      - eapply (built_keys K true); [|exact H|exact Hs]. apply built_compile_source; auto; intro; now apply built_evals.
      - unfold reset, bind, modify, gets in H. st_simpl. destruct (st_out s) as [o|].
        + destruct (out_is_empty o); [|discriminate]. injection H as <-. exact Hs.
        + injection H as <-. exact Hs.
    Qed.
    Lemma compilations_bounded s s' : Later X s s' -> (forall k x, ngetm (st_mods s) k = Some x -> In k files) ->
      exists new, st_trace s' = st_trace s ++ new /\ length new <= length files.
    Proof.
      intros HL Hs. destruct (compiled_once s s' HL) as (new & E & Hn & Hk). exists new. split; [exact E|].
      apply NoDup_incl_length; [exact Hn|]. intros k Hi. apply Hk in Hi as [_ [x Hx]]. exact (later_keys s s' HL Hs k x Hx).
    Qed.
  End Files.

  Lemma later_out s s' : Later X s s' -> Collected s s'.
  Proof.
    assert (Ht : forall s1 s2 s3, Collected s1 s2 -> Collected s2 s3 -> Collected s1 s3).
    { intros s1 s2 s3. unfold Collected. destruct (st_out s1), (st_out s2), (st_out s3); try contradiction; auto.
      intros (A1 & n1 & B1) (A2 & n2 & B2). split; [congruence|]. exists (n1 ++ n2). rewrite B2, B1, app_assoc. reflexivity. }
    induction 1 as [s|fuel e t s s1 s2 H H' IH|fuel f bs t src s s1 s2 H H' IH|fuel p s s1 s2 H H' IH|fuel p t s s1 s2 H H' IH|s s1 s2 H H' IH].
    - now apply collected_same.
    - apply Ht with s1; [|exact IH]. exact (built_out any_key true _ _ (built_node X fuel e t true) _ _ H).
    - apply Ht with s1; [|exact IH]. exact (built_out any_key true _ _ (built_call X fuel f bs t src true) _ _ H).
    - apply Ht with s1; [|exact IH]. exact (built_out any_key true _ _ (built_load X fuel p true) _ _ H).
    - apply Ht with s1; [|exact IH]. exact (built_out any_key true _ _ (built_compile X fuel p t true) _ _ H).
    - apply Ht with s1; [|exact IH]. apply collected_same.
      unfold reset, bind, modify, gets in H. st_simpl. destruct (st_out s) as [o|] eqn:E.
      + destruct (out_is_empty o); [|discriminate]. injection H as <-. st_simpl. exact E.
      + injection H as <-. st_simpl. exact E.
  Qed.
  Lemma load_restores_out fuel path s s' : after (load fuel path s) = Some s' -> st_out s' = st_out s.
  Proof.
    unfold load_cached. destruct (x_canonicalize X path) as [k|]; [|intros [= <-]; reflexivity].
    unfold cached, bind, module_state_of, gets. destruct (ngetm (st_mods s) k) as [[o x| |]|]; try (intros [= <-]; reflexivity).
    rewrite load_module_eq. destruct (load_uncached _ _ _ _) as [[o x] s1|e s1| |]; try discriminate; intros [= <-]; reflexivity.
  Qed.
  Lemma no_writes_while_loading k s s0 s1 path h : WhileLoading k s s0 -> Later X s0 s1 ->
    push_out_file path h s1 = Err (RuntimeErr WriteFileNotAllowed) s1.
  Proof.
    intros (_ & Ho & _) HL. pose proof (later_out _ _ HL) as H. unfold Collected in H. rewrite Ho in H. unfold push_out_file.
    destruct (st_out s1); [contradiction|reflexivity].
  Qed.
End Run.
