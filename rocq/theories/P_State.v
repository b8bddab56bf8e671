(** Consequences of being built from the primitive operations. *)
From Verif Require Import Base BaseFacts M_Text P_Text M_Names M_Html M_Path M_Types M_Diag M_Value M_State M_Matcher M_Binder M_Native
  M_Eval P_Built S_Scope.

(** Simplify a projection of an updated state. *)
Ltac st_simpl := cbn [st_heap st_stack st_sink st_exports st_mods st_out st_uids st_root st_trace
                       set_heap set_stack set_sink set_exports set_mods set_out set_uids set_root set_trace] in *.

Definition push_scope (c : nat) (bs : nmap value) (s : st) : st :=
  set_stack (length (st_heap s) :: st_stack s) (set_heap (st_heap s ++ [Frame (Some c) bs []]) s).
Definition start_module (k : str) (s : st) : st :=
  set_out None (set_trace (st_trace s ++ [k]) (set_mods (ninsert (st_mods s) k MBusy) s)).

Section Rel.
  Variable Rel : st -> st -> Prop.
  Variable K : str -> Prop.
  Hypothesis Rrefl : forall s, Rel s s.
  Hypothesis Rtrans : forall s1 s2 s3, Rel s1 s2 -> Rel s2 s3 -> Rel s1 s3.
  Hypothesis Rsink : forall s e, Rel s (set_sink (sink_add e (st_sink s)) s).
  Hypothesis Rheap : forall s i k g, (forall f, fr_parent (g f) = fr_parent f) -> st_stack s = i :: k ->
    Rel s (set_heap (update (st_heap s) i g) s).
  Hypothesis Rexports : forall s x, Rel s (set_exports x s).
  Hypothesis Ruids : forall s id, ~ In id (st_uids s) -> Rel s (set_uids (st_uids s ++ [id]) s).
  Hypothesis Rout : forall s o p h o', st_out s = Some o -> try_push o p h = (true, o') -> Rel s (set_out (Some o') s).
  Hypothesis Rcall : forall s c bs s', c < length (st_heap s) -> Rel (push_scope c bs s) s' ->
    Rel s (set_stack (List.tl (st_stack s')) s').
  Hypothesis Rcompiler : forall s s', Rel (new_compiler s) s' ->
    Rel s (set_stack (st_stack s) (set_exports (st_exports s) s')).
  Hypothesis Rload : forall s k s' r, K k -> ngetm (st_mods s) k = None -> r <> MBusy -> Rel (start_module k s) s' ->
    Rel s (set_mods (ninsert (st_mods s') k r) (set_out (st_out s) s')).

  Lemma built_rel w A (m : EM A) : Built K w A m -> forall s s', after (m s) = Some s' -> Rel s s'.
  Proof.
    induction 1 as [w A a|w A e|w A e He|w A|w A|w A r|w A B m f Hm IHm Hf IHf|w A m Hm IHm|w A m Hm IHm|w e|w|w n imp|w n|w g Hg Hk
                    |w A c bs w' m Hm IHm|w n v|w d b n|w p h|w A w' m Hm IHm|w p k m HK Hm IHm]; intros s s'.
    - intros [= <-]. apply Rrefl.
    - intros [= <-]. apply Rrefl.
    - intros [= <-]. apply Rsink.
    - discriminate.
    - discriminate.
    - unfold pure. match goal with o : outcome _ |- _ => destruct o end; try discriminate. intros [= <-]. apply Rrefl.
    - unfold bind. specialize (IHm s). destruct (m s) as [a s1|e s1| |]; try discriminate.
      + intro H. eapply Rtrans; [apply IHm; reflexivity|]. eapply IHf. exact H.
      + exact (IHm s').
    - unfold catch. specialize (IHm s). destruct (m s) as [a s1|e s1| |]; try discriminate; exact (IHm s').
    - unfold or_report. specialize (IHm s). destruct (m s) as [a s1|e s1| |]; try discriminate; [exact (IHm s')|].
      intros [= <-]. eapply Rtrans; [apply IHm; reflexivity|]. apply Rsink.
    - intros [= <-]. apply Rsink.
    - unfold frame_id. destruct (st_stack s); try discriminate. intros [= <-]. apply Rrefl.
    - unfold frame_lookup, bind, frame_id. destruct (st_stack s); try discriminate. intros [= <-]. apply Rrefl.
    - unfold frame_has, bind, frame_id. destruct (st_stack s); try discriminate. intros [= <-]. apply Rrefl.
    - unfold with_frame, bind, frame_id. destruct (st_stack s) as [|i k] eqn:E; try discriminate. intros [= <-]. now apply Rheap with k.
    - unfold in_call_frame, bind, gets. destruct (c <? length (st_heap s)) eqn:E; [|discriminate]. apply Nat.ltb_lt in E.
      unfold new_frame, in_frame. specialize (IHm (push_scope c bs s)). unfold push_scope in IHm. st_simpl.
      destruct (m _) as [a s1|e s1| |]; try discriminate; intros [= <-]; eapply Rcall; try exact E; now apply IHm.
    - unfold M_State.export, bind, gets, modify. destruct (nhas (st_exports s) n).
      + intros [= <-]. eapply Rtrans; [apply Rexports|]. apply (Rsink (set_exports _ _)).
      + intros [= <-]. apply Rexports.
    - unfold new_unique_id. destruct (get_unique_id d (st_uids s) b n) as [[id used]| |] eqn:E; try discriminate.
      apply get_unique_id_fresh in E as [Hn ->]. intros [= <-]. now apply Ruids.
    - unfold push_out_file. destruct (st_out s) as [o|] eqn:Eo; [|intros [= <-]; apply Rrefl].
      destruct (try_push o p h) as [ok o'] eqn:E. destruct ok; intros [= <-]; [|apply Rrefl]. eapply Rout; eauto.
    - unfold with_compiler. specialize (IHm (new_compiler s)). unfold new_compiler in IHm.
      destruct (m _) as [a s1|e s1| |]; try discriminate; intros [= <-]; apply Rcompiler; now apply IHm.
    - unfold cached, bind, module_state_of, gets. destruct (ngetm (st_mods s) k) as [[o x| |]|] eqn:E;
        try (intros [= <-]; apply Rrefl).
      unfold load_module. specialize (IHm (start_module k s)). unfold start_module in IHm.
      destruct (m _) as [[o x] s1|e s1| |]; try discriminate; intros [= <-]; apply Rload; try assumption; try discriminate; now apply IHm.
  Qed.
End Rel.

Lemma update_length A (l : list A) i f : length (update l i f) = length l.
Proof.
  unfold update. destruct (nth_error l i) eqn:E; [|reflexivity].
  pose proof (nth_error_Some l i) as H. rewrite E in H. assert (i < length l) by now apply H.
  rewrite app_length. cbn [length]. rewrite firstn_length, skipn_length. lia.
Qed.
Lemma update_same A (l : list A) i f x : nth_error l i = Some x -> nth_error (update l i f) i = Some (f x).
Proof.
  intro H. unfold update. rewrite H. assert (i < length l) by (apply nth_error_Some; congruence).
  rewrite nth_error_app2 by (rewrite firstn_length; lia). rewrite firstn_length.
  replace (i - min i (length l)) with 0 by lia. reflexivity.
Qed.
Lemma update_other A (l : list A) i j f : j <> i -> nth_error (update l i f) j = nth_error l j.
Proof.
  intro H. unfold update. destruct (nth_error l i) eqn:E; [|reflexivity].
  assert (i < length l) by (apply nth_error_Some; congruence).
  destruct (Nat.lt_ge_cases j i).
  - rewrite nth_error_app1 by (rewrite firstn_length; lia). rewrite <- (firstn_skipn i l) at 2.
    rewrite nth_error_app1 by (rewrite firstn_length; lia). reflexivity.
  - rewrite nth_error_app2 by (rewrite firstn_length; lia). rewrite firstn_length.
    replace (j - min i (length l)) with (S (j - S i)) by lia. cbn [nth_error].
    rewrite <- (firstn_skipn (S i) l) at 2. rewrite nth_error_app2 by (rewrite firstn_length; lia).
    rewrite firstn_length. f_equal. lia.
Qed.

(** ** The frame rule *)
Lemma same_elsewhere_refl s : SameElsewhere s s.
Proof. repeat split; auto. intros i f H. exists f. auto. Qed.
Lemma same_elsewhere_trans s1 s2 s3 : SameElsewhere s1 s2 -> SameElsewhere s2 s3 -> SameElsewhere s1 s3.
Proof.
  intros (A1 & B1 & C1 & D1) (A2 & B2 & C2 & D2). repeat split; [congruence|congruence|lia|].
  intros i f H. destruct (D1 i f H) as (f1 & H1 & P1 & Q1). destruct (D2 i f1 H1) as (f2 & H2 & P2 & Q2).
  exists f2. repeat split; [exact H2|congruence|]. intro Hn. rewrite Q2 by (rewrite A1; exact Hn). auto.
Qed.
Lemma same_elsewhere_heap s s' :
  st_stack s' = st_stack s -> st_root s' = st_root s -> st_heap s' = st_heap s -> SameElsewhere s s'.
Proof. intros A B C. repeat split; auto; [rewrite C; lia|]. intros i f H. exists f. rewrite C. auto. Qed.

Lemma frame_rule K w A (m : EM A) : Built K w A m -> forall s s', after (m s) = Some s' -> SameElsewhere s s'.
Proof.
  apply built_rel.
  - apply same_elsewhere_refl.
  - apply same_elsewhere_trans.
  - intros. now apply same_elsewhere_heap.
  - intros s i k g Hg E. repeat split; st_simpl; auto.
    + rewrite update_length. lia.
    + intros j f H. destruct (Nat.eq_dec j i) as [->|Hj].
      * exists (g f). rewrite (update_same _ _ _ _ _ H). repeat split; [apply Hg|]. rewrite E. cbn. congruence.
      * exists f. rewrite update_other by exact Hj. auto.
  - intros. now apply same_elsewhere_heap.
  - intros. now apply same_elsewhere_heap.
  - intros. now apply same_elsewhere_heap.
  - intros s c bs s' Hc (A1 & B1 & C1 & D1). unfold push_scope in *. st_simpl. rewrite app_length in C1. cbn [length] in C1.
    repeat split; st_simpl.
    + rewrite A1. reflexivity.
    + exact B1.
    + lia.
    + intros i f H. assert (Hi : i < length (st_heap s)) by (apply nth_error_Some; congruence).
      destruct (D1 i f) as (f' & H' & P' & Q'). { rewrite nth_error_app1 by exact Hi. exact H. }
      exists f'. repeat split; auto. intros _. apply Q'. cbn. intros [= E]. lia.
  - intros s s' (A1 & B1 & C1 & D1). unfold new_compiler in *. st_simpl. rewrite app_length in C1. cbn [length] in C1.
    repeat split; st_simpl; auto; [lia|].
    intros i f H. assert (Hi : i < length (st_heap s)) by (apply nth_error_Some; congruence).
    destruct (D1 i f) as (f' & H' & P' & Q'). { rewrite nth_error_app1 by exact Hi. exact H. }
    exists f'. repeat split; auto. intros _. apply Q'. cbn. intros [= E]. lia.
  - intros s k s' r _ _ _ (A1 & B1 & C1 & D1). unfold start_module in *. st_simpl. repeat split; auto.
Qed.

(** ** Well-founded scopes *)
Lemma nth_error_snoc A (l : list A) x i y : nth_error (l ++ [x]) i = Some y -> nth_error l i = Some y \/ i = length l /\ y = x.
Proof.
  destruct (Nat.lt_ge_cases i (length l)).
  - rewrite nth_error_app1 by assumption. auto.
  - rewrite nth_error_app2 by assumption. destruct (i - length l) as [|d] eqn:E; cbn.
    + intros [= <-]. right. split; [lia|reflexivity].
    + destruct d; discriminate.
Qed.
Lemma running_scoped_snoc h c l im : WellScoped h -> c < length h -> WellScoped (h ++ [Frame (Some c) l im]).
Proof.
  intros H Hc i f p Hi Hp. apply nth_error_snoc in Hi as [Hi|[-> ->]]; [eauto|]. cbn in Hp. congruence.
Qed.
Lemma forall_lt_mono l n m : n <= m -> Forall (fun i => i < n) l -> Forall (fun i => i < m) l.
Proof. intros H. apply Forall_impl. intros. lia. Qed.
Lemma built_running K w A (m : EM A) : Built K w A m -> forall s s', after (m s) = Some s' ->
  SameElsewhere s s' /\ (Running s -> Running s').
Proof.
  intros Hm s s' Hs. split; [eapply frame_rule; eauto|]. revert s s' Hs.
  cut (forall s s', after (m s) = Some s' -> length (st_heap s) <= length (st_heap s') /\ (st_stack s' = st_stack s) /\
         st_root s' = st_root s /\ (Running s -> Running s')).
  { intros H s s' Hs. eapply H; eauto. }
  revert Hm. apply built_rel.
  - intros. auto.
  - intros s1 s2 s3 (A1 & B1 & C1 & D1) (A2 & B2 & C2 & D2). split; [lia|]. split; [congruence|]. split; [congruence|]. auto.
  - intros. auto.
  - intros s i k g Hg E. st_simpl. rewrite update_length. split; [lia|]. split; [reflexivity|]. split; [reflexivity|].
    intros (W1 & W2 & W3). repeat split; st_simpl; rewrite ?update_length; auto.
    intros j f p Hj Hp. destruct (Nat.eq_dec j i) as [->|Hn].
    + destruct (nth_error (st_heap s) i) as [f0|] eqn:E0.
      * rewrite (update_same _ _ _ _ _ E0) in Hj. injection Hj as <-. rewrite Hg in Hp. eauto.
      * unfold update in Hj. rewrite E0 in Hj. congruence.
    + rewrite update_other in Hj by exact Hn. eauto.
  - intros. auto.
  - intros. auto.
  - intros. auto.
  - intros s c bs s' Hc (A1 & B1 & C1 & D1). unfold push_scope in *. st_simpl. rewrite app_length in A1. cbn [length] in A1.
    rewrite B1. cbn [List.tl]. split; [lia|]. split; [reflexivity|]. split; [exact C1|].
    intros (W1 & W2 & W3). destruct D1 as (A2 & B2 & C2).
    { repeat split; st_simpl; rewrite ?app_length; cbn [length]; [now apply running_scoped_snoc|lia|].
      constructor; [lia|]. eapply forall_lt_mono; [|exact W3]. lia. }
    repeat split; st_simpl; auto. eapply forall_lt_mono; [|exact W3]. lia.
  - intros s s' (A1 & B1 & C1 & D1). unfold new_compiler in *. st_simpl. rewrite app_length in A1. cbn [length] in A1.
    split; [lia|]. split; [reflexivity|]. split; [exact C1|].
    intros (W1 & W2 & W3). destruct D1 as (A2 & B2 & C2).
    { repeat split; st_simpl; rewrite ?app_length; cbn [length]; [now apply running_scoped_snoc|lia|].
      constructor; [lia|constructor]. }
    repeat split; st_simpl; auto. eapply forall_lt_mono; [|exact W3]. lia.
  - intros s k s' r _ _ _ (A1 & B1 & C1 & D1). unfold start_module in *. st_simpl. auto.
Qed.

Lemma in_call_frame_eq A c bs (m : EM A) s :
  in_call_frame c bs m s =
  if c <? length (st_heap s) then
    match m (push_scope c bs s) with
    | Ok a s => Ok a (set_stack (List.tl (st_stack s)) s)
    | Err e s => Err e (set_stack (List.tl (st_stack s)) s)
    | Crash c => Crash c
    | NoFuel => NoFuel
    end
  else Crash FFrame.
Proof. unfold in_call_frame, bind, gets. destruct (c <? length (st_heap s)); reflexivity. Qed.
Lemma load_module_eq k (m : EM (html * nmap value)) s :
  load_module k m s =
  match m (start_module k s) with
  | Ok (out, exports) s' => Ok (out, exports) (set_mods (ninsert (st_mods s') k (MLoaded out exports)) (set_out (st_out s) s'))
  | Err e s' => Err e (set_mods (ninsert (st_mods s') k MError) (set_out (st_out s) s'))
  | Crash c => Crash c
  | NoFuel => NoFuel
  end.
Proof. reflexivity. Qed.
Lemma push_scope_set_stack c bs k s : push_scope c bs (set_stack k s) = set_stack (length (st_heap s) :: k) (push_scope c bs s).
Proof. reflexivity. Qed.

(** ** The call stack below the current frame does not matter *)
Definition tail_free {A} (m : EM A) : Prop :=
  forall s i k k', st_stack s = i :: k -> m (set_stack (i :: k') s) = restack (i :: k') (m s).
Lemma set_stack_twice k k' s : set_stack k (set_stack k' s) = set_stack k s.
Proof. reflexivity. Qed.
Lemma set_stack_id s : set_stack (st_stack s) s = s.
Proof. now destruct s. Qed.
Lemma built_tail_free K w A (m : EM A) : Built K w A m -> tail_free m.
Proof.
  induction 1 as [w A a|w A e|w A e He|w A|w A|w A r|w A B m f Hm IHm Hf IHf|w A m Hm IHm|w A m Hm IHm|w e|w|w n imp|w n|w g Hg Hk
                    |w A c bs w' m Hm IHm|w n v|w d b n|w p h|w A w' m Hm IHm|w p k m HK Hm IHm]; intros s i l l' E; try reflexivity.
  - unfold pure. match goal with o : outcome _ |- _ => destruct o end; reflexivity.
  - unfold bind. rewrite (IHm s i l l' E). destruct (m s) as [a s1|e s1| |] eqn:E1; try reflexivity. cbn [restack].
    assert (Hs : st_stack s1 = i :: l). { destruct (frame_rule _ _ _ _ Hm s s1) as (H & _); [rewrite E1; reflexivity|congruence]. }
    apply (IHf a s1 i l l' Hs).
  - unfold catch. rewrite (IHm s i l l' E). destruct (m s); reflexivity.
  - unfold or_report. rewrite (IHm s i l l' E). destruct (m s); reflexivity.
  - unfold frame_id. cbn [st_stack set_stack]. rewrite E. reflexivity.
  - unfold frame_lookup, bind, frame_id. cbn [st_stack set_stack]. rewrite E. reflexivity.
  - unfold frame_has, bind, frame_id. cbn [st_stack set_stack]. rewrite E. reflexivity.
  - unfold with_frame, bind, frame_id. cbn [st_stack set_stack]. rewrite E. reflexivity.
  - rewrite !in_call_frame_eq. cbn [st_heap set_stack]. destruct (c <? length (st_heap s)); [|reflexivity].
    rewrite push_scope_set_stack. rewrite (IHm (push_scope c bs s) (length (st_heap s)) (st_stack s) (i :: l') eq_refl).
    destruct (m _) as [a s1|e s1| |]; reflexivity.
  - unfold M_State.export, bind, gets, modify. st_simpl. destruct (nhas (st_exports s) n); reflexivity.
  - unfold new_unique_id. st_simpl. destruct (get_unique_id d (st_uids s) b n) as [[id used]| |]; reflexivity.
  - unfold push_out_file. st_simpl. destruct (st_out s) as [o|]; [|reflexivity]. destruct (try_push o p h) as [[|] o']; reflexivity.
  - unfold with_compiler. st_simpl. unfold set_heap, set_exports, set_stack. st_simpl.
    destruct (m _) as [a s1|e s1| |]; reflexivity.
  - unfold cached, bind, module_state_of, gets. st_simpl. destruct (ngetm (st_mods s) k) as [[o x| |]|]; try reflexivity.
    rewrite !load_module_eq. change (start_module k (set_stack (i :: l') s)) with (set_stack (i :: l') (start_module k s)).
    rewrite (IHm (start_module k s) i l l' E). destruct (m (start_module k s)) as [[o x] s1|e s1| |]; reflexivity.
Qed.

(** A computation in a frame of its own does not depend on the call stack at all. *)
Lemma call_frame_stack_free K w A c bs (m : EM A) : Built K w A m -> forall s k,
  in_call_frame c bs m (set_stack k s) = restack k (in_call_frame c bs m s).
Proof.
  intros Hm s k. rewrite !in_call_frame_eq. cbn [st_heap set_stack]. destruct (c <? length (st_heap s)); [|reflexivity].
  rewrite push_scope_set_stack.
  rewrite (built_tail_free _ _ _ _ Hm (push_scope c bs s) (length (st_heap s)) (st_stack s) k eq_refl).
  destruct (m _) as [a s1|e s1| |]; reflexivity.
Qed.

Lemma nth_error_ext A : forall l l' : list A, (forall i, nth_error l i = nth_error l' i) -> l = l'.
Proof.
  induction l as [|x l IH]; intros [|y l'] H; try (specialize (H 0); discriminate); [reflexivity|].
  pose proof (H 0) as H0. injection H0 as ->. f_equal. apply IH. intro i. exact (H (S i)).
Qed.
(** A computation in a frame of its own changes no existing frame. *)
Lemma call_frame_same K w A c bs (m : EM A) : Built K w A m -> forall s s',
  after (in_call_frame c bs m s) = Some s' -> SameScopes s s'.
Proof.
  intros Hm s s'. rewrite in_call_frame_eq. destruct (c <? length (st_heap s)) eqn:Hc; [|discriminate].
  pose proof (fun s' => frame_rule _ _ _ _ Hm (push_scope c bs s) s') as HF.
  assert (Hgen : forall s1, SameElsewhere (push_scope c bs s) s1 -> SameScopes s (set_stack (List.tl (st_stack s1)) s1)).
  { intros s1 (A1 & B1 & C1 & D1). unfold push_scope in *. st_simpl. rewrite app_length in C1. cbn [length] in C1.
    unfold SameScopes. st_simpl. rewrite A1. repeat split; auto.
    exists (skipn (length (st_heap s)) (st_heap s1)). 
    rewrite <- (firstn_skipn (length (st_heap s)) (st_heap s1)) at 1. f_equal.
    apply nth_error_ext. intro i. destruct (Nat.lt_ge_cases i (length (st_heap s))) as [Hi|Hi].
    - destruct (nth_error (st_heap s) i) as [f|] eqn:Ef; [|apply nth_error_None in Ef; lia].
      destruct (D1 i f) as (f' & H' & _ & Q'). { rewrite nth_error_app1 by exact Hi. exact Ef. }
      rewrite <- (Q' ltac:(cbn; intros [= E]; lia)).
      rewrite <- H'. rewrite <- (firstn_skipn (length (st_heap s)) (st_heap s1)) at 2.
      rewrite nth_error_app1 by (rewrite firstn_length; lia). reflexivity.
    - rewrite (proj2 (nth_error_None _ _)) by (rewrite firstn_length; lia). symmetry. now apply nth_error_None. }
  destruct (m _) as [a s1|e s1| |]; try discriminate; intros [= <-]; apply Hgen, HF; reflexivity.
Qed.

(** ** Errors are recorded *)
Lemma built_errors K w A (m : EM A) : Built K w A m ->
  forall s, (forall s', after (m s) = Some s' -> (sk_errors (st_sink s) <= sk_errors (st_sink s'))%N) /\
            (forall e s', m s = Err e s' -> severity_of e = SError \/ e = AlreadyReported /\ (0 < sk_errors (st_sink s'))%N).
Proof.
  intro Hm.
  assert (Hmono : forall w A (m : EM A), Built K w A m -> forall s s', after (m s) = Some s' ->
     (sk_errors (st_sink s) <= sk_errors (st_sink s'))%N).
  { apply (built_rel (fun s s' => (sk_errors (st_sink s) <= sk_errors (st_sink s'))%N)); intros; st_simpl; try lia.
    - unfold sink_add. cbn [sk_errors]. destruct (severity_of e); lia.
    - unfold push_scope in *. st_simpl. exact H0.
    - unfold new_compiler in *. st_simpl. exact H.
    - unfold start_module in *. st_simpl. exact H2. }
  intro s. split; [intros s' Hs'; eapply Hmono; eauto|]. revert s.
  induction Hm as [w A a|w A e|w A e He|w A|w A|w A r|w A B m f Hm IHm Hf IHf|w A m Hm IHm|w A m Hm IHm|w e|w|w n imp|w n|w g Hg Hk
                    |w A c bs w' m Hm IHm|w n v|w d b n|w p h|w A w' m Hm IHm|w p k m HK Hm IHm]; intros s e' s'; try discriminate.
  - intros [= <- _]. auto.
  - intros [= <- <-]. right. split; [reflexivity|]. st_simpl. unfold sink_add. cbn [sk_errors]. rewrite He. lia.
  - unfold pure. match goal with o : outcome _ |- _ => destruct o end; discriminate.
  - unfold bind. specialize (IHm s). destruct (m s) as [a s1|e s1| |]; try discriminate; [intro H; eapply IHf; exact H|].
    intros [= <- <-]. now apply IHm.
  - unfold catch. destruct (m s); discriminate.
  - unfold or_report. specialize (IHm s). destruct (m s) as [a s1|e s1| |]; try discriminate.
    intros [= <- <-]. right. split; [reflexivity|]. st_simpl. unfold sink_add. cbn [sk_errors].
    destruct (IHm e s1 eq_refl) as [He|[-> He]]; [rewrite He; lia|]. cbn. exact He.
  - unfold frame_id. destruct (st_stack s); discriminate.
  - unfold frame_lookup, bind, frame_id. destruct (st_stack s); discriminate.
  - unfold frame_has, bind, frame_id. destruct (st_stack s); discriminate.
  - unfold with_frame, bind, frame_id. destruct (st_stack s); discriminate.
  - unfold in_call_frame, bind, gets. destruct (c <? length (st_heap s)); [|discriminate]. unfold new_frame, in_frame.
    match goal with |- context[m ?x] => specialize (IHm x); destruct (m x) as [a s1|e s1| |] end; try discriminate.
    intros [= <- <-]. destruct (IHm e s1 eq_refl); auto.
  - unfold M_State.export, bind, gets, modify. destruct (nhas (st_exports s) n); discriminate.
  - unfold new_unique_id. destruct (get_unique_id _ _ _ _) as [[id used]| |]; discriminate.
  - unfold push_out_file. destruct (st_out s) as [o|]; [|intros [= <- _]; auto].
    destruct (try_push o p h) as [[|] o']; [discriminate|]. intros [= <- _]. auto.
  - unfold with_compiler. match goal with |- context[m ?x] => specialize (IHm x); destruct (m x) as [a s1|e s1| |] end; try discriminate.
    intros [= <- <-]. destruct (IHm e s1 eq_refl); auto.
  - unfold cached, bind, module_state_of, gets. destruct (ngetm (st_mods s) k) as [[o x| |]|]; try discriminate;
      try (intros [= <- _]; auto; fail).
    unfold load_module. match goal with |- context[m ?x] => specialize (IHm x); destruct (m x) as [[o x'] s1|e s1| |] end; try discriminate.
    intros [= <- <-]. destruct (IHm e s1 eq_refl); auto.
Qed.

(** ** Names of the current frame stay bound *)
Lemma built_keeps K w A (m : EM A) : Built K w A m -> w = true -> forall s s' i k f,
  after (m s) = Some s' -> st_stack s = i :: k -> nth_error (st_heap s) i = Some f ->
  exists f', nth_error (st_heap s') i = Some f' /\ forall n, fr_has n f = true -> fr_has n f' = true.
Proof.
  induction 1 as [w A a|w A e|w A e He|w A|w A|w A r|w A B m f Hm IHm Hf IHf|w A m Hm IHm|w A m Hm IHm|w e|w|w n imp|w n|w g Hg Hk
                    |w A c bs w' m Hm IHm|w n v|w d b n|w p h|w A w' m Hm IHm|w p k m HK Hm IHm];
    intros Hw s s' i l fr; try (intros [= <-] _ Hfr; exists fr; auto; fail); try discriminate.
  - unfold pure. match goal with o : outcome _ |- _ => destruct o end; try discriminate. intros [= <-] _ H. exists fr. auto.
  - unfold bind. specialize (IHm Hw s). destruct (m s) as [a s1|e s1| |] eqn:E1; try discriminate.
    + intros H E Hfr. destruct (IHm s1 i l fr eq_refl E Hfr) as (f1 & H1 & Q1).
      destruct (IHf a Hw s1 s' i l f1 H) as (f2 & H2 & Q2); [|exact H1|exists f2; auto].
      destruct (frame_rule _ _ _ _ Hm s s1) as (Hs & _); [rewrite E1; reflexivity|congruence].
    + exact (IHm s' i l fr).
  - unfold catch. specialize (IHm Hw s). destruct (m s) as [a s1|e s1| |]; try discriminate; exact (IHm s' i l fr).
  - unfold or_report. specialize (IHm Hw s). destruct (m s) as [a s1|e s1| |]; try discriminate; [exact (IHm s' i l fr)|].
    intros [= <-]. exact (IHm s1 i l fr eq_refl).
  - unfold frame_id. destruct (st_stack s); try discriminate. intros [= <-] _ H. exists fr. auto.
  - unfold frame_lookup, bind, frame_id. destruct (st_stack s); try discriminate. intros [= <-] _ H. exists fr. auto.
  - unfold frame_has, bind, frame_id. destruct (st_stack s); try discriminate. intros [= <-] _ H. exists fr. auto.
  - unfold with_frame, bind, frame_id. destruct (st_stack s) as [|i0 k]; try discriminate. intros [= <-] [= -> _] H.
    st_simpl. exists (g fr). split; [now apply update_same|]. apply Hk, Hw.
  - intros H E Hfr. destruct (call_frame_same K w' A c bs m Hm s s' H) as (_ & _ & new & ->).
    exists fr. split; [|auto]. rewrite nth_error_app1; [exact Hfr|]. apply nth_error_Some. congruence.
  - unfold M_State.export, bind, gets, modify. destruct (nhas (st_exports s) n); intros [= <-] _ H; exists fr; auto.
  - unfold new_unique_id. destruct (get_unique_id _ _ _ _) as [[id used]| |]; try discriminate. intros [= <-] _ H. exists fr. auto.
  - unfold push_out_file. destruct (st_out s) as [o|]; [|intros [= <-] _ H; exists fr; auto].
    destruct (try_push o p h) as [[|] o']; intros [= <-] _ H; exists fr; auto.
  - intros H E Hfr. exists fr. split; [|auto].
    assert (Hi : i < length (st_heap s)) by (apply nth_error_Some; congruence).
    unfold with_compiler in H. fold (new_compiler s) in H.
    pose proof (frame_rule _ _ _ _ Hm (new_compiler s)) as HF.
    assert (Hgen : forall s1, SameElsewhere (new_compiler s) s1 -> nth_error (st_heap s1) i = Some fr).
    { intros s1 (A1 & B1 & C1 & D1). unfold new_compiler in *. st_simpl.
      destruct (D1 i fr) as (f' & H' & _ & Q'). { rewrite nth_error_app1 by exact Hi. exact Hfr. }
      rewrite H', Q'; [reflexivity|]. cbn. intros [= E']. lia. }
    destruct (m (new_compiler s)) as [a s1|e s1| |]; try discriminate; injection H as <-; st_simpl; apply Hgen, HF; reflexivity.
  - unfold cached, bind, module_state_of, gets. destruct (ngetm (st_mods s) k) as [[o x| |]|];
      try (intros [= <-] _ H; exists fr; auto; fail).
    rewrite load_module_eq. specialize (IHm Hw (start_module k s)).
    destruct (m (start_module k s)) as [[o x] s1|e s1| |]; try discriminate; intros [= <-]; exact (IHm s1 i l fr eq_refl).
Qed.

(** ** Modules *)
Lemma ngetm_ninsert_same T (m : nmap T) k v : ngetm (ninsert m k v) k = Some v.
Proof.
  induction m as [|[k' v'] m IH]; cbn [ninsert ngetm]; [now rewrite str_eqb_refl|].
  destruct (str_eqb k k') eqn:E; cbn [ngetm]; rewrite E; auto.
Qed.
Lemma ngetm_ninsert_other T (m : nmap T) k j v : j <> k -> ngetm (ninsert m k v) j = ngetm m j.
Proof.
  intro H. induction m as [|[k' v'] m IH]; cbn [ninsert ngetm].
  - destruct (str_eqb j k) eqn:E; [apply str_eqb_eq in E; congruence|reflexivity].
  - destruct (str_eqb k k') eqn:E; cbn [ngetm].
    + destruct (str_eqb j k') eqn:E'; [|reflexivity]. apply str_eqb_eq in E. apply str_eqb_eq in E'. congruence.
    + destruct (str_eqb j k'); auto.
Qed.

(** [new] are the modules whose compilation was started in between. *)
Definition Modules (s s' : st) (new : list str) : Prop :=
  st_trace s' = st_trace s ++ new /\ NoDup new /\
  (forall k x, ngetm (st_mods s) k = Some x -> ngetm (st_mods s') k = Some x) /\
  (forall k, In k new -> ngetm (st_mods s) k = None) /\
  (forall k, ngetm (st_mods s) k = None -> ~ In k new -> ngetm (st_mods s') k = None) /\
  (forall k, In k new -> exists x, ngetm (st_mods s') k = Some x /\ x <> MBusy).
Lemma modules_same s s' : st_trace s' = st_trace s -> st_mods s' = st_mods s -> Modules s s' [].
Proof.
  intros E1 E2. unfold Modules. rewrite E1, E2, app_nil_r. repeat split; auto; [constructor|now intros ? []|now intros ? []].
Qed.
Lemma modules_trans s1 s2 s3 n1 n2 : Modules s1 s2 n1 -> Modules s2 s3 n2 -> Modules s1 s3 (n1 ++ n2).
Proof.
  intros (A1 & B1 & C1 & D1 & E1 & F1) (A2 & B2 & C2 & D2 & E2 & F2). unfold Modules.
  assert (Hdis : forall k, In k n1 -> ~ In k n2).
  { intros k H1 H2. destruct (F1 k H1) as (x & Hx & _). rewrite (D2 k H2) in Hx. discriminate. }
  repeat split.
  - rewrite A2, A1, app_assoc. reflexivity.
  - clear - B1 B2 Hdis. induction B1 as [|x l Hx B1 IH]; [exact B2|]. cbn. constructor.
    + rewrite in_app_iff. intros [H|H]; [auto|]. apply (Hdis x); cbn; auto.
    + apply IH. intros k Hk. apply Hdis. now right.
  - intros k x H. apply C2, C1, H.
  - intros k H. apply in_app_iff in H as [H|H]; [auto|]. specialize (D2 k H).
    destruct (ngetm (st_mods s1) k) eqn:E; [|reflexivity]. rewrite (C1 k _ E) in D2. discriminate.
  - intros k H Hn. rewrite in_app_iff in Hn. apply E2; [apply E1; auto|auto].
  - intros k H. apply in_app_iff in H as [H|H]; [|auto]. destruct (F1 k H) as (x & Hx & Hb). exists x. split; [|exact Hb]. now apply C2.
Qed.
Lemma built_modules K w A (m : EM A) : Built K w A m -> forall s s', after (m s) = Some s' -> exists new, Modules s s' new.
Proof.
  apply (built_rel (fun s s' => exists new, Modules s s' new)).
  - intro s. exists []. now apply modules_same.
  - intros s1 s2 s3 [n1 H1] [n2 H2]. exists (n1 ++ n2). now apply modules_trans with s2.
  - intros. exists []. now apply modules_same.
  - intros. exists []. now apply modules_same.
  - intros. exists []. now apply modules_same.
  - intros. exists []. now apply modules_same.
  - intros. exists []. now apply modules_same.
  - intros s c bs s' _ [n H]. exists n. exact H.
  - intros s s' [n H]. exists n. exact H.
  - intros s k s' r _ Hk Hr [n (A1 & B1 & C1 & D1 & E1 & F1)]. exists (k :: n). unfold start_module in *. unfold Modules in *. st_simpl.
    assert (Hkn : ~ In k n). { intro Hi. specialize (D1 k Hi). rewrite ngetm_ninsert_same in D1. discriminate. }
    repeat split.
    + rewrite A1, <- app_assoc. reflexivity.
    + now constructor.
    + intros j x Hj. assert (j <> k) by congruence. rewrite ngetm_ninsert_other by assumption. apply C1.
      now rewrite ngetm_ninsert_other by assumption.
    + intros j [<-|Hj]; [exact Hk|]. assert (j <> k) by congruence. specialize (D1 j Hj).
      now rewrite ngetm_ninsert_other in D1 by assumption.
    + intros j Hj Hn. assert (j <> k) by (intros ->; apply Hn; now left). rewrite ngetm_ninsert_other by assumption.
      apply E1; [now rewrite ngetm_ninsert_other by assumption|]. intro. apply Hn. now right.
    + intros j [<-|Hj]; [exists r; split; [apply ngetm_ninsert_same|exact Hr]|]. assert (j <> k) by congruence.
      rewrite ngetm_ninsert_other by assumption. auto.
Qed.

Lemma built_keys K w A (m : EM A) : Built K w A m -> forall s s', after (m s) = Some s' ->
  (forall k x, ngetm (st_mods s) k = Some x -> K k) -> (forall k x, ngetm (st_mods s') k = Some x -> K k).
Proof.
  set (Q := fun s => forall k x, ngetm (st_mods s) k = Some x -> K k).
  apply (built_rel (fun s s' => Q s -> Q s')); auto.
  intros s k s' r HK _ _ H Hs j x. st_simpl. destruct (str_eqb j k) eqn:E.
  - apply str_eqb_eq in E as ->. intros _. exact HK.
  - rewrite ngetm_ninsert_other by (intros ->; rewrite str_eqb_refl in E; discriminate). apply H. clear j x E.
    intros j' x'. unfold start_module. st_simpl. destruct (str_eqb j' k) eqn:E'.
    + apply str_eqb_eq in E' as ->. intros _. exact HK.
    + rewrite ngetm_ninsert_other by (intros ->; rewrite str_eqb_refl in E'; discriminate). apply Hs.
Qed.

(** ** Output files *)
Definition Collected (s s' : st) : Prop :=
  match st_out s, st_out s' with
  | None, None => True
  | Some o, Some o' => base_path o' = base_path o /\ exists new, out_v o' = out_v o ++ new
  | _, _ => False
  end.
Lemma collected_same s s' : st_out s' = st_out s -> Collected s s'.
Proof. intro E. unfold Collected. rewrite E. destruct (st_out s); [|exact I]. split; [reflexivity|]. exists []. now rewrite app_nil_r. Qed.
Lemma built_out K w A (m : EM A) : Built K w A m -> forall s s', after (m s) = Some s' -> Collected s s'.
Proof.
  apply built_rel; try (intros; now apply collected_same).
  - intros s1 s2 s3. unfold Collected. destruct (st_out s1), (st_out s2), (st_out s3); try contradiction; auto.
    intros (A1 & n1 & B1) (A2 & n2 & B2). split; [congruence|]. exists (n1 ++ n2). rewrite B2, B1, app_assoc. reflexivity.
  - intros s o p h o' Ho Hp. unfold Collected. st_simpl. rewrite Ho. unfold try_push in Hp.
    destruct (make_relative (base_path o) p); [|discriminate]. injection Hp as <-. split; [reflexivity|]. eexists. reflexivity.
  - intros s c bs s' _ H. exact H.
  - intros s s' H. exact H.
Qed.

(** ** Unique ids *)
Lemma built_uids K w A (m : EM A) : Built K w A m -> forall s s', after (m s) = Some s' ->
  exists new, st_uids s' = st_uids s ++ new /\ (NoDup (st_uids s) -> NoDup (st_uids s')).
Proof.
  apply (built_rel (fun s s' => exists new, st_uids s' = st_uids s ++ new /\ (NoDup (st_uids s) -> NoDup (st_uids s')))).
  - intro s. exists []. rewrite app_nil_r. auto.
  - intros s1 s2 s3 (n1 & A1 & B1) (n2 & A2 & B2). exists (n1 ++ n2). rewrite A2, A1, app_assoc. split; [reflexivity|].
    intro H. rewrite <- A1, <- A2. auto.
  - intros. exists []. rewrite app_nil_r. auto.
  - intros. exists []. rewrite app_nil_r. auto.
  - intros. exists []. rewrite app_nil_r. auto.
  - intros s id Hn. exists [id]. split; [reflexivity|]. st_simpl. intro H. clear - H Hn. induction H as [|x l Hx H IH]; cbn.
    + repeat constructor. auto.
    + constructor; [|apply IH; intro; apply Hn; now right]. rewrite in_app_iff. cbn. intros [|[->|[]]]; [auto|]. apply Hn. now left.
  - intros. exists []. rewrite app_nil_r. auto.
  - intros s c bs s' _ H. exact H.
  - intros s s' H. exact H.
  - intros s k s' r _ _ _ H. exact H.
Qed.
