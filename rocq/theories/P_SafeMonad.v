(** Proofs about sound states: the operations of M_State (C47, C57). *)
From Verif Require Import Base BaseFacts M_Names M_TagInfo M_Html S_Html P_Html M_Path M_TextSubs M_Token M_Types M_Diag M_Ast M_Value
  M_State M_HtmlParse M_Native S_Types P_Types P_Coerce S_Scope P_State P_Scope S_Call P_Call P_Match S_Safe P_SafeBase.

Section Monad.
  Variable m : mode.
  Variable X : externals.
  Definition Allowed (c : fault) : Prop := Loose m \/ Remaining X c.
  Definition Step (s s' : st) : Prop :=
    length (st_heap s) <= length (st_heap s') /\ st_stack s' = st_stack s /\ st_root s' = st_root s.
  Definition Post {A} (Q : nat -> A -> Prop) (s : st) (r : res A) : Prop :=
    match r with
    | Ok a s' => Sound m s' /\ Step s s' /\ Q (length (st_heap s')) a
    | Err _ s' => Sound m s' /\ Step s s'
    | Crash c => Allowed c
    | NoFuel => True
    end.
  Definition Safe {A} (n : nat) (Q : nat -> A -> Prop) (p : EM A) : Prop :=
    forall s, Sound m s -> n <= length (st_heap s) -> st_stack s <> [] -> Post Q s (p s).

  Lemma step_refl s : Step s s. Proof. repeat split; auto. Qed.
  Lemma step_trans a b c : Step a b -> Step b c -> Step a c.
  Proof. intros (A & B & C) (D & E & F). repeat split; [lia|congruence|congruence]. Qed.

  Lemma safe_ret A n (Q : nat -> A -> Prop) a : (forall k, n <= k -> Q k a) -> Safe n Q (ret a).
  Proof. intros H s S L K. cbn. split; [exact S|]. split; [apply step_refl|]. now apply H. Qed.
  Lemma safe_fail A n (Q : nat -> A -> Prop) e : Safe n Q (fail e).
  Proof. intros s S L K. cbn. split; [exact S|]. apply step_refl. Qed.
  Lemma safe_crash A n (Q : nat -> A -> Prop) c : Allowed c -> Safe n Q (crash c).
  Proof. intros H s S L K. exact H. Qed.
  Lemma safe_bind A B n (Q : nat -> A -> Prop) (Q' : nat -> B -> Prop) p f :
    Safe n Q p -> (forall k a, n <= k -> Q k a -> Safe k Q' (f a)) -> Safe n Q' (bind p f).
  Proof.
    intros H1 H2 s S L K. specialize (H1 s S L K). unfold bind. destruct (p s) as [a s1|e s1|c|]; cbn in *; auto.
    destruct H1 as (S1 & St1 & Hq). assert (K1 : st_stack s1 <> []) by (destruct St1 as (_ & E & _); now rewrite E).
    assert (L1 : n <= length (st_heap s1)) by (destruct St1; lia).
    specialize (H2 (length (st_heap s1)) a L1 Hq s1 S1 (le_n _) K1). destruct (f a s1) as [b s2|e s2|c|]; cbn in *; auto.
    - destruct H2 as (S2 & St2 & Hq2). split; [exact S2|]. split; [eapply step_trans; eassumption|exact Hq2].
    - destruct H2 as (S2 & St2). split; [exact S2|]. eapply step_trans; eassumption.
  Qed.
  Lemma safe_weaken A n k (Q Q' : nat -> A -> Prop) p : Safe n Q p -> n <= k -> (forall j a, k <= j -> Q j a -> Q' j a) -> Safe k Q' p.
  Proof.
    intros H L HQ s S L' K. specialize (H s S ltac:(lia) K). destruct (p s) as [a s1|e s1|c|]; cbn in *; auto.
    destruct H as (S1 & St & Hq). split; [exact S1|]. split; [exact St|]. apply HQ; [destruct St; lia|exact Hq].
  Qed.
  Lemma safe_pure A n (Q : nat -> A -> Prop) c r : (r = Panic -> Allowed c) -> (forall a k, r = Ret a -> n <= k -> Q k a) -> Safe n Q (pure c r).
  Proof.
    intros H1 H2 s S L K. unfold pure. destruct r; cbn; auto. split; [exact S|]. split; [apply step_refl|]. now apply H2.
  Qed.
  Lemma safe_lift A n (Q : nat -> A -> Prop) r : (forall a k, r = inl a -> n <= k -> Q k a) -> Safe n Q (lift r).
  Proof. intros H. destruct r; cbn; [apply safe_ret; intros; now apply H|apply safe_fail]. Qed.
  Lemma sound_sink d s : Sound m s -> Sound m (set_sink d s).
  Proof. intros [A B C D E]. now constructor. Qed.
  Lemma safe_report n e (Q : nat -> unit -> Prop) : (forall k, n <= k -> Q k tt) -> Safe n Q (report e).
  Proof. intros H s S L K. cbn. split; [now apply sound_sink|]. split; [repeat split; auto|]. now apply H. Qed.
  Lemma safe_or_report A n (Q : nat -> A -> Prop) p : Safe n Q p -> Safe n Q (or_report p).
  Proof.
    intros H s S L K. specialize (H s S L K). unfold or_report. destruct (p s) as [a s1|e s1|c|]; cbn in *; auto.
    destruct H as [S1 St]. split; [now apply sound_sink|exact St].
  Qed.
  Lemma safe_catch A n (Q : nat -> A -> Prop) p : Safe n Q p -> Safe n (fun k r => match r with inl a => Q k a | inr _ => True end) (catch p).
  Proof.
    intros H s S L K. specialize (H s S L K). unfold catch. destruct (p s) as [a s1|e s1|c|]; cbn in *; auto. tauto.
  Qed.
  Lemma safe_coerce n v t : Good m n v -> Safe n (fun k w => Good m k w /\ HasType t w) (coerceM v t).
  Proof.
    intros G. apply safe_lift. intros w k E L. apply (coerce_good m k) in E; [exact E|now apply (good_mono m n)].
  Qed.
  Lemma safe_gets A n (Q : nat -> A -> Prop) f : (forall s, Sound m s -> n <= length (st_heap s) -> st_stack s <> [] -> Q (length (st_heap s)) (f s)) ->
    Safe n Q (gets f).
  Proof. intros H s S L K. cbn. split; [exact S|]. split; [apply step_refl|]. now apply H. Qed.

  (** Scopes *)
  Lemma goodframe_mono n k f : n <= k -> GoodFrame m n f -> GoodFrame m k f.
  Proof. intros L [A B]. split; [now apply (goodmap_mono m n)|exact B]. Qed.
  Lemma goodexports_mono n k f : n <= k -> GoodExports m n f -> GoodExports m k f.
  Proof. intros L [A B]. split; [now apply (goodmap_mono m n)|exact B]. Qed.
  Lemma goodmodule_mono n k f : n <= k -> GoodModule m n f -> GoodModule m k f.
  Proof. intros L. destruct f; cbn; auto. intros [A B]. split; [exact A|now apply (goodexports_mono n)]. Qed.
  Lemma frame_good s i f : Sound m s -> nth_error (st_heap s) i = Some f -> GoodFrame m (length (st_heap s)) f.
  Proof. intros S E. pose proof (so_frames _ _ S) as F. rewrite Forall_forall in F. apply F. eapply nth_error_In; eassumption. Qed.

  Lemma safe_frame_id n (Q : nat -> nat -> Prop) : (forall k i, n <= k -> i < k -> Q k i) -> Safe n Q frame_id.
  Proof.
    intros H s S L K. unfold frame_id. destruct (st_stack s) as [|i r] eqn:E; [congruence|]. cbn. split; [exact S|]. split; [apply step_refl|].
    apply H; [exact L|]. destruct (so_running _ _ S) as (_ & _ & F). rewrite E in F. now inversion F.
  Qed.
  Lemma frame_get_good s i n imp v : Sound m s -> frame_get (st_heap s) i n imp = Some v ->
    Good m (length (st_heap s)) v /\ (imp = true -> match m with Strict _ T => exists t, ngetm T n = Some t /\ HasType t v | _ => True end).
  Proof.
    intro S. unfold frame_get. generalize (Datatypes.S i). intro fuel. revert i. induction fuel as [|fuel IH]; intros i; cbn; [discriminate|].
    destruct (nth_error (st_heap s) i) as [f|] eqn:Ef; [|discriminate].
    destruct (if negb imp || mem n (fr_implicit f) then ngetm (fr_locals f) n else None) as [w|] eqn:Ew.
    - intros [= <-]. destruct (frame_good _ _ _ S Ef) as [Gm Gi].
      destruct (negb imp || mem n (fr_implicit f)) eqn:Eb; [|discriminate]. split; [eapply map_get; eassumption|].
      intros ->. cbn in Eb. destruct m as [| |g T]; [exact I|exact I|]. destruct (Gi n) as (t & Ht & Hv); [now apply mem_In|]. exists t. split; [exact Ht|now apply Hv].
    - destruct (fr_parent f); [apply IH|discriminate].
  Qed.
  Lemma safe_lookup n k imp : Safe k (fun j r => forall v, r = Some v -> Good m j v /\
    (imp = true -> match m with Strict _ T => exists t, ngetm T n = Some t /\ HasType t v | _ => True end)) (frame_lookup n imp).
  Proof.
    unfold frame_lookup. eapply safe_bind; [apply (safe_frame_id k (fun _ _ => True)); auto|]. intros j i L _.
    apply safe_gets. intros s S L' K v E. now apply (frame_get_good s i).
  Qed.
  Lemma safe_get_var k n : Safe k (Good m) (get_var n).
  Proof.
    unfold get_var. eapply safe_bind; [apply safe_lookup|]. intros j [v|] L H; [|apply safe_fail].
    apply safe_ret. intros i Li. apply (good_mono m j); [exact Li|]. now apply H.
  Qed.
  Lemma safe_get_implicit k n d : (forall v, d = Some v -> Good m k v) ->
    Safe k (fun j v => Good m j v /\ (d = Some v \/ match m with Strict _ T => exists t, ngetm T n = Some t /\ HasType t v | _ => True end)) (get_implicit n d).
  Proof.
    intro Hd. unfold get_implicit. eapply safe_bind; [apply safe_lookup|]. intros j [v|] L H.
    - destruct (H v eq_refl) as [G1 G2]. apply safe_ret. intros i Li. split; [now apply (good_mono m j)|]. right. now apply G2.
    - destruct d as [v|].
      + apply safe_ret. intros i Li. split; [apply (good_mono m k); [lia|now apply Hd]|now left].
      + eapply safe_bind; [apply safe_lookup|]. intros. apply safe_fail.
  Qed.
  Lemma safe_with_frame n (Q : nat -> unit -> Prop) g : (forall f, fr_parent (g f) = fr_parent f) ->
    (forall k f, n <= k -> GoodFrame m k f -> GoodFrame m k (g f)) -> (forall k, n <= k -> Q k tt) -> Safe n Q (with_frame g).
  Proof.
    intros Hp Hg HQ. unfold with_frame. eapply safe_bind; [apply (safe_frame_id n (fun _ _ => True)); auto|]. intros j i L _ s S L' K.
    cbn. split; [|split; [|apply HQ; cbn; rewrite update_length; lia]].
    - destruct S as [R F E M O]. constructor; cbn; rewrite ?update_length; auto.
      + now apply running_update.
      + rewrite Forall_forall in *. intros f Hf. unfold update in Hf. destruct (nth_error (st_heap s) i) as [x|] eqn:Ex; [|now apply F].
        apply in_app_iff in Hf as [Hf|[<-|Hf]]; [|apply Hg; [lia|]; apply F; eapply nth_error_In; eassumption|];
          apply F; [rewrite <- (firstn_skipn i (st_heap s))|rewrite <- (firstn_skipn (Datatypes.S i) (st_heap s))]; apply in_app_iff; auto.
    - repeat split; cbn; rewrite ?update_length; auto.
  Qed.
  Definition ImplicitOk (n : str) (v : value) (imp : bool) : Prop :=
    if imp then match m with Strict _ T => exists t, ngetm T n = Some t /\ HasType t v | _ => True end else GoodName m n.
  Lemma goodframe_set k f n v imp : GoodFrame m k f -> Good m k v -> ImplicitOk n v imp -> GoodFrame m k (fr_set n v imp f).
  Proof.
    intros [A B] G H. split; [now apply map_insert|]. unfold ImplicitOk, GoodName in H. destruct m as [| |g T]; [exact I|exact I|].
    intros j Hj. destruct (str_eqb j n) eqn:Ej.
    - apply str_eqb_eq in Ej. subst j. destruct imp.
      + destruct H as (t & Ht & Hv). exists t. split; [exact Ht|]. intros w E. rewrite fr_set_getm, str_eqb_refl in E. now injection E as <-.
      + cbn in Hj. destruct (B n Hj) as (t & Ht & _). unfold plain_name, nhas in H. rewrite Ht in H. discriminate.
    - destruct (B j) as (t & Ht & Hv).
      + cbn in Hj. destruct imp; [|exact Hj]. apply set_add_iff in Hj as [->|Hj]; [|exact Hj]. rewrite str_eqb_refl in Ej. discriminate.
      + exists t. split; [exact Ht|]. intros w E. rewrite fr_set_getm, Ej in E. now apply Hv.
  Qed.
  Lemma safe_frame_has n k : Safe k (fun _ _ => True) (frame_has n).
  Proof.
    unfold frame_has. eapply safe_bind; [apply (safe_frame_id k (fun _ _ => True)); auto|]. intros. now apply safe_gets.
  Qed.
  Lemma safe_frame_set n k v imp : Good m k v -> ImplicitOk n v imp -> Safe k (fun _ _ => True) (frame_set n v imp).
  Proof.
    intros G H. unfold frame_set. eapply safe_bind; [apply safe_frame_has|]. intros j b L _.
    eapply safe_bind; [apply (safe_with_frame j (fun _ _ => True)); auto|intros; now apply safe_ret].
    intros i f Li Gf. apply goodframe_set; auto. apply (good_mono m k); [lia|exact G].
  Qed.
  Lemma safe_set_var n k v imp : Good m k v -> ImplicitOk n v imp -> Safe k (fun _ _ => True) (set_var n v imp).
  Proof.
    intros G H. unfold set_var. eapply safe_bind; [now apply safe_frame_set|]. intros j b L _. destruct b; [now apply safe_report|now apply safe_ret].
  Qed.

  (** New scopes *)
  Lemma sound_pop s s' i : Sound m s' -> Step (set_stack (i :: st_stack s) s) s' -> Sound m (set_stack (tl (st_stack s')) s') /\ Step s (set_stack (tl (st_stack s')) s').
  Proof.
    intros [R F E M O] (A & B & C). cbn in *. split.
    - constructor; cbn; auto. destruct R as (R1 & R2 & R3). repeat split; auto. cbn. rewrite B in *. now inversion R3.
    - rewrite B. repeat split; cbn; auto.
  Qed.
  Lemma safe_in_frame A n i (Q : nat -> A -> Prop) p : i < n -> Safe n Q p -> Safe n Q (in_frame i p).
  Proof.
    intros Hi H s S L K. unfold in_frame.
    assert (S1 : Sound m (set_stack (i :: st_stack s) s)).
    { destruct S as [R F E M O]. constructor; cbn; auto. destruct R as (R1 & R2 & R3). repeat split; auto. cbn. constructor; [lia|exact R3]. }
    specialize (H _ S1 L ltac:(cbn; discriminate)). destruct (p (set_stack (i :: st_stack s) s)) as [a s1|e s1|c|]; cbn in *; auto.
    - destruct H as (S2 & St & Hq). apply sound_pop in St as [St1 St2]; [|exact S2]. auto.
    - destruct H as (S2 & St). apply sound_pop in St as [St1 St2]; [|exact S2]. auto.
  Qed.
  Lemma goodframe_new n p bs : GoodMap m n bs -> GoodFrame m n (Frame p bs []).
  Proof. intro G. split; [exact G|]. destruct m as [| |g T]; [exact I|exact I|]. intros k []. Qed.
  Lemma sound_heap s f : Sound m s -> (forall p, fr_parent f = Some p -> p < length (st_heap s)) -> GoodFrame m (Datatypes.S (length (st_heap s))) f ->
    Sound m (set_heap (st_heap s ++ [f]) s).
  Proof.
    intros [R F E M O] Hp G. constructor; cbn; rewrite ?app_length; cbn [length]; rewrite ?Nat.add_1_r; auto.
    - destruct R as (R1 & R2 & R3). repeat split; cbn; rewrite ?app_length; cbn; try lia.
      + intros i g p Hn Hpg. destruct (Nat.lt_ge_cases i (length (st_heap s))) as [Hl|Hl].
        * rewrite nth_error_app1 in Hn by exact Hl. eapply R1; eassumption.
        * rewrite nth_error_app2 in Hn by exact Hl. destruct (i - length (st_heap s)) as [|k] eqn:Ek; cbn in Hn; [|destruct k; discriminate].
          injection Hn as <-. apply Hp in Hpg. lia.
      + eapply Forall_impl; [|exact R3]. cbn. intros. lia.
    - apply Forall_app. split; [|now constructor]. eapply Forall_impl; [|exact F]. intros. eapply goodframe_mono; [|eassumption]. lia.
    - eapply goodexports_mono; [|exact E]. lia.
    - eapply Forall_impl; [|exact M]. intros [k ms] H. cbn in *. eapply goodmodule_mono; [|exact H]. lia.
  Qed.
  Lemma safe_new_frame n c bs (Q : nat -> nat -> Prop) : c < n -> GoodMap m n bs -> (forall k i, n <= k -> i < k -> Q k i) -> Safe n Q (new_frame (Some c) bs).
  Proof.
    intros Hc G HQ s S L K. unfold new_frame. cbn. split; [|split].
    - apply sound_heap; [exact S|cbn; intros p [= <-]; lia|]. apply goodframe_new. apply (goodmap_mono m n); [lia|exact G].
    - repeat split; cbn; auto. rewrite app_length. lia.
    - rewrite app_length. cbn. apply HQ; lia.
  Qed.
  Lemma safe_in_call_frame A n c bs (Q : nat -> A -> Prop) p : c < n -> GoodMap m n bs -> (forall k, n <= k -> Safe k Q p) -> Safe n Q (in_call_frame c bs p).
  Proof.
    intros Hc G H. unfold in_call_frame. eapply safe_bind; [apply (safe_gets _ n (fun k a => a = k)); auto|]. intros k a L ->.
    destruct (c <? k) eqn:Ec; [|apply Nat.ltb_ge in Ec; lia].
    eapply safe_bind; [apply (safe_new_frame k c bs (fun j i => i < j)); [lia|now apply (goodmap_mono m n)|auto]|].
    intros j i Lj Hi. apply safe_in_frame; [exact Hi|]. apply H. lia.
  Qed.
  Lemma safe_in_child_frame A n (Q : nat -> A -> Prop) p : (forall k, n <= k -> Safe k Q p) -> Safe n Q (in_child_frame p).
  Proof.
    intros H. unfold in_child_frame. eapply safe_bind; [apply (safe_frame_id n (fun k i => i < k)); auto|]. intros k i L Hi.
    apply safe_in_call_frame; [exact Hi|apply map_nil|]. intros j Lj. apply H. lia.
  Qed.
  Lemma safe_export n v k : Good m k v -> GoodExportName m n -> Safe k (fun _ _ => True) (export n v).
  Proof.
    intros G H. unfold export. eapply safe_bind; [apply (safe_gets _ k (fun _ _ => True)); auto|]. intros j had L _.
    eapply (safe_bind _ _ _ (fun _ _ => True)); [|intros; destruct had; [now apply safe_report|now apply safe_ret]].
    intros s S Ls K. cbn. split; [|split; [repeat split; auto|exact I]]. destruct S as [R F E M O]. constructor; cbn; auto. destruct E as [E1 E2].
    split; [apply map_insert; [exact E1|apply (good_mono m k); [lia|exact G]]|].
    rewrite Forall_forall in *. intros y Hy. unfold nkeys in Hy. apply in_map_iff in Hy as ((y' & w) & <- & Hy). apply ninsert_in in Hy as [Hy|Hy].
    - now injection Hy as -> ->.
    - apply E2. unfold nkeys. apply in_map_iff. now exists (y', w).
  Qed.
End Monad.
