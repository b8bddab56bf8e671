(** Proofs for C83. *)
From Verif Require Import Base BaseFacts M_Int M_Text M_Names M_TagInfo M_Html M_Sequence M_Path M_Types M_Diag M_Ast M_Value M_State M_Native M_Eval
  S_Types S_Scope S_Call S_Safe S_Lib S_Alone P_Types P_State P_Built P_Mono P_Shift1 P_Shift2 P_Shift5 P_Shift6.

Lemma ngetm_app A (a b : nmap A) k : nhas a k = false -> ngetm (a ++ b) k = ngetm b k.
Proof. unfold nhas. induction a as [|[x v] a IH]; [reflexivity|]. cbn. destruct (str_eqb k x); [discriminate|]. exact IH. Qed.
Lemma nhas_app A (a b : nmap A) k : nhas (a ++ b) k = nhas a k || nhas b k.
Proof. unfold nhas. induction a as [|[x v] a IH]; [reflexivity|]. cbn. destruct (str_eqb k x); [reflexivity|]. exact IH. Qed.

Section Alone.
  Variable s0 s1 s : st.
  Hypothesis St0 : Starting s0.
  Hypothesis Us : Used s0 s1.
  Hypothesis Re : reset s1 = Ok tt s.
  Variable m : EM (html * nmap value).
  Hypothesis Hm : forall base extra old trace, Eqv base extra old trace (rload base extra) m m.
  Lemma sh_same extra sf : wf (length (st_heap s0)) sf -> (forall k, Known sf k -> ~ Known s k) ->
    SameUpToScopes (r (length (st_heap s0)) extra) s0 sf s (sh (length (st_heap s0)) extra (st_mods s) (st_trace s) sf).
  Proof.
    intros W D. split; try reflexivity.
    - exists (st_trace sf). rewrite (sg_trace _ St0). split; reflexivity.
    - intros k x E. cbn [sh st_mods]. rewrite ngetm_app.
      + rewrite rm_get, E. reflexivity.
      + destruct (nhas (st_mods s) k) eqn:K; [|reflexivity]. elim (D k); [|exact K]. unfold Known, nhas. now rewrite E.
    - intro k. unfold Known. cbn [sh st_mods]. rewrite nhas_app, rm_has, orb_true_iff. tauto.
    - intros i f E. cbn [sh st_heap]. rewrite sh_heap_nth by apply W. rewrite E. reflexivity.
    - intros i j. apply r_lt.
    - intros i L. unfold r. apply Nat.ltb_lt in L. now rewrite L.
  Qed.
  Lemma alone :
    match m s0 with
    | Ok (h, exports) new' => (forall k, Known new' k -> ~ Known s k) ->
      exists r used', m s = Ok (h, rm (rv r) exports) used' /\ SameUpToScopes r s0 new' s used'
    | Err e new' => (forall k, Known new' k -> ~ Known s k) ->
      exists r used', m s = Err e used' /\ SameUpToScopes r s0 new' s used'
    | _ => True
    end.
  Proof.
    destruct (starting_shifted _ _ _ St0 Us Re) as [extra E].
    assert (W0 : wf (length (st_heap s0)) s0) by (split; [lia|]; destruct (sg_running _ St0) as (A & B & _); now split).
    pose proof (Hm (length (st_heap s0)) extra (st_mods s) (st_trace s) s0 W0) as K. destruct (m s0) as [[h ex] sf|e sf| |]; try exact I.
    all: destruct K as (W & _ & K); rewrite <- E in K; intro D; exists (r (length (st_heap s0)) extra); eexists; (split; [|apply sh_same; [exact W|exact D]]); apply K.
    all: intros k Hk; destruct (nhas (st_mods s) k) eqn:N; [|reflexivity]; elim (D k); [exact Hk|exact N].
  Qed.
End Alone.

Lemma eqv_load_file base extra old trace X fuel p : Eqv base extra old trace (rload base extra) (load_uncached X (evals_n X fuel) p) (load_uncached X (evals_n X fuel) p).
Proof. apply eqv_load_uncached; apply eqv_evals. Qed.

Lemma context_exports X std fuel l o s : context_new X std fuel l o = Ok tt s -> st_exports s = [] /\ (st_mods s = [] -> st_trace s = []).
Proof.
  unfold context_new, compile_stdlib. set (c := context_start l o). unfold bind at 1.
  destruct (compile_source X (evals_n X fuel) (lit "<stdlib>") std RequireEmpty c) as [r0 s1|e s1| |] eqn:E; try discriminate.
  assert (Ea : after (compile_source X (evals_n X fuel) (lit "<stdlib>") std RequireEmpty c) = Some s1) by (rewrite E; reflexivity).
  pose proof (source_exports _ _ _ _ _ _ _ Ea) as X1.
  assert (B : Built any_key false (html * nmap value) (compile_source X (evals_n X fuel) (lit "<stdlib>") std RequireEmpty)).
  { apply built_compile_source; intros; apply built_evals; intros; exact I. }
  destruct (built_modules _ _ _ _ B _ _ Ea) as (new & T & _ & _ & _ & _ & N).
  unfold bind, gets, new_frame, modify, crash, ret. destruct (sink_is_empty _); intros [= <-]. cbn. split; [exact X1|].
  intro M. rewrite T. destruct new as [|k new]; [reflexivity|]. destruct (N k (or_introl eq_refl)) as (x & K & _). rewrite M in K. discriminate K.
Qed.
Lemma context_starting X std fuel l o s : context_new X std fuel l o = Ok tt s -> Fresh l o s -> Sound Lax s -> Starting s.
Proof.
  intros C (F1 & F2 & F3 & F4 & F5) S. apply context_exports in C as [C1 C2].
  split; auto; try apply S.
  - split; [exists []; now rewrite app_nil_r|]. repeat split; auto. destruct (st_out s); auto.
  - rewrite F1. reflexivity.
  - intros x Hx. rewrite Hx in F5. destruct o; [apply F5|contradiction].
Qed.
