(** Proofs for C41. *)
From Verif Require Import Base BaseFacts M_Diag S_Diag.
From Coq Require Import Lia.

Lemma should_report_spec l e : should_report l (severity_of e) = true <-> AtLevel l e.
Proof. destruct l, e; cbn; intuition congruence. Qed.
Lemma selected_snoc {A} (P : A -> Prop) l l' x : Selected P l l' -> P x -> Selected P (l ++ [x]) (l' ++ [x]).
Proof. induction 1; intros; cbn; repeat constructor; auto. Qed.
Lemma selected_snoc_no {A} (P : A -> Prop) l l' x : Selected P l l' -> ~ P x -> Selected P (l ++ [x]) l'.
Proof. induction 1; intros; cbn; repeat constructor; auto. Qed.
Lemma selected_fun {A} (P : A -> Prop) l a b : Selected P l a -> Selected P l b -> a = b.
Proof. intros H; revert b; induction H; inversion 1; subst; try contradiction; f_equal; auto. Qed.

Definition SinkIs (l : level) (es : list papyri_error) (d : sink) : Prop :=
  sk_level d = l /\ Selected (AtLevel l) es (sk_v d) /\ Count is_error es (sk_errors d) /\ Count is_warning es (sk_warnings d).

Lemma sink_is_new l : SinkIs l [] (sink_new l).
Proof. repeat split; try (exists []; split; [constructor|reflexivity]). constructor. Qed.
Lemma count_snoc {A} (P : A -> Prop) l n x : Count P l n -> P x -> Count P (l ++ [x]) (n + 1).
Proof. intros (l' & S & <-) H. exists (l' ++ [x]). split; [now apply selected_snoc|]. rewrite app_length. cbn [length]. lia. Qed.
Lemma count_snoc_no {A} (P : A -> Prop) l n x : Count P l n -> ~ P x -> Count P (l ++ [x]) n.
Proof. intros (l' & S & <-) H. exists l'. split; [now apply selected_snoc_no|reflexivity]. Qed.
Lemma sink_is_add l es d e : SinkIs l es d -> SinkIs l (es ++ [e]) (sink_add e d).
Proof.
  intros (L & V & E & W). unfold SinkIs, sink_add; cbn [sk_level sk_v sk_errors sk_warnings]. split; [assumption|].
  rewrite L. split; [|split].
  - destruct (should_report l (severity_of e)) eqn:R.
    + apply selected_snoc; [assumption|now apply should_report_spec].
    + apply selected_snoc_no; [assumption|]. rewrite <- should_report_spec. congruence.
  - destruct e; cbn; first [now apply count_snoc | apply count_snoc_no; [assumption|cbn; tauto]].
  - destruct e; cbn; first [now apply count_snoc | apply count_snoc_no; [assumption|cbn; tauto]].
Qed.
Lemma sink_is_reports l es' : forall d es, SinkIs l es d -> SinkIs l (es ++ es') (fold_left sink_do (List.map Report es') d).
Proof.
  induction es' as [|e es' IH]; intros d es H; cbn; [now rewrite app_nil_r|].
  replace (es ++ e :: es') with ((es ++ [e]) ++ es') by now rewrite <- app_assoc. apply IH. now apply sink_is_add.
Qed.
Lemma sink_level l ops : forall d, sk_level d = l -> sk_level (fold_left sink_do ops d) = l.
Proof. induction ops as [|[] ops IH]; intros d H; cbn; auto. Qed.
Lemma sink_exact l ops es : SinceReset ops es ->
  Count is_error es (sk_errors (sink_run l ops)) /\ Count is_warning es (sk_warnings (sink_run l ops)) /\
  Selected (AtLevel l) es (sk_v (sink_run l ops)).
Proof.
  intros H.
  assert (S : SinkIs l es (sink_run l ops)).
  { unfold sink_run. inversion H; subst.
    - rewrite fold_left_app. cbn [fold_left sink_do].
      apply (sink_is_reports l es (sink_clear (fold_left sink_do ops0 (sink_new l))) []).
      replace (sink_clear _) with (sink_new l); [apply sink_is_new|]. unfold sink_clear, sink_new. now rewrite (sink_level l).
    - apply (sink_is_reports l es _ [] (sink_is_new l)). }
  destruct S as (_ & V & E & W). auto.
Qed.
Lemma since_reset_exists ops : exists es, SinceReset ops es.
Proof.
  induction ops as [|o ops [es IH]] using rev_ind; [exists []; exact (SR_none [])|]. destruct o as [e|].
  - exists (es ++ [e]). inversion IH; subst.
    + replace ((ops0 ++ Reset :: List.map Report es) ++ [Report e]) with (ops0 ++ Reset :: List.map Report (es ++ [e]));
        [constructor|]. rewrite map_app, <- app_assoc. reflexivity.
    + replace (List.map Report es ++ [Report e]) with (List.map Report (es ++ [e])); [constructor|]. now rewrite map_app.
  - exists []. exact (SR_reset ops []).
Qed.
Lemma count_zero {A} (P : A -> Prop) l n : Count P l n -> (n = 0%N <-> Forall (fun x => ~ P x) l).
Proof.
  intros (l' & S & <-). induction S; cbn [length].
  - split; [constructor|reflexivity].
  - split; [lia|]. inversion 1; subst. contradiction.
  - rewrite IHS. split; [now constructor|]. now inversion 1.
Qed.
Lemma sink_empty_iff l ops es : SinceReset ops es ->
  (sink_is_empty (sink_run l ops) = true <-> Forall (fun e => ~ is_error e /\ ~ is_warning e) es).
Proof.
  intros H. destruct (sink_exact l ops es H) as (E & W & _). unfold sink_is_empty.
  rewrite andb_true_iff, !N.eqb_eq, (count_zero _ _ _ E), (count_zero _ _ _ W), !Forall_forall. firstorder.
Qed.
Lemma sink_summary_ok l ops es : SinceReset ops es ->
  (exists rest, sink_summary (sink_run l ops) = lit "OK" ++ rest) <-> Forall (fun e => ~ is_error e) es.
Proof.
  intros H. destruct (sink_exact l ops es H) as (E & W & _). rewrite <- (count_zero _ _ _ E). unfold sink_summary.
  destruct (0 <? sk_errors _)%N eqn:Z.
  - split; [intros [r A]; discriminate|]. intros A. rewrite A in Z. discriminate.
  - apply N.ltb_ge in Z. split; [intros _; lia|]. intros _. destruct (0 <? sk_warnings _)%N.
    + eexists. change (lit "OK, ") with (lit "OK" ++ lit ", "). rewrite <- app_assoc. reflexivity.
    + exists []. reflexivity.
Qed.
