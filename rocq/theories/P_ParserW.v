(** Reasoning about the parser: partial results, diagnostics and consumption of tokens. *)
From Verif Require Import Base BaseFacts M_Text M_Names M_Token M_Tokenizer M_TokenText M_Types M_Diag M_Queue M_Ast M_Parser S_Front S_Grammar P_Tokenizer.

Definition clean_b (ds : list papyri_error) : bool := forallb (fun e => match e with Warn _ => true | _ => false end) ds.
Lemma clean_app a b : clean_b (a ++ b) = clean_b a && clean_b b.
Proof. apply forallb_app. Qed.

(** [W c m toks Q]: from the tokens [toks], [m] takes some tokens, in order, and either fails after it has reported an error,
    or returns a result which satisfies [Q]. [c] says that no error has been reported so far; [Q] is told whether that still
    holds. *)
Definition W {A} (c : bool) (m : PM A) (toks : tokens) (Q : tokens -> bool -> A -> Prop) : Prop :=
  Forall LexTok toks -> forall d,
  match m (PState toks d) with
  | POk a s => exists u ds, toks = u ++ ps_tokens s /\ ps_diags s = d ++ ds /\ Q (ps_tokens s) (c && clean_b ds) a
  | PErr s => exists u ds, toks = u ++ ps_tokens s /\ ps_diags s = d ++ ds /\ clean_b ds = false
  | PPanic | PFuel => False
  end.

Lemma W_ret {A} c (a : A) toks (Q : _ -> _ -> _ -> Prop) : Q toks c a -> W c (pret a) toks Q.
Proof. intros H L d. exists [], []. cbn. cbn [clean_b forallb]; rewrite (app_nil_r d), andb_true_r. auto. Qed.
Lemma W_conseq {A} c (m : PM A) toks (Q Q' : _ -> _ -> _ -> Prop) : W c m toks Q ->
  (forall r c' a, length r <= length toks -> Forall LexTok r -> Q r c' a -> Q' r c' a) -> W c m toks Q'.
Proof.
  intros H I L d. specialize (H L d). destruct (m (PState toks d)) as [a s|s| |]; auto.
  destruct H as (u & ds & -> & E & H). exists u, ds. repeat split; auto. apply I; auto.
  - rewrite app_length; lia.
  - apply Forall_app in L. tauto.
Qed.
Lemma W_bind {A B} c (m : PM A) (f : A -> PM B) toks Q :
  W c m toks (fun r c' a => W c' (f a) r Q) -> W c (pbind m f) toks Q.
Proof.
  intros H L d. specialize (H L d). unfold pbind. destruct (m (PState toks d)) as [a [r d']|s| |]; auto.
  cbn in H. destruct H as (u & ds & -> & -> & H). apply Forall_app in L as [_ L]. specialize (H L (d ++ ds)).
  destruct (f a (PState r (d ++ ds))) as [b s|s| |]; auto.
  - destruct H as (u' & ds' & -> & E & H). exists (u ++ u'), (ds ++ ds'). rewrite clean_app, !app_assoc, andb_assoc in *. auto.
  - destruct H as (u' & ds' & -> & E & H). exists (u ++ u'), (ds ++ ds').
    rewrite clean_app, H, andb_false_r, !app_assoc. auto.
Qed.
(** use of a lemma about the first part *)
Lemma W_use {A B} c (m : PM A) (f : A -> PM B) toks (P : _ -> _ -> _ -> Prop) Q :
  W c m toks P -> (forall r c' a, length r <= length toks -> Forall LexTok r -> P r c' a -> W c' (f a) r Q) ->
  W c (pbind m f) toks Q.
Proof. intros H I. apply W_bind. eapply W_conseq; eauto. Qed.
Lemma W_lex {A} c (m : PM A) toks Q : (Forall LexTok toks -> W c m toks Q) -> W c m toks Q.
Proof. intros H L. apply H; auto. Qed.

Lemma W_fail {A} c e toks Q : W c (@sfail A e) toks Q.
Proof. intros L d. exists [], [SyntaxErr e]. auto. Qed.
Lemma W_err {B} c e (f : unit -> PM B) toks Q : W false (f tt) toks Q -> W c (pbind (serr e) f) toks Q.
Proof. intros H. apply W_bind. intros L d. exists [], [SyntaxErr e]. rewrite andb_false_r. auto. Qed.
Lemma W_warn {B} c e (f : unit -> PM B) toks Q : W c (f tt) toks Q -> W c (pbind (preport (Warn e)) f) toks Q.
Proof. intros H. apply W_bind. intros L d. exists [], [Warn e]. rewrite andb_true_r. auto. Qed.
Lemma W_poll_if {B} p c (f : option token -> PM B) toks Q :
  (forall t l, toks = t :: l -> p t = true -> LexTok t -> W c (f (Some t)) l Q) ->
  ((forall t l, toks = t :: l -> p t = false) -> W c (f None) toks Q) -> W c (pbind (poll_if p) f) toks Q.
Proof.
  intros H1 H2. apply W_bind. unfold poll_if, peek, pbind, poll. intros L d. cbn. destruct toks as [|t l]; cbn.
  - exists [], []. cbn [clean_b forallb]; rewrite (app_nil_r d), andb_true_r. repeat split. apply H2. discriminate.
  - destruct (p t) eqn:E; cbn.
    + exists [t], []. cbn [clean_b forallb]; rewrite (app_nil_r d), andb_true_r. repeat split. apply H1; auto. inversion L; auto.
    + exists [], []. cbn [clean_b forallb]; rewrite (app_nil_r d), andb_true_r. repeat split. apply H2. intros ? ? [= <- <-]; auto.
Qed.
Lemma is_kind_spec k t : is_kind k t = true <-> Is k t.
Proof. unfold is_kind, kind_eqb, Is. destruct kind_eq_dec; intuition congruence. Qed.
Lemma kind_eqb_spec k t : kind_eqb (tk_kind t) k = true <-> Is k t.
Proof. apply is_kind_spec. Qed.
Lemma not_next p (P : token -> Prop) toks : (forall t, p t = true <-> P t) -> (forall t l, toks = t :: l -> p t = false) <-> ~ Next P toks.
Proof.
  intros E. split.
  - intros H (t & l & -> & HP). apply E in HP. erewrite H in HP by reflexivity. discriminate.
  - intros H t l ->. destruct (p t) eqn:X; auto. destruct H. exists t, l. split; auto. apply E; auto.
Qed.
Lemma W_poll_if_kind {B} k c (f : option token -> PM B) toks Q :
  (forall t l, toks = t :: l -> Is k t -> LexTok t -> W c (f (Some t)) l Q) ->
  (~ Next (Is k) toks -> W c (f None) toks Q) -> W c (pbind (poll_if_kind k) f) toks Q.
Proof.
  intros H1 H2. apply W_poll_if.
  - intros t l E H. apply kind_eqb_spec in H. eauto.
  - intros H. apply H2. rewrite not_next in H by (intros; apply kind_eqb_spec). auto.
Qed.
Lemma W_skip {B} c (f : unit -> PM B) toks Q :
  (forall r, Skip toks r -> length r <= length toks -> W c (f tt) r Q) -> W c (pbind skip_whitespace f) toks Q.
Proof.
  intros H. unfold skip_whitespace. apply W_bind. apply W_poll_if.
  - intros t l -> E _. apply ws_White in E. apply W_ret. apply H; [|cbn; lia]. apply skip_white; auto.
  - intros E. apply W_ret. apply H; auto. apply skip_none. rewrite not_next in E by (intros; apply ws_White). auto.
Qed.
Lemma W_expect {B} c (f : token -> PM B) toks Q :
  (forall t l, toks = t :: l -> LexTok t -> W c (f t) l Q) -> W c (pbind expect_poll f) toks Q.
Proof.
  intros H. apply W_bind. unfold expect_poll, poll, pbind. intros L d. cbn. destruct toks as [|t l]; cbn.
  - exists [], [SyntaxErr UnexpectedEOF]. auto.
  - exists [t], []. cbn [clean_b forallb]; rewrite (app_nil_r d), andb_true_r. repeat split. apply H; auto. inversion L; auto.
Qed.
Lemma W_expect_kind {B} k c (f : token -> PM B) toks Q :
  (forall t l, toks = t :: l -> Is k t -> LexTok t -> W c (f t) l Q) -> W c (pbind (expect_poll_kind k) f) toks Q.
Proof.
  intros H. apply W_bind. unfold expect_poll_kind, expect_poll, peek, poll, pbind. intros L d. cbn. destruct toks as [|t l]; cbn.
  - exists [], [SyntaxErr UnexpectedEOF]. auto.
  - destruct (kind_eqb (tk_kind t) k) eqn:E; cbn.
    + exists [t], []. cbn [clean_b forallb]; rewrite (app_nil_r d), andb_true_r. repeat split. apply H; auto.
      * apply kind_eqb_spec; auto.
      * inversion L; auto.
    + exists [], [SyntaxErr (TokenExpectedWas k (tk_kind t))]. auto.
Qed.
(** the same, where failure is caught *)
Lemma W_ok {A B} c (m : PM A) (f : option A -> PM B) toks (P : _ -> _ -> _ -> Prop) Q :
  W c m toks P ->
  (forall r c' a, length r <= length toks -> Forall LexTok r -> P r c' a -> W c' (f (Some a)) r Q) ->
  (forall r, length r <= length toks -> W false (f None) r Q) -> W c (pbind (p_ok m) f) toks Q.
Proof.
  intros H H1 H2. apply W_bind. intros L d. specialize (H L d). unfold p_ok. destruct (m (PState toks d)) as [a s|s| |]; auto.
  - destruct H as (u & ds & -> & E & H). exists u, ds. repeat split; auto. apply H1; auto.
    + rewrite app_length; lia.
    + apply Forall_app in L. tauto.
  - destruct H as (u & ds & -> & E & H). exists u, ds. rewrite H, andb_false_r. repeat split; auto. apply H2.
    rewrite app_length; lia.
Qed.
Lemma W_ok_expect {B} k c (f : option token -> PM B) toks Q :
  (forall t l, toks = t :: l -> Is k t -> LexTok t -> W c (f (Some t)) l Q) ->
  (forall r, length r <= length toks -> W false (f None) r Q) -> W c (pbind (p_ok (expect_poll_kind k)) f) toks Q.
Proof.
  intros H1 H2. eapply W_ok with (P := fun r c' t => c' = c /\ toks = t :: r /\ Is k t /\ LexTok t); auto.
  - unfold expect_poll_kind, expect_poll, peek, poll, pbind. intros L d. cbn. destruct toks as [|t l]; cbn.
    + exists [], [SyntaxErr UnexpectedEOF]. auto.
    + destruct (kind_eqb (tk_kind t) k) eqn:E; cbn.
      * exists [t], []. cbn [clean_b forallb]; rewrite (app_nil_r d), andb_true_r. repeat split; auto.
        -- apply kind_eqb_spec; auto.
        -- inversion L; auto.
      * exists [], [SyntaxErr (TokenExpectedWas k (tk_kind t))]. auto.
  - intros r c' t _ _ (-> & -> & K & L). auto.
Qed.
Lemma W_map_err {A} c (m : PM A) h toks Q : (forall s, exists ds, h s = POk tt (PState (ps_tokens s) (ps_diags s ++ ds))) ->
  W c m toks Q -> W c (map_err m h) toks Q.
Proof.
  intros Hh H L d. specialize (H L d). unfold map_err. destruct (m (PState toks d)) as [a s|s| |]; auto.
  destruct H as (u & ds & -> & E & H). destruct (Hh s) as [ds' ->]. exists u, (ds ++ ds'). cbn.
  rewrite E, clean_app, H, app_assoc. auto.
Qed.
Lemma W_fuel {A} c (f : nat -> PM A) toks Q : W c (f (S (length toks))) toks Q -> W c (with_fuel f) toks Q.
Proof. intros H. exact H. Qed.
Lemma W_bind_ret {A B} c (a : A) (f : A -> PM B) toks Q : W c (f a) toks Q -> W c (pbind (pret a) f) toks Q.
Proof. intros H. exact H. Qed.
Lemma W_bind_bind {A B C} c (m : PM A) (f : A -> PM B) (g : B -> PM C) toks Q :
  W c (pbind m (fun a => pbind (f a) g)) toks Q -> W c (pbind (pbind m f) g) toks Q.
Proof. intros H L d. specialize (H L d). unfold pbind in *. destruct (m (PState toks d)) as [a s|s| |]; auto. Qed.
Lemma W_bind_fail {A B} c e (f : A -> PM B) toks Q : W c (pbind (sfail e) f) toks Q.
Proof. intros L d. exists [], [SyntaxErr e]. auto. Qed.
Lemma W_has_next {B} p c (f : bool -> PM B) toks Q :
  (forall t l, toks = t :: l -> p t = true -> W c (f true) toks Q) ->
  ((forall t l, toks = t :: l -> p t = false) -> W c (f false) toks Q) -> W c (pbind (has_next p) f) toks Q.
Proof.
  intros H1 H2. apply W_bind. unfold has_next, peek, pbind. intros L d. exists [], []. cbn [clean_b forallb]; rewrite (app_nil_r d), andb_true_r.
  repeat split. cbn. destruct toks as [|t l]; cbn.
  - apply H2. discriminate.
  - destruct (p t) eqn:E; eauto. apply H2. intros ? ? [= <- <-]; auto.
Qed.

(** [m] reads a phrase of [G], of at least [k] tokens, if there are fewer than [N] tokens. *)
Definition Spec {A} (N : nat) (m : PM A) (k : nat) (G : tokens -> tokens -> A -> Prop) : Prop :=
  forall c toks, length toks < N ->
  W c m toks (fun r c' a => length r + k <= length toks /\ (c' = true -> c = true /\ G toks r a)).
Lemma W_spec {A B} N c (m : PM A) k (G : _ -> _ -> _ -> Prop) (f : A -> PM B) toks Q : Spec N m k G -> length toks < N ->
  (forall r c' a, length r + k <= length toks -> Forall LexTok r -> (c' = true -> c = true /\ G toks r a) -> W c' (f a) r Q) ->
  W c (pbind m f) toks Q.
Proof. intros H L I. eapply W_use; [apply (H c toks L)|]. intros r c' a _ X [Y Z]. auto. Qed.
Lemma W_spec_end {A} N c (m : PM A) k (G : _ -> _ -> _ -> Prop) toks (Q : _ -> _ -> _ -> Prop) : Spec N m k G -> length toks < N ->
  (forall r c' a, length r + k <= length toks -> Forall LexTok r -> (c' = true -> c = true /\ G toks r a) -> Q r c' a) ->
  W c m toks Q.
Proof. intros H L I. eapply W_conseq; [apply (H c toks L)|]. intros r c' a _ X [Y Z]. auto. Qed.
Lemma W_spec_ok {A B} N c (m : PM A) k (G : _ -> _ -> _ -> Prop) (f : option A -> PM B) toks Q : Spec N m k G -> length toks < N ->
  (forall r c' a, length r + k <= length toks -> Forall LexTok r -> (c' = true -> c = true /\ G toks r a) -> W c' (f (Some a)) r Q) ->
  (forall r, length r <= length toks -> W false (f None) r Q) ->
  W c (pbind (p_ok m) f) toks Q.
Proof. intros H L I J. eapply W_ok; [apply (H c toks L)| |]; auto. intros r c' a _ X [Y Z]. auto. Qed.

(** Simplification of what is known at the end of a run *)
Ltac clean :=
  repeat match goal with
  | H : ?c = true -> _, E : ?c = true |- _ => specialize (H E)
  | H : false = true -> _ |- _ => clear H
  | H : true = true -> _ |- _ => specialize (H eq_refl)
  | H : _ /\ _ |- _ => destruct H
  | H : false = true |- _ => discriminate H
  end.
(** One step through the code *)
Ltac w1 :=
  lazymatch goal with
  | |- W _ (pret _) _ _ => apply W_ret
  | |- W _ (sfail _) _ _ => apply W_fail
  | |- W _ (pbind (pret _) _) _ _ => apply W_bind_ret
  | |- W _ (pbind (sfail _) _) _ _ => apply W_bind_fail
  | |- W _ (pbind (serr _) _) _ _ => apply W_err
  | |- W _ (pbind (preport (Warn _)) _) _ _ => apply W_warn
  | |- W _ (pbind (preport (SyntaxErr _)) _) _ _ => apply W_err
  | |- W _ (pbind (pbind _ _) _) _ _ => apply W_bind_bind
  | |- W _ (pbind skip_whitespace _) _ _ => apply W_skip; let r := fresh "toks" in let S := fresh "S" in let L := fresh "L" in intros r S L
  | |- W _ (pbind (poll_if_kind _) _) _ _ =>
      apply W_poll_if_kind; [let t := fresh "t" in let l := fresh "l" in let K := fresh "K" in let X := fresh "X" in intros t l -> K X
                            |let N := fresh "N" in intros N]; cbn [is_some]
  | |- W _ (pbind (expect_poll_kind _) _) _ _ =>
      apply W_expect_kind; let t := fresh "t" in let l := fresh "l" in let K := fresh "K" in let X := fresh "X" in intros t l -> K X
  | |- W _ (pbind expect_poll _) _ _ =>
      apply W_expect; let t := fresh "t" in let l := fresh "l" in let X := fresh "X" in intros t l -> X
  | |- W _ (pbind (p_ok (expect_poll_kind _)) _) _ _ =>
      apply W_ok_expect; [let t := fresh "t" in let l := fresh "l" in let K := fresh "K" in let X := fresh "X" in intros t l -> K X
                         |let r := fresh "toks" in let L := fresh "L" in intros r L]; cbn [is_some]
  | |- W _ (with_fuel _) _ _ => apply W_fuel
  end.
(** use of a lemma *)
Ltac wuse H :=
  lazymatch goal with
  | |- W _ (pbind (p_ok _) _) _ _ => eapply W_spec_ok; [apply H|try (cbn in *; lia)| |]
  | |- W _ (pbind _ _) _ _ => eapply W_spec; [apply H|try (cbn in *; lia)|]
  | |- _ => eapply W_spec_end; [apply H|try (cbn in *; lia)|]
  end.

(** ** Runs without errors *)
Definition Runs {A} (m : PM A) (toks : tokens) (a : A) (rest : tokens) : Prop :=
  exists ds, clean_b ds = true /\ forall d, m (PState toks d) = POk a (PState rest (d ++ ds)).
Lemma R_ret {A} (a : A) toks : Runs (pret a) toks a toks.
Proof. exists []. split; auto. intros d. rewrite app_nil_r. auto. Qed.
Lemma R_bind {A B} (m : PM A) (f : A -> PM B) toks a mid b rest : Runs m toks a mid -> Runs (f a) mid b rest -> Runs (pbind m f) toks b rest.
Proof.
  intros (ds & C & H) (ds' & C' & H'). exists (ds ++ ds'). rewrite clean_app, C, C'. split; auto.
  intros d. unfold pbind. rewrite H, H', app_assoc. auto.
Qed.
Lemma R_bind_ret {A B} (a : A) (f : A -> PM B) toks b rest : Runs (f a) toks b rest -> Runs (pbind (pret a) f) toks b rest.
Proof. intros H. exact H. Qed.
Lemma R_bind_bind {A B C} (m : PM A) (f : A -> PM B) (g : B -> PM C) toks b rest :
  Runs (pbind m (fun a => pbind (f a) g)) toks b rest -> Runs (pbind (pbind m f) g) toks b rest.
Proof.
  intros (ds & E & H). exists ds. split; auto. intros d. specialize (H d). rewrite <- H. unfold pbind.
  destruct (m (PState toks d)); auto.
Qed.
Lemma R_warn {B} e (f : unit -> PM B) toks b rest : Runs (f tt) toks b rest -> Runs (pbind (preport (Warn e)) f) toks b rest.
Proof.
  intros H. eapply R_bind; [|exact H]. exists [Warn e]. auto.
Qed.
Lemma R_poll_yes {B} p (f : option token -> PM B) t l b rest : p t = true -> Runs (f (Some t)) l b rest ->
  Runs (pbind (poll_if p) f) (t :: l) b rest.
Proof.
  intros P H. eapply R_bind; [|exact H]. exists []. split; auto. intros d. rewrite app_nil_r.
  unfold poll_if, peek, pbind. cbn. rewrite P. auto.
Qed.
Lemma R_poll_no {B} p (f : option token -> PM B) toks b rest : (forall t l, toks = t :: l -> p t = false) -> Runs (f None) toks b rest ->
  Runs (pbind (poll_if p) f) toks b rest.
Proof.
  intros P H. eapply R_bind; [|exact H]. exists []. split; auto. intros d. rewrite app_nil_r.
  unfold poll_if, peek, pbind. cbn. destruct toks as [|t l]; auto. cbn. rewrite (P _ _ eq_refl). auto.
Qed.
Lemma R_kind_yes {B} k (f : option token -> PM B) t l b rest : Is k t -> Runs (f (Some t)) l b rest ->
  Runs (pbind (poll_if_kind k) f) (t :: l) b rest.
Proof. intros K. apply R_poll_yes. apply kind_eqb_spec; auto. Qed.
Lemma R_kind_no {B} k (f : option token -> PM B) toks b rest : ~ Next (Is k) toks -> Runs (f None) toks b rest ->
  Runs (pbind (poll_if_kind k) f) toks b rest.
Proof. intros K. apply R_poll_no. rewrite not_next by (intros; apply kind_eqb_spec). auto. Qed.
Lemma R_skip {B} (f : unit -> PM B) toks r b rest : Skip toks r -> Runs (f tt) r b rest -> Runs (pbind skip_whitespace f) toks b rest.
Proof.
  intros S H. unfold skip_whitespace. apply R_bind_bind. destruct S as [t l Wt|toks N].
  - apply R_poll_yes; auto. apply ws_White; auto.
  - apply R_poll_no; auto. rewrite not_next by (intros; apply ws_White). auto.
Qed.
Lemma R_expect {B} (f : token -> PM B) t l b rest : Runs (f t) l b rest -> Runs (pbind expect_poll f) (t :: l) b rest.
Proof. intros H. eapply R_bind; [|exact H]. exists []. split; auto. intros d. rewrite app_nil_r. auto. Qed.
Lemma R_expect_poll t l : Runs expect_poll (t :: l) t l.
Proof. exists []. split; auto. intros d. rewrite app_nil_r. auto. Qed.
Lemma R_expect_kind_ k t l : Is k t -> Runs (expect_poll_kind k) (t :: l) t l.
Proof.
  intros K. exists []. split; auto. intros d. rewrite app_nil_r. unfold expect_poll_kind, peek, pbind. cbn.
  apply kind_eqb_spec in K. rewrite K. auto.
Qed.
Lemma R_expect_kind {B} k (f : token -> PM B) t l b rest : Is k t -> Runs (f t) l b rest -> Runs (pbind (expect_poll_kind k) f) (t :: l) b rest.
Proof. intros K H. eapply R_bind; [|exact H]. apply R_expect_kind_; auto. Qed.
Lemma R_ok {A} (m : PM A) toks a rest : Runs m toks a rest -> Runs (p_ok m) toks (Some a) rest.
Proof. intros (ds & C & H). exists ds. split; auto. intros d. unfold p_ok. rewrite H. auto. Qed.
Lemma R_map_err {A} (m : PM A) h toks a rest : Runs m toks a rest -> Runs (map_err m h) toks a rest.
Proof. intros (ds & C & H). exists ds. split; auto. intros d. unfold map_err. rewrite H. auto. Qed.
Lemma R_fuel {A} (f : nat -> PM A) toks a rest : Runs (f (S (length toks))) toks a rest -> Runs (with_fuel f) toks a rest.
Proof. intros H. exact H. Qed.
Lemma R_next_yes {B} p (f : bool -> PM B) t l b rest : p t = true -> Runs (f true) (t :: l) b rest ->
  Runs (pbind (has_next p) f) (t :: l) b rest.
Proof.
  intros P H. eapply R_bind; [|exact H]. exists []. split; auto. intros d. rewrite app_nil_r.
  unfold has_next, peek, pbind. cbn. rewrite P. auto.
Qed.
Lemma R_next_no {B} p (f : bool -> PM B) toks b rest : (forall t l, toks = t :: l -> p t = false) -> Runs (f false) toks b rest ->
  Runs (pbind (has_next p) f) toks b rest.
Proof.
  intros P H. eapply R_bind; [|exact H]. exists []. split; auto. intros d. rewrite app_nil_r.
  unfold has_next, peek, pbind. cbn. destruct toks as [|t l]; auto. cbn. rewrite (P _ _ eq_refl). auto.
Qed.
(** a run, and what is known about all runs *)
Lemma R_spec {A} N (m : PM A) k G toks a rest : Spec N m k G -> length toks < N -> Forall LexTok toks -> Runs m toks a rest ->
  length rest + k <= length toks /\ exists u, toks = u ++ rest.
Proof.
  intros S L X (ds & C & H). specialize (S true toks L X []). rewrite H in S. cbn in S.
  destruct S as (u & ds' & E & _ & Q & _). eauto.
Qed.
Lemma lex_suffix toks u rest : toks = u ++ rest -> Forall LexTok toks -> Forall LexTok rest.
Proof. intros -> H. apply Forall_app in H. tauto. Qed.
Lemma skip_lex toks r : Skip toks r -> Forall LexTok toks -> Forall LexTok r.
Proof. intros [t l _|l _] H; auto. inversion H; auto. Qed.
Lemma skip_length toks r : Skip toks r -> length r <= length toks.
Proof. intros [t l _|l _]; cbn; lia. Qed.
