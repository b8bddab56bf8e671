(** The checks of the parser on lists it has read. *)
From Verif Require Import Base BaseFacts M_Text M_Names M_Token M_Tokenizer M_TokenText M_Types M_Diag M_Queue M_Ast M_Parser.
From Verif Require Import S_Front S_Grammar P_ParserW.

(** [m] reads no tokens; it reports no error exactly if there is a result as described by [R], which it then returns. *)
Definition Checks {A} (m : PM A) (R : A -> Prop) : Prop :=
  exists a ds, (forall s, m s = POk a (PState (ps_tokens s) (ps_diags s ++ ds))) /\
  (clean_b ds = true -> R a) /\ (forall b, R b -> clean_b ds = true /\ a = b).
Lemma W_check {A B} c (m : PM A) R (f : A -> PM B) toks Q : Checks m R ->
  (forall c' a, (c' = true -> c = true /\ R a) -> W c' (f a) toks Q) -> W c (pbind m f) toks Q.
Proof.
  intros (a & ds & E & S & _) H. apply W_bind. intros L d. rewrite E. exists [], ds. cbn. repeat split. apply H.
  intros C. apply andb_true_iff in C as [-> C]. auto.
Qed.
Lemma R_check {A B} (m : PM A) R (f : A -> PM B) a toks b rest : Checks m R -> R a -> Runs (f a) toks b rest -> Runs (pbind m f) toks b rest.
Proof.
  intros (a' & ds & E & _ & S) H K. destruct (S a H) as [C ->]. eapply R_bind; [|exact K]. exists ds. split; auto.
  intros d. rewrite E. auto.
Qed.
Lemma checks_ret {A} (a : A) (R : A -> Prop) : R a -> (forall b, R b -> a = b) -> Checks (pret a) R.
Proof. intros H U. exists a, []. repeat split; auto. intros s. rewrite app_nil_r. destruct s; auto. Qed.
Lemma checks_err {A} e (m : PM A) (R R' : A -> Prop) : Checks m R -> (forall b, ~ R' b) -> Checks (serr e;; m) R'.
Proof.
  intros (a & ds & E & S & T) N. exists a, (SyntaxErr e :: ds). split; [|split].
  - intros s. unfold pbind, serr, preport. rewrite E. cbn. rewrite <- app_assoc. auto.
  - discriminate.
  - intros b H. destruct (N b H).
Qed.
Lemma checks_if {A} (b : bool) e (m : PM A) (R R' : A -> Prop) : Checks m R -> (forall a, R' a <-> b = false /\ R a) ->
  Checks ((if b then serr e else pret tt);; m) R'.
Proof.
  intros H E. destruct b.
  - eapply checks_err; eauto. intros a X. apply E in X as [X _]. discriminate.
  - destruct H as (a & ds & Em & S & T). exists a, ds. split; auto. split.
    + intros C. apply E. auto.
    + intros b X. apply T. apply E. auto.
Qed.
Lemma checks_iff {A} (m : PM A) (R R' : A -> Prop) : Checks m R -> (forall a, R' a <-> R a) -> Checks m R'.
Proof.
  intros (a & ds & Em & S & T) E. exists a, ds. split; auto. split.
  - intros C. apply E. auto.
  - intros b X. apply T. apply E. auto.
Qed.
Lemma checks_map {A B} (m : PM A) (f : A -> B) (R : A -> Prop) (R' : B -> Prop) : Checks m R -> (forall a, R a -> R' (f a)) ->
  (forall b, R' b -> exists a, R a /\ b = f a) -> Checks (do a <- m; pret (f a)) R'.
Proof.
  intros (a & ds & Em & S & T) E1 E2. exists (f a), ds. split; [|split].
  - intros s. unfold pbind. rewrite Em. auto.
  - auto.
  - intros b X. destruct (E2 b X) as (a' & X' & ->). destruct (T a' X') as [-> ->]. auto.
Qed.

(** ** Arguments *)
Definition positional_b (a : arg) : bool := let '(Arg n k _) := a in arg_positional n k.
Lemma positional_spec a : positional_b a = true <-> PositionalArg a.
Proof.
  destruct a as [n k v]. cbn. unfold arg_positional, is_anonymous. rewrite andb_true_iff, str_eqb_eq.
  destruct k; intuition congruence.
Qed.
Fixpoint ordered (an : bool) (l : list arg) : Prop :=
  match l with [] => True | a :: l => if positional_b a then an = false /\ ordered an l else ordered true l end.
Lemma ordered_true l : ordered true l <-> Forall (fun a => ~ PositionalArg a) l.
Proof.
  induction l as [|a l IH]; cbn; [intuition constructor|]. destruct (positional_b a) eqn:E.
  - apply positional_spec in E. split; [intuition congruence|]. intros H. inversion H; tauto.
  - rewrite IH. split; [|now inversion 1]. intros H. constructor; auto. intros P. apply positional_spec in P. congruence.
Qed.
Lemma ordered_false l : ordered false l <->
  exists pos named, l = pos ++ named /\ Forall PositionalArg pos /\ Forall (fun a => ~ PositionalArg a) named.
Proof.
  induction l as [|a l IH]; cbn.
  - split; auto. intros _. exists [], []. auto.
  - destruct (positional_b a) eqn:E.
    + rewrite IH. apply positional_spec in E. split.
      * intros [_ (pos & named & -> & H1 & H2)]. exists (a :: pos), named. auto.
      * intros (pos & named & El & H1 & H2). split; auto. destruct pos as [|b pos]; cbn in El.
        -- subst named. inversion H2; tauto.
        -- injection El as -> ->. inversion H1; subst. exists pos, named. auto.
    + rewrite ordered_true. assert (~ PositionalArg a) as N by (intros P; apply positional_spec in P; congruence). split.
      * intros H. exists [], (a :: l). auto.
      * intros (pos & named & El & H1 & H2). destruct pos as [|b pos]; cbn in El.
        -- subst named. inversion H2; auto.
        -- injection El as -> ->. inversion H1; tauto.
Qed.
Definition Fresh (l used : list str) : Prop := NoDup l /\ forall n, In n l -> ~ In n used.
Lemma fresh_cons n l used : Fresh (n :: l) used <-> mem n used = false /\ Fresh l (set_add n used).
Proof.
  unfold Fresh, set_add. rewrite NoDup_cons_iff. destruct (mem n used) eqn:E.
  - apply mem_In in E. split; [|intros [X _]; discriminate]. intros [_ H]. destruct (H n); cbn; auto.
  - assert (~ In n used) as N by (intros X; apply mem_In in X; congruence). split.
    + intros [[N1 N2] H]. split; auto. split; auto. intros x Hx. rewrite in_app_iff. cbn. intros [X|[X|[]]].
      * apply (H x); cbn; auto.
      * subst x. auto.
    + intros [_ [N2 H]]. repeat split; auto.
      * intros X. apply (H n X). rewrite in_app_iff. cbn. auto.
      * intros x [->|Hx]; auto. intros X. apply (H x Hx). rewrite in_app_iff. auto.
Qed.
Lemma check_args_spec args : forall an used, Checks (check_args args an used) (fun _ => ordered an args /\ Fresh (given_names args) used).
Proof.
  induction args as [|[n k v] args IH]; intros an used; cbn [check_args].
  - apply checks_ret; [|intros []; auto]. cbn. split; auto. split; [constructor|intros ? []].
  - cbn [ordered positional_b given_names flat_map]. unfold arg_positional. fold (is_anonymous n). destruct (is_anonymous n) eqn:E; cbn [negb andb app].
    + destruct k; cbn.
      * eapply checks_if; [apply IH|]. intros []. fold given_names. tauto.
      * eapply checks_if; [apply IH|]. intros []. tauto.
      * apply IH.
    + eapply checks_if; [apply IH|]. intros []. rewrite fresh_cons. tauto.
Qed.
Lemma check_args_ok args : Checks (check_args args false []) (fun _ => ArgsOk args).
Proof.
  eapply checks_iff; [apply check_args_spec|]. intros []. unfold ArgsOk. rewrite ordered_false. unfold Fresh. split.
  - intros [H1 H2]. repeat split; auto.
  - tauto.
Qed.
(** ** Attributes of tags *)
Lemma check_attrs_spec attrs : forall used, Checks (check_attrs attrs used) (fun _ => Fresh (attr_names attrs) used).
Proof.
  induction attrs as [|[n q v|e] attrs IH]; intros used; cbn [check_attrs].
  - apply checks_ret; [|intros []; auto]. split; [constructor|intros ? []].
  - eapply checks_if; [apply IH|]. intros []. cbn. rewrite fresh_cons. tauto.
  - apply IH.
Qed.
Lemma check_attrs_ok attrs : Checks (check_attrs attrs []) (fun _ => NoDup (attr_names attrs)).
Proof. eapply checks_iff; [apply check_attrs_spec|]. intros []. unfold Fresh. intuition. Qed.
(** ** Declarations *)
Lemma named_args_spec args : Checks (named_args args) (fun vars =>
  Forall (fun ne => fst ne <> n_anonymous) vars /\ args = List.map (fun ne => Arg (fst ne) NoSpread (snd ne)) vars).
Proof.
  induction args as [|[n k v] args IH]; cbn [named_args].
  - apply checks_ret; [auto|]. intros b [_ E]. destruct b; [auto|discriminate].
  - destruct k.
    + unfold arg_positional. destruct (is_anonymous n) eqn:E; cbn [andb].
      * eapply checks_err; [apply IH|]. apply str_eqb_eq in E. intros [|[m w] b] [F X]; [discriminate|]. cbn in X. injection X as -> -> ->.
        inversion F; subst. cbn in *. auto.
      * eapply checks_map; [apply IH| |].
        -- intros a [F ->]. split; auto. constructor; auto. cbn. intros ->. unfold is_anonymous in E. rewrite str_eqb_refl in E. discriminate.
        -- intros [|[m w] b] [F X]; [discriminate|]. cbn in X. injection X as -> -> ->. inversion F; subst. eauto.
    + eapply checks_err; [apply IH|]. intros [|[m w] b] [F X]; [discriminate|]. cbn in X. congruence.
    + eapply checks_err; [apply IH|]. intros [|[m w] b] [F X]; [discriminate|]. cbn in X. congruence.
Qed.
