(** Errors about two places are reported at the later one (C66). *)
From Verif Require Import Base BaseFacts M_Text M_Names M_TagInfo M_Token M_Tokenizer M_TokenText M_TextSubs M_Types M_Diag M_Queue M_Ast M_Parser M_ParserPos S_Pos S_PosOrder S_Front P_Tokenizer P_Front P_ParserLex P_ParserPos P_ParserWhere.
From Coq Require Import Sorting.Sorted.

Definition Suffix (l' l : list token) : Prop := exists c, l = c ++ l'.
Lemma suf_refl l : Suffix l l. Proof. now exists []. Qed.
Lemma suf_trans a b c : Suffix a b -> Suffix b c -> Suffix a c.
Proof. intros [x ->] [y ->]. exists (y ++ x). now rewrite app_assoc. Qed.
Lemma suf_cons t l : Suffix l (t :: l). Proof. now exists [t]. Qed.
Lemma suf_in l l' t : Suffix l' l -> In t l' -> In t l.
Proof. intros [c ->] H. apply in_or_app. now right. Qed.
Definition Asc (l : list token) : Prop := StronglySorted (fun a b => tk_start a < tk_start b) l.
Lemma asc_app a b : Asc (a ++ b) <-> Asc a /\ Asc b /\ forall x y, In x a -> In y b -> tk_start x < tk_start y.
Proof.
  unfold Asc. induction a as [|t a IH]; cbn [app].
  - split; [intro H; repeat split; [constructor|exact H|intros x y []]|tauto].
  - split.
    + intro H. inversion H as [|? ? S F]; subst. apply IH in S as (A & B & C). apply Forall_app in F as [F G]. repeat split; [constructor; auto|exact B|].
      intros x y [<-|Hx] Hy; [rewrite Forall_forall in G; auto|auto].
    + intros (A & B & C). inversion A as [|? ? S F]; subst. constructor; [apply IH; repeat split; auto; intros; apply C; auto; now right|].
      apply Forall_app. split; [exact F|]. apply Forall_forall. intros y Hy. apply C; [now left|exact Hy].
Qed.
#[local] Hint Resolve suf_refl suf_cons : ord.

Section Order.
  Variable T : list token.
  Variable eof : nat.
  Hypothesis HT : forall t, In t T -> (tk_kind t = Name -> tk_text t <> n_anonymous) /\ (tk_kind t = VarName -> exists n, tk_text t = dollar ++ n).
  Hypothesis HA : Asc T.
  Definition Ordered (d : papyri_error * nat) : Prop := Preceded T (fst d) (snd d).
  Definition V {A} (l : list token) (m : QM A) (P : list token -> A -> Prop) : Prop :=
    Suffix l T -> forall ds, Forall Ordered ds ->
    match m (QState l ds) with
    | QOk a s => Forall Ordered (qs_diags s) /\ Suffix (qs_tokens s) l /\ P (qs_tokens s) a
    | QErr s => Forall Ordered (qs_diags s) /\ Suffix (qs_tokens s) l
    | _ => True
    end.
  Definition all {A} (l : list token) (a : A) : Prop := True.
  (** [t] is before all of [l] *)
  Definition Past (l : list token) (Q : token -> Prop) : Prop := exists t, In t T /\ Q t /\ forall u, In u l -> tk_start t < tk_start u.
  (** the position of a token of [l] *)
  Definition Among (l : list token) (p : nat) : Prop := exists t, In t l /\ tk_start t = p.
  (** a token of [l], before all of [l'] *)
  Definition Between (l l' : list token) (Q : token -> Prop) : Prop := exists t, In t l /\ Q t /\ forall u, In u l' -> tk_start t < tk_start u.
  (** and not after [p] *)
  Definition Leading (l l' : list token) (Q : token -> Prop) (p : nat) : Prop := exists t, In t l /\ Q t /\ tk_start t <= p /\ forall u, In u l' -> tk_start t < tk_start u.

  Lemma past_suf l l' Q : Suffix l' l -> Past l Q -> Past l' Q.
  Proof. intros S (t & A & B & C). exists t. repeat split; auto. intros u Hu. apply C. now apply (suf_in l l'). Qed.
  Lemma past_imp l (Q R : token -> Prop) : (forall t, In t T -> Q t -> R t) -> Past l Q -> Past l R.
  Proof. intros H (t & A & B & C). exists t. auto. Qed.
  Lemma among_suf l l' p : Suffix l' l -> Among l' p -> Among l p.
  Proof. intros S (t & A & B). exists t. split; [now apply (suf_in l l')|exact B]. Qed.
  Lemma between_past l l' Q : Suffix l T -> Between l l' Q -> Past l' Q.
  Proof. intros S (t & A & B & C). exists t. repeat split; auto. now apply (suf_in T l). Qed.
  Lemma leading_past l l' Q p : Suffix l T -> Leading l l' Q p -> Past l' Q.
  Proof. intros S (t & A & B & C & D). exists t. repeat split; auto. now apply (suf_in T l). Qed.
  Lemma between_suf l0 l1 l2 l3 Q : Suffix l1 l0 -> Suffix l3 l2 -> Between l1 l2 Q -> Between l0 l3 Q.
  Proof. intros S S' (t & A & B & C). exists t. split; [now apply (suf_in l0 l1)|]. split; [exact B|]. intros u Hu. apply C. now apply (suf_in l2 l3). Qed.
  Lemma past_earlier l Q p : Past l Q -> Among l p -> Earlier T Q p.
  Proof. intros (t & A & B & C) (u & D & <-). exists t. auto. Qed.
  Lemma past_twice l l' Q R p : Suffix l T -> Past l Q -> Leading l l' R p -> Twice T Q R p.
  Proof. intros S (t & A & B & C) (u & D & E & F & _). exists t, u. repeat split; auto. now apply (suf_in T l). Qed.
  Lemma between_leading l l1 l2 Q p : Between l l1 Q -> Among l1 p -> Suffix l2 l1 -> Leading l l2 Q p.
  Proof. intros (t & A & B & C) (u & D & <-) S. exists t. repeat split; auto; [apply Nat.lt_le_incl; auto|]. intros v Hv. apply C. now apply (suf_in l1 l2). Qed.
  Lemma leading_suf l0 l1 l2 l3 Q p : Suffix l1 l0 -> Suffix l3 l2 -> Leading l1 l2 Q p -> Leading l0 l3 Q p.
  Proof. intros S S' (t & A & B & C & D). exists t. split; [now apply (suf_in l0 l1)|]. repeat split; auto. intros u Hu. apply D. now apply (suf_in l2 l3). Qed.

  Lemma v_ret {A} l (P : list token -> A -> Prop) a : P l a -> V l (qret a) P.
  Proof. intros H S ds D. cbn. auto with ord. Qed.
  Lemma v_bind {A B} l (P : list token -> A -> Prop) (Q : list token -> B -> Prop) m f :
    V l m P -> (forall l' a, Suffix l T -> Suffix l' l -> P l' a -> V l' (f a) Q) -> V l (qbind m f) Q.
  Proof.
    intros H K S ds D. specialize (H S ds D). unfold qbind. destruct (m _) as [a s|s| |]; auto. destruct H as (H1 & H2 & H3). destruct s as [l' ds']. cbn [qs_tokens qs_diags] in *.
    specialize (K l' a S H2 H3 (suf_trans _ _ _ H2 S) ds' H1). destruct (f a _) as [b s|s| |]; auto.
    - destruct K as (K1 & K2 & K3). repeat split; auto. eapply suf_trans; eauto.
    - destruct K as (K1 & K2). repeat split; auto. eapply suf_trans; eauto.
  Qed.
  Lemma v_weaken {A} l (P Q : list token -> A -> Prop) m : (forall l' a, Suffix l T -> Suffix l' l -> P l' a -> Q l' a) -> V l m P -> V l m Q.
  Proof. intros H K S ds D. specialize (K S ds D). destruct (m _); auto. destruct K as (K1 & K2 & K3). auto. Qed.
  Lemma v_any {A} l (P : list token -> A -> Prop) m : V l m P -> V l m all.
  Proof. apply v_weaken. easy. Qed.
  Lemma v_report l (P : list token -> unit -> Prop) e p : Preceded T e p -> P l tt -> V l (qreport e p) P.
  Proof. intros H K S ds D. cbn. repeat split; auto with ord. apply Forall_app. split; [exact D|]. constructor; [exact H|constructor]. Qed.
  Lemma v_serr l (P : list token -> unit -> Prop) e p : Preceded T (SyntaxErr e) p -> P l tt -> V l (qserr e p) P.
  Proof. apply v_report. Qed.
  Lemma v_sfail {A} l (P : list token -> A -> Prop) e p : Preceded T (SyntaxErr e) p -> V l (qsfail e p) P.
  Proof. intros H S ds D. cbn. split; auto with ord. apply Forall_app. split; [exact D|]. constructor; [exact H|constructor]. Qed.
  Lemma v_ice {A} l (P : list token -> A -> Prop) : V l q_ice P. Proof. intros S ds D. exact I. Qed.
  Lemma v_fuel {A} l (P : list token -> A -> Prop) : V l (fun _ => QFuel) P. Proof. intros S ds D. exact I. Qed.
  Lemma v_ok {A} l (P : list token -> A -> Prop) m : V l m P -> V l (q_ok m) (fun l' o => match o with Some a => P l' a | None => True end).
  Proof. intros H S ds D. specialize (H S ds D). unfold q_ok. destruct (m _); auto. tauto. Qed.
  Lemma v_map_err {A} l (P : list token -> A -> Prop) m h : V l m P -> (forall l', V l' h all) -> V l (q_map_err m h) P.
  Proof.
    intros H K S ds D. specialize (H S ds D). unfold q_map_err. destruct (m _) as [a s|s| |]; auto. destruct H as (H1 & H2). destruct s as [l' ds']. cbn [qs_tokens qs_diags] in *.
    specialize (K l' (suf_trans _ _ _ H2 S) ds' H1). destruct (h (QState l' ds')) as [b s|s| |]; [| |exact I|exact I]; (split; [apply K|]); apply (suf_trans _ l'); [apply K|exact H2|apply K|exact H2].
  Qed.
  Lemma v_with_fuel {A} l (P : list token -> A -> Prop) f : (forall n, V l (f n) P) -> V l (q_with_fuel f) P.
  Proof. intros H. unfold V, q_with_fuel. intros. now apply H. Qed.
  Lemma v_if {A} l (P : list token -> A -> Prop) (b : bool) m n : (b = true -> V l m P) -> (b = false -> V l n P) -> V l (if b then m else n) P.
  Proof. destruct b; auto. Qed.
  Lemma v_at {A} l (P : list token -> A -> Prop) p (m : PM A) :
    (Suffix l T -> match m (PState l []) with
     | POk a s => P (ps_tokens s) a /\ Suffix (ps_tokens s) l /\ Forall (fun e => Preceded T e p) (ps_diags s)
     | PErr s => Suffix (ps_tokens s) l /\ Forall (fun e => Preceded T e p) (ps_diags s)
     | _ => True end) -> V l (qat p m) P.
  Proof.
    intros H S ds D. specialize (H S). unfold qat. cbn [qs_tokens qs_diags]. destruct (m _) as [a s|s| |]; auto; cbn [qs_tokens qs_diags]; (split; [apply Forall_app; split; [exact D|]; apply Forall_map; apply H|]); tauto.
  Qed.
  Lemma head_past t l (Q : token -> Prop) : Suffix (t :: l) T -> Q t -> Past l Q.
  Proof.
    intros [c E] H. exists t. split; [rewrite E; apply in_or_app; right; now left|]. split; [exact H|]. intros u Hu.
    rewrite E in HA. apply asc_app in HA as (_ & HA' & _). inversion HA' as [|? ? ? F]. rewrite Forall_forall in F. auto.
  Qed.
  Lemma head_between t l (Q : token -> Prop) : Suffix (t :: l) T -> Q t -> Between (t :: l) l Q.
  Proof.
    intros [c E] H. exists t. split; [now left|]. split; [exact H|]. intros u Hu.
    rewrite E in HA. apply asc_app in HA as (_ & HA' & _). inversion HA' as [|? ? ? F]. rewrite Forall_forall in F. auto.
  Qed.
  (** the token polled *)
  Definition Took (l l' : list token) (t : token) : Prop := In t l /\ forall u, In u l' -> tk_start t < tk_start u.
  (** a token already polled *)
  Definition Gone (l : list token) (t : token) : Prop := In t T /\ forall u, In u l -> tk_start t < tk_start u.
  Definition OptTook (l : list token) (Q : token -> Prop) (l' : list token) (o : option token) : Prop := match o with Some t => Took l l' t /\ Q t | None => True end.
  Lemma head_took t l : Suffix (t :: l) T -> Took (t :: l) l t.
  Proof.
    intros [c E]. split; [now left|]. intros u Hu.
    rewrite E in HA. apply asc_app in HA as (_ & HA' & _). inversion HA' as [|? ? ? F]. rewrite Forall_forall in F. auto.
  Qed.
  Lemma took_between l l' (Q : token -> Prop) t : Took l l' t -> Q t -> Between l l' Q.
  Proof. intros (A & C) B. exists t. auto. Qed.
  Lemma took_gone l l' t : Suffix l T -> Took l l' t -> Gone l' t.
  Proof. intros S (A & B). split; [now apply (suf_in T l)|exact B]. Qed.
  Lemma took_among l l' t : Took l l' t -> Among l (tk_start t).
  Proof. intros (A & B). now exists t. Qed.
  Lemma gone_suf l l' t : Suffix l' l -> Gone l t -> Gone l' t.
  Proof. intros S (A & B). split; [exact A|]. intros u Hu. apply B. now apply (suf_in l l'). Qed.
  Lemma gone_past l t (Q : token -> Prop) : Gone l t -> Q t -> Past l Q.
  Proof. intros (A & B) H. exists t. auto. Qed.
  Lemma v_poll l : V l q_poll (OptTook l (fun _ => True)).
  Proof. apply v_at. destruct l as [|t l]; intro S; cbn; auto with ord. repeat split; auto using suf_cons; now apply head_took. Qed.
  Lemma v_peek l : V l q_peek (fun l' _ => l' = l).
  Proof. apply v_at. intros _. cbn. auto with ord. Qed.
  Lemma v_poll_if l p : V l (q_poll_if p) (OptTook l (fun t => p t = true)).
  Proof.
    apply v_at. destruct l as [|t l]; intro S; cbn; auto with ord. destruct (p t) eqn:E; cbn; auto with ord. repeat split; auto using suf_cons; now apply head_took.
  Qed.
  Lemma v_poll_if_kind l k : V l (q_poll_if_kind k) (OptTook l (fun t => tk_kind t = k)).
  Proof.
    apply v_at. destruct l as [|t l]; intro S; cbn; auto with ord. unfold kind_eqb. destruct (kind_eq_dec _ _) as [E|E]; cbn; auto with ord. repeat split; auto using suf_cons; now apply head_took.
  Qed.
  Lemma v_has_next l p : V l (q_has_next p) all.
  Proof. apply v_at. intros _. destruct l; cbn; unfold all; auto with ord. Qed.
  Lemma v_skip l : V l q_skip all.
  Proof. apply v_at. intros _. destruct l as [|t l]; cbn; [unfold all; auto with ord|]. unfold skip_whitespace, poll_if, pbind, peek. cbn [ps_tokens hd_error]. destruct (tok_is_whitespace t); cbn; unfold all; auto with ord. Qed.
  Lemma v_name_id l t : V l (q_name_id t) (fun _ n => (tk_kind t = Name /\ n = tk_text t) \/ (tk_kind t = VarName /\ n = List.tl (tk_text t)) \/ tk_kind t = FuncName).
  Proof. apply v_at. intros _. unfold tok_name_id. destruct (tk_kind t); cbn; try exact I; repeat split; auto with ord. Qed.
  Lemma v_lowercase l t : V l (q_lowercase_name_id t) all.
  Proof. apply v_at. intros _. unfold tok_lowercase_name_id. destruct (is_kind _ _); cbn; unfold all; repeat split; auto with ord. Qed.
  Lemma v_text l t : V l (q_text t) all.
  Proof.
    assert (L : forall fuel text l, match text_loop fuel text (PState l []) with
      | POk _ s => Suffix (ps_tokens s) l /\ ps_diags s = [] | PErr s => Suffix (ps_tokens s) l /\ ps_diags s = [] | _ => True end).
    { induction fuel as [|fuel IH]; intros text l0; [exact I|]. cbn [text_loop]. unfold poll_if, peek, poll, pret, pbind. cbn [ps_tokens ps_diags].
      destruct l0 as [|u l0]; cbn [hd_error ps_tokens ps_diags]; [auto with ord|]. destruct (has_text u); cbn [ps_tokens ps_diags]; [|auto with ord].
      match goal with |- match text_loop _ ?x _ with _ => _ end => specialize (IH x l0) end.
      destruct (text_loop _ _ _) as [? s|s| |]; auto; destruct IH as [IH ->]; (split; [|reflexivity]); eapply suf_trans; eauto using suf_cons. }
    apply v_at. intros _. unfold parse_text, with_fuel, pbind, pret, all. destruct (token_text t) as [text|]; [|exact I]. cbn [ps_tokens].
    specialize (L (S (length l)) text l). destruct (text_loop _ _ _) as [a s|s| |]; auto; destruct L as [L ->]; auto.
  Qed.
  Lemma v_number l t : V l (q_number t) all.
  Proof.
    apply v_at. intros _. unfold p_number. destruct (parse_number (tk_text t)) as [z|e] eqn:E; cbn; unfold all; auto with ord. split; auto with ord. constructor; [|constructor].
    assert (e = TokenInvalidNumber) as -> by (unfold parse_number in E; destruct (parse_i64 _); congruence). exact I.
  Qed.
  Lemma v_unescape l t : V l (q_unescape t) all.
  Proof.
    apply v_at. intros _. unfold p_unescape. destruct (unescape_char _) as [[c [e|]]| |] eqn:E; cbn; try exact I; repeat split; auto with ord. constructor; [|constructor].
    assert (e = TokenInvalidEscape) as -> by (clear -E; unfold unescape_char in E; repeat match type of E with context [match ?x with _ => _ end] => destruct x; try discriminate E end; congruence). exact I.
  Qed.
  Lemma v_entity l decode t : V l (q_entity decode t) all.
  Proof.
    unfold q_entity. destruct (decode_entity _ _) as [c [e|]] eqn:E; (eapply (v_bind _ all); [|intros; now apply v_ret]); [|now apply v_ret].
    apply v_serr; [|exact I]. assert (e = TokenInvalidEntity) as -> by (unfold decode_entity in E; destruct (decode _) as [|? [|? ?]]; congruence). exact I.
  Qed.
  Lemma v_expect_poll l : V l (q_expect_poll eof) (fun l' t => Took l l' t).
  Proof.
    apply v_at. destruct l as [|t l]; intro S; cbn.
    - split; auto with ord. constructor; [exact I|constructor].
    - repeat split; auto using suf_cons; now apply head_took.
  Qed.
  Lemma v_expect_kind l k : V l (q_expect_kind eof k) (fun l' t => Took l l' t /\ tk_kind t = k).
  Proof.
    intros S ds D. unfold q_expect_kind, q_peek, qat, peek, qbind. cbn [ps_tokens ps_diags qs_tokens qs_diags List.map]. rewrite app_nil_r.
    destruct l as [|t l]; cbn [hd_error].
    - pose proof (v_expect_poll [] S ds D) as K. unfold q_expect_poll, qat, expect_poll, pbind, poll in *. cbn in *. exact K.
    - unfold kind_eqb. destruct (kind_eq_dec _ _) as [E|E]; cbn [negb].
      + pose proof (v_expect_poll _ S ds D) as K. cbn in *. tauto.
      + cbn. split; auto with ord. apply Forall_app. split; [exact D|]. constructor; [exact I|constructor].
  Qed.
  #[local] Hint Resolve v_poll v_peek v_poll_if v_poll_if_kind v_has_next v_skip v_name_id v_lowercase v_text v_number v_unescape v_entity v_expect_poll v_expect_kind v_ice v_fuel : vh.
  Ltac dest := repeat match goal with H : _ /\ _ |- _ => destruct H end.
  Ltac v1 :=
    lazymatch goal with
    | |- forall _, _ => intro; cbn beta in *
    | |- V _ (qret _) _ => apply v_ret; try exact I
    | |- V _ (qsfail _ _) _ => apply v_sfail; try exact I
    | |- V _ (qserr _ _) _ => apply v_serr; [try exact I|try exact I]
    | |- V _ (qreport _ _) _ => apply v_report; [try exact I|try exact I]
    | |- V _ q_ice _ => apply v_ice
    | |- V _ (fun _ => QFuel) _ => apply v_fuel
    | |- V _ (qbind _ _) _ => eapply v_bind; [solve [eauto 3 with vh]|]; cbn beta; intros; dest
    | |- V _ (if ?b then _ else _) _ => apply v_if; intro
    end.
  Ltac ot := match goal with H : OptTook _ _ _ ?o |- _ => destruct o as [?t|]; cbn [OptTook] in H; dest; cbn [is_some] end.

  (** The spread, if any *)
  Definition SpreadOf (l l' : list token) (x : spread_kind * option nat) : Prop :=
    match snd x with
    | None => fst x = NoSpread
    | Some p => exists t, Took l l' t /\ tk_start t = p /\ IsSpread t /\ (fst x = PosSpread -> tk_kind t = Asterisk) /\ (fst x = NamedSpread -> tk_kind t = DoubleAsterisk)
    end.
  Lemma v_spread l a b : V l (q_spread a b) (fun l' x => SpreadOf l l' x).
  Proof.
    unfold q_spread. v1. ot; [|now v1].
    eapply (v_bind _ (fun l2 k => k = NoSpread \/ (k = PosSpread /\ tk_kind t = Asterisk) \/ (k = NamedSpread /\ tk_kind t = DoubleAsterisk))).
    - v1; match goal with H : is_kind Asterisk t = _ |- _ => rename H into E end.
      + apply kind_is in E. destruct a; [v1; auto|]. eapply (v_bind _ all); [now v1|]. intros. v1. auto.
      + assert (tk_kind t = DoubleAsterisk) by (apply spread_tok; assumption). destruct b; [v1; auto|]. eapply (v_bind _ all); [now v1|]. intros. v1. auto.
    - intros l2 k S S2 K. v1. cbn [SpreadOf fst snd]. exists t. split.
      + match goal with H : Took _ _ t |- _ => destruct H as [X Y] end. split; [exact X|]. intros u Hu. apply Y. now apply (suf_in l' l2).
      + split; [reflexivity|]. split.
        * unfold IsSpread. destruct (is_kind Asterisk t) eqn:E; [apply kind_is in E; auto|right; now apply spread_tok].
        * destruct K as [->|[[-> ?]|[-> ?]]]; split; congruence.
  Qed.
  #[local] Hint Resolve v_spread : vh.

  (** ** Types and names *)
  Lemma v_groups begin fuel : forall l ty, V l (q_groups begin fuel ty) all.
  Proof.
    induction fuel as [|fuel IH]; intros l ty; [apply v_fuel|]. cbn [q_groups]. v1. v1. ot; [|now v1]. eapply (v_bind _ all); [|intros; apply IH].
    unfold q_group_type. repeat (v1; [now v1|]). v1; [v1; [|now v1]|]; (eapply (v_bind _ all); [now v1|intros; now v1]).
  Qed.
  Lemma v_type l : V l (q_type eof) (fun _ x => Among l (snd x)).
  Proof.
    unfold q_type. v1. v1. eapply (v_bind _ all).
    - destruct (base_type (tk_text a0)) eqn:E; [now v1|]. eapply (v_bind _ all); [now v1|intros; now v1].
    - intros. eapply (v_bind _ all); [apply v_with_fuel; intro; now apply v_groups|]. intros. v1. cbn [snd]. eapply among_suf; [eassumption|]. eapply took_among; eassumption.
  Qed.
  Lemma v_name_loop fuel : forall l n, V l (q_name_loop eof fuel n) all.
  Proof.
    induction fuel as [|fuel IH]; intros l n; [apply v_fuel|]. cbn [q_name_loop]. v1. ot; [|now v1]. cbv zeta. v1. ot.
    - v1. apply IH.
    - v1. v1. apply IH.
  Qed.
  Lemma v_name l t : V l (q_name eof t) (fun _ x => snd x = tk_start t).
  Proof. unfold q_name. v1. eapply (v_bind _ all); [apply v_with_fuel; intro; apply v_name_loop|]. intros. now v1. Qed.
  #[local] Hint Resolve v_type v_name : vh.
  Lemma v_name_pattern l t : V l (q_name_pattern eof t) (fun _ x => snd x = tk_start t).
  Proof. unfold q_name_pattern. v1. destruct a as [[n|n b c|n b c] p]; cbn [fst snd] in *; subst; now v1. Qed.
  Lemma v_typed l l0 (x : pattern * nat) : Suffix l l0 -> Among l0 (snd x) -> V l (q_typed_pattern eof x) (fun _ y => Among l0 (snd y)).
  Proof.
    intros S H. unfold q_typed_pattern. v1. v1. ot; [|now v1]. v1. v1. eapply (v_bind _ (fun _ y => Among l (snd y))).
    - ot.
      + eapply v_bind; [apply v_name_pattern|]. intros l5 n ? ? E. v1. cbn [snd]. rewrite E. eapply among_suf; [|eapply took_among; eassumption]. eauto using suf_trans.
      + v1. v1. cbn [snd]. eapply among_suf; [|eassumption]. eauto using suf_trans.
    - intros l5 q ? ? Hq. v1. assert (Among l0 (snd q)) by (eapply among_suf; eassumption). destruct (fst x); auto.
  Qed.

  (** ** Lists of things *)
  Lemma v_nodes l (pn : token -> QM node) closer : (forall l t, Gone l t -> V l (pn t) all) -> V l (q_nodes_until pn closer) all.
  Proof.
    intro H. unfold q_nodes_until. v1. eapply (v_bind _ all); [|intros; now v1]. apply v_with_fuel. intro n. clear -HA H. revert l'. induction n as [|n IH]; intros l'; [apply v_fuel|]. cbn [q_nodes_loop].
    v1. ot; [|now v1]. v1; [now v1|]. eapply v_bind; [apply v_ok, H; eapply took_gone; eassumption|]. intros. eapply v_bind; [apply IH|]. intros. now v1.
  Qed.
  Lemma v_ellipsis (pn : token -> QM node) fuel : (forall l t, Gone l t -> V l (pn t) all) -> forall l, V l (q_ellipsis_loop pn fuel) all.
  Proof.
    intro H. induction fuel as [|n IH]; intro l; [apply v_fuel|]. cbn [q_ellipsis_loop].
    v1. ot; [|now v1]. eapply v_bind; [apply v_ok, H; eapply took_gone; eassumption|]. intros. eapply v_bind; [apply IH|]. intros. now v1.
  Qed.
  Lemma v_unmatched l t : V l (q_unmatched t) all.
  Proof. unfold q_unmatched. now v1. Qed.
  Inductive Chain {A} (P : list token -> list token -> A -> Prop) : list token -> list A -> Prop :=
  | ch_nil l : Chain P l []
  | ch_cons l l1 l2 a rest : Suffix l1 l -> Suffix l2 l1 -> P l1 l2 a -> Chain P l2 rest -> Chain P l (a :: rest).
  Lemma chain_suf {A} (P : list token -> list token -> A -> Prop) l l' r : Suffix l' l -> Chain P l' r -> Chain P l r.
  Proof. intros S H. destruct H as [l'|l' l1 l2 a r S1 S2 HP HC]; [constructor|]. apply (ch_cons _ _ l1 l2); auto. eapply suf_trans; eauto. Qed.
  Lemma chain_map {A B} (P : list token -> list token -> A -> Prop) (Q : list token -> list token -> B -> Prop) f l r : (forall l l' a, P l l' a -> Q l l' (f a)) -> Chain P l r -> Chain Q l (List.map f r).
  Proof. intros K. induction 1; cbn [List.map]; econstructor; eauto. Qed.
  Lemma v_separated {A} (P : list token -> list token -> A -> Prop) open (m : QM A) sep close : forall l, (forall l', Suffix l' l -> V l' m (P l')) ->
    V l (q_separated eof open m sep close) (fun _ r => Chain P l (fst r) /\ tk_kind (snd r) = close).
  Proof.
    intros l H. unfold q_separated. apply v_with_fuel. intro n. generalize false. revert l H. induction n as [|n IH]; intros l H b; [apply v_fuel|]. cbn [q_separated_loop].
    v1. eapply (v_bind _ (OptTook l' (fun t => tk_kind t = close))).
    - v1; [|apply v_poll_if_kind]. eapply v_weaken; [|apply v_ok, v_expect_kind]. intros l2 [?|] ? ?; cbn; auto.
    - intros l2 [c|] ? ? Hc; [v1; cbn [fst snd]; split; [constructor|apply Hc]|]. eapply v_bind; [apply v_map_err; [apply H; eauto using suf_trans|]|].
      + intros. eapply (v_bind _ all); [apply v_unmatched|]. intros. now v1.
      + intros l3 x ? ? Hx. v1. eapply (v_bind _ all).
        * v1; [now v1|]. v1. now v1.
        * intros. eapply v_bind; [apply IH; intros; apply H; eauto 8 using suf_trans|]. intros l6 r ? ? [Hr Hs]. v1. cbn [fst snd]. split; [|exact Hs]. apply (ch_cons _ _ l2 l3); [eauto using suf_trans|assumption|exact Hx|]. eapply chain_suf; [|exact Hr]. eauto using suf_trans.
  Qed.

  (** ** Templates *)
  Lemma v_template_loop decode open k fuel : forall l parts braces, V l (q_template_loop eof fuel decode open k parts braces) all.
  Proof.
    induction fuel as [|fuel IH]; intros l parts braces; [apply v_fuel|]. cbn [q_template_loop].
    eapply v_bind; [apply v_map_err; [apply v_expect_poll|intros; apply v_unmatched]|]. cbv zeta. intros l' tok S S' Htok.
    set (literal := match parts with (TPLit s, end_, _) :: before => _ | _ => _ end).
    assert (L : V l' literal all).
    { unfold literal. destruct parts as [|[[[] ?] ?] before]; try apply IH. v1; apply IH. }
    clearbody literal. destruct (tk_kind tok) eqn:Ek; auto.
    all: try (eapply (v_bind _ all); [now v1|]; intros; apply IH).
    - eapply v_bind; [apply v_unescape|]. intros. apply IH.
    - eapply v_bind; [apply v_entity|]. intros. apply IH.
    - eapply v_bind; [apply v_ok, v_name|]. intros ? [[n p]|] ? ? Hn; apply IH.
    - v1. apply IH.
    - destruct braces as [|b0 braces]; [eapply (v_bind _ all); [now v1|]; intros; apply IH|]. apply IH.
    - v1; [|exact L]. now v1.
  Qed.
  Lemma v_template l decode open k : V l (q_template_parts eof decode open k) (fun _ r => snd r = tk_start open).
  Proof.
    unfold q_template_parts. eapply v_bind; [apply v_with_fuel; intro; apply v_template_loop|]. intros l' [ps bs] S S' _. cbn [fst snd] in *.
    eapply (v_bind _ all); [|intros; now v1]. clear. revert l'. induction bs as [|b bs IH]; intro l'; cbn [q_report_unmatched]; [now v1|].
    eapply v_bind; [apply v_unmatched|]. intros. apply IH.
  Qed.
  Lemma v_template_regex parts : forall l re vars, V l (q_template_regex parts re vars) all.
  Proof.
    induction parts as [|[[s|c|[n|n b a|n b i]|] p] parts IH]; intros; cbn [q_template_regex]; auto; try now v1.
    all: eapply (v_bind _ all); [now v1|]; intros; apply IH.
  Qed.

  (** ** Arguments and parameters *)
  Definition ArgOf (l l' : list token) (x : arg * nat) : Prop :=
    let '(Arg name kind _, p) := x in
    Among l p /\ (name <> n_anonymous -> Between l l' (NameIs name) /\ Between l l' (Kind Equals)) /\ (kind = NamedSpread -> Between l l' (Kind DoubleAsterisk)).
  Definition EqDouble (t : token) : Prop := tk_kind t = Equals \/ tk_kind t = DoubleAsterisk.
  Lemma mem_add n m u : mem n (set_add m u) = true -> n = m \/ mem n u = true.
  Proof. unfold set_add. destruct (mem m u) eqn:E; [auto|]. unfold mem. rewrite existsb_app, orb_true_iff. cbn [existsb]. rewrite orb_false_r. intros [H|H]; [auto|left; now apply str_eqb_eq in H]. Qed.
  Lemma v_check_args lc l r : Suffix l T -> Chain ArgOf l r -> forall b u, (forall n, mem n u = true -> Past l (NameIs n)) -> (b = true -> Past l EqDouble) -> V lc (q_check_args r b u) all.
  Proof.
    intros S H. revert lc S. induction H as [l|l l1 l2 [[n k e] p] r S1 S2 (HA1 & HA2 & HA3) Hr IH]; intros lc S b u Hu Hb; cbn [q_check_args]; [now v1|].
    assert (S' : Suffix l1 T) by eauto using suf_trans. assert (S'' : Suffix l2 T) by eauto using suf_trans. assert (S3 : Suffix l2 l) by eauto using suf_trans. destruct (is_anonymous n) eqn:E; cbn [negb].
    - assert (Hb' : b = true -> Past l2 EqDouble) by (intro X; eapply past_suf; [exact S3|auto]). assert (Hu' : forall m, mem m u = true -> Past l2 (NameIs m)) by (intros; eapply past_suf; [exact S3|auto]).
      destruct k.
      1,2: (eapply (v_bind _ all); [|intros; now apply IH]); (v1; [v1|now v1]); cbn; (eapply past_earlier; [eapply past_suf; [exact S1|now apply Hb]|exact HA1]).
      apply IH; auto. intros _. eapply past_imp; [|eapply between_past; [exact S'|now apply HA3]]. unfold EqDouble, Kind. auto.
    - apply not_anon in E. destruct (HA2 E) as [N1 N2]. eapply (v_bind _ all).
      + v1; [v1|now v1]. cbn. eapply past_earlier; [eapply past_suf; [exact S1|now apply Hu]|exact HA1].
      + intros. apply IH; auto.
        * intros m Hm. apply mem_add in Hm as [->|Hm]; [eapply between_past; [exact S'|exact N1]|eapply past_suf; [exact S3|now apply Hu]].
        * intros _. eapply past_imp; [|eapply between_past; [exact S'|exact N2]]. unfold EqDouble, Kind. auto.
  Qed.
  Lemma v_named_args lc l r (K : Past l (fun t => LetKeyword t \/ tk_kind t = Kw KExport)) : Chain ArgOf l r -> V lc (q_named_args r) all.
  Proof.
    intro H. revert lc K. induction H as [l|l l1 l2 [[n k e] p] r S1 S2 (HA1 & HA2 & HA3) Hr IH]; intros lc K; cbn [q_named_args]; [now v1|].
    assert (K' : Past l2 (fun t => LetKeyword t \/ tk_kind t = Kw KExport)) by (eapply past_suf; [|exact K]; eauto using suf_trans).
    destruct k.
    - v1; [|eapply v_bind; [now apply IH|]; intros; now v1]. eapply (v_bind _ all); [v1|intros; now apply IH]. cbn. eapply past_earlier; [eapply past_suf; [exact S1|exact K]|exact HA1].
    - eapply (v_bind _ all); [|intros; now apply IH]. destruct (arg_positional _ _); now v1.
    - eapply (v_bind _ all); [|intros; now apply IH]. destruct (arg_positional _ _); now v1.
  Qed.
  Definition AttrOf (l l' : list token) (x : tag_attr * nat) : Prop :=
    match fst x with TAttr n _ _ => Among l (snd x) /\ Between l l' (NameIs n) | _ => True end.
  Lemma v_check_attrs lc l r : Suffix l T -> Chain AttrOf l r -> forall u, (forall n, mem n u = true -> Past l (NameIs n)) -> V lc (q_check_attrs r u) all.
  Proof.
    intros S H. revert lc S. induction H as [l|l l1 l2 [[n k e|e] p] r S1 S2 HP Hr IH]; intros lc S u Hu; cbn [q_check_attrs]; [now v1| |].
    - destruct HP as [P1 P2]. eapply (v_bind _ all).
      + v1; [v1|now v1]. cbn. eapply past_earlier; [eapply past_suf; [exact S1|now apply Hu]|exact P1].
      + intros. apply IH; [eauto using suf_trans|]. intros m Hm. apply mem_add in Hm as [->|Hm]; [eapply between_past; [|exact P2]; eauto using suf_trans|].
        eapply past_suf; [|now apply Hu]. eauto using suf_trans.
    - apply IH; [eauto using suf_trans|]. intros m Hm. eapply past_suf; [|now apply Hu]. eauto using suf_trans.
  Qed.
  Definition ParamOf (l l' : list token) (x : raw_param * nat) : Prop :=
    let '(Param n q _ _ d, kind, u, p) := x in
    Among l p /\ Between l l' (ParamIs n) /\ (q = true \/ is_some d = true -> Between l l' (fun t => tk_kind t = QuestionMark \/ tk_kind t = Equals)) /\
    (kind <> NoSpread -> Between l l' IsSpread) /\ (kind = NamedSpread -> Between l l' (Kind DoubleAsterisk)) /\
    (u = false -> Between l l' (fun t => tk_kind t = VarName /\ ~ Underscored t)).
  Definition SigInv (l : list token) (s : sigst) : Prop :=
    let '(SigSt any_named used any_opt any_opt_named _ sp _ sn) := s in
    (any_named = true -> Past l (fun t => (tk_kind t = VarName /\ ~ Underscored t) \/ tk_kind t = DoubleAsterisk)) /\
    (forall n, mem n used = true -> Past l (ParamIs n)) /\
    (any_opt = true \/ any_opt_named = true -> Past l (fun t => tk_kind t = QuestionMark \/ tk_kind t = Equals)) /\
    (sp = true \/ sn = true -> Past l IsSpread).
  Lemma inv_suf l l' s : Suffix l' l -> SigInv l s -> SigInv l' s.
  Proof. intros S. destruct s. intros (A & B & C & D). repeat split; intros; (eapply past_suf; [exact S|auto]). Qed.
  Lemma v_check_param lc l l' r p s : Suffix l T -> Suffix l' l -> ParamOf l l' (r, p) -> SigInv l s -> V lc (qat p (check_param r s)) (fun _ s' => SigInv l' s').
  Proof.
    intros S S' HP HI. assert (HI' := inv_suf _ _ _ S' HI). apply v_at. intros _. destruct r as [[[n q i t d] k] u]. destruct s as [an used ao aon np sp nn sn].
    destruct HP as (P1 & P2 & P3 & P4 & P5 & P6). destruct HI as (I1 & I2 & I3 & I4). destruct HI' as (J1 & J2 & J3 & J4).
    unfold check_param. cbv zeta. set (pos := if match k with NoSpread => false | _ => true end then _ else _). set (req := negb _ && negb q && _).
    match goal with |- match pbind ?m _ _ with _ => _ end => set (first := m) end.
    assert (F : exists ds, first (PState lc []) = POk tt (PState lc ds) /\ Forall (fun e => Preceded T e p) ds).
    { unfold first, serr, preport, pret. cbn [ps_tokens ps_diags app].
      destruct (mem n used) eqn:E1; [eexists; split; [reflexivity|]; constructor; [|constructor]; cbn; eapply past_earlier; [now apply I2|exact P1]|].
      destruct (pos && an) eqn:E2; [eexists; split; [reflexivity|]; constructor; [|constructor]; apply andb_true_iff in E2 as [_ E2]; cbn; eapply past_earlier; [now apply I1|exact P1]|].
      destruct (req && _) eqn:E3; [eexists; split; [reflexivity|]; constructor; [|constructor]; apply andb_true_iff in E3 as [_ E3]; cbn; eapply past_earlier; [apply I3; destruct pos; auto|exact P1]|].
      destruct (pos && i); [eexists; split; [reflexivity|]; repeat constructor|].
      destruct (_ && i); [eexists; split; [reflexivity|]; repeat constructor|].
      destruct (i && _); [eexists; split; [reflexivity|]; repeat constructor|].
      destruct ((pos && sp) || _) eqn:E4; [|eexists; split; [reflexivity|]; constructor].
      eexists; split; [reflexivity|]; constructor; [|constructor]. assert (Earlier T IsSpread p) as X.
      { eapply past_earlier; [apply I4|exact P1]. apply orb_true_iff in E4 as [E4|E4]; apply andb_true_iff in E4 as [_ E4]; auto. }
      destruct k; cbn; auto. }
    destruct F as (ds & F & FD). unfold pbind at 1. rewrite F. clearbody first. clear F.
    assert (U : forall m, mem m (set_add n used) = true -> Past l' (ParamIs m)).
    { intros m Hm. apply mem_add in Hm as [->|Hm]; [eapply between_past; [exact S|exact P2]|auto]. }
    unfold pos, req, pbind, serr, preport, pret. destruct k.
    - cbn [negb andb]. assert (O : negb (negb q && negb (is_some d)) = true -> Past l' (fun t => tk_kind t = QuestionMark \/ tk_kind t = Equals)).
      { intro X. eapply between_past; [exact S|]. apply P3. destruct q; [auto|]. destruct (is_some d); [auto|discriminate]. }
      destruct u; cbn [ps_tokens ps_diags SigInv]; repeat split; auto with ord.
      + intros [X|X]; [apply orb_true_iff in X as [X|X]|]; auto.
      + intros _. eapply past_imp; [|eapply between_past; [exact S|now apply P6]]. auto.
      + intros [X|X]; [|apply orb_true_iff in X as [X|X]]; auto.
    - destruct u; cbn [ps_tokens ps_diags SigInv]; repeat split; auto with ord.
      + intros _. eapply between_past; [exact S|]. now apply P4.
      + intros _. eapply between_past; [exact S|]. now apply P4.
      + apply Forall_app. split; [exact FD|]. repeat constructor.
    - assert (X : Past l' (fun t => (tk_kind t = VarName /\ ~ Underscored t) \/ tk_kind t = DoubleAsterisk)) by (eapply past_imp; [|eapply between_past; [exact S|now apply P5]]; unfold Kind; auto).
      destruct u; cbn [ps_tokens ps_diags SigInv]; repeat split; auto with ord.
      + intros _. eapply between_past; [exact S|]. now apply P4.
      + apply Forall_app. split; [exact FD|]. repeat constructor.
      + intros _. eapply between_past; [exact S|]. now apply P4.
  Qed.
  Lemma v_check_params lc l r : Suffix l T -> Chain ParamOf l r -> forall s, SigInv l s -> V lc (q_check_params r s) all.
  Proof.
    intros S H. revert lc S. induction H as [l|l l1 l2 [r0 p] r S1 S2 HP Hr IH]; intros lc S s HI; cbn [q_check_params]; [now v1|].
    eapply v_bind; [eapply v_check_param; [|exact S2|exact HP|eapply inv_suf; [exact S1|exact HI]]; eauto using suf_trans|]. cbn beta. intros. apply IH; [eauto using suf_trans|assumption].
  Qed.

  (** ** Patterns *)
  Definition PosOf (l l' : list token) (x : pos_pattern * nat) : Prop := snd (fst x) = true -> Leading l l' SpreadOrRest (snd x).
  Lemma v_spread_index lc l r : Suffix l T -> Chain PosOf l r -> forall i o, (is_some o = true -> Past l SpreadOrRest) -> V lc (q_spread_index r i o) all.
  Proof.
    intros S H. revert lc S. induction H as [l|l l1 l2 [[x [|]] p] r S1 S2 HP Hr IH]; intros lc S i o Ho; cbn [q_spread_index]; [now v1| |].
    - assert (S' : Suffix l1 T) by eauto using suf_trans. specialize (HP eq_refl). cbn [snd] in HP. eapply (v_bind _ all).
      + v1; [v1|now v1]. cbn. eapply past_twice; [exact S'|eapply past_suf; [exact S1|now apply Ho]|exact HP].
      + intros. apply IH; [eauto using suf_trans|]. intros _. eapply leading_past; [exact S'|exact HP].
    - apply IH; [eauto using suf_trans|]. intro X. eapply past_suf; [|now apply Ho]. eauto using suf_trans.
  Qed.
  Lemma v_check_html lc (r : list (pos_pattern * nat)) : V lc (q_check_html r) all.
  Proof. revert lc. induction r as [|[[x b] p] r IH]; intro lc; cbn [q_check_html]; [now v1|]. eapply (v_bind _ all); [|intros; apply IH]. v1; now v1. Qed.
  Definition NamedOf (l l' : list token) (x : named_pattern * nat) : Prop :=
    Among l (snd x) /\ Leading l l' (match fst (fst x) with Some n => NameIs n | None => SpreadOrRest end) (snd x).
  Lemma has_insert (m : nmap pattern) k v n : nhas (ninsert m k v) n = true -> n = k \/ nhas m n = true.
  Proof.
    unfold nhas. induction m as [|[k' v'] m IH]; cbn [ninsert ngetm].
    - destruct (str_eqb n k) eqn:E; [apply str_eqb_eq in E; auto|discriminate].
    - destruct (str_eqb k k') eqn:E; cbn [ngetm]; destruct (str_eqb n k') eqn:E2; auto.
  Qed.
  Lemma v_make_dict lc l0 l r start b : Suffix l T -> Suffix l l0 -> Chain NamedOf l r -> Among l0 start -> V lc (q_make_dict r start b) (fun _ x => Among l0 (snd x)).
  Proof.
    intros S S0 H A0. unfold q_make_dict. eapply (v_bind _ (fun _ r => fst (snd r) = None \/ Among l0 (snd (snd r)))).
    - assert (K : fst (None : option pattern, 0) = None \/ Among l0 (snd (None : option pattern, 0))) by now left.
      assert (K1 : is_some (fst (None : option pattern, 0)) = true -> Past l SpreadOrRest) by discriminate.
      assert (K2 : forall n, nhas (@nil (str * pattern)) n = true -> Past l (NameIs n)) by discriminate.
      revert K K1 K2. generalize (None : option pattern, 0). generalize (@nil (str * pattern)). revert lc S S0.
      induction H as [l|l l1 l2 [[[n|] x] p] r S1 S2 [HP1 HP] Hr IH]; intros lc S S0 attrs sp K K1 K2; cbn [q_dict_parts]; [now v1| |]; cbn [fst snd] in *.
      + assert (S' : Suffix l1 T) by eauto using suf_trans. assert (S3 : Suffix l2 l) by eauto using suf_trans.
        v1; (eapply (v_bind _ all); [|intros; apply IH; eauto using suf_trans]).
        * v1. cbn. eapply past_twice; [exact S'|eapply past_suf; [exact S1|now apply K1]|]. destruct HP as (t & X1 & [X2 _] & X3). exists t. split; [exact X1|]. split; [exact X2|exact X3].
        * intro X. eapply past_suf; [exact S3|now apply K1].
        * intros m X. eapply past_suf; [exact S3|now apply K2].
        * v1; [v1|now v1]. cbn. eapply past_twice; [exact S'|eapply past_suf; [exact S1|now apply K2]|exact HP].
        * intro X. eapply past_suf; [exact S3|now apply K1].
        * intros m X. apply has_insert in X as [->|X]; [eapply leading_past; [exact S'|exact HP]|eapply past_suf; [exact S3|now apply K2]].
      + assert (S' : Suffix l1 T) by eauto using suf_trans. assert (S3 : Suffix l2 l) by eauto using suf_trans. eapply (v_bind _ all).
        * v1; [v1|now v1]. cbn. right. eapply past_twice; [exact S'|eapply past_suf; [exact S1|now apply K1]|exact HP].
        * intros. apply IH; eauto using suf_trans.
          -- right. cbn [snd]. eapply among_suf; [|exact HP1]. eauto using suf_trans.
          -- intros _. eapply leading_past; [exact S'|exact HP].
          -- intros m X. eapply past_suf; [exact S3|now apply K2].
    - intros l' [attrs [[x|] p]] ? ? K; cbn [fst snd] in K; destruct attrs; try (apply v_ret; exact A0). v1; v1; [|exact A0]. destruct K as [K|K]; [discriminate|exact K].
  Qed.

  Section Step.
    Variables (src : str) (decode : str -> str) (regex_ok : str -> bool) (Q : qparsers).
    Hypothesis HE : forall l t, Gone l t -> V l (qr_expr_tok Q t) (fun _ x => snd x = tk_start t).
    Hypothesis HP : forall l, V l (qr_pattern Q) (fun _ x => Among l (snd x)).
    Hypothesis HN : forall l t, Gone l t -> V l (qr_node Q t) all.
    Lemma v_expr l : V l (q_expr eof Q) (fun _ x => Among l (snd x)).
    Proof.
      unfold q_expr. v1. v1. eapply v_weaken; [|apply HE; eapply took_gone; eassumption]. cbn beta. intros ? ? ? ? ->. eapply among_suf; [|eapply took_among; eassumption]. eauto using suf_trans.
    Qed.
    #[local] Hint Resolve v_expr HP : vh.
    Lemma v_expr_or_ellipsis l : V l (q_expr_or_ellipsis eof Q) (fun _ x => Among l (snd x)).
    Proof.
      unfold q_expr_or_ellipsis. v1. v1. ot.
      - unfold q_ellipsis_group. eapply (v_bind _ all); [apply v_with_fuel; intro; now apply v_ellipsis|]. intros. v1. cbn [snd]. eapply among_suf; [|eapply took_among; eassumption]. eauto using suf_trans.
      - eapply v_weaken; [|apply v_expr]. cbn beta. intros. eapply among_suf; [|eassumption]. eauto using suf_trans.
    Qed.
    Lemma v_group l t : V l (q_group Q t) (fun _ x => snd x = tk_start t).
    Proof.
      unfold q_group. eapply v_bind; [now apply v_nodes|]. intros. eapply (v_bind _ all); [|intros; now v1].
      v1; [now v1|]. apply v_unmatched.
    Qed.
    Lemma took_suf l0 l1 l2 l3 t : Suffix l1 l0 -> Suffix l3 l2 -> Took l1 l2 t -> Took l0 l3 t.
    Proof. intros S S' (A & B). split; [now apply (suf_in l0 l1)|]. intros u Hu. apply B. now apply (suf_in l2 l3). Qed.
    Ltac suf := first [assumption | apply suf_refl | match goal with H : Suffix ?a ?c |- Suffix ?a ?b => tryif constr_eq c T then fail else (apply (suf_trans a c b H); suf) end].
    Lemma v_arg l : V l (q_arg eof Q) (fun l' x => ArgOf l l' x).
    Proof.
      unfold q_arg. v1. v1. destruct a0 as [k o]. unfold SpreadOf in *. cbn [fst snd] in *. match goal with H : match o with _ => _ end |- _ => rename H into SP end. v1. v1.
      assert (D : forall lf, Suffix lf l'2 -> k = NamedSpread -> Between l lf (Kind DoubleAsterisk)).
      { intros lf Sf ->. destruct o as [p|]; [|discriminate]. destruct SP as (t & Ht & _ & _ & _ & K). eapply took_between; [eapply took_suf; [| |exact Ht]; suf|now apply K]. }
      assert (ST : forall t, In t l'1 -> Among l (start_or o (tk_start t))).
      { intros t Ht. destruct o as [p|]; cbn [start_or].
        - destruct SP as (t' & [Ht' _] & <- & _). exists t'. split; [|reflexivity]. eapply suf_in; [|exact Ht']. suf.
        - exists t. split; [|reflexivity]. eapply suf_in; [|exact Ht]. suf. }
      ot.
      - cbv zeta. match goal with H : Took _ _ t |- _ => rename H into Tt end. v1. v1. ot.
        + match goal with H : Took _ _ t0 |- _ => rename H into Te end. eapply (v_bind _ all).
          * destruct o as [p|]; now v1.
          * intros. v1. v1. v1. cbn [ArgOf]. split; [apply ST; apply Tt|]. split; [|discriminate]. intros _.
            match goal with H : _ \/ _ \/ tk_kind t = FuncName |- _ => rename H into N0 end.
            match type of N0 with (_ /\ ?x = _) \/ _ => assert (x = tk_text t) as -> by (destruct N0 as [[_ ?]|[[? _]|?]]; congruence) end. split.
            -- eapply took_between; [eapply took_suf; [| |exact Tt]; suf|now split].
            -- eapply took_between; [eapply took_suf; [| |exact Te]; suf|assumption].
        + v1. cbn [ArgOf]. split; [apply ST; apply Tt|]. split; [congruence|]. intro. apply D; [suf|assumption].
      - v1. v1. cbn [ArgOf fst snd]. split; [|split; [congruence|]].
        + match goal with H : Among _ (snd _) |- _ => destruct H as (t & Ht & <-) end. apply ST. eapply suf_in; [|exact Ht]. suf.
        + intro. apply D; [suf|assumption].
    Qed.
    Lemma v_args l : V l (q_args eof Q) (fun _ x => Chain ArgOf l x).
    Proof.
      unfold q_args. v1. v1. ot; [|v1; constructor]. eapply v_bind; [apply v_separated; intros; apply v_arg|]. cbn beta. intros l2 [r c] S S2 [Hr Hc]. cbn [fst snd] in *.
      eapply v_bind; [eapply v_check_args; [exact S|exact Hr|discriminate|discriminate]|]. intros. v1. eapply chain_suf; [|exact Hr]. suf.
    Qed.
    Lemma v_list_item l : Past l (Kind LSqb) -> V l (q_list_item eof Q) all.
    Proof.
      intro K. unfold q_list_item. eapply v_bind; [apply v_arg|]. cbn beta. intros l' [[n k v] p] S S' (H & _). eapply (v_bind _ all); [|intros; now v1]. destruct k; [| |now v1]; (v1; [now v1|]; v1; cbn; eapply past_earlier; eassumption).
    Qed.
    Lemma v_list l t : Gone l t -> tk_kind t = LSqb -> V l (q_list eof Q t) (fun _ x => snd x = tk_start t).
    Proof.
      intros G E. unfold q_list. eapply v_bind; [apply (v_separated (fun _ _ => fun _ => True)); intros; eapply v_weaken; [|apply v_list_item]; [easy|]|].
      - eapply gone_past; [|exact E]. eapply gone_suf; eassumption.
      - intros. now v1.
    Qed.

    Definition ParamOf' (l l' : list token) (x : raw_param * nat * nat) : Prop :=
      ParamOf l l' (fst x) /\ (let '(Param _ _ _ _ d, _, _, _, p) := x in is_some d = true -> Twice T (Kind VarName) (Kind Equals) p).
    Lemma v_param l : V l (q_param eof Q) (fun l' x => ParamOf' l l' x).
    Proof.
      unfold q_param. v1. v1. destruct a0 as [k o]. unfold SpreadOf in *. cbn [fst snd] in *. match goal with H : match o with _ => _ end |- _ => rename H into SP end. v1. v1.
      match goal with H : Took _ _ a1 |- _ => rename H into Tn end. match goal with H : tk_kind a1 = VarName |- _ => rename H into Kn end.
      v1. match goal with H : _ \/ _ \/ tk_kind a1 = FuncName |- _ => rename H into N0 end. cbv zeta. v1. v1. match goal with H : OptTook _ _ _ a4 |- _ => rename H into OQ end. v1. v1.
      eapply (v_bind _ all).
      { v1; [|now v1]. v1. v1. eapply v_bind; [apply v_ok, v_type|]. intros. now v1. }
      intros lm [i ty] ? ? _. v1. v1. match goal with H : OptTook _ _ _ a8 |- _ => rename H into OE end.
      assert (TN : In a1 T) by (eapply suf_in; [|apply Tn]; suf).
      eapply (v_bind _ (fun l9 d => is_some (fst d) = true -> Between l l9 (Kind Equals) /\ exists te, In te T /\ tk_kind te = Equals /\ tk_start a1 < tk_start te /\ tk_start te <= snd d /\ forall s, o = Some s -> s < tk_start te)).
      { v1; [|v1; discriminate]. v1. ot; [|discriminate]. v1. cbn [fst snd]. intros _.
        match goal with H : Took _ _ t |- _ => rename H into Te end. match goal with H : tk_kind t = Equals |- _ => rename H into Ke end.
        split; [eapply took_between; [eapply took_suf; [| |exact Te]; suf|exact Ke]|]. exists t.
        split; [eapply suf_in; [|apply Te]; suf|]. split; [exact Ke|]. split; [apply (proj2 Tn); eapply suf_in; [|apply Te]; suf|]. split.
        - match goal with H : Among _ (snd _) |- _ => destruct H as (u & Hu & <-) end. apply Nat.lt_le_incl. now apply (proj2 Te).
        - intros s ->. destruct SP as (u & Hu & <- & _). apply (proj2 Hu). eapply suf_in; [|apply Te]. suf. }
      intros l9 [d dp] ? ? Hd. cbn [fst snd] in *. eapply (v_bind _ all).
      { v1; [v1|now v1]. match goal with H : _ && _ = true |- _ => apply andb_true_iff in H as [D1 D2] end. destruct (Hd D1) as (_ & te & E1 & E2 & E3 & E4 & E5).
        destruct o as [p|]; [|subst k; discriminate]. destruct SP as (u & Hu & Eu & Iu & _). exists u, te. refine (conj _ (conj E1 (conj Iu (conj E2 (conj _ E4))))); [eapply suf_in; [|apply Hu]; suf|]. rewrite Eu. now apply E5. }
      intros l10 ? ? ? ?. v1. cbn [fst snd]. split; cbn [fst snd].
      - rewrite Kn in N0. destruct N0 as [[N0 _]|[[_ N0]|N0]]; try discriminate. destruct (proj2 (HT _ TN) Kn) as [n En].
        assert (Bn : forall R : token -> Prop, R a1 -> Between l l10 R) by (intros R HR; eapply took_between; [eapply took_suf; [| |exact Tn]; suf|exact HR]).
        cbn [ParamOf]. split; [|split; [|split; [|split; [|split]]]].
        + destruct o as [p|]; cbn [start_or]; [destruct SP as (u & Hu & <- & _); exists u; split; [eapply suf_in; [|apply Hu]|reflexivity]|exists a1; split; [eapply suf_in; [|apply Tn]|reflexivity]]; suf.
        + apply Bn. split; [exact Kn|]. rewrite N0, En. reflexivity.
        + intros [X|X].
          * destruct a4 as [tq|]; [|discriminate]. destruct OQ as [Tq Kq]. eapply took_between; [eapply took_suf; [| |exact Tq]; suf|auto].
          * destruct (Hd X) as [Be _]. eapply between_suf; [apply suf_refl| |]; [|destruct Be as (te & Y1 & Y2 & Y3); exists te; split; [exact Y1|]; split; [right; exact Y2|exact Y3]]. assumption.
        + intro X. destruct o as [p|]; [|congruence]. destruct SP as (u & Hu & _ & Iu & _). eapply took_between; [eapply took_suf; [| |exact Hu]; suf|exact Iu].
        + intros ->. destruct o as [p|]; [|discriminate]. destruct SP as (u & Hu & _ & _ & _ & Iu). eapply took_between; [eapply took_suf; [| |exact Hu]; suf|now apply Iu].
        + intro X. apply Bn. split; [exact Kn|]. intros [_ [s Es]]. rewrite Es in X. discriminate.
      - intro X. destruct (Hd X) as (_ & te & E1 & E2 & E3 & E4 & E5). exists a1, te. repeat split; auto.
    Qed.
    Lemma v_signature l : V l (q_signature eof Q) all.
    Proof.
      unfold q_signature. v1. v1. eapply (v_bind _ all).
      - ot; [|now v1]. eapply v_bind; [apply v_separated; intros; apply v_param|]. cbn beta. intros l2 [r c] S S2 [Hr Hc]. cbn [fst snd] in *.
        eapply v_bind; [eapply v_check_params; [exact S| |]|].
        + eapply chain_map; [|exact Hr]. intros ? ? ? [X _]. exact X.
        + cbn [SigInv sigst0]. repeat split; try discriminate; intros [X|X]; discriminate.
        + intros. now v1.
      - intros l2 [ps s] ? ? _. v1. v1. v1; [now v1|]. eapply v_bind; [apply v_param|]. cbn beta. intros l5 [[[[[n q i t d] k] u] p] ds] ? ? [A B]. cbn [fst snd] in *.
        eapply (v_bind _ all); [|intros; now v1]. destruct k; [|now v1..]. v1; [v1|now v1]. cbn. now apply B.
    Qed.
    #[local] Hint Resolve v_signature v_arg v_args v_expr_or_ellipsis : vh.
    Lemma v_func_def l t b : V l (q_func_def eof Q t b) (fun _ x => snd x = tk_start t).
    Proof.
      unfold q_func_def. v1. v1. eapply (v_bind _ all).
      - destruct a0; [eapply v_weaken; [|apply v_name_id]; easy|now v1].
      - intros. v1. v1. v1. v1. v1; now v1.
    Qed.
    Lemma v_func_call l t : V l (q_func_call eof src Q t) (fun _ x => snd x = tk_start t).
    Proof. unfold q_func_call. v1. v1. v1. v1. assumption. Qed.
    Lemma v_some_named l t : Gone l t -> LetKeyword t \/ tk_kind t = Kw KExport -> V l (q_some_named_args eof Q t) all.
    Proof.
      intros A B. unfold q_some_named_args. v1. destruct a as [|x r]; [now v1|]. eapply v_named_args; [|eassumption]. eapply gone_past; [exact A|exact B].
    Qed.
    Lemma v_let l t b : Gone l t -> LetKeyword t -> V l (q_let_in eof Q t b) (fun _ x => snd x = tk_start t).
    Proof.
      intros A B. unfold q_let_in. eapply v_bind; [apply v_some_named; auto|]. intros. v1. eapply (v_bind _ all); [|intros; now v1].
      v1; [v1|now v1]. cbn. match goal with H : Among _ _ |- _ => eapply past_earlier; [|exact H] end. eapply gone_past; [|exact B]. eapply gone_suf; [|exact A]. suf.
    Qed.
    Lemma v_export l t : Gone l t -> tk_kind t = Kw KExport -> V l (q_export eof Q t) all.
    Proof.
      intros A B. unfold q_export. v1. v1. ot; [eapply v_bind; [apply v_func_def|]; intros; now v1|]. v1. ot.
      - eapply v_bind; [apply v_let; [|left; assumption]|intros; now v1]. eapply took_gone; eassumption.
      - eapply v_bind; [apply v_some_named; [|now right]|]; [eapply gone_suf; [|exact A]; suf|]. intros. v1. v1. now v1.
    Qed.
    Lemma v_tag_attr l : V l (q_tag_attribute eof Q) (fun l' x => AttrOf l l' x).
    Proof.
      unfold q_tag_attribute. v1. v1. destruct (fst a0); [|v1; now v1..]. v1. v1. match goal with H : Took _ _ a2 |- _ => rename H into Tn end. match goal with H : tk_kind a2 = Name |- _ => rename H into Kn end.
      v1. match goal with H : _ \/ _ \/ tk_kind a2 = FuncName |- _ => rename H into N0 end. v1. v1. v1. v1.
      assert (Nn : tk_text a2 = a3) by (destruct N0 as [[_ ?]|[[? _]|?]]; congruence).
      assert (Ok : forall lf, Suffix lf l'3 -> Among l (tk_start a2) /\ Between l lf (NameIs a3)).
      { intros lf Sf. split; [exists a2; split; [|reflexivity]; eapply suf_in; [|apply Tn]; suf|]. eapply took_between; [eapply took_suf; [| |exact Tn]; suf|now split]. }
      v1; [v1; v1; apply Ok; suf|]. destruct a5 as [q|]; [|v1; apply Ok; suf]. v1. cbn.
      match goal with H : OptTook _ _ _ (Some q) |- _ => destruct H as [Tq _] end. exists a2. split; [eapply suf_in; [|apply Tn]; suf|]. split; [exact Kn|]. apply (proj2 Tn). eapply suf_in; [|apply Tq]. suf.
    Qed.
    Lemma v_tag l t : V l (q_tag eof Q t) (fun _ x => snd x = tk_start t).
    Proof.
      unfold q_tag. v1. eapply (v_bind _ all).
      - destruct (tk_kind a); try v1; try now v1. v1; now v1.
      - intros l2 [name id] ? ? _. eapply v_bind; [apply v_separated; intros; apply v_tag_attr|]. cbn beta. intros l3 [r c] S3 S4 [Hr Hc]. cbn [fst snd] in *. eapply v_bind; [eapply v_check_attrs; [exact S3|exact Hr|discriminate]|].
        intros. v1; [now v1|]. eapply v_bind; [now apply v_nodes|]. intros ? [ch [cl|]] ? ? _; now v1.
    Qed.
    Lemma v_positional l : V l (q_positional_pattern Q) (fun l' x => PosOf l l' x).
    Proof.
      unfold q_positional_pattern. v1. v1. ot.
      - v1. intros _. cbn [snd]. match goal with H : Took _ _ t |- _ => destruct H as [X Y] end. exists t. split; [eapply suf_in; [|exact X]; suf|]. split; [right; assumption|]. auto.
      - v1. v1. v1. unfold PosOf. cbn [fst snd]. match goal with H : SpreadOf _ _ ?x |- _ => rename H into SP; rename x into sp end. destruct sp as [k [p|]]; unfold SpreadOf in SP; cbn [fst snd] in *; [|subst k; discriminate]. intros _.
        destruct SP as (u & [X Y] & _ & Iu & _). eapply between_leading; [|eassumption|assumption]. exists u. split; [eapply suf_in; [|exact X]; suf|]. split; [left; exact Iu|exact Y].
    Qed.
    Lemma v_named_pattern l b : V l (q_named_pattern eof Q b) (fun l' x => NamedOf l l' x).
    Proof.
      unfold q_named_pattern. v1. v1. ot.
      - v1. unfold NamedOf. cbn [fst snd]. match goal with H : Took _ _ t |- _ => destruct H as [X Y] end. assert (In t l) by (eapply suf_in; [|exact X]; suf). split; [now exists t|].
        exists t. split; [assumption|]. split; [right; assumption|]. auto.
      - v1. match goal with H : SpreadOf _ _ ?x |- _ => rename H into SP; rename x into sp end.
        assert (Sp : fst sp <> NoSpread -> V l'1 (do* x <- qr_pattern Q; qret (None, fst x, snd x)) (fun l' x => NamedOf l l' x)).
        { intro Ne. v1. v1. unfold NamedOf. cbn [fst snd]. destruct sp as [k [p|]]; unfold SpreadOf in SP; cbn [fst snd] in *; [|subst k; congruence].
          destruct SP as (u & [X Y] & _ & Iu & _). split; [eapply among_suf; [|eassumption]; suf|]. eapply between_leading; [|eassumption|assumption]. exists u. split; [eapply suf_in; [|exact X]; suf|]. split; [left; exact Iu|exact Y]. }
        destruct (fst sp); [|apply Sp; discriminate..]. clear Sp SP. v1. match goal with H : Took _ _ ?x |- _ => rename H into Tn; rename x into nt end. match goal with H : tk_kind nt = Name |- _ => rename H into Kn end.
        eapply (v_bind _ all); [v1; now v1|]. intros. v1. eapply (v_bind _ all).
        { v1; [eapply v_any; apply v_poll_if_kind|eapply v_any; apply v_ok, v_expect_kind]. }
        intros. v1. match goal with H : _ \/ _ \/ tk_kind nt = FuncName |- _ => rename H into N0 end. match type of N0 with (_ /\ ?x = _) \/ _ => rename x into nm end. assert (Nn : tk_text nt = nm) by (destruct N0 as [[_ ?]|[[? _]|?]]; congruence).
        match goal with |- V ?l1 _ _ => eapply (v_bind _ (fun l' x => snd x = tk_start nt \/ Among l1 (snd x))) end.
        + v1; [eapply v_weaken; [|apply HP]; cbn beta; auto|]. v1. now left.
        + intros lz x ? ? Hx. v1. unfold NamedOf. cbn [fst snd]. assert (In nt l) by (eapply suf_in; [|apply Tn]; suf). destruct Hx as [->|Hx].
          * split; [now exists nt|]. exists nt. split; [assumption|]. split; [now split|]. split; [reflexivity|]. intros v Hv. apply (proj2 Tn). eapply suf_in; [|exact Hv]. suf.
          * split; [eapply among_suf; [|exact Hx]; suf|]. eapply between_leading; [|exact Hx|assumption]. exists nt. split; [assumption|]. split; [now split|]. intros v Hv. apply (proj2 Tn). eapply suf_in; [|exact Hv]. suf.
    Qed.
    Lemma v_seq_pattern l t sep close : V l (q_seq_pattern eof Q t sep close) (fun _ x => snd x = tk_start t).
    Proof.
      unfold q_seq_pattern. eapply v_bind; [apply v_separated; intros; apply v_positional|]. cbn beta. intros l2 [r c] S S2 [Hr Hc]. cbn [fst snd] in *. cbv zeta.
      eapply v_bind; [eapply v_spread_index; [exact S|exact Hr|discriminate]|]. intros. eapply (v_bind _ all); [v1; [now v1|apply v_check_html]|]. intros. now v1.
    Qed.
    Lemma v_dict_pattern l0 l t : Took l0 l t -> Suffix l l0 -> V l (q_dict_pattern eof Q t) (fun _ x => Among l0 (snd x)).
    Proof.
      intros A B. unfold q_dict_pattern. eapply v_bind; [apply v_separated; intros; apply v_named_pattern|]. cbn beta. intros l2 [r c] S S2 [Hr Hc]. cbn [fst snd] in *.
      eapply v_make_dict; [exact S|exact B|exact Hr|]. eapply took_among; exact A.
    Qed.
    Lemma v_tag_pattern l t : Gone l t -> tk_kind t = LAngle -> V l (q_tag_pattern eof Q t) (fun _ x => snd x = tk_start t).
    Proof.
      intros A B. unfold q_tag_pattern, q_unexpected. v1. eapply (v_bind _ all).
      - destruct (tk_kind a) eqn:Ek; try now v1; try (v1; now v1).
        eapply v_bind; [apply v_name_pattern|]. intros. now v1.
      - intros l2 [name id] ? ? _. eapply v_bind; [apply v_separated; intros; apply v_named_pattern|]. cbn beta. intros l3 [r c] S S2 [Hr Hc]. cbn [fst snd] in *.
        eapply (v_bind _ all); [eapply v_any; eapply (v_make_dict _ (t :: l2)); [exact S|auto using suf_cons|exact Hr|exists t; split; [now left|reflexivity]]|]. intros. v1.
        eapply (v_bind _ (fun _ r => tk_kind (snd r) = CloseTag -> Among l (tk_start (snd r)))).
        + v1; [v1; cbn [snd]; congruence|]. v1. ot; [v1; intros _; cbn [snd]; eapply among_suf; [|eapply took_among; eassumption]; suf|]. v1. v1. v1. v1. intros _. cbn [snd]. eapply among_suf; [|eapply took_among; eassumption]. suf.
        + intros l9 [content close] ? ? Hcl. cbn [snd] in Hcl. eapply (v_bind _ all); [v1; [v1|now v1]|intros; now v1]. cbn.
          match goal with H : _ && _ = true |- _ => apply andb_true_iff in H as [H _]; apply kind_is in H; rename H into Kc end. eapply past_earlier; [eapply gone_past; [exact A|exact B]|now apply Hcl].
    Qed.
    Lemma v_template_pattern l t k : V l (q_template_pattern eof decode regex_ok t k) (fun _ x => snd x = tk_start t).
    Proof.
      unfold q_template_pattern. eapply v_bind; [apply v_template|]. cbn beta. intros l2 [r p] ? ? E. cbn [fst snd] in *. subst. cbv zeta.
      v1; [now v1|]. eapply v_bind; [apply v_template_regex|]. intros. v1; [now v1|apply v_ice].
    Qed.
    Lemma v_primary l : V l (q_primary_pattern eof decode regex_ok Q) (fun _ x => Among l (snd x)).
    Proof.
      unfold q_primary_pattern, q_unexpected. v1. v1. match goal with H : Took _ _ a0 |- _ => rename H into Tt end.
      assert (G : Gone l'0 a0) by (eapply took_gone; eassumption).
      assert (Am : Among l (tk_start a0)) by (eapply among_suf; [|eapply took_among; exact Tt]; suf).
      assert (Mine : forall m : QM (pattern * nat), V l'0 m (fun _ x => snd x = tk_start a0) -> V l'0 m (fun _ x => Among l (snd x))).
      { intros m Hm. eapply v_weaken; [|exact Hm]. cbn beta. intros ? ? ? ? ->. exact Am. }
      assert (Ex : V l'0 (do* e <- qr_expr_tok Q a0; qret (PEquals (fst e), snd e)) (fun _ x => Among l (snd x))).
      { apply Mine. eapply v_bind; [apply HE; exact G|]. intros. v1. assumption. }
      destruct (tk_kind a0) eqn:Ek; try exact Ex; try (now v1).
      - eapply v_bind; [apply v_name_pattern|]. cbn beta. intros ? n ? ? En. apply v_typed; [suf|]. cbn [snd]. rewrite En. exact Am.
      - eapply v_dict_pattern; [eapply took_suf; [| |exact Tt]; suf|suf].
      - apply Mine, v_seq_pattern.
      - apply Mine, v_seq_pattern.
      - apply Mine. now apply v_tag_pattern.
      - v1. v1. cbn [snd]. eapply among_suf; [|eassumption]. suf.
      - apply Mine, v_template_pattern.
      - apply v_typed; [suf|exact Am].
    Qed.
    Lemma v_and_loop fuel : forall l x (R : nat -> Prop), R (snd x) -> V l (q_and_loop eof decode regex_ok Q fuel x) (fun _ y => R (snd y)).
    Proof.
      induction fuel as [|fuel IH]; intros l x R H; [apply v_fuel|]. cbn [q_and_loop]. v1. v1. v1; [|now v1]. eapply v_bind; [apply v_primary|]. intros. now apply IH.
    Qed.
    Lemma v_and l : V l (q_and_pattern eof decode regex_ok Q) (fun _ x => Among l (snd x)).
    Proof. unfold q_and_pattern. eapply v_bind; [apply v_primary|]. intros. apply v_with_fuel. intro. now apply v_and_loop. Qed.
    Lemma v_or_loop fuel : forall l x (R : nat -> Prop), R (snd x) -> V l (q_or_loop eof decode regex_ok Q fuel x) (fun _ y => R (snd y)).
    Proof.
      induction fuel as [|fuel IH]; intros l x R H; [apply v_fuel|]. cbn [q_or_loop]. v1. v1. v1; [|now v1]. eapply v_bind; [apply v_and|]. intros. now apply IH.
    Qed.
    Lemma v_pattern l : V l (q_match_pattern eof decode regex_ok Q) (fun _ x => Among l (snd x)).
    Proof. unfold q_match_pattern. eapply v_bind; [apply v_and|]. intros. apply v_with_fuel. intro. now apply v_or_loop. Qed.
    Lemma v_match l t : V l (q_match eof Q t) (fun _ x => snd x = tk_start t).
    Proof.
      unfold q_match. v1. v1. v1. eapply v_bind; [apply (v_separated (fun _ _ => fun _ => True)); intros|].
      - unfold q_match_branch. v1. v1. v1. v1. now v1.
      - intros. now v1.
    Qed.
    Lemma v_expr_tok l t : Gone l t -> V l (q_expr_tok eof src decode Q t) (fun _ x => snd x = tk_start t).
    Proof.
      intro A. unfold q_expr_tok. destruct (tk_kind t) eqn:Ek; try now v1.
      - destruct k.
        + now v1.
        + eapply v_bind; [apply v_func_def|]. intros. now v1.
        + eapply v_bind; [apply v_let; [exact A|unfold LetKeyword; auto]|]. intros. now v1.
        + eapply v_bind; [apply v_let; [exact A|unfold LetKeyword; auto]|]. intros. now v1.
        + apply v_match.
      - apply v_func_call.
      - v1. now v1.
      - v1. now v1.
      - now apply v_list.
      - apply v_group.
      - v1. v1; [|now v1]. apply v_tag.
      - eapply v_bind; [apply v_template|]. intros. now v1.
    Qed.
    Lemma v_node l t : Gone l t -> V l (q_node eof src decode Q t) all.
    Proof.
      intro A. unfold q_node.
      assert (Ex : V l (do* e <- q_expr_tok eof src decode Q t; qret (AExpr (fst e))) all) by (eapply v_bind; [now apply v_expr_tok|]; intros; now v1).
      destruct (tk_kind t) eqn:Ek; try exact Ex; try apply v_text; try apply v_ice; try (now v1); try (v1; now v1).
      - destruct k; try exact Ex.
        + eapply v_bind; [now apply v_export|]. intros. now v1.
        + eapply v_bind; [apply v_func_def|]. intros. now v1.
      - v1. v1; [|apply v_text]. eapply v_bind; [apply v_tag|]. intros. now v1.
    Qed.
  End Step.
  Lemma v_parsers src decode regex_ok n : let Q := qparsers_n eof src decode regex_ok n in
    (forall l t, Gone l t -> V l (qr_expr_tok Q t) (fun _ x => snd x = tk_start t)) /\ (forall l, V l (qr_pattern Q) (fun _ x => Among l (snd x))) /\
    (forall l t, Gone l t -> V l (qr_node Q t) all).
  Proof.
    induction n as [|n (A & B & C)]; cbv zeta in *; cbn [qparsers_n].
    - repeat split; intros; apply v_fuel.
    - split; [|split]; cbn [q_step qr_expr_tok qr_pattern qr_node]; intros.
      + now apply v_expr_tok.
      + now apply v_pattern.
      + now apply v_node.
  Qed.
  Lemma v_root src decode regex_ok l : V l (q_root eof src decode regex_ok) all.
  Proof. unfold q_root. apply v_with_fuel. intro n. eapply v_bind; [apply v_nodes; apply v_parsers|]. intros. now v1. Qed.
End Order.

(** ** The tokens are in order *)
Lemma lex_asc fuel : forall rest cur dir l e, lex fuel rest cur dir = Ret (l, e) -> Asc l /\ Forall (fun t => cur <= tk_start t) l.
Proof.
  induction fuel as [|fuel IH]; intros rest cur dir l e.
  - destruct rest; [intros [= <- <-]; split; constructor|discriminate].
  - destruct rest as [|c t]; [intros [= <- <-]; split; constructor|]. intro H.
    apply lex_step in H as (len & k & err & text & rest' & toks & errs & Hn & Nt & El & Es & L & -> & ->).
    apply IH in L as [A B]. assert (0 < len) by (rewrite <- El; destruct text as [|c0 text]; [congruence|]; cbn; pose proof (utf8_len_pos c0); lia). split.
    + constructor; [exact A|]. eapply Forall_impl; [|exact B]. cbn. intros. lia.
    + constructor; [cbn; lia|]. eapply Forall_impl; [|exact B]. cbn. intros. lia.
Qed.
Lemma stripped_asc all toks : Stripped all toks -> Asc all -> Asc toks.
Proof.
  assert (G : forall g r, GapToken g r -> incl r g /\ Asc r).
  { intros g r []; (split; [|unfold Asc; repeat constructor]); [intros x []|intros x [<-|[]]; apply in_or_app; right; now left..]. }
  induction 1 as [gap r F Hg|gap r t rest out F Hg St H IH]; [intros _; exact (proj2 (G _ _ Hg))|]. intro A. apply asc_app in A as (A1 & A2 & A3). apply G in Hg as [G1 G2].
  inversion A2 as [|? ? A4 A5]; subst. apply asc_app. split; [exact G2|]. split.
  - constructor; [now apply IH|]. rewrite Forall_forall in *. intros u Hu. apply A5. eapply stripped_incl; eassumption.
  - intros x y Hx [<-|Hy]; [apply A3; [now apply G1|now left]|]. apply A3; [now apply G1|right]. eapply stripped_incl; eassumption.
Qed.
Lemma preceded_incl T all e p : incl T all -> Preceded T e p -> Preceded all e p.
Proof.
  intro H. assert (A : forall Q, Earlier T Q p -> Earlier all Q p) by (intros Q (t & X & Y); exists t; auto).
  assert (B : forall Q R, Twice T Q R p -> Twice all Q R p) by (intros Q R (t & u & X & Y & Z); exists t, u; auto).
  destruct e as [e| | | | | |]; cbn; auto. destruct e; auto; try (intros [X|X]; auto; fail). destruct k; auto.
Qed.
Lemma next_unordered s len k e : next_token s = Ret (len, k, Some e) -> forall T p, Preceded T (SyntaxErr e) p.
Proof.
  assert (D : forall e' : syntax_error, (forall T p, Preceded T (SyntaxErr e') p) -> forall a b, (Ret (a, b, Some e') : outcome (nat * token_kind * option syntax_error)) = Ret (len, k, Some e) -> forall T p, Preceded T (SyntaxErr e) p) by (intros e' H a b [= _ _ <-]; exact H).
  unfold next_token. destruct s as [|c t]; [discriminate|]. cbv zeta.
  repeat (arm; try discriminate; try (apply D; intros; exact I)).
  all: repeat (match goal with |- context [match ?x with _ => _ end] => destruct x end; try discriminate; try (apply D; intros; exact I)).
Qed.
Lemma lex_unordered fuel : forall rest cur dir l e, lex fuel rest cur dir = Ret (l, e) -> Forall (fun x => forall T p, Preceded T (SyntaxErr (fst x)) p) e.
Proof.
  induction fuel as [|fuel IH]; intros rest cur dir l e.
  - destruct rest; [intros [= <- <-]; constructor|discriminate].
  - destruct rest as [|c t]; [intros [= <- <-]; constructor|]. intro H.
    apply lex_step in H as (len & k & err & text & rest' & toks & errs & Hn & Nt & El & Es & L & -> & ->).
    apply Forall_app. split; [|eapply IH, L]. destruct err as [x|]; [|constructor]. constructor; [|constructor]. eapply next_unordered. exact Hn.
Qed.
Lemma parse_order decode regex_ok src text nodes ds : parse_pos decode regex_ok src text = Ret (nodes, ds) ->
  exists all errs, tokenize text false = Ret (all, errs) /\ forall e p, In (e, p) ds -> Preceded all e p.
Proof.
  unfold parse_pos. destruct (tokenize text true) as [[toks errs']| |] eqn:Ht; try discriminate. cbn [obind fst snd].
  destruct (tokenize_both text true false) as [[all errs] Ha]; [eauto|]. destruct (tokenize_stripped _ _ _ _ _ Ha Ht) as [St ->]. intro H. exists all, errs. split; [exact Ha|].
  assert (As : Asc toks) by (eapply stripped_asc; [exact St|]; apply tokenize_all in Ha; now apply lex_asc in Ha).
  assert (J0 : Forall (Ordered toks) (List.map (fun e => (SyntaxErr (fst e), fst (snd e))) errs)).
  { apply Forall_map. pose proof Ha as Hl. apply tokenize_all, lex_unordered in Hl. eapply Forall_impl; [|exact Hl]. intros x X. apply X. }
  pose proof (v_root toks (blen text) (fun t Hin => known_token _ _ _ _ t Ha (stripped_incl _ _ St t Hin)) As src decode regex_ok toks (suf_refl _) _ J0) as K.
  assert (G : Forall (Ordered toks) ds).
  { destruct (q_root _ _ _ _ _) as [ns s|s| |]; try discriminate; injection H as <- <-; apply K. }
  intros e p Hin. rewrite Forall_forall in G. eapply preceded_incl; [apply stripped_incl; exact St|]. exact (G _ Hin).
Qed.
