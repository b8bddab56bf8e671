(** The diagnostics of the positioned parser are at tokens they are about (C66). *)
From Verif Require Import Base BaseFacts M_Text M_Names M_TagInfo M_Token M_Tokenizer M_TokenText M_TextSubs M_Types M_Diag M_Queue M_Ast M_Parser M_ParserPos S_Pos S_Front S_Grammar P_Tokenizer P_Front P_ParserLex P_ParserPos M_SourceFile S_Util P_Util.

Section Where.
  Variable T : list token.
  Variable eof : nat.
  Hypothesis HT : forall t, In t T -> (tk_kind t = Name -> tk_text t <> n_anonymous) /\ (tk_kind t = VarName -> exists n, tk_text t = dollar ++ n).
  Definition At (Q : token -> Prop) (p : nat) : Prop := exists t, In t T /\ tk_start t = p /\ Q t.
  Definition Good (d : papyri_error * nat) : Prop := (AtEnd (fst d) /\ snd d = eof) \/ At (About (fst d)) (snd d).
  Definition J (s : qstate) : Prop := incl (qs_tokens s) T /\ Forall Good (qs_diags s).
  Definition W {A} (P : A -> Prop) (m : QM A) : Prop :=
    forall s, J s -> match m s with QOk a s' => P a /\ J s' | QErr s' => J s' | _ => True end.
  Definition any {A} (a : A) : Prop := True.

  Lemma at_tok (Q : token -> Prop) t : In t T -> Q t -> At Q (tk_start t).
  Proof. now exists t. Qed.
  Lemma at_imp (Q R : token -> Prop) p : (forall t, In t T -> Q t -> R t) -> At Q p -> At R p.
  Proof. intros H (t & A & B & C). exists t. auto. Qed.
  Lemma w_ret {A} (P : A -> Prop) a : P a -> W P (qret a).
  Proof. intros H s K. now split. Qed.
  Lemma w_bind {A B} (P : A -> Prop) (Q : B -> Prop) m f : W P m -> (forall a, P a -> W Q (f a)) -> W Q (qbind m f).
  Proof. intros H K s Js. specialize (H s Js). unfold qbind. destruct (m s); auto. destruct H as [H J']. exact (K _ H _ J'). Qed.
  Lemma w_weaken {A} (P Q : A -> Prop) m : (forall a, P a -> Q a) -> W P m -> W Q m.
  Proof. intros H K s Js. specialize (K s Js). destruct (m s); auto. destruct K; auto. Qed.
  Lemma j_add s e p : J s -> Good (e, p) -> J (QState (qs_tokens s) (qs_diags s ++ [(e, p)])).
  Proof. intros [A B] G. split; [exact A|]. apply Forall_app. auto. Qed.
  Lemma w_report (P : unit -> Prop) e p : At (About e) p -> P tt -> W P (qreport e p).
  Proof. intros H K s Js. split; [exact K|]. apply j_add; [exact Js|]. now right. Qed.
  Lemma w_serr (P : unit -> Prop) e p : At (About (SyntaxErr e)) p -> P tt -> W P (qserr e p).
  Proof. apply w_report. Qed.
  Lemma w_sfail {A} (P : A -> Prop) e p : At (About (SyntaxErr e)) p -> W P (qsfail e p).
  Proof. intros H s Js. apply j_add; [exact Js|]. now right. Qed.
  Lemma w_ice {A} (P : A -> Prop) : W P q_ice. Proof. intros s Js. exact I. Qed.
  Lemma w_fuel {A} (P : A -> Prop) : W P (fun _ => QFuel). Proof. intros s Js. exact I. Qed.
  Lemma w_ok {A} (P : A -> Prop) m : W P m -> W (fun o => match o with Some a => P a | None => True end) (q_ok m).
  Proof. intros H s Js. specialize (H s Js). unfold q_ok. destruct (m s); auto. Qed.
  Lemma w_map_err {A} (P : A -> Prop) m h : W P m -> W any h -> W P (q_map_err m h).
  Proof. intros H K s Js. specialize (H s Js). unfold q_map_err. destruct (m s) as [a s'|s'| |]; auto. specialize (K _ H). destruct (h s'); auto. tauto. Qed.
  Lemma w_with_fuel {A} (P : A -> Prop) f : (forall n, W P (f n)) -> W P (q_with_fuel f).
  Proof. intros H s. apply H. Qed.
  Lemma w_if {A} (P : A -> Prop) (b : bool) m n : (b = true -> W P m) -> (b = false -> W P n) -> W P (if b then m else n).
  Proof. destruct b; auto. Qed.
  (** Functions of M_Parser, all reporting at one position *)
  Lemma w_at {A} (P : A -> Prop) p (m : PM A) :
    (forall l, incl l T -> match m (PState l []) with
     | POk a s => P a /\ incl (ps_tokens s) T /\ Forall (fun e => Good (e, p)) (ps_diags s)
     | PErr s => incl (ps_tokens s) T /\ Forall (fun e => Good (e, p)) (ps_diags s)
     | _ => True end) -> W P (qat p m).
  Proof.
    intros H s [Ja B]. specialize (H _ Ja). unfold qat. destruct (m _) as [a s'|s'| |]; auto; unfold J; cbn [qs_tokens qs_diags].
    - destruct H as (H & K & L). split; [exact H|]. split; [exact K|]. apply Forall_app. split; [exact B|]. apply Forall_map. exact L.
    - destruct H as (K & L). split; [exact K|]. apply Forall_app. split; [exact B|]. apply Forall_map. exact L.
  Qed.
  Lemma incl_inv {t : token} {l} : incl (t :: l) T -> In t T /\ incl l T.
  Proof. intro H. split; [apply H; now left|]. intros x Hx. apply H. now right. Qed.
  Ltac fin := unfold any; repeat split; auto; try tauto.
  Definition OptTok (Q : token -> Prop) (o : option token) : Prop := match o with Some t => In t T /\ Q t | None => True end.
  Lemma w_poll : W (OptTok any) q_poll.
  Proof. apply w_at. intros [|t l] H; cbn; auto. apply incl_inv in H. fin. Qed.
  Lemma w_peek : W (OptTok any) q_peek.
  Proof. apply w_at. intros [|t l] H; cbn; auto. pose proof (proj1 (incl_inv H)). fin. Qed.
  Lemma w_poll_if p : W (OptTok (fun t => p t = true)) (q_poll_if p).
  Proof. apply w_at. intros [|t l] H; cbn; auto. pose proof (incl_inv H). destruct (p t) eqn:E; cbn; fin. Qed.
  Lemma w_poll_if_kind k : W (OptTok (fun t => tk_kind t = k)) (q_poll_if_kind k).
  Proof.
    apply w_at. intros [|t l] H; cbn; auto. pose proof (incl_inv H). unfold kind_eqb. destruct (kind_eq_dec _ _) as [E|E]; cbn; fin.
  Qed.
  Lemma w_has_next p : W any (q_has_next p).
  Proof. apply w_at. intros [|t l] H; cbn; repeat split; auto. Qed.
  Lemma w_skip : W any q_skip.
  Proof. apply w_at. intros [|t l] H; cbn; [repeat split; auto|]. pose proof (incl_inv H). unfold skip_whitespace, poll_if, pbind, peek. cbn [ps_tokens hd_error]. destruct (tok_is_whitespace t); cbn; fin. Qed.
  Lemma w_name_id t : W (fun n => (tk_kind t = Name /\ n = tk_text t) \/ (tk_kind t = VarName /\ n = List.tl (tk_text t)) \/ tk_kind t = FuncName) (q_name_id t).
  Proof. apply w_at. intros l H. unfold tok_name_id. destruct (tk_kind t); cbn; try exact I; repeat split; auto. Qed.
  Lemma w_lowercase t : W any (q_lowercase_name_id t).
  Proof. apply w_at. intros l H. unfold tok_lowercase_name_id. destruct (is_kind _ _); cbn; repeat split; auto. Qed.
  Lemma w_text t : W any (q_text t).
  Proof.
    assert (L : forall fuel text l, incl l T -> match text_loop fuel text (PState l []) with
      | POk _ s => incl (ps_tokens s) T /\ ps_diags s = [] | PErr s => incl (ps_tokens s) T /\ ps_diags s = [] | _ => True end).
    { induction fuel as [|fuel IH]; intros text l H; [exact I|]. cbn [text_loop]. unfold poll_if, peek, poll, pret, pbind. cbn [ps_tokens ps_diags].
      destruct l as [|u l]; cbn [hd_error ps_tokens ps_diags]; [now split|]. pose proof (incl_inv H) as [_ H']. destruct (has_text u); cbn [ps_tokens ps_diags]; [now apply IH|now split]. }
    apply w_at. intros l H. unfold parse_text, with_fuel, pbind, pret, any. destruct (token_text t) as [text|]; [|exact I]. cbn [ps_tokens].
    specialize (L (S (length l)) text l H). destruct (text_loop _ _ _) as [a s|s| |]; auto; destruct L as [L ->]; auto.
  Qed.
  Lemma w_number t : In t T -> tk_kind t = Number -> W any (q_number t).
  Proof.
    intros A B. apply w_at. intros l H. unfold p_number. destruct (parse_number (tk_text t)) as [z|e] eqn:E; cbn; [repeat split; auto|]. split; [exact H|]. constructor; [|constructor].
    right. cbn [fst snd]. apply at_tok; auto. assert (e = TokenInvalidNumber) as -> by (unfold parse_number in E; destruct (parse_i64 _); congruence). now split.
  Qed.
  Lemma w_unescape t : In t T -> tk_kind t = Escape -> W any (q_unescape t).
  Proof.
    intros A B. apply w_at. intros l H. unfold p_unescape. destruct (unescape_char _) as [[c [e|]]| |] eqn:E; cbn; try exact I; repeat split; auto. constructor; [|constructor].
    right. cbn [fst snd]. apply at_tok; auto. assert (e = TokenInvalidEscape) as -> by (clear -E; unfold unescape_char in E; repeat match type of E with context [match ?x with _ => _ end] => destruct x; try discriminate E end; congruence). exact B.
  Qed.
  Lemma w_entity decode t : In t T -> tk_kind t = Entity -> W any (q_entity decode t).
  Proof.
    intros A B. unfold q_entity. destruct (decode_entity _ _) as [c [e|]] eqn:E; (eapply (w_bind any); [|intros; now apply w_ret]); [|now apply w_ret].
    apply w_serr; [|exact I]. apply at_tok; auto. assert (e = TokenInvalidEntity) as -> by (unfold decode_entity in E; destruct (decode _) as [|? [|? ?]]; congruence). exact B.
  Qed.
  Lemma w_expect_poll : W (fun t => In t T) (q_expect_poll eof).
  Proof.
    apply w_at. intros [|t l] H; cbn.
    - split; [exact H|]. constructor; [|constructor]. left. now split.
    - apply incl_inv in H. fin.
  Qed.
  Lemma w_expect_kind k : W (fun t => In t T /\ tk_kind t = k) (q_expect_kind eof k).
  Proof.
    unfold q_expect_kind. intros s Js. unfold q_peek, qat, peek, qbind. cbn [ps_tokens ps_diags]. rewrite app_nil_r. destruct s as [l d]. cbn [qs_tokens qs_diags].
    destruct l as [|t l]; cbn [hd_error].
    - pose proof (w_expect_poll _ Js) as K. unfold q_expect_poll, qat, expect_poll, pbind, poll in *. cbn in *. exact K.
    - destruct Js as [A B]. pose proof (incl_inv A) as [C D]. unfold kind_eqb. destruct (kind_eq_dec _ _) as [E|E]; cbn.
      + split; [tauto|]. split; [exact D|]. cbn. now rewrite app_nil_r.
      + apply (j_add (QState (t :: l) d)); [now split|]. right. apply at_tok; [exact C|]. cbn. auto.
  Qed.
  #[local] Hint Resolve w_poll w_peek w_poll_if w_poll_if_kind w_has_next w_skip w_name_id w_lowercase w_text w_number w_unescape w_entity w_expect_poll w_expect_kind w_ice w_fuel : wh.
  #[local] Hint Unfold any : wh.
  Ltac w1 :=
    lazymatch goal with
    | |- forall _, _ => intro; cbn beta in *
    | |- W _ (qret _) => apply w_ret; try exact I
    | |- W _ (qsfail _ _) => apply w_sfail
    | |- W _ (qserr _ _) => apply w_serr; [|try exact I]
    | |- W _ (qreport _ _) => apply w_report; [|try exact I]
    | |- W _ q_ice => apply w_ice
    | |- W _ (fun _ => QFuel) => apply w_fuel
    | |- W _ (qbind _ _) => eapply w_bind; [solve [eauto 3 with wh]|]; cbn beta; intros; repeat match goal with H : _ /\ _ |- _ => destruct H end
    | |- W _ (if ?b then _ else _) => apply w_if; intro
    end.
  Ltac ot := match goal with H : OptTok _ ?o |- _ => destruct o as [?t|]; cbn [OptTok] in H; repeat match goal with H : _ /\ _ |- _ => destruct H end; cbn [is_some] end.
  Ltac here t := apply (at_tok _ t); [assumption|cbn].

  Definition SpreadAt (x : spread_kind * option nat) : Prop :=
    match snd x with
    | None => fst x = NoSpread
    | Some p => At (fun t => IsSpread t /\ (fst x = PosSpread -> tk_kind t = Asterisk) /\ (fst x = NamedSpread -> tk_kind t = DoubleAsterisk)) p
    end.
  Lemma kind_is k t : is_kind k t = true -> tk_kind t = k.
  Proof. unfold is_kind, kind_eqb. destruct (kind_eq_dec _ _); [auto|discriminate]. Qed.
  Lemma spread_tok t : is_spread_tok t = true -> is_kind Asterisk t = false -> tk_kind t = DoubleAsterisk.
  Proof. unfold is_spread_tok. intros H E. rewrite E in H. now apply kind_is. Qed.
  Lemma w_spread a b : W (fun x => SpreadAt x /\ (a = true -> b = true -> snd x = None \/ fst x <> NoSpread)) (q_spread a b).
  Proof.
    unfold q_spread. w1. ot; [|w1; split; [reflexivity|now left]]. eapply (w_bind (fun k => (k = NoSpread /\ (a = true -> b = true -> False)) \/ (k = PosSpread /\ tk_kind t = Asterisk) \/ (k = NamedSpread /\ tk_kind t = DoubleAsterisk))).
    - w1.
      + apply kind_is in H1. destruct a; [w1; auto|]. eapply (w_bind any); [w1; now here t|]. intros _ _. w1. left. split; [reflexivity|discriminate].
      + pose proof (spread_tok _ H0 H1). destruct b; [w1; auto|]. eapply (w_bind any); [w1; now here t|]. intros _ _. w1. left. split; [reflexivity|discriminate].
    - intros k H1. w1. split.
      + cbn. here t. split.
        * unfold IsSpread. destruct (is_kind Asterisk t) eqn:E; [apply kind_is in E; auto|right; now apply spread_tok].
        * destruct H1 as [[-> _]|[[-> ?]|[-> ?]]]; split; congruence.
      + cbn. intros -> ->. right. destruct H1 as [[_ H1]|[[-> _]|[-> _]]]; [exfalso; auto|discriminate..].
  Qed.
  #[local] Hint Resolve w_spread : wh.

  (** ** Types and names *)
  Lemma w_groups t : In t T -> tk_kind t = Name -> forall fuel ty, W any (q_groups (tk_start t) fuel ty).
  Proof.
    intros A B. induction fuel as [|fuel IH]; intro ty; [apply w_fuel|]. cbn [q_groups]. w1. w1. ot; [|now w1]. eapply (w_bind any); [|intros; apply IH].
    unfold q_group_type. repeat (w1; [now w1|]). destruct (str_eqb (tk_text t0) (lit "?")) eqn:E.
    - w1; [|now w1]. eapply (w_bind any); [w1|intros; now w1]. here t0. now apply str_eqb_eq.
    - eapply (w_bind any); [w1|intros; now w1]. now here t.
  Qed.
  Lemma w_type : W (fun x => At (fun t => tk_kind t = Name) (snd x)) (q_type eof).
  Proof.
    unfold q_type. w1. w1. eapply (w_bind any).
    - destruct (base_type (tk_text a0)) eqn:E; [now w1|]. eapply (w_bind any); [w1; here a0; now split|intros; now w1].
    - intros ty _. eapply (w_bind any); [apply w_with_fuel; intro; now apply w_groups|]. intros. w1. now here a0.
  Qed.
  Lemma w_name_loop fuel : forall n, W any (q_name_loop eof fuel n).
  Proof.
    induction fuel as [|fuel IH]; intro n; [apply w_fuel|]. cbn [q_name_loop]. w1. ot; [|now w1]. cbv zeta. w1. ot.
    - w1. apply IH.
    - w1. w1. apply IH.
  Qed.
  Lemma w_name t : W (fun x => snd x = tk_start t) (q_name eof t).
  Proof. unfold q_name. w1. eapply (w_bind any); [apply w_with_fuel; intro; apply w_name_loop|]. intros. now w1. Qed.
  #[local] Hint Resolve w_type w_name : wh.
  Lemma w_name_pattern t : In t T -> tk_kind t = VarName -> W (fun x => snd x = tk_start t) (q_name_pattern eof t).
  Proof. intros A B. unfold q_name_pattern. w1. destruct a as [[n|n b c|n b c] p]; cbn [fst snd] in *; subst; [now w1|w1; now here t..]. Qed.
  Lemma pat_expr p : At StartsExpr p -> At StartsPattern p.
  Proof. apply at_imp. unfold StartsPattern. tauto. Qed.
  Lemma pat_kind k p : match k with Underscore | VarName | Name | LPar | LSqb | LAngle | LBrace | Ellipsis | Dot | Quote _ _ => True | _ => False end ->
    At (fun t => tk_kind t = k) p -> At StartsPattern p.
  Proof. intro H. apply at_imp. intros t _ E. unfold StartsPattern, StartsExpr. rewrite E. destruct k; try contradiction; auto. Qed.
  Definition PatAt {A} (x : A * nat) : Prop := At StartsPattern (snd x).
  Lemma w_typed (x : pattern * nat) : PatAt x -> W PatAt (q_typed_pattern eof x).
  Proof.
    intro H. unfold q_typed_pattern. w1. w1. ot; [|now w1]. w1. w1. eapply (w_bind PatAt).
    - ot.
      + eapply w_bind; [now apply w_name_pattern|]. intros n E. w1. unfold PatAt. cbn [snd] in *. rewrite E. apply (pat_kind VarName); [exact I|]. now here t0.
      + w1. w1. cbn beta in *. apply (pat_kind Name); auto.
    - intros q Hq. w1. unfold PatAt in *. destruct (fst x); auto.
  Qed.

  (** ** Lists of things *)
  Lemma w_nodes (pn : token -> QM node) closer : (forall t, In t T -> W any (pn t)) -> W any (q_nodes_until pn closer).
  Proof.
    intro H. unfold q_nodes_until. w1. eapply (w_bind any); [|intros; now w1]. apply w_with_fuel. induction n as [|n IH]; [apply w_fuel|]. cbn [q_nodes_loop].
    w1. ot; [|now w1]. w1; [now w1|]. eapply w_bind; [now apply w_ok, H|]. intros. eapply w_bind; [exact IH|]. intros. now w1.
  Qed.
  Lemma w_ellipsis (pn : token -> QM node) fuel : (forall t, In t T -> W any (pn t)) -> W any (q_ellipsis_loop pn fuel).
  Proof.
    intro H. induction fuel as [|n IH]; [apply w_fuel|]. cbn [q_ellipsis_loop].
    w1. ot; [|now w1]. eapply w_bind; [now apply w_ok, H|]. intros. eapply w_bind; [exact IH|]. intros. now w1.
  Qed.
  Lemma w_unmatched t : In t T -> Opening (tk_kind t) \/ Closing (tk_kind t) -> W any (q_unmatched t).
  Proof. intros A B. unfold q_unmatched. w1. here t. auto. Qed.
  Lemma w_eof e p : AtEnd (SyntaxErr e) -> p = eof -> W any (qserr e p).
  Proof. intros H -> s Js. split; [exact I|]. apply j_add; [exact Js|]. now left. Qed.
  Lemma w_separated {A} (P : A -> Prop) open (m : QM A) sep close : In open T -> Opening (tk_kind open) -> W P m ->
    W (fun r => Forall P (fst r) /\ In (snd r) T) (q_separated eof open m sep close).
  Proof.
    intros A1 B1 H. unfold q_separated. apply w_with_fuel. intro n. generalize false. induction n as [|n IH]; intro b; [apply w_fuel|]. cbn [q_separated_loop].
    w1. eapply (w_bind (OptTok any)).
    - w1; [|eapply w_weaken; [|apply w_poll_if_kind]; intros [?|]; cbn; unfold any; tauto].
      eapply w_weaken; [|apply w_ok, w_expect_kind]. intros [?|]; cbn; unfold any; tauto.
    - intros [c|] Hc; [w1; split; [constructor|apply Hc]|]. eapply w_bind; [apply w_map_err; [exact H|]|].
      + eapply (w_bind any); [apply w_unmatched; auto|]. intros _ _. now apply w_eof.
      + intros x Hx. w1. eapply (w_bind any).
        * w1; [now w1|]. w1. now w1.
        * intros e _. eapply w_bind; [apply IH|]. intros r [Hr Hs]. w1. split; [constructor; auto|exact Hs].
  Qed.

  (** ** Templates *)
  Definition PartAt (x : template_part * nat) : Prop := match fst x with TPName _ => At (fun t => tk_kind t = VarName) (snd x) | _ => True end.
  Lemma w_template_loop decode open k : In open T -> Opening (tk_kind open) -> forall fuel parts braces,
    Forall (fun x => PartAt (fst (fst x), snd x)) parts -> Forall (fun t => In t T /\ tk_kind t = LBrace) braces ->
    W (fun r => Forall PartAt (fst r) /\ Forall (fun t => In t T /\ tk_kind t = LBrace) (snd r)) (q_template_loop eof fuel decode open k parts braces).
  Proof.
    intros A B. induction fuel as [|fuel IH]; intros parts braces HP HB; [apply w_fuel|]. cbn [q_template_loop].
    eapply w_bind; [apply w_map_err; [apply w_expect_poll|apply w_unmatched; auto]|]. cbv zeta. intros tok Htok.
    set (literal := match parts with (TPLit s, end_, _) :: before => _ | _ => _ end).
    assert (L : W (fun r => Forall PartAt (fst r) /\ Forall (fun t => In t T /\ tk_kind t = LBrace) (snd r)) literal).
    { unfold literal. destruct parts as [|[[[] ?] ?] before]; try (apply IH; [constructor; [exact I|exact HP]|exact HB]).
      w1; (apply IH; [constructor; [exact I|]; auto|exact HB]). now inversion HP. }
    clearbody literal. destruct (tk_kind tok) eqn:Ek; auto.
    - (* whitespace *) apply IH; [|exact HB]. constructor; [exact I|exact HP].
    - (* newline *) eapply (w_bind any); [w1; now here tok|]. intros. now apply IH.
    - (* escape *) eapply w_bind; [now apply w_unescape|]. intros. apply IH; [|exact HB]. constructor; [exact I|exact HP].
    - (* entity *) eapply w_bind; [now apply w_entity|]. intros. apply IH; [|exact HB]. constructor; [exact I|exact HP].
    - (* name *) eapply w_bind; [apply w_ok, w_name|]. intros [[n p]|] Hn; apply IH; auto. constructor; [|exact HP]. cbn in *. subst. now here tok.
    - (* verbatim *) eapply (w_bind any); [w1; now here tok|]. intros. now apply IH.
    - (* { *) w1. apply IH; auto.
    - (* } *) destruct braces as [|b0 braces]; [eapply (w_bind any); [w1; now here tok|]; intros; now apply IH|].
      apply IH; [|now inversion HB]. destruct parts as [|[[[] ?] ?] ?]; auto. now inversion HP.
    - (* quote *) w1; [|exact L]. w1. split.
      + apply Forall_rev, Forall_map. exact HP.
      + now apply Forall_rev.
  Qed.
  Lemma w_template decode open k : In open T -> Opening (tk_kind open) ->
    W (fun r => Forall PartAt (fst r) /\ snd r = tk_start open) (q_template_parts eof decode open k).
  Proof.
    intros A B. unfold q_template_parts. eapply w_bind; [apply w_with_fuel; intro; apply w_template_loop; auto|]. intros [ps bs] [HP HB]. cbn [fst snd] in *.
    eapply (w_bind any); [|intros; now w1]. induction HB as [|b bs [Hb Kb] HB IH]; cbn [q_report_unmatched]; [now w1|].
    eapply w_bind; [|intros; exact IH]. apply w_unmatched; [auto|]. rewrite Kb. left. exact I.
  Qed.
  Lemma w_template_regex l : Forall PartAt l -> forall re vars, W any (q_template_regex l re vars).
  Proof.
    induction 1 as [|[[s|c|[n|n b a|n b i]|] p] l H Hl IH]; intros; cbn [q_template_regex]; auto; try now w1.
    all: eapply (w_bind any); [w1; exact H|auto].
  Qed.

  (** ** Arguments and parameters *)
  Definition ArgAt (x : arg * nat) : Prop :=
    let '(Arg name kind _, p) := x in
    match kind with
    | PosSpread => name = n_anonymous /\ At (fun t => tk_kind t = Asterisk) p
    | NamedSpread => name = n_anonymous /\ At (fun t => tk_kind t = DoubleAsterisk) p
    | NoSpread => (name = n_anonymous /\ At StartsExpr p) \/ (name <> n_anonymous /\ At (fun t => (tk_kind t = Name /\ tk_text t = name) \/ IsSpread t) p)
    end.
  Lemma anon n : is_anonymous n = true <-> n = n_anonymous.
  Proof. unfold is_anonymous. apply str_eqb_eq. Qed.
  Lemma not_anon n : is_anonymous n = false -> n <> n_anonymous.
  Proof. intros H E. apply anon in E. congruence. Qed.
  Lemma w_check_args l : Forall ArgAt l -> forall b u, W any (q_check_args l b u).
  Proof.
    induction 1 as [|[[n k e] p] l H Hl IH]; intros b u; cbn [q_check_args]; [now w1|]. destruct (is_anonymous n) eqn:E; cbn [negb].
    - apply anon in E. subst. destruct k; [| |apply IH]; (eapply (w_bind any); [|intros; apply IH]); (w1; [w1|now w1]); cbn in *.
      + destruct H as [[_ H]|[H _]]; [|now destruct H]. revert H. apply at_imp. cbn. tauto.
      + destruct H as [_ H]. revert H. apply at_imp. cbn. tauto.
    - apply not_anon in E. eapply (w_bind any); [|intros; apply IH]. w1; [w1|now w1]. unfold ArgAt in H. destruct k; [|now destruct H..]. destruct H as [[H _]|[_ H]]; [congruence|]. exact H.
  Qed.
  Lemma w_named_args l : Forall ArgAt l -> W any (q_named_args l).
  Proof.
    induction 1 as [|[[n k e] p] l H Hl IH]; cbn [q_named_args]; [now w1|]. unfold arg_positional. unfold ArgAt in H. destruct k.
    - destruct (is_anonymous n) eqn:E; cbn [andb].
      + apply anon in E. subst. eapply (w_bind any); [w1|auto]. destruct H as [[_ H]|[H _]]; [exact H|congruence].
      + eapply w_bind; [exact IH|]. intros. now w1.
    - destruct H as [-> H]. eapply (w_bind any); [w1|auto]. exact H.
    - destruct H as [-> H]. eapply (w_bind any); [w1|auto]. exact H.
  Qed.
  Lemma w_check_attrs l : Forall (fun x => match fst x with TAttr n _ _ => At (fun t => tk_kind t = Name /\ tk_text t = n) (snd x) | _ => True end) l ->
    forall u, W any (q_check_attrs l u).
  Proof.
    induction 1 as [|[[n k e|e] p] l H Hl IH]; intro u; cbn [q_check_attrs]; [now w1| |apply IH]. eapply (w_bind any); [|intros; apply IH]. w1; [w1; exact H|now w1].
  Qed.
  Definition ParamAt (x : raw_param * nat) : Prop :=
    let '(Param n _ _ _ _, kind, u, p) := x in
    match kind with
    | NoSpread => At (fun t => tk_kind t = VarName /\ tk_text t = dollar ++ n /\ (u = true <-> Underscored t)) p
    | PosSpread => At (fun t => tk_kind t = Asterisk) p
    | NamedSpread => At (fun t => tk_kind t = DoubleAsterisk) p
    end.
  Lemma good_at e p : At (About e) p -> Good (e, p).
  Proof. now right. Qed.
  Lemma w_check_params l : Forall ParamAt l -> forall s, W any (q_check_params l s).
  Proof.
    induction 1 as [|[[[[n q i t d] k] u] p] l H Hl IH]; intro s; cbn [q_check_params]; [now w1|]. eapply (w_bind any); [|intros; apply IH].
    assert (K : forall A (m : PM A), (forall l, match m (PState l []) with
      | POk _ s => ps_tokens s = l /\ Forall (fun e => At (About e) p) (ps_diags s) | PErr s => ps_tokens s = l /\ Forall (fun e => At (About e) p) (ps_diags s) | _ => True end) -> W any (qat p m)).
    { intros A m X. apply w_at. intros l0 I0. specialize (X l0). unfold any. assert (Y : forall ds, Forall (fun e => At (About e) p) ds -> Forall (fun e => Good (e, p)) ds) by (intros ds; apply Forall_impl; intros; now apply good_at).
      destruct (m _) as [a s0|s0| |]; auto; destruct X as [-> X]; auto. }
    apply K. clear K. intro l0. unfold check_param. destruct s as [an used ao aon np sp nn sn].
    assert (V : k = NoSpread -> At (fun t => tk_kind t = VarName) p) by (intros ->; revert H; apply at_imp; tauto).
    assert (D : k = NoSpread -> At (fun t => tk_text t = dollar ++ n) p) by (intros ->; revert H; apply at_imp; tauto).
    assert (S0 : k <> NoSpread -> At IsSpread p) by (intro; destruct k; [congruence|revert H; apply at_imp; unfold IsSpread; auto..]).
    assert (U : (if match k with NoSpread => false | _ => true end then match k with PosSpread => true | _ => false end else u) = true -> At (fun t => Underscored t \/ tk_kind t = Asterisk) p).
    { destruct k; [intros ->|intros _|discriminate]; revert H; apply at_imp; tauto. }
    assert (X : forall e, (let is_spread := match k with NoSpread => false | _ => true end in
        let is_required := negb is_spread && negb q && negb (is_some d) in
        let is_positional := if is_spread then match k with PosSpread => true | _ => false end else u in
        (e = ParamDuplicateName n) \/ (is_positional = true /\ (e = ParamPositionalAfterNamed \/ e = ParamPositionalImplicit)) \/ (is_required = true /\ e = ParamRequiredAfterOptional) \/
        (is_spread = true /\ (e = ParamSpreadImplicit \/ e = ParamMultipleSpread)) \/ (is_spread = false /\ e = ParamAfterSpread) \/
        (is_spread = false /\ is_positional = false /\ e = ParamDefaultImplicit) \/
        (is_positional = true /\ is_spread = true /\ e = ParamPositionalSpreadNoUnderscore) \/ (is_positional = false /\ is_spread = true /\ e = ParamNamedSpreadUnderscore)) -> At (About (SyntaxErr e)) p).
    { intros e Q. cbv zeta in Q. destruct Q as [->|[[Q [->| ->]]|[[Q ->]|[[Q [->| ->]]|[[Q ->]|[(Q & Q' & ->)|[(Q & Q' & ->)|(Q & Q' & ->)]]]]]]]; cbn.
      - destruct k; [revert H; apply at_imp; intros ? _ (Z1 & Z2 & _); left; now split|specialize (S0 ltac:(discriminate)); revert S0; apply at_imp; intros ? _ Z; now right..].
      - exact (U Q).
      - exact (U Q).
      - apply V. destruct k; [reflexivity|discriminate..].
      - apply S0. destruct k; congruence.
      - assert (At IsSpread p) as Z by (apply S0; destruct k; congruence). revert Z. apply at_imp. intros ? _ Z. now left.
      - apply V. destruct k; congruence.
      - destruct k; try discriminate. subst. revert H. apply at_imp. intros t0 _ (Z1 & _ & Z2). split; [exact Z1|]. intro Z. apply Z2 in Z. discriminate.
      - destruct k; try discriminate. exact H.
      - destruct k; try discriminate. exact H. }
    unfold pbind, serr, preport, pret.
    repeat match goal with |- context [if ?b then _ else _] => destruct b eqn:? end.
    all: cbn [ps_tokens ps_diags app]; split; [reflexivity|].
    all: repeat (apply Forall_cons; [apply X; cbv zeta|]); try apply Forall_nil.
    all: destruct k; cbn in *; try discriminate; repeat match goal with H : _ && _ = true |- _ => apply andb_true_iff in H; destruct H end; subst; auto 12.
    all: try (cbn; intuition congruence). all: rewrite H0, H2; auto 8.
  Qed.

  Ltac kd t := match goal with H : tk_kind t = _ |- _ => rewrite H; exact I end.
  (** ** Patterns *)
  Lemma w_spread_index (l : list (pos_pattern * nat)) : Forall PatAt l -> forall i o, W any (q_spread_index l i o).
  Proof.
    induction 1 as [|[[x [|]] p] l H Hl IH]; intros i o; cbn [q_spread_index]; [now w1| |apply IH]. eapply (w_bind any); [|intros; apply IH]. w1; [w1; exact H|now w1].
  Qed.
  Lemma w_check_html (l : list (pos_pattern * nat)) : Forall PatAt l -> W any (q_check_html l).
  Proof. induction 1 as [|[[x b] p] l H Hl IH]; cbn [q_check_html]; [now w1|]. eapply (w_bind any); [|intros; apply IH]. w1; [now w1|w1; exact H]. Qed.
  Lemma w_make_dict (l : list (named_pattern * nat)) start b : Forall PatAt l -> At StartsPattern start -> W PatAt (q_make_dict l start b).
  Proof.
    intros H S0. unfold q_make_dict. eapply (w_bind (fun r => fst (snd r) = None \/ PatAt (snd r))).
    - assert (K : fst (None : option pattern, 0) = None \/ PatAt (None : option pattern, 0)) by now left. revert K. generalize (None : option pattern, 0). generalize (@nil (str * pattern)).
      induction H as [|[[[n|] x] p] l H Hl IH]; intros attrs sp K; cbn [q_dict_parts]; [now w1| |].
      + w1; (eapply (w_bind any); [|intros; now apply IH]); [w1; exact H|]. w1; [w1; exact H|now w1].
      + eapply (w_bind any); [w1; [w1|now w1]|].
        * revert H. apply at_imp. intros ? _ Z. now right.
        * intros. apply IH. now right.
    - intros [attrs [[x|] p]] K; cbn [fst snd] in K; destruct attrs; try (apply w_ret; exact S0). w1; w1; [|exact S0]. destruct K as [K|K]; [discriminate|exact K].
  Qed.

  Section Step.
    Variables (src : str) (decode : str -> str) (regex_ok : str -> bool) (Q : qparsers).
    Definition ExprAt (t : token) (x : expr * nat) : Prop := snd x = tk_start t /\ StartsExpr t /\ (expr_is_literal (fst x) = true -> StartsLiteral t).
    Definition SomeExpr (x : expr * nat) : Prop := At (fun t => StartsExpr t /\ (expr_is_literal (fst x) = true -> StartsLiteral t)) (snd x).
    Hypothesis HE : forall t, In t T -> W (ExprAt t) (qr_expr_tok Q t).
    Hypothesis HP : W PatAt (qr_pattern Q).
    Hypothesis HN : forall t, In t T -> W any (qr_node Q t).
    Lemma w_expr : W SomeExpr (q_expr eof Q).
    Proof. unfold q_expr. w1. w1. eapply w_weaken; [|apply HE; assumption]. intros x (A & B & C). exists a0. auto. Qed.
    #[local] Hint Resolve w_expr : wh.
    Lemma w_expr_or_ellipsis : W (fun x => expr_is_literal (fst x) = true -> At StartsLiteral (snd x)) (q_expr_or_ellipsis eof Q).
    Proof.
      unfold q_expr_or_ellipsis. w1. w1. ot.
      - unfold q_ellipsis_group. eapply (w_bind any); [apply w_with_fuel; intro; now apply w_ellipsis|]. intros. w1. intros _. here t. unfold StartsLiteral. kd t.
      - eapply w_weaken; [|apply w_expr]. intros x (t & A & B & _ & C) K. exists t. auto.
    Qed.
    Lemma w_group t : In t T -> tk_kind t = LBrace -> W (fun x => snd x = tk_start t) (q_group Q t).
    Proof.
      intros A B. unfold q_group. eapply w_bind; [now apply w_nodes|]. intros r _. eapply (w_bind any); [|intros; now w1].
      w1; [now w1|]. apply w_unmatched; [exact A|]. rewrite B. now left.
    Qed.
    Lemma some_starts x : SomeExpr x -> At StartsExpr (snd x).
    Proof. apply at_imp. tauto. Qed.
    Lemma w_arg : W ArgAt (q_arg eof Q).
    Proof.
      unfold q_arg. w1. w1. destruct a0 as [k o]. unfold SpreadAt in H0. cbn [fst snd] in *. specialize (H1 eq_refl eq_refl). w1. w1. ot.
      - cbv zeta. w1. w1. ot.
        + eapply (w_bind any).
          * destruct o as [p|]; [|now w1]. w1. revert H0. apply at_imp. tauto.
          * intros _ _. w1. w1. w1. assert (a3 = tk_text t) as -> by (destruct H9 as [[_ ?]|[[? _]|?]]; congruence).
            cbn [ArgAt]. right. split; [now apply HT|]. destruct o as [p|]; cbn [start_or]; [revert H0; apply at_imp; tauto|]. here t. auto.
        + w1. cbn [ArgAt fst snd]. destruct o as [p|]; cbn [start_or].
          * destruct H1 as [H1|H1]; [discriminate|]. destruct k; [congruence|split; [reflexivity|]..]; revert H0; apply at_imp; tauto.
          * subst k. left. split; [reflexivity|]. here t. unfold StartsExpr. kd t.
      - w1. w1. cbn [ArgAt fst snd]. destruct o as [p|]; cbn [start_or].
        + destruct H1 as [H1|H1]; [discriminate|]. destruct k; [congruence|split; [reflexivity|]..]; revert H0; apply at_imp; tauto.
        + subst k. left. split; [reflexivity|]. now apply some_starts.
    Qed.
    Lemma w_args : W (Forall ArgAt) (q_args eof Q).
    Proof.
      unfold q_args. w1. w1. ot; [|w1; constructor]. eapply w_bind; [apply w_separated; [assumption|kd t|apply w_arg]|]. intros [l c] [Hl Hc]. cbn [fst snd] in *.
      eapply w_bind; [now apply w_check_args|]. intros. now w1.
    Qed.
    Lemma w_list_item : W any (q_list_item eof Q).
    Proof.
      unfold q_list_item. eapply w_bind; [apply w_arg|]. intros [[n k v] p] H. eapply (w_bind any); [|intros; now w1]. unfold arg_positional. destruct k.
      - destruct (is_anonymous n) eqn:E; cbn [andb]; [now w1|]. w1. unfold ArgAt in H. apply not_anon in E. destruct H as [[H _]|[_ H]]; [congruence|]. revert H. apply at_imp. cbn. tauto.
      - destruct H as [-> H]. now w1.
      - destruct H as [-> H]. w1. exact H.
    Qed.
    Lemma w_list t : In t T -> tk_kind t = LSqb -> W (fun x => snd x = tk_start t /\ exists l, fst x = EList l) (q_list eof Q t).
    Proof. intros A B. unfold q_list. eapply w_bind; [apply w_separated; [exact A|now rewrite B|apply w_list_item]|]. intros. w1. cbn. eauto. Qed.

    Lemma w_param : W (fun x => ParamAt (fst x) /\ (let '(Param _ _ _ _ d, _, _, _, p) := x in is_some d = true -> At StartsExpr p)) (q_param eof Q).
    Proof.
      unfold q_param. w1. w1. destruct a0 as [k o]. unfold SpreadAt in H0. cbn [fst snd] in *. specialize (H1 eq_refl eq_refl). w1. w1. w1. cbv zeta. w1. w1. w1. w1.
      eapply (w_bind any).
      { w1; [|now w1]. w1. w1. eapply w_bind; [apply w_ok, w_type|]. intros. now w1. }
      intros [i ty] _. w1. w1. eapply (w_bind (fun d => is_some (fst d) = true -> At StartsExpr (snd d))).
      { w1; [|w1; discriminate]. w1. w1. intros _. now apply some_starts. }
      intros [d dp] Hd. cbn [fst snd] in *. eapply (w_bind any).
      { w1; [w1|now w1]. apply Hd. match goal with H : _ && _ = true |- _ => apply andb_true_iff in H; tauto end. }
      intros _ _. w1. cbn [fst snd]. split; [|exact Hd].
      match goal with H : _ \/ _ \/ tk_kind _ = FuncName |- _ => rename H into N0 end.
      match goal with H : In ?t T, K : tk_kind ?t = VarName |- _ => rename H into I0; rename K into K0; pose proof (proj2 (HT _ I0) K0) as [n En] end.
      rewrite K0 in N0. destruct N0 as [[N0 _]|[[_ N0]|N0]]; try discriminate. subst.
      cbn [ParamAt]. destruct o as [p|]; cbn [start_or].
      - destruct H1 as [H1|H1]; [discriminate|]. destruct k; [congruence|..]; revert H0; apply at_imp; tauto.
      - subst k. eapply at_tok; [exact I0|]. split; [exact K0|]. split; [rewrite En; reflexivity|]. unfold Underscored. split.
        + intro S0. split; [exact K0|]. now apply starts_with_inv in S0.
        + intros [_ [s Es]]. rewrite Es. reflexivity.
    Qed.
    Lemma w_signature : W any (q_signature eof Q).
    Proof.
      unfold q_signature. w1. w1. eapply (w_bind any).
      - ot; [|now w1]. eapply w_bind; [apply w_separated; [assumption|kd t|apply w_param]|]. intros [l c] [Hl Hc]. cbn [fst snd] in *.
        eapply w_bind; [apply w_check_params|].
        + apply Forall_map. revert Hl. apply Forall_impl. tauto.
        + intros. now w1.
      - intros [ps s] _. w1. w1. w1; [now w1|]. eapply w_bind; [apply w_param|]. intros [[[[[n q i t d] k] u] p] ds] [A B]. cbn [fst snd] in *.
        eapply (w_bind any); [|intros; now w1]. destruct k.
        + w1; [w1|now w1]. now apply B.
        + w1. revert A. apply at_imp. intros ? _ Z. now left.
        + w1. revert A. apply at_imp. intros ? _ Z. now right.
    Qed.
    #[local] Hint Resolve w_signature w_arg w_args w_expr_or_ellipsis : wh.
    Lemma w_func_def t b : In t T -> tk_kind t = Kw KFn -> W (fun x => snd x = tk_start t) (q_func_def eof Q t b).
    Proof.
      intros A B. unfold q_func_def. w1. w1. eapply (w_bind any).
      - ot; [eapply w_weaken; [|apply w_name_id]; easy|now w1].
      - intros n _. w1. w1. w1. w1. w1; [w1; now here t|now w1].
    Qed.
    Lemma w_func_call t : In t T -> W (fun x => snd x = tk_start t /\ exists a b c d, fst x = EFuncCall a b c d) (q_func_call eof src Q t).
    Proof. intro A. unfold q_func_call. w1. w1. w1. w1. cbn. eauto 10. Qed.
    Lemma w_some_named t : In t T -> tk_kind t = Kw KLet \/ tk_kind t = Kw KImplicit \/ tk_kind t = Kw KExport -> W any (q_some_named_args eof Q t).
    Proof. intros A B. unfold q_some_named_args. w1. destruct a as [|x l]; [w1; now here t|]. now apply w_named_args. Qed.
    Lemma w_let t b : In t T -> tk_kind t = Kw KLet \/ tk_kind t = Kw KImplicit -> W (fun x => snd x = tk_start t) (q_let_in eof Q t b).
    Proof.
      intros A B. unfold q_let_in. eapply w_bind; [apply w_some_named; tauto|]. intros vs _. w1. eapply (w_bind any); [|intros; now w1].
      w1; [w1|now w1]. apply andb_true_iff in H0. now apply H.
    Qed.
    Lemma w_export t : In t T -> tk_kind t = Kw KExport -> W any (q_export eof Q t).
    Proof.
      intros A B. unfold q_export. w1. w1. ot; [eapply w_bind; [now apply w_func_def|]; intros; now w1|]. w1. ot; [eapply w_bind; [apply w_let; auto|]; intros; now w1|].
      eapply w_bind; [apply w_some_named; auto|]. intros. w1. w1. now w1.
    Qed.
    Lemma w_tag_attr : W (fun x => match fst x with TAttr n _ _ => At (fun t => tk_kind t = Name /\ tk_text t = n) (snd x) | _ => True end) (q_tag_attribute eof Q).
    Proof.
      unfold q_tag_attribute. w1. w1. destruct (fst a0); [|w1; now w1..]. w1. w1. w1. w1. w1. w1. w1.
      assert (N0 : tk_text a2 = a3) by (match goal with H : _ \/ _ \/ tk_kind a2 = FuncName |- _ => destruct H as [[_ ?]|[[? _]|?]]; congruence end).
      w1; [w1; w1; cbn; here a2; now split|]. destruct a5 as [q|]; [|w1; cbn; here a2; now split]. w1.
      match goal with H : OptTok _ (Some q) |- _ => destruct H end. here q. now split.
    Qed.
    Lemma w_tag t : In t T -> tk_kind t = LAngle -> W (fun x => snd x = tk_start t /\ exists a b c, fst x = ETag a b c) (q_tag eof Q t).
    Proof.
      intros A B. unfold q_tag. w1. eapply (w_bind any).
      - destruct (tk_kind a); try w1; try now w1. w1; [now w1|]. w1. now here a0.
      - intros [name id] _. eapply w_bind; [apply w_separated; [exact A|now rewrite B|apply w_tag_attr]|]. intros [l c] [Hl Hc]. cbn [fst snd] in *. eapply w_bind; [now apply w_check_attrs|].
        intros _ _. w1; [w1; cbn; eauto|]. eapply w_bind; [now apply w_nodes|]. intros [ch [cl|]] _; [w1; cbn; eauto|]. w1. now here t.
    Qed.
    Lemma w_positional : W PatAt (q_positional_pattern Q).
    Proof.
      unfold q_positional_pattern. w1. w1. ot; [w1; apply (pat_kind Ellipsis); [exact I|]; now here t|]. w1. eapply w_bind; [apply HP|]. intros. now w1.
    Qed.
    Lemma w_named_pattern b : W PatAt (q_named_pattern eof Q b).
    Proof.
      unfold q_named_pattern. w1. w1. ot; [w1; apply (pat_kind Ellipsis); [exact I|]; now here t|]. w1. destruct (fst a0); [|eapply w_bind; [apply HP|]; intros; now w1..].
      w1. eapply (w_bind any).
      { w1; [w1|now w1]. here a1. split; [assumption|]. now apply starts_with_inv in H5. }
      intros _ _. w1. eapply (w_bind any).
      { w1; [eapply w_weaken; [|apply w_poll_if_kind]; easy|]. eapply w_weaken; [|apply w_ok, w_expect_kind]. easy. }
      intros eq _. w1. eapply (w_bind PatAt); [|intros x Hx; w1; exact Hx]. w1; [apply HP|]. w1. apply (pat_kind Name); [exact I|]. now here a1.
    Qed.
    Lemma w_seq_pattern t sep close : In t T -> tk_kind t = LSqb \/ tk_kind t = LBrace -> W PatAt (q_seq_pattern eof Q t sep close).
    Proof.
      intros A B. unfold q_seq_pattern. eapply w_bind; [apply w_separated; [exact A|destruct B as [->| ->]; exact I|apply w_positional]|]. intros [l c] [Hl Hc]. cbn [fst snd] in *. cbv zeta.
      eapply w_bind; [now apply w_spread_index|]. intros. eapply (w_bind any); [w1; [now w1|now apply w_check_html]|]. intros. w1.
      destruct B; [apply (pat_kind LSqb)|apply (pat_kind LBrace)]; try exact I; now here t.
    Qed.
    Lemma w_dict_pattern t : In t T -> tk_kind t = LPar -> W PatAt (q_dict_pattern eof Q t).
    Proof.
      intros A B. unfold q_dict_pattern. eapply w_bind; [apply w_separated; [exact A|now rewrite B|apply w_named_pattern]|]. intros [l c] [Hl Hc]. cbn [fst snd] in *.
      apply w_make_dict; [exact Hl|]. apply (pat_kind LPar); [exact I|]. now here t.
    Qed.
    Lemma w_tag_pattern t : In t T -> tk_kind t = LAngle -> W PatAt (q_tag_pattern eof Q t).
    Proof.
      intros A B. assert (S0 : At StartsPattern (tk_start t)) by (apply (pat_kind LAngle); [exact I|]; now here t).
      unfold q_tag_pattern, q_unexpected. w1. eapply (w_bind any).
      - destruct (tk_kind a) eqn:Ek; try (w1; here a; exact Ek); try now w1.
        eapply w_bind; [now apply w_name_pattern|]. intros. now w1.
      - intros [name id] _. eapply w_bind; [apply w_separated; [exact A|now rewrite B|apply w_named_pattern]|]. intros [l c] [Hl Hc]. cbn [fst snd] in *.
        eapply w_bind; [now apply w_make_dict|]. intros. w1. eapply (w_bind (fun r => In (snd r) T)).
        + w1; [now w1|]. w1. ot; [now w1|]. eapply w_bind; [apply HP|]. intros. w1. w1. now w1.
        + intros [content close] Hcl. cbn [snd] in Hcl. eapply (w_bind any); [w1; [w1|now w1]|intros; w1; exact S0].
          here close. match goal with H : _ && _ = true |- _ => apply andb_true_iff in H; destruct H as [H _]; now apply kind_is end.
    Qed.
    Lemma w_template_pattern t k : In t T -> (exists k d, tk_kind t = Quote k d) -> W PatAt (q_template_pattern eof decode regex_ok t k).
    Proof.
      intros A (k' & d & B). unfold q_template_pattern. eapply w_bind; [apply w_template; [exact A|now rewrite B]|]. intros [l p] [Hl E]. cbn [fst snd] in *. subst. cbv zeta.
      assert (S0 : At StartsPattern (tk_start t)) by (apply (pat_kind (Quote k' d)); [exact I|]; now here t).
      w1; [now w1|]. eapply w_bind; [now apply w_template_regex|]. intros. w1; [now w1|apply w_ice].
    Qed.
    Lemma w_primary : W PatAt (q_primary_pattern eof decode regex_ok Q).
    Proof.
      unfold q_primary_pattern, q_unexpected. w1. w1.
      assert (Ex : W PatAt (do* e <- qr_expr_tok Q a0; qret (PEquals (fst e), snd e))).
      { eapply w_bind; [apply HE; assumption|]. intros x (X1 & X2 & _). w1. unfold PatAt. cbn [snd]. rewrite X1. apply pat_expr. now here a0. }
      destruct (tk_kind a0) eqn:Ek; try exact Ex; try (w1; here a0; exact Ek); try (w1; here a0; congruence).
      - (* name *) eapply w_bind; [now apply w_name_pattern|]. intros n En. apply w_typed. unfold PatAt. cbn [snd]. rewrite En. apply (pat_kind VarName); [exact I|]. now here a0.
      - now apply w_dict_pattern.
      - apply w_seq_pattern; auto.
      - apply w_seq_pattern; auto.
      - now apply w_tag_pattern.
      - w1. apply (pat_kind Dot); [exact I|]. now here a0.
      - w1. w1. unfold PatAt. cbn [snd]. now apply pat_expr, some_starts.
      - apply w_template_pattern; eauto.
      - apply w_typed. apply (pat_kind Underscore); [exact I|]. now here a0.
    Qed.
    Lemma w_and_loop fuel : forall x, PatAt x -> W PatAt (q_and_loop eof decode regex_ok Q fuel x).
    Proof.
      induction fuel as [|fuel IH]; intros x H; [apply w_fuel|]. cbn [q_and_loop]. w1. w1. w1; [|now w1]. eapply w_bind; [apply w_primary|]. intros. now apply IH.
    Qed.
    Lemma w_and : W PatAt (q_and_pattern eof decode regex_ok Q).
    Proof. unfold q_and_pattern. eapply w_bind; [apply w_primary|]. intros. apply w_with_fuel. intro. now apply w_and_loop. Qed.
    Lemma w_or_loop fuel : forall x, PatAt x -> W PatAt (q_or_loop eof decode regex_ok Q fuel x).
    Proof.
      induction fuel as [|fuel IH]; intros x H; [apply w_fuel|]. cbn [q_or_loop]. w1. w1. w1; [|now w1]. eapply w_bind; [apply w_and|]. intros. now apply IH.
    Qed.
    Lemma w_pattern : W PatAt (q_match_pattern eof decode regex_ok Q).
    Proof. unfold q_match_pattern. eapply w_bind; [apply w_and|]. intros. apply w_with_fuel. intro. now apply w_or_loop. Qed.
    Lemma w_match t : In t T -> tk_kind t = Kw KMatch -> W (fun x => snd x = tk_start t /\ exists a b, fst x = EMatch a b) (q_match eof Q t).
    Proof.
      intros A B. unfold q_match. w1. w1. w1. eapply w_bind; [apply (w_separated any); [assumption|match goal with H : tk_kind _ = LBrace |- _ => now rewrite H end|]|].
      - unfold q_match_branch. eapply w_bind; [apply HP|]. intros. w1. w1. w1. now w1.
      - intros. w1. cbn. eauto.
    Qed.
    Lemma w_expr_tok t : In t T -> W (ExprAt t) (q_expr_tok eof src decode Q t).
    Proof.
      intro A. unfold q_expr_tok.
      assert (No : forall P : expr * nat -> Prop, ~ StartsExpr t \/ tk_kind t = LAngle -> W P (qsfail ExpectedExpr (tk_start t))) by (intros P B; w1; now here t).
      unfold StartsExpr in No. unfold ExprAt, StartsExpr, StartsLiteral.
      destruct (tk_kind t) eqn:Ek; try (apply No; tauto); try (w1; now repeat split).
      - (* keyword *) destruct k.
        + w1. now here t.
        + eapply w_bind; [now apply w_func_def|]. intros. w1. repeat split; [assumption|discriminate|cbn; discriminate].
        + eapply w_bind; [apply w_let; auto|]. intros. w1. repeat split; [assumption|discriminate|cbn; discriminate].
        + eapply w_bind; [apply w_let; auto|]. intros. w1. repeat split; [assumption|discriminate|cbn; discriminate].
        + eapply w_weaken; [|now apply w_match]. intros [e p] (X & y & z & E). cbn in *. subst. repeat split; discriminate.
      - eapply w_weaken; [|now apply w_func_call]. intros [e p] (X & y & z & u & v & E). cbn in *. subst. repeat split; discriminate.
      - w1. w1. cbn. repeat split; [assumption|discriminate].
      - w1. w1. cbn. repeat split.
      - eapply w_weaken; [|now apply w_list]. intros [e p] (X & y & E). cbn in *. subst. repeat split; discriminate.
      - eapply w_weaken; [|now apply w_group]. intros [e p] X. cbn in *. subst. repeat split.
      - w1. w1.
        + eapply w_weaken; [|now apply w_tag]. intros [e p] (X & y & z & u & E). cbn in *. subst. repeat split; discriminate.
        + apply No. auto.
      - eapply w_bind; [apply w_template; [exact A|now rewrite Ek]|]. intros [l p] [Hl E]. cbn [fst snd] in *. w1. cbn. repeat split; [assumption|discriminate].
    Qed.
    Lemma w_node t : In t T -> W any (q_node eof src decode Q t).
    Proof.
      intro A. unfold q_node.
      assert (Ex : W any (do* e <- q_expr_tok eof src decode Q t; qret (AExpr (fst e)))) by (eapply w_bind; [now apply w_expr_tok|]; intros; now w1).
      destruct (tk_kind t) eqn:Ek; try exact Ex; try apply w_text; try apply w_ice; try (now w1).
      - destruct k; try exact Ex.
        + eapply w_bind; [now apply w_export|]. intros. now w1.
        + eapply w_bind; [now apply w_func_def|]. intros. now w1.
      - w1. here t. split; [exact Ek|right; exact I].
      - w1. here t. split; [exact Ek|right; exact I].
      - w1. w1; [|apply w_text]. eapply w_bind; [now apply w_tag|]. intros. now w1.
      - w1. here t. split; [exact Ek|right; exact I].
    Qed.
  End Step.
  Lemma w_parsers src decode regex_ok n : let Q := qparsers_n eof src decode regex_ok n in
    (forall t, In t T -> W (ExprAt t) (qr_expr_tok Q t)) /\ W PatAt (qr_pattern Q) /\ (forall t, In t T -> W any (qr_node Q t)).
  Proof.
    induction n as [|n (A & B & C)]; cbv zeta in *; cbn [qparsers_n].
    - repeat split; intros; apply w_fuel.
    - split; [|split]; cbn [q_step qr_expr_tok qr_pattern qr_node]; intros.
      + now apply w_expr_tok.
      + now apply w_pattern.
      + now apply w_node.
  Qed.
  Lemma w_root src decode regex_ok : W any (q_root eof src decode regex_ok).
  Proof. unfold q_root. apply w_with_fuel. intro n. eapply w_bind; [apply w_nodes; apply w_parsers|]. intros. now w1. Qed.
End Where.

(** ** The tokenizer *)
Definition ErrOk (e : syntax_error) (k : token_kind) (s : str) (len : nat) : Prop :=
  (forall q d, k <> Quote q d) /\ forall text rest a b, s = text ++ rest -> blen text = len -> About (SyntaxErr e) (Token k text a b).
Ltac noerr := repeat arm; discriminate.
Lemma next_err s len k e : next_token s = Ret (len, k, Some e) -> ErrOk e k s len.
Proof.
  unfold next_token. destruct s as [|c t]; [discriminate|]. cbv zeta.
  arm; [discriminate|]. arm; [discriminate|]. arm; [discriminate|]. arm; [discriminate|]. arm; [discriminate|].
  arm.
  { arm; [discriminate|]. intros [= <- <- <-]. split; [discriminate|]. intros text rest a b Es El. split; [reflexivity|]. cbn [tk_text]. intros s X. subst text.
    apply andb_true_iff in E4 as [Ec En]. apply N.eqb_eq in Ec. apply next_is_inv in En as (d & t2 & -> & Ed). cbn [List.tl] in *. subst c.
    set (f := fun c => negb (is_ascii_whitespace c) && negb (c =? c_of ";")%N) in *.
    assert (Hd : is_ascii d = true /\ d <> c_of ";").
    { unfold is_ascii_alphabetic, is_ascii_lower, is_ascii_upper, in_range, is_ascii in *. change (c_of "#") with 35%N in Ed. change (c_of ";") with 59%N. clear -Ed. rewrite N.ltb_lt. rewrite !orb_true_iff, !andb_true_iff, !N.leb_le, N.eqb_eq in Ed. lia. }
    assert (Y : s ++ lit ";" = c_of "&" :: d :: take_while f t2).
    { apply (app_inj_blen _ _ rest (drop_while f t2)).
      - rewrite <- Es. cbn [app]. now rewrite take_drop_while.
      - rewrite El. cbn [blen]. rewrite (utf8_len_ascii d) by apply Hd. reflexivity. }
    assert (Z : In (c_of ";") (c_of "&" :: d :: take_while f t2)) by (rewrite <- Y; apply in_or_app; right; now left).
    destruct Z as [Z|[Z|Z]]; [discriminate|now apply (proj2 Hd)|].
    pose proof (take_while_all f t2) as F. rewrite forallb_forall in F. apply F in Z. unfold f in Z. rewrite N.eqb_refl, andb_false_r in Z. discriminate. }
  arm.
  { destruct t as [|d t2].
    - intros [= <- <- <-]. split; [discriminate|]. intros text rest a b Es El. split; [reflexivity|]. cbn [tk_text]. destruct text as [|x text]; [discriminate|]. cbn in Es. injection Es as <- Es.
      symmetry in Es. apply app_eq_nil in Es as [-> _]. apply N.eqb_eq in E5. now subst.
    - repeat (arm; try discriminate); try (intros [= <- <- <-]; split; [discriminate|]; intros; reflexivity).
      all: destruct (split_bytes _ _) as [[ds r]|]; try discriminate; arm; try discriminate; intros [= <- <- <-]; split; [discriminate|]; intros; reflexivity. }
  arm.
  { destruct (find_sub _ _) as [[content fc]|]; [arm; [|arm; [|discriminate]]|].
    all: intros [= <- <- <-]; split; [discriminate|]; intros; cbn; eauto. }
  arm.
  { arm; [destruct (find_sub _ _) as [[? ?]|]; discriminate|].
    arm; [|discriminate]. apply next_is_inv in E9 as (d & t2 & -> & Ed). apply N.eqb_eq in Ed, E7. cbn [List.tl].
    assert (K : forall len0, 2 <= len0 -> forall text rest a b, c :: d :: t2 = text ++ rest -> blen text = len0 -> About (SyntaxErr TagCloseMalformed) (Token RawText text a b)).
    { intros len0 L text rest a b Es El. split; [reflexivity|]. cbn [tk_text]. subst c d. destruct text as [|x [|y text]].
      - cbn in El. lia.
      - injection Es as <- _. cbn in El. lia.
      - injection Es as <- <- _. exists text. reflexivity. }
    repeat (arm; try discriminate); intros [= <- <- <-]; (split; [discriminate|]); intros text rest a b Es El; refine (K (blen text) _ text rest a b Es eq_refl); rewrite El; lia. }
  repeat (arm; try discriminate). all: try (intros [= <- <- <-]; discriminate). all: try discriminate.
Qed.
Lemma lex_errs fuel : forall rest cur dir l e, lex fuel rest cur dir = Ret (l, e) ->
  Forall (fun x => exists tok, In tok l /\ tk_start tok = fst (snd x) /\ About (SyntaxErr (fst x)) tok) e.
Proof.
  induction fuel as [|fuel IH]; intros rest cur dir l e.
  - destruct rest; [intros [= <- <-]; constructor|discriminate].
  - destruct rest as [|c t]; [intros [= <- <-]; constructor|]. intro H.
    apply lex_step in H as (len & k & err & text & rest' & toks & errs & Hn & Nt & El & Es & L & -> & ->).
    apply Forall_app. split.
    + destruct err as [x|]; [|constructor]. constructor; [|constructor]. eexists. split; [now left|]. cbn [fst snd tk_start]. split; [reflexivity|].
      apply next_err in Hn as [Hq Ha]. replace (set_quote_dir k dir) with k by (destruct k; try reflexivity; now destruct (Hq k d)). exact (Ha _ _ _ _ Es El).
    + eapply Forall_impl; [|eapply IH, L]. intros x (tok & A & B). exists tok. split; [now right|exact B].
Qed.
Lemma stripped_incl all toks : Stripped all toks -> incl toks all.
Proof.
  assert (G : forall g r, GapToken g r -> incl r g).
  { intros g r []; intros x Hx; [destruct Hx|destruct Hx as [<-|[]]; apply in_or_app; right; now left..]. }
  induction 1 as [gap r F Hg|gap r t rest out F Hg St H IH]; [now apply G|]. apply G in Hg. intros x Hx. apply in_app_or in Hx. apply in_or_app. destruct Hx as [Hx|[<-|Hx]]; [left; auto|right; now left|].
  right. right. now apply IH.
Qed.
Lemma known_token src b toks errs t : tokenize src b = Ret (toks, errs) -> In t toks ->
  (tk_kind t = Name -> tk_text t <> n_anonymous) /\ (tk_kind t = VarName -> exists n, tk_text t = dollar ++ n).
Proof.
  intros H Hin. destruct (token_at _ _ _ _ _ H Hin) as (before & after & len & k & err & d & Es & _ & _ & Hn & Hl & Ek & _).
  assert (K : In k [Name; VarName] -> Lexeme k (tk_text t)).
  { intro I0. assert (L : LexOk (tk_text t ++ after) len k).
    { eapply next_token_lex; [|exact Hn]. intros s E. exfalso. rewrite E in Hn. clear -Hn I0. cbn in Hn. destruct s as [|c s].
      - injection Hn as <- <- <-. cbn in I0. intuition discriminate.
      - repeat match type of Hn with context [match ?x with _ => _ end] => destruct x; try discriminate Hn end; injection Hn as <- <- <-; cbn in I0; intuition discriminate. }
    destruct L as (text & rest & Et & Bt & X); [cbn in *; intuition|]. apply app_inj_blen in Et; [|congruence]. now destruct Et as [-> _]. }
  split; intro E.
  - assert (k = Name) as -> by (clear -E Ek; destruct k; cbn in *; congruence). specialize (K ltac:(cbn; auto)). inversion K as [c n Hc Eq| | | | | | |? ? X]; [|exfalso; cbn in X; intuition]. intro Y. injection Y as -> _. unfold Letter in Hc. lia.
  - assert (k = VarName) as -> by (clear -E Ek; destruct k; cbn in *; congruence). specialize (K ltac:(cbn; auto)). inversion K as [|n Hc Eq| | | | | |? ? X]; [|exfalso; cbn in X; intuition]. now exists n.
Qed.
Lemma parse_where decode regex_ok src text nodes ds : parse_pos decode regex_ok src text = Ret (nodes, ds) ->
  exists all errs, tokenize text false = Ret (all, errs) /\
    forall e p, In (e, p) ds -> (AtEnd e /\ p = blen text) \/ exists tok, In tok all /\ tk_start tok = p /\ About e tok.
Proof.
  unfold parse_pos. destruct (tokenize text true) as [[toks errs']| |] eqn:Ht; try discriminate. cbn [obind fst snd].
  destruct (tokenize_both text true false) as [[all errs] Ha]; [eauto|]. destruct (tokenize_stripped _ _ _ _ _ Ha Ht) as [St ->]. intro H. exists all, errs. split; [exact Ha|].
  assert (J0 : J all (blen text) (QState toks (List.map (fun e => (SyntaxErr (fst e), fst (snd e))) errs))).
  { split; [now apply stripped_incl|]. cbn [qs_diags]. apply Forall_map. pose proof Ha as Hl. apply tokenize_all, lex_errs in Hl. eapply Forall_impl; [|exact Hl]. intros x Hx. right. exact Hx. }
  pose proof (w_root all (blen text) (fun t => known_token _ _ _ _ t Ha) src decode regex_ok _ J0) as K.
  assert (G : Forall (Good all (blen text)) ds).
  { destruct (q_root _ _ _ _ _) as [ns s|s| |]; try discriminate; injection H as <- <-; apply K. }
  intros e p Hin. rewrite Forall_forall in G. exact (G _ Hin).
Qed.
Lemma parse_line_col decode regex_ok src text nodes ds e p :
  Forall (fun c => (c < 128)%N) text -> parse_pos decode regex_ok src text = Ret (nodes, ds) -> In (e, p) ds ->
  exists before after line col, text = before ++ after /\ index_to_line_col text p = Ret (line, col) /\ LineCol before line col /\
    ((AtEnd e /\ after = []) \/ exists tok rest, About e tok /\ tk_text tok <> [] /\ after = tk_text tok ++ rest).
Proof.
  intros Asc H Hin. destruct (parse_where _ _ _ _ _ _ H) as (all & errs & Ht & K). destruct (K _ _ Hin) as [[He ->]|(tok & I0 & E & A)].
  - destruct (line_col_ascii text []) as (line & col & L1 & L2); [now rewrite app_nil_r|]. rewrite app_nil_r in L1. exists text, [], line, col. rewrite app_nil_r. auto 8.
  - destruct (token_at _ _ _ _ _ Ht I0) as (b & a & len & k & err & d & E1 & E2 & E3 & Hn & Hl & _).
    destruct (line_col_ascii b (tk_text tok ++ a)) as (line & col & L1 & L2); [now rewrite <- E1|]. rewrite <- E1, <- E2, E in L1. exists b, (tk_text tok ++ a), line, col.
    repeat split; auto. right. exists tok, a. repeat split; auto. intro N0. apply tokenize_all in Ht. clear -Ht I0 N0.
    assert (Ne : forall fuel rest cur dir l e, lex fuel rest cur dir = Ret (l, e) -> In tok l -> tk_text tok <> []).
    { induction fuel as [|fuel IH]; intros rest cur dir l e.
      - destruct rest; [intros [= <- <-] []|discriminate].
      - destruct rest as [|c t]; [intros [= <- <-] []|]. intro H.
        apply lex_step in H as (len & k & err & text0 & rest' & toks & errs0 & Hn & Nt & El & Es & L & -> & ->). intros [<-|Hin]; [exact Nt|]. exact (IH _ _ _ _ _ L Hin). }
    now apply (Ne _ _ _ _ _ _ Ht).
Qed.
