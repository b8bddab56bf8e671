(** The parser does not see layout (C81): on token lists that differ in positions and in the text of white space only, it does
    the same. *)
From Verif Require Import Base BaseFacts M_Text M_Names M_TagInfo M_Token M_Tokenizer M_TokenText M_TextSubs M_Types M_Diag M_Queue M_Ast M_Parser.

Definition blank (s : str) : Prop := exists c t, s = c :: t /\ (c < 65)%N.
Definition white_kind (k : token_kind) : bool := match k with Whitespace | Newline => true | _ => false end.
Definition same (t t' : token) : Prop :=
  tk_kind t' = tk_kind t /\ (tk_text t' = tk_text t \/ white_kind (tk_kind t) = true /\ blank (tk_text t) /\ blank (tk_text t')).
Definition adj (e e' : nat) (u u' : token) : Prop := white_kind (tk_kind u) = false -> (e =? tk_start u) = (e' =? tk_start u').
Inductive Toks : list token -> list token -> Prop :=
| toks_nil : Toks [] []
| toks_cons t t' l l' : same t t' -> (white_kind (tk_kind t) = false -> Forall2 (adj (tk_end t) (tk_end t')) l l') -> Toks l l' -> Toks (t :: l) (t' :: l').
Definition S2 (ends : list (nat * nat)) (s s' : pstate) : Prop :=
  ps_diags s' = ps_diags s /\ Toks (ps_tokens s) (ps_tokens s') /\ Forall (fun e => Forall2 (adj (fst e) (snd e)) (ps_tokens s) (ps_tokens s')) ends.
Definition res2 {A} (Q : A -> A -> Prop) ends (r r' : pres A) : Prop :=
  match r, r' with
  | POk a s, POk a' s' => Q a a' /\ S2 ends s s'
  | PErr s, PErr s' => S2 ends s s'
  | PPanic, PPanic | PFuel, PFuel => True
  | _, _ => False
  end.
Definition Rel {A} (Q : A -> A -> Prop) (m m' : PM A) : Prop := forall ends s s', S2 ends s s' -> res2 Q ends (m s) (m' s').
Inductive opt2 {A} (Q : A -> A -> Prop) : option A -> option A -> Prop :=
| opt2_none : opt2 Q None None
| opt2_some a a' : Q a a' -> opt2 Q (Some a) (Some a').
Inductive prod2 {A B} (P : A -> A -> Prop) (Q : B -> B -> Prop) : A * B -> A * B -> Prop :=
| prod2_pair a a' b b' : P a a' -> Q b b' -> prod2 P Q (a, b) (a', b').
Definition samek (k : token_kind) (t t' : token) : Prop := same t t' /\ tk_kind t = k.

Lemma same_kind t t' : same t t' -> tk_kind t' = tk_kind t. Proof. now intros [H _]. Qed.
Lemma same_text t t' : same t t' -> white_kind (tk_kind t) = false -> tk_text t' = tk_text t. Proof. intros [_ [H|[H _]]]; congruence. Qed.
Lemma same_is_kind k t t' : same t t' -> is_kind k t' = is_kind k t. Proof. intro H. unfold is_kind. now rewrite (same_kind _ _ H). Qed.
Lemma same_token_text t t' : same t t' -> token_text t' = token_text t.
Proof. intros [K [E|(W & _)]]; unfold token_text; rewrite K; [now rewrite E|]. destruct (tk_kind t); try discriminate W; reflexivity. Qed.
Lemma same_doctype t t' : same t t' -> eq_ignore_case (tk_text t') (lit "DOCTYPE") = eq_ignore_case (tk_text t) (lit "DOCTYPE").
Proof.
  intros [_ [->|(_ & (c & l & -> & L) & (c' & l' & -> & L'))]]; [reflexivity|].
  assert (Z : forall c l, (c < 65)%N -> eq_ignore_case (c :: l) (lit "DOCTYPE") = false).
  { clear. intros c l L. unfold eq_ignore_case. destruct (str_eqb_spec (ascii_lower (c :: l)) (ascii_lower (lit "DOCTYPE"))) as [E|]; [|reflexivity].
    exfalso. apply (f_equal (hd 0%N)) in E. cbn [ascii_lower List.map hd] in E. unfold lower_char in E at 1. unfold in_range in E.
    destruct (N.leb_spec 65 c) as [H|_]; [lia|]. cbn [andb] in E. rewrite E in L. vm_compute in L. discriminate L. }
  now rewrite !Z.
Qed.
Lemma same_close n t t' : same t t' -> is_close_tag n t' = is_close_tag n t.
Proof.
  intro H. unfold is_close_tag. rewrite (same_is_kind _ _ _ H). destruct (is_kind CloseTag t) eqn:E; [|reflexivity].
  unfold is_kind, kind_eqb in E. destruct (kind_eq_dec _ _) as [K|]; [|discriminate E]. now rewrite (same_text _ _ H) by now rewrite K.
Qed.

Lemma r_ret {A} (Q : A -> A -> Prop) a a' : Q a a' -> Rel Q (pret a) (pret a'). Proof. intros H e s s' Hs. now split. Qed.
Lemma r_ret_eq {A} (a : A) : Rel eq (pret a) (pret a). Proof. now apply r_ret. Qed.
Lemma r_bind {A B} (Q : A -> A -> Prop) (P : B -> B -> Prop) (m m' : PM A) (f f' : A -> PM B) :
  Rel Q m m' -> (forall a a', Q a a' -> Rel P (f a) (f' a')) -> Rel P (pbind m f) (pbind m' f').
Proof.
  intros H K e s s' Hs. specialize (H e s s' Hs). unfold pbind. destruct (m s), (m' s'); cbn in H; try contradiction; auto.
  destruct H as [Hq Hs']. exact (K _ _ Hq e _ _ Hs').
Qed.
Lemma s2_add ends s s' e : S2 ends s s' -> S2 ends (PState (ps_tokens s) (ps_diags s ++ [e])) (PState (ps_tokens s') (ps_diags s' ++ [e])).
Proof. intros (A & B & C). split; [cbn; now rewrite A|]. now split. Qed.
Lemma r_report e : Rel eq (preport e) (preport e). Proof. intros ends s s' H. split; [reflexivity|]. now apply s2_add. Qed.
Lemma r_serr e : Rel eq (serr e) (serr e). Proof. apply r_report. Qed.
Lemma r_pfail {A} Q e : Rel Q (@pfail A e) (pfail e). Proof. intros ends s s' H. now apply s2_add. Qed.
Lemma r_sfail {A} Q e : Rel Q (@sfail A e) (sfail e). Proof. apply r_pfail. Qed.
Lemma r_ice {A} Q : Rel Q (@p_ice A) p_ice. Proof. intros ends s s' H. exact I. Qed.
Lemma r_fuel {A} (Q : A -> A -> Prop) : Rel Q (fun _ => PFuel) (fun _ => PFuel). Proof. intros ends s s' H. exact I. Qed.
Lemma r_ok {A} (Q : A -> A -> Prop) m m' : Rel Q m m' -> Rel (opt2 Q) (p_ok m) (p_ok m').
Proof.
  intros H e s s' Hs. specialize (H e s s' Hs). unfold p_ok. destruct (m s), (m' s'); cbn in H; try contradiction; auto.
  - destruct H. split; [now constructor|assumption].
  - split; [constructor|assumption].
Qed.
Lemma r_map_err {A} (Q : A -> A -> Prop) m m' h h' : Rel Q m m' -> Rel eq h h' -> Rel Q (map_err m h) (map_err m' h').
Proof.
  intros H K e s s' Hs. specialize (H e s s' Hs). unfold map_err. destruct (m s), (m' s'); cbn in H; try contradiction; auto.
  specialize (K e _ _ H). destruct (h _), (h' _); cbn in K; try contradiction; auto. exact (proj2 K).
Qed.
Lemma toks_length l l' : Toks l l' -> length l' = length l. Proof. induction 1; cbn; congruence. Qed.
Lemma r_loop {A} (Q : A -> A -> Prop) f f' : (forall fuel, Rel Q (f fuel) (f' fuel)) -> Rel Q (with_fuel f) (with_fuel f').
Proof. intros H e s s' Hs. unfold with_fuel. rewrite (toks_length _ _ (proj1 (proj2 Hs))). now apply H. Qed.
Lemma s2_next ends t t' l l' d d' : S2 ends (PState (t :: l) d) (PState (t' :: l') d') ->
  same t t' /\ S2 ends (PState l d) (PState l' d') /\ (white_kind (tk_kind t) = false -> S2 ((tk_end t, tk_end t') :: ends) (PState l d) (PState l' d')).
Proof.
  intros (A & B & C). cbn [ps_tokens ps_diags] in *. inversion B as [|? ? ? ? B1 B2 B3].
  assert (D : Forall (fun e => Forall2 (adj (fst e) (snd e)) l l') ends) by (eapply Forall_impl; [|exact C]; cbn; intros e Z; now inversion Z).
  split; [exact B1|]. split; [now split|]. intro W. split; [exact A|]. split; [exact B3|]. constructor; [exact (B2 W)|exact D].
Qed.
Lemma s2_weak p ends s s' : S2 (p :: ends) s s' -> S2 ends s s'.
Proof. intros (A & B & C). split; [exact A|]. split; [exact B|]. now inversion C. Qed.
Lemma s2_cases ends s s' : S2 ends s s' ->
  (ps_tokens s = [] /\ ps_tokens s' = []) \/
  exists t t' l l', ps_tokens s = t :: l /\ ps_tokens s' = t' :: l' /\ same t t' /\ S2 ends (PState l (ps_diags s)) (PState l' (ps_diags s')) /\
    (white_kind (tk_kind t) = false -> S2 ((tk_end t, tk_end t') :: ends) (PState l (ps_diags s)) (PState l' (ps_diags s'))).
Proof.
  destruct s as [[|t l] d], s' as [[|t' l'] d']; intro H; cbn [ps_tokens ps_diags]; [now left| | |].
  - destruct H as (_ & B & _). inversion B.
  - destruct H as (_ & B & _). inversion B.
  - right. exists t, t', l, l'. apply s2_next in H. split; [reflexivity|]; split; [reflexivity|]; assumption.
Qed.
Lemma r_poll : Rel (opt2 same) poll poll.
Proof.
  intros e s s' H. unfold poll. destruct (s2_cases _ _ _ H) as [[-> ->]|(t & t' & l & l' & -> & -> & A & B & _)]; [split; [constructor|exact H]|].
  split; [now constructor|exact B].
Qed.
Lemma r_peek : Rel (opt2 same) peek peek.
Proof.
  intros e s s' H. unfold peek. split; [|exact H]. destruct (s2_cases _ _ _ H) as [[-> ->]|(t & t' & l & l' & -> & -> & A & B & _)]; now constructor.
Qed.
Lemma r_poll_if_gen (p p' : token -> bool) (Q : token -> token -> Prop) : (forall t t', same t t' -> p' t' = p t) -> (forall t t', same t t' -> p t = true -> Q t t') ->
  Rel (opt2 Q) (poll_if p) (poll_if p').
Proof.
  intros E F e s s' H. unfold poll_if, peek, pbind. destruct (s2_cases _ _ _ H) as [[Z Z']|(t & t' & l & l' & Z & Z' & A & B & _)]; rewrite Z, Z'; cbn [hd_error].
  - split; [constructor|exact H].
  - rewrite (E t t' A). destruct (p t) eqn:P; [|split; [constructor|exact H]]. unfold poll. rewrite Z, Z'. split; [constructor; auto|exact B].
Qed.
Lemma r_poll_if_kind k : Rel (opt2 (samek k)) (poll_if_kind k) (poll_if_kind k).
Proof.
  apply r_poll_if_gen; intros t t' H; [now rewrite (same_kind _ _ H)|]. unfold kind_eqb. destruct (kind_eq_dec _ _) as [E|]; [|discriminate]. intros _. now split.
Qed.
Lemma r_expect_poll : Rel same expect_poll expect_poll.
Proof. eapply r_bind; [apply r_poll|]. intros ? ? []; [apply r_pfail|now apply r_ret]. Qed.
Lemma r_expect_poll_kind k : Rel (samek k) (expect_poll_kind k) (expect_poll_kind k).
Proof.
  intros e s s' H. unfold expect_poll_kind, peek, pbind. destruct (s2_cases _ _ _ H) as [[Z Z']|(t & t' & l & l' & Z & Z' & A & B & _)]; rewrite Z, Z'; cbn [hd_error].
  - unfold expect_poll, poll, pbind. rewrite Z, Z'. now apply s2_add.
  - rewrite (same_kind _ _ A). unfold kind_eqb. destruct (kind_eq_dec _ _) as [E|]; cbn [negb]; [|now apply s2_add].
    unfold expect_poll, poll, pbind. rewrite Z, Z'. split; [now split|exact B].
Qed.
Lemma r_skip : Rel eq skip_whitespace skip_whitespace.
Proof.
  eapply r_bind; [apply (r_poll_if_gen _ _ same)|intros; now apply r_ret]; [|auto]. intros t t' H. unfold tok_is_whitespace. now rewrite (same_kind _ _ H).
Qed.
Lemma r_has_next p : (forall t t', same t t' -> p t' = p t) -> Rel eq (has_next p) (has_next p).
Proof. intro E. eapply r_bind; [apply r_peek|]. intros ? ? [|t t' H]; [apply r_ret_eq|]. apply r_ret. symmetry. now apply E. Qed.

Lemma same_white t t' : same t t' -> white_kind (tk_kind t) = true -> white_kind (tk_kind t') = true. Proof. intro H. now rewrite (same_kind _ _ H). Qed.
Lemma samek_text k t t' : samek k t t' -> white_kind k = false -> tk_text t' = tk_text t. Proof. intros [H E] W. apply same_text; congruence. Qed.
Lemma samek_same k t t' : samek k t t' -> same t t'. Proof. now intros [H _]. Qed.

Create HintDb rel.
Global Hint Resolve r_ret_eq r_report r_serr r_pfail r_sfail r_ice r_fuel r_poll r_peek r_poll_if_kind r_expect_poll r_expect_poll_kind r_skip samek_same : rel.
(** Replace whatever is asked of the second token by what is asked of the first. *)
Ltac align := repeat match goal with
  | H : same ?t ?t' |- context [tk_kind ?t'] => rewrite (same_kind t t' H)
  | H : same ?t ?t' |- context [is_kind ?k ?t'] => rewrite (same_is_kind k t t' H)
  | H : same ?t ?t' |- context [is_close_tag ?k ?t'] => rewrite (same_close k t t' H)
  | H : same ?t ?t' |- context [token_text ?t'] => rewrite (same_token_text t t' H)
  | H : same ?t ?t', K : tk_kind ?t = _ |- context [tk_text ?t'] => rewrite (same_text t t' H) by (rewrite K; reflexivity)
  | H : same ?t ?t', K : ?k = tk_kind ?t |- context [tk_text ?t'] => rewrite (same_text t t' H) by (rewrite <- K; reflexivity)
  | H : same ?t ?t', K : tk_kind ?t = ?k |- context [tk_kind ?t] => rewrite K
  end.
Ltac opened := repeat match goal with
  | H : opt2 _ _ _ |- _ => destruct H
  | H : prod2 _ _ _ _ |- _ => destruct H
  | H : samek _ _ _ |- _ => destruct H
  | H : ?a = ?b |- _ => first [is_var a; match type of a with token_kind => fail 2 | _ => subst a end|is_var b; match type of b with token_kind => fail 2 | _ => subst b end]
  end; cbn [is_some fst snd]; align.
Ltac rs := repeat (cbv zeta; cbn [fst snd];
    lazymatch goal with
    | |- forall _, _ => intro; opened
    | |- Rel _ (pbind ?m _) (pbind ?m' _) => first [eapply r_bind; [solve [eauto 3 with rel nocore]|]|apply (r_bind eq)]
    | |- Rel (opt2 _) (p_ok _) (p_ok _) => apply r_ok
    | |- Rel _ (map_err _ _) (map_err _ _) => apply r_map_err
    | |- Rel _ (with_fuel _) (with_fuel _) => apply r_loop
    | |- Rel _ (match tk_kind ?t with _ => _ end) (match tk_kind ?t with _ => _ end) => destruct (tk_kind t) eqn:?; align
    | |- Rel _ (match ?x with _ => _ end) (match ?x with _ => _ end) => destruct x eqn:?; align
    | |- Rel eq (pret _) (pret _) => apply r_ret; first [reflexivity|congruence]
    | |- _ => solve [eauto 4 with rel nocore]
    end).
Lemma r_group_type t tok tok' : same tok tok' -> white_kind (tk_kind tok) = false -> Rel eq (group_type t tok) (group_type t tok').
Proof. intros H W. unfold group_type. rewrite (same_text _ _ H W). rs. Qed.
Lemma r_groups fuel : forall t, Rel eq (parse_groups fuel t) (parse_groups fuel t).
Proof.
  induction fuel as [|fuel IH]; intro t; cbn [parse_groups]; [apply r_fuel|]. eapply r_bind; [apply r_skip|]. intros _ _ _.
  eapply r_bind; [apply (r_poll_if_gen _ _ (fun t t' => same t t' /\ white_kind (tk_kind t) = false))|].
  - intros u u' H. unfold is_group_tok. now rewrite (same_kind _ _ H).
  - intros u u' H G. split; [exact H|]. unfold is_group_tok, kind_eqb in G. destruct (tk_kind u); try reflexivity; vm_compute in G; discriminate G.
  - intros ? ? [|u u' [H W]]; [apply r_ret_eq|]. eapply r_bind; [now apply r_group_type|]. intros ? ? <-. apply IH.
Qed.
Lemma r_type : Rel eq parse_type parse_type.
Proof.
  unfold parse_type. rs. intros e s s' Z. rewrite (toks_length _ _ (proj1 (proj2 Z))). now apply r_groups.
Qed.
Global Hint Resolve r_type : rel.
Lemma r_tok_name t t' : same t t' -> Rel eq (tok_name_id t) (tok_name_id t'). Proof. intro H. unfold tok_name_id. align. rs. Qed.
Lemma r_lowercase t t' : same t t' -> Rel eq (tok_lowercase_name_id t) (tok_lowercase_name_id t').
Proof. intro H. unfold tok_lowercase_name_id, is_kind. align. unfold kind_eqb. destruct (kind_eq_dec _ _); [|apply r_ice]. align. rs. Qed.
Lemma r_number t t' : same t t' -> white_kind (tk_kind t) = false -> Rel eq (p_number t) (p_number t'). Proof. intros H W. unfold p_number. rewrite (same_text _ _ H W). rs. Qed.
Lemma r_unescape t t' : same t t' -> white_kind (tk_kind t) = false -> Rel eq (p_unescape t) (p_unescape t'). Proof. intros H W. unfold p_unescape. rewrite (same_text _ _ H W). rs. Qed.
Lemma white_of k t : tk_kind t = k -> white_kind k = false -> white_kind (tk_kind t) = false. Proof. now intros ->. Qed.
Global Hint Resolve r_tok_name r_lowercase r_number r_unescape : rel.
Global Hint Extern 1 (white_kind (tk_kind ?t) = false) => match goal with H : tk_kind t = _ |- _ => rewrite H; reflexivity end : rel.
Lemma same_access t t' : same t t' -> is_access t' = is_access t. Proof. intro H. unfold is_access. now align. Qed.
Lemma r_name_loop fuel : forall e, Rel eq (name_loop fuel e) (name_loop fuel e).
Proof.
  induction fuel as [|fuel IH]; intro e; cbn [name_loop]; [apply r_fuel|]. eapply r_bind; [apply (r_poll_if_gen _ _ same); [apply same_access|auto]|]. rs.
Qed.
Global Hint Resolve r_name_loop : rel.
Lemma r_name t t' : same t t' -> Rel eq (parse_name t) (parse_name t'). Proof. intro H. unfold parse_name. rs. Qed.
Lemma same_has_text t t' : same t t' -> has_text t' = has_text t. Proof. intro H. unfold has_text. now align. Qed.
Lemma r_text_loop fuel : forall t, Rel eq (text_loop fuel t) (text_loop fuel t).
Proof. induction fuel as [|fuel IH]; intro t; cbn [text_loop]; [apply r_fuel|]. eapply r_bind; [apply (r_poll_if_gen _ _ same); [apply same_has_text|auto]|]. rs. Qed.
Global Hint Resolve r_name r_text_loop : rel.
Lemma r_text t t' : same t t' -> Rel eq (parse_text t) (parse_text t'). Proof. intro H. unfold parse_text. align. rs. Qed.
Lemma same_spread t t' : same t t' -> is_spread_tok t' = is_spread_tok t. Proof. intro H. unfold is_spread_tok. now align. Qed.
Lemma r_spread a b : Rel eq (poll_if_spread a b) (poll_if_spread a b).
Proof. unfold poll_if_spread. eapply r_bind; [apply (r_poll_if_gen _ _ same); [apply same_spread|auto]|]. rs. Qed.
Global Hint Resolve r_text r_spread : rel.
