(** The parser does not see layout (C81), continued. *)
From Verif Require Import Base BaseFacts M_Text M_Names M_TagInfo M_Token M_Tokenizer M_TokenText M_TextSubs M_Types M_Diag M_Queue M_Ast M_Parser P_Layout.

(** ** Templates: whether texts touch matters, too *)
Definition part2 (ends : list (nat * nat)) (p p' : template_part * nat) : Prop :=
  fst p' = fst p /\ match fst p with TPLit _ => In (snd p, snd p') ends | _ => True end.
Lemma part2_weak e ends p p' : part2 ends p p' -> part2 (e :: ends) p p'.
Proof. intros [A B]. split; [exact A|]. destruct (fst p); auto. now right. Qed.
Lemma parts2_weak e ends ps ps' : Forall2 (part2 ends) ps ps' -> Forall2 (part2 (e :: ends)) ps ps'.
Proof. induction 1; constructor; [now apply part2_weak|assumption]. Qed.
Lemma parts2_fst ends ps ps' : Forall2 (part2 ends) ps ps' -> List.map fst ps' = List.map fst ps.
Proof. induction 1 as [|p p' ps ps' [A _] _ IH]; cbn; congruence. Qed.
Lemma forall2_rev {A B} (Q : A -> B -> Prop) l l' : Forall2 Q l l' -> Forall2 Q (rev l) (rev l').
Proof. induction 1; cbn; [constructor|]. apply Forall2_app; [assumption|]. constructor; [assumption|constructor]. Qed.
Lemma res2_weak {A} (Q : A -> A -> Prop) e ends r r' : res2 Q (e :: ends) r r' -> res2 Q ends r r'.
Proof.
  destruct r, r'; cbn; auto; [intros [H K]; split; [exact H|]|intro K]; now apply s2_weak in K.
Qed.
Definition TR := prod2 (@eq (list template_part)) (Forall2 same).
Lemma poll_step {B} (P : B -> B -> Prop) ends s s' h h' (f f' : token -> PM B) : S2 ends s s' -> Rel eq h h' ->
  (forall t t' r r', same t t' -> S2 ends r r' -> (white_kind (tk_kind t) = false -> S2 ((tk_end t, tk_end t') :: ends) r r') ->
     (white_kind (tk_kind t) = false -> forall e e', In (e, e') ends -> (e' =? tk_start t') = (e =? tk_start t)) ->
     res2 P ends (f t r) (f' t' r')) ->
  res2 P ends (pbind (map_err expect_poll h) f s) (pbind (map_err expect_poll h') f' s').
Proof.
  intros Hs K H. destruct (s2_cases _ _ _ Hs) as [[E E']|(t & t' & l & l' & E & E' & T & Hs0 & Hs1)].
  - specialize (K ends _ _ (s2_add _ _ _ (SyntaxErr UnexpectedEOF) Hs)). rewrite E, E' in K.
    unfold pbind, map_err, expect_poll, pbind, poll, pfail. rewrite E, E'. rewrite ?E, ?E'. destruct (h _), (h' _); cbn in K; try contradiction; auto. exact (proj2 K).
  - unfold pbind, map_err, expect_poll, pbind, poll, pret. rewrite E, E'. apply H; [exact T|exact Hs0|exact Hs1|].
    intros W e e' I. destruct Hs as (_ & _ & F). rewrite Forall_forall in F. specialize (F _ I). cbn [fst snd] in F. rewrite E, E' in F. inversion F as [|? ? ? ? F1 F2]; subst. symmetry. now apply F1.
Qed.
Lemma rel_at {A} (Q : A -> A -> Prop) m m' ends s s' : Rel Q m m' -> S2 ends s s' -> res2 Q ends (m s) (m' s'). Proof. intros H. apply H. Qed.
Lemma bind_at {A B} (Q : A -> A -> Prop) (P : B -> B -> Prop) ends s s' m m' (f f' : A -> PM B) : Rel Q m m' -> S2 ends s s' ->
  (forall a a' r r', Q a a' -> S2 ends r r' -> res2 P ends (f a r) (f' a' r')) -> res2 P ends (pbind m f s) (pbind m' f' s').
Proof. intros H Hs K. specialize (H _ _ _ Hs). unfold pbind. destruct (m s), (m' s'); cbn in H; try contradiction; auto. destruct H. now apply K. Qed.
Lemma r_template_loop decode fuel : forall open open' k ends parts parts' braces braces' s s', same open open' ->
  Forall2 (part2 ends) parts parts' -> Forall2 same braces braces' -> S2 ends s s' ->
  res2 TR ends (template_loop fuel decode open k parts braces s) (template_loop fuel decode open' k parts' braces' s').
Proof.
  induction fuel as [|fuel IH]; intros open open' k ends parts parts' braces braces' s s' O P B Hs; [exact I|].
  cbn [template_loop]. apply poll_step; [exact Hs|rewrite (same_kind _ _ O); apply r_serr|]. clear s s' Hs. intros t t' s s' T Hs HsE ADJ. cbv zeta.
  assert (Z : forall x e e', (match x with TPLit _ => False | _ => True end) -> part2 ends (x, e) (x, e')) by (intros x e e' H; split; [reflexivity|]; cbn [fst]; destruct x; auto; contradiction).
  assert (L : white_kind (tk_kind t) = false -> res2 TR ends
     (match parts with
      | (TPLit s, end_) :: before => if end_ =? tk_start t then template_loop fuel decode open k ((TPLit (s ++ tk_text t), tk_end t) :: before) braces
                                     else template_loop fuel decode open k ((TPLit (tk_text t), tk_end t) :: parts) braces
      | _ => template_loop fuel decode open k ((TPLit (tk_text t), tk_end t) :: parts) braces end s)
     (match parts' with
      | (TPLit s, end_) :: before => if end_ =? tk_start t' then template_loop fuel decode open' k ((TPLit (s ++ tk_text t'), tk_end t') :: before) braces'
                                     else template_loop fuel decode open' k ((TPLit (tk_text t'), tk_end t') :: parts') braces'
      | _ => template_loop fuel decode open' k ((TPLit (tk_text t'), tk_end t') :: parts') braces' end s')).
  { intro W. rewrite (same_text _ _ T W). specialize (HsE W). specialize (ADJ W). apply res2_weak with (e := (tk_end t, tk_end t')).
    assert (P1 := parts2_weak (tk_end t, tk_end t') _ _ _ P). set (E := (tk_end t, tk_end t') :: ends) in *.
    assert (ZE : forall q, part2 E (TPLit q, tk_end t) (TPLit q, tk_end t')) by (intro; split; [reflexivity|now left]).
    assert (N : res2 TR E (template_loop fuel decode open k ((TPLit (tk_text t), tk_end t) :: parts) braces s)
                  (template_loop fuel decode open' k ((TPLit (tk_text t), tk_end t') :: parts') braces' s')).
    { apply IH; auto. }
    destruct P as [|[x e] [x' e'] before before' [X Y] P2]; [exact N|]. cbn [fst snd] in X, Y. subst x'. destruct x as [q|c|n|]; try exact N.
    rewrite (ADJ _ _ Y). destruct (e =? tk_start t); [|exact N]. inversion P1; subst. apply IH; auto. }
  rewrite (same_kind _ _ T). destruct (tk_kind t) eqn:K; try (apply L; reflexivity).
  - apply IH; auto; (constructor; [now apply Z|exact P]).
  - eapply bind_at; [apply r_serr|exact Hs|]. intros _ _ s1 s1' _ Hs1. now apply IH.
  - eapply bind_at; [apply r_unescape; [exact T|now rewrite K]|exact Hs|]. intros c ? s1 s1' <- Hs1. apply IH; auto; (constructor; [now apply Z|exact P]).
  - rewrite (same_text _ _ T) by now rewrite K. destruct (decode_entity decode (tk_text t)) as [c e]. eapply bind_at; [|exact Hs|].
    + destruct e; rs.
    + intros _ _ s1 s1' _ Hs1. apply IH; auto; (constructor; [now apply Z|exact P]).
  - eapply bind_at; [apply r_ok, r_name; exact T|exact Hs|]. intros ? ? s1 s1' [|n n' ->] Hs1; apply IH; auto; (constructor; [now apply Z|exact P]).
  - eapply bind_at; [apply r_serr|exact Hs|]. intros _ _ s1 s1' _ Hs1. now apply IH.
  - eapply bind_at; [apply r_skip|exact Hs|]. intros _ _ s1 s1' _ Hs1. apply IH; auto.
  - destruct B as [|b b' braces braces' Hb B].
    + eapply bind_at; [apply r_serr|exact Hs|]. intros _ _ s1 s1' _ Hs1. apply IH; auto.
    + destruct P as [|[x e] [x' e'] before before' [X Y] P2]; [now apply IH|]. cbn [fst snd] in X, Y. subst x'.
      assert (part2 ends (x, e) (x, e')) by now split. destruct x; apply IH; auto.
  - match goal with |- context [if ?b then _ else _] => destruct b end; [|apply L; reflexivity]. split; [|exact Hs]. constructor; [now rewrite (parts2_fst _ _ _ P)|now apply forall2_rev].
Qed.
Lemma r_report_unmatched l l' : Forall2 same l l' -> Rel eq (report_unmatched l) (report_unmatched l').
Proof. induction 1 as [|t t' l l' H _ IH]; cbn [report_unmatched]; [apply r_ret_eq|]. align. rs. Qed.
Lemma r_template_parts decode open open' k : same open open' -> Rel eq (parse_template_parts decode open k) (parse_template_parts decode open' k).
Proof.
  intro H. unfold parse_template_parts. eapply (r_bind TR).
  - apply r_loop. intros fuel ends s s' Hs. apply r_template_loop; auto.
  - intros ? ? [parts ? braces braces' <- B]. cbn [fst snd]. eapply r_bind; [now apply r_report_unmatched|]. intros. apply r_ret_eq.
Qed.
Lemma r_check_args l : forall a u, Rel eq (check_args l a u) (check_args l a u). Proof. induction l as [|[x k e] l IH]; intros; cbn [check_args]; rs. Qed.
Lemma r_check_attrs l : forall u, Rel eq (check_attrs l u) (check_attrs l u). Proof. induction l as [|[x k e|e] l IH]; intros; cbn [check_attrs]; rs. Qed.
Lemma r_name_pattern t t' : same t t' -> Rel eq (parse_name_pattern t) (parse_name_pattern t'). Proof. intro H. unfold parse_name_pattern. rs. Qed.
Lemma r_template_regex parts : forall re vars, Rel eq (template_regex parts re vars) (template_regex parts re vars).
Proof. induction parts as [|[s|c|[x|x b a|x b i]|] parts IH]; intros; cbn [template_regex]; rs. Qed.
Global Hint Resolve r_template_parts r_check_args r_check_attrs r_name_pattern r_template_regex : rel.

Lemma r_separated {A} open open' (p p' : PM A) sep close : same open open' -> Rel eq p p' -> Rel (prod2 (@eq (list A)) (samek close)) (parse_separated_until open p sep close) (parse_separated_until open' p' sep close).
Proof.
  intros O H. unfold parse_separated_until. apply r_loop. intro fuel. generalize false. induction fuel as [|fuel IH]; intro b; cbn [separated_loop]; [apply r_fuel|].
  eapply r_bind; [apply r_skip|]. intros _ _ _. eapply (r_bind (opt2 (samek close))); [destruct b; [apply r_ok|]; auto with rel|].
  intros ? ? [|c c' C]; [|apply r_ret; constructor; auto]. eapply r_bind; [apply r_map_err; [exact H|]; rewrite (same_kind _ _ O); rs|]. intros x ? <-.
  eapply r_bind; [apply r_skip|]. intros _ _ _. eapply (r_bind eq); [rs|]. intros e ? <-. eapply r_bind; [apply IH|]. intros ? ? [l ? t t' <- T]. apply r_ret. now constructor.
Qed.
Lemma r_check_params rs0 : forall s, Rel eq (check_params rs0 s) (check_params rs0 s).
Proof. induction rs0 as [|[[[name q i t d] kind] u] rs0 IH]; intro s; cbn [check_params]; [rs|]. eapply (r_bind eq); [|intros ? ? <-; apply IH]. unfold check_param. rs. Qed.
Lemma r_named_args l : Rel eq (named_args l) (named_args l). Proof. induction l as [|[x k e] l IH]; cbn [named_args]; rs. Qed.
Lemma r_spread_index l : forall i o, Rel eq (spread_index l i o) (spread_index l i o). Proof. induction l as [|[p [|]] l IH]; intros; cbn [spread_index]; rs. Qed.
Lemma r_check_html l : Rel eq (check_html_patterns l) (check_html_patterns l). Proof. induction l; cbn; rs. Qed.
Lemma r_dict_parts l : forall attrs spread, Rel eq (dict_parts l attrs spread) (dict_parts l attrs spread). Proof. induction l as [|[[x|] p] l IH]; intros; cbn [dict_parts]; rs. Qed.
Global Hint Resolve r_check_params r_named_args r_spread_index r_check_html r_dict_parts : rel.
Lemma r_make_dict l simplify : Rel eq (make_dict_pattern l simplify) (make_dict_pattern l simplify). Proof. unfold make_dict_pattern. rs. Qed.
Lemma r_typed p : Rel eq (parse_optional_typed_pattern p) (parse_optional_typed_pattern p). Proof. unfold parse_optional_typed_pattern. rs. Qed.
Global Hint Resolve r_make_dict r_typed r_separated : rel.
