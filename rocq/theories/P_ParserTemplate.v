(** Template literals. *)
From Verif Require Import Base BaseFacts M_Text M_Names M_Token M_Tokenizer M_TokenText M_Types M_Diag M_Queue M_Ast M_Parser.
From Verif Require Import S_Front S_Grammar P_Tokenizer P_ParserW P_ParserLeaf.

Lemma rev_last {A} (l l' : list A) x : rev l = l' ++ [x] -> l = x :: rev l'.
Proof. intros H. rewrite <- (rev_involutive l), H, rev_unit. auto. Qed.
(** what is appended for literal text *)
Definition add_literal (t : token) (parts : list (template_part * nat)) : list (template_part * nat) :=
  match parts with
  | (TPLit s, e) :: before => if e =? tk_start t then (TPLit (s ++ tk_text t), tk_end t) :: before else (TPLit (tk_text t), tk_end t) :: parts
  | _ => (TPLit (tk_text t), tk_end t) :: parts
  end.
Lemma add_literal_ok t parts acc : AddLiteral t (rev parts) acc <-> acc = rev (add_literal t parts).
Proof.
  split.
  - intros H. remember (rev parts) as r eqn:E. destruct H as [acc s|acc N].
    + symmetry in E. apply rev_last in E. subst parts. cbn. rewrite Nat.eqb_refl. cbn. rewrite rev_involutive. auto.
    + subst acc. unfold add_literal. destruct parts as [|[[s|c|n|] e] before]; auto.
      destruct (Nat.eqb_spec e (tk_start t)) as [->|]; auto. exfalso. apply (N (rev before) s). auto.
  - intros ->. unfold add_literal. destruct parts as [|[[s|c|n|] e] before];
      try (cbn [rev]; apply al_new; intros b s0 E; apply app_inj_tail in E as [_ E]; discriminate).
    + cbn. apply (al_new t []). intros b s E. destruct b; discriminate.
    + destruct (Nat.eqb_spec e (tk_start t)) as [->|Ne]; cbn [rev].
      * apply al_join.
      * apply al_new. intros b s0 E. apply app_inj_tail in E as [_ E]. congruence.
Qed.
Definition drop_space (parts : list (template_part * nat)) : list (template_part * nat) :=
  match parts with (TPWhitespace, _) :: before => before | _ => parts end.
Lemma drop_space_ok parts acc : DropSpace (rev parts) acc <-> acc = rev (drop_space parts).
Proof.
  split.
  - intros H. remember (rev parts) as r eqn:E. destruct H as [acc e|acc N].
    + symmetry in E. apply rev_last in E. subst parts. cbn. rewrite rev_involutive. auto.
    + subst acc. unfold drop_space. destruct parts as [|[[s|c|n|] e] before]; auto. exfalso. apply (N (rev before) e). auto.
  - intros ->. unfold drop_space. destruct parts as [|[[s|c|n|] e] before];
      try (cbn [rev]; apply ds_other; intros b s0 E; apply app_inj_tail in E as [_ E]; discriminate).
    + cbn. apply ds_other. intros b e E. destruct b; discriminate.
    + cbn [rev]. apply ds_space.
Qed.

Lemma W_expect_err {B} e c (f : token -> PM B) toks Q :
  (forall t l, toks = t :: l -> LexTok t -> W c (f t) l Q) -> W c (pbind (map_err expect_poll (serr e)) f) toks Q.
Proof.
  intros H. eapply W_use with (P := fun r c' t => c' = c /\ toks = t :: r /\ LexTok t).
  - apply W_map_err; [intros s; exists [SyntaxErr e]; auto|]. unfold expect_poll, poll, pbind. intros L d. cbn. destruct toks as [|t l]; cbn.
    + exists [], [SyntaxErr UnexpectedEOF]. auto.
    + exists [t], []. cbn [clean_b forallb]. rewrite (app_nil_r d), andb_true_r. inversion L; auto.
  - intros r c' t _ _ (-> & -> & X). auto.
Qed.
Definition same_quote (a b : quote_kind) : bool := match a, b with QSingle, QSingle | QDouble, QDouble => true | _, _ => false end.
Lemma same_quote_spec a b : same_quote a b = true <-> a = b.
Proof. destruct a, b; cbn; split; congruence. Qed.
Section Template.
  Variable decode : str -> str.
  Variable open : token.
  Variable q : quote_kind.
  Lemma template_loop_spec fuel : forall parts braces,
    Spec fuel (template_loop fuel decode open q parts braces) 0
      (fun toks rest r => snd r = [] -> Parts decode q (rev parts) (length braces) toks rest (fst r)).
  Proof.
    induction fuel as [|fuel IH]; intros parts braces c toks L; [lia|]. cbn [template_loop]. apply W_expect_err.
    intros t l -> X. cbn zeta.
    assert (Hlit : ~ In (tk_kind t) template_special -> (forall d, ~ Is (Quote q d) t) -> 
      W c (match parts with
           | (TPLit s, end_) :: before =>
             if end_ =? tk_start t then template_loop fuel decode open q ((TPLit (s ++ tk_text t), tk_end t) :: before) braces
             else template_loop fuel decode open q ((TPLit (tk_text t), tk_end t) :: parts) braces
           | _ => template_loop fuel decode open q ((TPLit (tk_text t), tk_end t) :: parts) braces
           end) l (fun r c' a => length r + 0 <= length (t :: l) /\
             (c' = true -> c = true /\ (snd a = [] -> Parts decode q (rev parts) (length braces) (t :: l) r (fst a))))).
    { intros N1 N2.
      assert (W c (template_loop fuel decode open q (add_literal t parts) braces) l (fun r c' a => length r + 0 <= length (t :: l) /\
             (c' = true -> c = true /\ (snd a = [] -> Parts decode q (rev parts) (length braces) (t :: l) r (fst a))))) as G.
      { wuse IH. intros r c' a L' _ H. split; [cbn in *; lia|]. intros C. clean. split; auto. intros E.
        eapply parts_literal; eauto. apply add_literal_ok. auto. }
      unfold add_literal in G. destruct parts as [|[[s|x|n|] e] before]; auto. destruct (e =? tk_start t); auto. }
    destruct (tk_kind t) eqn:K; try (apply Hlit; [cbn; intuition congruence|unfold Is; congruence]).
    - wuse IH. intros r c' a L' _ H. split; [cbn in *; lia|]. intros C. clean. split; auto. intros E. eapply parts_space; auto.
    - w1. wuse IH. intros r c' a L' _ H. split; [cbn in *; lia|]. intros C. clean.
    - apply W_unescape; auto. intros x c1 M. wuse IH. intros r c' a L' _ H. split; [cbn in *; lia|]. intros C. clean. split; auto.
      intros E. eapply parts_escape; eauto.
    - apply W_entity. intros x c1 M. wuse IH. intros r c' a L' _ H. split; [cbn in *; lia|]. intros C. clean. split; auto.
      intros E. eapply parts_entity; eauto.
    - destruct (lex_var_name _ X K) as [n Kn]. wuse (parse_name_spec (S (length l)) _ _ Kn).
      + intros r c1 m L' _ G. wuse IH. intros r' c' a L2 _ H. split; [cbn in *; lia|]. intros C. clean. split; auto.
        intros E. eapply parts_name; eauto.
      + intros r L'. wuse IH. intros r' c' a L2 _ H. split; [cbn in *; lia|]. intros C. clean.
    - w1. wuse IH. intros r c' a L' _ H. split; [cbn in *; lia|]. intros C. clean.
    - w1. wuse IH. intros r c' a L' _ H. split; [cbn in *; lia|]. intros C. clean. split; auto. intros E.
      eapply parts_open; eauto.
    - destruct braces as [|b braces].
      + w1. wuse IH. intros r c' a L' _ H. split; [cbn in *; lia|]. intros C. clean.
      + change (match parts with (TPWhitespace, _) :: before => before | _ => parts end) with (drop_space parts).
        wuse IH. intros r c' a L' _ H. split; [cbn in *; lia|]. intros C. clean. split; auto. intros E.
        cbn [length]. eapply parts_close; eauto. apply drop_space_ok. auto.
    - change (match k with QSingle => match q with QSingle => true | QDouble => false end | QDouble => match q with QSingle => false | QDouble => true end end)
        with (same_quote k q).
      destruct (same_quote k q) eqn:E.
      + apply same_quote_spec in E as ->. w1. split; [cbn; lia|]. intros C. split; auto. cbn [fst snd]. intros Eb.
        assert (braces = []) as -> by (rewrite <- (rev_involutive braces), Eb; auto). rewrite <- map_rev.
        cbn [length]. eapply parts_end. exact K.
      + apply Hlit; [cbn; intuition congruence|]. unfold Is. rewrite K. intros d' [= -> ->].
        rewrite (proj2 (same_quote_spec q q) eq_refl) in E. discriminate.
  Qed.
  Lemma parse_template_spec N : Spec N (parse_template_parts decode open q) 0 (Parts decode q [] 0).
  Proof.
    intros c toks L. unfold parse_template_parts. eapply W_use; [apply W_fuel, (template_loop_spec _ [] []); lia|].
    intros r c' [ps bs] _ _ [L' H]. cbn [fst snd] in *. destruct bs as [|b bs]; cbn [report_unmatched].
    - w1. w1. split; [auto|]. intros C. clean. auto.
    - w1. w1. assert (forall toks, W false (report_unmatched bs;; pret ps) toks (fun r c' a => r = toks /\ c' = false)) as G.
      { clear. induction bs as [|b bs IH]; intros toks; cbn [report_unmatched]; [w1; w1; auto|]. w1. w1. apply IH. }
      eapply W_conseq; [apply G|]. cbn beta. intros r' c2 a _ _ [-> ->]. split; auto. discriminate.
  Qed.
  Lemma template_loop_runs acc depth toks rest ps : Parts decode q acc depth toks rest ps -> Forall LexTok toks ->
    forall fuel parts braces, length toks < fuel -> rev parts = acc -> length braces = depth ->
    Runs (template_loop fuel decode open q parts braces) toks (ps, []) rest.
  Proof.
    induction 1; intros X fuel parts braces L Ea Eb; (destruct fuel as [|fuel]; [lia|]); cbn [template_loop];
      (eapply R_bind; [apply R_map_err, R_expect_poll|]); cbn zeta; inversion X as [|? ? X1 X2]; subst.
    - unfold Is in H. rewrite H. replace (match q with QSingle => match q with QSingle => true | QDouble => false end | QDouble => match q with QSingle => false | QDouble => true end end)
        with true by (destruct q; reflexivity). destruct braces; [|discriminate]. rewrite <- map_rev. apply R_ret.
    - unfold Is in H. rewrite H. eapply R_skip; eauto. apply IHParts; auto.
      + eapply skip_lex; eauto.
      + apply skip_length in H0. cbn in L. lia.
    - unfold Is in H. rewrite H. destruct braces as [|b braces]; [discriminate|]. apply drop_space_ok in H0. subst acc'.
      apply IHParts; auto. cbn in L; lia.
    - unfold Is in H. rewrite H. pose proof (parse_name_runs _ _ _ _ H0) as P.
      assert (length toks' + 0 <= length toks /\ exists u, toks = u ++ toks') as [Hl [u Hu]].
      { destruct H0 as (x & K & _). eapply R_spec; [apply (parse_name_spec (S (length toks)) _ _ K)| | |]; eauto. }
      eapply R_bind; [apply R_ok, P|]. apply IHParts; auto.
      + eapply lex_suffix; eauto.
      + cbn in L; lia.
    - pose proof (R_unescape _ _ X1 H H0) as U. unfold Is in H. rewrite H, U. apply R_bind_ret. apply IHParts; auto. cbn in L; lia.
    - unfold Is in H. rewrite H. unfold decode_entity. rewrite H0. apply R_bind_ret. apply IHParts; auto. cbn in L; lia.
    - unfold Is in H. rewrite H. apply IHParts; auto. cbn in L; lia.
    - apply add_literal_ok in H1. subst acc'.
      assert (Runs (template_loop fuel decode open q (add_literal t parts) braces) toks (ps, []) rest) as G.
      { apply IHParts; auto. cbn in L; lia. }
      assert (Runs (match parts with
           | (TPLit s, end_) :: before =>
             if end_ =? tk_start t then template_loop fuel decode open q ((TPLit (s ++ tk_text t), tk_end t) :: before) braces
             else template_loop fuel decode open q ((TPLit (tk_text t), tk_end t) :: parts) braces
           | _ => template_loop fuel decode open q ((TPLit (tk_text t), tk_end t) :: parts) braces
           end) toks (ps, []) rest) as G'.
      { unfold add_literal in G. destruct parts as [|[[s|x|n|] e] before]; auto. destruct (e =? tk_start t); auto. }
      clear G. destruct (tk_kind t) eqn:K; try exact G'; try (exfalso; apply H; cbn; tauto).
      + destruct k; exfalso; apply H; cbn; tauto.
      + destruct k, q; try exact G'; exfalso; eapply H0; unfold Is; rewrite K; reflexivity.
  Qed.
  Lemma parse_template_runs toks rest ps : Parts decode q [] 0 toks rest ps -> Forall LexTok toks ->
    Runs (parse_template_parts decode open q) toks ps rest.
  Proof.
    intros H X. unfold parse_template_parts. eapply R_bind.
    - apply R_fuel. eapply template_loop_runs; eauto.
    - cbn. apply R_bind_ret, R_ret.
  Qed.
End Template.
