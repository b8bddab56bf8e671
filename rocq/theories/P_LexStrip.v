(** Dropping comments and merging white space has one result. *)
From Verif Require Import Base BaseFacts M_Token M_Tokenizer S_Front S_Lex P_Tokenizer P_Front P_Lex P_Cut.

Lemma split_first {A} (P : A -> Prop) a x b a' x' b' : Forall P a -> ~ P x -> Forall P a' -> ~ P x' ->
  a ++ x :: b = a' ++ x' :: b' -> a = a' /\ x = x' /\ b = b'.
Proof.
  revert a'; induction a as [|y a IH]; intros a' H Hx H' Hx' E.
  - destruct a' as [|y' a']; cbn in E; injection E as <- E; [now subst|]. inversion H'; contradiction.
  - destruct a' as [|y' a']; cbn in E; injection E as <- E; [inversion H; contradiction|].
    inversion H; inversion H'; subst. destruct (IH a') as (-> & -> & ->); auto.
Qed.
Lemma split_last {A} (P : A -> Prop) a x b a' x' b' : Forall P b -> ~ P x -> Forall P b' -> ~ P x' ->
  a ++ x :: b = a' ++ x' :: b' -> a = a' /\ x = x' /\ b = b'.
Proof.
  intros H Hx H' Hx' E. apply (f_equal (@rev A)) in E. rewrite !rev_app_distr in E. cbn [rev] in E. rewrite <- !app_assoc in E. cbn [app] in E.
  destruct (split_first P (rev b) x (rev a) (rev b') x' (rev a')) as (E1 & -> & E2); auto; [now apply Forall_rev..|].
  apply (f_equal (@rev A)) in E1, E2. rewrite !rev_involutive in *. now subst.
Qed.
Lemma gap_function g r r' : GapToken g r -> GapToken g r' -> r = r'.
Proof.
  intros H H'. inversion H as [g1 C E1 R1|b t a C K N E1 R1|b t a K N E1 R1];
    inversion H' as [g2 C' E2 R2|b' t' a' C' K' N' E2 R2|b' t' a' K' N' E2 R2]; subst; try reflexivity.
  - apply Forall_app in C as [_ C]. inversion C; congruence.
  - apply Forall_app in C as [_ C]. inversion C; congruence.
  - apply Forall_app in C' as [_ C']. inversion C'; congruence.
  - destruct (split_first (fun t => tk_kind t = Comment) b' t' a' b t a) as (_ & -> & _); auto; congruence.
  - exfalso. assert (In t' (b ++ t :: a)) as I by (rewrite <- E2; apply in_elt). apply in_app_or in I as [I|[I|I]].
    + rewrite Forall_forall in C. rewrite (C _ I) in K'. discriminate.
    + congruence.
    + rewrite Forall_forall in N. now apply (N _ I).
  - apply Forall_app in C' as [_ C']. inversion C'; congruence.
  - exfalso. assert (In t (b' ++ t' :: a')) as I by (rewrite E2; apply in_elt). apply in_app_or in I as [I|[I|I]].
    + rewrite Forall_forall in C'. rewrite (C' _ I) in K. discriminate.
    + congruence.
    + rewrite Forall_forall in N'. now apply (N' _ I).
  - destruct (split_last (fun t => tk_kind t <> Newline) b' t' a' b t a) as (_ & -> & _); auto; congruence.
Qed.
Lemma stripped_function l out : Stripped l out -> forall out', Stripped l out' -> out = out'.
Proof.
  induction 1 as [gap r Hg G|gap r t rest out Hg G Sig St IH]; intros out' H'.
  - inversion H' as [gap' r' Hg' G' E R|gap' r' t' rest' o' Hg' G' Sig' St' E R]; subst.
    + eapply gap_function; eauto.
    + exfalso. apply Forall_app in Hg as [_ Hg]. inversion Hg; contradiction.
  - inversion H' as [gap' r' Hg' G' E R|gap' r' t' rest' o' Hg' G' Sig' St' E R]; subst.
    + exfalso. apply Forall_app in Hg' as [_ Hg']. inversion Hg'; contradiction.
    + destruct (split_first (fun t => ~ Significant t) gap' t' rest' gap t rest) as (-> & -> & ->); auto.
      rewrite (gap_function _ _ _ G G'), (IH _ St'). reflexivity.
Qed.

Lemma tokenize_uncut src strip : Uncut src <-> tokenize src strip <> Panic.
Proof. rewrite tokenize_panic. split; [intros C (rest & R & H); exact (C rest R H)|intros N rest R H; apply N; now exists rest]. Qed.
Lemma tokenize_all_iff src toks errs : tokenize src false = Ret (toks, errs) <-> Lexes 0 QLeft src toks errs /\ Uncut src.
Proof.
  split.
  - intro T. split; [now apply tokenize_sound|]. apply (tokenize_uncut _ false). now rewrite T.
  - intros [L C]. now apply tokenize_complete.
Qed.
Lemma tokenize_stripped_iff src toks errs : tokenize src true = Ret (toks, errs) <-> Uncut src /\ exists all, Lexes 0 QLeft src all errs /\ Stripped all toks.
Proof.
  assert (Z : Uncut src -> exists all es toks', Lexes 0 QLeft src all es /\ tokenize src true = Ret (toks', es) /\ Stripped all toks').
  { intro C. destruct (lexes_exist src) as (all & es & L). pose proof (tokenize_complete _ _ _ C L) as T.
    destruct (tokenize_both src false true) as [[toks' es'] T']; [eexists; eassumption|]. destruct (tokenize_stripped _ _ _ _ _ T T') as [St ->]. eauto 6. }
  split.
  - intro T. assert (C : Uncut src) by (apply (tokenize_uncut _ true); now rewrite T). destruct (Z C) as (all & es & toks' & L & T' & St).
    rewrite T in T'. injection T' as <- <-. split; [exact C|]. now exists all.
  - intros (C & all' & L' & St'). destruct (Z C) as (all & es & toks' & L & T' & St). destruct (lexes_unique _ _ _ _ _ L L') as [<- <-]. rewrite T'.
    now rewrite (stripped_function _ _ St _ St').
Qed.
Lemma tokenize_stripped_sound src toks errs : tokenize src true = Ret (toks, errs) ->
  exists all, Lexes 0 QLeft src all errs /\ Stripped all toks.
Proof.
  intros T'. destruct (tokenize_both src true false) as [[all es] T]; [eexists; eassumption|]. destruct (tokenize_stripped _ _ _ _ _ T T') as [St ->].
  exists all. split; [now apply tokenize_sound|exact St].
Qed.
