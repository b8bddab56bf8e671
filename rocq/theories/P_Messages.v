(** Proofs that messages tell errors apart. *)
From Verif Require Import Base BaseFacts M_Text M_Types M_Token M_Diag M_Report S_Report P_Report.

Ltac check p q := let b := eval vm_compute in (clash p q) in lazymatch b with true => idtac end.
Ltac apart H :=
  exfalso; lazymatch type of H with
  | ?p ++ ?x = ?q ++ ?y => check p q; exact (clash_neq p q x y eq_refl H)
  | ?p = ?q ++ ?y => check p q; exact (clash_neq_l p q y eq_refl H)
  | ?p ++ ?x = ?q => check p q; exact (clash_neq_r p q x eq_refl H)
  | _ => discriminate H
  end.
Ltac absurd_case := match goal with P : False |- _ => destruct P end.
(** A name between two quotes. *)
Lemma quoted_inj n m a b : Quotable n -> Quotable m -> n ++ 39%N :: a = m ++ 39%N :: b -> n = m /\ a = b.
Proof. apply split_first. Qed.
Lemma fixed_inj (p q n m : str) : p ++ n ++ q = p ++ m ++ q -> n = m.
Proof. intros H. apply app_inv_head, app_inv_tail in H. exact H. Qed.

Lemma kind_not k (w a : str) : forallb (fun u => clash u w) 
  (map kind_text [Comment; Whitespace; Newline; Escape; Entity; RawText; Name; Kw KFn; FuncName; VarName; Number; Boolean true;
   Verbatim VSimple; LPar; RPar; LSqb; RSqb; LBrace; RBrace; LAngle; RAngle; CloseTag; Ampersand; Arrow; Asterisk; Bar; Colon;
   Comma; Dot; DoubleAsterisk; DoubleColon; Ellipsis; Equals; ExclamationMark; QuestionMark; QuestionMarkDoubleColon;
   Quote QSingle QLeft; Quote QDouble QLeft; Underscore]) = true -> kind_text k ++ a = w -> False.
Proof.
  intros C E. rewrite forallb_forall in C. eapply clash_neq_r; [apply C|exact E]. apply in_map_iff.
  exists (shown_kind k). split; [destruct k as [] eqn:K; try reflexivity; destruct k0; reflexivity|].
  destruct k; try destruct k; cbn; tauto.
Qed.

Lemma syntax_inj F e e' : PlainText (SyntaxErr e) -> PlainText (SyntaxErr e') -> syntax_text F e = syntax_text F e' ->
  shown (SyntaxErr e) = shown (SyntaxErr e').
Proof.
  intros P P' H. destruct e; destruct e'; try reflexivity; cbn [syntax_text] in H; try (apart H).
  all: cbn [PlainText] in P, P'; try (apply fixed_inj in H; now rewrite H).
  all: repeat match type of H with
       | context [lit "expected 'DOCTYPE'"] => change (lit "expected 'DOCTYPE'") with (lit "expected " ++ lit "'DOCTYPE'") in H
       | context [lit "expected expression"] => change (lit "expected expression") with (lit "expected " ++ lit "expression") in H
       | context [lit "unexpected end of source in string literal"] =>
         change (lit "unexpected end of source in string literal") with (lit "unexpected " ++ lit "end of source in string literal") in H
       | context [lit "unexpected end of source"] =>
         change (lit "unexpected end of source") with (lit "unexpected " ++ lit "end of source") in H
       | context [lit "unmatched opening tag"] => change (lit "unmatched opening tag") with (lit "unmatched " ++ lit "opening tag") in H
       end; apply app_inv_head in H.
  all: repeat match type of H with
       | kind_text ?k = kind_text ?k' => apply kind_inj0 in H
       | kind_text _ ++ _ = kind_text _ ++ _ => let H' := fresh in apply kind_inj in H as [H' H]
       | kind_text _ ++ _ = kind_text ?k => rewrite <- (app_nil_r (kind_text k)) in H
       | kind_text ?k = kind_text _ ++ _ => rewrite <- (app_nil_r (kind_text k)) in H
       end; try discriminate H.
  all: try (cbn [shown]; congruence).
  all: try (exfalso; match type of H with
       | kind_text ?k ++ ?a = ?w => exact (kind_not k w a eq_refl H)
       | ?w = kind_text ?k ++ ?a => exact (kind_not k w a eq_refl (eq_sym H))
       | kind_text ?k = ?w => rewrite <- (app_nil_r (kind_text k)) in H; exact (kind_not k w [] eq_refl H)
       | ?w = kind_text ?k => rewrite <- (app_nil_r (kind_text k)) in H; exact (kind_not k w [] eq_refl (eq_sym H))
       end).
  - apply app_inv_head, kind_inj0 in H. cbn [shown]. congruence.
  - change (lit ", was end of course") with (lit ", was " ++ lit "end of course") in H. apply app_inv_head in H.
    exfalso. rewrite <- (app_nil_r (kind_text was)) in H. exact (kind_not was (lit "end of course") [] eq_refl H).
  - change (lit ", was end of course") with (lit ", was " ++ lit "end of course") in H. apply app_inv_head in H.
    exfalso. rewrite <- (app_nil_r (kind_text was)) in H. exact (kind_not was (lit "end of course") [] eq_refl (eq_sym H)).
Qed.

Lemma name_inj e e' : PlainText (NameErr e) -> PlainText (NameErr e') -> name_text e = name_text e' -> e = e'.
Proof.
  intros P P' H. destruct e; destruct e'; cbn [name_text] in H; try (apart H); cbn [PlainText] in P, P';
  try (apply fixed_inj in H; now rewrite H).
  apply app_inv_head in H. change (lit "' has no such attribute '") with (39%N :: lit " has no such attribute '") in H.
  cbn [app] in H. apply split_first in H as [H1 H]; try apply display_no_quote. apply app_inv_head, app_inv_tail in H.
  apply display_inj in H1. congruence.
Qed.

Lemma runtime_inj F e e' : PlainText (RuntimeErr e) -> PlainText (RuntimeErr e') -> runtime_text F e = runtime_text F e' -> e = e'.
Proof.
  intros P P' H. destruct e; destruct e'; try reflexivity; cbn [runtime_text PlainText] in *; try absurd_case; try (apart H);
  try (apply fixed_inj in H; now rewrite H).
  - apply app_inv_head in H. change (lit "' must be positive (was ") with (39%N :: lit " must be positive (was ") in H.
    cbn [app] in H. apply split_first in H as [-> H]; auto. apply app_inv_head, app_inv_tail, zdec_inj in H. congruence.
  - apply app_inv_head in H. change (lit ", length ") with (44%N :: lit " length ") in H. cbn [app] in H.
    apply split_first in H as [H1 H]; try now apply zdec_not. apply zdec_inj in H1. apply app_inv_head, app_inv_tail, num_inj in H.
    congruence.
Qed.

Lemma type_inj e e' : PlainText (TypeErr e) -> PlainText (TypeErr e') -> type_text e = type_text e' -> e = e'.
Proof.
  assert (C : forall n m a b (w : str), n ++ (44%N :: w) ++ a = m ++ (44%N :: w) ++ b -> ~ In 44%N n -> ~ In 44%N m -> n = m /\ a = b).
  { intros n m a b w E N1 N2. cbn [app] in E. apply split_first in E as [-> E]; auto. apply app_inv_head in E. auto. }
  intros P P' H. destruct e; destruct e'; try reflexivity; cbn [type_text PlainText] in *; try absurd_case; try (apart H);
  try (apply fixed_inj in H; now rewrite H).
  - apply app_inv_head in H. change (lit ", was ") with (44%N :: lit " was ") in H. apply C in H as [H1 H2]; try apply display_no_comma. apply display_inj in H1, H2. congruence.
  - apply app_inv_head in H. change (lit ", was ") with (44%N :: lit " was ") in H. apply C in H as [H1 H2]; try now apply dec_not. apply app_inv_tail, num_inj in H2. apply num_inj in H1. congruence.
  - apply app_inv_head in H. change (lit ", was ") with (44%N :: lit " was ") in H. apply C in H as [H1 H2]; try now apply dec_not. apply app_inv_tail, num_inj in H2. apply num_inj in H1. congruence.
  - exfalso. apply app_inv_head in H. change (lit "' tag not allowed within parent tag '") with (39%N :: lit " tag not allowed within parent tag '") in H.
    change (lit "' tag not allowed here") with (39%N :: lit " tag not allowed here") in H. destruct P'. cbn [app] in H.
    apply split_first in H as [_ H]; auto. now apart H.
  - exfalso. apply app_inv_head in H. change (lit "' tag not allowed within parent tag '") with (39%N :: lit " tag not allowed within parent tag '") in H.
    change (lit "' tag not allowed here") with (39%N :: lit " tag not allowed here") in H. destruct P. cbn [app] in H.
    apply split_first in H as [_ H]; auto. now apart H.
  - apply app_inv_head in H. change (lit "' tag not allowed within parent tag '") with (39%N :: lit " tag not allowed within parent tag '") in H.
    destruct P, P'. cbn [app] in H. apply split_first in H as [-> H]; auto. apply app_inv_head, app_inv_tail in H. congruence.
  - apply app_inv_head, display_inj in H. congruence.
Qed.

Lemma module_inj F e e' : PlainText (ModuleErr e) -> PlainText (ModuleErr e') -> module_text F e = module_text F e' -> e = e'.
Proof.
  intros P P' H. destruct e; destruct e'; cbn [module_text PlainText] in *; try absurd_case; try (apart H); apply fixed_inj in H; now rewrite H.
Qed.

Lemma warning_inj e e' : PlainText (Warn e) -> PlainText (Warn e') -> warning_text e = warning_text e' -> e = e'.
Proof.
  assert (C : forall (n m u v w : str), Quotable n -> Quotable m ->
    w ++ n ++ (39%N :: u) = w ++ m ++ (39%N :: v) -> n = m /\ u = v).
  { intros n m u v w Hn Hm E. apply app_inv_head in E. now apply split_first in E. }
  intros P P' H. destruct e; destruct e'; try reflexivity; cbn [warning_text PlainText] in *; try absurd_case; try (apart H);
  try (apply fixed_inj in H; now rewrite H);
  change (lit "' already declared") with (39%N :: lit " already declared") in H;
  change (lit "' already exported") with (39%N :: lit " already exported") in H;
  change (lit "' already bound in this pattern; did you mean '=$") with (39%N :: lit " already bound in this pattern; did you mean '=$") in H;
  rewrite <- ?app_comm_cons in H; apply C in H as [E H]; auto; try (apart H); congruence.
Qed.

Lemma error_inj F e e' : PlainText e -> PlainText e' -> error_text F e = error_text F e' -> shown e = shown e'.
Proof.
  intros P P' H. destruct e; destruct e'; cbn [error_text] in H; try (apart H); try reflexivity; apply app_inv_head in H.
  - cbn [shown]. f_equal. eapply module_inj; eauto.
  - cbn [shown]. f_equal. apply name_inj; auto.
  - cbn [shown]. f_equal. eapply runtime_inj; eauto.
  - eapply syntax_inj; eauto.
  - cbn [shown]. f_equal. apply type_inj; auto.
  - cbn [shown]. f_equal. apply warning_inj; auto.
Qed.

Lemma severity_shown F e e' : error_text F e = error_text F e' -> severity_of e = severity_of e'.
Proof. intros H. destruct e; destruct e'; try reflexivity; cbn [error_text] in H; apart H. Qed.
