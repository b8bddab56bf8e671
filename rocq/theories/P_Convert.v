(** Proofs for C71: conversion follows the rules. *)
From Verif Require Import Base BaseFacts M_Names M_TagInfo M_Html S_Html M_Types M_Diag M_Value S_Types S_Native S_Convert
  P_Html P_Types P_Coerce P_Convert1.

Definition conv_at (t : ty) : Prop := forall v v', WfValue v -> (coerce t v = inl v' <-> Converts t v v').
Ltac inv H := inversion H; subst; clear H.
Lemma unit_shown h : Normal h -> Shown UNIT (events h) -> h = HEmpty.
Proof. intros N S. apply (shown_html UNIT) in S; auto. repeat constructor. intros []. Qed.
Lemma html_value_fun h v v' : Normal h -> HtmlValue h v -> HtmlValue h v' -> v = v'.
Proof. intros N A B. apply html_value_iff in A, B; auto. congruence. Qed.
Lemma normal_value v : WfValue v -> Normal (compile_value v).
Proof. intro W. apply (wf_compile_value v W). Qed.
Lemma not_unit_html h : h <> HEmpty -> VHtml h <> UNIT.
Proof. unfold UNIT. congruence. Qed.
Lemma unit_dec v : {v = UNIT} + {v <> UNIT}.
Proof. destruct (is_unit v) eqn:E; [left; now apply is_unit_spec|right; now apply is_unit_false]. Qed.
Lemma inline_iff v : html_is_inline v = false <-> ~ InlineLevel v.
Proof. rewrite <- html_is_inline_spec. destruct (html_is_inline v); split; congruence. Qed.
Lemma block_iff v : html_is_block v = false <-> ~ BlockLevel v.
Proof. rewrite <- html_is_block_spec. destruct (html_is_block v); split; congruence. Qed.
Lemma empty_not_inline : ~ InlineLevel HEmpty. Proof. inversion 1. Qed.
Lemma empty_not_block : ~ BlockLevel HEmpty. Proof. inversion 1. Qed.

(** The conversions to HTML, for anything but functions *)
Lemma conv_html v v' : WfValue v -> ~ IsFunction v -> (forall s, v <> VStr s) -> (Converts THtml v v' <-> v' = of_html (compile_value v)).
Proof.
  intros W F S. pose proof (normal_value v W) as N. split.
  - intro C. inv C; try (exfalso; eapply S; reflexivity); try reflexivity. apply (shown_html v) in H2; auto. subst h. now apply html_value_iff.
  - intros ->. eapply (cv_html v (compile_value v)); auto; [now apply shown_html|now apply html_value_iff].
Qed.
Lemma conv_block v v' : WfValue v -> ~ IsFunction v ->
  (Converts TBlock v v' <-> v' = of_html (if html_is_inline (compile_value v) then in_tag (compile_value v) n_p else compile_value v)).
Proof.
  intros W F. pose proof (normal_value v W) as N. split.
  - intro C. inv C; try reflexivity.
    + apply (shown_html v) in H1; auto. subst h. apply inline_iff in H2. rewrite H2. now apply html_value_iff.
    + apply (shown_html v) in H1; auto. subst h. apply html_is_inline_spec in H2. rewrite H2. reflexivity.
  - intros ->. destruct (html_is_inline (compile_value v)) eqn:E.
    + apply (cv_paragraph v (compile_value v)); auto; [now apply shown_html|now apply html_is_inline_spec].
    + apply (cv_block v (compile_value v)); auto; [now apply shown_html|now apply inline_iff|now apply html_value_iff].
Qed.
Lemma conv_inline v v' : WfValue v -> ~ IsFunction v -> ~ IsCollection v -> (forall s, v <> VStr s) ->
  (Converts TInline v v' <-> html_is_block (compile_value v) = false /\ v' = of_html (compile_value v)).
Proof.
  intros W F C S. pose proof (normal_value v W) as N. split.
  - intro K. inv K; try (exfalso; eapply S; reflexivity).
    + split; reflexivity.
    + apply (shown_html v) in H3; auto. subst h. split; [now apply block_iff|now apply html_value_iff].
  - intros [B ->]. apply (cv_inline v (compile_value v)); auto; [now apply shown_html|now apply block_iff|now apply html_value_iff].
Qed.

Lemma conv_n n : forall t, ty_size t <= n -> NormalTy t -> conv_at t.
Proof.
  induction n as [|n IH]; intros t Sz Nt; [destruct (ty_size_pos t); lia|].
  assert (NF : forall v, (forall f, v <> VFunc f) -> ~ IsFunction v) by (intros v H [f E]; exact (H f E)).
  assert (NC : forall v, (forall l, v <> VList l) -> (forall l, v <> VDict l) -> ~ IsCollection v) by (intros v H H' (l & d & [E|E]); [exact (H l E)|exact (H' d E)]).
  intros v v' W. destruct t.
  - (* none *) rewrite coerce_non_option by discriminate. cbn [coerce_base]. destruct (is_unit v) eqn:U.
    + apply is_unit_spec in U as ->. split; [intros [= <-]; constructor; now left|]. intro C. inv C. reflexivity.
    + apply is_unit_false in U. split; [destruct v; discriminate|]. intro C. inv C; congruence.
  - (* any *) rewrite coerce_non_option by discriminate. cbn [coerce_base]. split; [destruct v; intros [= <-]; constructor|]. intro C. inv C; [reflexivity|]. destruct v'; reflexivity.
  - (* html *) rewrite coerce_non_option by discriminate. destruct v as [b|i|s|d|l|h|f|r]; cbn [coerce_base].
    1, 2, 4, 5, 8: rewrite conv_html by (try apply NF; try assumption; discriminate); split; congruence.
    + split; [intros [= <-]; constructor|]. intro C. inv C; try reflexivity. exfalso. eapply H0. reflexivity.
    + rewrite conv_html by (try apply NF; try assumption; discriminate). cbn [compile_value]. rewrite of_html_id by (inv W; assumption). split; congruence.
    + split; [discriminate|]. intro C. inv C. exfalso. apply H. eexists. reflexivity.
  - (* block *) rewrite coerce_non_option by discriminate. destruct v as [b|i|s|d|l|h|f|r]; cbn [coerce_base].
    1, 2, 3, 4, 5, 6, 8: rewrite conv_block by (try apply NF; try assumption; discriminate); cbv zeta; split; congruence.
    split; [discriminate|]. intro C. inv C; exfalso; match goal with H : ~ IsFunction _ |- _ => apply H; eexists; reflexivity end.
  - (* inline *) rewrite coerce_non_option by discriminate. destruct v as [b|i|s|d|l|h|f|r]; cbn [coerce_base].
    1, 2, 6, 8: rewrite conv_inline by (try apply NF; try apply NC; try assumption; discriminate); cbv zeta; destruct (html_is_block _); split; (congruence || (intros [? ?]; congruence) || (intros [= <-]; auto)).
    + split; [intros [= <-]; constructor|]. intro C. inv C; try reflexivity. exfalso. eapply H1. reflexivity.
    + split; [discriminate|]. intro C. inv C. exfalso. apply H0. exists [], d. auto.
    + split; [discriminate|]. intro C. inv C. exfalso. apply H0. exists l, []. auto.
    + split; [discriminate|]. intro C. inv C. exfalso. apply H. eexists. reflexivity.
  - rewrite coerce_non_option by discriminate. destruct v; cbn [coerce_base]; split; intro C; try discriminate C; try (injection C as <-; constructor); inv C; try reflexivity;
      match goal with A : AcceptsNone _ |- _ => destruct A as [A|[A|[A|[A|[A|[? A]]]]]]; discriminate A end.
  - rewrite coerce_non_option by discriminate. destruct v; cbn [coerce_base]; split; intro C; try discriminate C; try (injection C as <-; constructor); inv C; try reflexivity;
      match goal with A : AcceptsNone _ |- _ => destruct A as [A|[A|[A|[A|[A|[? A]]]]]]; discriminate A end.
  - (* str *) rewrite coerce_non_option by discriminate. destruct v; cbn [coerce_base]; split; intro C; try discriminate C.
    + injection C as <-. destruct b; constructor.
    + inv C; reflexivity.
    + injection C as <-. constructor. rewrite zdec_decimal. now apply decimal_iff.
    + inv C. apply decimal_iff in H0 as ->. now rewrite zdec_decimal.
    + injection C as <-. constructor.
    + inv C. reflexivity.
    + inv C.
    + inv C.
    + inv C. match goal with A : AcceptsNone _ |- _ => destruct A as [A|[A|[A|[A|[A|[? A]]]]]]; discriminate A end.
    + inv C.
    + inv C.
  - rewrite coerce_non_option by discriminate. destruct v; cbn [coerce_base]; split; intro C; try discriminate C; try (injection C as <-; constructor); inv C; try reflexivity;
      match goal with A : AcceptsNone _ |- _ => destruct A as [A|[A|[A|[A|[A|[? A]]]]]]; discriminate A end.
  - rewrite coerce_non_option by discriminate. destruct v; cbn [coerce_base]; split; intro C; try discriminate C; try (injection C as <-; constructor); inv C; try reflexivity;
      match goal with A : AcceptsNone _ |- _ => destruct A as [A|[A|[A|[A|[A|[? A]]]]]]; discriminate A end.
  - (* dict *) rewrite coerce_non_option by discriminate. assert (K : conv_at t) by (apply IH; [cbn in Sz; lia|now apply NormalTy_dict]).
    destruct v as [b|i|s|d|l|h|f|r]; try (split; intro C; [discriminate C|inv C];
      match goal with A : AcceptsNone _ |- _ => destruct A as [A|[A|[A|[A|[A|[? A]]]]]]; discriminate A end).
    rewrite coerce_base_dict. assert (Wd : Forall (fun kv => WfValue (snd kv)) d) by now inv W.
    assert (G : forall ws, Forall2 (fun v w => coerce t v = inl w) (map snd d) ws <-> Forall2 (Converts t) (map snd d) ws).
    { assert (Forall WfValue (map snd d)) as F by now rewrite Forall_map. revert F. generalize (map snd d). clear - K. intros l F ws.
      split; intro H; induction H; constructor; inv F; auto; now apply K. }
    split.
    + destruct (coerce_all (coerce t) (map snd d)) as [ws|] eqn:E; [|discriminate]. intros [= <-]. apply coerce_all_spec, G in E. constructor.
      clear - E. revert ws E. induction d as [|[k a] d IHd]; intros ws E; inv E; cbn; constructor; auto.
    + intro C. inv C. rename H1 into F. assert (E : coerce_all (coerce t) (map snd d) = inl (map snd vs')).
      { apply coerce_all_spec, G. clear - F. induction F as [|a b l m [_ H] F IHF]; constructor; auto. }
      rewrite E. f_equal. f_equal. assert (map fst d = map fst vs') as ->.
      { clear - F. induction F as [|a b l m [H _] F IHF]; [reflexivity|]. cbn. now rewrite H, IHF. }
      apply combine_map_fst_snd.
  - (* list *) rewrite coerce_non_option by discriminate. assert (K : conv_at t) by (apply IH; [cbn in Sz; lia|now apply NormalTy_list]).
    destruct v as [b|i|s|d|l|h|f|r]; try (split; intro C; [discriminate C|inv C];
      match goal with A : AcceptsNone _ |- _ => destruct A as [A|[A|[A|[A|[A|[? A]]]]]]; discriminate A end).
    rewrite coerce_base_list. assert (Wl : Forall WfValue l) by now inv W.
    assert (G : forall ws, Forall2 (fun v w => coerce t v = inl w) l ws <-> Forall2 (Converts t) l ws).
    { revert Wl. clear - K. intros F ws. split; intro H; induction H; constructor; inv F; auto; now apply K. }
    split.
    + destruct (coerce_all (coerce t) l) as [ws|] eqn:E; [|discriminate]. intros [= <-]. apply coerce_all_spec, G in E. now constructor.
    + intro C. inv C. apply G, coerce_all_spec in H1. now rewrite H1.
  - (* optional *) apply NormalTy_option in Nt as [Nt A]. unfold coerce, coerce_opt. destruct (unit_dec v) as [-> | U].
    + cbn [is_unit UNIT]. split; [intros [= <-]; constructor; unfold AcceptsNone; right; right; right; right; right; eauto|].
      intro C. inv C; [reflexivity|congruence].
    + apply is_unit_false in U as U'. rewrite U'. assert (K : conv_at t) by (apply IH; [cbn in Sz; lia|exact Nt]).
      specialize (K v v' W). rewrite coerce_non_option in K by (intros t' ->; apply A; unfold AcceptsNone; right; right; right; right; right; eauto).
      rewrite K. split; [now constructor|]. intro C. inv C; [congruence|assumption].
Qed.
Lemma converts_iff t v v' : NormalTy t -> WfValue v -> (coerce t v = inl v' <-> Converts t v v').
Proof. intros N W. now apply (conv_n (ty_size t)). Qed.

(** ** Refusals *)
Definition Containers (t : ty) (v : value) : Prop := (exists t' vs, t = TList t' /\ v = VList vs) \/ (exists t' vs, t = TDict t' /\ v = VDict vs).
Lemma base_error t v e : ~ Containers t v -> coerce_base t v = inr e -> e = TypeErr (ExpectedWas t (get_type v)).
Proof.
  intros C H. destruct t, v; cbn [coerce_base] in H; cbv zeta in H; try discriminate H; try (injection H as <-; reflexivity);
    try (match type of H with (if ?b then _ else _) = _ => destruct b end; [discriminate H || (injection H as <-; reflexivity)|discriminate H || (injection H as <-; reflexivity)]).
  - exfalso. apply C. right. eauto.
  - exfalso. apply C. left. eauto.
Qed.
Lemma coerce_all_error f vs (e : papyri_error) : coerce_all f vs = inr e <->
  exists good v rest, vs = good ++ v :: rest /\ Forall (fun w => exists w' : value, f w = inl w') good /\ f v = inr e.
Proof.
  induction vs as [|v vs IH]; cbn [coerce_all].
  - split; [discriminate|]. intros (good & v & rest & E & _). now destruct good.
  - destruct (f v) as [w|e'] eqn:E.
    + split.
      * destruct (coerce_all f vs) as [ws|e'']; [discriminate|]. intros [= ->]. destruct (proj1 IH eq_refl) as (good & x & rest & -> & F & Ex).
        exists (v :: good), x, rest. split; [reflexivity|]. split; [constructor; eauto|exact Ex].
      * intros (good & x & rest & Ev & F & Ex). destruct good as [|y good]; cbn in Ev; injection Ev as -> ->; [congruence|]. inv F.
        rewrite (proj2 IH); [reflexivity|]. eauto 6.
    + split.
      * intros [= ->]. exists [], v, vs. auto.
      * intros (good & x & rest & Ev & F & Ex). destruct good as [|y good]; cbn in Ev; injection Ev as -> ->; [congruence|]. inv F.
        destruct H1 as [w' H1]. congruence.
Qed.
Definition ref_at (t : ty) : Prop := forall v e, WfValue v ->
  (coerce t v = inr e <-> exists x a, e = TypeErr (ExpectedWas x a) /\ Refused t v x a).
Lemma ref_here t v e : NormalTy t -> WfValue v -> (forall t', t <> TOptional t') -> ~ Containers t v ->
  (coerce t v = inr e <-> exists x a, e = TypeErr (ExpectedWas x a) /\ Refused t v x a).
Proof.
  intros N W O C. split.
  - intro E. exists t, (get_type v). split; [apply base_error; [exact C|]; now rewrite <- coerce_non_option|].
    constructor; [exact O| | |].
    + intros t' vs [-> ->]. apply C. left. eauto.
    + intros t' vs [-> ->]. apply C. right. eauto.
    + intros v' K. apply converts_iff in K; auto. congruence.
  - intros (x & a & -> & R). inv R; try (exfalso; eapply O; reflexivity).
    + exfalso. apply C. left. eauto.
    + exfalso. apply C. right. eauto.
    + destruct (coerce x v) as [v'|e] eqn:E.
      * exfalso. eapply H2. apply converts_iff; eauto.
      * f_equal. apply base_error; [exact C|]. now rewrite <- coerce_non_option.
Qed.
Lemma ref_n n : forall t, ty_size t <= n -> NormalTy t -> ref_at t.
Proof.
  induction n as [|n IH]; intros t Sz Nt; [destruct (ty_size_pos t); lia|]. intros v e W.
  destruct t; try (apply ref_here; [assumption|assumption|discriminate|intros [(t' & vs & E & _)|(t' & vs & E & _)]; discriminate E]).
  - (* dict *) assert (K : ref_at t) by (apply IH; [cbn in Sz; lia|now apply NormalTy_dict]).
    destruct v as [b|i|s|d|l|h|f|r]; try (apply ref_here; [assumption|assumption|discriminate|intros [(t' & vs & E & E')|(t' & vs & E & E')]; discriminate E || discriminate E']).
    rewrite coerce_non_option by discriminate. rewrite coerce_base_dict. assert (Wd : Forall (fun kv => WfValue (snd kv)) d) by now inv W.
    assert (NormalTy t) as Nt' by now apply NormalTy_dict. split.
    + destruct (coerce_all (coerce t) (map snd d)) as [ws|e'] eqn:E; [discriminate|]. intros [= ->]. apply coerce_all_error in E as (good & v & rest & E & F & Ev).
      apply map_eq_app in E as (g & r & -> & <- & E). destruct r as [|[k v'] r]; [discriminate E|]. cbn in E. injection E as <- <-.
      rewrite Forall_app in Wd. destruct Wd as [Wg Wr]. inv Wr. cbn [snd] in *. apply K in Ev as (x & a & -> & R); [|assumption].
      exists x, a. split; [reflexivity|]. constructor; [|exact R]. rewrite Forall_map in F. rewrite Forall_forall in *.
      intros kw I. destruct (F kw I) as [w' Ew]. exists w'. apply converts_iff; auto.
    + intros (x & a & -> & R). inv R.
      * rewrite Forall_app in Wd. destruct Wd as [Wg Wr]. inv Wr. cbn [snd] in *.
        assert (coerce_all (coerce t) (map snd (good ++ (k, v) :: rest)) = inr (TypeErr (ExpectedWas x a))) as ->; [|reflexivity].
        apply coerce_all_error. exists (map snd good), v, (map snd rest). rewrite map_app. split; [reflexivity|]. split; [|apply K; eauto].
        rewrite Forall_map. rewrite Forall_forall in *. intros kw I. match goal with H : forall x, In x good -> exists w', Converts _ _ _ |- _ => destruct (H kw I) as [w' Ew] end.
        exists w'. apply converts_iff; auto.
      * exfalso. match goal with H : forall t' vs, ~ (TDict _ = TDict t' /\ _) |- _ => eapply H; split; reflexivity end.
  - (* list *) assert (K : ref_at t) by (apply IH; [cbn in Sz; lia|now apply NormalTy_list]).
    destruct v as [b|i|s|d|l|h|f|r]; try (apply ref_here; [assumption|assumption|discriminate|intros [(t' & vs & E & E')|(t' & vs & E & E')]; discriminate E || discriminate E']).
    rewrite coerce_non_option by discriminate. rewrite coerce_base_list. assert (Wl : Forall WfValue l) by now inv W.
    assert (NormalTy t) as Nt' by now apply NormalTy_list. split.
    + destruct (coerce_all (coerce t) l) as [ws|e'] eqn:E; [discriminate|]. intros [= ->]. apply coerce_all_error in E as (good & v & rest & -> & F & Ev).
      rewrite Forall_app in Wl. destruct Wl as [Wg Wr]. inv Wr. apply K in Ev as (x & a & -> & R); [|assumption].
      exists x, a. split; [reflexivity|]. constructor; [|exact R]. rewrite Forall_forall in *.
      intros kw I. destruct (F kw I) as [w' Ew]. exists w'. apply converts_iff; auto.
    + intros (x & a & -> & R). inv R.
      * rewrite Forall_app in Wl. destruct Wl as [Wg Wr]. inv Wr.
        assert (coerce_all (coerce t) (good ++ v :: rest) = inr (TypeErr (ExpectedWas x a))) as ->; [|reflexivity].
        apply coerce_all_error. exists good, v, rest. split; [reflexivity|]. split; [|apply K; eauto].
        rewrite Forall_forall in *. intros kw I. match goal with H : forall x, In x good -> exists w', Converts _ _ _ |- _ => destruct (H kw I) as [w' Ew] end.
        exists w'. apply converts_iff; auto.
      * exfalso. match goal with H : forall t' vs, ~ (TList _ = TList t' /\ _) |- _ => eapply H; split; reflexivity end.
  - (* optional *) apply NormalTy_option in Nt as [Nt A]. unfold coerce, coerce_opt. destruct (unit_dec v) as [-> | U].
    + cbn [is_unit UNIT]. split; [discriminate|]. intros (x & a & _ & R). inv R; [congruence|]. exfalso. match goal with H : forall t', _ <> _ |- _ => eapply H; reflexivity end.
    + apply is_unit_false in U as U'. rewrite U'. assert (K : ref_at t) by (apply IH; [cbn in Sz; lia|exact Nt]).
      specialize (K v e W). rewrite coerce_non_option in K by (intros t' ->; apply A; unfold AcceptsNone; right; right; right; right; right; eauto).
      rewrite K. split; intros (x & a & -> & R); exists x, a; (split; [reflexivity|]); [now constructor|]. inv R; [assumption|].
      exfalso. match goal with H : forall t', _ <> _ |- _ => eapply H; reflexivity end.
Qed.
Lemma refused_iff t v e : NormalTy t -> WfValue v -> (coerce t v = inr e <-> exists x a, e = TypeErr (ExpectedWas x a) /\ Refused t v x a).
Proof. intros N W. now apply (ref_n (ty_size t)). Qed.
