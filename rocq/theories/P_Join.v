(** What the parser does with tokens does not depend on what comes after white space, if it reports no error without it. *)
From Verif Require Import Base BaseFacts M_Text M_Names M_TagInfo M_Token M_Tokenizer M_TokenText M_TextSubs M_Types M_Diag M_Queue M_Ast M_Parser P_ParserEnds.

(** The tokens that may be a white node: white space, and characters that are written as escape sequences or entities *)
Definition pale (t : token) : bool := match tk_kind t with Whitespace | Newline | Escape | Entity => true | _ => false end.
(** Tokens without ..., the last of them [x] *)
Inductive Run (x : token) : list token -> Prop :=
| run_nil : Run x []
| run_cons t l : tk_kind t <> Ellipsis /\ (l = [] -> t = x) -> Run x l -> Run x (t :: l).
Lemma run_forall x l : Run x l -> Forall (fun t => tk_kind t <> Ellipsis) l. Proof. induction 1 as [|t l [H _] R IH]; constructor; auto. Qed.
Lemma run_last d l : Forall (fun t => tk_kind t <> Ellipsis) l -> Run (last l d) l.
Proof. induction 1 as [|t l H F IH]; [constructor|]. constructor; [split; [exact H|intros ->; reflexivity]|]. destruct l; [constructor|exact IH]. Qed.
Section Join.
Variable xl : token.
(** [ext]: what comes after, nothing or white space first; [pre]: what was reported before *)
Variables (ext : list token) (pre : list papyri_error).
Hypothesis Hx : ext = [] \/ exists w l, ext = w :: l /\ tok_is_whitespace w = true.

Definition noell (s : pstate) : Prop := Run xl (ps_tokens s).
Definition noext : Prop := Forall (fun t => tk_kind t <> Ellipsis) ext.
Hypothesis Hell : noext.
Definition Rel (s1 s2 : pstate) : Prop := noell s1 /\ ps_diags s2 = pre ++ ps_diags s1 /\ ps_tokens s2 = ps_tokens s1 ++ ext.
(** [C a]: the result may be [a] when the end was crossed. *)
Definition TP {A} (C : A -> Prop) (m1 m2 : PM A) : Prop := forall s1 s2, Rel s1 s2 ->
  match m1 s1 with
  | POk a t1 => noell t1 /\ left t1 <= left s1 /\ said s1 <= said t1 /\ (said s1 < said t1 \/ (exists t2, m2 s2 = POk a t2 /\ Rel t1 t2) \/ ps_tokens t1 = [] /\ C a)
  | PErr t1 => noell t1 /\ left t1 <= left s1 /\ said s1 < said t1
  | _ => True
  end.
Notation Sr := (TP (fun _ => False)).
Notation W := (TP (fun _ => True)).
(** at the end of the tokens, [m] reports an error *)
Definition D {A} (m : PM A) : Prop := forall d, match m (PState [] d) with POk _ t1 => said (PState [] d) < said t1 | _ => True end.

Lemma rel_self t : noell t -> Rel t (PState (ps_tokens t ++ ext) (pre ++ ps_diags t)).
Proof. intro H. repeat split; auto. Qed.
Lemma tp_weaken {A} (C C' : A -> Prop) (m1 m2 : PM A) : TP C m1 m2 -> (forall a, C a -> C' a) -> TP C' m1 m2.
Proof. intros H I s1 s2 R. specialize (H s1 s2 R). destruct (m1 s1); auto. destruct H as (N & L & Q & [G|[G|[G K]]]); repeat split; auto. Qed.
Lemma s_w {A} (m1 m2 : PM A) : Sr m1 m2 -> W m1 m2. Proof. intro H. eapply tp_weaken; [exact H|]. auto. Qed.
Lemma tp_bind {A B} (C : A -> Prop) (E : B -> Prop) (m1 m2 : PM A) (f1 f2 : A -> PM B) : TP C m1 m2 -> (forall a, TP E (f1 a) (f2 a)) ->
  (forall a, C a -> (forall b, E b) \/ D (f1 a)) -> TP E (pbind m1 f1) (pbind m2 f2).
Proof.
  intros H K Q s1 s2 R. specialize (H s1 s2 R). unfold pbind. destruct (m1 s1) as [a t1|t1| |]; auto. destruct H as (N & Lf & L & [G|[(t2 & E2 & R2)|(Z & Ca)]]).
  - specialize (K a t1 _ (rel_self t1 N)). destruct (f1 a t1) as [c u1|u1| |]; auto.
    + destruct K as (N' & Lf' & L' & _). split; [exact N'|split; [lia|split; [lia|left; lia]]].
    + destruct K as (N' & Lf' & L'). split; [exact N'|split; lia].
  - rewrite E2. specialize (K a t1 t2 R2). destruct (f1 a t1) as [c u1|u1| |]; auto.
    + destruct K as (N' & Lf' & L' & [G|K]); (split; [exact N'|split; [lia|split; [lia|]]]); [left; lia|now right].
    + destruct K as (N' & Lf' & L'). split; [exact N'|split; lia].
  - specialize (K a t1 _ (rel_self t1 N)). specialize (Q a Ca). destruct t1 as [ts d1]. cbn [ps_tokens] in Z. subst ts. assert (X : D (f1 a) -> match f1 a (PState [] d1) with POk _ u1 => said (PState [] d1) < said u1 | _ => True end) by (intro X; apply X).
    destruct (f1 a (PState [] d1)) as [c u1|u1| |]; auto.
    + destruct K as (N' & Lf' & L' & K). split; [exact N'|split; [lia|split; [lia|]]]. destruct Q as [Q|Q]; [|left; specialize (X Q); lia]. right. right. split; [|apply Q].
      unfold left in Lf'. cbn in Lf'. destruct (ps_tokens u1); [reflexivity|cbn in Lf'; lia].
    + destruct K as (N' & Lf' & L'). split; [exact N'|split; lia].
Qed.
Lemma b_s {A B} (E : B -> Prop) (m1 m2 : PM A) (f1 f2 : A -> PM B) : Sr m1 m2 -> (forall a, TP E (f1 a) (f2 a)) -> TP E (pbind m1 f1) (pbind m2 f2).
Proof. intros H K. eapply tp_bind; [exact H|exact K|]. intros a []. Qed.
Lemma b_w {A B} (m1 m2 : PM A) (f1 f2 : A -> PM B) : W m1 m2 -> (forall a, W (f1 a) (f2 a)) -> W (pbind m1 f1) (pbind m2 f2).
Proof. intros H K. eapply tp_bind; [exact H|exact K|]. auto. Qed.
Lemma b_d {A B} (m1 m2 : PM A) (f1 f2 : A -> PM B) : W m1 m2 -> (forall a, D (f1 a)) -> (forall a, Sr (f1 a) (f2 a)) -> Sr (pbind m1 f1) (pbind m2 f2).
Proof. intros H X K. eapply tp_bind; [exact H|exact K|]. auto. Qed.
Lemma d_r {A B} (m1 m2 : PM A) (f1 : A -> PM B) : W m1 m2 -> (forall a, D (f1 a)) -> D (pbind m1 f1).
Proof.
  intros H X d. specialize (H (PState [] d) _ (rel_self (PState [] d) (run_nil xl))). unfold pbind. destruct (m1 (PState [] d)) as [a t1|t1| |]; auto.
  destruct H as (N & Lf & L & _). destruct t1 as [[|x ts] d1]; [|unfold left in Lf; cbn in Lf; lia]. specialize (X a d1). destruct (f1 a (PState [] d1)); auto. lia.
Qed.
Lemma d_l {A B} (m1 : PM A) (f1 f2 : A -> PM B) : D m1 -> (forall a, W (f1 a) (f2 a)) -> (forall d a t, m1 (PState [] d) = POk a t -> noell t) -> D (pbind m1 f1).
Proof.
  intros H K N d. specialize (H d). unfold pbind. destruct (m1 (PState [] d)) as [a t1|t1| |] eqn:E1; auto.
  specialize (K a t1 _ (rel_self _ (N _ _ _ E1))). destruct (f1 a t1) as [b u| | |]; auto. destruct K as (_ & _ & L & _). lia.
Qed.
Lemma b_e {A B} (E : B -> Prop) (m1 m2 : PM A) (f1 f2 : A -> PM B) : W m1 m2 -> (forall a, TP E (f1 a) (f2 a)) -> (forall a d, match f1 a (PState [] d) with POk b _ => E b | _ => True end) -> TP E (pbind m1 f1) (pbind m2 f2).
Proof.
  intros H K Q s1 s2 R. specialize (H s1 s2 R). unfold pbind. destruct (m1 s1) as [a t1|t1| |]; auto. destruct H as (N & Lf & L & [G|[(t2 & E2 & R2)|(Z & _)]]).
  - specialize (K a t1 _ (rel_self t1 N)). destruct (f1 a t1) as [c u1|u1| |]; auto.
    + destruct K as (N' & Lf' & L' & _). split; [exact N'|split; [lia|split; [lia|left; lia]]].
    + destruct K as (N' & Lf' & L'). split; [exact N'|split; lia].
  - rewrite E2. specialize (K a t1 t2 R2). destruct (f1 a t1) as [c u1|u1| |]; auto.
    + destruct K as (N' & Lf' & L' & [G|K]); (split; [exact N'|split; [lia|split; [lia|]]]); [left; lia|now right].
    + destruct K as (N' & Lf' & L'). split; [exact N'|split; lia].
  - specialize (K a t1 _ (rel_self t1 N)). destruct t1 as [ts d1]. cbn [ps_tokens] in Z. subst ts. specialize (Q a d1).
    destruct (f1 a (PState [] d1)) as [c u1|u1| |]; auto.
    + destruct K as (N' & Lf' & L' & K). split; [exact N'|split; [lia|split; [lia|]]]. right. right. split; [|exact Q].
      unfold left in Lf'. cbn in Lf'. destruct (ps_tokens u1); [reflexivity|cbn in Lf'; lia].
    + destruct K as (N' & Lf' & L'). split; [exact N'|split; lia].
Qed.
Lemma t_ret {A} C (a : A) : TP C (pret a) (pret a).
Proof. intros s1 s2 R. cbn. pose proof R as (N & R'). repeat split; auto. right. left. exists s2. auto. Qed.
Lemma t_report C e : TP C (preport e) (preport e).
Proof.
  intros [ts d] [ts2 d2] (N & Dg & R). cbn [preport ps_tokens ps_diags] in *. subst d2 ts2. split; [exact N|]. split; [apply le_n|]. split; [apply said_app|]. right. left.
  exists (PState (ts ++ ext) ((pre ++ d) ++ [e])). repeat split; auto. cbn. now rewrite app_assoc.
Qed.
Lemma said_more ts ts' d e : (match e with Warn _ => false | _ => true end) = true -> said (PState ts d) < said (PState ts' (d ++ [e])).
Proof. intro H. unfold said. cbn [ps_diags]. rewrite filter_app, app_length. cbn [filter]. rewrite H. cbn. lia. Qed.
Lemma t_sfail {A} C e (m : PM A) : TP C (sfail e) m.
Proof. intros [ts d] s2 (N & _). unfold sfail, pfail. cbn [ps_tokens ps_diags] in *. split; [exact N|]. split; [apply le_n|]. now apply said_more. Qed.
Lemma t_ice {A} C (m : PM A) : TP C p_ice m. Proof. intros s1 s2 R. exact I. Qed.
Lemma t_none {A} C (m : PM A) : TP C (fun _ => PFuel) m. Proof. intros s1 s2 R. exact I. Qed.
Lemma t_ok {A} (m1 m2 : PM A) : Sr m1 m2 -> Sr (p_ok m1) (p_ok m2).
Proof.
  intros H s1 s2 R. specialize (H s1 s2 R). unfold p_ok. destruct (m1 s1) as [a t1|t1| |]; auto.
  - destruct H as (N & Lf & L & [G|[(t2 & E & R2)|(_ & [])]]); repeat split; auto. right. left. exists t2. rewrite E. auto.
  - destruct H as (N & Lf & L). repeat split; auto. lia.
Qed.
Lemma w_ok {A} (m1 m2 : PM A) : W m1 m2 -> W (p_ok m1) (p_ok m2).
Proof.
  intros H s1 s2 R. specialize (H s1 s2 R). unfold p_ok. destruct (m1 s1) as [a t1|t1| |]; auto.
  - destruct H as (N & Lf & L & [G|[(t2 & E & R2)|(Z & _)]]); repeat split; auto. right. left. exists t2. rewrite E. auto.
  - destruct H as (N & Lf & L). repeat split; auto. lia.
Qed.
Lemma t_map_err {A} C (m1 m2 : PM A) h : TP C m1 m2 -> W h h -> TP C (map_err m1 h) (map_err m2 h).
Proof.
  intros H K s1 s2 R. specialize (H s1 s2 R). unfold map_err. destruct (m1 s1) as [a t1|t1| |]; auto.
  - destruct H as (N & Lf & L & [G|[(t2 & E & R2)|Z]]); repeat split; auto. right. left. exists t2. rewrite E. auto.
  - destruct H as (N & Lf & L). specialize (K t1 _ (rel_self t1 N)). destruct (h t1) as [c u1|u1| |]; auto.
    + destruct K as (N' & Lf' & L' & _). split; [exact N'|split; lia].
    + destruct K as (N' & Lf' & L'). split; [exact N'|split; lia].
Qed.
Definition quiet (p : token -> bool) : Prop := forall w, tok_is_whitespace w = true -> p w = false.
Lemma hd_ext p : quiet p -> match hd_error ext with Some t => p t = false | None => True end.
Proof. intro Q. destruct Hx as [-> |(w & l & -> & Hw)]; [exact I|]. cbn. now apply Q. Qed.
Lemma t_poll_if C p : quiet p -> TP C (poll_if p) (poll_if p).
Proof.
  intros Hp [[|t l] d] [ts2 d2] (N & Dg & R); cbn [ps_tokens ps_diags] in *; subst d2 ts2; unfold poll_if, peek, pbind; cbn [ps_tokens hd_error pret app].
  - split; [exact N|]. split; [apply le_n|]. split; [apply le_n|]. right. left. pose proof (hd_ext p Hp) as X. exists (PState ext (pre ++ d)). split; [|apply (rel_self (PState [] d)), N]. destruct (hd_error ext); [now rewrite X|reflexivity].
  - inversion N; subst. destruct (p t); unfold poll, pret; cbn [ps_tokens ps_diags].
    + split; [assumption|]. split; [unfold left; cbn; lia|]. split; [apply le_n|]. right. left. eexists. split; [reflexivity|]. split; [assumption|]. cbn; auto.
    + split; [exact N|]. split; [lia|]. split; [lia|]. right. left. eexists. split; [reflexivity|]. split; [exact N|]. cbn; auto.
Qed.
Lemma w_skip : W skip_whitespace skip_whitespace.
Proof.
  intros [[|t l] d] [ts2 d2] (N & Dg & R); cbn [ps_tokens ps_diags] in *; subst d2 ts2; unfold skip_whitespace, poll_if, peek, pbind; cbn [ps_tokens hd_error pret app].
  - repeat split; auto.
  - inversion N; subst. destruct (tok_is_whitespace t); unfold poll, pret; cbn [ps_tokens ps_diags].
    + split; [assumption|]. split; [unfold left; cbn; lia|]. split; [apply le_n|]. right. left. eexists. split; [reflexivity|]. split; [assumption|]. cbn; auto.
    + split; [exact N|]. split; [lia|]. split; [lia|]. right. left. eexists. split; [reflexivity|]. split; [exact N|]. cbn; auto.
Qed.
Lemma t_expect_poll C : TP C expect_poll expect_poll.
Proof.
  intros [[|t l] d] [ts2 d2] (N & Dg & R); cbn [ps_tokens ps_diags] in *; subst d2 ts2; unfold expect_poll, poll, pbind, pfail, pret; cbn [ps_tokens ps_diags app].
  - split; [exact N|]. split; [apply le_n|]. now apply said_more.
  - inversion N; subst. split; [assumption|]. split; [unfold left; cbn; lia|]. split; [apply le_n|]. right. left. eexists. split; [reflexivity|]. split; [assumption|]. cbn; auto.
Qed.
Lemma t_expect_poll_kind C k : TP C (expect_poll_kind k) (expect_poll_kind k).
Proof.
  intros s1 s2 R0. pose proof (t_expect_poll C s1 s2 R0) as K. destruct s1 as [[|t l] d], s2 as [ts2 d2]. all: unfold expect_poll_kind, peek, pbind; cbn [ps_tokens hd_error].
  - change (expect_poll (PState [] d)) with (PErr (A:=token) (PState [] (d ++ [SyntaxErr UnexpectedEOF]))) in *. exact K.
  - destruct R0 as (N & Dg & R). cbn [ps_tokens ps_diags] in *. subst ts2 d2. cbn [app hd_error]. destruct (kind_eqb (tk_kind t) k); cbn [negb].
    + exact K. + unfold pfail. cbn [ps_tokens ps_diags]. split; [exact N|]. split; [apply le_n|]. now apply said_more.
Qed.
Lemma t_has_next C p : quiet p -> TP C (has_next p) (has_next p).
Proof.
  intros Hp [[|t l] d] [ts2 d2] (N & Dg & R); cbn [ps_tokens ps_diags] in *; subst d2 ts2; unfold has_next, peek, pbind, pret; cbn [ps_tokens hd_error app].
  - split; [exact N|]. split; [apply le_n|]. split; [apply le_n|]. right. left. pose proof (hd_ext p Hp) as X. exists (PState ext (pre ++ d)). split; [|apply (rel_self (PState [] d)), N]. destruct (hd_error ext); [now rewrite X|reflexivity].
  - split; [exact N|]. split; [lia|]. split; [lia|]. right. left. eexists. split; [reflexivity|]. split; [exact N|]. cbn; auto.
Qed.
Lemma no_dots l d : Forall (fun t => tk_kind t <> Ellipsis) l -> poll_if_kind Ellipsis (PState l d) = POk None (PState l d).
Proof. destruct l as [|t l]; [reflexivity|]. intro N. inversion N as [|? ? Ht _]; subst. unfold poll_if_kind, poll_if, peek, pbind. cbn [ps_tokens hd_error]. destruct (tk_kind t); try reflexivity. now elim Ht. Qed.
Lemma t_bind_ellipsis {B} C (f1 f2 : option token -> PM B) : TP C (f1 None) (f2 None) -> TP C (pbind (poll_if_kind Ellipsis) f1) (pbind (poll_if_kind Ellipsis) f2).
Proof.
  intros H s1 s2 R. specialize (H s1 s2 R). destruct s1 as [l d], s2 as [l2 d2]. destruct R as (N & Dg & R). cbn [ps_tokens ps_diags] in *. subst l2 d2.
  unfold pbind. rewrite (no_dots l d (run_forall _ _ N)), (no_dots (l ++ ext)) by (apply Forall_app; split; [exact (run_forall _ _ N)|exact Hell]). exact H.
Qed.
Lemma t_fuel {A} C (f1 f2 : nat -> PM A) : (forall n m, n <= m -> TP C (f1 n) (f2 m)) -> TP C (with_fuel f1) (with_fuel f2).
Proof. intros H s1 s2 R. unfold with_fuel. apply H; [|exact R]. destruct R as (_ & _ & R). rewrite R, app_length. lia. Qed.
Lemma q_not k : kind_is_whitespace k = false -> quiet (is_kind k).
Proof. intros K w Hw. unfold tok_is_whitespace in Hw. unfold is_kind. destruct (tk_kind w); try discriminate; destruct k; try discriminate; reflexivity. Qed.
Ltac notw := let w := fresh "w" in let Hw := fresh "Hw" in intros w Hw; unfold tok_is_whitespace in Hw;
  unfold is_access, is_group_tok, is_spread_tok, has_text, starts_tag, token_text, is_close_tag, is_kind; destruct (tk_kind w); try discriminate Hw; reflexivity.

Create HintDb join.
Hint Resolve t_report w_skip t_expect_poll t_expect_poll_kind : join.
Ltac dies := first [solve [intros; let d := fresh in intro d; exact I] | solve [let d := fresh in intros; intro d; refine (said_more [] [] d _ _); reflexivity] | solve [intro; let d := fresh in intro d; cbn; first [exact I|now apply said_more]] | solve [let d := fresh in intro d; cbn; first [exact I|now apply said_more]] | solve [intros; eauto 3 with join nocore]].
Ltac t1 :=
  lazymatch goal with
  | |- forall _, _ => intro
  | |- TP _ (pret _) (pret _) => apply t_ret
  | |- TP _ (sfail _) _ => apply t_sfail
  | |- TP _ (serr _) (serr _) => apply t_report
  | |- TP _ p_ice _ => apply t_ice
  | |- TP _ (fun _ => PFuel) _ => apply t_none
  | |- TP (fun _ => False) (p_ok _) (p_ok _) => apply t_ok
  | |- TP (fun _ => True) (p_ok _) (p_ok _) => apply w_ok
  | |- TP _ (map_err _ _) (map_err _ _) => apply t_map_err
  | |- TP _ (pbind (poll_if_kind Ellipsis) _) _ => apply t_bind_ellipsis
  | |- TP (fun _ => True) (pbind _ _) (pbind _ _) => apply b_w
  | |- TP (fun _ => False) (pbind skip_whitespace _) (pbind _ _) => apply b_d; [exact w_skip|dies|]
  | |- TP (fun _ => False) (pbind _ _) (pbind _ _) => apply b_s
  | |- TP _ (poll_if_kind ?k) (poll_if_kind ?k) => apply t_poll_if; solve [notw | apply q_not; assumption]
  | |- TP _ (poll_if _) (poll_if _) => apply t_poll_if; notw
  | |- TP _ (has_next _) (has_next _) => apply t_has_next; notw
  | |- TP _ (if ?b then _ else _) _ => destruct b
  | |- TP _ (match ?x with _ => _ end) _ => destruct x
  | |- TP (fun _ => True) _ _ => solve [eauto 3 with join nocore | apply s_w; eauto 3 with join nocore]
  | |- _ => solve [eauto 3 with join nocore]
  end.
Ltac ts := repeat (cbn [is_some]; cbv zeta; t1).

Lemma t_group_type t tok : Sr (group_type t tok) (group_type t tok).
Proof. unfold group_type. ts. Qed.
Hint Resolve t_group_type : join.
Lemma w_groups n : forall m t, n <= m -> W (parse_groups n t) (parse_groups m t).
Proof. induction n as [|n IH]; intros [|m] t L; try lia; cbn [parse_groups]; try apply t_none. assert (forall t, W (parse_groups n t) (parse_groups m t)) by (intro; apply IH; lia). ts. Qed.
Lemma w_type : W parse_type parse_type.
Proof. unfold parse_type. t1; [ts|]. intro. t1; [ts|]. intro. t1; [ts|]. intro t. apply (t_fuel _ (fun n => parse_groups n t) (fun n => parse_groups n t)). intros. now apply w_groups. Qed.
Lemma t_tok_name t : Sr (tok_name_id t) (tok_name_id t). Proof. unfold tok_name_id. ts. Qed.
Lemma t_lowercase t : Sr (tok_lowercase_name_id t) (tok_lowercase_name_id t). Proof. unfold tok_lowercase_name_id. ts. Qed.
Lemma t_number t : Sr (p_number t) (p_number t). Proof. unfold p_number. ts. Qed.
Lemma t_unescape t : Sr (p_unescape t) (p_unescape t). Proof. unfold p_unescape. ts. Qed.
Hint Resolve w_type t_tok_name t_lowercase t_number t_unescape : join.
Lemma t_name_loop n : forall m e, n <= m -> Sr (name_loop n e) (name_loop m e).
Proof. induction n as [|n IH]; intros [|m] e L; try lia; cbn [name_loop]; try apply t_none. assert (forall e, Sr (name_loop n e) (name_loop m e)) by (intro; apply IH; lia). ts. Qed.
Lemma t_name t : Sr (parse_name t) (parse_name t).
Proof. unfold parse_name. t1; [ts|]. intro. apply t_fuel. intros. now apply t_name_loop. Qed.
Lemma t_text_loop n : forall m e, n <= m -> Sr (text_loop n e) (text_loop m e).
Proof. induction n as [|n IH]; intros [|m] e L; try lia; cbn [text_loop]; try apply t_none. assert (forall e, Sr (text_loop n e) (text_loop m e)) by (intro; apply IH; lia). ts. Qed.
Lemma t_text t : Sr (parse_text t) (parse_text t).
Proof. unfold parse_text. destruct (token_text t); [|ts]. t1; [|ts]. apply t_fuel. intros. now apply t_text_loop. Qed.
Lemma t_spread a b : Sr (poll_if_spread a b) (poll_if_spread a b). Proof. unfold poll_if_spread. ts. Qed.
Hint Resolve t_name t_text t_spread : join.
Lemma t_template_loop decode open k n : forall m parts braces, n <= m -> Sr (template_loop n decode open k parts braces) (template_loop m decode open k parts braces).
Proof.
  induction n as [|n IH]; intros [|m] parts braces L; try lia; cbn [template_loop]; try apply t_none. assert (forall p b, Sr (template_loop n decode open k p b) (template_loop m decode open k p b)) by (intros; apply IH; lia).
  assert (forall p b, D (template_loop n decode open k p b)) by (intros p b d; destruct n; cbn; exact I).
  ts.
Qed.
Lemma t_report_unmatched l : Sr (report_unmatched l) (report_unmatched l). Proof. induction l; cbn [report_unmatched]; ts. Qed.
Hint Resolve t_report_unmatched : join.
Lemma t_template_parts decode open k : Sr (parse_template_parts decode open k) (parse_template_parts decode open k).
Proof. unfold parse_template_parts. t1; [|ts]. apply t_fuel. intros. now apply t_template_loop. Qed.
Lemma t_check_args l : forall a u, Sr (check_args l a u) (check_args l a u). Proof. induction l as [|[x k e] l IH]; intros; cbn [check_args]; ts. Qed.
Lemma t_check_attrs l : forall u, Sr (check_attrs l u) (check_attrs l u). Proof. induction l as [|[x k e|e] l IH]; intros; cbn [check_attrs]; ts. Qed.
Lemma t_name_pattern t : Sr (parse_name_pattern t) (parse_name_pattern t). Proof. unfold parse_name_pattern. ts. Qed.
Lemma t_template_regex parts : forall re vars, Sr (template_regex parts re vars) (template_regex parts re vars).
Proof. induction parts as [|[s|c|[x|x b a|x b i]|] parts IH]; intros; cbn [template_regex]; ts. Qed.
Hint Resolve t_template_parts t_check_args t_check_attrs t_name_pattern t_template_regex : join.
Lemma d_map_err {A} (m : PM A) h : D m -> D (map_err m h).
Proof. intros H d. specialize (H d). unfold map_err. destruct (m (PState [] d)) as [a t|t| |]; auto. destruct (h t); exact I. Qed.
Lemma w_noell {A} (m1 m2 : PM A) : W m1 m2 -> forall d a t, m1 (PState [] d) = POk a t -> noell t.
Proof. intros H d a t E. specialize (H (PState [] d) _ (rel_self (PState [] d) (run_nil xl))). rewrite E in H. apply H. Qed.
Lemma d_lw {A B} (m1 m2 : PM A) (f1 f2 : A -> PM B) : W m1 m2 -> D m1 -> (forall a, W (f1 a) (f2 a)) -> D (pbind m1 f1).
Proof. intros H Hd K. eapply d_l; [exact Hd|exact K|]. exact (w_noell _ _ H). Qed.
Lemma t_separated {A} open (p1 p2 : PM A) sep close : kind_is_whitespace close = false -> (sep = Whitespace \/ kind_is_whitespace sep = false) -> W p1 p2 -> D p1 ->
  Sr (parse_separated_until open p1 sep close) (parse_separated_until open p2 sep close).
Proof.
  intros Hc Hs H Hd. unfold parse_separated_until. apply t_fuel. intro n. generalize false as b.
  assert (G : forall b m, n <= m -> Sr (separated_loop open p1 sep close n b) (separated_loop open p2 sep close m b) /\ D (separated_loop open p1 sep close n b)); [|intros; now apply G].
  induction n as [|n IH]; intros b [|m] L; try lia; cbn [separated_loop]; try (split; [apply t_none|intro; exact I]).
  assert (K : forall b, Sr (separated_loop open p1 sep close n b) (separated_loop open p2 sep close m b)) by (intros; apply IH; lia).
  assert (KD : forall b, D (separated_loop open p1 sep close n b)) by (intro b'; apply (IH b' m); lia).
  assert (E : Sr (if kind_eqb sep Whitespace then pret false else do s <- poll_if_kind sep; pret (negb (is_some s))) (if kind_eqb sep Whitespace then pret false else do s <- poll_if_kind sep; pret (negb (is_some s)))).
  { destruct Hs as [-> |Hs]; [apply t_ret|]. destruct (kind_eqb sep Whitespace); ts. }
  clear IH. revert E. generalize (if kind_eqb sep Whitespace then pret false else do s <- poll_if_kind sep; pret (negb (is_some s))). intros e E.
  assert (F : forall c : A, Sr (skip_whitespace;; (do x <- e; do rest <- separated_loop open p1 sep close n x; pret (c :: fst rest, snd rest))) (skip_whitespace;; (do x <- e; do rest <- separated_loop open p2 sep close m x; pret (c :: fst rest, snd rest)))
    /\ D (skip_whitespace;; (do x <- e; do rest <- separated_loop open p1 sep close n x; pret (c :: fst rest, snd rest)))).
  { intro c. assert (Y : D (do x <- e; do rest <- separated_loop open p1 sep close n x; pret (c :: fst rest, snd rest))).
    { eapply d_r; [apply s_w, E|]. intro x. eapply d_lw; [apply s_w, K|apply KD|]. intro. apply t_ret. }
    split; [|eapply d_r; [exact w_skip|intro; exact Y]]. apply b_d; [exact w_skip|intro; exact Y|]. intro. apply b_s; [exact E|]. intro. apply b_s; [apply K|]. intro. apply t_ret. }
  assert (M : W (map_err p1 (serr (TokenUnmatched (tk_kind open));; serr (TokenExpectedWasEOF close))) (map_err p2 (serr (TokenUnmatched (tk_kind open));; serr (TokenExpectedWasEOF close)))) by (apply t_map_err; ts).
  assert (MD : forall f1 f2 : A -> PM (list A * token), (forall c, Sr (f1 c) (f2 c)) -> D (pbind (map_err p1 (serr (TokenUnmatched (tk_kind open));; serr (TokenExpectedWasEOF close))) f1)).
  { intros f1 f2 Hf. eapply d_lw; [exact M|apply d_map_err, Hd|]. intro. apply s_w, Hf. }
  specialize (MD _ _ (fun c => proj1 (F c))).
  assert (ZD : D (do close0 <- (if b then p_ok (expect_poll_kind close) else poll_if_kind close); match close0 with Some close1 => pret ([], close1) | None => do child <- map_err p1 (serr (TokenUnmatched (tk_kind open));; serr (TokenExpectedWasEOF close));
     skip_whitespace;; (do x <- e; do rest <- separated_loop open p1 sep close n x; pret (child :: fst rest, snd rest)) end)).
  { intro d. destruct b.
    - specialize (MD (d ++ [SyntaxErr UnexpectedEOF])). unfold pbind at 1. change (p_ok (expect_poll_kind close) (PState [] d)) with (POk (A:=option token) None (PState [] (d ++ [SyntaxErr UnexpectedEOF]))). cbv beta iota.
      pose proof (said_more [] [] d (SyntaxErr UnexpectedEOF) eq_refl). destruct (pbind _ _ _); auto. lia.
    - exact (MD d). }
  split; [|eapply d_r; [exact w_skip|intro; exact ZD]]. apply b_d; [exact w_skip|intro; exact ZD|]. intros _.
  apply b_s; [destruct b; [apply t_ok, t_expect_poll_kind|apply t_poll_if, q_not, Hc]|]. intros [o|]; [apply t_ret|].
  apply b_d; [exact M|intro c; apply F|intro c; apply F].
Qed.
Lemma t_check_params rs : forall s, Sr (check_params rs s) (check_params rs s).
Proof.
  induction rs as [|[[[name q i t d] kind] u] rs IH]; intro s; cbn [check_params]; [ts|]. t1; [|ts].
  unfold check_param. destruct s as [an us_ ao aon np sp nn sn]. cbv zeta. t1; [ts|]. intro. destruct kind, u; cbn [negb]; ts.
Qed.
Lemma t_named_args l : Sr (named_args l) (named_args l). Proof. induction l as [|[x k e] l IH]; cbn [named_args]; ts. Qed.
Lemma t_spread_index l : forall i o, Sr (spread_index l i o) (spread_index l i o). Proof. induction l as [|[p [|]] l IH]; intros; cbn [spread_index]; ts. Qed.
Lemma t_check_html l : Sr (check_html_patterns l) (check_html_patterns l). Proof. induction l; cbn [check_html_patterns]; ts. Qed.
Lemma t_dict_parts l : forall attrs spread, Sr (dict_parts l attrs spread) (dict_parts l attrs spread). Proof. induction l as [|[[x|] p] l IH]; intros; cbn [dict_parts]; ts. Qed.
Hint Resolve t_dict_parts : join.
Lemma t_make_dict l b : Sr (make_dict_pattern l b) (make_dict_pattern l b). Proof. unfold make_dict_pattern. ts. Qed.
Lemma w_typed p : W (parse_optional_typed_pattern p) (parse_optional_typed_pattern p). Proof. unfold parse_optional_typed_pattern. ts. Qed.
Hint Resolve t_check_params t_named_args t_spread_index t_check_html t_make_dict w_typed : join.


Lemma tp_map {A} (C : A -> Prop) (m1 m2 : PM A) g : TP C m1 m2 -> (forall a, C a -> C (g a)) -> TP C (do a <- m1; pret (g a)) (do a <- m2; pret (g a)).
Proof.
  intros H K s1 s2 R. specialize (H s1 s2 R). unfold pbind. destruct (m1 s1) as [a t1|t1| |]; auto. unfold pret at 1. destruct H as (N & Lf & L & [G|[(t2 & E & R2)|(Z & Ca)]]); repeat split; auto.
  right. left. exists t2. rewrite E. auto.
Qed.
Definition ended (r : list node * option token) : Prop := snd r = None.
Lemma nodes_loop_cons node closer n t l d : nodes_loop node closer (S n) (PState (t :: l) d) =
  (if closer t then pret ([], Some t)
   else do child <- p_ok (node t); do rest <- nodes_loop node closer n; pret (match child with Some n0 => n0 :: fst rest | None => fst rest end, snd rest)) (PState l d).
Proof. reflexivity. Qed.
Section Nodes.
  Variables node1 node2 : token -> PM node.
  Hypothesis HN : forall t, Sr (node1 t) (node2 t).
  Lemma t_nodes_loop closer n : forall m, n <= m -> TP ended (nodes_loop node1 closer n) (nodes_loop node2 closer m).
  Proof.
    induction n as [|n IH]; intros [|m] L; try lia; try apply t_none. intros [[|t l] d] s2 R.
    - cbn [nodes_loop]. unfold pbind at 1, poll at 1. cbn [ps_tokens]. unfold pret at 1. split; [apply R|]. split; [lia|]. split; [lia|]. right. right. now split.
    - destruct s2 as [ts2 d2]. destruct R as (N & Dg & R). cbn [ps_tokens ps_diags] in *. subst ts2 d2. cbn [app]. rewrite !nodes_loop_cons.
      change (said (PState (t :: l) d)) with (said (PState l d)). inversion N as [|? ? Nt Nl]; subst.
      assert (G : TP ended (if closer t then pret ([], Some t) else do child <- p_ok (node1 t); do rest <- nodes_loop node1 closer n; pret (match child with Some n0 => n0 :: fst rest | None => fst rest end, snd rest))
        (if closer t then pret ([], Some t) else do child <- p_ok (node2 t); do rest <- nodes_loop node2 closer m; pret (match child with Some n0 => n0 :: fst rest | None => fst rest end, snd rest))).
      { destruct (closer t); [apply t_ret|]. apply b_s; [apply t_ok, HN|]. intro c. apply (tp_map ended _ _ (fun rest => (match c with Some n0 => n0 :: fst rest | None => fst rest end, snd rest))); [apply IH; lia|]. intros a Ha. exact Ha. }
      specialize (G (PState l d) _ (rel_self (PState l d) Nl)). cbn [ps_tokens ps_diags] in G. match type of G with match ?x with _ => _ end => destruct x as [a u|u| |] end; auto.
      + destruct G as (N' & Lf & G). split; [exact N'|split; [unfold left in *; cbn in *; lia|exact G]].
      + destruct G as (N' & Lf & G). split; [exact N'|split; [unfold left in *; cbn in *; lia|exact G]].
  Qed.
  Lemma t_nodes_until closer : TP ended (parse_nodes_until node1 closer) (parse_nodes_until node2 closer).
  Proof.
    unfold parse_nodes_until. eapply b_e; [exact w_skip| |].
    - intros _. apply (tp_map ended _ _ (fun r => (pop_whitespace (fst r), snd r))); [|intros a Ha; exact Ha]. apply t_fuel. intros. now apply t_nodes_loop.
    - intros _ d. reflexivity.
  Qed.
End Nodes.
Section Step.
  Variables (src : str) (decode : str -> str) (regex_ok : str -> bool) (R1 R2 : parsers).
  Hypothesis HE : forall t, Sr (r_expr_tok R1 t) (r_expr_tok R2 t).
  Hypothesis HP : W (r_pattern R1) (r_pattern R2).
  Hypothesis HPD : D (r_pattern R1).
  Hypothesis HN : forall t, Sr (r_node R1 t) (r_node R2 t).
  Hint Resolve HE HP HPD HN : join.
  Ltac sep := try apply s_w; apply t_separated; [reflexivity|solve [now left|now right]| |dies].
  Lemma t_expr : Sr (parse_expr R1) (parse_expr R2). Proof. unfold parse_expr. ts. Qed.
  Hint Resolve t_expr : join.
  Lemma d_expr : D (parse_expr R1). Proof. dies. Qed.
  Hint Resolve d_expr : join.
  Lemma t_expr_or : Sr (parse_expr_or_ellipsis R1) (parse_expr_or_ellipsis R2). Proof. unfold parse_expr_or_ellipsis. ts. Qed.
  Lemma t_group open : Sr (parse_group R1 open) (parse_group R2 open).
  Proof. unfold parse_group. eapply tp_bind; [apply t_nodes_until, HN|intro; ts|]. intros [c [o|]] Ha; [discriminate|]. right. dies. Qed.
  Hint Resolve t_expr_or t_group : join.
  Lemma t_arg : W (parse_arg R1) (parse_arg R2). Proof. unfold parse_arg. ts. Qed.
  Hint Resolve t_arg : join.
  Lemma t_args : W (parse_args R1) (parse_args R2). Proof. unfold parse_args. t1; [ts|]. intro. t1; [ts|]. intro o. destruct o; [|ts]. t1; [sep; ts|ts]. Qed.
  Lemma t_list_item : W (parse_list_item R1) (parse_list_item R2). Proof. unfold parse_list_item. t1; [ts|]. intros [x k v]. ts. Qed.
  Hint Resolve t_args t_list_item : join.
  Lemma t_list open : Sr (parse_list R1 open) (parse_list R2 open). Proof. unfold parse_list. t1; [sep; ts|ts]. Qed.
  Lemma t_param : W (parse_param R1) (parse_param R2). Proof. unfold parse_param. ts. Qed.
  Hint Resolve t_list t_param : join.
  Lemma t_signature : W (parse_signature R1) (parse_signature R2).
  Proof. unfold parse_signature. t1; [ts|]. intro. t1; [ts|]. intro o. t1; [destruct o; [t1; [sep; ts|ts]|ts]|]. ts. Qed.
  Hint Resolve t_signature : join.
  Lemma t_func_def b : Sr (parse_func_def R1 b) (parse_func_def R2 b). Proof. unfold parse_func_def. t1; intro. t1; [ts|]. intro. t1; [ts|]. intro. apply b_d; [exact t_signature|dies|ts]. Qed.
  Lemma t_func_call t : Sr (parse_func_call src R1 t) (parse_func_call src R2 t). Proof. unfold parse_func_call. t1; [ts|]. intro. apply b_d; [exact t_args|dies|ts]. Qed.
  Lemma t_some_named : W (parse_some_named_args R1) (parse_some_named_args R2). Proof. unfold parse_some_named_args. ts. Qed.
  Hint Resolve t_func_def t_func_call t_some_named : join.
  Lemma t_let t b : Sr (parse_let_in R1 t b) (parse_let_in R2 t b). Proof. unfold parse_let_in. apply b_d; [exact t_some_named|dies|ts]. Qed.
  Hint Resolve t_let : join.
  Lemma t_export : Sr (parse_export R1) (parse_export R2). Proof. unfold parse_export. t1; intro. t1; [ts|]. intro f. destruct (is_some f); [ts|]. t1; [ts|]. intros [l|]; [ts|]. apply b_d; [exact t_some_named|dies|ts]. Qed.
  Lemma t_tag_attr : W (parse_tag_attribute R1) (parse_tag_attribute R2). Proof. unfold parse_tag_attribute. ts. Qed.
  Hint Resolve t_export t_tag_attr : join.
  Lemma t_tag t : Sr (parse_tag R1 t) (parse_tag R2 t).
  Proof.
    unfold parse_tag. t1; [ts|]. intro nt. t1; [ts|]. intros [name id]. t1; [sep; ts|]. intros [attrs rangle]. t1; [ts|]. intro. destruct (_ || _)%bool; [ts|].
    eapply tp_bind; [apply t_nodes_until, HN|intro; ts|]. intros [c [o|]] Ha; [discriminate|]. right. dies.
  Qed.
  Lemma t_positional_pattern : W (parse_positional_match_pattern R1) (parse_positional_match_pattern R2). Proof. unfold parse_positional_match_pattern. ts. Qed.
  Lemma d_positional : D (parse_positional_match_pattern R1).
  Proof. intro d. refine (d_lw (r_pattern R1) (r_pattern R2) (fun p => pret (p, false)) (fun p => pret (p, false)) HP HPD _ d). intro. apply t_ret. Qed.
  Hint Resolve d_positional : join.
  Lemma t_named_pattern b : W (parse_named_match_pattern R1 b) (parse_named_match_pattern R2 b). Proof. unfold parse_named_match_pattern. ts. Qed.
  Hint Resolve t_tag t_positional_pattern t_named_pattern : join.
  Lemma t_seq_pattern open sep close : kind_is_whitespace close = false -> (sep = Whitespace \/ kind_is_whitespace sep = false) ->
    Sr (parse_seq_pattern R1 open sep close) (parse_seq_pattern R2 open sep close).
  Proof. intros Hc Hs. unfold parse_seq_pattern. t1; [apply t_separated; [exact Hc|exact Hs|ts|dies]|ts]. Qed.
  Lemma t_dict_pattern t : Sr (parse_dict_pattern R1 t) (parse_dict_pattern R2 t). Proof. unfold parse_dict_pattern. t1; [sep; ts|ts]. Qed.
  Lemma t_tag_pattern t : W (parse_tag_pattern R1 t) (parse_tag_pattern R2 t).
  Proof. unfold parse_tag_pattern. t1; [ts|]. intro nt. t1; [ts|]. intros [name id]. t1; [sep; ts|]. ts. Qed.
  Lemma t_template_pattern open k : Sr (parse_template_pattern decode regex_ok open k) (parse_template_pattern decode regex_ok open k). Proof. unfold parse_template_pattern. ts. Qed.
  Hint Resolve t_dict_pattern t_tag_pattern t_template_pattern : join.
  Lemma t_primary : W (parse_primary_match_pattern decode regex_ok R1) (parse_primary_match_pattern decode regex_ok R2).
  Proof. unfold parse_primary_match_pattern. t1; [ts|]. intro. t1; [ts|]. intro t. destruct (tk_kind t); try (apply s_w, t_seq_pattern; [reflexivity|solve [now left|now right]]); ts. Qed.
  Hint Resolve t_primary : join.
  Lemma t_and_loop n : forall m p, n <= m -> W (and_loop decode regex_ok R1 n p) (and_loop decode regex_ok R2 m p).
  Proof. induction n as [|n IH]; intros [|m] p L; try lia; cbn [and_loop]; try apply t_none. assert (forall p, W (and_loop decode regex_ok R1 n p) (and_loop decode regex_ok R2 m p)) by (intros; apply IH; lia). ts. Qed.
  Lemma t_and : W (parse_and_match_pattern decode regex_ok R1) (parse_and_match_pattern decode regex_ok R2).
  Proof. unfold parse_and_match_pattern. t1; [ts|]. intro. apply t_fuel. intros. now apply t_and_loop. Qed.
  Hint Resolve t_and : join.
  Lemma t_or_loop n : forall m p, n <= m -> W (or_loop decode regex_ok R1 n p) (or_loop decode regex_ok R2 m p).
  Proof. induction n as [|n IH]; intros [|m] p L; try lia; cbn [or_loop]; try apply t_none. assert (forall p, W (or_loop decode regex_ok R1 n p) (or_loop decode regex_ok R2 m p)) by (intros; apply IH; lia). ts. Qed.
  Lemma t_pattern : W (parse_match_pattern decode regex_ok R1) (parse_match_pattern decode regex_ok R2).
  Proof. unfold parse_match_pattern. t1; [ts|]. intro. apply t_fuel. intros. now apply t_or_loop. Qed.
  Lemma t_branch : Sr (parse_match_branch R1) (parse_match_branch R2). Proof. unfold parse_match_branch. apply b_d; [exact HP|dies|ts]. Qed.
  Lemma d_branch : D (parse_match_branch R1). Proof. unfold parse_match_branch. apply (d_lw _ (r_pattern R2) _ (fun p => skip_whitespace;; (expect_poll_kind Arrow;; (do e <- parse_expr R2; pret (p, e))))); [exact HP|exact HPD|]. ts. Qed.
  Hint Resolve t_branch d_branch : join.
  Lemma t_match : Sr (parse_match R1) (parse_match R2).
  Proof. unfold parse_match. t1; [ts|]. intro. t1; intro. t1; [ts|]. intro. t1; [sep; ts|ts]. Qed.
  Hint Resolve t_match : join.
  Lemma t_expr_tok t : Sr (parse_expr_tok src decode R1 t) (parse_expr_tok src decode R2 t). Proof. unfold parse_expr_tok. ts. Qed.
  Hint Resolve t_expr_tok : join.
  Lemma t_node t : Sr (parse_node src decode R1 t) (parse_node src decode R2 t). Proof. unfold parse_node. ts. Qed.
End Step.
Lemma t_parsers src decode regex_ok n : forall m, n <= m -> let R1 := parsers_n src decode regex_ok n in let R2 := parsers_n src decode regex_ok m in
  (forall t, Sr (r_expr_tok R1 t) (r_expr_tok R2 t)) /\ W (r_pattern R1) (r_pattern R2) /\ D (r_pattern R1) /\ (forall t, Sr (r_node R1 t) (r_node R2 t)).
Proof.
  induction n as [|n IH]; intros m L; cbv zeta in *.
  - split; [intro; apply t_none|split; [apply t_none|split; [intro; exact I|intro; apply t_none]]].
  - destruct m as [|m]; try lia. destruct (IH m ltac:(lia)) as (A & B & C & E).
    change (parsers_n src decode regex_ok (S n)) with (parser_step src decode regex_ok (parsers_n src decode regex_ok n)).
    change (parsers_n src decode regex_ok (S m)) with (parser_step src decode regex_ok (parsers_n src decode regex_ok m)).
    cbn [parser_step r_expr_tok r_pattern r_node]. split; [|split; [|split]].
    + intro t. now apply t_expr_tok.
    + now apply t_pattern.
    + intro d. exact I.
    + intro t. now apply t_node.
Qed.

(** Nodes up to the end, and then what comes after. *)
Lemma loop_nil node closer m s : (do rest <- nodes_loop node closer m; pret ([] ++ fst rest, snd rest)) s = nodes_loop node closer m s.
Proof. unfold pbind. destruct (nodes_loop node closer m s) as [[a o] t| | |]; reflexivity. Qed.
Lemma loop_join node1 node2 : (forall t, Sr (node1 t) (node2 t)) -> (forall t s c u, node1 t s = POk c u -> node_is_whitespace c = true -> pale t = true /\ ps_tokens u = ps_tokens s) -> forall n m s1 s2 l o u, Rel s1 s2 -> left s1 <= m -> nodes_loop node1 (fun _ => false) n s1 = POk (l, o) u -> said u = said s1 ->
  o = None /\ exists m', m - left s1 <= m' /\ nodes_loop node2 (fun _ => false) m s2 = (do rest <- nodes_loop node2 (fun _ => false) m'; pret (l ++ fst rest, snd rest)) (PState ext (pre ++ ps_diags u)) /\
  (pale xl = false -> ps_tokens s1 <> [] -> pop_whitespace l = l /\ l <> []).
Proof.
  intros HN HB n. induction n as [|n IH]; intros m s1 s2 l o u R Lm E Q; [discriminate E|]. destruct s1 as [[|t ts] d], s2 as [ts2 d2]; destruct R as (N & Dg & R); cbn [ps_tokens ps_diags] in *; subst ts2 d2.
  - cbn [nodes_loop] in E. unfold pbind at 1, poll at 1 in E. cbn [ps_tokens] in E. unfold pret in E. injection E as <- <- <-. split; [reflexivity|]. exists m. split; [lia|]. split; [cbn [app ps_diags]; symmetry; apply loop_nil|]. intros _ []. reflexivity.
  - rewrite nodes_loop_cons in E. unfold left in Lm. cbn [ps_tokens length] in Lm. destruct m as [|m]; [lia|]. cbn [app]. rewrite nodes_loop_cons.
    inversion N as [|? ? Nt Nl]; subst. pose proof (HN t (PState ts d) _ (rel_self (PState ts d) Nl)) as H. cbn [ps_tokens ps_diags] in H. change (said (PState (t :: ts) d)) with (said (PState ts d)) in Q.
    unfold pbind at 1, p_ok in E. unfold pbind at 1, p_ok.
    assert (Mono : forall t1 a v, noell t1 -> nodes_loop node1 (fun _ => false) n t1 = POk a v -> said t1 <= said v).
    { intros t1 a v N1 Ev. pose proof (t_nodes_loop node1 node2 HN (fun _ => false) n n (le_n n) t1 _ (rel_self t1 N1)) as X. rewrite Ev in X. apply X. }
    pose proof (HB t (PState ts d)) as B. destruct (node1 t (PState ts d)) as [c t1|t1| |]; try discriminate E.
    + unfold pbind in E at 1. destruct (nodes_loop node1 (fun _ => false) n t1) as [[l' o'] v| | |] eqn:E1; try discriminate E. unfold pret in E. injection E as <- <- <-. cbn [fst snd] in *.
      destruct H as (N1 & Lf & S1 & H). pose proof (Mono _ _ _ N1 E1). destruct H as [H|[(t2 & E2 & R2)|(_ & [])]]; [lia|]. rewrite E2.
      destruct (IH m t1 t2 l' o' v R2) as (O & m' & Lm' & E' & Pp); [unfold left in *; cbn [ps_tokens] in *; lia|exact E1|lia|]. split; [exact O|]. exists m'. split; [unfold left in *; cbn [ps_tokens length] in *; lia|].
      split; [unfold pbind; unfold pbind in E'; rewrite E'; destruct (nodes_loop node2 (fun _ => false) m' _) as [[a b] x| | |]; reflexivity|].
      intros Wx _. destruct (ps_tokens t1) as [|y k] eqn:Y.
      * assert (l' = []) as ->.
        { destruct n as [|n]; [discriminate E1|]. destruct t1 as [ts1 d1]. cbn [ps_tokens] in Y. subst ts1. cbn [nodes_loop] in E1. unfold pbind at 1, poll at 1 in E1. cbn [ps_tokens] in E1. unfold pret in E1. now injection E1. }
        split; [|discriminate]. cbn [pop_whitespace]. destruct (node_is_whitespace c) eqn:Wc; [|reflexivity]. exfalso. destruct (B c t1 eq_refl Wc) as (Wt & Y'). rewrite Y in Y'. cbn [ps_tokens] in Y'.
        destruct Nt as (_ & Nt). rewrite (Nt (eq_sym Y')) in Wt. congruence.
      * destruct (Pp Wx) as (P1 & P2); [discriminate|]. split; [|discriminate]. cbn [pop_whitespace]. rewrite P1. destruct l'; [contradiction|reflexivity].
    + destruct H as (N1 & Lf & S1). unfold pbind in E at 1. destruct (nodes_loop node1 (fun _ => false) n t1) as [[l' o'] v| | |] eqn:E1; try discriminate E. unfold pret in E. injection E as <- <- <-. pose proof (Mono _ _ _ N1 E1). lia.
Qed.
End Join.


Lemma text_dark t s c u : parse_text t s = POk c u -> node_is_whitespace c = false.
Proof. unfold parse_text. destruct (token_text t); [|discriminate]. unfold pbind. destruct (with_fuel _ s); try discriminate. unfold pret. intro E. injection E as <- <-. reflexivity. Qed.
Lemma bind_dark {A} (m : PM A) (f : A -> node) s c u : (forall a, node_is_whitespace (f a) = false) -> (do a <- m; pret (f a)) s = POk c u -> node_is_whitespace c = false.
Proof. intros H. unfold pbind. destruct (m s); try discriminate. unfold pret. intro E. injection E as <- <-. apply H. Qed.
Lemma node_white src decode regex_ok n t s c u : r_node (parsers_n src decode regex_ok n) t s = POk c u -> node_is_whitespace c = true -> pale t = true /\ ps_tokens u = ps_tokens s.
Proof.
  destruct n as [|n]; [discriminate|]. cbn [parsers_n parser_step r_node]. unfold parse_node, pale. intros E W.
  destruct (tk_kind t) eqn:K.
  all: try (apply text_dark in E; congruence).
  all: try (apply bind_dark in E; [congruence|reflexivity]).
  all: try discriminate E.
  - unfold pret in E. injection E as <- <-. now split.
  - unfold pret in E. injection E as <- <-. now split.
  - split; [reflexivity|]. unfold pbind in E. destruct (p_unescape t s) as [a v|v| |] eqn:P; try discriminate E. unfold pret in E. injection E as <- <-.
    unfold p_unescape in P. destruct (unescape_char (tk_text t)) as [[z [e|]]| |]; try discriminate P; unfold pbind, serr, preport, pret in P; injection P as <- <-; reflexivity.
  - split; [reflexivity|]. destruct (decode_entity decode (tk_text t)) as [a [e|]]; unfold pbind, serr, preport, pret in E; injection E as <- <-; reflexivity.
  - match type of K with _ = Kw ?k => destruct k end; apply bind_dark in E; try reflexivity; congruence.
  - unfold pret in E. injection E as <- <-. discriminate W.
  - unfold pbind at 1 in E. destruct (has_next starts_tag s) as [[|] v| | |]; try discriminate E; [apply bind_dark in E; [congruence|reflexivity]|apply text_dark in E; congruence].
Qed.
(** Two lists of tokens divided by a blank line *)
Lemma pop_split l : exists ws, l = pop_whitespace l ++ ws /\ Forall (fun x => node_is_whitespace x = true) ws.
Proof.
  induction l as [|x l (ws & E & F)]; [now exists []|]. cbn [pop_whitespace]. destruct (pop_whitespace l) as [|y k] eqn:P.
  - destruct (node_is_whitespace x) eqn:X; [exists (x :: l)|exists l]; (split; [reflexivity|]); cbn in E; subst l; [now constructor|exact F].
  - exists ws. split; [cbn; now f_equal|exact F].
Qed.
Lemma pop_app l r : pop_whitespace r <> [] -> pop_whitespace (l ++ r) = l ++ pop_whitespace r.
Proof. intro N. induction l as [|x l IH]; [reflexivity|]. cbn [app pop_whitespace]. rewrite IH. destruct (l ++ pop_whitespace r) eqn:E; [|reflexivity]. destruct l; [contradiction|discriminate]. Qed.
Lemma root_loop src decode regex_ok t l d r u : parse_root src decode regex_ok (PState (t :: l) d) = POk r u -> exists ns o,
  nodes_loop (r_node (parsers_n src decode regex_ok (S (S (length l))))) (fun _ => false) (S (length (if tok_is_whitespace t then l else t :: l))) (PState (if tok_is_whitespace t then l else t :: l) d) = POk (ns, o) u /\ r = pop_whitespace ns.
Proof.
  unfold parse_root, with_fuel, parse_nodes_until, with_fuel. cbn [ps_tokens length]. intro E. unfold pbind at 1 2 in E.
  assert (X : skip_whitespace (PState (t :: l) d) = POk tt (PState (if tok_is_whitespace t then l else t :: l) d)).
  { unfold skip_whitespace, poll_if, peek, pbind. cbn [ps_tokens hd_error]. destruct (tok_is_whitespace t); reflexivity. }
  rewrite X in E. cbn [ps_tokens] in E. unfold pbind in E. destruct (nodes_loop _ _ _ _) as [[ns o] v| | |] eqn:L; try discriminate E. unfold pret in E. injection E as <- <-. exists ns, o. auto.
Qed.
Theorem root_join src decode regex_ok t1 l1 w t2 l2 r1 u1 r2 u2 :
  Forall (fun t => tk_kind t <> Ellipsis) (t1 :: l1) -> Forall (fun t => tk_kind t <> Ellipsis) (t2 :: l2) -> tk_kind w = Newline -> tok_is_whitespace t2 = false -> r2 <> [] ->
  parse_root src decode regex_ok (PState (t1 :: l1) []) = POk r1 u1 -> said u1 = 0 ->
  parse_root src decode regex_ok (PState (t2 :: l2) []) = POk r2 u2 -> said u2 = 0 ->
  exists ws, Forall (fun x => node_is_whitespace x = true) ws /\ (pale (last (t1 :: l1) w) = false -> ws = []) /\
  parse_root src decode regex_ok (PState ((t1 :: l1) ++ w :: t2 :: l2) []) = POk (r1 ++ ws ++ AParagraphBreak :: r2) (PState [] (ps_diags u1 ++ ps_diags u2)).
Proof.
  intros N1 N2 Kw W2 NE P1 S1 P2 S2. apply root_loop in P1 as (ns1 & o1 & L1 & ->). apply root_loop in P2 as (ns2 & o2 & L2 & ->). rewrite W2 in L2.
  destruct (pop_split ns1) as (ws & E1 & Fw). exists ws. split; [exact Fw|].
  set (ext := w :: t2 :: l2). assert (Hx : ext = [] \/ exists w0 l, ext = w0 :: l /\ tok_is_whitespace w0 = true).
  { right. exists w, (t2 :: l2). split; [reflexivity|]. unfold tok_is_whitespace. now rewrite Kw. }
  assert (Hell : noext ext) by (constructor; [rewrite Kw; discriminate|exact N2]).
  unfold parse_root, with_fuel, parse_nodes_until, with_fuel. cbn [ps_tokens]. set (m := Datatypes.S (length ((t1 :: l1) ++ ext))). unfold pbind at 1 2.
  set (l1' := if tok_is_whitespace t1 then l1 else t1 :: l1) in *.
  assert (X : skip_whitespace (PState ((t1 :: l1) ++ ext) []) = POk tt (PState (l1' ++ ext) [])).
  { unfold skip_whitespace, poll_if, peek, pbind, l1'. cbn [ps_tokens hd_error app]. destruct (tok_is_whitespace t1); reflexivity. }
  rewrite X. clear X. cbn [ps_tokens].
  assert (N1' : Run (last (t1 :: l1) w) l1').
  { pose proof (run_last w _ N1) as X. unfold l1'. destruct (tok_is_whitespace t1); [now inversion X|exact X]. }
  destruct (t_parsers (last (t1 :: l1) w) ext [] Hx Hell src decode regex_ok (Datatypes.S (Datatypes.S (length l1))) m) as (_ & _ & _ & HN); [unfold m; rewrite app_length; cbn; lia|].
  destruct (loop_join (last (t1 :: l1) w) ext [] _ _ HN (node_white src decode regex_ok _) (Datatypes.S (length l1')) (Datatypes.S (length (l1' ++ ext))) (PState l1' []) (PState (l1' ++ ext) []) ns1 o1 u1) as (-> & m1 & Lm1 & E & Pp);
    [split; [exact N1'|split; reflexivity]|unfold left; cbn [ps_tokens]; rewrite app_length; lia|exact L1|exact S1|].
  split.
  { intro Pl. destruct (Pp Pl) as (Q & _).
    - cbn [ps_tokens]. unfold l1'. destruct (tok_is_whitespace t1) eqn:Wt; [|discriminate]. destruct l1; [|discriminate]. cbn [last] in Pl. unfold pale in Pl. unfold tok_is_whitespace in Wt. destruct (tk_kind t1); discriminate.
    - rewrite Q in E1. destruct ws; [reflexivity|]. apply (f_equal (@length node)) in E1. rewrite app_length in E1. cbn in E1. lia. }
  unfold pbind at 1. cbv beta. cbn [ps_tokens]. rewrite E. clear E. unfold left in Lm1. cbn [ps_tokens] in Lm1. rewrite app_length in Lm1. cbn [app ps_diags].
  assert (m1 = Datatypes.S (pred m1)) as -> by (unfold ext in Lm1; cbn [length] in Lm1; lia). unfold ext at 1. unfold pbind at 1. rewrite nodes_loop_cons. unfold pbind at 1, p_ok.
  assert (Y : r_node (parsers_n src decode regex_ok m) w (PState (t2 :: l2) (ps_diags u1)) = POk AParagraphBreak (PState (t2 :: l2) (ps_diags u1))).
  { unfold m. cbn [parsers_n parser_step r_node]. unfold parse_node. rewrite Kw. reflexivity. }
  rewrite Y. clear Y.
  destruct (t_parsers (last (t2 :: l2) w) [] (ps_diags u1) (or_introl eq_refl) (Forall_nil _) src decode regex_ok (Datatypes.S (Datatypes.S (length l2))) m) as (_ & _ & _ & HN2); [unfold m, ext; rewrite app_length; cbn; lia|].
  destruct (loop_join (last (t2 :: l2) w) [] (ps_diags u1) _ _ HN2 (node_white src decode regex_ok _) (Datatypes.S (length (t2 :: l2))) (pred m1) (PState (t2 :: l2) []) (PState (t2 :: l2) (ps_diags u1)) ns2 o2 u2) as (-> & m2 & Lm2 & E & _);
    [split; [exact (run_last w _ N2)|split; cbn [ps_diags ps_tokens]; now rewrite app_nil_r]|unfold left, ext in *; cbn [ps_tokens length] in *; lia|exact L2|exact S2|].
  unfold pbind at 1. rewrite E. clear E. unfold left, ext in *. cbn [ps_tokens length] in *. destruct m2 as [|m2]; [lia|].
  cbn [nodes_loop]. unfold pbind, poll, pret. cbn [ps_tokens fst snd]. do 2 f_equal. rewrite app_nil_r. rewrite pop_app.
  - cbn [pop_whitespace]. destruct (pop_whitespace ns2) eqn:Q; [contradiction|]. rewrite E1 at 1. now rewrite <- app_assoc.
  - cbn [pop_whitespace]. destruct (pop_whitespace ns2); [contradiction|discriminate].
Qed.
