(** White space added at the end of the tokens does not change what the parser does, if it reports no error without it. *)
From Verif Require Import Base BaseFacts M_Text M_Names M_TagInfo M_Token M_Tokenizer M_TokenText M_TextSubs M_Types M_Diag M_Queue M_Ast M_Parser P_ParserEnds.

Section Trail.
Variable w : token.
Hypothesis Hw : tok_is_whitespace w = true.

Definition noell (s : pstate) : Prop := Forall (fun t => tk_kind t <> Ellipsis) (ps_tokens s).
(** The second state has the white space left over, or it has been skipped at the end. *)
Definition Rel (s1 s2 : pstate) : Prop :=
  noell s1 /\ ps_diags s2 = ps_diags s1 /\ (ps_tokens s2 = ps_tokens s1 ++ [w] \/ ps_tokens s1 = [] /\ ps_tokens s2 = []).
Definition TP {A} (P : A -> A -> Prop) (m1 m2 : PM A) : Prop := forall s1 s2, Rel s1 s2 ->
  match m1 s1 with
  | POk a t1 => noell t1 /\ said s1 <= said t1 /\ (said s1 < said t1 \/ exists b t2, m2 s2 = POk b t2 /\ P a b /\ Rel t1 t2)
  | PErr t1 => noell t1 /\ said s1 < said t1
  | _ => True
  end.
Definition T {A} (m1 m2 : PM A) : Prop := TP eq m1 m2.

Lemma rel_self t : noell t -> Rel t (PState (ps_tokens t ++ [w]) (ps_diags t)).
Proof. intro H. repeat split; auto. Qed.
Lemma tp_bind {A B} P Q (m1 m2 : PM A) (f1 f2 : A -> PM B) : TP P m1 m2 -> (forall a b, P a b -> TP Q (f1 a) (f2 b)) -> (forall a, exists b, P a b) ->
  TP Q (pbind m1 f1) (pbind m2 f2).
Proof.
  intros H K D s1 s2 R. specialize (H s1 s2 R). unfold pbind. destruct (m1 s1) as [a t1|t1| |]; auto. destruct H as (N & L & [G|(b & t2 & E & Pab & R2)]).
  - destruct (D a) as (b & Pab). specialize (K a b Pab t1 _ (rel_self t1 N)). destruct (f1 a t1) as [c u1|u1| |]; auto.
    + destruct K as (N' & L' & _). repeat split; auto; [lia|left; lia].
    + destruct K as (N' & L'). split; auto. lia.
  - rewrite E. specialize (K a b Pab t1 t2 R2). destruct (f1 a t1) as [c u1|u1| |]; auto.
    + destruct K as (N' & L' & [G|K]). * repeat split; auto; [lia|left; lia]. * repeat split; auto. lia.
    + destruct K as (N' & L'). split; auto. lia.
Qed.
Lemma t_bind {A B} (m1 m2 : PM A) (f1 f2 : A -> PM B) : T m1 m2 -> (forall a, T (f1 a) (f2 a)) -> T (pbind m1 f1) (pbind m2 f2).
Proof. intros H K. eapply tp_bind; [exact H| |]. - intros a b <-. apply K. - intro a. now exists a. Qed.
Lemma t_ret {A} (a : A) : T (pret a) (pret a).
Proof. intros s1 s2 R. cbn. destruct R as (N & R). repeat split; auto. right. exists a, s2. repeat split; auto; apply R. Qed.
Lemma t_report e : T (preport e) (preport e).
Proof.
  intros [ts d] [ts2 d2] (N & D & R). cbn [preport ps_tokens ps_diags] in *. subst d2. split; [exact N|]. split; [apply said_app|]. right.
  exists tt, (PState ts2 (d ++ [e])). repeat split; auto.
Qed.
Lemma said_more ts ts' d e : (match e with Warn _ => false | _ => true end) = true -> said (PState ts d) < said (PState ts' (d ++ [e])).
Proof. intro H. unfold said. cbn [ps_diags]. rewrite filter_app, app_length. cbn [filter]. rewrite H. cbn. lia. Qed.
Lemma t_sfail {A} e (m : PM A) : T (sfail e) m.
Proof. intros [ts d] s2 (N & _). unfold sfail, pfail. cbn [ps_tokens ps_diags] in *. split; [exact N|]. now apply said_more. Qed.
Lemma t_ice {A} (m : PM A) : T p_ice m. Proof. intros s1 s2 R. exact I. Qed.
Lemma t_none {A} (m : PM A) : T (fun _ => PFuel) m. Proof. intros s1 s2 R. exact I. Qed.
Lemma t_ok {A} (m1 m2 : PM A) : T m1 m2 -> T (p_ok m1) (p_ok m2).
Proof.
  intros H s1 s2 R. specialize (H s1 s2 R). unfold p_ok. destruct (m1 s1) as [a t1|t1| |]; auto.
  - destruct H as (N & L & [G|(b & t2 & E & <- & R2)]); repeat split; auto. right. exists (Some a), t2. rewrite E. auto.
  - destruct H as (N & L). repeat split; auto. lia.
Qed.
Lemma t_map_err {A} (m1 m2 : PM A) h : T m1 m2 -> T h h -> T (map_err m1 h) (map_err m2 h).
Proof.
  intros H K s1 s2 R. specialize (H s1 s2 R). unfold map_err. destruct (m1 s1) as [a t1|t1| |]; auto.
  - destruct H as (N & L & [G|(b & t2 & E & <- & R2)]); repeat split; auto. right. exists a, t2. rewrite E. auto.
  - destruct H as (N & L). specialize (K t1 _ (rel_self t1 N)). destruct (h t1) as [c u1|u1| |]; auto.
    + destruct K as (N' & L' & _). split; auto. lia.
    + destruct K as (N' & L'). split; auto. lia.
Qed.
Lemma t_poll_if p : p w = false -> T (poll_if p) (poll_if p).
Proof.
  intros Hp [[|t l] d] [ts2 d2] (N & D & R); cbn [ps_tokens ps_diags] in *; subst d2; unfold poll_if, peek, pbind; cbn [ps_tokens hd_error pret].
  - split; [exact N|]. split; [lia|]. right. destruct R as [->|(_ & ->)]; cbn [app hd_error]; rewrite ?Hp; (eexists _, _; split; [reflexivity|]; split; [reflexivity|]); (split; [exact N|]); cbn; auto.
  - destruct R as [->|(R & _)]; [|discriminate]. cbn [app hd_error]. inversion N; subst. destruct (p t); unfold poll, pret; cbn [ps_tokens ps_diags].
    + split; [assumption|]. split; [apply le_n|]. right. eexists _, _. split; [reflexivity|]. split; [reflexivity|]. split; [assumption|]. cbn; auto.
    + split; [exact N|]. split; [lia|]. right. eexists _, _. split; [reflexivity|]. split; [reflexivity|]. split; [exact N|]. cbn; auto.
Qed.
Lemma t_skip : T skip_whitespace skip_whitespace.
Proof.
  intros [[|t l] d] [ts2 d2] (N & D & R); cbn [ps_tokens ps_diags] in *; subst d2; unfold skip_whitespace, poll_if, peek, pbind; cbn [ps_tokens hd_error pret].
  - split; [exact N|]. split; [lia|]. right. destruct R as [->|(_ & ->)]; cbn [app hd_error]; rewrite ?Hw; (eexists _, _; split; [reflexivity|]; split; [reflexivity|]); (split; [exact N|]); cbn; auto.
  - destruct R as [->|(R & _)]; [|discriminate]. cbn [app hd_error]. inversion N; subst. destruct (tok_is_whitespace t); unfold poll, pret; cbn [ps_tokens ps_diags].
    + split; [assumption|]. split; [apply le_n|]. right. eexists _, _. split; [reflexivity|]. split; [reflexivity|]. split; [assumption|]. cbn; auto.
    + split; [exact N|]. split; [lia|]. right. eexists _, _. split; [reflexivity|]. split; [reflexivity|]. split; [exact N|]. cbn; auto.
Qed.
Lemma t_expect_poll : T expect_poll expect_poll.
Proof.
  intros [[|t l] d] [ts2 d2] (N & D & R); cbn [ps_tokens ps_diags] in *; subst d2; unfold expect_poll, poll, pbind, pfail, pret; cbn [ps_tokens ps_diags].
  - split; [exact N|]. now apply said_more.
  - destruct R as [->|(R & _)]; [|discriminate]. cbn [app ps_tokens ps_diags]. inversion N; subst. split; [assumption|]. split; [apply le_n|]. right.
    eexists _, _. split; [reflexivity|]. split; [reflexivity|]. split; [assumption|]. cbn; auto.
Qed.
Lemma t_expect_poll_kind k : T (expect_poll_kind k) (expect_poll_kind k).
Proof.
  intros s1 s2 R0. pose proof (t_expect_poll s1 s2 R0) as K. destruct s1 as [[|t l] d], s2 as [ts2 d2]. all: unfold expect_poll_kind, peek, pbind; cbn [ps_tokens hd_error].
  - change (expect_poll (PState [] d)) with (PErr (A:=token) (PState [] (d ++ [SyntaxErr UnexpectedEOF]))) in *. exact K.
  - destruct R0 as (N & D & [R|(R & _)]); [|discriminate]. cbn [ps_tokens ps_diags] in *. subst ts2 d2. cbn [app hd_error]. destruct (kind_eqb (tk_kind t) k); cbn [negb].
    + exact K. + unfold pfail. cbn [ps_tokens ps_diags]. split; [exact N|]. now apply said_more.
Qed.
Lemma t_has_next p : p w = false -> T (has_next p) (has_next p).
Proof.
  intros Hp [[|t l] d] [ts2 d2] (N & D & R); cbn [ps_tokens ps_diags] in *; subst d2; unfold has_next, peek, pbind, pret; cbn [ps_tokens hd_error].
  - split; [exact N|]. split; [lia|]. right. destruct R as [->|(_ & ->)]; cbn [app hd_error]; rewrite ?Hp; (eexists _, _; split; [reflexivity|]; split; [reflexivity|]); (split; [exact N|]); cbn; auto.
  - destruct R as [->|(R & _)]; [|discriminate]. split; [exact N|]. split; [lia|]. right. eexists _, _. split; [reflexivity|]. split; [reflexivity|]. split; [exact N|]. cbn; auto.
Qed.
Lemma t_bind_ellipsis {B} (f1 f2 : option token -> PM B) : T (f1 None) (f2 None) -> T (pbind (poll_if_kind Ellipsis) f1) (pbind (poll_if_kind Ellipsis) f2).
Proof.
  intros H s1 s2 R. specialize (H s1 s2 R).
  assert (E1 : poll_if_kind Ellipsis s1 = POk None s1).
  { destruct s1 as [[|t l] d]; [reflexivity|]. destruct R as (N & _). inversion N as [|? ? Ht _]; subst. unfold poll_if_kind, poll_if, peek, pbind. cbn [ps_tokens hd_error].
    destruct (tk_kind t); try reflexivity. now elim Ht. }
  assert (E2 : poll_if_kind Ellipsis s2 = POk None s2).
  { destruct s1 as [[|t l] d], s2 as [ts2 d2], R as (N & D & [R|(R & R')]); cbn [ps_tokens ps_diags] in *; try discriminate; subst; try reflexivity;
      unfold poll_if_kind, poll_if, peek, pbind; cbn [ps_tokens hd_error app].
    - unfold tok_is_whitespace in Hw. destruct (tk_kind w); try discriminate; reflexivity.
    - inversion N as [|? ? Ht _]; subst. destruct (tk_kind t); try reflexivity. now elim Ht. }
  unfold pbind at 1. rewrite E1. destruct (f1 None s1) as [a t1|t1| |]; auto. destruct H as (N & L & [G|(b & t2 & E & Pab & R2)]); repeat split; auto. right.
  exists b, t2. unfold pbind. rewrite E2. auto.
Qed.
Lemma tp_fuel {A} P (f1 f2 : nat -> PM A) : (forall n m, n <= m -> TP P (f1 n) (f2 m)) -> TP P (with_fuel f1) (with_fuel f2).
Proof.
  intros H s1 s2 R. unfold with_fuel. apply H; [|exact R]. destruct R as (_ & _ & [R|(R & R')]); [rewrite R, app_length; cbn; lia|now rewrite R, R'].
Qed.
Lemma t_fuel {A} (f1 f2 : nat -> PM A) : (forall n m, n <= m -> T (f1 n) (f2 m)) -> T (with_fuel f1) (with_fuel f2).
Proof. apply tp_fuel. Qed.
Lemma w_kind : tk_kind w = Whitespace \/ tk_kind w = Newline.
Proof. unfold tok_is_whitespace in Hw. destruct (tk_kind w); try discriminate; auto. Qed.
Lemma w_not k : kind_is_whitespace k = false -> kind_eqb (tk_kind w) k = false.
Proof. destruct w_kind as [-> | ->]; destruct k; try discriminate; reflexivity. Qed.
Ltac notw := unfold is_access, is_group_tok, is_spread_tok, has_text, starts_tag, token_text, is_close_tag, is_kind; destruct w_kind as [-> | ->]; reflexivity.

Create HintDb trail.
Hint Resolve t_report t_skip t_expect_poll t_expect_poll_kind : trail.
Ltac t1 :=
  lazymatch goal with
  | |- forall _, _ => intro
  | |- T (pret _) (pret _) => apply t_ret
  | |- T (sfail _) _ => apply t_sfail
  | |- T (serr _) (serr _) => apply t_report
  | |- T p_ice _ => apply t_ice
  | |- T (fun _ => PFuel) _ => apply t_none
  | |- T (p_ok _) (p_ok _) => apply t_ok
  | |- T (map_err _ _) (map_err _ _) => apply t_map_err
  | |- T (pbind (poll_if_kind Ellipsis) _) _ => apply t_bind_ellipsis
  | |- T (pbind _ _) (pbind _ _) => apply t_bind
  | |- T (poll_if_kind ?k) (poll_if_kind ?k) => apply t_poll_if; solve [notw | apply w_not; assumption]
  | |- T (poll_if _) (poll_if _) => apply t_poll_if; notw
  | |- T (has_next _) (has_next _) => apply t_has_next; notw
  | |- T (if ?b then _ else _) _ => destruct b
  | |- T (match ?x with _ => _ end) _ => destruct x
  | |- _ => solve [eauto 3 with trail nocore]
  end.
Ltac ts := repeat (cbn [is_some]; cbv zeta; t1).

Lemma t_group_type t tok : T (group_type t tok) (group_type t tok).
Proof. unfold group_type. ts. Qed.
Hint Resolve t_group_type : trail.
Lemma t_groups n : forall m t, n <= m -> T (parse_groups n t) (parse_groups m t).
Proof. induction n as [|n IH]; intros [|m] t L; try lia; cbn [parse_groups]; try apply t_none. assert (forall t, T (parse_groups n t) (parse_groups m t)) by (intro; apply IH; lia). ts. Qed.
Lemma t_type : T parse_type parse_type.
Proof. unfold parse_type. t1; [ts|]. intro. t1; [ts|]. intro. t1; [ts|]. intro t. apply (t_fuel (fun n => parse_groups n t) (fun n => parse_groups n t)). intros. now apply t_groups. Qed.
Lemma t_tok_name t : T (tok_name_id t) (tok_name_id t). Proof. unfold tok_name_id. ts. Qed.
Lemma t_lowercase t : T (tok_lowercase_name_id t) (tok_lowercase_name_id t). Proof. unfold tok_lowercase_name_id. ts. Qed.
Lemma t_number t : T (p_number t) (p_number t). Proof. unfold p_number. ts. Qed.
Lemma t_unescape t : T (p_unescape t) (p_unescape t). Proof. unfold p_unescape. ts. Qed.
Hint Resolve t_type t_tok_name t_lowercase t_number t_unescape : trail.
Lemma t_name_loop n : forall m e, n <= m -> T (name_loop n e) (name_loop m e).
Proof. induction n as [|n IH]; intros [|m] e L; try lia; cbn [name_loop]; try apply t_none. assert (forall e, T (name_loop n e) (name_loop m e)) by (intro; apply IH; lia). ts. Qed.
Lemma t_name t : T (parse_name t) (parse_name t).
Proof. unfold parse_name. t1; [ts|]. intro. apply t_fuel. intros. now apply t_name_loop. Qed.
Lemma t_text_loop n : forall m e, n <= m -> T (text_loop n e) (text_loop m e).
Proof. induction n as [|n IH]; intros [|m] e L; try lia; cbn [text_loop]; try apply t_none. assert (forall e, T (text_loop n e) (text_loop m e)) by (intro; apply IH; lia). ts. Qed.
Lemma t_text t : T (parse_text t) (parse_text t).
Proof. unfold parse_text. destruct (token_text t); [|ts]. t1; [|ts]. apply t_fuel. intros. now apply t_text_loop. Qed.
Lemma t_spread a b : T (poll_if_spread a b) (poll_if_spread a b). Proof. unfold poll_if_spread. ts. Qed.
Hint Resolve t_name t_text t_spread : trail.
Lemma t_template_loop decode open k n : forall m parts braces, n <= m -> T (template_loop n decode open k parts braces) (template_loop m decode open k parts braces).
Proof.
  induction n as [|n IH]; intros [|m] parts braces L; try lia; cbn [template_loop]; try apply t_none. assert (forall p b, T (template_loop n decode open k p b) (template_loop m decode open k p b)) by (intros; apply IH; lia).
  ts.
Qed.
Lemma t_report_unmatched l : T (report_unmatched l) (report_unmatched l). Proof. induction l; cbn [report_unmatched]; ts. Qed.
Hint Resolve t_report_unmatched : trail.
Lemma t_template_parts decode open k : T (parse_template_parts decode open k) (parse_template_parts decode open k).
Proof. unfold parse_template_parts. t1; [|ts]. apply t_fuel. intros. now apply t_template_loop. Qed.
Lemma t_check_args l : forall a u, T (check_args l a u) (check_args l a u). Proof. induction l as [|[x k e] l IH]; intros; cbn [check_args]; ts. Qed.
Lemma t_check_attrs l : forall u, T (check_attrs l u) (check_attrs l u). Proof. induction l as [|[x k e|e] l IH]; intros; cbn [check_attrs]; ts. Qed.
Lemma t_name_pattern t : T (parse_name_pattern t) (parse_name_pattern t). Proof. unfold parse_name_pattern. ts. Qed.
Lemma t_template_regex parts : forall re vars, T (template_regex parts re vars) (template_regex parts re vars).
Proof. induction parts as [|[s|c|[x|x b a|x b i]|] parts IH]; intros; cbn [template_regex]; ts. Qed.
Hint Resolve t_template_parts t_check_args t_check_attrs t_name_pattern t_template_regex : trail.

Lemma t_separated {A} open (p1 p2 : PM A) sep close : kind_is_whitespace close = false -> (sep = Whitespace \/ kind_is_whitespace sep = false) -> T p1 p2 ->
  T (parse_separated_until open p1 sep close) (parse_separated_until open p2 sep close).
Proof.
  intros Hc Hs H. unfold parse_separated_until. apply t_fuel. intro n. generalize false as b. induction n as [|n IH]; intros b [|m] L; try lia; cbn [separated_loop]; try apply t_none.
  assert (forall b, T (separated_loop open p1 sep close n b) (separated_loop open p2 sep close m b)) by (intros; apply IH; lia).
  t1; [ts|]. intro. t1; [ts|]. intro o. destruct o; [ts|]. t1; [ts|]. intro. t1; [ts|]. intro. t1; [|ts].
  destruct Hs as [-> |Hs]; [apply t_ret|]. destruct (kind_eqb sep Whitespace); ts.
Qed.
Lemma t_check_params rs : forall s, T (check_params rs s) (check_params rs s).
Proof.
  induction rs as [|[[[name q i t d] kind] u] rs IH]; intro s; cbn [check_params]; [ts|]. t1; [|ts].
  unfold check_param. destruct s as [an us_ ao aon np sp nn sn]. cbv zeta. t1; [ts|]. intro. destruct kind, u; cbn [negb]; ts.
Qed.
Lemma t_named_args l : T (named_args l) (named_args l). Proof. induction l as [|[x k e] l IH]; cbn [named_args]; ts. Qed.
Lemma t_spread_index l : forall i o, T (spread_index l i o) (spread_index l i o). Proof. induction l as [|[p [|]] l IH]; intros; cbn [spread_index]; ts. Qed.
Lemma t_check_html l : T (check_html_patterns l) (check_html_patterns l). Proof. induction l; cbn [check_html_patterns]; ts. Qed.
Lemma t_dict_parts l : forall attrs spread, T (dict_parts l attrs spread) (dict_parts l attrs spread). Proof. induction l as [|[[x|] p] l IH]; intros; cbn [dict_parts]; ts. Qed.
Hint Resolve t_dict_parts : trail.
Lemma t_make_dict l b : T (make_dict_pattern l b) (make_dict_pattern l b). Proof. unfold make_dict_pattern. ts. Qed.
Lemma t_typed p : T (parse_optional_typed_pattern p) (parse_optional_typed_pattern p). Proof. unfold parse_optional_typed_pattern. ts. Qed.
Hint Resolve t_check_params t_named_args t_spread_index t_check_html t_make_dict t_typed : trail.

(** Nodes: at the end the white space may be one node more, which is taken off. *)
Definition same_nodes (r1 r2 : list node * option token) : Prop := pop_whitespace (fst r1) = pop_whitespace (fst r2) /\ snd r1 = snd r2.
Lemma nodes_loop_cons node closer n t l d : nodes_loop node closer (S n) (PState (t :: l) d) =
  (if closer t then pret ([], Some t)
   else do child <- p_ok (node t); do rest <- nodes_loop node closer n; pret (match child with Some n0 => n0 :: fst rest | None => fst rest end, snd rest)) (PState l d).
Proof. reflexivity. Qed.
Section Nodes.
  Variables node1 node2 : token -> PM node.
  Hypothesis HN : forall t, T (node1 t) (node2 t).
  Hypothesis HW : exists x, node_is_whitespace x = true /\ forall s, node2 w s = POk x s.
  Lemma t_nodes_loop closer (Hc : closer w = false) n : forall m s1 s2, Rel s1 s2 -> n < m \/ n = m /\ ps_tokens s2 = [] ->
    match nodes_loop node1 closer n s1 with
    | POk a t1 => noell t1 /\ said s1 <= said t1 /\ (said s1 < said t1 \/ exists b t2, nodes_loop node2 closer m s2 = POk b t2 /\ same_nodes a b /\ Rel t1 t2)
    | PErr t1 => noell t1 /\ said s1 < said t1
    | _ => True
    end.
  Proof.
    induction n as [|n IH]; intros m s1 s2 R L; [exact I|]. destruct m as [|m]; [lia|]. destruct s1 as [[|t l] d], s2 as [ts2 d2].
    - destruct R as (N & D & R). cbn [ps_tokens ps_diags] in *. subst d2. cbn [nodes_loop]. unfold pbind at 1, poll at 1. cbn [ps_tokens]. unfold pret at 1.
      split; [exact N|]. split; [lia|]. right. destruct R as [->|(_ & ->)].
      + destruct L as [L|(_ & L)]; [|discriminate]. destruct m as [|m]; [lia|]. destruct HW as (x & Hx & HX). cbn [nodes_loop app].
        exists ([x], None), (PState [] d). unfold pbind at 1, poll at 1. cbn [ps_tokens ps_diags]. rewrite Hc. unfold pbind at 1, p_ok. rewrite HX. unfold pbind, poll, pret. cbn [ps_tokens fst snd].
        split; [reflexivity|]. split; [split; [|reflexivity]; cbn; now rewrite Hx|]. split; [exact N|]. cbn. auto.
      + exists ([], None), (PState [] d). split; [reflexivity|]. split; [split; reflexivity|]. split; [exact N|]. cbn. auto.
    - assert (Lm : n < m) by (destruct R as (_ & _ & [R|(R & _)]); [|discriminate]; destruct L as [L|(_ & L)]; [lia|]; rewrite L in R; discriminate).
      assert (R' : Rel (PState l d) (PState (tl ts2) d2)).
      { destruct R as (N & D & [R|(R & _)]); [|discriminate]. cbn [ps_tokens ps_diags] in *. subst ts2. inversion N; subst. split; [assumption|]. cbn. auto. }
      assert (E2 : ts2 = t :: tl ts2) by (destruct R as (_ & _ & [R|(R & _)]); [|discriminate]; cbn [ps_tokens] in R; now subst ts2).
      rewrite E2. rewrite !nodes_loop_cons.
      change (said (PState (t :: l) d)) with (said (PState l d)). destruct (closer t).
      + unfold pret. split; [apply R'|]. split; [lia|]. right. eexists _, _. split; [reflexivity|]. split; [split; reflexivity|exact R'].
      + clear R L E2.
        generalize R'. generalize (PState l d), (PState (tl ts2) d2). apply (tp_bind eq same_nodes); [apply t_ok, HN| |intro a; now exists a]. intros c c' <-.
        apply (tp_bind same_nodes same_nodes).
        * intros s1 s2 Rs. apply IH; [exact Rs|left; exact Lm].
        * intros [a1 o1] [a2 o2] (P & O) s1 s2 Rs. unfold pret. split; [apply Rs|]. split; [lia|]. right. eexists _, _. split; [reflexivity|]. split; [|exact Rs].
          cbn [fst snd] in *. split; [|exact O]. cbn [fst]. destruct c as [c|]; [|exact P]. cbn [pop_whitespace]. now rewrite P.
        * intro a. exists a. now split.
  Qed.
  Lemma t_nodes_until closer (Hc : closer w = false) : T (parse_nodes_until node1 closer) (parse_nodes_until node2 closer).
  Proof.
    unfold parse_nodes_until. t1; [ts|]. intro. apply (tp_bind same_nodes).
    - intros s1 s2 R. unfold with_fuel. apply t_nodes_loop; [exact Hc|exact R|]. destruct R as (_ & _ & [R|(R & R')]); [left; rewrite R, app_length; cbn; lia|right; now rewrite R, R'].
    - intros [a1 o1] [a2 o2] (P & O). cbn [fst snd] in *. rewrite P, O. apply t_ret.
    - intro x. exists x. now split.
  Qed.
End Nodes.

Section Step.
  Variables (src : str) (decode : str -> str) (regex_ok : str -> bool) (R1 R2 : parsers).
  Hypothesis HE : forall t, T (r_expr_tok R1 t) (r_expr_tok R2 t).
  Hypothesis HP : T (r_pattern R1) (r_pattern R2).
  Hypothesis HN : forall t, T (r_node R1 t) (r_node R2 t).
  Hypothesis HW : exists x, node_is_whitespace x = true /\ forall s, r_node R2 w s = POk x s.
  Hint Resolve HE HP HN : trail.
  Ltac sep := apply t_separated; [reflexivity|solve [now left|now right]|].
  Lemma t_expr : T (parse_expr R1) (parse_expr R2). Proof. unfold parse_expr. ts. Qed.
  Hint Resolve t_expr : trail.
  Lemma t_expr_or : T (parse_expr_or_ellipsis R1) (parse_expr_or_ellipsis R2). Proof. unfold parse_expr_or_ellipsis. ts. Qed.
  Lemma t_group open : T (parse_group R1 open) (parse_group R2 open).
  Proof. unfold parse_group. t1; [apply t_nodes_until; [exact HN|exact HW|notw]|ts]. Qed.
  Hint Resolve t_expr_or t_group : trail.
  Lemma t_arg : T (parse_arg R1) (parse_arg R2). Proof. unfold parse_arg. ts. Qed.
  Hint Resolve t_arg : trail.
  Lemma t_args : T (parse_args R1) (parse_args R2). Proof. unfold parse_args. t1; [ts|]. intro. t1; [ts|]. intro o. destruct o; [|ts]. t1; [sep; ts|ts]. Qed.
  Lemma t_list_item : T (parse_list_item R1) (parse_list_item R2). Proof. unfold parse_list_item. t1; [ts|]. intros [x k v]. ts. Qed.
  Hint Resolve t_args t_list_item : trail.
  Lemma t_list open : T (parse_list R1 open) (parse_list R2 open). Proof. unfold parse_list. t1; [sep; ts|ts]. Qed.
  Lemma t_param : T (parse_param R1) (parse_param R2). Proof. unfold parse_param. ts. Qed.
  Hint Resolve t_list t_param : trail.
  Lemma t_signature : T (parse_signature R1) (parse_signature R2).
  Proof. unfold parse_signature. t1; [ts|]. intro. t1; [ts|]. intro o. t1; [destruct o; [t1; [sep; ts|ts]|ts]|]. ts. Qed.
  Hint Resolve t_signature : trail.
  Lemma t_func_def b : T (parse_func_def R1 b) (parse_func_def R2 b). Proof. unfold parse_func_def. ts. Qed.
  Lemma t_func_call t : T (parse_func_call src R1 t) (parse_func_call src R2 t). Proof. unfold parse_func_call. ts. Qed.
  Lemma t_some_named : T (parse_some_named_args R1) (parse_some_named_args R2). Proof. unfold parse_some_named_args. ts. Qed.
  Hint Resolve t_func_def t_func_call t_some_named : trail.
  Lemma t_let t b : T (parse_let_in R1 t b) (parse_let_in R2 t b). Proof. unfold parse_let_in. ts. Qed.
  Hint Resolve t_let : trail.
  Lemma t_export : T (parse_export R1) (parse_export R2). Proof. unfold parse_export. ts. Qed.
  Lemma t_tag_attr : T (parse_tag_attribute R1) (parse_tag_attribute R2). Proof. unfold parse_tag_attribute. ts. Qed.
  Hint Resolve t_export t_tag_attr : trail.
  Lemma t_tag t : T (parse_tag R1 t) (parse_tag R2 t).
  Proof.
    unfold parse_tag. t1; [ts|]. intro nt. t1; [ts|]. intros [name id]. t1; [sep; ts|]. intros [attrs rangle]. t1; [ts|]. intro. destruct (_ || _)%bool; [ts|].
    t1; [apply t_nodes_until; [exact HN|exact HW|notw]|ts].
  Qed.
  Lemma t_positional_pattern : T (parse_positional_match_pattern R1) (parse_positional_match_pattern R2). Proof. unfold parse_positional_match_pattern. ts. Qed.
  Lemma t_named_pattern b : T (parse_named_match_pattern R1 b) (parse_named_match_pattern R2 b). Proof. unfold parse_named_match_pattern. ts. Qed.
  Hint Resolve t_tag t_positional_pattern t_named_pattern : trail.
  Lemma t_seq_pattern open sep close : kind_is_whitespace close = false -> (sep = Whitespace \/ kind_is_whitespace sep = false) ->
    T (parse_seq_pattern R1 open sep close) (parse_seq_pattern R2 open sep close).
  Proof. intros Hc Hs. unfold parse_seq_pattern. t1; [apply t_separated; [exact Hc|exact Hs|ts]|ts]. Qed.
  Lemma t_dict_pattern t : T (parse_dict_pattern R1 t) (parse_dict_pattern R2 t). Proof. unfold parse_dict_pattern. t1; [sep; ts|ts]. Qed.
  Lemma t_tag_pattern t : T (parse_tag_pattern R1 t) (parse_tag_pattern R2 t).
  Proof. unfold parse_tag_pattern. t1; [ts|]. intro nt. t1; [ts|]. intros [name id]. t1; [sep; ts|]. ts. Qed.
  Lemma t_template_pattern open k : T (parse_template_pattern decode regex_ok open k) (parse_template_pattern decode regex_ok open k). Proof. unfold parse_template_pattern. ts. Qed.
  Hint Resolve t_dict_pattern t_tag_pattern t_template_pattern : trail.
  Lemma t_primary : T (parse_primary_match_pattern decode regex_ok R1) (parse_primary_match_pattern decode regex_ok R2).
  Proof. unfold parse_primary_match_pattern. t1; [ts|]. intro. t1; [ts|]. intro t. destruct (tk_kind t); try (apply t_seq_pattern; [reflexivity|solve [now left|now right]]); ts. Qed.
  Hint Resolve t_primary : trail.
  Lemma t_and_loop n : forall m p, n <= m -> T (and_loop decode regex_ok R1 n p) (and_loop decode regex_ok R2 m p).
  Proof. induction n as [|n IH]; intros [|m] p L; try lia; cbn [and_loop]; try apply t_none. assert (forall p, T (and_loop decode regex_ok R1 n p) (and_loop decode regex_ok R2 m p)) by (intros; apply IH; lia). ts. Qed.
  Lemma t_and : T (parse_and_match_pattern decode regex_ok R1) (parse_and_match_pattern decode regex_ok R2).
  Proof. unfold parse_and_match_pattern. t1; [ts|]. intro. apply t_fuel. intros. now apply t_and_loop. Qed.
  Hint Resolve t_and : trail.
  Lemma t_or_loop n : forall m p, n <= m -> T (or_loop decode regex_ok R1 n p) (or_loop decode regex_ok R2 m p).
  Proof. induction n as [|n IH]; intros [|m] p L; try lia; cbn [or_loop]; try apply t_none. assert (forall p, T (or_loop decode regex_ok R1 n p) (or_loop decode regex_ok R2 m p)) by (intros; apply IH; lia). ts. Qed.
  Lemma t_pattern : T (parse_match_pattern decode regex_ok R1) (parse_match_pattern decode regex_ok R2).
  Proof. unfold parse_match_pattern. t1; [ts|]. intro. apply t_fuel. intros. now apply t_or_loop. Qed.
  Lemma t_branch : T (parse_match_branch R1) (parse_match_branch R2). Proof. unfold parse_match_branch. ts. Qed.
  Hint Resolve t_branch : trail.
  Lemma t_match : T (parse_match R1) (parse_match R2).
  Proof. unfold parse_match. t1; [ts|]. intro. t1; [ts|]. intro. t1; [ts|]. intro. t1; [sep; ts|ts]. Qed.
  Hint Resolve t_match : trail.
  Lemma t_expr_tok t : T (parse_expr_tok src decode R1 t) (parse_expr_tok src decode R2 t). Proof. unfold parse_expr_tok. ts. Qed.
  Hint Resolve t_expr_tok : trail.
  Lemma t_node t : T (parse_node src decode R1 t) (parse_node src decode R2 t). Proof. unfold parse_node. ts. Qed.
End Step.
Lemma w_node src decode regex_ok m : exists x, node_is_whitespace x = true /\ forall s, r_node (parsers_n src decode regex_ok (S m)) w s = POk x s.
Proof. cbn [parsers_n parser_step r_node]. unfold parse_node. destruct w_kind as [-> | ->]; [exists AWhitespace|exists AParagraphBreak]; split; reflexivity. Qed.
Lemma t_parsers src decode regex_ok n : forall m, n < m -> let R1 := parsers_n src decode regex_ok n in let R2 := parsers_n src decode regex_ok m in
  (forall t, T (r_expr_tok R1 t) (r_expr_tok R2 t)) /\ T (r_pattern R1) (r_pattern R2) /\ (forall t, T (r_node R1 t) (r_node R2 t)).
Proof.
  induction n as [|n IH]; intros m L; cbv zeta in *.
  - repeat split; intros; apply t_none.
  - destruct m as [|[|m]]; try lia. destruct (IH (S m) ltac:(lia)) as (A & B & C). pose proof (w_node src decode regex_ok m) as W.
    change (parsers_n src decode regex_ok (S n)) with (parser_step src decode regex_ok (parsers_n src decode regex_ok n)).
    change (parsers_n src decode regex_ok (S (S m))) with (parser_step src decode regex_ok (parsers_n src decode regex_ok (S m))).
    repeat split; cbn [parser_step r_expr_tok r_pattern r_node].
    + intro t. now apply t_expr_tok.
    + now apply t_pattern.
    + intro t. now apply t_node.
Qed.
(** The whole text *)
Theorem root_trail src decode regex_ok toks d ns t1 : Forall (fun t => tk_kind t <> Ellipsis) toks ->
  parse_root src decode regex_ok (PState toks d) = POk ns t1 -> said t1 <= said (PState toks d) ->
  exists t2, parse_root src decode regex_ok (PState (toks ++ [w]) d) = POk ns t2 /\ ps_diags t2 = ps_diags t1.
Proof.
  intros N E L. set (n := S (length toks)). set (m := S (length (toks ++ [w]))). assert (Lt : n < m) by (unfold n, m; rewrite app_length; cbn; lia).
  destruct (t_parsers src decode regex_ok n m Lt) as (_ & _ & C).
  assert (K : T (do r <- parse_nodes_until (r_node (parsers_n src decode regex_ok n)) (fun _ => false); pret (fst r))
                (do r <- parse_nodes_until (r_node (parsers_n src decode regex_ok m)) (fun _ => false); pret (fst r))).
  { t1; [apply t_nodes_until; [exact C|apply w_node|reflexivity]|ts]. }
  specialize (K (PState toks d) (PState (toks ++ [w]) d) (conj N (conj eq_refl (or_introl eq_refl)))).
  unfold parse_root, with_fuel in *. cbn [ps_tokens] in *. fold n in E. fold m. rewrite E in K. destruct K as (_ & _ & [K|(b & t2 & E2 & <- & R)]); [lia|].
  exists t2. split; [exact E2|apply R].
Qed.
End Trail.
