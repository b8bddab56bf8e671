(** Parsing ends: no parser function runs out of fuel. *)
From Verif Require Import Base BaseFacts M_Text M_Names M_TagInfo M_Token M_Tokenizer M_TokenText M_TextSubs M_Types M_Diag M_Queue M_Ast M_Parser.

(** On states with fewer than [n] tokens, [m] does not run out of fuel, adds no tokens, and if it succeeds takes [k] or more. No
    error that has been reported is taken back. *)
Definition left (s : pstate) : nat := length (ps_tokens s).
Definition said (s : pstate) : nat := length (filter (fun e => match e with Warn _ => false | _ => true end) (ps_diags s)).
Lemma said_app ts d e : said (PState ts d) <= said (PState ts (d ++ e)).
Proof. unfold said. cbn [ps_diags]. rewrite filter_app, app_length. lia. Qed.
Definition U {A} (n k : nat) (m : PM A) : Prop :=
  forall s, left s < n -> match m s with POk _ s' => left s' + k <= left s /\ said s <= said s' | PErr s' => left s' <= left s /\ said s <= said s' | PPanic => True | PFuel => False end.
(** the same, where nothing or a token is given *)
Definition V (n : nat) (m : PM (option token)) : Prop :=
  forall s, left s < n -> match m s with
    | POk (Some _) s' => left s' + 1 <= left s /\ said s <= said s' | POk None s' | PErr s' => left s' <= left s /\ said s <= said s' | PPanic => True | PFuel => False end.

Lemma u_weaken {A} n k n' k' (m : PM A) : U n k m -> n' <= n -> k' <= k -> U n' k' m.
Proof. intros H L K s Hs. specialize (H s). destruct (m s); auto; try (apply H; lia). assert (left s < n) by lia. specialize (H H0). lia. Qed.
Lemma u_ret {A} n (a : A) : U n 0 (pret a). Proof. intros s H. cbn. lia. Qed.
Lemma u_bind0 {A B} n k (m : PM A) (f : A -> PM B) : U n 0 m -> (forall a, U n k (f a)) -> U n k (pbind m f).
Proof.
  intros H K s Hs. unfold pbind. specialize (H s Hs). destruct (m s) as [a s'|s'| |]; auto. specialize (K a s' ltac:(lia)). destruct (f a s'); auto; lia.
Qed.
Lemma u_bind1 {A B} n k (m : PM A) (f : A -> PM B) : U n 1 m -> (forall a, U (pred n) (pred k) (f a)) -> U n k (pbind m f).
Proof.
  intros H K s Hs. unfold pbind. specialize (H s Hs). destruct (m s) as [a s'|s'| |]; auto. specialize (K a s' ltac:(lia)). destruct (f a s'); auto; lia.
Qed.
Lemma u_bindv {B} n k (m : PM (option token)) (f : option token -> PM B) : V n m -> (forall t, U (pred n) (pred k) (f (Some t))) -> U n k (f None) -> U n k (pbind m f).
Proof.
  intros H K N s Hs. unfold pbind. specialize (H s Hs). destruct (m s) as [[t|] s'|s'| |]; auto.
  - specialize (K t s' ltac:(lia)). destruct (f (Some t) s'); auto; lia.
  - specialize (N s' ltac:(lia)). destruct (f None s'); auto; lia.
Qed.
Lemma u_report n e : U n 0 (preport e). Proof. intros [ts d] H. cbn [preport ps_tokens ps_diags]. split; [unfold left; cbn; lia|apply said_app]. Qed.
Lemma u_pfail {A} n k e : U n k (@pfail A e). Proof. intros [ts d] H. cbn [pfail ps_tokens ps_diags]. split; [unfold left; cbn; lia|apply said_app]. Qed.
Lemma u_ice {A} n k : U n k (@p_ice A). Proof. intros s H. exact I. Qed.
Lemma u_ok {A} n k (m : PM A) : U n k m -> U n 0 (p_ok m).
Proof. intros H s Hs. specialize (H s Hs). unfold p_ok. destruct (m s); auto; lia. Qed.
Lemma u_map_err {A} n k (m : PM A) h : U n k m -> U n 0 h -> U n k (map_err m h).
Proof.
  intros H K s Hs. specialize (H s Hs). unfold map_err. destruct (m s) as [a s'|s'| |]; auto. specialize (K s' ltac:(lia)). destruct (h s'); auto; lia.
Qed.
Lemma u_if {A} n k (b : bool) (m p : PM A) : U n k m -> U n k p -> U n k (if b then m else p). Proof. destruct b; auto. Qed.
Lemma v_poll n : V n poll.
Proof. intros s Hs. unfold poll, left, said in *. destruct (ps_tokens s) as [|t l] eqn:E; cbn; rewrite ?E; cbn; lia. Qed.
Lemma v_poll_if n p : V n (poll_if p).
Proof.
  intros s Hs. unfold poll_if, peek, pbind, poll, pret, left, said in *. destruct (ps_tokens s) as [|t l] eqn:E; cbn; [rewrite E; cbn; lia|].
  destruct (p t); cbn; rewrite E; cbn; lia.
Qed.
Lemma v_poll_if_kind n k : V n (poll_if_kind k). Proof. apply v_poll_if. Qed.
Lemma u_expect_poll n : U n 1 expect_poll.
Proof. eapply u_bindv; [apply v_poll|intro; apply u_ret|apply u_pfail]. Qed.
Lemma u_expect_poll_kind n k : U n 1 (expect_poll_kind k).
Proof.
  intros s Hs. unfold expect_poll_kind, peek, pbind. cbv beta iota.
  destruct (hd_error _) as [t|]; [|exact (u_expect_poll n s Hs)]. destruct (kind_eqb _ _); cbn [negb]; [exact (u_expect_poll n s Hs)|]. exact (@u_pfail token n 1 _ s Hs).
Qed.
Lemma v_ok_expect n k : V n (p_ok (expect_poll_kind k)).
Proof. intros s Hs. pose proof (u_expect_poll_kind n k s Hs) as H. unfold p_ok. destruct (expect_poll_kind k s); auto. Qed.
Lemma u_skip n : U n 0 skip_whitespace.
Proof. eapply u_bindv; [apply v_poll_if|intro|]; apply u_weaken with n 0; try apply u_ret; lia. Qed.
Lemma u_has_next n p : U n 0 (has_next p). Proof. intros s H. cbn. lia. Qed.
(** Loops that take a token in every round *)
Lemma u_loop {A} n k (f : nat -> PM A) : (forall fuel, U (min n fuel) k (f fuel)) -> U n k (with_fuel f).
Proof. intros H s Hs. apply H. fold (left s). lia. Qed.
Lemma u_none {A} k (m : PM A) n : n = 0 -> U n k m. Proof. intros -> s Hs. lia. Qed.
Lemma min_pred n m : pred (min n (S m)) = min (pred n) m. Proof. lia. Qed.
Lemma min_le n m : min (pred n) m <= min n m. Proof. lia. Qed.

(** One step: known parsers, binds *)
Create HintDb ends.
#[export] Hint Resolve u_report u_pfail u_ice u_expect_poll u_expect_poll_kind u_skip u_has_next u_ret v_poll v_poll_if v_poll_if_kind v_ok_expect : ends.
Ltac le := solve [ lia | cbn [pred]; lia ].
Ltac known := solve [ eauto 3 with ends nocore | eapply u_weaken; [solve [eauto 3 with ends nocore]|le|le] ].
Ltac u1 :=
  lazymatch goal with
  | |- forall _, _ => intro
  | |- U _ _ (pret _) => eapply u_weaken; [apply u_ret|apply le_n|le]
  | |- U _ _ (pfail _) => apply u_pfail
  | |- U _ _ (sfail _) => apply u_pfail
  | |- U _ _ p_ice => apply u_ice
  | |- U _ _ (pbind (poll_if_kind _) _) => eapply u_bindv; [apply v_poll_if_kind|intro|]
  | |- U _ _ (pbind (poll_if _) _) => eapply u_bindv; [apply v_poll_if|intro|]
  | |- U _ _ (pbind poll _) => eapply u_bindv; [apply v_poll|intro|]
  | |- U _ _ (pbind _ _) => first [eapply u_bind1; [solve [known]|intro] | eapply u_bind0; [solve [known]|intro]]
  | |- U _ _ (if _ then _ else _) => apply u_if
  | |- U _ _ (serr _) => eapply u_weaken; [apply u_report|apply le_n|le]
  | |- U _ _ (preport _) => eapply u_weaken; [apply u_report|apply le_n|le]
  | |- _ => known
  end.
Ltac us := repeat (cbn [is_some]; u1).

Lemma u_group_type n t tok : U n 0 (group_type t tok).
Proof. unfold group_type. us. Qed.
#[export] Hint Resolve u_group_type : ends.
Lemma u_groups fuel : forall n t, U (min n fuel) 0 (parse_groups fuel t).
Proof.
  induction fuel as [|fuel IH]; intros n t; [apply u_none; lia|]. cbn [parse_groups]. u1. u1; [|us].
  eapply u_bind0; [known|]. intro t'. eapply u_weaken; [apply (IH n t')|le|le].
Qed.
Lemma u_type n : U n 1 parse_type.
Proof.
  unfold parse_type. u1. eapply u_bind1; [known|]. intro b. cbn [pred]. eapply u_bind0; [destruct (base_type _); us|]. intro t.
  apply (u_loop (pred n) 0 (fun fuel => parse_groups fuel t)). intro fuel. apply u_groups.
Qed.
Lemma u_tok_name n t : U n 0 (tok_name_id t). Proof. unfold tok_name_id. destruct (tk_kind t); us. Qed.
Lemma u_lowercase n t : U n 0 (tok_lowercase_name_id t). Proof. unfold tok_lowercase_name_id. us. Qed.
Lemma u_number n t : U n 0 (p_number t). Proof. unfold p_number. destruct (parse_number _); us. Qed.
Lemma u_unescape n t : U n 0 (p_unescape t). Proof. unfold p_unescape. destruct (unescape_char _) as [[c [e|]]| |]; us. Qed.
#[export] Hint Resolve u_type u_tok_name u_lowercase u_number u_unescape : ends.
Lemma u_name_loop fuel : forall n e, U (min n fuel) 0 (name_loop fuel e).
Proof.
  induction fuel as [|fuel IH]; intros n e; [apply u_none; lia|]. cbn [name_loop]. u1; [|us]. cbv zeta. u1.
  - eapply u_bind0; [known|]. intro. eapply u_weaken; [apply (IH n)|le|le].
  - eapply u_bind1; [known|]. intro. eapply u_bind0; [known|]. intro. eapply u_weaken; [apply (IH n)|le|le].
Qed.
Lemma u_name n t : U n 0 (parse_name t).
Proof. unfold parse_name. u1. apply (u_loop n 0 (fun fuel => name_loop fuel _)). intro. apply u_name_loop. Qed.
#[export] Hint Resolve u_name : ends.
Lemma u_text_loop fuel : forall n t, U (min n fuel) 0 (text_loop fuel t).
Proof. induction fuel as [|fuel IH]; intros n t; [apply u_none; lia|]. cbn [text_loop]. u1; [|us]. eapply u_weaken; [apply (IH n)|le|le]. Qed.
Lemma u_text n t : U n 0 (parse_text t).
Proof.
  unfold parse_text. destruct (token_text t); [|us]. eapply u_bind0; [apply (u_loop n 0 (fun fuel => text_loop fuel _)); intro; apply u_text_loop|]. us.
Qed.
Lemma u_spread n a b : U n 0 (poll_if_spread a b).
Proof. unfold poll_if_spread. us. Qed.
#[export] Hint Resolve u_text u_spread : ends.
Lemma u_template_loop fuel : forall n decode open k parts braces, U (min n fuel) 1 (template_loop fuel decode open k parts braces).
Proof.
  induction fuel as [|fuel IH]; intros n decode open k parts braces; [apply u_none; lia|]. cbn [template_loop]. cbv zeta.
  eapply u_bind1; [apply u_map_err; [known|us]|]. intros tok. cbn [pred]. rewrite min_pred.
  assert (IH' : forall parts braces, U (min (pred n) fuel) 0 (template_loop fuel decode open k parts braces)) by (intros; eapply u_weaken; [apply (IH n)|le|le]).
  match goal with |- U _ _ (match _ with Name => ?l | _ => _ end) => set (literal := l) end.
  assert (L : U (min (pred n) fuel) 0 literal).
  { unfold literal. destruct parts as [|[[s|c|x|] e] before]; try apply IH'. apply u_if; apply IH'. }
  destruct (tk_kind tok) eqn:Ek;
    first [ exact L | apply IH' | u1; apply IH' | destruct braces; [u1|]; apply IH'
          | eapply u_bind0; [eapply u_ok; known|]; intros; apply IH'
          | destruct (decode_entity _ _) as [c e]; eapply u_bind0; [destruct e; us|]; intros; apply IH'
          | apply u_if; [us|exact L] ].
Qed.
Lemma u_report_unmatched n l : U n 0 (report_unmatched l).
Proof. induction l; cbn; [us|]. u1. apply IHl. Qed.
Lemma u_template_parts n decode open k : U n 1 (parse_template_parts decode open k).
Proof.
  unfold parse_template_parts. eapply u_bind1; [apply (u_loop n 1 (fun fuel => template_loop fuel decode open k [] [])); intro; apply u_template_loop|].
  intro r. eapply u_bind0; [apply u_report_unmatched|]. us.
Qed.
Lemma u_check_args n l : forall a u, U n 0 (check_args l a u).
Proof.
  induction l as [|[x k e] l IH]; intros; cbn [check_args]; [us|]. apply u_if; [|destruct k]; try apply IH.
  all: eapply u_bind0; [us|]; intros; apply IH.
Qed.
Lemma u_check_attrs n l : forall u, U n 0 (check_attrs l u).
Proof. induction l as [|[x k e|e] l IH]; intros; cbn [check_attrs]; [us| |apply IH]. eapply u_bind0; [us|]; intros; apply IH. Qed.
Lemma u_name_pattern n t : U n 0 (parse_name_pattern t).
Proof. unfold parse_name_pattern. u1. destruct a; us. Qed.
Lemma u_template_regex n parts : forall re vars, U n 0 (template_regex parts re vars).
Proof. induction parts as [|[s|c|[x|x b a|x b i]|] parts IH]; intros; cbn [template_regex]; try apply IH; [us| |]; u1; apply IH. Qed.
#[export] Hint Resolve u_report_unmatched u_template_parts u_check_args u_check_attrs u_name_pattern u_template_regex : ends.

Section Loops.
  Variables (n : nat) (node_ : token -> PM node).
  Hypothesis HN : forall t, U n 0 (node_ t).
  Lemma u_nodes_loop closer fuel : U (min (S n) fuel) 0 (nodes_loop node_ closer fuel).
  Proof.
    induction fuel as [|fuel IH]; [apply u_none; lia|]. cbn [nodes_loop]. u1; [|us]. u1; [us|]. rewrite min_pred. cbn [pred].
    eapply u_bind0; [eapply (u_ok _ 0), u_weaken; [apply HN|le|le]|]. intro o. eapply u_bind0; [eapply u_weaken; [apply IH|le|le]|]. intro. us.
  Qed.
  Lemma u_nodes_until closer : U (S n) 0 (parse_nodes_until node_ closer).
  Proof. unfold parse_nodes_until. u1. eapply u_bind0; [apply u_loop; intro; apply u_nodes_loop|]. us. Qed.
  Lemma u_ellipsis_loop fuel : U (min (S n) fuel) 0 (ellipsis_loop node_ fuel).
  Proof.
    induction fuel as [|fuel IH]; [apply u_none; lia|]. cbn [ellipsis_loop]. u1; [|us]. rewrite min_pred. cbn [pred].
    eapply u_bind0; [eapply (u_ok _ 0), u_weaken; [apply HN|le|le]|]. intro o. eapply u_bind0; [eapply u_weaken; [apply IH|le|le]|]. intro. us.
  Qed.
End Loops.
Lemma u_separated {A} n open (p : PM A) sep close : U n 1 p -> U n 1 (parse_separated_until open p sep close).
Proof.
  intro H. unfold parse_separated_until. apply u_loop. intro fuel. generalize false. induction fuel as [|fuel IH]; intro b; [apply u_none; lia|]. cbn [separated_loop].
  u1. eapply u_bindv.
  - destruct b; [apply v_ok_expect|apply v_poll_if_kind].
  - intro. us.
  - eapply u_bind1; [apply u_map_err; [eapply u_weaken; [exact H|le|le]|us]|]. intro x. u1. eapply u_bind0; [us|]. intro b'.
    eapply u_bind1; [eapply u_weaken; [apply (IH b')|le|le]|]. intro. us.
Qed.
Lemma u_check_params n rs : forall s, U n 0 (check_params rs s).
Proof.
  induction rs as [|[[[name q i t d] kind] u] rs IH]; intro s; cbn [check_params]; [us|]. eapply u_bind0; [|intro; apply IH].
  unfold check_param. destruct s as [an us_ ao aon np sp nn sn]. cbv zeta. eapply u_bind0; [us|]. intro.
  destruct kind, u; cbn [negb]; us; eapply u_bind0; us.
Qed.
Lemma u_named_args n l : U n 0 (named_args l).
Proof. induction l as [|[x k e] l IH]; cbn [named_args]; [us|]. destruct k; [apply u_if|..]; [u1; exact IH|eapply u_bind0; [exact IH|]; us|u1; exact IH|u1; exact IH]. Qed.
Lemma u_spread_index n l : forall i o, U n 0 (spread_index l i o).
Proof. induction l as [|[p [|]] l IH]; intros; cbn [spread_index]; [us| |apply IH]. eapply u_bind0; [us|]; intros; apply IH. Qed.
Lemma u_check_html n l : U n 0 (check_html_patterns l).
Proof. induction l; cbn; [us|]. eapply u_bind0; [us|]. intros; exact IHl. Qed.
Lemma u_dict_parts n l : forall attrs spread, U n 0 (dict_parts l attrs spread).
Proof.
  induction l as [|[[x|] p] l IH]; intros; cbn [dict_parts]; [us| |].
  - apply u_if; [u1; apply IH|]. eapply u_bind0; [us|]; intros; apply IH.
  - eapply u_bind0; [us|]; intros; apply IH.
Qed.
Lemma u_make_dict n l simplify : U n 0 (make_dict_pattern l simplify).
Proof. unfold make_dict_pattern. eapply u_bind0; [apply u_dict_parts|]. intros [[|a attrs] [p|]]; us. Qed.
Lemma u_typed n p : U n 0 (parse_optional_typed_pattern p).
Proof.
  unfold parse_optional_typed_pattern. u1. u1; [|us]. u1. u1.
  - eapply u_bind0; [|us]. u1. us.
  - eapply u_bind1; [|us]. eapply u_bind1; [known|us].
Qed.
#[export] Hint Resolve u_check_params u_named_args u_spread_index u_check_html u_make_dict u_typed : ends.

Section Step.
  Variables (src : str) (decode : str -> str) (regex_ok : str -> bool) (R : parsers) (n : nat).
  Hypothesis HE : forall t, U n 0 (r_expr_tok R t).
  Hypothesis HP : U n 1 (r_pattern R).
  Hypothesis HN : forall t, U n 0 (r_node R t).
  Lemma u_expr : U (S n) 1 (parse_expr R).
  Proof. unfold parse_expr. u1. eapply u_bind1; [known|]. intro. apply HE. Qed.
  Hint Resolve u_expr : ends.
  Lemma u_ellipsis : U (S n) 0 (parse_ellipsis_group R).
  Proof. unfold parse_ellipsis_group. eapply u_bind0; [apply u_loop; intro; apply u_ellipsis_loop, HN|]. us. Qed.
  Hint Resolve u_ellipsis : ends.
  Lemma u_expr_or_ellipsis : U (S n) 1 (parse_expr_or_ellipsis R).
  Proof. unfold parse_expr_or_ellipsis. us. Qed.
  Lemma u_group open : U (S n) 0 (parse_group R open).
  Proof. unfold parse_group. eapply u_bind0; [apply u_nodes_until, HN|]. intro. eapply u_bind0; us. Qed.
  Hint Resolve u_expr_or_ellipsis u_group : ends.
  Lemma u_arg : U (S n) 1 (parse_arg R).
  Proof.
    unfold parse_arg. u1. u1. u1. u1.
    - cbn [pred]. u1. u1; cbn [is_some pred]; [|us]. eapply u_bind0; [destruct a0; us|]. intro. us.
    - us.
  Qed.
  Lemma u_args : U (S n) 0 (parse_args R).
  Proof. unfold parse_args. u1. u1; [|us]. eapply u_bind1; [eapply u_separated, u_weaken; [apply u_arg|le|le]|]. us. Qed.
  Hint Resolve u_args : ends.
  Lemma u_list_item : U (S n) 1 (parse_list_item R).
  Proof. unfold parse_list_item. eapply u_bind1; [apply u_arg|]. intros [x k v]. cbn [pred]. eapply u_bind0; [destruct k; us|]. us. Qed.
  Lemma u_list open : U (S n) 0 (parse_list R open).
  Proof. unfold parse_list. eapply u_bind1; [apply u_separated, u_list_item|]. us. Qed.
  Lemma u_param : U (S n) 1 (parse_param R).
  Proof.
    unfold parse_param. u1. u1. u1. eapply u_bind1; [known|]. intro t. cbn [pred]. u1. cbv zeta. u1.
    assert (K : forall (o : option token) m, m <= n -> U m 0 (
      skip_whitespace;; do colon <- poll_if_kind Colon;
      do annotation <- (if is_some colon then
                        skip_whitespace;;
                        do implicit <- poll_if_kind (Kw KImplicit);
                        do t <- p_ok parse_type;
                        pret (is_some implicit, match t with Some t => t | None => TAny end)
                      else pret (false, TAny));
    let '(is_implicit, t0) := annotation in
    skip_whitespace;;
    do equals <- poll_if_kind Equals;
    do default <- (if is_some equals then do e <- parse_expr R; pret (Some e) else pret None);
    (if is_some default && match a0 with NoSpread => false | _ => true end then serr ParamSpreadDefault else pret tt);;
    pret (Param a2 (is_some o) is_implicit t0 default, a0, starts_with (lit "$_") (tk_text t)))).
    { intros o m Hm. u1. assert (J : forall i ty m, m <= n -> U m 0 (
        skip_whitespace;;
        do equals <- poll_if_kind Equals;
        do default <- (if is_some equals then do e <- parse_expr R; pret (Some e) else pret None);
        (if is_some default && match a0 with NoSpread => false | _ => true end then serr ParamSpreadDefault else pret tt);;
        pret (Param a2 (is_some o) i ty default, a0, starts_with (lit "$_") (tk_text t)))).
      { intros i ty m' Hm'. u1. u1; cbn [is_some].
        - eapply u_bind0; [us|]. intro. eapply u_bind0; us.
        - eapply u_bind0; [us|]. intro. eapply u_bind0; us. }
      u1; cbn [is_some].
      - eapply u_bind0; [|intros [i ty]; apply J; lia]. u1. u1; (eapply u_bind0; [eapply u_ok, u_type|us]).
      - eapply u_bind0; [us|]. intros [i ty]. apply J. lia. }
    u1; apply K; lia.
  Qed.
  Hint Resolve u_param : ends.
  Lemma u_signature : U (S n) 0 (parse_signature R).
  Proof.
    unfold parse_signature. u1. assert (J : forall m ps s, m <= S n -> U m 1 (
      skip_whitespace;; do dot <- poll_if_kind Dot;
      if is_some dot then pret (Signature ps (ss_positional s) (ss_positional_spread s) (ss_named s) (ss_named_spread s) false)
      else do c <- parse_param R; let '(Param n q i t default, spread, _) := c in
        match spread with NoSpread => if is_some default then serr ParamContentDefault else pret tt | _ => serr ParamContentSpread end;;
        pret (Signature (ps ++ [Param n q i t default]) (ss_positional s) (ss_positional_spread s) (ss_named s) (ss_named_spread s) true))).
    { intros m ps s Hm. u1. u1; cbn [is_some]; [us|]. eapply u_bind1; [known|]. intros [[[x q i t d] k] u]. cbn [pred]. eapply u_bind0; [destruct k; us|]. us. }
    u1.
    - eapply u_bind0; [|intros [ps s]; eapply u_weaken; [apply (J n)|le|le]; lia]. eapply u_bind1; [eapply u_separated, u_weaken; [apply u_param|le|le]|]. us.
    - eapply u_bind0; [us|]. intros [ps s]. eapply u_weaken; [apply (J (S n))|le|le]; lia.
  Qed.
  Hint Resolve u_signature : ends.
  Lemma u_func_def b : U (S n) 0 (parse_func_def R b).
  Proof. unfold parse_func_def. us. Qed.
  Lemma u_func_call t : U (S n) 0 (parse_func_call src R t).
  Proof. unfold parse_func_call. us. Qed.
  Lemma u_some_named : U (S n) 0 (parse_some_named_args R).
  Proof. unfold parse_some_named_args. u1. destruct a; us. Qed.
  Hint Resolve u_func_def u_func_call u_some_named : ends.
  Lemma u_let t b : U (S n) 0 (parse_let_in R t b).
  Proof. unfold parse_let_in. u1. u1. eapply u_bind0; us. Qed.
  Hint Resolve u_let : ends.
  Lemma u_export : U (S n) 0 (parse_export R).
  Proof. unfold parse_export. us. Qed.
  Hint Resolve u_export : ends.
  Lemma u_tag_attr : U (S n) 1 (parse_tag_attribute R).
  Proof. unfold parse_tag_attribute. u1. u1. destruct a0; us. Qed.
  Lemma u_tag t : U (S n) 0 (parse_tag R t).
  Proof.
    unfold parse_tag. eapply u_bind1; [known|]. intro nt. cbn [pred]. eapply u_bind0; [destruct (tk_kind nt); us|]. intros [name id].
    eapply u_bind1; [eapply u_separated, u_weaken; [apply u_tag_attr|le|le]|]. intros [attrs rangle]. u1. u1; [us|].
    eapply u_bind0; [eapply u_weaken; [apply u_nodes_until, HN|le|le]|]. intros [c [t'|]]; us.
  Qed.
  Hint Resolve u_tag : ends.
  Lemma u_positional_pattern : U n 1 (parse_positional_match_pattern R).
  Proof. unfold parse_positional_match_pattern. us. Qed.
  Lemma u_named_pattern b : U n 1 (parse_named_match_pattern R b).
  Proof.
    unfold parse_named_match_pattern. u1. u1; cbn [is_some]; [us|]. u1. destruct a0; [|us|us].
    eapply u_bind1; [known|]. intro t. eapply u_bind0; [us|]. intro. u1.
    eapply u_bindv; [destruct b; [apply v_poll_if_kind|apply v_ok_expect]|intro|]; cbn [is_some]; us.
  Qed.
  Lemma u_seq_pattern open sep close : U n 0 (parse_seq_pattern R open sep close).
  Proof. unfold parse_seq_pattern. eapply u_bind1; [apply u_separated, u_positional_pattern|]. intro r. cbv zeta. u1. eapply u_bind0; us. Qed.
  Lemma u_dict_pattern t : U n 0 (parse_dict_pattern R t).
  Proof. unfold parse_dict_pattern. eapply u_bind1; [apply u_separated, u_named_pattern|]. us. Qed.
  Lemma u_tag_pattern t : U n 0 (parse_tag_pattern R t).
  Proof.
    unfold parse_tag_pattern. eapply u_bind1; [known|]. intro nt. cbn [pred]. eapply u_bind0; [destruct (tk_kind nt); us|]. intros [name id].
    eapply u_bind1; [eapply u_separated, u_weaken; [apply u_named_pattern|le|le]|]. intros [raw rangle]. u1. u1.
    eapply u_bind0; [|intros [c close]; eapply u_bind0; us]. us.
  Qed.
  Lemma u_template_pattern m open k : U m 0 (parse_template_pattern decode regex_ok open k).
  Proof. unfold parse_template_pattern. eapply u_bind1; [known|]. intro. u1; [us|]. u1. cbv zeta. us. Qed.
  Hint Resolve u_seq_pattern u_dict_pattern u_tag_pattern u_template_pattern : ends.
  Lemma u_primary : U (S n) 1 (parse_primary_match_pattern decode regex_ok R).
  Proof. unfold parse_primary_match_pattern. u1. eapply u_bind1; [known|]. intro t. cbn [pred]. destruct (tk_kind t); us. Qed.
  Hint Resolve u_primary : ends.
  Lemma u_and_loop fuel : forall p, U (min (S n) fuel) 0 (and_loop decode regex_ok R fuel p).
  Proof.
    induction fuel as [|fuel IH]; intros p; [apply u_none; lia|]. cbn [and_loop]. u1. u1; cbn [is_some]; [|us].
    eapply u_bind1; [known|]. intro q. eapply u_weaken; [apply IH|le|le].
  Qed.
  Lemma u_and : U (S n) 1 (parse_and_match_pattern decode regex_ok R).
  Proof. unfold parse_and_match_pattern. eapply u_bind1; [known|]. intro p. eapply u_weaken; [apply (u_loop (S n) 0); intro; apply u_and_loop|le|le]. Qed.
  Hint Resolve u_and : ends.
  Lemma u_or_loop fuel : forall p, U (min (S n) fuel) 0 (or_loop decode regex_ok R fuel p).
  Proof.
    induction fuel as [|fuel IH]; intros p; [apply u_none; lia|]. cbn [or_loop]. u1. u1; cbn [is_some]; [|us].
    eapply u_bind1; [known|]. intro q. eapply u_weaken; [apply IH|le|le].
  Qed.
  Lemma u_pattern : U (S n) 1 (parse_match_pattern decode regex_ok R).
  Proof. unfold parse_match_pattern. eapply u_bind1; [known|]. intro p. eapply u_weaken; [apply (u_loop (S n) 0); intro; apply u_or_loop|le|le]. Qed.
  Lemma u_match : U (S n) 0 (parse_match R).
  Proof.
    unfold parse_match. eapply u_bind1; [known|]. intro v. cbn [pred]. u1. eapply u_bind1; [known|]. intro o.
    eapply u_bind1; [apply u_separated|us]. unfold parse_match_branch. us.
  Qed.
  Hint Resolve u_match u_list : ends.
  Lemma u_expr_tok t : U (S n) 0 (parse_expr_tok src decode R t).
  Proof. unfold parse_expr_tok. destruct (tk_kind t) eqn:Ek; try match goal with k : keyword |- _ => destruct k end; us. Qed.
  Hint Resolve u_expr_tok : ends.
  Lemma u_node t : U (S n) 0 (parse_node src decode R t).
  Proof.
    unfold parse_node. destruct (tk_kind t) eqn:Ek; try match goal with k : keyword |- _ => destruct k end; us.
    destruct (decode_entity _ _) as [c [e|]]; us.
  Qed.
End Step.
Lemma parsers_end src decode regex_ok n : let R := parsers_n src decode regex_ok n in
  (forall t, U n 0 (r_expr_tok R t)) /\ U n 1 (r_pattern R) /\ (forall t, U n 0 (r_node R t)).
Proof.
  induction n as [|n (A & B & C)]; cbv zeta in *; cbn [parsers_n].
  - repeat split; intros; now apply u_none.
  - repeat split; cbn [parser_step r_expr_tok r_pattern r_node].
    + intro t. now apply u_expr_tok.
    + now apply u_pattern.
    + intro t. now apply u_node.
Qed.
Lemma parse_root_u src decode regex_ok s : U (S (left s)) 0 (parse_root src decode regex_ok).
Proof.
  unfold parse_root. intros s' Hs. unfold with_fuel. change (length (ps_tokens s')) with (left s').
  assert (K : U (S (S (left s'))) 0 (do r <- parse_nodes_until (r_node (parsers_n src decode regex_ok (S (left s')))) (fun _ => false); pret (fst r))).
  { eapply u_bind0; [apply u_nodes_until; apply parsers_end|]. us. }
  apply K. lia.
Qed.
Lemma parse_root_ends src decode regex_ok s : parse_root src decode regex_ok s <> PFuel.
Proof. pose proof (parse_root_u src decode regex_ok s s (le_n _)) as H. intro E. now rewrite E in H. Qed.
Lemma parse_root_said src decode regex_ok s ns s' : parse_root src decode regex_ok s = POk ns s' \/ parse_root src decode regex_ok s = PErr s' -> said s <= said s'.
Proof. pose proof (parse_root_u src decode regex_ok s s (le_n _)) as H. intros [E|E]; rewrite E in H; apply H. Qed.
