(** The parser does not see layout (C81), continued. *)
From Verif Require Import Base BaseFacts M_Text M_Names M_TagInfo M_Token M_Tokenizer M_TokenText M_TextSubs M_Types M_Diag M_Queue M_Ast M_Parser P_Layout P_Layout2.

Lemma same_starts_tag t t' : same t t' -> starts_tag t' = starts_tag t. Proof. intro H. unfold starts_tag. now align. Qed.
Lemma same_in_ellipsis t t' : same t t' -> in_ellipsis t' = in_ellipsis t. Proof. intro H. unfold in_ellipsis. now align. Qed.
Global Hint Resolve same_starts_tag r_has_next r_ok : rel.
Section Step.
  Variables (src : str) (decode : str -> str) (regex_ok : str -> bool) (R : parsers).
  Hypothesis HE : forall t t', same t t' -> Rel eq (r_expr_tok R t) (r_expr_tok R t').
  Hypothesis HP : Rel eq (r_pattern R) (r_pattern R).
  Hypothesis HN : forall t t', same t t' -> Rel eq (r_node R t) (r_node R t').
  Hint Resolve HE HP HN : rel.
  Lemma r_expr : Rel eq (parse_expr R) (parse_expr R). Proof. unfold parse_expr. rs. Qed.
  Lemma r_nodes_loop closer fuel : (forall t t', same t t' -> closer t' = closer t) ->
    Rel (prod2 eq (opt2 same)) (nodes_loop (r_node R) closer fuel) (nodes_loop (r_node R) closer fuel).
  Proof.
    intro C. induction fuel as [|fuel IH]; cbn [nodes_loop]; [apply r_fuel|]. eapply r_bind; [apply r_poll|]. intros ? ? [|t t' T].
    - apply r_ret. constructor; [reflexivity|constructor].
    - rewrite (C _ _ T). destruct (closer t); [apply r_ret; constructor; [reflexivity|now constructor]|].
      eapply r_bind; [apply r_ok, HN, T|]. intros c c' H. eapply r_bind; [apply IH|]. intros ? ? [l ? o o' <- O]. apply r_ret. cbn [fst snd]. constructor; [|exact O].
      destruct H as [|n ? <-]; reflexivity.
  Qed.
  Lemma r_ellipsis_loop fuel : Rel eq (ellipsis_loop (r_node R) fuel) (ellipsis_loop (r_node R) fuel).
  Proof.
    induction fuel as [|fuel IH]; cbn [ellipsis_loop]; [apply r_fuel|]. eapply r_bind; [apply (r_poll_if_gen _ _ same); [apply same_in_ellipsis|auto]|].
    intros ? ? [|t t' T]; [apply r_ret_eq|]. eapply r_bind; [apply r_ok, HN, T|]. intros c c' H. eapply r_bind; [apply IH|]. intros l ? <-. apply r_ret. destruct H as [|n ? <-]; reflexivity.
  Qed.
  Hint Resolve r_expr r_ellipsis_loop : rel.
  Lemma r_nodes_until closer : (forall t t', same t t' -> closer t' = closer t) -> Rel (prod2 eq (opt2 same)) (parse_nodes_until (r_node R) closer) (parse_nodes_until (r_node R) closer).
  Proof.
    intro C. unfold parse_nodes_until. eapply r_bind; [apply r_skip|]. intros _ _ _. eapply r_bind; [apply r_loop; intro; now apply r_nodes_loop|].
    intros ? ? [l ? o o' <- O]. apply r_ret. cbn [fst snd]. now constructor.
  Qed.
  Lemma r_ellipsis : Rel eq (parse_ellipsis_group R) (parse_ellipsis_group R). Proof. unfold parse_ellipsis_group. rs. Qed.
  Hint Resolve r_nodes_until r_ellipsis same_is_kind same_close : rel.
  Lemma r_expr_or_ellipsis : Rel eq (parse_expr_or_ellipsis R) (parse_expr_or_ellipsis R). Proof. unfold parse_expr_or_ellipsis. rs. Qed.
  Lemma r_group open open' : same open open' -> Rel eq (parse_group R open) (parse_group R open').
  Proof. intro H. unfold parse_group. eapply r_bind; [apply r_nodes_until; intros; now apply same_is_kind|]. rs. Qed.
  Hint Resolve r_expr_or_ellipsis r_group : rel.
  Lemma r_arg : Rel eq (parse_arg R) (parse_arg R). Proof. unfold parse_arg. rs. Qed.
  Hint Resolve r_arg : rel.
  Lemma r_args : Rel eq (parse_args R) (parse_args R). Proof. unfold parse_args. rs. Qed.
  Hint Resolve r_args : rel.
  Lemma r_list_item : Rel eq (parse_list_item R) (parse_list_item R). Proof. unfold parse_list_item. rs. Qed.
  Hint Resolve r_list_item : rel.
  Lemma r_list open open' : same open open' -> Rel eq (parse_list R open) (parse_list R open'). Proof. intro H. unfold parse_list. rs. Qed.
  Lemma r_param : Rel eq (parse_param R) (parse_param R). Proof. unfold parse_param. rs. Qed.
  Hint Resolve r_list r_param : rel.
  Lemma r_signature : Rel eq (parse_signature R) (parse_signature R). Proof. unfold parse_signature. rs. Qed.
  Hint Resolve r_signature : rel.
  Lemma r_func_def b : Rel eq (parse_func_def R b) (parse_func_def R b). Proof. unfold parse_func_def. rs. Qed.
  Lemma r_func_call t t' : same t t' -> Rel eq (parse_func_call src R t) (parse_func_call src R t'). Proof. intro H. unfold parse_func_call. rs. Qed.
  Lemma r_some_named : Rel eq (parse_some_named_args R) (parse_some_named_args R). Proof. unfold parse_some_named_args. rs. Qed.
  Hint Resolve r_func_def r_func_call r_some_named : rel.
  Lemma r_let t t' b : same t t' -> Rel eq (parse_let_in R t b) (parse_let_in R t' b). Proof. intro H. unfold parse_let_in. align. rs. Qed.
  Hint Resolve r_let : rel.
  Lemma r_export : Rel eq (parse_export R) (parse_export R). Proof. unfold parse_export. rs. Qed.
  Lemma r_tag_attr : Rel eq (parse_tag_attribute R) (parse_tag_attribute R). Proof. unfold parse_tag_attribute. rs. Qed.
  Hint Resolve r_export r_tag_attr : rel.
  Lemma r_tag t t' : same t t' -> Rel eq (parse_tag R t) (parse_tag R t').
  Proof.
    intro H. unfold parse_tag. eapply r_bind; [apply r_expect_poll|]. intros n n' N. align. eapply (r_bind eq).
    - destruct (tk_kind n) eqn:?; try apply r_ice; [rs|rs|]. eapply r_bind; [apply r_expect_poll|]. intros d d' D. rewrite (same_doctype _ _ D). rs.
    - intros [name id] ? <-. eapply r_bind; [apply r_separated; [exact H|apply r_tag_attr]|]. intros ? ? [attrs ? a a' <- A].
      eapply r_bind; [apply r_check_attrs|]. intros _ _ _. rewrite (samek_text _ _ _ A eq_refl). destruct (_ || _); [apply r_ret_eq|].
      eapply r_bind; [apply r_nodes_until; intros; now apply same_close|]. intros ? ? [l ? o o' <- O]. destruct O; rs.
  Qed.
  Lemma r_positional_pattern : Rel eq (parse_positional_match_pattern R) (parse_positional_match_pattern R). Proof. unfold parse_positional_match_pattern. rs. Qed.
  Lemma r_named_pattern b : Rel eq (parse_named_match_pattern R b) (parse_named_match_pattern R b).
  Proof.
    unfold parse_named_match_pattern. destruct b; cbv iota; rs.
  Qed.
  Hint Resolve r_tag r_positional_pattern r_named_pattern : rel.
  Lemma r_seq_pattern open open' sep close : same open open' -> Rel eq (parse_seq_pattern R open sep close) (parse_seq_pattern R open' sep close).
  Proof. intro H. unfold parse_seq_pattern. align. rs. Qed.
  Lemma r_dict_pattern t t' : same t t' -> Rel eq (parse_dict_pattern R t) (parse_dict_pattern R t'). Proof. intro H. unfold parse_dict_pattern. rs. Qed.
  Hint Resolve r_seq_pattern r_dict_pattern : rel.
  Lemma r_tag_pattern t t' : same t t' -> Rel eq (parse_tag_pattern R t) (parse_tag_pattern R t').
  Proof.
    intro H. unfold parse_tag_pattern. eapply r_bind; [apply r_expect_poll|]. intros n n' N. align. eapply (r_bind eq); [rs|].
    intros [name id] ? <-. eapply r_bind; [apply r_separated; [exact H|apply r_named_pattern]|]. intros ? ? [attrs ? a a' <- A].
    eapply r_bind; [apply r_make_dict|]. intros d ? <-. eapply r_bind; [apply r_skip|]. intros _ _ _. eapply (r_bind (prod2 eq same)).
    - rewrite (samek_text _ _ _ A eq_refl). destruct (_ || _); [apply r_ret; constructor; [reflexivity|apply A]|].
      eapply r_bind; [apply r_poll_if_kind|]. intros ? ? [|c c' C]; [|apply r_ret; constructor; [reflexivity|apply C]].
      eapply r_bind; [apply HP|]. intros p ? <-. eapply r_bind; [apply r_skip|]. intros _ _ _. eapply r_bind; [apply r_expect_poll_kind|]. intros c c' C. apply r_ret; constructor; [reflexivity|apply C].
    - intros ? ? [p ? c c' <- C]. align. rs.
  Qed.
  Lemma r_template_pattern open open' k : same open open' -> Rel eq (parse_template_pattern decode regex_ok open k) (parse_template_pattern decode regex_ok open' k).
  Proof. intro H. unfold parse_template_pattern. rs. Qed.
  Hint Resolve r_tag_pattern r_template_pattern : rel.
  Lemma r_primary : Rel eq (parse_primary_match_pattern decode regex_ok R) (parse_primary_match_pattern decode regex_ok R). Proof. unfold parse_primary_match_pattern. rs. Qed.
  Hint Resolve r_primary : rel.
  Lemma r_and_loop fuel : forall p, Rel eq (and_loop decode regex_ok R fuel p) (and_loop decode regex_ok R fuel p). Proof. induction fuel; intro; cbn [and_loop]; rs. Qed.
  Hint Resolve r_and_loop : rel.
  Lemma r_and : Rel eq (parse_and_match_pattern decode regex_ok R) (parse_and_match_pattern decode regex_ok R). Proof. unfold parse_and_match_pattern. rs. Qed.
  Hint Resolve r_and : rel.
  Lemma r_or_loop fuel : forall p, Rel eq (or_loop decode regex_ok R fuel p) (or_loop decode regex_ok R fuel p). Proof. induction fuel; intro; cbn [or_loop]; rs. Qed.
  Hint Resolve r_or_loop : rel.
  Lemma r_pattern' : Rel eq (parse_match_pattern decode regex_ok R) (parse_match_pattern decode regex_ok R). Proof. unfold parse_match_pattern. rs. Qed.
  Lemma r_match_branch : Rel eq (parse_match_branch R) (parse_match_branch R). Proof. unfold parse_match_branch. rs. Qed.
  Hint Resolve r_match_branch : rel.
  Lemma r_match : Rel eq (parse_match R) (parse_match R). Proof. unfold parse_match. rs. Qed.
  Hint Resolve r_match : rel.
  Lemma r_expr_tok' t t' : same t t' -> Rel eq (parse_expr_tok src decode R t) (parse_expr_tok src decode R t').
  Proof. intro H. unfold parse_expr_tok. align. rs. Qed.
  Hint Resolve r_expr_tok' : rel.
  Lemma r_node' t t' : same t t' -> Rel eq (parse_node src decode R t) (parse_node src decode R t').
  Proof. intro H. unfold parse_node. align. rs. Qed.
End Step.
Lemma r_parsers src decode regex_ok n : let R := parsers_n src decode regex_ok n in
  (forall t t', same t t' -> Rel eq (r_expr_tok R t) (r_expr_tok R t')) /\ Rel eq (r_pattern R) (r_pattern R) /\ (forall t t', same t t' -> Rel eq (r_node R t) (r_node R t')).
Proof.
  induction n as [|n (A & B & C)]; cbv zeta in *; cbn [parsers_n].
  - repeat split; intros; intros e s s' _; exact I.
  - repeat split; cbn [parser_step r_expr_tok r_pattern r_node]; intros.
    + now apply r_expr_tok'.
    + now apply r_pattern'.
    + now apply r_node'.
Qed.
Lemma r_root src decode regex_ok : Rel eq (parse_root src decode regex_ok) (parse_root src decode regex_ok).
Proof.
  unfold parse_root. apply r_loop. intro fuel. destruct (r_parsers src decode regex_ok fuel) as (A & B & C).
  eapply r_bind; [apply r_nodes_until; [exact C|reflexivity]|]. intros ? ? [l ? o o' <- O]. apply r_ret_eq.
Qed.
