(** The parser warns only where a question mark follows a type that has none as a value anyway (C74). *)
From Verif Require Import Base BaseFacts M_Text M_Names M_TagInfo M_Token M_Tokenizer M_TokenText M_TextSubs M_Types M_Diag M_Queue M_Ast M_Parser S_Grammar S_Parser S_Redundant.

Section Redundant.
  Variable T : list token.
  Definition J (s : pstate) : Prop := (exists a, T = a ++ ps_tokens s) /\ (NoErrors (ps_diags s) -> ps_diags s <> [] -> Redundant T).
  Definition G {A} (m : PM A) : Prop := forall s, J s -> match m s with POk _ s' | PErr s' => J s' | _ => True end.

  Lemma g_ret {A} (a : A) : G (pret a). Proof. intros s H. exact H. Qed.
  Lemma g_bind {A B} (m : PM A) (f : A -> PM B) : G m -> (forall a, G (f a)) -> G (pbind m f).
  Proof. intros H K s Js. specialize (H s Js). unfold pbind. destruct (m s) as [a s'|s'| |]; auto. exact (K a s' H). Qed.
  Lemma errors_add d e : ~ NoErrors (d ++ [SyntaxErr e]).
  Proof. intro H. apply Forall_app in H as [_ H]. inversion H as [|? ? [w W] _]. discriminate W. Qed.
  Lemma j_add s e : J s -> J (PState (ps_tokens s) (ps_diags s ++ [SyntaxErr e])).
  Proof. intros [A B]. split; [exact A|]. intro N. now apply errors_add in N. Qed.
  Lemma g_serr e : G (serr e). Proof. intros s H. now apply j_add. Qed.
  Lemma g_serr' e : G (preport (SyntaxErr e)). Proof. intros s H. now apply j_add. Qed.
  Lemma g_sfail {A} e : G (@sfail A e). Proof. intros s H. now apply j_add. Qed.
  Lemma g_sfail' {A} e : G (@pfail A (SyntaxErr e)). Proof. intros s H. now apply j_add. Qed.
  Lemma g_ice {A} : G (@p_ice A). Proof. intros s H. exact I. Qed.
  Lemma g_fuel {A} : G (fun _ => @PFuel A). Proof. intros s H. exact I. Qed.
  Lemma g_ok {A} (m : PM A) : G m -> G (p_ok m).
  Proof. intros H s Hs. specialize (H s Hs). unfold p_ok. destruct (m s); auto. Qed.
  Lemma g_map_err {A} (m : PM A) h : G m -> G h -> G (map_err m h).
  Proof. intros H K s Hs. specialize (H s Hs). unfold map_err. destruct (m s) as [a s'|s'| |]; auto. specialize (K s' H). destruct (h s'); auto. Qed.
  Lemma g_loop {A} (f : nat -> PM A) : (forall fuel, G (f fuel)) -> G (with_fuel f).
  Proof. intros H s Hs. apply H. exact Hs. Qed.
  Lemma j_next t l d : J (PState (t :: l) d) -> J (PState l d).
  Proof. intros [[a E] B]. split; [|exact B]. exists (a ++ [t]). cbn [ps_tokens] in *. now rewrite <- app_assoc. Qed.
  Lemma g_poll : G poll.
  Proof. intros [ts d] H. unfold poll. cbn [ps_tokens ps_diags]. destruct ts as [|t l]; [exact H|]. exact (j_next _ _ _ H). Qed.
  Lemma g_peek : G peek. Proof. intros s H. exact H. Qed.
  Lemma g_poll_if p : G (poll_if p).
  Proof. apply g_bind; [apply g_peek|]. intros [t|]; [destruct (p t); [apply g_poll|]|]; apply g_ret. Qed.
  Lemma g_poll_if_kind k : G (poll_if_kind k). Proof. apply g_poll_if. Qed.
  Lemma g_expect_poll : G expect_poll. Proof. apply g_bind; [apply g_poll|]. intros [t|]; [apply g_ret|apply g_sfail']. Qed.
  Lemma g_expect_poll_kind k : G (expect_poll_kind k).
  Proof. apply g_bind; [apply g_peek|]. intros [t|]; [destruct (kind_eqb _ _)|]; try apply g_expect_poll. apply g_sfail'. Qed.
  Lemma g_skip : G skip_whitespace. Proof. apply g_bind; [apply g_poll_if|]. intro. apply g_ret. Qed.
  Lemma g_has_next p : G (has_next p). Proof. apply g_bind; [apply g_peek|]. intro. apply g_ret. Qed.

  Hint Resolve g_ret g_serr g_serr' g_sfail g_sfail' g_ice g_fuel g_poll g_peek g_poll_if g_poll_if_kind g_expect_poll g_expect_poll_kind g_skip g_has_next : red.
  Ltac gs := repeat (cbv zeta;
    lazymatch goal with
    | |- forall _, _ => intro
    | |- G (pbind _ _) => apply g_bind
    | |- G (p_ok _) => apply g_ok
    | |- G (map_err _ _) => apply g_map_err
    | |- G (with_fuel _) => apply g_loop
    | |- G (match ?x with _ => _ end) => destruct x
    | |- _ => solve [eauto 3 with red nocore]
    end).

  (** The last token read, and white space after it *)
  Definition Last (t : ty) (s : pstate) : Prop := exists a w ws, T = a ++ w :: ws ++ ps_tokens s /\
    (forall t, In t ws -> tk_kind t = Whitespace \/ tk_kind t = Newline) /\ (unit_is_assignable t = true -> NoErrors (ps_diags s) -> In (tk_text w) optional_words).
  Lemma last_skip t s : Last t s -> match skip_whitespace s with POk _ s' => Last t s' | _ => False end.
  Proof.
    intros L. destruct s as [ts d]. unfold skip_whitespace, poll_if, peek, poll, pbind, pret. cbn [ps_tokens hd_error].
    destruct ts as [|x l]; cbn [hd_error]; [exact L|]. destruct (tok_is_whitespace x) eqn:E; [|exact L]. cbn [ps_tokens ps_diags].
    destruct L as (a & w & ws & Z & W & U). exists a, w, (ws ++ [x]). cbn [ps_tokens ps_diags] in *. rewrite <- app_assoc. split; [exact Z|]. split; [|exact U].
    intros t' I. apply in_app_iff in I as [I|[<-|[]]]; [auto|]. unfold tok_is_whitespace, kind_is_whitespace in E.
    destruct (tk_kind x); cbn in E; try discriminate; auto.
  Qed.
  Lemma groups_good fuel : forall t s, J s -> Last t s -> match parse_groups fuel t s with POk _ s' | PErr s' => J s' | _ => True end.
  Proof.
    induction fuel as [|fuel IH]; intros t s Hs L; [exact I|]. cbn [parse_groups]. unfold pbind at 1.
    pose proof (last_skip t s L) as L1. pose proof (g_skip s Hs) as K'. destruct (skip_whitespace s) as [u s1|s1| |]; try contradiction.
    destruct s1 as [ts d]. unfold pbind at 1, poll_if, peek, pbind at 1. cbn [ps_tokens]. destruct ts as [|x l]; cbn [hd_error]; [exact K'|].
    destruct (is_group_tok x) eqn:Gx; [|exact K']. unfold poll. cbn [ps_tokens ps_diags].
    assert (Jx : J (PState l d)) by exact (j_next _ _ _ K').
    assert (Lx : forall t' d', (unit_is_assignable t' = true -> NoErrors d' -> In (tk_text x) optional_words) -> Last t' (PState l d')).
    { intros t' d' Ht'. destruct L1 as (a & w & ws & Z & W & U). exists (a ++ w :: ws), x, []. cbn [ps_tokens app] in *. split; [rewrite <- app_assoc; exact Z|]. split; [intros ? []|exact Ht']. }
    unfold pbind, group_type. destruct (str_eqb_spec (tk_text x) (lit "list")) as [E1|_]; [apply (IH (TList t)); [exact Jx|apply Lx; intros [=]]|].
    destruct (str_eqb_spec (tk_text x) (lit "dict")) as [E2|_]; [apply (IH (TDict t)); [exact Jx|apply Lx; intros [=]]|].
    destruct (str_eqb_spec (tk_text x) (lit "?")) as [E3|_].
    - assert (Ix : In (tk_text x) optional_words) by (rewrite E3; cbn; auto 8).
      destruct (unit_is_assignable t) eqn:U; [|apply (IH (TOptional t)); [exact Jx|apply Lx; auto]].
      unfold preport, pbind, pret. cbn [ps_tokens ps_diags]. apply IH; [|apply Lx; auto]. destruct Jx as [A B]. split; [exact A|]. cbn [ps_diags] in *.
      intros N _. apply Forall_app in N as [N _]. destruct L1 as (a & w' & ws & Z & W & Uw). cbn [ps_tokens ps_diags] in *.
      exists a, w', ws, x, l. auto.
    - unfold preport, pbind, pret. cbn [ps_tokens ps_diags]. apply IH; [exact (j_add _ _ Jx)|]. apply Lx. intros _ N. now apply errors_add in N.
  Qed.
  Lemma base_word w t : base_type w = Some t -> unit_is_assignable t = true -> In w optional_words.
  Proof.
    unfold base_type. repeat match goal with |- context [str_eqb w ?n] => destruct (str_eqb_spec w n) as [->|_]; [intros [= <-]; cbn; try discriminate; auto 8|] end. discriminate.
  Qed.
  Lemma g_type : G parse_type.
  Proof.
    unfold parse_type. apply g_bind; [apply g_skip|]. intros _ [ts d] Hs. unfold pbind at 1.
    pose proof (g_expect_poll_kind Name _ Hs) as K. destruct (expect_poll_kind Name _) as [x s1|s1| |] eqn:E; auto.
    assert (L : exists a, T = a ++ x :: ps_tokens s1).
    { destruct Hs as [[a Z] _]. cbn [ps_tokens] in Z. unfold expect_poll_kind, peek, pbind, expect_poll, poll, pfail, pret in E. cbn [ps_tokens] in E. destruct ts as [|y l]; cbn [hd_error] in E; [discriminate E|].
      destruct (negb _); cbn [ps_tokens pbind] in E; [discriminate E|]. unfold pbind in E. injection E as <- <-. exists a. exact Z. }
    destruct L as [a L]. unfold pbind. destruct (base_type (tk_text x)) as [t|] eqn:B.
    - unfold pret. apply groups_good; [exact K|]. exists a, x, []. split; [exact L|]. split; [intros ? []|]. intros U _. eapply base_word; eauto.
    - unfold preport, pret. apply groups_good; [exact (j_add _ _ K)|]. exists a, x, []. split; [exact L|]. split; [intros ? []|]. intros _ N. now apply errors_add in N.
  Qed.
  Hint Resolve g_type : red.
  Lemma g_tok_name t : G (tok_name_id t). Proof. unfold tok_name_id. gs. Qed.
  Lemma g_lowercase t : G (tok_lowercase_name_id t). Proof. unfold tok_lowercase_name_id. gs. Qed.
  Lemma g_number t : G (p_number t). Proof. unfold p_number. gs. Qed.
  Lemma g_unescape t : G (p_unescape t). Proof. unfold p_unescape. gs. Qed.
  Hint Resolve g_tok_name g_lowercase g_number g_unescape : red.
  Lemma g_name_loop fuel : forall e, G (name_loop fuel e). Proof. induction fuel; intro e; cbn [name_loop]; gs. Qed.
  Hint Resolve g_name_loop : red.
  Lemma g_name t : G (parse_name t). Proof. unfold parse_name. gs. Qed.
  Lemma g_text_loop fuel : forall t, G (text_loop fuel t). Proof. induction fuel; intro t; cbn [text_loop]; gs. Qed.
  Hint Resolve g_name g_text_loop : red.
  Lemma g_text t : G (parse_text t). Proof. unfold parse_text. gs. Qed.
  Lemma g_spread a b : G (poll_if_spread a b). Proof. unfold poll_if_spread. gs. Qed.
  Hint Resolve g_text g_spread : red.
  Lemma g_template_loop decode fuel : forall open k parts braces, G (template_loop fuel decode open k parts braces).
  Proof. induction fuel as [|fuel IH]; intros; cbn [template_loop]; gs. Qed.
  Lemma g_report_unmatched l : G (report_unmatched l). Proof. induction l; cbn; gs. Qed.
  Hint Resolve g_template_loop g_report_unmatched : red.
  Lemma g_template_parts decode open k : G (parse_template_parts decode open k). Proof. unfold parse_template_parts. gs. Qed.
  Lemma g_check_args l : forall a u, G (check_args l a u). Proof. induction l as [|[x k e] l IH]; intros; cbn [check_args]; gs. Qed.
  Lemma g_check_attrs l : forall u, G (check_attrs l u). Proof. induction l as [|[x k e|e] l IH]; intros; cbn [check_attrs]; gs. Qed.
  Lemma g_name_pattern t : G (parse_name_pattern t). Proof. unfold parse_name_pattern. gs. Qed.
  Lemma g_template_regex parts : forall re vars, G (template_regex parts re vars).
  Proof. induction parts as [|[s|c|[x|x b a|x b i]|] parts IH]; intros; cbn [template_regex]; gs. Qed.
  Hint Resolve g_template_parts g_check_args g_check_attrs g_name_pattern g_template_regex : red.
  Lemma g_separated {A} open (p : PM A) sep close : G p -> G (parse_separated_until open p sep close).
  Proof. intro H. unfold parse_separated_until. apply g_loop. intro fuel. generalize false. induction fuel as [|fuel IH]; intro b; cbn [separated_loop]; gs. Qed.
  Lemma g_check_params rs : forall s, G (check_params rs s).
  Proof. induction rs as [|[[[name q i t d] kind] u] rs IH]; intro s; cbn [check_params]; [gs|]. apply g_bind; [|auto]. unfold check_param. gs. Qed.
  Lemma g_named_args l : G (named_args l). Proof. induction l as [|[x k e] l IH]; cbn [named_args]; gs. Qed.
  Lemma g_spread_index l : forall i o, G (spread_index l i o). Proof. induction l as [|[p [|]] l IH]; intros; cbn [spread_index]; gs. Qed.
  Lemma g_check_html l : G (check_html_patterns l). Proof. induction l; cbn; gs. Qed.
  Lemma g_dict_parts l : forall attrs spread, G (dict_parts l attrs spread). Proof. induction l as [|[[x|] p] l IH]; intros; cbn [dict_parts]; gs. Qed.
  Hint Resolve g_check_params g_named_args g_spread_index g_check_html g_dict_parts : red.
  Lemma g_make_dict l simplify : G (make_dict_pattern l simplify). Proof. unfold make_dict_pattern. gs. Qed.
  Lemma g_typed p : G (parse_optional_typed_pattern p). Proof. unfold parse_optional_typed_pattern. gs. Qed.
  Hint Resolve g_make_dict g_typed : red.

  Section Step.
    Variables (src : str) (decode : str -> str) (regex_ok : str -> bool) (R : parsers).
    Hypothesis HE : forall t, G (r_expr_tok R t).
    Hypothesis HP : G (r_pattern R).
    Hypothesis HN : forall t, G (r_node R t).
    Hint Resolve HE HP HN : red.
    Lemma g_expr : G (parse_expr R). Proof. unfold parse_expr. gs. Qed.
    Lemma g_nodes_loop closer fuel : G (nodes_loop (r_node R) closer fuel). Proof. induction fuel; cbn [nodes_loop]; gs. Qed.
    Lemma g_ellipsis_loop fuel : G (ellipsis_loop (r_node R) fuel). Proof. induction fuel; cbn [ellipsis_loop]; gs. Qed.
    Hint Resolve g_expr g_nodes_loop g_ellipsis_loop : red.
    Lemma g_nodes_until closer : G (parse_nodes_until (r_node R) closer). Proof. unfold parse_nodes_until. gs. Qed.
    Lemma g_ellipsis : G (parse_ellipsis_group R). Proof. unfold parse_ellipsis_group. gs. Qed.
    Hint Resolve g_nodes_until g_ellipsis : red.
    Lemma g_expr_or_ellipsis : G (parse_expr_or_ellipsis R). Proof. unfold parse_expr_or_ellipsis. gs. Qed.
    Lemma g_group open : G (parse_group R open). Proof. unfold parse_group. gs. Qed.
    Hint Resolve g_expr_or_ellipsis g_group : red.
    Lemma g_arg : G (parse_arg R). Proof. unfold parse_arg. gs. Qed.
    Hint Resolve g_arg g_separated : red.
    Lemma g_args : G (parse_args R). Proof. unfold parse_args. gs. Qed.
    Hint Resolve g_args : red.
    Lemma g_list_item : G (parse_list_item R). Proof. unfold parse_list_item. gs. Qed.
    Hint Resolve g_list_item : red.
    Lemma g_list open : G (parse_list R open). Proof. unfold parse_list. gs. Qed.
    Lemma g_param : G (parse_param R). Proof. unfold parse_param. gs. Qed.
    Hint Resolve g_list g_param : red.
    Lemma g_signature : G (parse_signature R). Proof. unfold parse_signature. gs. Qed.
    Hint Resolve g_signature : red.
    Lemma g_func_def b : G (parse_func_def R b). Proof. unfold parse_func_def. gs. Qed.
    Lemma g_func_call t : G (parse_func_call src R t). Proof. unfold parse_func_call. gs. Qed.
    Lemma g_some_named : G (parse_some_named_args R). Proof. unfold parse_some_named_args. gs. Qed.
    Hint Resolve g_func_def g_func_call g_some_named : red.
    Lemma g_let t b : G (parse_let_in R t b). Proof. unfold parse_let_in. gs. Qed.
    Hint Resolve g_let : red.
    Lemma g_export : G (parse_export R). Proof. unfold parse_export. gs. Qed.
    Lemma g_tag_attr : G (parse_tag_attribute R). Proof. unfold parse_tag_attribute. gs. Qed.
    Hint Resolve g_export g_tag_attr : red.
    Lemma g_tag t : G (parse_tag R t). Proof. unfold parse_tag. gs. Qed.
    Lemma g_positional_pattern : G (parse_positional_match_pattern R). Proof. unfold parse_positional_match_pattern. gs. Qed.
    Lemma g_named_pattern b : G (parse_named_match_pattern R b). Proof. unfold parse_named_match_pattern. gs. Qed.
    Hint Resolve g_tag g_positional_pattern g_named_pattern : red.
    Lemma g_seq_pattern open sep close : G (parse_seq_pattern R open sep close). Proof. unfold parse_seq_pattern. gs. Qed.
    Lemma g_dict_pattern t : G (parse_dict_pattern R t). Proof. unfold parse_dict_pattern. gs. Qed.
    Hint Resolve g_seq_pattern g_dict_pattern : red.
    Lemma g_tag_pattern t : G (parse_tag_pattern R t). Proof. unfold parse_tag_pattern. gs. Qed.
    Lemma g_template_pattern open k : G (parse_template_pattern decode regex_ok open k). Proof. unfold parse_template_pattern. gs. Qed.
    Hint Resolve g_tag_pattern g_template_pattern : red.
    Lemma g_primary : G (parse_primary_match_pattern decode regex_ok R). Proof. unfold parse_primary_match_pattern. gs. Qed.
    Hint Resolve g_primary : red.
    Lemma g_and_loop fuel : forall p, G (and_loop decode regex_ok R fuel p). Proof. induction fuel; intro; cbn [and_loop]; gs. Qed.
    Hint Resolve g_and_loop : red.
    Lemma g_and : G (parse_and_match_pattern decode regex_ok R). Proof. unfold parse_and_match_pattern. gs. Qed.
    Hint Resolve g_and : red.
    Lemma g_or_loop fuel : forall p, G (or_loop decode regex_ok R fuel p). Proof. induction fuel; intro; cbn [or_loop]; gs. Qed.
    Hint Resolve g_or_loop : red.
    Lemma g_pattern : G (parse_match_pattern decode regex_ok R). Proof. unfold parse_match_pattern. gs. Qed.
    Hint Resolve g_pattern : red.
    Lemma g_match_branch : G (parse_match_branch R). Proof. unfold parse_match_branch. gs. Qed.
    Hint Resolve g_match_branch : red.
    Lemma g_match : G (parse_match R). Proof. unfold parse_match. gs. Qed.
    Hint Resolve g_match : red.
    Lemma g_expr_tok t : G (parse_expr_tok src decode R t).
    Proof. unfold parse_expr_tok. gs. Qed.
    Hint Resolve g_expr_tok : red.
    Lemma g_node t : G (parse_node src decode R t).
    Proof. unfold parse_node. gs. Qed.
  End Step.
  Lemma g_parsers src decode regex_ok n : let R := parsers_n src decode regex_ok n in
    (forall t, G (r_expr_tok R t)) /\ G (r_pattern R) /\ (forall t, G (r_node R t)).
  Proof.
    induction n as [|n (A & B & C)]; cbv zeta in *; cbn [parsers_n].
    - repeat split; intros; intros s H; exact I.
    - repeat split; cbn [parser_step r_expr_tok r_pattern r_node]; intros.
      + now apply g_expr_tok.
      + now apply g_pattern.
      + now apply g_node.
  Qed.
  Lemma g_root src decode regex_ok : G (parse_root src decode regex_ok).
  Proof. unfold parse_root. apply g_loop. intro fuel. apply g_bind; [apply g_nodes_until; apply g_parsers|]. intro. apply g_ret. Qed.
End Redundant.
Lemma parse_warns decode regex_ok src text ns ds toks : tokenize text true = Ret (toks, []) ->
  parse decode regex_ok src text = Ret (ns, ds) -> NoErrors ds -> ds <> [] -> Redundant toks.
Proof.
  intros T P. unfold parse in P. rewrite T in P. cbn [obind fst snd List.map] in P.
  assert (J toks (PState toks [])) as K by (split; [now exists []|intros _ []; reflexivity]).
  pose proof (g_root toks src decode regex_ok _ K) as H. destruct (parse_root _ _ _ _) as [a s|s| |]; injection P as <- <- || discriminate P; apply H.
Qed.
