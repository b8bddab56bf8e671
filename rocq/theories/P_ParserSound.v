(** Whatever the tokens are, the parser terminates, and what it reads without reporting an error is a phrase of the grammar. *)
From Verif Require Import Base BaseFacts M_Text M_Names M_TagInfo M_Token M_Tokenizer M_TokenText M_Types M_Diag M_Queue M_Ast M_Parser.
From Verif Require Import S_Front S_Grammar P_ParserW P_ParserLeaf P_ParserTemplate P_ParserCheck P_ParserParams P_ParserPattern P_NativeText.

Lemma W_check_end {A} c (m : PM A) Rel toks (Q : _ -> _ -> _ -> Prop) : Checks m Rel ->
  (forall c' a, (c' = true -> c = true /\ Rel a) -> Q toks c' a) -> W c m toks Q.
Proof.
  intros (a & ds & E & Se & _) H L d. rewrite E. exists [], ds. cbn. repeat split. apply H.
  intros C. apply andb_true_iff in C as [-> C]. auto.
Qed.
Lemma W_unbind {A B C} c (m : PM A) (f : A -> PM B) (g : B -> PM C) toks Q :
  W c (pbind (pbind m f) g) toks Q -> W c (pbind m (fun a => pbind (f a) g)) toks Q.
Proof. intros H L d. specialize (H L d). unfold pbind in *. destruct (m (PState toks d)) as [a s|s| |]; auto. Qed.
Lemma W_poll {B} c (f : option token -> PM B) toks Q :
  (forall t l, toks = t :: l -> LexTok t -> W c (f (Some t)) l Q) -> (toks = [] -> W c (f None) [] Q) -> W c (pbind poll f) toks Q.
Proof.
  intros H1 H2. apply W_bind. unfold poll. intros L d. cbn. destruct toks as [|t l]; cbn.
  - exists [], []. cbn [clean_b forallb]; rewrite (app_nil_r d), andb_true_r. repeat split. apply H2. auto.
  - exists [t], []. cbn [clean_b forallb]; rewrite (app_nil_r d), andb_true_r. repeat split. apply H1; auto. inversion L; auto.
Qed.
Lemma W_if_err {B} (b : bool) e c (f : unit -> PM B) toks Q : (forall c', (c' = true -> c = true /\ b = false) -> W c' (f tt) toks Q) ->
  W c (pbind (if b then serr e else pret tt) f) toks Q.
Proof. intros H. destruct b; w1; apply H; auto. discriminate. Qed.
Lemma W_unless_err {B} (b : bool) e c (f : unit -> PM B) toks Q : (forall c', (c' = true -> c = true /\ b = true) -> W c' (f tt) toks Q) ->
  W c (pbind (if b then pret tt else serr e) f) toks Q.
Proof. intros H. destruct b; w1; apply H; auto. discriminate. Qed.
Lemma spread_tok_spec t : is_spread_tok t = true <-> SpreadTok t.
Proof. unfold is_spread_tok, SpreadTok. rewrite orb_true_iff, !is_kind_spec. tauto. Qed.
Lemma W_spread {B} p n c (f : spread_kind -> PM B) toks Q :
  (forall k r c', length r <= length toks -> (c' = true -> c = true /\ Spread p n toks r k) -> W c' (f k) r Q) ->
  W c (pbind (poll_if_spread p n) f) toks Q.
Proof.
  intros H. unfold poll_if_spread. w1. apply W_poll_if.
  - intros t l -> E _. apply spread_tok_spec in E. destruct (is_kind Asterisk t) eqn:A.
    + apply is_kind_spec in A. destruct p.
      * w1. apply H; [cbn; lia|]. intros C. split; auto. constructor; auto.
      * w1. w1. w1. apply H; [cbn; lia|]. discriminate.
    + assert (Is DoubleAsterisk t) as D by (destruct E as [E|E]; auto; apply is_kind_spec in E; congruence). destruct n.
      * w1. apply H; [cbn; lia|]. intros C. split; auto. constructor; auto.
      * w1. w1. w1. apply H; [cbn; lia|]. discriminate.
  - intros N. w1. apply H; auto. intros C. split; auto. constructor. rewrite not_next in N by (intros; apply spread_tok_spec). auto.
Qed.
Lemma W_name {B} c t (f : str -> PM B) toks Q : Is Name t -> W c (f (tk_text t)) toks Q -> W c (pbind (tok_name_id t) f) toks Q.
Proof. intros K H. rewrite (name_id_ok _ _ (name_of_name _ K)). w1. auto. Qed.
Lemma W_var {B} c t (f : str -> PM B) toks Q : LexTok t -> Is VarName t -> (forall n, NameOf t n -> W c (f n) toks Q) -> W c (pbind (tok_name_id t) f) toks Q.
Proof. intros X K H. destruct (lex_var_name _ X K) as [n N]. rewrite (name_id_ok _ _ N). w1. auto. Qed.
Lemma W_lower {B} c t (f : str -> PM B) toks Q : Is Name t -> W c (f (lowered (tk_text t))) toks Q -> W c (pbind (tok_lowercase_name_id t) f) toks Q.
Proof. intros K H. unfold tok_lowercase_name_id. apply is_kind_spec in K. rewrite K. w1. auto. Qed.

Ltac wuse H ::=
  lazymatch goal with
  | |- W _ (pbind (p_ok _) _) _ _ => eapply W_spec_ok; [apply H|try (cbn [length] in *; lia)| |]
  | |- W _ (pbind _ _) _ _ => eapply W_spec; [apply H|try (cbn [length] in *; lia)|]
  | |- _ => eapply W_spec_end; [apply H|try (cbn [length] in *; lia)|]
  end.
Ltac ex := repeat match goal with H : exists _, _ |- _ => destruct H | H : _ /\ _ |- _ => destruct H end; subst.
Ltac fin := split; [cbn [length] in *; lia|]; let C := fresh "C" in intros C; clean; try (split; [assumption|]).
(** Lists up to a closing token *)
Section Lists.
  Context {T : Type}.
  Variables (open : token) (N : nat) (item : PM T) (close : token_kind) (G : tokens -> tokens -> T -> Prop).
  Hypothesis item_spec : Spec N item 1 G.
  Let after := serr (TokenUnmatched (tk_kind open));; serr (TokenExpectedWasEOF close).
  Lemma item_err : Spec N (map_err item after) 1 G.
  Proof.
    intros c toks L. apply W_map_err; [|apply item_spec; auto]. intros s. exists [SyntaxErr (TokenUnmatched (tk_kind open)); SyntaxErr (TokenExpectedWasEOF close)].
    unfold after, pbind, serr, preport. cbn. rewrite <- app_assoc. auto.
  Qed.
  Lemma separated_loop_spec fuel : forall (e : bool), Spec (Nat.min N fuel) (separated_loop open item Comma close fuel e) 1
    (fun toks r a => if e then fst a = [] /\ exists t, Skip toks (t :: r) /\ Is close t else Separated close G toks r (fst a)).
  Proof.
    induction fuel as [|fuel IH]; intros e c toks L; [lia|]. cbn [separated_loop]. w1.
    assert (forall c' toks1 (X : length toks1 <= length toks0), (c' = true -> c = true /\ e = false /\ toks1 = toks0 /\ ~ Next (Is close) toks1) ->
      W c' (do child <- map_err item after; skip_whitespace;; do expect_end <- (do sep <- poll_if_kind Comma; pret (negb (is_some sep)));
        do rest <- separated_loop open item Comma close fuel expect_end; pret (child :: fst rest, snd rest)) toks1
        (fun r c' a => length r + 1 <= length toks /\ (c' = true -> c = true /\
          if e then fst a = [] /\ exists t, Skip toks (t :: r) /\ Is close t else Separated close G toks r (fst a)))) as M.
    { intros c' toks1 X H. wuse item_err. intros r c1 x Le1 _ H1. w1. w1. w1.
      - w1. cbn [negb]. wuse (IH false). intros r' c2 xs Le2 _ H2. w1. split; [cbn in *; lia|]. intros C. clean. subst. split; auto.
        cbn [fst]. eapply sep_more; eauto.
      - w1. cbn [negb]. wuse (IH true). intros r' c2 xs Le2 _ H2. w1. split; [cbn in *; lia|]. intros C. clean. subst.
        ex. split; auto. cbn [fst]. match goal with H : fst _ = [] |- _ => rewrite H end. eapply sep_last; eauto. }
    destruct e.
    - w1.
      + w1. split; [cbn in *; lia|]. intros C. repeat split; auto. eauto.
      + cbn [kind_eqb]. destruct (kind_eqb Comma Whitespace) eqn:E; [discriminate|]. apply M; auto. discriminate.
    - w1.
      + w1. split; [cbn in *; lia|]. intros C. split; auto. cbn [fst]. econstructor; eauto.
      + destruct (kind_eqb Comma Whitespace) eqn:E; [discriminate|]. apply M; auto.
  Qed.
  Lemma separated_spec : Spec N (parse_separated_until open item Comma close) 1 (fun toks r a => Separated close G toks r (fst a)).
  Proof. intros c toks L. unfold parse_separated_until. w1. apply (separated_loop_spec _ false). lia. Qed.
  Lemma juxtaposed_loop_spec fuel : Spec (Nat.min N fuel) (separated_loop open item Whitespace close fuel false) 1
    (fun toks r a => Juxtaposed close G toks r (fst a) (snd a)).
  Proof.
    induction fuel as [|fuel IH]; intros c toks L; [lia|]. cbn [separated_loop]. w1. w1.
    - w1. split; [cbn in *; lia|]. intros C. split; auto. cbn. econstructor; eauto.
    - wuse item_err. intros r c1 x Le1 _ H1. w1. destruct (kind_eqb Whitespace Whitespace) eqn:E; [|discriminate]. w1.
      wuse IH. intros r' c2 [xs t] Le2 _ H2. w1. split; [cbn in *; lia|]. intros C. clean. split; auto. cbn. eapply jux_more; eauto.
  Qed.
  Lemma juxtaposed_spec : Spec N (parse_separated_until open item Whitespace close) 1 (fun toks r a => Juxtaposed close G toks r (fst a) (snd a)).
  Proof. intros c toks L. unfold parse_separated_until. w1. apply juxtaposed_loop_spec. lia. Qed.
End Lists.

Section Sound.
  Variable src : str.
  Variable decode : str -> str.
  Variable regex_ok : str -> bool.
  Variable R : parsers.
  Variable n : nat.
  Notation Expr := (Expr src decode regex_escape). Notation SExpr := (SExpr src decode regex_escape).
  Notation Content := (Content src decode regex_escape). Notation Argument := (Argument src decode regex_escape).
  Notation Args := (Args src decode regex_escape). Notation Item := (Item src decode regex_escape).
  Notation Decls := (Decls src decode regex_escape). Notation Let := (Let src decode regex_escape).
  Notation Annotation := (Annotation src decode regex_escape). Notation Typed := (Typed src decode regex_escape). Notation TagPatternName := (TagPatternName src decode regex_escape).
  Notation Default := (Default src decode regex_escape). Notation Param_ := (Param_ src decode regex_escape).
  Notation Params := (Params src decode regex_escape). Notation Signature_ := (Signature_ src decode regex_escape).
  Notation FuncDef_ := (FuncDef_ src decode regex_escape). Notation TagName := (TagName src decode regex_escape).
  Notation Attr := (Attr src decode regex_escape). Notation Tag := (Tag src decode regex_escape).
  Notation Branch := (Branch src decode regex_escape). Notation Pattern := (Pattern src decode regex_escape).
  Notation AndPattern := (AndPattern src decode regex_escape). Notation AndMore := (AndMore src decode regex_escape).
  Notation OrMore := (OrMore src decode regex_escape). Notation Primary := (Primary src decode regex_escape).
  Notation Positional := (Positional src decode regex_escape). Notation NamedPattern := (NamedPattern src decode regex_escape).
  Notation TagPatternContent := (TagPatternContent src decode regex_escape).
  Notation Nodes := (Nodes src decode regex_escape). Notation Node := (Node src decode regex_escape). Notation Export_ := (Export_ src decode regex_escape).
  Hypothesis regex_ok_all : forall ps, regex_ok (regex_text regex_escape ps) = true.
  Hypothesis HE : forall t, LexTok t -> Spec n (r_expr_tok R t) 0 (fun l r e => Expr (t :: l) r e).
  Hypothesis HP : Spec n (r_pattern R) 1 Pattern.
  Hypothesis HN : forall t, LexTok t -> Spec n (r_node R t) 0 (fun l r x => Node (t :: l) r x).

  Lemma expr_spec : Spec (S n) (parse_expr R) 1 SExpr.
  Proof.
    intros c toks L. unfold parse_expr. w1. w1. wuse (HE t X). intros r c' e L' _ H. fin. econstructor; eauto.
  Qed.
  Lemma nodes_loop_spec closer P (E : forall t, LexTok t -> closer t = true <-> P t) fuel : Spec (Nat.min (S n) fuel) (nodes_loop (r_node R) closer fuel) 0
    (fun toks r a => exists rest, Nodes P toks rest (fst a) /\ match snd a with Some t => rest = t :: r /\ P t | None => rest = [] /\ r = [] end).
  Proof.
    induction fuel as [|fuel IH]; intros c toks L; [lia|]. cbn [nodes_loop]. apply W_poll.
    - intros t l -> X. destruct (closer t) eqn:Ct.
      + apply E in Ct; auto. w1. fin. exists (t :: l). cbn. repeat split; auto. constructor. intros ? ? [= <- <-]; auto.
      + assert (~ P t) as NP by (intros Y; apply E in Y; auto; congruence). wuse (HN t X).
        * intros r c1 x Le1 _ H1. wuse IH. intros r' c2 [xs o] Le2 _ H2. w1. fin. ex. eexists.
          cbn [fst snd] in *. split; [|eauto]. eapply ns_more; eauto.
        * intros r Le1. wuse IH. intros r' c2 [xs o] Le2 _ H2. w1. fin.
    - intros ->. w1. fin. exists []. cbn. repeat split; auto. constructor. discriminate.
  Qed.
  Lemma nodes_until_spec closer P (E : forall t, LexTok t -> closer t = true <-> P t) : Spec (S n) (parse_nodes_until (r_node R) closer) 0
    (fun toks r a => exists mid rest ns, Skip toks mid /\ Nodes P mid rest ns /\ Trimmed ns (fst a) /\
      match snd a with Some t => rest = t :: r /\ P t | None => rest = [] /\ r = [] end).
  Proof.
    intros c toks L. unfold parse_nodes_until. w1. eapply W_use.
    - apply W_fuel. apply (nodes_loop_spec closer P E). lia.
    - intros r c' [ns o] _ _ [Le1 H]. w1. fin. cbn [fst snd] in *. ex. do 3 eexists.
      split; [eauto|]. split; [eauto|]. split; auto. apply trimmed_spec. auto.
  Qed.
  Lemma in_ellipsis_spec t : in_ellipsis t = true <-> ~ (Is CloseTag t \/ Is RBrace t).
  Proof.
    unfold in_ellipsis. rewrite andb_true_iff, !negb_true_iff, <- !is_kind_spec.
    destruct (is_kind CloseTag t), (is_kind RBrace t); intuition congruence.
  Qed.
  Lemma ellipsis_spec fuel : Spec (Nat.min (S n) fuel) (ellipsis_loop (r_node R) fuel) 0 (Nodes (fun t => Is CloseTag t \/ Is RBrace t)).
  Proof.
    induction fuel as [|fuel IH]; intros c toks L; [lia|]. cbn [ellipsis_loop]. apply W_poll_if.
    - intros t l -> E X. apply in_ellipsis_spec in E. wuse (HN t X).
      + intros r c1 x Le1 _ H1. wuse IH. intros r' c2 xs Le2 _ H2. w1. fin. eapply ns_more; eauto.
      + intros r Le1. wuse IH. intros r' c2 xs Le2 _ H2. w1. fin.
    - intros N. w1. fin. constructor. intros t l ->. specialize (N t l eq_refl). 
      unfold in_ellipsis in N. rewrite andb_false_iff, !negb_false_iff, !is_kind_spec in N. tauto.
  Qed.
  Lemma content_spec : Spec (S n) (parse_expr_or_ellipsis R) 1 Content.
  Proof.
    intros c toks L. unfold parse_expr_or_ellipsis. w1. w1.
    - unfold parse_ellipsis_group. eapply W_use.
      + apply W_fuel. apply ellipsis_spec. cbn in *; lia.
      + intros r c' ns _ _ [Le1 H]. w1. fin. rewrite group_same. eapply c_rest; eauto.
    - wuse expr_spec. intros r c' e Le1 _ H. fin. eapply c_expr; eauto.
  Qed.
  Lemma group_spec t : LexTok t -> Is LBrace t -> Spec (S n) (parse_group R t) 0 (fun l r e => Expr (t :: l) r e).
  Proof.
    intros X K c toks L. unfold parse_group. wuse (nodes_until_spec (is_kind RBrace) (Is RBrace) (fun t _ => is_kind_spec RBrace t)).
    intros r c' [ns o] Le1 _ H. cbn [fst snd] in *. apply W_unless_err. intros c1 H1. w1. fin.
    destruct o as [cl|]; [|discriminate]. ex. rewrite group_same. eapply x_group; eauto.
  Qed.
  Lemma arg_spec : Spec (S n) (parse_arg R) 1 Argument.
  Proof.
    intros c toks L. unfold parse_arg. w1. apply W_spread. intros k r c1 Le1 H1. w1. w1.
    - w1. w1.
      + rename t0 into e. rename l0 into l'. assert (forall c2, (c2 = true -> c1 = true /\ k = NoSpread) -> W c2
          (do v <- parse_expr R; do x <- tok_name_id t; pret (Arg x NoSpread v)) l'
          (fun r0 c' a => length r0 + 1 <= length toks /\ (c' = true -> c = true /\ Argument toks r0 a))) as M.
        { intros c2 H2. wuse expr_spec. intros r' c3 v Le3 _ H3. apply W_name; auto. w1. fin. subst k.
          eapply a_named; eauto. apply name_of_name; auto. }
        destruct k; w1; apply M; try discriminate; auto.
      + w1. fin. eapply a_bare; eauto.
    - wuse expr_spec. intros r' c3 v Le3 _ H3. w1. fin. eapply a_value; eauto.
  Qed.
  Lemma args_spec : Spec (S n) (parse_args R) 0 Args.
  Proof.
    intros c toks L. unfold parse_args. w1. w1.
    - wuse (separated_spec t _ _ RPar _ arg_spec). intros r c1 [args cl] Le1 _ H1. cbn [fst].
      eapply W_check; [apply check_args_ok|]. intros c2 [] H2. w1. fin. eapply args_some; eauto.
    - w1. fin. apply args_none; auto.
  Qed.
  Lemma anonymous_spec s : is_anonymous s = true <-> s = n_anonymous.
  Proof. unfold is_anonymous. apply str_eqb_eq. Qed.
  Lemma item_spec : Spec (S n) (parse_list_item R) 1 Item.
  Proof.
    intros c toks L. unfold parse_list_item. wuse arg_spec. intros r c1 [name k v] Le1 _ H1.
    assert (forall c2, (c2 = true -> c1 = true /\ k <> NamedSpread /\ name = n_anonymous) -> W c2
      (pret (v, match k with PosSpread => true | _ => false end)) r
      (fun r0 c' a => length r0 + 1 <= length toks /\ (c' = true -> c = true /\ Item toks r0 a))) as M.
    { intros c2 H2. w1. fin. subst name. destruct k; [apply i_one|apply i_spread|congruence]; auto. }
    destruct k; [| |w1; apply M; discriminate]; unfold arg_positional; rewrite andb_true_r; apply W_unless_err; intros c2 H2; apply M;
      intros C; clean; (split; [auto|]); (split; [discriminate|]); apply anonymous_spec; auto.
  Qed.
  Lemma list_spec t : LexTok t -> Is LSqb t -> Spec (S n) (parse_list R t) 0 (fun l r e => Expr (t :: l) r e).
  Proof.
    intros X K c toks L. unfold parse_list. wuse (separated_spec t _ _ RSqb _ item_spec). intros r c1 [l cl] Le1 _ H1. w1. fin.
    apply x_list; auto.
  Qed.

  (** ** Functions *)
  Lemma underscore_spec t : starts_with (lit "$_") (tk_text t) = true <-> exists m, tk_text t = lit "$_" ++ m.
  Proof. apply starts_with_spec. Qed.
  Lemma param_spec : Spec (S n) (parse_param R) 1 Param_.
  Proof.
    intros c toks L. unfold parse_param. w1. apply W_spread. intros k r c1 Le1 H1. w1. w1. apply W_var; auto. intros name Hn.
    cbv zeta. w1.
    assert (forall (q : bool) toks2, Optional QuestionMark toks1 toks2 q -> length toks2 <= length toks1 -> W c1 (
      skip_whitespace;; do colon <- poll_if_kind Colon;
      do annotation <- (if is_some colon then
                        skip_whitespace;;
                        do implicit <- poll_if_kind (Kw KImplicit);
                        do t <- p_ok parse_type;
                        pret (is_some implicit, match t with Some t => t | None => TAny end)
                      else pret (false, TAny));
      let '(is_implicit, ty_) := annotation in
      skip_whitespace;;
      do equals <- poll_if_kind Equals;
      do default <- (if is_some equals then do e <- parse_expr R; pret (Some e) else pret None);
      (if is_some default && match k with NoSpread => false | _ => true end then serr ParamSpreadDefault else pret tt);;
      pret (Param name q is_implicit ty_ default, k, starts_with (lit "$_") (tk_text t))) toks2
      (fun r0 c' a => length r0 + 1 <= length toks /\ (c' = true -> c = true /\ Param_ toks r0 a))) as M.
    { intros q toks2 Hq Lq. w1. assert (forall c2 i ty_ toks4, length toks4 <= length toks3 -> (c2 = true -> c1 = true /\ Annotation toks3 toks4 i ty_) -> W c2 (
        skip_whitespace;;
        do equals <- poll_if_kind Equals;
        do default <- (if is_some equals then do e <- parse_expr R; pret (Some e) else pret None);
        (if is_some default && match k with NoSpread => false | _ => true end then serr ParamSpreadDefault else pret tt);;
        pret (Param name q i ty_ default, k, starts_with (lit "$_") (tk_text t))) toks4
        (fun r0 c' a => length r0 + 1 <= length toks /\ (c' = true -> c = true /\ Param_ toks r0 a))) as M2.
      { intros c2 i ty_ toks4 Le4 H4. w1. assert (forall c3 v toks6, length toks6 <= length toks5 -> (c3 = true -> c2 = true /\ Default toks5 toks6 v) ->
          W c3 ((if is_some v && match k with NoSpread => false | _ => true end then serr ParamSpreadDefault else pret tt);;
          pret (Param name q i ty_ v, k, starts_with (lit "$_") (tk_text t))) toks6
          (fun r0 c' a => length r0 + 1 <= length toks /\ (c' = true -> c = true /\ Param_ toks r0 a))) as M3.
        { intros c3 v toks6 Le6 H6. apply W_if_err. intros c4 H7. w1. fin. eapply param_; eauto.
          - apply underscore_spec.
          - intros Nv. destruct v; [|congruence]. destruct k; auto; discriminate. }
        w1.
        - w1. wuse expr_spec. intros r' c3 v Le3 _ H3. w1. apply M3; [cbn in *; lia|]. intros C. clean. split; auto. constructor; auto.
        - w1. apply M3; auto. intros C. split; auto. constructor; auto. }
      w1.
      - w1. w1. w1. w1.
        + w1. wuse (parse_type_spec (Datatypes.S n)).
          * intros r' c3 v Le3 _ H3. w1. apply M2; [cbn in *; lia|]. intros C. clean. split; auto. eapply an_some; eauto. constructor; auto.
          * intros r' Le3. w1. apply M2; [cbn in *; lia|]. discriminate.
        + w1. wuse (parse_type_spec (Datatypes.S n)).
          * intros r' c3 v Le3 _ H3. w1. apply M2; [cbn in *; lia|]. intros C. clean. split; auto. eapply an_some; eauto. constructor; auto.
          * intros r' Le3. w1. apply M2; [cbn in *; lia|]. discriminate.
      - w1. apply M2; auto. intros C. split; auto. constructor; auto. }
    w1; cbn [is_some].
    - apply (M true); [constructor; auto|cbn; lia].
    - apply (M false); [constructor; auto|auto].
  Qed.
  Lemma params_group_spec : Spec (S n) (do lpar <- poll_if_kind LPar;
    match lpar with
    | None => pret ([], sigst0)
    | Some lpar =>
      do r <- parse_separated_until lpar (parse_param R) Comma RPar;
      do s <- check_params (fst r) sigst0;
      pret (List.map (fun p : raw_param => fst (fst p)) (fst r), s)
    end) 0 (fun toks r a => exists l pos ps named ns, Params toks r l /\ ParamsOk l pos ps named ns /\
      a = (List.map (fun p => fst (fst p)) l, st l)).
  Proof.
    intros c toks L. w1.
    - wuse (separated_spec t _ _ RPar _ param_spec). intros r c1 [l' cl] Le1 _ H1. cbn [fst].
      eapply W_check; [apply check_params_ok|]. intros c2 s H2. w1. fin. ex. do 5 eexists. split; [eapply params_some; eauto|eauto].
    - w1. fin. exists [], [], None, [], None. split; [constructor; auto|]. split; auto.
      unfold ParamsOk. cbn. repeat split; auto; try discriminate; try constructor; try (intros ? []); exists [], []; auto.
  Qed.
  Lemma signature_spec : Spec (S n) (parse_signature R) 1 Signature_.
  Proof.
    intros c toks L. unfold parse_signature. w1.
    apply W_unbind. wuse params_group_spec. intros r c1 [ps s] Le1 _ H1. w1. w1.
    - w1. fin. ex. match goal with H : (_, _) = (_, _) |- _ => injection H as -> -> end.
      match goal with H : ParamsOk _ _ _ _ _ |- _ => destruct (st_params _ _ _ _ _ H) as (-> & -> & -> & ->) end. eapply sig_dot; eauto.
    - wuse param_spec. intros r' c2 [[[name q i ty_ v] k] u] Le2 _ H2.
      assert (forall c3, (c3 = true -> c2 = true /\ k = NoSpread /\ v = None) -> W c3 (pret (Signature (ps ++ [Param name q i ty_ v]) (ss_positional s)
        (ss_positional_spread s) (ss_named s) (ss_named_spread s) true)) r' (fun r0 c' a => length r0 + 1 <= length toks /\ (c' = true -> c = true /\ Signature_ toks r0 a))) as M.
      { intros c3 H3. w1. fin. ex. match goal with H : (_, _) = (_, _) |- _ => injection H as -> -> end.
        match goal with H : ParamsOk _ _ _ _ _ |- _ => destruct (st_params _ _ _ _ _ H) as (-> & -> & -> & ->) end. eapply sig_content; eauto. }
      destruct k; [apply W_if_err|w1|w1].
      + intros c3 H3. apply M. intros C. clean. destruct v; [discriminate|auto].
      + apply M. discriminate.
      + apply M. discriminate.
  Qed.
  Lemma func_def_spec allow : Spec (S n) (parse_func_def R allow) 1 (fun toks r d => FuncDef_ toks r d /\ (allow = false -> let '(FuncDef name _ _) := d in name <> n_anonymous)).
  Proof.
    intros c toks L. unfold parse_func_def. w1.
    assert (forall name toks1, length toks1 <= length toks0 -> (name = n_anonymous -> toks1 = toks0 /\ ~ Next (Is Name) toks0 \/ exists t, Skip toks (t :: toks1) /\ Is Name t /\ NameOf t name) ->
       (name <> n_anonymous -> exists t, Skip toks (t :: toks1) /\ Is Name t /\ NameOf t name) -> W c (
       do sig <- parse_signature R;
       skip_whitespace;;
       expect_poll_kind Arrow;;
       do body <- parse_expr R;
       if is_anonymous name && negb allow then sfail AnonymousFunctionNotAllowed else pret (FuncDef name sig body)) toks1
       (fun r c' a => length r + 1 <= length toks /\ (c' = true -> c = true /\ FuncDef_ toks r a /\ (allow = false -> let '(FuncDef name _ _) := a in name <> n_anonymous)))) as M.
    { intros name toks1 Le1 A1 A2. wuse signature_spec. intros r c1 s Le2 _ H2. w1. w1. wuse expr_spec. intros r' c2 body Le3 _ H3.
      destruct (is_anonymous name && negb allow) eqn:E; w1. fin. split.
      - destruct (is_anonymous name) eqn:An.
        + apply anonymous_spec in An. destruct (A1 An) as [[-> N]|(t' & T1 & T2 & T3)].
          * rewrite An. eapply fd_anonymous; eauto.
          * eapply fd_named; eauto.
        + assert (name <> n_anonymous) as Na by (rewrite <- anonymous_spec; congruence). destruct (A2 Na) as (t' & T1 & T2 & T3). eapply fd_named; eauto.
      - intros ->. rewrite andb_true_r in E. rewrite <- anonymous_spec. congruence. }
    w1.
    - apply W_name; auto. apply M; [cbn; lia| |]; eauto 6 using name_of_name.
    - w1. apply M; auto. congruence.
  Qed.
  Lemma func_call_spec t : LexTok t -> Is FuncName t -> Spec (S n) (parse_func_call src R t) 0 (fun l r e => Expr (t :: l) r e).
  Proof.
    intros X K c toks L. unfold parse_func_call. destruct (lex_func_name _ X K) as [name Hn]. wuse (parse_name_spec (S n) t name Hn).
    intros r c1 f Le1 _ H1. wuse args_spec. intros r2 c2 args Le2 _ H2. wuse content_spec. intros r3 c3 e Le3 _ H3. w1. fin. eapply x_call; eauto.
  Qed.
  (** ** Declarations *)
  Lemma decls_spec : Spec (S n) (parse_some_named_args R) 0 Decls.
  Proof.
    intros c toks L. unfold parse_some_named_args. wuse args_spec. intros r c1 args Le1 _ H1. destruct args as [|a args]; [w1|].
    eapply W_check_end; [apply named_args_spec|]. intros c2 vars H2. fin. eapply decls; eauto. intros ->. discriminate.
  Qed.
  Lemma literal_spec e : expr_is_literal e = true <-> Literal e.
  Proof. destruct e; cbn; intuition discriminate. Qed.
  Lemma let_spec t (is_export : bool) : Spec (S n) (parse_let_in R t is_export) 1
    (fun toks r d => let '(LetIn i vars e) := d in Let toks r vars e /\ i = is_kind (Kw KImplicit) t /\ (is_export = false -> ~ Literal e)).
  Proof.
    intros c toks L. unfold parse_let_in. wuse decls_spec. intros r c1 vars Le1 _ H1. wuse content_spec. intros r2 c2 e Le2 _ H2.
    apply W_if_err. intros c3 H3. w1. fin. split; [econstructor; eauto|]. split; auto. intros ->. rewrite <- literal_spec.
    match goal with H : _ && _ = false |- _ => rewrite andb_true_r in H; rewrite H end. discriminate.
  Qed.
  Lemma export_spec : Spec (S n) (parse_export R) 1 Export_.
  Proof.
    intros c toks L. unfold parse_export. w1. w1.
    - wuse (func_def_spec false). intros r c1 [name s b] Le1 _ H1. w1. fin. eapply e_fn; eauto.
    - w1.
      + wuse (let_spec t true). intros r c1 [i vars e] Le1 _ H1. w1. fin. ex.
        assert (is_kind (Kw KImplicit) t = false) as -> by (apply Bool.not_true_iff_false; rewrite is_kind_spec; unfold Is in *; congruence).
        eapply e_let; eauto.
      + wuse decls_spec. intros r c1 vars Le1 _ H1. w1. w1. w1. fin. eapply e_names; eauto.
        intros (t' & l' & -> & [K'|K']); [apply N|apply N0]; exists t', l'; auto.
  Qed.
  (** ** Tags *)
  Lemma attr_spec : Spec (S n) (parse_tag_attribute R) 1 Attr.
  Proof.
    intros c toks L. unfold parse_tag_attribute. w1. apply W_spread. intros k r c1 Le1 H1.
    assert (forall k, k <> NoSpread -> (c1 = true -> c = true /\ Spread false true toks0 r k) -> 
      W c1 (do e <- parse_expr R; pret (TSpread e)) r (fun r0 c' a => length r0 + 1 <= length toks /\ (c' = true -> c = true /\ Attr toks r0 a))) as M.
    { intros k' Nk Hk. wuse expr_spec. intros r' c2 e Le2 _ H2. w1. fin. eapply at_spread; eauto.
      match goal with H : Spread _ _ _ _ k' |- _ => inversion H; subst; try congruence end. }
    destruct k; [|apply (M PosSpread); auto; discriminate|apply (M NamedSpread); auto; discriminate].
    w1. w1. apply W_name; auto. w1.
    assert (forall (q : bool) toks3, length toks3 <= length toks1 -> Optional QuestionMark toks1 toks3 q -> W c1 (
      skip_whitespace;;
      do equals <- poll_if_kind Equals;
      if is_some equals then do v <- parse_expr R; pret (TAttr (tk_text t) q (Some v))
      else if q then sfail (TokenExpected Equals)
      else pret (TAttr (tk_text t) false None)) toks3
      (fun r0 c' a => length r0 + 1 <= length toks /\ (c' = true -> c = true /\ Attr toks r0 a))) as M2.
    { intros q toks3 Lq Hq. w1. w1.
      - wuse expr_spec. intros r' c2 e Le2 _ H2. w1. fin. eapply at_value; eauto using name_of_name.
      - destruct q; w1. fin. eapply at_bare; eauto using name_of_name. }
    w1; cbn [is_some].
    - apply (M2 true); [cbn; lia|constructor; auto].
    - apply (M2 false); [auto|constructor; auto].
  Qed.
  Lemma starts_tag_spec t : starts_tag t = true <-> TagStart t.
  Proof. unfold starts_tag, TagStart. rewrite !orb_true_iff, !is_kind_spec. tauto. Qed.
  Lemma tag_spec t c toks : length toks < S n -> Next TagStart toks ->
    W c (parse_tag R t) toks (fun r c' e => length r <= length toks /\ (c' = true -> c = true /\ Tag toks r e)).
  Proof.
    intros L (t0 & l0 & E & TS). unfold parse_tag. w1. injection E as <- <-.
    assert (forall c1 name id toks1, length toks1 <= length l -> (c1 = true -> c = true /\ TagName (t1 :: l) toks1 name id) -> W c1 (
       do r <- parse_separated_until t (parse_tag_attribute R) Whitespace RAngle;
       let '(attrs, rangle) := r in
       check_attrs attrs [];;
       if str_eqb (tk_text rangle) (lit "/>") || is_self_closing id then pret (ETag name attrs [])
       else
         do c <- parse_nodes_until (r_node R) (is_close_tag id);
         match c with
         | (children, Some _) => pret (ETag name attrs children)
         | (_, None) => sfail TagUnmatchedOpen
         end) toks1 (fun r c' e => length r <= length (t1 :: l) /\ (c' = true -> c = true /\ Tag (t1 :: l) r e))) as M.
    { intros c1 name id toks1 Le1 H1. wuse (juxtaposed_spec t _ _ RAngle _ attr_spec). intros r c2 [attrs cl] Le2 _ H2.
      eapply W_check; [apply check_attrs_ok|]. intros c3 [] H3. cbn [fst snd] in *.
      destruct (str_eqb (tk_text cl) (lit "/>") || is_self_closing id) eqn:Em.
      - rewrite orb_true_iff, str_eqb_eq in Em. w1. fin. eapply tag_empty; eauto.
      - rewrite orb_false_iff, str_eqb_neq in Em. destruct Em as [Em1 Em2].
        wuse (nodes_until_spec (is_close_tag id) (CloseFor id) (close_spec id)). intros r2 c4 [ns o] Le3 _ H4. cbn [fst snd] in *.
        destruct o as [d|]; w1. fin. ex. eapply tag_full; eauto. }
    unfold TagStart, Is in TS. destruct (tk_kind t1) eqn:K; try (destruct TS as [TS|[TS|TS]]; discriminate).
    - w1. apply W_lower; auto. w1. apply M; auto. intros C. split; auto. apply tn_name; auto. apply name_of_name; auto.
    - destruct (lex_var_name _ X K) as [name Hn]. w1. wuse (parse_name_spec (S n) t1 name Hn). intros r c1 m Le1 _ H1. w1.
      apply M; [lia|]. intros C. clean. split; auto. apply tn_var; auto.
    - w1. w1. match goal with |- context [eq_ignore_case ?a ?b] => destruct (eq_ignore_case a b) eqn:D end; w1. apply ignore_case in D. apply M; [cbn; lia|].
      intros C. split; auto. apply tn_doctype; auto.
  Qed.
  (** ** Patterns *)
  Lemma name_pattern_spec N t name : NameOf t name -> Spec N (parse_name_pattern t) 0 (fun toks r x => Named t toks r (NSimple x)).
  Proof.
    intros Hn c toks L. unfold parse_name_pattern. wuse (parse_name_spec N t name Hn). intros r c1 m Le1 _ H1. destruct m as [m| |]; w1.
    fin. auto.
  Qed.
  Lemma typed_spec p : Spec (S n) (parse_optional_typed_pattern p) 0 (fun toks r q => Typed p toks r q).
  Proof.
    intros c toks L. unfold parse_optional_typed_pattern. w1. w1.
    - w1. w1.
      + destruct (lex_var_name _ X0 K0) as [name Hn]. w1. wuse (name_pattern_spec (Datatypes.S n) _ _ Hn). intros r c1 m Le1 _ H1. w1. w1. fin.
        assert (forall q, match p with PIgnore => q | _ => PAnd q p end = if match p with PIgnore => true | _ => false end then q else PAnd q p) as -> by (destruct p; auto).
        eapply ty_var; eauto.
      + w1. wuse (parse_type_spec (Datatypes.S n)). intros r c1 m Le1 _ H1. w1. w1. fin.
        assert (forall q, match p with PIgnore => q | _ => PAnd q p end = if match p with PIgnore => true | _ => false end then q else PAnd q p) as -> by (destruct p; auto).
        eapply ty_type; eauto.
    - w1. fin. apply ty_none; auto.
  Qed.
  Lemma positional_pat_spec : Spec n (parse_positional_match_pattern R) 1 Positional.
  Proof.
    intros c toks L. unfold parse_positional_match_pattern. w1. w1.
    - w1. fin. eapply pos_rest; eauto.
    - apply W_spread. intros k r c1 Le1 H1. wuse HP. intros r2 c2 p Le2 _ H2. w1. fin. eapply pos_one; eauto.
  Qed.
  Lemma no_underscore t : starts_with (lit "_") (tk_text t) = false <-> forall m, tk_text t <> lit "_" ++ m.
  Proof.
    rewrite <- Bool.not_true_iff_false, starts_with_spec. split.
    - intros H m E. apply H. eauto.
    - intros H [m E]. apply (H m E).
  Qed.
  Lemma named_pat_spec lone : Spec n (parse_named_match_pattern R lone) 1 (NamedPattern lone).
  Proof.
    intros c toks L. unfold parse_named_match_pattern. w1. w1.
    - w1. fin. eapply np_rest; eauto.
    - apply W_spread. intros k r c1 Le1 H1. 
      assert (forall k, k <> NoSpread -> (c1 = true -> c = true /\ Spread false true toks0 r k) -> 
        W c1 (do p <- r_pattern R; pret (None, p)) r (fun r0 c' a => length r0 + 1 <= length toks /\ (c' = true -> c = true /\ NamedPattern lone toks r0 a))) as M.
      { intros k' Nk Hk. wuse HP. intros r' c2 e Le2 _ H2. w1. fin. eapply np_spread; eauto.
        match goal with H : Spread _ _ _ _ k' |- _ => inversion H; subst; try congruence end. }
      destruct k; [|apply (M PosSpread); auto; discriminate|apply (M NamedSpread); auto; discriminate].
      w1. apply W_if_err. intros c2 H2. w1. 
      assert (forall c3 (eq : bool) toks3, length toks3 <= length l -> (c3 = true -> c2 = true /\ if eq then exists e, Skip l (e :: toks3) /\ Is Equals e
          else lone = true /\ Skip l toks3 /\ ~ Next (Is Equals) toks3) ->
        W c3 (do name <- tok_name_id t; do p <- (if eq then r_pattern R else pret PLiteralNone); pret (Some name, p)) toks3
          (fun r0 c' a => length r0 + 1 <= length toks /\ (c' = true -> c = true /\ NamedPattern lone toks r0 a))) as M2.
      { intros c3 eq toks3 Le3 H3. apply W_name; auto. destruct eq.
        - wuse HP. intros r' c4 e Le4 _ H4. w1. fin. ex. eapply np_named; eauto using name_of_name. apply no_underscore; auto.
        - w1. w1. fin. ex. eapply np_lone; eauto using name_of_name. apply no_underscore; auto. }
      destruct lone.
      + w1; cbn [is_some].
        * apply (M2 _ true); [cbn [length] in *; lia|]. intros C; split; eauto.
        * apply (M2 _ false); [cbn [length] in *; lia|]. intros C; split; auto.
      + w1; cbn [is_some].
        * apply (M2 _ true); [cbn [length] in *; lia|]. intros C; split; eauto.
        * apply (M2 _ false); [cbn [length] in *; lia|]. discriminate.
  Qed.
  Lemma list_pattern_spec t : LexTok t -> Is LSqb t -> Spec n (parse_seq_pattern R t Comma RSqb) 0
    (fun toks r p => exists items, Separated RSqb Positional toks r items /\ ListPattern items p).
  Proof.
    intros X K c toks L. unfold parse_seq_pattern. wuse (separated_spec t _ _ RSqb _ positional_pat_spec). intros r c1 [items cl] Le1 _ H1. cbn [fst].
    eapply W_check; [apply (spread_index_spec items 0 None)|]. intros c2 idx H2. cbv zeta. apply is_kind_spec in K. rewrite K. w1. w1. fin.
    exists items. split; auto. match goal with H : IndexOf _ _ _ |- _ => destruct H as [[-> [ps ->]]|(pre & p & post & -> & ->)] end.
    - fold (plain ps). rewrite plain_fst. apply lp_exact.
    - cbn [Nat.add]. rewrite map_app. cbn [List.map fst]. rewrite !plain_fst. apply lp_spread.
  Qed.
  Lemma seq_pattern_spec t : LexTok t -> Is LBrace t -> Spec n (parse_seq_pattern R t Whitespace RBrace) 0
    (fun toks r p => exists items cl, Juxtaposed RBrace Positional toks r items cl /\ SeqPattern items p /\ Forall (fun pb => ~ NotHtml (fst pb)) items).
  Proof.
    intros X K c toks L. unfold parse_seq_pattern. wuse (juxtaposed_spec t _ _ RBrace _ positional_pat_spec). intros r c1 [items cl] Le1 _ H1. cbn [fst].
    eapply W_check; [apply (spread_index_spec items 0 None)|]. intros c2 idx H2. cbv zeta.
    assert (is_kind LSqb t = false) as -> by (apply Bool.not_true_iff_false; rewrite is_kind_spec; unfold Is in *; congruence).
    eapply W_check; [apply check_html_spec|]. intros c3 [] H3. w1. fin.
    exists items, cl. split; auto. split; [|apply (proj1 (Forall_map fst (fun p => ~ NotHtml p) items)); auto].
    match goal with H : IndexOf _ _ _ |- _ => destruct H as [[-> [ps ->]]|(pre & p & post & -> & ->)] end.
    - rewrite plain_fst. destruct ps as [|p ps]; [apply sp_none|]. apply sp_exact. discriminate.
    - cbn [Nat.add]. rewrite map_app. cbn [List.map fst]. rewrite !plain_fst. apply sp_spread.
  Qed.
  Lemma dict_pattern_spec t : Spec n (parse_dict_pattern R t) 0
    (fun toks r p => exists items, Separated RPar (NamedPattern false) toks r items /\ DictPattern items p).
  Proof.
    intros c toks L. unfold parse_dict_pattern. wuse (separated_spec t _ _ RPar _ (named_pat_spec false)). intros r c1 [items cl] Le1 _ H1. cbn [fst].
    eapply W_check_end; [apply make_dict_spec|]. intros c2 p H2. fin. eauto.
  Qed.
  Lemma template_pattern_spec t q d : Is (Quote q d) t -> Spec (S n) (parse_template_pattern decode regex_ok t q) 0
    (fun toks r p => exists ps, Parts decode q [] 0 toks r ps /\
      (Forall LiteralPart ps /\ p = PEquals (ETemplate ps) \/
       ~ Forall LiteralPart ps /\ Forall SimplePart ps /\ p = PRegex (regex_text regex_escape ps) (regex_vars ps))).
  Proof.
    intros K c toks L. unfold parse_template_pattern. wuse (parse_template_spec decode t q (S n)). intros r c1 ps Le1 _ H1.
    pose proof (literal_parts ps) as Lp. destruct (forallb part_is_literal ps).
    - w1. fin. exists ps. split; auto. left. split; auto. apply Lp; auto.
    - destruct (template_regex_form ps (lit "^(?s:") []) as (ps' & vars' & F). destruct (template_regex_spec ps (lit "^(?s:") []) as (a & ds & E & Se & _).
      destruct (F (PState [] [])) as [s' F']. rewrite E in F'.
      assert (a = (lit "^(?s:" ++ flat_map (regex_part regex_escape) ps', vars')) as -> by congruence.
      apply W_bind. intros Lx d'. rewrite E. exists [], ds. cbn [ps_tokens ps_diags]. repeat split. cbv zeta. cbn [fst snd].
      pose proof (regex_ok_all ps') as Hr. unfold regex_text in Hr. rewrite <- app_assoc, Hr. apply W_ret.
      split; [lia|]. intros C. apply andb_true_iff in C as [C1 C2]. clean. split; auto. exists ps. split; auto. right. match goal with H : (_, _) = (_, _) |- _ => rename H into Se2 end.
      split; [intros X; apply Lp in X; discriminate|]. split; auto. unfold regex_text.
      assert (flat_map (regex_part regex_escape) ps' = flat_map (regex_part regex_escape) ps) as -> by (injection Se2; auto). f_equal. injection Se2; auto.
  Qed.
  Lemma tag_pattern_spec t : Spec (S n) (parse_tag_pattern R t) 0 (fun toks r p => exists b c0 name id items attrs close content,
    TagPatternName toks b name id /\ Juxtaposed RAngle (NamedPattern true) b c0 items close /\ AttrsPattern items attrs /\
    TagPatternContent id close c0 r content /\ p = PTag name attrs content).
  Proof.
    intros c toks L. unfold parse_tag_pattern. w1.
    match goal with |- W _ (pbind _ ?f) _ ?Q => assert (forall c1 name id toks1, length toks1 <= length l -> (c1 = true -> c = true /\ TagPatternName (t0 :: l) toks1 name id) ->
      W c1 (f (name, id)) toks1 Q) as M end.
    { intros c1 name id toks1 Le1 H1. wuse (juxtaposed_spec t _ _ RAngle _ (named_pat_spec true)). intros r c2 [items cl] Le2 _ H2.
      cbn [fst snd] in *. eapply W_check; [apply make_attrs_spec|]. intros c3 attrs H3. w1.
      destruct (str_eqb (tk_text cl) (lit "/>") || is_self_closing id) eqn:Em.
      - w1. rewrite orb_true_iff, str_eqb_eq in Em. apply W_if_err. intros c4 H4. w1. fin. do 8 eexists.
        do 3 (split; [eauto|]). split; [|eauto]. apply tpc_empty; auto.
      - rewrite orb_false_iff, str_eqb_neq in Em. destruct Em as [Em1 Em2]. w1. w1.
        + w1. apply W_if_err. intros c4 H4. w1. fin. do 8 eexists.
          do 3 (split; [eauto|]). split; [|eauto]. eapply tpc_closed; eauto.
          match goal with H : _ && _ = false |- _ => apply is_kind_spec in K; rewrite K in H; apply negb_false_iff in H; apply close_spec in H; auto end.
        + w1. wuse HP. intros r2 c4 p Le4 _ H4. w1. w1. w1. w1. apply W_if_err. intros c5 H5. w1. fin. do 8 eexists.
          do 3 (split; [eauto|]). split; [|eauto]. eapply tpc_content; eauto.
          match goal with H : _ && _ = false |- _ => apply is_kind_spec in K; rewrite K in H; apply negb_false_iff in H; apply close_spec in H; auto end. }
    destruct (tk_kind t0) eqn:K; try (apply W_bind_fail).
    - w1. apply W_lower; auto. w1. apply M; auto. intros C; split; auto. apply tpn_name; auto. apply name_of_name; auto.
    - destruct (lex_var_name _ X K) as [name Hn]. w1. wuse (name_pattern_spec (S n) _ _ Hn). intros r c1 m Le1 _ H1. w1. apply M; [lia|].
      intros C; clean; split; auto. apply tpn_var; auto.
    - w1. apply M; auto. intros C; split; auto. apply tpn_any; auto.
  Qed.
  Lemma primary_spec : Spec (S n) (parse_primary_match_pattern decode regex_ok R) 1 Primary.
  Proof.
    intros c toks L. unfold parse_primary_match_pattern. w1. w1. destruct (tk_kind t) eqn:K; try apply W_fail.
    - destruct (lex_var_name _ X K) as [name Hn]. wuse (name_pattern_spec (Datatypes.S n) _ _ Hn). intros r c1 m Le1 _ H1.
      wuse (typed_spec (PVarName m)). intros r2 c2 p Le2 _ H2. fin. eapply p_var; eauto.
    - wuse (HE t X). intros r c1 e Le1 _ H1. w1. fin. eapply p_literal; eauto.
    - wuse (HE t X). intros r c1 e Le1 _ H1. w1. fin. eapply p_literal; eauto.
    - wuse (HE t X). intros r c1 e Le1 _ H1. w1. fin. eapply p_literal; eauto.
    - wuse (dict_pattern_spec t). intros r c1 e Le1 _ H1. fin. ex. eapply p_dict; eauto.
    - wuse (list_pattern_spec t X K). intros r c1 e Le1 _ H1. fin. ex. eapply p_list; eauto.
    - wuse (seq_pattern_spec t X K). intros r c1 e Le1 _ H1. fin. ex. eapply p_seq; eauto.
    - wuse (tag_pattern_spec t). intros r c1 e Le1 _ H1. fin. ex. eapply p_tag; eauto.
    - w1. fin. eapply p_none; eauto.
    - wuse expr_spec. intros r c1 e Le1 _ H1. w1. fin. eapply p_equals; eauto.
    - wuse (template_pattern_spec t k d K). intros r c1 e Le1 _ H1. fin. destruct H0 as (ps & P & [[F ->]|(F & Q & ->)]); [eapply p_template; eauto|eapply p_regex; eauto].
    - wuse (typed_spec PIgnore). intros r2 c2 p Le2 _ H2. fin. eapply p_ignore; eauto.
  Qed.
  Lemma and_loop_spec fuel : forall p, Spec (Nat.min (S n) fuel) (and_loop decode regex_ok R fuel p) 0 (AndMore p).
  Proof.
    induction fuel as [|fuel IH]; intros p c toks L; [lia|]. cbn [and_loop]. w1. w1.
    - wuse primary_spec. intros r c1 q Le1 _ H1. wuse IH. intros r2 c2 p' Le2 _ H2. fin. eapply and_more; eauto.
    - w1. fin. apply and_end; auto.
  Qed.
  Lemma and_spec : Spec (S n) (parse_and_match_pattern decode regex_ok R) 1 AndPattern.
  Proof.
    intros c toks L. unfold parse_and_match_pattern. wuse primary_spec. intros r c1 p Le1 _ H1. apply (W_fuel c1 (fun fuel => and_loop decode regex_ok R fuel p)).
    wuse and_loop_spec. intros r2 c2 p' Le2 _ H2. fin. econstructor; eauto.
  Qed.
  Lemma or_loop_spec fuel : forall p, Spec (Nat.min (S n) fuel) (or_loop decode regex_ok R fuel p) 0 (OrMore p).
  Proof.
    induction fuel as [|fuel IH]; intros p c toks L; [lia|]. cbn [or_loop]. w1. w1.
    - wuse and_spec. intros r c1 q Le1 _ H1. rewrite or_names. wuse IH. intros r2 c2 p' Le2 _ H2. fin. eapply or_more; eauto.
    - w1. fin. apply or_end; auto.
  Qed.
  Lemma pattern_spec : Spec (S n) (parse_match_pattern decode regex_ok R) 1 Pattern.
  Proof.
    intros c toks L. unfold parse_match_pattern. wuse and_spec. intros r c1 p Le1 _ H1. apply (W_fuel c1 (fun fuel => or_loop decode regex_ok R fuel p)).
    wuse or_loop_spec. intros r2 c2 p' Le2 _ H2. fin. econstructor; eauto.
  Qed.
  Lemma branch_spec : Spec n (parse_match_branch R) 1 Branch.
  Proof.
    intros c toks L. unfold parse_match_branch. wuse HP. intros r c1 p Le1 _ H1. w1. w1. wuse expr_spec. intros r2 c2 e Le2 _ H2. w1. fin.
    econstructor; eauto.
  Qed.
  Lemma match_spec t : Is (Kw KMatch) t -> Spec (S n) (parse_match R) 0 (fun l r e => Expr (t :: l) r e).
  Proof.
    intros K c toks L. unfold parse_match. wuse expr_spec. intros r c1 v Le1 _ H1. w1. w1.
    wuse (separated_spec t0 _ _ RBrace _ branch_spec). intros r2 c2 [bs cl] Le2 _ H2. w1. fin. eapply x_match; eauto.
  Qed.
  (** ** Expressions and nodes *)
  Lemma expr_tok_spec t : LexTok t -> Spec (S n) (parse_expr_tok src decode R t) 0 (fun l r e => Expr (t :: l) r e).
  Proof.
    intros X c toks L. unfold parse_expr_tok. destruct (tk_kind t) as [| | | | | | |[]| | | | | | | | | | | | | | | | | | | | | | | | | | | | | |] eqn:K; try apply W_fail.
    - w1. fin. apply x_bare; auto.
    - wuse (func_def_spec true). intros r c1 d Le1 _ H1. w1. fin. apply x_fn; auto.
    - wuse (let_spec t false). intros r c1 [i vars e] Le1 _ H1. w1. fin. ex. eapply (x_let _ _ _ _ _ _ _ true); eauto.
      apply is_kind_spec in K. rewrite K. auto.
    - wuse (let_spec t false). intros r c1 [i vars e] Le1 _ H1. w1. fin. ex. eapply (x_let _ _ _ _ _ _ _ false); eauto.
      assert (is_kind (Kw KImplicit) t = false) as -> by (apply Bool.not_true_iff_false; rewrite is_kind_spec; unfold Is in *; congruence). auto.
    - apply match_spec; auto.
    - apply func_call_spec; auto.
    - destruct (lex_var_name _ X K) as [name Hn]. wuse (parse_name_spec (S n) t name Hn). intros r c1 m Le1 _ H1. w1. fin. apply x_name; auto.
    - apply W_number. intros i Hi. w1. fin. apply x_int; auto.
    - w1. fin. apply x_bool; auto.
    - w1. fin. eapply x_verbatim; eauto.
    - apply list_spec; auto.
    - apply group_spec; auto.
    - apply W_has_next.
      + intros t' l' -> E. apply starts_tag_spec in E. eapply W_conseq; [apply tag_spec; auto; exists t', l'; auto|].
        cbn beta. intros r c1 e _ _ [Le1 H1]. fin. eapply x_tag; eauto. exists t', l'; auto.
      + intros _. w1.
    - w1. fin. apply x_unit; auto.
    - wuse (parse_template_spec decode t k (S n)). intros r c1 ps Le1 _ H1. w1. fin. eapply x_template; eauto.
  Qed.
  Lemma text_node_spec t s : TextOf t s -> forall c toks, (Is LAngle t -> ~ Next TagStart toks) -> length toks < S n ->
    W c (parse_text t) toks (fun r c' x => length r + 0 <= length toks /\ (c' = true -> c = true /\ Node (t :: toks) r x)).
  Proof.
    intros T c toks N L. wuse (parse_text_spec (S n) t s T). intros r c1 x Le1 _ H1. fin. ex. eapply n_text; eauto.
  Qed.
  Lemma node_spec t : LexTok t -> Spec (S n) (parse_node src decode R t) 0 (fun l r x => Node (t :: l) r x).
  Proof.
    intros X c toks L. unfold parse_node.
    assert (In (tk_kind t) [FuncName; Kw KImplicit; Kw KLet; Kw KMatch; VarName; LBrace; LSqb] ->
      W c (do e <- parse_expr_tok src decode R t; pret (AExpr e)) toks (fun r c' x => length r + 0 <= length toks /\ (c' = true -> c = true /\ Node (t :: toks) r x))) as M.
    { intros I. wuse (expr_tok_spec t X). intros r c1 e Le1 _ H1. w1. fin. apply n_expr; auto. }
    assert (forall s, TextOf t s -> tk_kind t <> LAngle -> W c (parse_text t) toks (fun r c' x => length r + 0 <= length toks /\ (c' = true -> c = true /\ Node (t :: toks) r x))) as T.
    { intros s Ts Nl. eapply text_node_spec; eauto. }
    assert (In (tk_kind t) text_kinds -> TextOf t (tk_text t)) as Tp by apply to_plain.
    destruct (tk_kind t) as [| | | | | | |[]| | | | | | | | | | | | | | | | | | | | | | | | | | | | |k d|] eqn:K; try apply W_fail;
      try (apply M; cbn; tauto); try (apply (T (tk_text t)); [apply Tp; cbn; tauto|discriminate]).
    - exfalso. unfold LexTok in X. rewrite K in X. inversion X; subst. cbn in *. tauto.
    - w1. fin. apply n_white; auto.
    - w1. fin. apply n_break; auto.
    - apply W_unescape; auto. intros x c' H. w1. fin. apply n_escape; auto.
    - apply W_entity. intros x c' H. w1. fin. apply n_entity; auto.
    - wuse export_spec. intros r c1 e Le1 _ H1. w1. fin. apply n_export; auto.
    - wuse (func_def_spec false). intros r c1 [name s b] Le1 _ H1. w1. fin. apply n_fn; auto.
    - apply (T (tk_text t)); [|discriminate]. apply Tp. destruct b; cbn; tauto.
    - w1. fin. eapply n_fence; eauto.
    - apply W_has_next.
      + intros t' l' -> E. apply starts_tag_spec in E. eapply W_use; [apply tag_spec; auto; exists t', l'; auto|].
        cbn beta. intros r c1 e _ _ [Le1 H1]. w1. fin. eapply n_tag; eauto. exists t', l'; auto.
      + intros N. eapply text_node_spec; eauto; [apply Tp; cbn; tauto|]. intros _. rewrite not_next in N by (intros; apply starts_tag_spec). auto.
    - eapply T; [apply to_bar; auto|discriminate].
    - eapply T; [apply to_ellipsis; auto|discriminate].
    - destruct k, d; (eapply T; [|discriminate]); [apply to_single_left|apply to_single_right|apply to_double_left|apply to_double_right]; auto.
  Qed.
End Sound.

Section All.
  Variable src : str.
  Variable decode : str -> str.
  Variable regex_ok : str -> bool.
  Hypothesis regex_ok_all : forall ps, regex_ok (regex_text regex_escape ps) = true.
  Lemma parsers_spec n :
    (forall t, LexTok t -> Spec n (r_expr_tok (parsers_n src decode regex_ok n) t) 0 (fun l r e => Expr src decode regex_escape (t :: l) r e)) /\
    Spec n (r_pattern (parsers_n src decode regex_ok n)) 1 (Pattern src decode regex_escape) /\
    (forall t, LexTok t -> Spec n (r_node (parsers_n src decode regex_ok n) t) 0 (fun l r x => Node src decode regex_escape (t :: l) r x)).
  Proof.
    induction n as [|n (E & P & N)].
    - repeat split; intros; intros c toks L; lia.
    - cbn [parsers_n parser_step r_expr_tok r_pattern r_node]. repeat split.
      + intros t X. eapply expr_tok_spec; eauto.
      + eapply pattern_spec; eauto.
      + intros t X. eapply node_spec; eauto.
  Qed.
  (** The loop over nodes goes on until a closing token or the end. *)
  Lemma nodes_loop_end pn closer fuel : forall s,
    match nodes_loop pn closer fuel s with
    | POk (_, None) s' => ps_tokens s' = []
    | POk (_, Some t) _ => closer t = true
    | PErr _ => False
    | _ => True
    end.
  Proof.
    induction fuel as [|fuel IH]; intros [[|t l] d]; cbn; auto. unfold pbind, poll. cbn. destruct (closer t) eqn:E; cbn; auto.
    unfold p_ok. destruct (pn t (PState l d)) as [x s1|s1| |]; auto; specialize (IH s1);
      destruct (nodes_loop pn closer fuel s1) as [[ns [o|]] s2|s2| |]; auto.
  Qed.
  (** The parser reads all tokens, without panic. *)
  Lemma parse_root_spec c toks : W c (parse_root src decode regex_ok) toks (fun r c' ns => c' = true -> c = true /\ Document src decode regex_escape toks ns).
  Proof.
    unfold parse_root. w1. destruct (parsers_spec (S (length toks))) as (E' & P' & N).
    eapply W_use; [eapply (nodes_until_spec src decode) with (n := S (length toks)) (closer := fun _ => false) (P := fun _ => False); eauto; try lia; intuition discriminate|].
    cbn beta. intros r c1 [ns o] _ _ [Le1 H1]. w1. cbn [fst snd] in *. intros C. clean. split; auto.
    destruct H0 as (mid & rest & ns' & A & B & T & E). destruct o as [t|]; [tauto|]. destruct E as [-> ->]. exists mid, ns'. auto.
  Qed.
  Lemma parse_root_total toks d : Forall LexTok toks -> exists ns ds, parse_root src decode regex_ok (PState toks d) = POk ns (PState [] (d ++ ds)) /\
    (clean_b ds = true -> Document src decode regex_escape toks ns).
  Proof.
    intros L. pose proof (parse_root_spec true toks L d) as H. 
    assert (match parse_root src decode regex_ok (PState toks d) with POk _ s => ps_tokens s = [] | PErr _ => False | _ => True end) as E.
    { unfold parse_root, with_fuel, parse_nodes_until, pbind. destruct (skip_whitespace (PState toks d)) as [[] s|s| |] eqn:K; auto.
      - pose proof (nodes_loop_end (r_node (parsers_n src decode regex_ok (S (length toks)))) (fun _ => false) (S (length (ps_tokens s))) s) as X.
        cbn [ps_tokens] in *. unfold with_fuel. destruct (nodes_loop _ _ _ s) as [[ns [o|]] s1|s1| |]; auto. discriminate.
      - unfold skip_whitespace, poll_if, peek, pbind in K. destruct toks; cbn in K; [discriminate|]. destruct (tok_is_whitespace t); discriminate. }
    destruct (parse_root src decode regex_ok (PState toks d)) as [ns [r d']|s| |]; try tauto.
    cbn in *. destruct H as (u & ds & _ & -> & H). subst r. exists ns, ds. split; auto. intros C. apply H; auto.
  Qed.
End All.
