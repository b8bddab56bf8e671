(** The parser reads every phrase of the grammar, without reporting an error. *)
From Verif Require Import Base BaseFacts M_Text M_Names M_TagInfo M_Token M_Tokenizer M_TokenText M_Types M_Diag M_Queue M_Ast M_Parser.
From Verif Require Import S_Front S_Grammar P_ParserW P_ParserLeaf P_ParserTemplate P_ParserCheck P_ParserParams P_ParserPattern P_ParserSound P_NativeText.

Lemma R_step {A B} N (m : PM A) k (G : tokens -> tokens -> A -> Prop) (f : A -> PM B) toks mid a b rest : Spec N m k G -> length toks < N -> Forall LexTok toks ->
  Runs m toks a mid -> (Forall LexTok mid -> length mid + k <= length toks -> Runs (f a) mid b rest) -> Runs (pbind m f) toks b rest.
Proof. intros Sp L X H K. destruct (R_spec _ _ _ _ _ _ _ Sp L X H) as [Y [u E]]. eapply R_bind; eauto. apply K; auto. eapply lex_suffix; eauto. Qed.
Lemma R_step_ok {A B} N (m : PM A) k (G : tokens -> tokens -> A -> Prop) (f : option A -> PM B) toks mid a b rest : Spec N m k G -> length toks < N -> Forall LexTok toks ->
  Runs m toks a mid -> (Forall LexTok mid -> length mid + k <= length toks -> Runs (f (Some a)) mid b rest) -> Runs (pbind (p_ok m) f) toks b rest.
Proof.
  intros Sp L X H K. destruct (R_spec _ _ _ _ _ _ _ Sp L X H) as [Y [u E]]. eapply R_bind; [apply R_ok; eauto|]. apply K; auto. eapply lex_suffix; eauto.
Qed.
Lemma R_poll {B} (f : option token -> PM B) toks b rest :
  Runs (f match toks with [] => None | t :: _ => Some t end) (List.tl toks) b rest -> Runs (pbind poll f) toks b rest.
Proof.
  intros H. eapply R_bind; [|exact H]. exists []. split; auto. intros d. rewrite app_nil_r. destruct toks; auto.
Qed.
Lemma spread_facts p n toks r k : Spread p n toks r k -> (Forall LexTok toks -> Forall LexTok r) /\ length r <= length toks.
Proof. destruct 1; cbn; split; auto; try (inversion 1; auto). Qed.
Lemma optional_facts k toks r b : Optional k toks r b -> (Forall LexTok toks -> Forall LexTok r) /\ length r <= length toks.
Proof. destruct 1; cbn; split; auto; try (inversion 1; auto). Qed.
Lemma R_spread {B} p n (f : spread_kind -> PM B) toks r k b rest : Spread p n toks r k -> Runs (f k) r b rest -> Runs (pbind (poll_if_spread p n) f) toks b rest.
Proof.
  intros H K. unfold poll_if_spread. apply R_bind_bind. destruct H as [toks N|t l E A|t l E A].
  - apply R_poll_no; [rewrite not_next by (intros; apply spread_tok_spec); auto|]. auto.
  - apply R_poll_yes; [apply spread_tok_spec; left; auto|]. apply is_kind_spec in A. rewrite A, E. auto.
  - apply R_poll_yes; [apply spread_tok_spec; right; auto|].
    assert (is_kind Asterisk t = false) as -> by (apply Bool.not_true_iff_false; rewrite is_kind_spec; unfold Is in *; congruence). rewrite E. auto.
Qed.
Lemma R_optional {B} k (f : option token -> PM B) toks r q b rest : Optional k toks r q ->
  (forall o, is_some o = q -> Runs (f o) r b rest) -> Runs (pbind (poll_if_kind k) f) toks b rest.
Proof. intros H K. destruct H; [apply R_kind_yes|apply R_kind_no]; auto. Qed.
Lemma R_name {B} t n (f : str -> PM B) toks b rest : NameOf t n -> Runs (f n) toks b rest -> Runs (pbind (tok_name_id t) f) toks b rest.
Proof. intros H K. rewrite (name_id_ok _ _ H). auto. Qed.
Lemma R_check_end {A} (m : PM A) Rel a toks : Checks m Rel -> Rel a -> Runs m toks a toks.
Proof. intros (a' & ds & E & _ & T) H. destruct (T a H) as [C ->]. exists ds. split; auto. intros d. rewrite E. auto. Qed.
Lemma R_unbind {A B C} (m : PM A) (f : A -> PM B) (g : B -> PM C) toks b rest :
  Runs (pbind (pbind m f) g) toks b rest -> Runs (pbind m (fun a => pbind (f a) g)) toks b rest.
Proof. intros (ds & E & H). exists ds. split; auto. intros d. specialize (H d). rewrite <- H. unfold pbind. destruct (m (PState toks d)); auto. Qed.

(** What is known of the tokens left *)
Lemma type_facts a b u : Type_ a b u -> Forall LexTok a -> length b < length a /\ Forall LexTok b.
Proof.
  intros H X. destruct (R_spec _ _ _ _ _ _ _ (parse_type_spec (S (length a))) (Nat.lt_succ_diag_r _) X (parse_type_runs _ _ _ H X)) as [Y [w E]].
  split; [lia|]. eapply lex_suffix; eauto.
Qed.
Ltac sat := repeat match goal with
  | H : Forall LexTok (?t :: ?l) |- _ =>
      lazymatch goal with X : Forall LexTok l |- _ => fail | _ => pose proof (Forall_inv H); pose proof (Forall_inv_tail H) end
  | H : Skip ?a ?b, X : Forall LexTok ?a |- _ =>
      lazymatch goal with Y : Forall LexTok b |- _ => fail | _ => pose proof (skip_lex _ _ H X) end
  | H : Skip ?a ?b |- _ =>
      lazymatch goal with Y : length b <= length a |- _ => fail | _ => pose proof (skip_length _ _ H) end
  | H : Spread _ _ ?a ?b _, X : Forall LexTok ?a |- _ =>
      lazymatch goal with Y : Forall LexTok b |- _ => fail | _ => pose proof (proj1 (spread_facts _ _ _ _ _ H) X) end
  | H : Spread _ _ ?a ?b _ |- _ =>
      lazymatch goal with Y : length b <= length a |- _ => fail | _ => pose proof (proj2 (spread_facts _ _ _ _ _ H)) end
  | H : Optional _ ?a ?b _, X : Forall LexTok ?a |- _ =>
      lazymatch goal with Y : Forall LexTok b |- _ => fail | _ => pose proof (proj1 (optional_facts _ _ _ _ H) X) end
  | H : Optional _ ?a ?b _ |- _ =>
      lazymatch goal with Y : length b <= length a |- _ => fail | _ => pose proof (proj2 (optional_facts _ _ _ _ H)) end
  end.
Ltac len := sat; cbn [length] in *; lia.
Ltac r1 := lazymatch goal with
  | |- Runs (pret _) _ _ _ => apply R_ret
  | |- Runs (pbind (pret _) _) _ _ _ => apply R_bind_ret
  | |- Runs (pbind (pbind _ _) _) _ _ _ => apply R_bind_bind
  | |- Runs (pbind skip_whitespace _) _ _ _ => eapply R_skip; [eassumption|]
  | |- Runs (pbind (poll_if_kind _) _) _ _ _ => first [apply R_kind_yes; [assumption|]|apply R_kind_no; [assumption|]]; cbn [is_some]
  | |- Runs (pbind (expect_poll_kind _) _) _ _ _ => apply R_expect_kind; [assumption|]
  | |- Runs (pbind expect_poll _) _ _ _ => apply R_expect
  | |- Runs (pbind (poll_if_spread _ _) _) _ _ _ => eapply R_spread; [eassumption|]; cbv beta iota
  | |- Runs (pbind (tok_name_id _) _) _ _ _ => eapply R_name; [eassumption|]
  | |- Runs (with_fuel _) _ _ _ => apply R_fuel
  end.
Ltac ruse Sp Co :=
  lazymatch goal with
  | |- Runs (pbind (p_ok _) _) _ _ _ => eapply R_step_ok; [eapply Sp; eauto|len|sat; assumption|eapply Co; eauto; try (sat; assumption); try len|intros; sat; cbv beta iota; cbn [fst snd]]
  | |- Runs (pbind _ _) _ _ _ => eapply R_step; [eapply Sp; eauto|len|sat; assumption|eapply Co; eauto; try (sat; assumption); try len|intros; sat; cbv beta iota; cbn [fst snd]]
  end.
Ltac done := sat; auto; try eassumption; try len.

Definition Comp {A} (N : nat) (m : PM A) (G : tokens -> tokens -> A -> Prop) : Prop :=
  forall toks r a, G toks r a -> Forall LexTok toks -> length toks < N -> Runs m toks a r.

Section Lists.
  Context {T : Type}.
  Variables (open : token) (N : nat) (item : PM T) (close : token_kind) (G G' : tokens -> tokens -> T -> Prop).
  Hypothesis item_spec : Spec N item 1 G.
  Hypothesis item_comp : Comp N item G'.
  Hypothesis close_comma : close <> Comma.
  Let after := serr (TokenUnmatched (tk_kind open));; serr (TokenExpectedWasEOF close).
  Lemma separated_runs toks r xs : Separated close G' toks r xs -> forall fuel, Forall LexTok toks -> length toks < N -> length toks < fuel ->
    exists t, Runs (separated_loop open item Comma close fuel false) toks (xs, t) r.
  Proof.
    induction 1 as [toks t rest Se K|toks a b c t l rest x xs Sa Na I Sb -> K H IH|toks a b c t rest x Sa Na I Sb Nc Sc K]; intros fuel X L F;
      (destruct fuel as [|fuel]; [lia|]); cbn [separated_loop]; destruct (kind_eqb Comma Whitespace) eqn:E; try discriminate.
    - exists t. r1. r1. r1.
    - assert (Runs item a x b) as Ri by (apply item_comp; [auto|sat; auto|len]).
      destruct (R_spec N item 1 G a x b item_spec ltac:(len) ltac:(sat; auto) Ri) as [Y [u E']].
      assert (Forall LexTok b) by (eapply lex_suffix; [eauto|sat; auto]). 
      destruct (IH fuel) as [t' R']; [sat; auto|len|len|]. exists t'. r1. r1. eapply R_bind; [apply R_map_err; eauto|]. r1. r1. r1. r1. cbn [negb].
      eapply R_bind; [exact R'|]. r1.
    - assert (Runs item a x b) as Ri by (apply item_comp; [auto|sat; auto|len]).
      destruct (R_spec N item 1 G a x b item_spec ltac:(len) ltac:(sat; auto) Ri) as [Y [u E']].
      assert (Forall LexTok b) by (eapply lex_suffix; [eauto|sat; auto]). 
      exists t. r1. r1. eapply R_bind; [apply R_map_err; eauto|]. r1. r1. r1. r1. cbn [negb].
      eapply R_bind with (a := ([], t)); [|r1]. destruct fuel as [|fuel]; [sat; cbn [length] in *; lia|]. cbn [separated_loop]. r1. eapply R_bind; [apply R_ok, R_expect_kind_; auto|]. cbv beta iota. r1.
  Qed.
  Lemma separated_comp : Comp N (do r <- parse_separated_until open item Comma close; pret (fst r)) (Separated close G').
  Proof.
    intros toks r xs H X L. destruct (separated_runs _ _ _ H (S (length toks)) X L) as [t R]; auto.
    eapply R_bind; [apply (R_fuel (fun fuel => separated_loop open item Comma close fuel false)); exact R|]. r1.
  Qed.
  Lemma separated_ex toks r xs : Separated close G' toks r xs -> Forall LexTok toks -> length toks < N ->
    exists t, Runs (parse_separated_until open item Comma close) toks (xs, t) r.
  Proof.
    intros H X L. destruct (separated_runs _ _ _ H (S (length toks)) X L) as [t R]; auto. exists t.
    apply (R_fuel (fun fuel => separated_loop open item Comma close fuel false)). auto.
  Qed.
  Lemma juxtaposed_runs toks r xs t : Juxtaposed close G' toks r xs t -> forall fuel, Forall LexTok toks -> length toks < N -> length toks < fuel ->
    Runs (separated_loop open item Whitespace close fuel false) toks (xs, t) r.
  Proof.
    induction 1 as [toks t rest Se K|toks a b c rest x xs t Sa Na I Sb H IH]; intros fuel X L F;
      (destruct fuel as [|fuel]; [lia|]); cbn [separated_loop]; destruct (kind_eqb Whitespace Whitespace) eqn:E; try discriminate.
    - r1. r1. r1.
    - assert (Runs item a x b) as Ri by (apply item_comp; [auto|sat; auto|len]).
      destruct (R_spec N item 1 G a x b item_spec ltac:(len) ltac:(sat; auto) Ri) as [Y [u E']].
      assert (Forall LexTok b) by (eapply lex_suffix; [eauto|sat; auto]). 
      r1. r1. eapply R_bind; [apply R_map_err; eauto|]. r1. r1.
      eapply R_bind; [apply IH; [sat; auto|len|len]|]. r1.
  Qed.
  Lemma juxtaposed_ex toks r xs t : Juxtaposed close G' toks r xs t -> Forall LexTok toks -> length toks < N ->
    Runs (parse_separated_until open item Whitespace close) toks (xs, t) r.
  Proof. intros H X L. apply (R_fuel (fun fuel => separated_loop open item Whitespace close fuel false)). eapply juxtaposed_runs; eauto. Qed.
End Lists.

Scheme nodes_only := Minimality for Nodes Sort Prop.
Scheme or_only := Minimality for OrMore Sort Prop.
Scheme and_only := Minimality for AndMore Sort Prop.
Section Complete.
  Variable src : str.
  Variable decode : str -> str.
  Variable regex_ok : str -> bool.
  Variable R : parsers.
  Variable n : nat.
  Notation Expr := (Expr src decode regex_escape). Notation SExpr := (SExpr src decode regex_escape).
  Notation Content := (Content src decode regex_escape). Notation Argument := (Argument src decode regex_escape).
  Notation Args := (Args src decode regex_escape). Notation Item := (Item src decode regex_escape).
  Notation Decls := (Decls src decode regex_escape). Notation Let := (Let src decode regex_escape).
  Notation Annotation := (Annotation src decode regex_escape). Notation Typed := (Typed src decode regex_escape). Notation TagPatternName := (TagPatternName src decode regex_escape).
  Notation Default := (Default src decode regex_escape). Notation Param_ := (Param_ src decode regex_escape).
  Notation Params := (Params src decode regex_escape). Notation Signature_ := (Signature_ src decode regex_escape).
  Notation FuncDef_ := (FuncDef_ src decode regex_escape). Notation TagName := (TagName src decode regex_escape).
  Notation Attr := (Attr src decode regex_escape). Notation Tag := (Tag src decode regex_escape).
  Notation Branch := (Branch src decode regex_escape). Notation Pattern := (Pattern src decode regex_escape).
  Notation AndPattern := (AndPattern src decode regex_escape). Notation AndMore := (AndMore src decode regex_escape).
  Notation OrMore := (OrMore src decode regex_escape). Notation Primary := (Primary src decode regex_escape).
  Notation Positional := (Positional src decode regex_escape). Notation NamedPattern := (NamedPattern src decode regex_escape).
  Notation TagPatternContent := (TagPatternContent src decode regex_escape).
  Notation Nodes := (Nodes src decode regex_escape). Notation Node := (Node src decode regex_escape). Notation Export_ := (Export_ src decode regex_escape).
  Hypothesis regex_ok_all : forall ps, regex_ok (regex_text regex_escape ps) = true.
  Hypothesis HE : forall t, LexTok t -> Spec n (r_expr_tok R t) 0 (fun l r e => Expr (t :: l) r e).
  Hypothesis HP : Spec n (r_pattern R) 1 Pattern.
  Hypothesis HN : forall t, LexTok t -> Spec n (r_node R t) 0 (fun l r x => Node (t :: l) r x).
  Hypothesis CE : forall t, LexTok t -> Comp n (r_expr_tok R t) (fun l r e => Expr (t :: l) r e).
  Hypothesis CP : Comp n (r_pattern R) Pattern.
  Hypothesis CN : forall t, LexTok t -> Comp n (r_node R t) (fun l r x => Node (t :: l) r x).

  Lemma expr_comp : Comp (S n) (parse_expr R) SExpr.
  Proof.
    intros toks r e H X L. destruct H as [toks a rest e Sa H]. unfold parse_expr. r1. 
    assert (exists t l, a = t :: l) as (t & l & ->) by (inversion H; eauto). r1. apply CE; auto; [sat; auto|sat; auto|len].
  Qed.
  Lemma nodes_comp closer P toks rest ns : (forall t, LexTok t -> closer t = true <-> P t) -> Nodes P toks rest ns -> forall o r fuel,
    match o with Some t => rest = t :: r /\ P t | None => rest = [] /\ r = [] end -> Forall LexTok toks -> length toks <= n -> length toks < fuel ->
    Runs (nodes_loop (r_node R) closer fuel) toks (ns, o) r.
  Proof.
    intros E H. induction H as [P toks H|P t l a rest x ns NP N _ IH] using nodes_only with (src := src) (decode := decode) (escape := regex_escape);
      intros o r fuel Eo X L F; (destruct fuel as [|fuel]; [lia|]); cbn [nodes_loop]; apply R_poll.
    - destruct o as [t|].
      + destruct Eo as [-> Pt]. cbn [List.tl]. rewrite (proj2 (E t ltac:(sat; auto)) Pt). r1.
      + destruct Eo as [-> ->]. cbn [List.tl]. r1.
    - cbn [List.tl]. destruct (closer t) eqn:Ct; [apply E in Ct; [tauto|sat; auto]|].
      sat. ruse (HN t) CN. eapply R_bind; [apply (IH E o r fuel); done|]. r1.
  Qed.
  Lemma nodes_until_comp closer P toks mid rest ns ns' o r : (forall t, LexTok t -> closer t = true <-> P t) -> Skip toks mid -> Nodes P mid rest ns -> Trimmed ns ns' ->
    match o with Some t => rest = t :: r /\ P t | None => rest = [] /\ r = [] end -> Forall LexTok toks -> length toks < S n ->
    Runs (parse_nodes_until (r_node R) closer) toks (ns', o) r.
  Proof.
    intros E Sk H T Eo X L. unfold parse_nodes_until. r1. eapply R_bind; [apply R_fuel; eapply nodes_comp; eauto; done|]. cbn [fst snd].
    apply trimmed_spec in T. rewrite T. r1.
  Qed.
  Lemma ellipsis_comp toks rest ns : Nodes (fun t => Is CloseTag t \/ Is RBrace t) toks rest ns -> forall fuel, Forall LexTok toks -> length toks <= n -> length toks < fuel ->
    Runs (ellipsis_loop (r_node R) fuel) toks ns rest.
  Proof.
    intros H. remember (fun t => Is CloseTag t \/ Is RBrace t) as P eqn:EP.
    induction H as [P toks H|P t l a rest x ns NP N _ IH] using nodes_only with (src := src) (decode := decode) (escape := regex_escape);
      intros fuel X L F; (destruct fuel as [|fuel]; [lia|]); cbn [ellipsis_loop].
    - apply R_poll_no; [|r1]. intros t l ->. apply Bool.not_true_iff_false. rewrite in_ellipsis_spec. specialize (H t l eq_refl). rewrite EP in H. tauto.
    - apply R_poll_yes; [rewrite in_ellipsis_spec; rewrite EP in NP; auto|]. sat. ruse (HN t) CN. eapply R_bind; [apply IH; done|]. r1.
  Qed.
  Lemma content_comp : Comp (S n) (parse_expr_or_ellipsis R) Content.
  Proof.
    intros toks r e H X L. unfold parse_expr_or_ellipsis. destruct H as [toks t a rest ns Sk K H|toks a rest e Sk N H].
    - r1. r1. unfold parse_ellipsis_group. eapply R_bind; [apply R_fuel, ellipsis_comp; eauto; done|]. rewrite group_same. r1.
    - r1. r1. apply expr_comp; done.
  Qed.
  Lemma group_comp t l a ns ns' c rest : Skip l a -> Nodes (Is RBrace) a (c :: rest) ns -> Trimmed ns ns' -> Is RBrace c -> Forall LexTok l -> length l < S n ->
    Runs (parse_group R t) l (group ns') rest.
  Proof.
    intros Sk H T K X L. unfold parse_group. eapply R_bind; [eapply (nodes_until_comp (is_kind RBrace) (Is RBrace)) with (o := Some c); eauto; intros; apply is_kind_spec|].
    cbn [fst snd is_some]. r1. rewrite group_same. r1.
  Qed.
  Lemma arg_comp : Comp (S n) (parse_arg R) Argument.
  Proof.
    intros toks r e H X L. unfold parse_arg. destruct H as [toks a b c rest k v Sa Sp Sb N H|toks a b t c rest k Sa Sp Sb K Sc N|toks a b t name c e d rest v Sa Sp Sb K Nm Sc Ke H].
    - r1. r1. r1. r1. ruse expr_spec expr_comp. r1.
    - r1. r1. r1. r1. r1. r1. r1.
    - r1. r1. r1. r1. r1. r1. r1. ruse expr_spec expr_comp. r1. r1.
  Qed.
  Lemma args_comp : Comp (S n) (parse_args R) Args.
  Proof.
    intros toks r args H X L. unfold parse_args. destruct H as [toks rest Sk N|toks t a rest args Sk K H Ok].
    - r1. r1. r1.
    - r1. r1. sat. edestruct (separated_ex t (S n) (parse_arg R) RPar) as [cl Rs]; [eapply arg_spec; eauto|apply arg_comp|eauto|eauto|len|].
      eapply R_bind; [exact Rs|]. cbn [fst]. eapply R_check with (a := tt); [apply check_args_ok|auto|]. r1.
  Qed.
  Lemma item_comp : Comp (S n) (parse_list_item R) Item.
  Proof.
    intros toks r x H X L. unfold parse_list_item. assert (is_anonymous n_anonymous = true) as An by (apply anonymous_spec; auto).
    destruct H as [toks rest v H|toks rest v H]; ruse arg_spec arg_comp; unfold arg_positional; rewrite An; cbn [andb]; r1; r1.
  Qed.
  Lemma param_comp : Comp (S n) (parse_param R) Param_.
  Proof.
    intros toks r x H X L. unfold parse_param.
    destruct H as [toks a b t name c d e f g h rest k q i ty_ v u Sa Sp Sb K Nm U Sc Oq Se An Sg D Dk].
    r1. r1. r1. r1. r1. cbv zeta. r1. eapply R_optional; [eauto|]. intros o <-. r1.
    assert (starts_with (lit "$_") (tk_text t) = u) as -> by (rewrite <- underscore_spec in U; destruct u, (starts_with _ _); intuition congruence).
    assert (length g <= length f /\ Forall LexTok g) as [Lg Xg].
    { inversion An; subst; [done|]. sat. destruct (type_facts _ _ _ H2 ltac:(assumption)). split; [len|auto]. }
    assert (Runs (skip_whitespace;;
      do equals <- poll_if_kind Equals;
      do default <- (if is_some equals then do e <- parse_expr R; pret (Some e) else pret None);
      (if is_some default && match k with NoSpread => false | _ => true end then serr ParamSpreadDefault else pret tt);;
      pret (Param name (is_some o) i ty_ default, k, u)) g (Param name (is_some o) i ty_ v, k, u) rest) as M.
    { r1. assert (forall w, (v <> None -> k = NoSpread) -> Runs ((if is_some v && match k with NoSpread => false | _ => true end then serr ParamSpreadDefault else pret tt);;
        pret (Param name (is_some o) i ty_ v, k, u)) w (Param name (is_some o) i ty_ v, k, u) w) as M2.
      { intros w Hw. destruct v; cbn [is_some andb]; [rewrite Hw by discriminate|]; r1; r1. }
      inversion D; subst.
      - r1. r1. apply M2; auto.
      - r1. r1. ruse expr_spec expr_comp. r1. apply M2; auto. }
    inversion An; subst.
    - r1. r1. exact M.
    - r1. r1. r1. r1. eapply R_optional; [eauto|]. intros o' <-. r1. 
      eapply R_step_ok; [apply (parse_type_spec (S n))|len|done|apply parse_type_runs; done|]. intros _ _. r1. exact M.
  Qed.
  Lemma signature_comp : Comp (S n) (parse_signature R) Signature_.
  Proof.
    intros toks r x H X L. unfold parse_signature.
    assert (forall a b l pos ps named ns, Params a b l -> ParamsOk l pos ps named ns -> Forall LexTok a -> length a < S n -> 
      Runs (do lpar <- poll_if_kind LPar;
    match lpar with
    | None => pret ([], sigst0)
    | Some lpar =>
      do r <- parse_separated_until lpar (parse_param R) Comma RPar;
      do s <- check_params (fst r) sigst0;
      pret (List.map (fun p : raw_param => fst (fst p)) (fst r), s)
    end) a (List.map (fun p => fst (fst p)) l, st l) b) as M.
    { intros a b l pos ps named ns P Ok Xa La. inversion P; subst.
      - r1. r1.
      - r1. sat. edestruct (separated_ex t (S n) (parse_param R) RPar) as [cl Rs]; [eapply param_spec; eauto|apply param_comp|eauto|eauto|len|].
        eapply R_bind; [exact Rs|]. cbn [fst]. eapply R_check with (a := st l); [apply check_params_ok|exists pos, ps, named, ns; auto|]. r1. }
    destruct H as [toks a b t rest l pos ps named ns Sa P Ok Sb K|toks a b c rest l pos ps named ns p u Sa P Ok Sb N Pc D];
      r1; apply R_unbind; (eapply R_step; [eapply params_group_spec; eauto|len|done|eapply M; eauto; done|]); intros Xb Lb; cbv beta iota;
      destruct (st_params _ _ _ _ _ Ok) as (E1 & E2 & E3 & E4); rewrite E1, E2, E3, E4.
    - r1. r1. r1.
    - r1. r1. ruse param_spec param_comp. destruct p as [pn pq pi pt pd]. cbn in D. subst pd. cbn [is_some]. r1. r1.
  Qed.
  Lemma func_def_comp allow toks r d : FuncDef_ toks r d -> (allow = false -> let '(FuncDef name _ _) := d in name <> n_anonymous) ->
    Forall LexTok toks -> length toks < S n -> Runs (parse_func_def R allow) toks d r.
  Proof.
    intros H A X L. unfold parse_func_def.
    assert (forall name toks1 b c d rest s body, Signature_ toks1 b s -> Skip b (c :: d) -> Is Arrow c -> SExpr d rest body -> Forall LexTok toks1 -> length toks1 < S n ->
       (allow = false -> name <> n_anonymous) -> Runs (
       do sig <- parse_signature R;
       skip_whitespace;;
       expect_poll_kind Arrow;;
       do body <- parse_expr R;
       if is_anonymous name && negb allow then sfail AnonymousFunctionNotAllowed else pret (FuncDef name sig body)) toks1 (FuncDef name s body) rest) as M.
    { intros name toks1 b c d' rest s body Sg Sb K Sx Xt Lt Al. ruse signature_spec signature_comp. r1. r1. ruse expr_spec expr_comp.
      assert (is_anonymous name && negb allow = false) as ->; [|r1]. destruct allow; [apply andb_false_r|]. rewrite andb_true_r.
      apply Bool.not_true_iff_false. rewrite anonymous_spec. auto. }
    destruct H as [toks t name a b c d rest s body Sa K Nm Sg Sb Kc Sx|toks a b c d rest s body Sa N Sg Sb Kc Sx].
    - r1. r1. r1. eapply M; eauto; done.
    - r1. r1. r1. eapply M; eauto; done.
  Qed.
  Lemma decls_comp : Comp (S n) (parse_some_named_args R) Decls.
  Proof.
    intros toks r vars H X L. unfold parse_some_named_args. destruct H as [toks rest args vars A Ne F E].
    ruse args_spec args_comp. rewrite E. destruct vars as [|v vars]; [congruence|]. cbn [List.map].
    eapply R_check_end; [apply named_args_spec|]. split; auto.
  Qed.
  Lemma let_comp t (i is_export : bool) toks r vars e : Is (Kw (if i then KImplicit else KLet)) t -> Let toks r vars e -> (is_export = false -> ~ Literal e) ->
    Forall LexTok toks -> length toks < S n -> Runs (parse_let_in R t is_export) toks (LetIn i vars e) r.
  Proof.
    intros K H A X L. unfold parse_let_in. destruct H as [toks a rest vars e D C]. ruse decls_spec decls_comp. ruse content_spec content_comp.
    assert (expr_is_literal e && negb is_export = false) as ->.
    { destruct is_export; [apply andb_false_r|]. rewrite andb_true_r. apply Bool.not_true_iff_false. rewrite literal_spec. auto. }
    r1. assert (is_kind (Kw KImplicit) t = i) as ->; [|r1]. destruct i; [apply is_kind_spec; auto|]. apply Bool.not_true_iff_false.
    rewrite is_kind_spec. unfold Is in *. congruence.
  Qed.
  Lemma export_comp : Comp (S n) (parse_export R) Export_.
  Proof.
    intros toks r x H X L. unfold parse_export. destruct H as [toks t a rest name s b Sa K D Na|toks t a rest vars e Sa K Lt|toks a b t rest vars Sa N D Sb K].
    - r1. r1. ruse (func_def_spec src decode) func_def_comp. r1.
    - r1. apply R_kind_no; [intros (t' & l' & [= <- <-] & K'); unfold Is in *; congruence|]. cbn [is_some]. r1.
      ruse let_spec (let_comp t false true). all: try discriminate. r1.
    - r1. apply R_kind_no; [intros (t' & l' & -> & K'); apply N; exists t', l'; auto|]. cbn [is_some].
      apply R_kind_no; [intros (t' & l' & -> & K'); apply N; exists t', l'; auto|]. ruse decls_spec decls_comp. r1. r1. r1.
  Qed.
  Lemma list_comp t l rest items : Is LSqb t -> Separated RSqb Item l rest items -> Forall LexTok l -> length l < S n -> Runs (parse_list R t) l (EList items) rest.
  Proof.
    intros K H X L. unfold parse_list. edestruct (separated_ex t (S n) (parse_list_item R) RSqb) as [cl Rs]; [eapply item_spec; eauto|apply item_comp|eauto|eauto|len|].
    eapply R_bind; [exact Rs|]. cbn [fst]. r1.
  Qed.
  Lemma func_call_comp t l a b rest f args content : LexTok t -> Is FuncName t -> Named t l a f -> Args a b args -> Content b rest content -> Forall LexTok l -> length l < S n ->
    Runs (parse_func_call src R t) l (EFuncCall src f args content) rest.
  Proof.
    intros Xt K N A C X L. unfold parse_func_call. destruct N as (name & Nm & P).
    eapply R_step; [apply (parse_name_spec (S n) t name); eauto|len|auto|apply parse_name_runs; exists name; eauto|]. intros Xa La.
    ruse args_spec args_comp. ruse content_spec content_comp. r1.
  Qed.
  Lemma attr_comp : Comp (S n) (parse_tag_attribute R) Attr.
  Proof.
    intros toks r x H X L. unfold parse_tag_attribute.
    destruct H as [toks a b rest e Sa Sp H|toks a b t c name d e f g rest q v Sa Sp Sb K Nm Sc O Se Kf H|toks a b t c name d e rest Sa Sp Sb K Nm Sc O Se N].
    - r1. r1. ruse expr_spec expr_comp. r1.
    - r1. r1. r1. r1. r1. r1. eapply R_optional; [eauto|]. intros o <-. r1. r1. ruse expr_spec expr_comp. r1.
    - r1. r1. r1. r1. r1. r1. eapply R_optional; [eauto|]. intros o Eo. r1. r1. rewrite Eo. r1.
  Qed.
  Lemma juxtaposed_close {A} k (G : tokens -> tokens -> A -> Prop) toks r l c : Juxtaposed k G toks r l c -> Is k c.
  Proof. induction 1; auto. Qed.
  Lemma R_lower {B} t name (f : str -> PM B) toks b rest : Is Name t -> NameOf t name -> Runs (f (lowered name)) toks b rest -> Runs (pbind (tok_lowercase_name_id t) f) toks b rest.
  Proof.
    intros K H M. assert (name = tk_text t) as -> by (inversion H; subst; auto; unfold Is in *; congruence).
    unfold tok_lowercase_name_id. apply is_kind_spec in K. rewrite K. apply R_bind_ret. auto.
  Qed.
  Lemma tag_comp t : Comp (S n) (parse_tag R t) Tag.
  Proof.
    assert (forall a name id attrs b c rest e, Juxtaposed RAngle Attr a b attrs c -> NoDup (attr_names attrs) -> 
       (tk_text c = lit "/>" \/ is_self_closing id = true) /\ rest = b /\ e = ETag name attrs [] \/
       (tk_text c <> lit "/>" /\ is_self_closing id = false /\ exists b' ns d ns', Skip b b' /\ Nodes (CloseFor id) b' (d :: rest) ns /\ Trimmed ns ns' /\ CloseFor id d /\ e = ETag name attrs ns') ->
       Forall LexTok a -> length a < S n -> Runs (
       do r <- parse_separated_until t (parse_tag_attribute R) Whitespace RAngle;
       let '(attrs, rangle) := r in
       check_attrs attrs [];;
       if str_eqb (tk_text rangle) (lit "/>") || is_self_closing id then pret (ETag name attrs [])
       else
         do c <- parse_nodes_until (r_node R) (is_close_tag id);
         match c with
         | (children, Some _) => pret (ETag name attrs children)
         | (_, None) => sfail TagUnmatchedOpen
         end) a e rest) as M.
    { intros a name id attrs b c rest e J Nd D X L. eapply R_step.
      - eapply (juxtaposed_spec t _ _ RAngle). eapply attr_spec; eauto.
      - len.
      - auto.
      - eapply juxtaposed_ex; eauto; [eapply attr_spec; eauto|apply attr_comp].
      - intros Xb Lb. cbv beta iota. eapply R_check with (a := tt); [apply check_attrs_ok|cbn; rewrite ?app_nil_r; auto|].
        destruct D as [(D & -> & ->)|(D1 & D2 & b' & ns & d & ns' & Sk & N & T & C & ->)].
        + rewrite <- str_eqb_eq, <- orb_true_iff in D. rewrite D. r1.
        + rewrite (proj2 (str_eqb_neq _ _) D1), D2. cbn [orb].
          eapply R_bind; [eapply (nodes_until_comp (is_close_tag id) (CloseFor id)) with (o := Some d); eauto; [apply close_spec|len]|]. cbv beta iota. r1. }
    intros toks r x H X L. unfold parse_tag.
    assert (exists a name id, TagName toks a name id /\ exists b attrs c, Juxtaposed RAngle Attr a b attrs c /\ NoDup (attr_names attrs) /\ 
       ((tk_text c = lit "/>" \/ is_self_closing id = true) /\ r = b /\ x = ETag name attrs [] \/
       (tk_text c <> lit "/>" /\ is_self_closing id = false /\ exists b' ns d ns', Skip b b' /\ Nodes (CloseFor id) b' (d :: r) ns /\ Trimmed ns ns' /\ CloseFor id d /\ x = ETag name attrs ns')))
      as (a & name & id & Tn & b & attrs & c & J & Nd & D).
    { destruct H; do 3 eexists; (split; [eauto|]); do 3 eexists; eauto 20. }
    clear H. destruct Tn as [t1 l name K Nm|t1 l rest name K Nm|t1 d l K Dt]; r1; unfold Is in K; rewrite K.
    - r1. eapply R_lower; [eassumption|eassumption|]. r1. eapply M; eauto; done.
    - r1. destruct Nm as (nm & Nm & P). sat. eapply R_step; [apply (parse_name_spec (S n) t1 nm); eauto|len|auto|apply parse_name_runs; exists nm; eauto|]. intros Xa La.
      r1. eapply M; eauto; done.
    - r1. r1. apply ignore_case in Dt. rewrite Dt. r1. eapply M; eauto; done.
  Qed.
  Lemma name_pattern_comp t toks r x : Named t toks r (NSimple x) -> Runs (parse_name_pattern t) toks x r.
  Proof. intros H. unfold parse_name_pattern. eapply R_bind; [apply parse_name_runs; eauto|]. cbv beta iota. r1. Qed.
  Lemma typed_comp p toks r q : Typed p toks r q -> Forall LexTok toks -> Runs (parse_optional_typed_pattern p) toks q r.
  Proof.
    intros H X. unfold parse_optional_typed_pattern.
    assert (forall p q, match p with PIgnore => q | _ => PAnd q p end = if match p with PIgnore => true | _ => false end then q else PAnd q p) as Ep by (intros []; auto).
    destruct H as [p toks rest Sk N|p toks t a v b rest name Sk K Sa Kv Nm|p toks t a b rest ty_ Sk K Sa N T].
    - r1. r1. r1.
    - r1. r1. r1. r1. eapply R_bind; [eapply R_bind; [apply name_pattern_comp; eauto|r1]|]. rewrite Ep. r1.
    - r1. r1. r1. r1. eapply R_bind; [eapply R_bind; [apply parse_type_runs; done|r1]|]. rewrite Ep. r1.
  Qed.
  Lemma positional_pat_comp : Comp n (parse_positional_match_pattern R) Positional.
  Proof.
    intros toks r x H X L. unfold parse_positional_match_pattern. destruct H as [toks t rest Sk K|toks a b rest k p Sk N Sp P].
    - r1. r1. r1.
    - r1. r1. r1. ruse HP CP. r1.
  Qed.
  Lemma named_pat_comp lone : Comp n (parse_named_match_pattern R lone) (NamedPattern lone).
  Proof.
    intros toks r x H X L. unfold parse_named_match_pattern.
    destruct H as [lone toks t rest Sk K|lone toks a b rest p Sk N Sp P|lone toks a t name b e c rest p Sk Sp K Nm U Sb Ke P|toks a t name b rest Sk Sp K Nm U Sb N].
    - r1. r1. r1.
    - r1. r1. r1. ruse HP CP. r1.
    - assert (~ Next (Is Ellipsis) a) as Na by (inversion Sp; subst; intros (t' & l' & [= <- <-] & K'); unfold Is in *; congruence).
      r1. r1. r1. r1. apply no_underscore in U. rewrite U. r1. r1. destruct lone.
      + r1. r1. ruse HP CP. r1.
      + eapply R_bind; [apply R_ok, R_expect_kind_; auto|]. cbn [is_some]. r1. ruse HP CP. r1.
    - assert (~ Next (Is Ellipsis) a) as Na by (inversion Sp; subst; intros (t' & l' & [= <- <-] & K'); unfold Is in *; congruence).
      r1. r1. r1. r1. apply no_underscore in U. rewrite U. r1. r1. r1. r1. r1. r1.
  Qed.
  Lemma list_pattern_comp t toks r items p : Is LSqb t -> Separated RSqb Positional toks r items -> ListPattern items p -> Forall LexTok toks -> length toks < n ->
    Runs (parse_seq_pattern R t Comma RSqb) toks p r.
  Proof.
    intros K H P X L. unfold parse_seq_pattern. edestruct (separated_ex t n (parse_positional_match_pattern R) RSqb) as [cl Rs]; [eapply positional_pat_spec; eauto|apply positional_pat_comp|eauto|eauto|len|].
    eapply R_bind; [exact Rs|]. cbn [fst]. cbv zeta. apply is_kind_spec in K. rewrite K.
    destruct P as [ps|pre p post].
    - eapply R_check with (a := None); [apply (spread_index_spec _ 0 None)|left; split; auto; exists ps; auto|]. r1. fold (plain ps). rewrite plain_fst. r1.
    - eapply R_check with (a := Some (length pre)); [apply (spread_index_spec _ 0 None)|right; exists pre, p, post; auto|]. r1.
      fold (plain pre) (plain post). rewrite map_app. cbn [List.map fst]. rewrite !plain_fst. r1.
  Qed.
  Lemma seq_pattern_comp t toks r items c p : Is LBrace t -> Juxtaposed RBrace Positional toks r items c -> SeqPattern items p ->
    Forall (fun pb => ~ NotHtml (fst pb)) items -> Forall LexTok toks -> length toks < n ->
    Runs (parse_seq_pattern R t Whitespace RBrace) toks p r.
  Proof.
    intros K H P F X L. unfold parse_seq_pattern. eapply R_bind; [eapply juxtaposed_ex; eauto; [eapply positional_pat_spec; eauto|apply positional_pat_comp]|].
    cbn [fst]. cbv zeta. assert (is_kind LSqb t = false) as -> by (apply Bool.not_true_iff_false; rewrite is_kind_spec; unfold Is in *; congruence).
    apply (proj2 (Forall_map fst (fun p => ~ NotHtml p) items)) in F.
    destruct P as [|ps Ne|pre p post].
    - eapply R_check with (a := None); [apply (spread_index_spec _ 0 None)|left; split; auto; exists []; auto|]. eapply R_check with (a := tt); [apply check_html_spec|auto|]. r1.
    - eapply R_check with (a := None); [apply (spread_index_spec _ 0 None)|left; split; auto; exists ps; auto|]. eapply R_check with (a := tt); [apply check_html_spec|auto|].
      fold (plain ps). rewrite plain_fst. destruct ps; [congruence|]. r1.
    - eapply R_check with (a := Some (length pre)); [apply (spread_index_spec _ 0 None)|right; exists pre, p, post; auto|]. eapply R_check with (a := tt); [apply check_html_spec|auto|].
      fold (plain pre) (plain post). rewrite map_app. cbn [List.map fst]. rewrite !plain_fst. r1.
  Qed.
  Lemma dict_pattern_comp t toks r items p : Separated RPar (NamedPattern false) toks r items -> DictPattern items p -> Forall LexTok toks -> length toks < n ->
    Runs (parse_dict_pattern R t) toks p r.
  Proof.
    intros H P X L. unfold parse_dict_pattern. edestruct (separated_ex t n (parse_named_match_pattern R false) RPar) as [cl Rs]; [eapply named_pat_spec; eauto|apply named_pat_comp|eauto|eauto|len|].
    eapply R_bind; [exact Rs|]. cbn [fst]. eapply R_check_end; [apply make_dict_spec|auto].
  Qed.
  Lemma template_pattern_comp t q toks r ps p : Parts decode q [] 0 toks r ps ->
      (Forall LiteralPart ps /\ p = PEquals (ETemplate ps) \/
       ~ Forall LiteralPart ps /\ Forall SimplePart ps /\ p = PRegex (regex_text regex_escape ps) (regex_vars ps)) -> Forall LexTok toks ->
    Runs (parse_template_pattern decode regex_ok t q) toks p r.
  Proof.
    intros P D X. unfold parse_template_pattern. eapply R_bind; [apply parse_template_runs; eauto|]. destruct D as [[F ->]|(F & S' & ->)].
    - apply literal_parts in F. rewrite F. r1.
    - rewrite <- literal_parts in F. apply Bool.not_true_iff_false in F. rewrite F.
      eapply R_check; [apply template_regex_spec|split; eauto|]. cbv zeta. cbn [fst snd].
      pose proof (regex_ok_all ps) as Hr. unfold regex_text in Hr. rewrite <- app_assoc, Hr. cbn [app]. r1.
  Qed.
  Lemma tag_pattern_comp t a b c rest name id items attrs close content : TagPatternName a b name id ->
      Juxtaposed RAngle (NamedPattern true) b c items close -> AttrsPattern items attrs -> 
      TagPatternContent id close c rest content -> Forall LexTok a -> length a < n -> Runs (parse_tag_pattern R t) a (PTag name attrs content) rest.
  Proof.
    intros Tn J A C X L. unfold parse_tag_pattern.
    assert (Forall LexTok b -> length b < n -> Runs (
    do r <- parse_separated_until t (parse_named_match_pattern R true) Whitespace RAngle;
    let '(raw_attrs, rangle) := r in
    do attrs <- make_dict_pattern raw_attrs true;
    skip_whitespace;;
    do c <- (if str_eqb (tk_text rangle) (lit "/>") || is_self_closing id then pret (PLiteralNone, rangle)
             else
               do close <- poll_if_kind CloseTag;
               match close with
               | Some close => pret (PLiteralNone, close)
               | None =>
                 do content <- r_pattern R;
                 skip_whitespace;;
                 do close <- expect_poll_kind CloseTag;
                 pret (content, close)
               end);
    let '(content, close) := c in
    (if is_kind CloseTag close && negb (is_close_tag id close) then serr PatternIncorrectCloseTag else pret tt);;
    pret (PTag name attrs content)) b (PTag name attrs content) rest) as M.
    { intros Xb Lb. assert (Is RAngle close) as Kc by (eapply juxtaposed_close; eauto). eapply R_step.
      - eapply (juxtaposed_spec t _ _ RAngle). eapply named_pat_spec; eauto.
      - len.
      - auto.
      - eapply juxtaposed_ex; eauto; [eapply named_pat_spec; eauto|apply named_pat_comp].
      - intros Xc Lc. cbv beta iota. eapply R_check; [apply make_attrs_spec|eauto|].
        assert (forall t', LexTok t' -> CloseFor id t' -> is_kind CloseTag t' && negb (is_close_tag id t') = false) as Ec.
        { intros t' Xt Ct. apply close_spec in Ct; auto. rewrite Ct. apply andb_false_r. }
        destruct C as [id close toks rest D Sk|id close toks t1 rest D1 D2 Sk K Cl|id close toks a1 b1 t1 rest p D1 D2 Sk N P Sb K Cl].
        + r1. rewrite <- str_eqb_eq, <- orb_true_iff in D. rewrite D. r1.
          assert (is_kind CloseTag close = false) as -> by (apply Bool.not_true_iff_false; rewrite is_kind_spec; unfold Is in *; congruence). cbn [andb]. repeat r1.
        + r1. rewrite (proj2 (str_eqb_neq _ _) D1), D2. cbn [orb]. r1. r1. r1. rewrite Ec by done. repeat r1.
        + r1. rewrite (proj2 (str_eqb_neq _ _) D1), D2. cbn [orb]. r1. r1. r1. ruse HP CP. r1. r1. r1. r1. r1. rewrite Ec by done. repeat r1. }
    destruct Tn as [t1 l K|t1 l nm K Nm|t1 l rest' nm K Nm]; r1; unfold Is in K; rewrite K.
    - r1. apply M; done.
    - r1. eapply R_lower; [eassumption|eassumption|]. r1. apply M; done.
    - r1. pose proof Nm as (nm' & Nm' & P). sat. eapply R_step; [eapply name_pattern_spec with (N := S n); eauto|len|auto|apply name_pattern_comp; eauto|].
      intros Xa La. r1. apply M; done.
  Qed.
  Lemma primary_comp : Comp (S n) (parse_primary_match_pattern decode regex_ok R) Primary.
  Proof.
    intros toks r x H X L. unfold parse_primary_match_pattern. destruct H.
    all: match goal with H : Skip _ _ |- _ => idtac end; r1; r1; sat.
    - unfold Is in *. rewrite H0. apply typed_comp; auto.
    - unfold Is in *. rewrite H0. pose proof H1 as (nm' & Nm' & P). eapply R_step; [eapply name_pattern_spec with (N := S n); eauto|len|auto|apply name_pattern_comp; eauto|].
      intros Xa La. apply typed_comp; auto.
    - unfold Is in *. rewrite H0. r1.
    - assert (Runs (do e <- r_expr_tok R t; pret (PEquals e)) a (PEquals e) rest) as M by (ruse (HE t) CE; r1).
      destruct H0 as [[b K]|[K|[k K]]]; unfold Is in K; rewrite K; exact M.
    - unfold Is in *. rewrite H0. ruse expr_spec expr_comp. r1.
    - pose proof H0 as K. unfold Is in K. rewrite K. eapply list_pattern_comp; eauto; done.
    - pose proof H0 as K. unfold Is in K. rewrite K. eapply seq_pattern_comp; eauto; done.
    - pose proof H0 as K. unfold Is in K. rewrite K. eapply dict_pattern_comp; eauto; done.
    - pose proof H0 as K. unfold Is in K. rewrite K. eapply template_pattern_comp; eauto; done.
    - pose proof H0 as K. unfold Is in K. rewrite K. eapply template_pattern_comp; eauto; done.
    - pose proof H0 as K. unfold Is in K. rewrite K. eapply tag_pattern_comp; eauto; done.
  Qed.
  Lemma and_loop_comp p toks r q : AndMore p toks r q -> forall fuel, Forall LexTok toks -> length toks < S n -> length toks < fuel -> Runs (and_loop decode regex_ok R fuel p) toks q r.
  Proof.
    intros H. induction H as [p toks rest Sk N|p toks t a b rest q r Sk K P _ IH] using and_only with (src := src) (decode := decode) (escape := regex_escape);
      intros fuel X L F; (destruct fuel as [|fuel]; [lia|]); cbn [and_loop].
    - r1. r1. r1.
    - r1. r1. ruse primary_spec primary_comp. apply IH; done.
  Qed.
  Lemma and_comp : Comp (S n) (parse_and_match_pattern decode regex_ok R) AndPattern.
  Proof.
    intros toks r x H X L. unfold parse_and_match_pattern. destruct H as [toks a rest p r P M]. ruse primary_spec primary_comp.
    apply (R_fuel (fun fuel => and_loop decode regex_ok R fuel p)). apply and_loop_comp; done.
  Qed.
  Lemma or_loop_comp p toks r q : OrMore p toks r q -> forall fuel, Forall LexTok toks -> length toks < S n -> length toks < fuel -> Runs (or_loop decode regex_ok R fuel p) toks q r.
  Proof.
    intros H. induction H as [p toks rest Sk N|p toks t a b rest q r Sk K P _ IH] using or_only with (src := src) (decode := decode) (escape := regex_escape);
      intros fuel X L F; (destruct fuel as [|fuel]; [lia|]); cbn [or_loop].
    - r1. r1. r1.
    - r1. r1. ruse and_spec and_comp. rewrite or_names. apply IH; done.
  Qed.
  Lemma pattern_comp : Comp (S n) (parse_match_pattern decode regex_ok R) Pattern.
  Proof.
    intros toks r x H X L. unfold parse_match_pattern. destruct H as [toks a rest p r P M]. ruse and_spec and_comp.
    apply (R_fuel (fun fuel => or_loop decode regex_ok R fuel p)). apply or_loop_comp; done.
  Qed.
  Lemma branch_comp : Comp n (parse_match_branch R) Branch.
  Proof.
    intros toks r x H X L. unfold parse_match_branch. destruct H as [toks a t b rest p e P Sk K E]. ruse HP CP. r1. r1. ruse expr_spec expr_comp. r1.
  Qed.
  Lemma match_comp l a o b rest v branches : SExpr l a v -> Skip a (o :: b) -> Is LBrace o ->
      Separated RBrace Branch b rest branches -> Forall LexTok l -> length l < S n -> Runs (parse_match R) l (EMatch v branches) rest.
  Proof.
    intros E Sk K H X L. unfold parse_match. ruse expr_spec expr_comp. r1. r1.
    edestruct (separated_ex o n (parse_match_branch R) RBrace) as [cl Rs]; [eapply branch_spec; eauto|apply branch_comp|eauto|eauto|len|].
    eapply R_bind; [exact Rs|]. cbn [fst]. r1.
  Qed.
  Lemma next_tag {B} (f : bool -> PM B) l b rest : Next TagStart l -> Runs (f true) l b rest -> Runs (pbind (has_next starts_tag) f) l b rest.
  Proof. intros (t & l' & -> & T) H. apply R_next_yes; auto. apply starts_tag_spec; auto. Qed.
  Lemma expr_tok_comp t : LexTok t -> Comp (S n) (parse_expr_tok src decode R t) (fun l r e => Expr (t :: l) r e).
  Proof.
    intros Xt l r e H X L. unfold parse_expr_tok.
    inversion H; subst; clear H; match goal with K : Is _ t |- _ => pose proof K as K'; unfold Is in K' end.
    - rewrite K'. r1.
    - rewrite K'. r1.
    - rewrite K'. r1.
    - rewrite K'. unfold p_number, parse_number. match goal with H : IntLiteral _ _ |- _ => apply parse_i64_iff in H; rewrite H end. r1. r1.
    - rewrite K'. r1.
    - rewrite K'. eapply R_bind; [apply parse_name_runs; eauto|]. r1.
    - rewrite K'. eapply func_call_comp; eauto.
    - rewrite K'. eapply R_bind; [eapply (func_def_comp true); eauto; discriminate|]. r1.
    - assert (Runs (do l <- parse_let_in R t false; pret (ELetIn l)) l (ELetIn (LetIn i vars e0)) r) as M
        by (eapply R_bind; [eapply let_comp; eauto|r1]).
      destruct i; rewrite K'; exact M.
    - rewrite K'. eapply match_comp; eauto.
    - rewrite K'. eapply group_comp; eauto.
    - rewrite K'. eapply list_comp; eauto.
    - rewrite K'. apply next_tag; auto. eapply tag_comp; eauto.
    - rewrite K'. eapply R_bind; [apply parse_template_runs; eauto|]. r1.
  Qed.
  Lemma node_comp t : LexTok t -> Comp (S n) (parse_node src decode R t) (fun l r x => Node (t :: l) r x).
  Proof.
    intros Xt l r x H X L. unfold parse_node.
    inversion H; subst; clear H; try (match goal with K : Is _ t |- _ => pose proof K as K'; unfold Is in K' end).
    - rewrite K'. ruse export_spec export_comp. r1.
    - rewrite K'. eapply R_bind; [eapply (func_def_comp false); eauto|]. r1.
    - rewrite K'. r1.
    - assert (Runs (do e <- parse_expr_tok src decode R t; pret (AExpr e)) l (AExpr e) r) as M by (eapply R_bind; [eapply expr_tok_comp; eauto|r1]).
      cbn [In] in *. repeat match goal with H : _ \/ _ |- _ => destruct H end; try tauto; match goal with H : _ = tk_kind t |- _ => rewrite <- H end; exact M.
    - rewrite K'. apply next_tag; auto. eapply R_bind; [eapply tag_comp; eauto|]. r1.
    - rewrite K'. r1.
    - rewrite K'. r1.
    - rewrite K'. erewrite R_unescape; eauto. r1. r1.
    - rewrite K'. unfold decode_entity. match goal with H : decode _ = _ |- _ => rewrite H end. r1. r1.
    - assert (Runs (parse_text t) l (AText out) r) as M by (eapply parse_text_runs; eauto).
      match goal with H : TextOf t _ |- _ => destruct H as [t Ik|t K|t K|t K|t K|t K|t K] end; try (unfold Is in K; rewrite K; exact M).
      destruct (tk_kind t) eqn:K; try exact M; unfold text_kinds in Ik; cbn [In] in Ik; try (exfalso; intuition discriminate).
      apply R_next_no; [|exact M]. intros t' l' ->. apply Bool.not_true_iff_false. rewrite starts_tag_spec. intros T.
      match goal with H : Is LAngle t -> _ |- _ => apply (H K) end. exists t', l'; auto.
  Qed.
End Complete.

Section All.
  Variable src : str.
  Variable decode : str -> str.
  Variable regex_ok : str -> bool.
  Hypothesis regex_ok_all : forall ps, regex_ok (regex_text regex_escape ps) = true.
  Lemma parsers_comp n :
    (forall t, LexTok t -> Comp n (r_expr_tok (parsers_n src decode regex_ok n) t) (fun l r e => Expr src decode regex_escape (t :: l) r e)) /\
    Comp n (r_pattern (parsers_n src decode regex_ok n)) (Pattern src decode regex_escape) /\
    (forall t, LexTok t -> Comp n (r_node (parsers_n src decode regex_ok n) t) (fun l r x => Node src decode regex_escape (t :: l) r x)).
  Proof.
    induction n as [|n (CE & CP & CN)]; [repeat split; intros; intros ? ? ? ? ? ?; lia|].
    destruct (parsers_spec src decode regex_ok regex_ok_all n) as (HE & HP & HN). cbn [parsers_n parser_step r_expr_tok r_pattern r_node].
    split; [|split].
    - intros t X. eapply expr_tok_comp; eauto.
    - eapply pattern_comp; eauto.
    - intros t X. eapply node_comp; eauto.
  Qed.
  Lemma parse_root_comp toks ns : Document src decode regex_escape toks ns -> Forall LexTok toks -> Runs (parse_root src decode regex_ok) toks ns [].
  Proof.
    intros (a & ns' & Sk & N & T) X. unfold parse_root. apply R_fuel.
    destruct (parsers_spec src decode regex_ok regex_ok_all (S (length toks))) as (HE & HP & HN).
    destruct (parsers_comp (S (length toks))) as (CE & CP & CN).
    eapply R_bind with (a := (ns, None)); [|r1].
    eapply nodes_until_comp with (P := fun _ => False) (n := S (length toks)) (rest := []); eauto. intuition discriminate.
  Qed.
End All.
