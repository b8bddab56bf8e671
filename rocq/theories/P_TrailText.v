(** Proofs for C85: the text with white space added at the end. *)
From Verif Require Import Base BaseFacts M_Token M_Tokenizer M_Diag M_Queue M_Ast M_Parser S_Text S_Front S_Parser S_Layout S_Lex S_Refill S_Trail
  P_Front P_Lex P_Cut P_LexStrip P_Layout P_Layout4 P_Refill P_ParserEnds P_Trail.

Lemma not_ext (P : N -> Prop) r g : (forall c, S_Lex.White c -> ~ P c) -> Begins g -> Not P r -> Not P (r ++ g).
Proof. intros W (c & t & -> & C) N x y E. destruct r as [|z r]; cbn in E; injection E as <- <-; [auto|]. now apply (N z r). Qed.
Lemma not_ext_solid (P : N -> Prop) r g : r <> [] -> Not P r -> Not P (r ++ g).
Proof. intros R N x y E. destruct r as [|z r]; [contradiction|]. cbn in E. injection E as <- <-. now apply (N z r). Qed.
Lemma not_text_ext q r g : Begins g -> Forall (fun c => ~ S_Lex.White c) q -> NotText q r -> NotText q (r ++ g).
Proof. intros B F N t E. destruct (prefix_split q r g [] t B F) as (r' & ->); [now rewrite app_nil_r|]. now apply (N r'). Qed.
Ltac white_not := intros ? ?W; first [now apply white_not_letter|now apply white_not_digit|now apply white_not_raw
  |apply white_small in W; unfold Letter in *; lia|tauto|intros <-; apply white_small in W; lia].
(** What is a token at the end of the text, or before something that is not white, is one with white space added at the end. *)
Lemma lexeme_extend dir text r g k : Lexeme dir text r k None -> Begins g ->
  (r = [] -> k <> Comment /\ k <> Whitespace /\ k <> Newline) -> (r <> [] -> exists c, In c r /\ ~ S_Lex.White c) -> Lexeme dir text (r ++ g) k None.
Proof.
  intros L B S N. remember (@None syntax_error) as e eqn:Ee. destruct L; try discriminate Ee.
  - destruct rest as [|z rest]; [now destruct (S eq_refl)|]. apply lx_line_comment; auto; [now apply not_ext_solid|].
    rewrite app_assoc. apply not_ext_solid; [destruct gap; discriminate|assumption].
  - assert (rest <> []) as R.
    { intros ->. rewrite app_nil_r in N. destruct gap as [|y gap]; [destruct H3 as (x & ? & ? & E); destruct x; discriminate|].
      destruct N as (c & I & W); [discriminate|]. rewrite Forall_forall in H0. now apply W, H0. }
    rewrite <- app_assoc. apply lx_line_comment_blank; auto; [now apply not_ext_solid|]. rewrite app_assoc. apply not_ext_solid; [|assumption].
    destruct gap; [exact R|discriminate].
  - now apply lx_comment.
  - now destruct (S eq_refl).
  - destruct rest as [|z rest]; [now destruct (S eq_refl) as (_ & _ & ?)|]. apply lx_blank; auto. now apply not_ext_solid.
  - destruct rest as [|z rest]; [now destruct (S eq_refl) as (_ & ? & _)|]. apply lx_space; auto. now apply not_ext_solid.
  - apply lx_name; auto. apply not_ext; [white_not|exact B|assumption].
  - apply lx_variable; auto. apply not_ext; [white_not|exact B|assumption].
  - apply lx_function; auto. apply not_ext; [white_not|exact B|assumption].
  - apply lx_number; auto. apply not_ext; [white_not|exact B|assumption].
  - apply lx_negative; auto. apply not_ext; [white_not|exact B|assumption].
  - now apply lx_entity.
  - apply lx_ampersand; auto. apply not_ext; [white_not|exact B|assumption].
  - now apply lx_escape.
  - now apply (lx_escape_number dir c n).
  - apply lx_verbatim; auto. apply not_ext; [white_not|exact B|assumption].
  - now apply lx_close.
  - apply lx_close_any.
  - eapply lx_punctuation; [eassumption|]. rewrite Forall_forall in *. intros q I. apply not_text_ext; [exact B|eapply punctuation_solid; eauto|auto].
  - apply lx_single_quote.
  - apply lx_double_quote.
  - apply lx_raw; auto.
    + assert (forall P : BinNums.N -> Prop, (forall c, S_Lex.White c -> ~ P c) -> Not P (w ++ rest) -> Not P (w ++ rest ++ g)) as A
        by (intros P W; rewrite app_assoc; now apply not_ext).
      destruct H as [H|[[E H]|[[E H]|[[E [H H']]|[E H]]]]]; [now left|right; left|right; right; left|right; right; right; left|right; right; right; right];
        (split; [exact E|]); try split; (apply A; [white_not|assumption]).
    + apply not_ext; [white_not|exact B|assumption].
Qed.
Lemma solid_tail t l : EndsSolid (t :: l) -> l <> [] -> EndsSolid l.
Proof. intros S _ before u E. apply (S (t :: before) u). now rewrite E. Qed.
Lemma lexes_has_solid ta : forall pos dir src errs, Lexes pos dir src ta errs -> EndsSolid ta -> ta <> [] -> exists c, In c src /\ ~ S_Lex.White c.
Proof.
  induction ta as [|t ta IH]; intros pos dir src errs L S N; [contradiction|].
  apply lexes_cons_inv in L as (text & rest & k & complaint & next & errs' & -> & -> & X & A & M & ->). destruct ta as [|u ta].
  - destruct (lexeme_solid _ _ _ _ _ X) as [(c & I & C)|(K & _)].
    + exists c. split; [apply in_or_app; now left|exact C].
    + destruct (S [] _ eq_refl) as (_ & N1 & N2). cbn in *. destruct k; try discriminate; contradiction.
  - destruct (IH _ _ _ _ M) as (c & I & C); [now apply solid_tail in S|discriminate|]. exists c. split; [apply in_or_app; now right|exact C].
Qed.
Lemma lexes_extend ta : forall pos dir src g, Lexes pos dir src ta [] -> EndsSolid ta -> Begins g ->
  exists pos' dir', forall tg eg, Lexes pos' dir' g tg eg -> Lexes pos dir (src ++ g) (ta ++ tg) eg.
Proof.
  induction ta as [|t ta IH]; intros pos dir src g L S B; [inversion L; subst; exists pos, dir; auto|].
  apply lexes_cons_inv in L as (text & rest & k & complaint & next & errs' & -> & -> & X & A & M & E). destruct complaint; [discriminate|]. cbn in E. subst errs'.
  assert (S' : EndsSolid ta) by (destruct ta; [intros before ? E; destruct before; discriminate|now apply solid_tail in S]).
  destruct (IH _ _ _ g M S' B) as (pos' & dir' & F). exists pos', dir'. intros tg eg G. rewrite <- app_assoc. cbn [app]. apply (lexes_more pos dir text (rest ++ g) k None next); auto.
  apply lexeme_extend; [exact X|exact B| |].
  - intros ->. destruct (lexes_unique_at _ _ _ _ _ M [] [] (lexes_end _ _)) as [-> _]. exact (S [] _ eq_refl).
  - intro R. eapply lexes_has_solid; [exact M|exact S'|]. intros ->. inversion M; subst. contradiction.
Qed.

Lemma gap_exists g : Gap g -> AnyWhite g -> exists w, GapToken g [w] /\ tok_is_whitespace w = true.
Proof.
  intros G (u & I & W).
  assert (D : forall l : list token, (exists a t b, l = a ++ t :: b /\ tk_kind t = Newline /\ Forall (fun t => tk_kind t <> Newline) b) \/ Forall (fun t => tk_kind t <> Newline) l).
  { induction l as [|t l IH]; [now right|]. destruct IH as [(a & x & b & -> & K & F)|F]; [left; now exists (t :: a), x, b|].
    assert (tk_kind t = Newline \/ tk_kind t <> Newline) as [K|K] by (destruct (tk_kind t); (now left) || (right; discriminate)); [left; now exists [], t, l|right; now constructor]. }
  destruct (D g) as [(a & t & b & -> & K & F)|F].
  - exists t. split; [now apply Gap_break|]. unfold tok_is_whitespace. now rewrite K.
  - assert (exists a t b, g = a ++ t :: b /\ tk_kind t = Whitespace /\ Forall (fun t => tk_kind t = Comment) a) as (a & t & b & -> & K & C).
    { clear D. induction g as [|t g IH]; [contradiction|]. inversion F; subst. inversion G as [|? ? Gt G']; subst.
      assert (tk_kind t = Whitespace \/ tk_kind t = Comment) as [K|K].
      { unfold Significant in Gt. destruct (tk_kind t); try (exfalso; apply Gt; repeat split; discriminate); auto. contradiction. }
      - now exists [], t, g.
      - destruct I as [<-|I]; [unfold S_Front.White in W; rewrite K in W; intuition discriminate|]. destruct IH as (a & x & b & -> & K' & C); auto.
        exists (t :: a), x, b. repeat split; auto. }
    exists t. apply Forall_app in F as [_ F]. inversion F; subst. split; [now apply Gap_space|]. unfold tok_is_whitespace. now rewrite K.
Qed.
Lemma stripped_extend ta toks : Stripped ta toks -> EndsSolid ta -> forall tg r, Gap tg -> GapToken tg r -> Stripped (ta ++ tg) (toks ++ r).
Proof.
  induction 1 as [gap r0 Hg G|gap r0 t rest out Hg G Sig St IH]; intros S tg r Gt Gr.
  - destruct gap as [|x gap] using rev_ind.
    + apply (gap_function [] r0 []) in G; [|now apply Gap_comment_only]. subst r0. now apply Str_end.
    + exfalso. apply Forall_app in Hg as [_ Hg]. inversion Hg as [|? ? Hx _]; subst. apply Hx. destruct (S gap x eq_refl) as (N1 & N2 & N3). unfold Significant. repeat split; auto.
  - rewrite <- !app_assoc. cbn [app]. apply Str_next; auto. apply IH; auto. intros before u ->. apply (S (gap ++ t :: before) u). now rewrite <- app_assoc.
Qed.
Lemma stripped_subset l out : Stripped l out -> incl out l.
Proof.
  assert (G : forall g r, GapToken g r -> incl r g).
  { intros g r []; intros x I; [contradiction| |]; destruct I as [<-|[]]; apply in_elt. }
  induction 1 as [gap r Hg Gp|gap r t rest out Hg Gp Sig St IH]; [now apply G|]. apply incl_app; [apply incl_appl; now apply G|].
  apply incl_appr. intros x [<-|I]; [now left|right; now apply IH].
Qed.

Lemma no_errors_said s : NoErrors (ps_diags s) <-> said s = 0.
Proof.
  unfold NoErrors, said. induction (ps_diags s) as [|e l IH]; [split; [reflexivity|constructor]|]. rewrite Forall_cons_iff, IH. destruct e; cbn; (split; [intros ((w & E) & H)|intro H]); try discriminate; auto; try (split; [eexists; reflexivity|exact H]).
Qed.
(** [parse] reports no errors: then the tokenizer had nothing to complain about. *)
Lemma parse_clean_tokens decode regex_ok path text nodes ds : parse decode regex_ok path text = Ret (nodes, ds) -> NoErrors ds ->
  exists toks s, tokenize text true = Ret (toks, []) /\ parse_root path decode regex_ok (PState toks []) = POk nodes s /\ ds = ps_diags s /\ said s = 0
  \/ tokenize text true = Ret (toks, []) /\ parse_root path decode regex_ok (PState toks []) = PErr s /\ said s = 0.
Proof.
  intros P N. unfold parse, obind in P. destruct (tokenize text true) as [[toks errs]| |] eqn:T; try discriminate. cbn [fst snd] in P.
  destruct (parse_root _ _ _ _) as [ns s|s| |] eqn:E; try discriminate; injection P as <- <-; exists toks, s; apply no_errors_said in N.
  all: assert (errs = []) as -> by
    (pose proof (parse_root_said path decode regex_ok (PState toks (map (fun e => SyntaxErr (fst e)) errs)) []) as K;
     destruct errs as [|x errs]; [reflexivity|exfalso];
     match type of E with _ = POk ?a _ => pose proof (parse_root_said path decode regex_ok _ _ _ (or_introl E)) as K' | _ => pose proof (parse_root_said path decode regex_ok _ [] _ (or_intror E)) as K' end;
     unfold said in K' at 1; cbn in K'; lia).
  - left. auto. - right. auto.
Qed.
Theorem trail_parse decode regex_ok path text g lines blank toks errs nodes ds : Lexes 0 QLeft text toks errs -> EndsSolid toks -> NoDots toks ->
  Filled lines blank g -> parse decode regex_ok path text = Ret (nodes, ds) -> NoErrors ds -> parse decode regex_ok path (text ++ g) = Ret (nodes, ds).
Proof.
  intros L S D F P N. destruct (parse_clean_tokens _ _ _ _ _ _ P N) as (stoks & s & [(T & R & Ed & Z)|(T & R & Z)]).
  2: { exfalso. unfold parse_root, with_fuel in R. cbn [ps_tokens] in R.
       assert (K : forall st, match parse_nodes_until (r_node (parsers_n path decode regex_ok (Datatypes.S (length stoks)))) (fun _ => false) st with PErr _ => False | _ => True end).
       { intro st. unfold parse_nodes_until, pbind. assert (exists u, skip_whitespace st = POk tt u) as (u & ->).
         { unfold skip_whitespace, poll_if, peek, pbind, pret, poll. destruct (ps_tokens st) as [|x l] eqn:El; cbn [hd_error]; [eauto|]. destruct (tok_is_whitespace x); [rewrite El|]; eauto. }
         unfold with_fuel. generalize (Datatypes.S (length (ps_tokens u))) as n. intro n.
         assert (Q : forall node n st, match nodes_loop node (fun _ => false) n st with PErr _ => False | _ => True end).
         { intros node. clear. induction n as [|n IH]; intro st; [exact I|]. cbn [nodes_loop]. unfold pbind, poll. destruct (ps_tokens st) as [|x l]; [exact I|]. unfold p_ok.
           destruct (node x _) as [a v|v| |]; try exact I; specialize (IH v); destruct (nodes_loop node _ n v); auto. }
         specialize (Q (r_node (parsers_n path decode regex_ok (Datatypes.S (length stoks)))) n u). destruct (nodes_loop _ _ n u); auto. }
       specialize (K (PState stoks [])). unfold pbind in R. destruct (parse_nodes_until _ _ _); auto; discriminate. }
  apply tokenize_stripped_iff in T as (U & all & L' & St). destruct (lexes_unique _ _ _ _ _ L L') as [<- ->].
  assert (Q : Not QuoteChar []) by (intros ? ? E; discriminate). assert (W : Not S_Lex.White []) by (intros ? ? E; discriminate).
  assert (B : Begins g) by (apply (filled_lexes lines blank g [] 0 QLeft F W (fun _ => Q) [] [] 0); constructor).
  destruct (lexes_extend toks 0 QLeft text g L S B) as (pos & dir & X).
  destruct (filled_lexes lines blank g [] pos dir F W (fun _ => Q) [] [] 0 (lexes_end _ _)) as (_ & tg & tb & eb & G & Gp & _ & AW & _ & S2 & E2).
  inversion S2; subst. destruct eb; [|discriminate]. rewrite !app_nil_r in G. specialize (X _ _ G).
  destruct (gap_exists tg Gp AW) as (w & Gw & Hw). assert (T : tokenize (text ++ g) true = Ret (stoks ++ [w], [])).
  { apply tokenize_stripped_iff. split; [exact (clean_uncut _ _ X)|]. exists (toks ++ tg). split; [exact X|]. now apply stripped_extend. }
  assert (ND : Forall (fun t => tk_kind t <> Ellipsis) stoks) by (apply Forall_forall; intros t I; apply D, (stripped_subset _ _ St), I).
  destruct (root_trail w Hw path decode regex_ok stoks [] nodes s ND R) as (t2 & R2 & E3); [rewrite Z; lia|].
  unfold parse. rewrite T. cbn [obind fst snd map]. rewrite R2. now rewrite E3.
Qed.
