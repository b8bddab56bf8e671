(** Proofs for C84. *)
From Verif Require Import Base M_Token M_Tokenizer S_Text S_Front S_Layout S_Lex S_Refill P_Lex P_Cut P_Layout P_Layout4.

Definition Begins (g : str) : Prop := exists c t, g = c :: t /\ S_Lex.White c.
Lemma not_begin (P : N -> Prop) r g g' b : (forall c, S_Lex.White c -> ~ P c) -> Begins g -> Begins g' -> Not P (r ++ g ++ b) -> Not P (r ++ g' ++ b).
Proof.
  intros W (c & t & -> & _) (c' & t' & -> & C') N x y E. destruct r as [|z r]; cbn in E; injection E as <- <-; [auto|]. now apply (N z (r ++ (c :: t) ++ b)).
Qed.
Lemma not_white r g g' b : Begins g -> Not S_Lex.White (r ++ g ++ b) -> r <> [] /\ Not S_Lex.White (r ++ g' ++ b).
Proof.
  intros (c & t & -> & C) N. destruct r as [|z r]; [exfalso; now apply (N c (t ++ b))|]. split; [discriminate|].
  intros x y E. cbn in E. injection E as <- <-. now apply (N z (r ++ (c :: t) ++ b)).
Qed.
Lemma not_begin_app (P : N -> Prop) w r g g' b : (forall c, S_Lex.White c -> ~ P c) -> Begins g -> Begins g' -> Not P (w ++ r ++ g ++ b) -> Not P (w ++ r ++ g' ++ b).
Proof. intros W B B'. rewrite !(app_assoc w r). now apply not_begin. Qed.

(** a text without white space is a prefix of [r ++ g ++ b] only if it is one of [r] *)
Lemma prefix_split q : forall r g b t, Begins g -> Forall (fun c => ~ S_Lex.White c) q -> r ++ g ++ b = q ++ t -> exists r', r = q ++ r'.
Proof.
  induction q as [|c q IH]; intros r g b t (x & y & -> & W) F E; [now exists r|]. apply Forall_cons_iff in F as [N F].
  destruct r as [|z r]; cbn in E; injection E as <- E; [contradiction|].
  destruct (IH r (x :: y) b t) as (r' & ->); [now exists x, y|assumption|exact E|]. now exists r'.
Qed.
Lemma not_text q r g g' b : Begins g -> Begins g' -> Forall (fun c => ~ S_Lex.White c) q -> NotText q (r ++ g ++ b) -> NotText q (r ++ g' ++ b).
Proof.
  intros B B' F N t E. destruct (prefix_split q r g' b t B' F E) as (r' & ->). apply (N (r' ++ g ++ b)). now rewrite <- app_assoc.
Qed.

Lemma white_dec c : S_Lex.White c \/ ~ S_Lex.White c.
Proof. unfold S_Lex.White. destruct (N.eq_dec c 32), (N.eq_dec c 9), (N.eq_dec c 10), (N.eq_dec c 12), (N.eq_dec c 13); tauto. Qed.
Lemma white_small c : S_Lex.White c -> (c <= 32)%N. Proof. unfold S_Lex.White. lia. Qed.
Lemma white_not_letter c : S_Lex.White c -> ~ LetterOrDigit c.
Proof. intros W L. apply white_small in W. unfold LetterOrDigit, Letter in *. lia. Qed.
Lemma white_not_digit c : S_Lex.White c -> ~ Digit c. Proof. intro W. apply white_small in W. unfold Digit. lia. Qed.
Lemma white_not_hex c : S_Lex.White c -> ~ HexDigitChar c. Proof. intro W. apply white_small in W. unfold HexDigitChar, Digit. lia. Qed.
Lemma white_not_raw c : S_Lex.White c -> ~ Raw c. Proof. intros W (_ & _ & N). contradiction. Qed.
Lemma punctuation_solid p no k q : In (p, no, k) punctuation -> In q no -> Forall (fun c => ~ S_Lex.White c) q.
Proof.
  intros I J. assert (forallb (fun x => forallb (fun q => forallb (fun c => negb (c <=? 32)%N) q) (snd (fst x))) punctuation = true) as A by reflexivity.
  rewrite forallb_forall in A. specialize (A _ I). cbn [fst snd] in A. rewrite forallb_forall in A. specialize (A _ J). rewrite forallb_forall in A.
  apply Forall_forall. intros c C W. specialize (A c C). apply white_small in W. apply N.leb_le in W. rewrite W in A. discriminate.
Qed.
Lemma solid_in_gap gap rest r x : gap ++ rest = r ++ x -> Forall S_Lex.White gap -> (exists c, In c r /\ ~ S_Lex.White c) -> exists r', r = gap ++ r' /\ rest = r' ++ x.
Proof.
  revert r. induction gap as [|z gap IH]; intros r E F (c & I & N); [exists r; now split|]. apply Forall_cons_iff in F as [W F].
  destruct r as [|y r]; [contradiction|]. cbn in E. injection E as <- E. destruct I as [->|I]; [contradiction|].
  destruct (IH r E F) as (r' & -> & ->); [now exists c|]. now exists r'.
Qed.

Ltac white_not := intros ? ?W; first [now apply white_not_letter|now apply white_not_digit|now apply white_not_raw
  |apply white_small in W; unfold Letter in *; lia|tauto].
(** What is a token before white space is one before other white space. *)
Lemma lexeme_swap dir text r g g' b k e : Lexeme dir text (r ++ g ++ b) k e -> Begins g -> Begins g' ->
  match r with [] => k <> Comment /\ text <> lit "\" | _ => exists c, In c r /\ ~ S_Lex.White c end ->
  Lexeme dir text (r ++ g' ++ b) k e.
Proof.
  intros L B B' S. remember (r ++ g ++ b) as rest eqn:R. assert (rest <> []) as NE by (subst; destruct B as (? & ? & -> & _); destruct r; discriminate).
  destruct L; subst; try congruence.
  - (* line comment *) destruct (not_white r g g' b B H1) as [Nr N']. apply lx_line_comment; auto.
    destruct r as [|z r]; [congruence|]. destruct gap as [|y gap]; intros x t E; cbn in E; injection E as <- <-.
    + now apply (H2 z (r ++ g ++ b)). + now apply (H2 y (gap ++ (z :: r) ++ g ++ b)).
  - (* line comment before a blank line *)
    destruct r as [|z r]; [now destruct S|]. destruct (solid_in_gap _ _ _ _ R H0 S) as (r' & Er & ->). rewrite Er, <- app_assoc. destruct gap as [|y gap].
    { destruct H3 as (? & ? & ? & E). destruct x; discriminate. }
    apply lx_line_comment_blank; auto.
    + destruct r' as [|c0 r']; [|intros x t E; cbn in E; injection E as <- <-; now apply (H1 c0 (r' ++ g ++ b))].
      destruct S as (c & I & N). rewrite Er, app_nil_r in I. rewrite Forall_forall in H0. exfalso. now apply N, H0.
    + intros x t E. cbn in E. injection E as <- <-. now apply (H2 y (gap ++ r' ++ g ++ b)).
  - now apply lx_comment.
  - (* blank *) apply lx_blank; auto. now apply (not_white r g).
  - apply lx_space; auto. now apply (not_white r g).
  - apply lx_name; auto. eapply not_begin; [white_not|exact B|exact B'|assumption].
  - apply lx_variable; auto. eapply not_begin; [white_not|exact B|exact B'|assumption].
  - apply lx_function; auto. eapply not_begin; [white_not|exact B|exact B'|assumption].
  - apply lx_number; auto. eapply not_begin; [white_not|exact B|exact B'|assumption].
  - apply lx_negative; auto. eapply not_begin; [white_not|exact B|exact B'|assumption].
  - now apply lx_entity.
  - apply lx_entity_open; auto. eapply not_begin; [white_not|exact B|exact B'|assumption].
  - apply lx_ampersand; auto. eapply not_begin; [white_not|exact B|exact B'|assumption].
  - now apply lx_escape.
  - now apply (lx_escape_number dir c (length digits)).
  - apply (lx_escape_short dir c n); auto. intros [L F]. apply H0. clear H0.
    assert (n <= length r) as Ln.
    { destruct (le_lt_dec n (length r)) as [|G]; [assumption|exfalso]. destruct B' as (x & y & -> & W). rewrite firstn_app in F. apply Forall_app in F as [_ F].
      destruct (n - length r) eqn:D; [lia|]. cbn in F. apply Forall_cons_iff in F as [F _]. now apply white_not_hex in W. }
    rewrite firstn_app in *. replace (n - length r) with 0 in * by lia. cbn [firstn] in *. split; [rewrite app_length; lia|assumption].
  - (* escape before a line feed *) destruct r as [|z r]; [exfalso; now apply (proj2 S)|]. cbn in R. injection R as <- ->. cbn. apply lx_escape_line.
  - apply lx_verbatim; auto. eapply not_begin; [intros c0 W <-; apply white_small in W; lia|exact B|exact B'|assumption].
  - apply lx_verbatim_lines; auto. eapply not_begin; [intros c0 W <-; apply white_small in W; lia|exact B|exact B'|assumption].
  - apply lx_verbatim_ticks; auto. eapply not_begin; [intros c0 W <-; apply white_small in W; lia|exact B|exact B'|assumption].
  - now apply lx_close.
  - apply lx_close_any.
  - apply lx_close_name; auto; (eapply not_begin; [|exact B|exact B'|eassumption]); [white_not|intros c0 W <-; apply white_small in W; lia].
  - apply lx_close_bad; auto; (eapply not_begin; [|exact B|exact B'|eassumption]); [white_not|intros c0 W <-; apply white_small in W; lia].
  - eapply lx_punctuation; [eassumption|]. rewrite Forall_forall in *. intros q I. eapply not_text; [exact B|exact B'|eapply punctuation_solid; eauto|auto].
  - apply lx_single_quote.
  - apply lx_double_quote.
  - apply lx_raw; auto.
    + assert (forall P : N -> Prop, (forall c, S_Lex.White c -> ~ P c) -> Not P (w ++ r ++ g ++ b) -> Not P (w ++ r ++ g' ++ b)) as A
        by (intros P W; now apply not_begin_app).
      destruct H as [H|[[E H]|[[E H]|[[E [H H']]|[E H]]]]]; [now left|right; left|right; right; left|right; right; right; left|right; right; right; right];
        (split; [exact E|]); try split; (apply A; [|assumption]); try white_not; intros c0 W <-; apply white_small in W; lia.
    + eapply not_begin; [white_not|exact B|exact B'|assumption].
Qed.

(** Every token is white space that nothing white follows, or has a character that is not white. *)
Lemma lexeme_solid dir text rest k e : Lexeme dir text rest k e ->
  (exists c, In c text /\ ~ S_Lex.White c) \/ (white_kind k = true /\ Forall S_Lex.White text /\ Not S_Lex.White rest).
Proof.
  assert (forall c, (32 < c)%N -> ~ S_Lex.White c) as A by (intros c L W; apply white_small in W; lia).
  assert (forall c t, (32 < c)%N -> exists x, In x (c :: t) /\ ~ S_Lex.White x) as F by (intros c t L; exists c; split; [now left|auto]).
  destruct 1; try (left; apply F; lia); try (left; exists 60%N; split; [now left|apply A; lia]); try (right; split; [reflexivity|split; assumption]).
  - left. destruct H as (c & t & -> & L & _). apply F. unfold Letter in L. lia.
  - left. destruct w as [|c w]; [contradiction|]. apply F. apply Forall_cons_iff in H0 as [D _]. unfold Digit in D. lia.
  - left. destruct n; [lia|]. apply F. lia.
  - left. destruct n; [lia|]. apply F. lia.
  - left. destruct n; [lia|]. apply F. lia.
  - left. destruct n; [lia|]. apply F. lia.
  - left. cbn in H. repeat (destruct H as [H|H]; [injection H as <- <- <-; apply F; lia|]). contradiction.
  - left. exists c. split; [now left|]. destruct H as [[_ [_ N]]|[[-> _]|[[-> _]|[[-> _]|[-> _]]]]]; [assumption|..]; apply A; lia.
Qed.
Lemma spelled_cons t l : Spelled (t :: l) = tk_text t ++ Spelled l. Proof. reflexivity. Qed.
Lemma lexes_cons_inv pos dir src t l errs : Lexes pos dir src (t :: l) errs -> exists text rest k complaint next errs', src = text ++ rest /\
  t = Token k text pos (pos + blen text) /\ Lexeme dir text rest k complaint /\ After k next /\ Lexes (pos + blen text) next rest l errs' /\
  errs = match complaint with Some e => [(e, (pos, pos + blen text))] | None => [] end ++ errs'.
Proof. intro L. inversion L; subst. repeat eexists; eassumption. Qed.
(** The tokens before white space do not end in white space. *)
Lemma lexes_solid ta : forall pos dir g b tl errs, Begins g -> Lexes pos dir (Spelled ta ++ g ++ b) (ta ++ tl) errs -> ta <> [] ->
  (exists c, In c (Spelled ta) /\ ~ S_Lex.White c) /\ (exists before t, ta = before ++ [t] /\ white_kind (tk_kind t) = false).
Proof.
  induction ta as [|t ta IH]; intros pos dir g b tl errs B L N; [contradiction|].
  apply lexes_cons_inv in L as (text & rest & k & complaint & next & errs' & S & -> & X & A & M & ->). rewrite spelled_cons in *.
  cbn [tk_text] in *. rewrite <- app_assoc in S. apply app_inv_head in S as <-.
  destruct ta as [|u ta].
  - cbn in X. destruct (lexeme_solid _ _ _ _ _ X) as [C|[_ [_ C]]].
    + split; [destruct C as (c & I & C); exists c; split; [apply in_or_app; now left|exact C]|]. exists []. eexists. split; [reflexivity|]. cbn.
      destruct X; cbn [white_kind]; try reflexivity.
      * exfalso. destruct C as (c & I & C). apply C. rewrite Forall_forall in H. auto.
      * exfalso. destruct C as (c & I & C). apply C. rewrite Forall_forall in H0. auto.
      * now destruct H1.
      * now destruct H1.
      * cbn in H. repeat (destruct H as [H|H]; [injection H as <- <- <-; reflexivity|]). contradiction.
    + exfalso. destruct B as (c & r & -> & W). now apply (C c (r ++ b)).
  - destruct (IH _ _ _ _ _ _ B M) as [(c & I & C) (before & v & E & V)]; [discriminate|]. split.
    + exists c. split; [apply in_or_app; now right|exact C].
    + rewrite E. eexists (_ :: before), v. split; [reflexivity|exact V].
Qed.
Lemma closed_tail t u l : Closed (t :: u :: l) -> Closed (u :: l).
Proof. intros C before v E. apply (C (t :: before) v). now rewrite E. Qed.
(** The tokens before white space stay as they are. *)
Lemma lexes_swap ta : forall pos dir g g' b tl errs, Begins g -> Begins g' -> Closed ta -> Lexes pos dir (Spelled ta ++ g ++ b) (ta ++ tl) errs ->
  exists pos' dir' errs1 errs2, errs = errs1 ++ errs2 /\ Lexes pos' dir' (g ++ b) tl errs2 /\
  forall tl' errs2', Lexes pos' dir' (g' ++ b) tl' errs2' -> Lexes pos dir (Spelled ta ++ g' ++ b) (ta ++ tl') (errs1 ++ errs2').
Proof.
  induction ta as [|t ta IH]; intros pos dir g g' b tl errs B B' C L; [exists pos, dir, [], errs; auto|].
  pose proof L as L0.
  apply lexes_cons_inv in L as (text & rest & k & complaint & next & errs' & S & -> & X & A & M & ->). rewrite spelled_cons in *.
  cbn [tk_text] in *. rewrite <- app_assoc in S. apply app_inv_head in S as <-.
  destruct (IH (pos + blen text) next g g' b tl errs' B B') as (pos' & dir' & errs1 & errs2 & -> & L2 & F); [destruct ta; [intros ? ? E; destruct before; discriminate|now apply closed_tail in C]|exact M|].
  exists pos', dir', (match complaint with Some e => [(e, (pos, pos + blen text))] | None => [] end ++ errs1), errs2.
  split; [now rewrite app_assoc|]. split; [exact L2|]. intros tl' errs2' L'. rewrite <- !app_assoc. cbn [app]. apply lexes_more with next; auto.
  eapply lexeme_swap; [exact X|exact B|exact B'|]. destruct ta as [|u ta].
  - cbn. exact (C [] _ eq_refl).
  - destruct (lexes_solid (u :: ta) _ _ _ _ _ _ B M) as [S _]; [discriminate|]. destruct (Spelled (u :: ta)) eqn:E; [destruct S as (? & [] & _)|exact S].
Qed.

Definition Same (t t' : token) : Prop := tk_kind t = tk_kind t' /\ tk_text t = tk_text t'.
(** The same text at another place. *)
Lemma lexes_place pos dir src l e : Lexes pos dir src l e -> forall pos', exists l' e', Lexes pos' dir src l' e' /\ Forall2 Same l l' /\ map fst e = map fst e'.
Proof.
  induction 1 as [|pos dir text rest k complaint next toks errs X A L IH]; intro pos'.
  - exists [], []. repeat split; constructor.
  - destruct (IH (pos' + blen text)) as (l' & e' & L' & S & E). eexists. eexists. split; [eapply lexes_more; eassumption|]. split.
    + constructor; [split; reflexivity|exact S].
    + rewrite !map_app, E. f_equal. now destruct complaint.
Qed.
Lemma same_relaid l l' : Forall2 Same l l' -> Relaid l l'.
Proof.
  intro F. assert (forall g g', Forall2 Same g g' -> Gap g -> SameGap g g') as SG.
  { intros g g' G W. assert (forall P : token -> Prop, (forall t t', Same t t' -> P t <-> P t') -> (exists t, In t g /\ P t) <-> (exists t, In t g' /\ P t)) as I.
    { intros P HP. clear W. induction G as [|t t' g g' S G IH]; [split; intros (? & [] & _)|]. split; intros (u & [<-|J] & K).
      - exists t'. split; [now left|]. now apply (HP t t'). - destruct IH as [IH _]. destruct IH as (v & ? & ?); [now exists u|]. exists v. split; [now right|assumption].
      - exists t. split; [now left|]. now apply (HP t t'). - destruct IH as [_ IH]. destruct IH as (v & ? & ?); [now exists u|]. exists v. split; [now right|assumption]. }
    repeat split.
    - exact W.
    - clear I. induction G as [|t t' g g' [K _] G IH]; constructor; apply Forall_cons_iff in W as [W1 W2]; [unfold Significant in *; now rewrite <- K|now apply IH].
    - intros ->. now inversion G. - intros ->. now inversion G.
    - apply (I S_Front.White). intros t t' [K _]. unfold S_Front.White. now rewrite K.
    - apply (I S_Front.White). intros t t' [K _]. unfold S_Front.White. now rewrite K.
    - apply (I (fun t => tk_kind t = Newline)). intros t t' [K _]. now rewrite K.
    - apply (I (fun t => tk_kind t = Newline)). intros t t' [K _]. now rewrite K. }
  assert (forall l l', Forall2 Same l l' -> forall g g', Forall2 Same g g' -> Gap g -> Relaid (g ++ l) (g' ++ l')) as A; [|now apply (A l l' F [] []); constructor].
  clear F l l'. induction 1 as [|t t' l l' S F IH]; intros g g' G W.
  - rewrite !app_nil_r. apply relaid_end. auto.
  - destruct (significant_dec t) as [D|D].
    + destruct S as [K T]. apply relaid_more; auto. apply (IH [] []); constructor.
    + change (g ++ t :: l) with (g ++ [t] ++ l). change (g' ++ t' :: l') with (g' ++ [t'] ++ l'). rewrite !app_assoc. apply IH; [apply Forall2_app; [exact G|constructor; [exact S|constructor]]|].
      apply Forall_app. split; [exact W|constructor; [exact D|constructor]].
Qed.
(** Gaps in front. *)
Lemma relaid_gap g g' l l' : SameGap g g' -> Relaid l l' -> Relaid (g ++ l) (g' ++ l').
Proof.
  intro S. assert (forall h h', SameGap h h' -> SameGap (g ++ h) (g' ++ h')) as A.
  { intros h h' (G1 & G2 & E & W & N). destruct S as (H1 & H2 & E' & W' & N'). unfold SameGap, AnyWhite, Has in *.
    assert (forall (P : token -> Prop) x y, (exists t, In t (x ++ y) /\ P t) <-> (exists t, In t x /\ P t) \/ (exists t, In t y /\ P t)) as I.
    { intros P x y. split; [intros (t & J & K); apply in_app_or in J as [J|J]; [left|right]; now exists t|].
      intros [(t & J & K)|(t & J & K)]; exists t; (split; [apply in_or_app; tauto|exact K]). }
    rewrite !I. repeat split; try tauto.
    - apply Forall_app; now split. - apply Forall_app; now split.
    - intro H. apply app_eq_nil in H as [H3 H4]. now rewrite (proj1 E' H3), (proj1 E H4).
    - intro H. apply app_eq_nil in H as [H3 H4]. now rewrite (proj2 E' H3), (proj2 E H4). }
  intros R. destruct R as [h h' SH|h h' t t' l l' SH St K T R]; [apply relaid_end; auto|]. rewrite !app_assoc. apply relaid_more; auto.
Qed.
Lemma samegap_refl g : Gap g -> SameGap g g. Proof. intro G. repeat split; auto. Qed.
(** The same tokens in front. *)
Lemma relaid_front ta tl tl' : (forall before t, ta = before ++ [t] -> Significant t) -> Relaid tl tl' -> Relaid (ta ++ tl) (ta ++ tl').
Proof.
  intros L R. assert (forall ta g, (forall before t, ta = before ++ [t] -> Significant t) -> Gap g -> (ta = [] -> g = []) -> Relaid (g ++ ta ++ tl) (g ++ ta ++ tl')) as A;
    [|apply (A ta []); auto; constructor].
  clear L ta. induction ta as [|t ta IH]; intros g L G E.
  - now rewrite (E eq_refl).
  - assert (forall before u, ta = before ++ [u] -> Significant u) as L' by (intros before u ->; now apply (L (t :: before))).
    destruct (significant_dec t) as [D|D].
    + cbn [app]. apply relaid_more; auto; [now apply samegap_refl|]. apply (IH []); auto. constructor.
    + cbn [app]. change (t :: ta ++ tl) with ([t] ++ ta ++ tl). change (t :: ta ++ tl') with ([t] ++ ta ++ tl'). rewrite !(app_assoc g [t]).
      apply IH; auto; [apply Forall_app; split; [exact G|constructor; [exact D|constructor]]|]. intros ->. exfalso. apply D. now apply (L [] t).
Qed.

Lemma lexeme_dir dir dir' text rest k e : Lexeme dir text rest k e -> Not QuoteChar (text ++ rest) -> Lexeme dir' text rest k e.
Proof.
  unfold QuoteChar. intros L N. destruct L; try (exfalso; eapply N; [reflexivity|tauto]);
    [eapply lx_line_comment|eapply lx_line_comment_blank|eapply lx_comment|eapply lx_comment_open|eapply lx_blank|eapply lx_space|eapply lx_name|eapply lx_variable
    |eapply lx_function|eapply lx_number|eapply lx_negative|eapply lx_entity|eapply lx_entity_open|eapply lx_ampersand|eapply lx_escape|eapply lx_escape_number
    |eapply lx_escape_short|eapply lx_escape_line|eapply lx_escape_end|eapply lx_verbatim|eapply lx_verbatim_lines|eapply lx_verbatim_ticks|eapply lx_verbatim_open
    |eapply lx_close|eapply lx_close_any|eapply lx_close_name|eapply lx_close_bad|eapply lx_punctuation|eapply lx_raw]; eassumption.
Qed.
Lemma lexes_dir pos dir dir' src l e : Lexes pos dir src l e -> Not QuoteChar src -> Lexes pos dir' src l e.
Proof. intros L N. destruct L; [constructor|]. eapply lexes_more; [eapply lexeme_dir; eassumption|eassumption|assumption]. Qed.
Lemma blank_dec w : BlankLine w \/ ~ BlankLine w.
Proof.
  assert (forall s, In 10%N s \/ ~ In 10%N s) as D by (intro s; destruct (in_dec N.eq_dec 10%N s); tauto).
  induction w as [|c w IH]; [right; intros (a & ? & ? & E); destruct a; discriminate|].
  destruct IH as [(a & b & d & ->)|IH]; [left; now exists (c :: a), b, d|]. destruct (N.eq_dec c 10) as [->|N].
  - destruct (D w) as [I|I].
    + left. apply in_split in I as (b & d & ->). now exists [], b, d.
    + right. intros (a & b & d & E). destruct a; cbn in E; injection E as; subst; apply I; rewrite ?in_app_iff; cbn; rewrite ?in_app_iff; cbn; tauto.
  - right. intros (a & b & d & E). destruct a as [|x a]; cbn in E; injection E as E1 E2; subst; [now apply N|]. apply IH. now exists a, b, d.
Qed.
Lemma white_lexes pos dir w rest toks errs : w <> [] -> Forall S_Lex.White w -> Not S_Lex.White rest -> Lexes (pos + blen w) QLeft rest toks errs ->
  exists k, (k = Newline /\ BlankLine w \/ k = Whitespace /\ ~ BlankLine w) /\
  Lexes pos dir (w ++ rest) (Token k w pos (pos + blen w) :: toks) errs.
Proof.
  intros N W R L. destruct (blank_dec w) as [B|B].
  - exists Newline. split; [auto|]. change errs with ([] ++ errs). eapply (lexes_more _ _ _ _ _ None); [now apply lx_blank| |exact L]. apply after_opening. cbn. tauto.
  - exists Whitespace. split; [auto|]. change errs with ([] ++ errs). eapply (lexes_more _ _ _ _ _ None); [now apply lx_space| |exact L]. apply after_opening. cbn. tauto.
Qed.
Lemma comment_lexes pos dir text rest toks errs : Lexeme dir text rest Comment None -> Lexes (pos + blen text) QRight rest toks errs ->
  Lexes pos dir (text ++ rest) (Token Comment text pos (pos + blen text) :: toks) errs.
Proof.
  intros X L. change errs with ([] ++ errs). eapply (lexes_more _ _ _ _ _ None); [exact X| |exact L]. apply after_other. cbn. intuition discriminate.
Qed.
Lemma gap_cons t g : tk_kind t = Comment \/ tk_kind t = Whitespace \/ tk_kind t = Newline -> Gap g -> Gap (t :: g).
Proof. intros K G. constructor; [unfold Significant; intuition congruence|exact G]. Qed.
Lemma has_cons k t g : Has k (t :: g) <-> tk_kind t = k \/ Has k g.
Proof. unfold Has. cbn. split; [intros (u & [<-|I] & K); [now left|right; now exists u]|intros [K|(u & I & K)]; [now exists t; auto|exists u; auto]]. Qed.

Lemma filled_parts lines blank g : Filled lines blank g -> forall b tb eb p, Not S_Lex.White b -> (lines = true -> Not QuoteChar b) -> Lexes p QLeft b tb eb ->
  exists w r, g = w ++ r /\ w <> [] /\ Forall S_Lex.White w /\ Not S_Lex.White (r ++ b) /\ (lines = true -> Not QuoteChar (r ++ b)) /\
  forall pos, exists tr tb' eb', Lexes pos QLeft (r ++ b) (tr ++ tb') eb' /\ Gap tr /\ (Has Newline tr \/ BlankLine w <-> blank = true) /\
    Forall2 Same tb tb' /\ map fst eb = map fst eb'.
Proof.
  intros F b tb eb p Nb Qb L. assert (forall x y, Not S_Lex.White (60%N :: x) /\ Not QuoteChar (60%N :: x) /\ Not S_Lex.White (35%N :: y) /\ Not QuoteChar (35%N :: y)) as Marks.
  { intros x y. unfold Not, S_Lex.White, QuoteChar. repeat split; intros c t E; injection E as <- <-; lia. }
  induction F as [w blank Nw Ww B|w body g blank more Nw Ww B FA F IH|w line g blank more Ln Nw Ww B NL F IH].
  - exists w, []. rewrite app_nil_r. repeat (split; [auto; fail|]). intro pos. destruct (lexes_place _ _ _ _ _ L pos) as (l' & e' & L' & S & E).
    exists [], l', e'. split; [exact L'|]. split; [constructor|]. split; [|split; assumption]. rewrite B. unfold Has. split; [intros [(? & [] & _)|?]; assumption|tauto].
  - destruct IH as (w2 & r2 & -> & Nw2 & Ww2 & N2 & Q2 & H). exists w, (lit "<!--" ++ body ++ lit "-->" ++ w2 ++ r2).
    split; [reflexivity|]. do 2 (split; [assumption|]). split; [apply (Marks _ [])|]. split; [intros _; apply (Marks _ [])|]. intro pos.
    set (c := lit "<!--" ++ body ++ lit "-->"). destruct (H (pos + blen c + blen w2)) as (tr & tb' & eb' & L2 & G & HN & S & E).
    destruct (white_lexes (pos + blen c) QRight w2 (r2 ++ b) _ _ Nw2 Ww2 N2 L2) as (k & K & L3). eexists (Token Comment c _ _ :: Token k w2 _ _ :: tr), tb', eb'. split.
    { replace ((lit "<!--" ++ body ++ lit "-->" ++ w2 ++ r2) ++ b) with (c ++ w2 ++ r2 ++ b) by (unfold c; now rewrite <- !app_assoc). cbn [app]. apply comment_lexes; [now apply lx_comment|exact L3]. }
    split; [apply gap_cons; [now left|]; apply gap_cons; [cbn; tauto|exact G]|]. split; [|split; assumption]. rewrite !has_cons, orb_true_iff, B, <- HN. cbn [tk_kind].
    destruct K as [[-> K]|[-> K]]; intuition discriminate.
  - destruct IH as (w2 & r2 & E2 & Nw2 & Ww2 & N2 & Q2 & H). destruct w2 as [|z w2]; [congruence|]. cbn in E2. injection E2 as <- ->.
    exists w, (lit "#" ++ line ++ (10%N :: w2) ++ r2).
    split; [reflexivity|]. do 2 (split; [assumption|]). split; [apply (Marks [] _)|]. split; [intros _; apply (Marks [] _)|]. intro pos. destruct (blank_dec (10%N :: w2)) as [D|D].
    + set (c := 35%N :: line). destruct (H (pos + blen c + blen (10%N :: w2))) as (tr & tb' & eb' & L2 & G & HN & S & E).
      destruct (white_lexes (pos + blen c) QRight (10%N :: w2) (r2 ++ b) _ _ Nw2 Ww2 N2 L2) as (k & K & L3). eexists (Token Comment c _ _ :: Token k (10%N :: w2) _ _ :: tr), tb', eb'. split.
      { replace ((lit "#" ++ line ++ (10%N :: w2) ++ r2) ++ b) with (c ++ (10%N :: w2) ++ r2 ++ b) by (unfold c; change (lit "#") with [35%N]; rewrite <- !app_assoc; cbn [app]; rewrite <- ?app_assoc; reflexivity). cbn [app]. apply (comment_lexes _ _ c); [|exact L3].
        apply (lx_line_comment_blank _ line (10%N :: w2) (r2 ++ b)); auto. intros x t EE. cbn in EE. injection EE as <- <-. auto. }
      split; [apply gap_cons; [now left|]; apply gap_cons; [cbn; tauto|exact G]|]. split; [|split; assumption]. rewrite !has_cons, orb_true_iff, B, <- HN. cbn [tk_kind].
      destruct K as [[-> K]|[-> K]]; intuition discriminate.
    + set (c := 35%N :: line ++ 10%N :: w2). destruct (H (pos + blen c)) as (tr & tb' & eb' & L2 & G & HN & S & E).
      eexists (Token Comment c _ _ :: tr), tb', eb'. split.
      { replace ((lit "#" ++ line ++ (10%N :: w2) ++ r2) ++ b) with (c ++ r2 ++ b) by (unfold c; change (lit "#") with [35%N]; rewrite <- !app_assoc; cbn [app]; rewrite <- ?app_assoc; reflexivity). cbn [app]. apply (comment_lexes _ _ c).
        - apply (lx_line_comment _ line (10%N :: w2) (r2 ++ b)); auto. intros x t EE. cbn in EE. injection EE as <- <-. auto.
        - eapply lexes_dir; [exact L2|auto]. }
      split; [apply gap_cons; [now left|exact G]|]. split; [|split; assumption]. rewrite !has_cons, orb_true_iff, B, <- HN. cbn [tk_kind]. intuition discriminate.
Qed.

Lemma filled_lexes lines blank g b pos dir : Filled lines blank g -> Not S_Lex.White b -> (lines = true -> Not QuoteChar b) -> forall tb eb p, Lexes p QLeft b tb eb ->
  Begins g /\ exists tg tb' eb', Lexes pos dir (g ++ b) (tg ++ tb') eb' /\ Gap tg /\ tg <> [] /\ AnyWhite tg /\ (Has Newline tg <-> blank = true) /\
    Forall2 Same tb tb' /\ map fst eb = map fst eb'.
Proof.
  intros F Nb Qb tb eb p L. destruct (filled_parts _ _ _ F b tb eb p Nb Qb L) as (w & r & -> & Nw & Ww & N & _ & H). split.
  - destruct w as [|c w]; [congruence|]. apply Forall_cons_iff in Ww as [W _]. now exists c, (w ++ r).
  - destruct (H (pos + blen w)) as (tr & tb' & eb' & L' & G & HN & S & E). destruct (white_lexes pos dir w (r ++ b) _ _ Nw Ww N L') as (k & K & L2).
    exists (Token k w pos (pos + blen w) :: tr), tb', eb'. rewrite <- app_assoc. split; [exact L2|]. split; [apply gap_cons; [cbn; tauto|exact G]|]. split; [discriminate|]. split.
    + eexists. split; [now left|]. unfold S_Front.White. cbn. tauto.
    + split; [|split; assumption]. rewrite has_cons, <- HN. cbn [tk_kind]. destruct K as [[-> K]|[-> K]]; intuition discriminate.
Qed.
Lemma same_trans l l' l'' : Forall2 Same l l' -> Forall2 Same l l'' -> Forall2 Same l' l''.
Proof.
  intro F. revert l''. induction F as [|t t' l l' [K T] F IH]; intros l'' G; inversion G as [|? t'' ? m'' [K' T'] G']; subst; constructor; [|now apply IH].
  split; congruence.
Qed.
Lemma refill_relaid lines blank a g g' b ta tl errs :
  Lexes 0 QLeft (a ++ g ++ b) (ta ++ tl) errs -> Spelled ta = a -> Closed ta -> Filled lines blank g -> Filled lines blank g' ->
  Not S_Lex.White b -> (lines = true -> Not QuoteChar b) ->
  exists toks' errs', Lexes 0 QLeft (a ++ g' ++ b) toks' errs' /\ Relaid (ta ++ tl) toks' /\ map fst errs = map fst errs'.
Proof.
  intros L <- Cl F F' Nb Qb.
  destruct (lexes_exist b) as (tb & eb & Lb).
  destruct (filled_lexes _ _ _ b 0 QLeft F Nb Qb _ _ _ Lb) as [B _]. destruct (filled_lexes _ _ _ b 0 QLeft F' Nb Qb _ _ _ Lb) as [B' _].
  destruct (lexes_swap ta 0 QLeft g g' b tl errs B B' Cl L) as (pos & dir & errs1 & errs2 & -> & L2 & H).
  destruct (filled_lexes _ _ _ b pos dir F Nb Qb _ _ _ Lb) as [_ (tg & t1 & e1 & M1 & G1 & N1 & W1 & P1 & S1 & E1)].
  destruct (filled_lexes _ _ _ b pos dir F' Nb Qb _ _ _ Lb) as [_ (tg' & t2 & e2 & M2 & G2 & N2 & W2 & P2 & S2 & E2)].
  destruct (lexes_unique_at _ _ _ _ _ L2 _ _ M1) as [-> ->].
  eexists. eexists. split; [exact (H _ _ M2)|]. split; [|rewrite !map_app; congruence]. apply relaid_front.
  - intros before t ->. destruct (lexes_solid (before ++ [t]) _ _ _ _ _ _ B L) as [_ (before' & t' & E & K)]; [destruct before; discriminate|].
    apply app_inj_tail in E as [-> ->]. destruct (Cl before' t' eq_refl) as [NC _]. destruct (significant_dec t') as [D|D]; [exact D|exfalso; apply D].
    unfold Significant. destruct (tk_kind t'); (discriminate K || congruence || (repeat split; discriminate)).
  - apply relaid_gap; [|apply same_relaid; now apply same_trans with tb]. repeat split; auto; try tauto; congruence.
Qed.
