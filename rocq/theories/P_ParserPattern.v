(** The checks of the parser on patterns; white space at the end of a block; closing tags. *)
From Verif Require Import Base BaseFacts M_Text M_Names M_TagInfo M_Token M_Tokenizer M_TokenText M_Types M_Diag M_Queue M_Ast M_Parser.
From Verif Require Import S_Front S_Grammar P_Pattern P_ParserW P_ParserCheck.

Definition plain (ps : list pattern) : list (pattern * bool) := List.map (fun p => (p, false)) ps.
Lemma plain_fst ps : List.map fst (plain ps) = ps.
Proof. unfold plain. rewrite map_map. apply map_id. Qed.
Lemma plain_inj ps qs : plain ps = plain qs -> ps = qs.
Proof. intros H. rewrite <- (plain_fst ps), H, plain_fst. auto. Qed.
Lemma spread_split pre p post pre' p' post' : plain pre ++ (p, true) :: plain post = plain pre' ++ (p', true) :: plain post' ->
  pre = pre' /\ p = p' /\ post = post'.
Proof.
  revert pre'. induction pre as [|x pre IH]; intros [|y pre'] E; cbn in E.
  - injection E as -> E. apply plain_inj in E. auto.
  - discriminate.
  - discriminate.
  - injection E as -> E. destruct (IH _ E) as (-> & -> & ->). auto.
Qed.
Lemma plain_no_spread ps pre p post : plain ps <> plain pre ++ (p, true) :: plain post.
Proof. revert pre. induction ps as [|x ps IH]; intros [|y pre] E; cbn in E; try discriminate. injection E as -> E. eapply IH; eauto. Qed.
Definition IndexOf (l : list (pattern * bool)) (i : nat) (out : option nat) : Prop :=
  (out = None /\ exists ps, l = plain ps) \/ (exists pre p post, l = plain pre ++ (p, true) :: plain post /\ out = Some (i + length pre)).
Lemma spread_index_spec l : forall i idx, Checks (spread_index l i idx) (fun out =>
  match idx with None => IndexOf l i out | Some j => out = Some j /\ exists ps, l = plain ps end).
Proof.
  induction l as [|[p b] l IH]; intros i idx; cbn [spread_index].
  - apply checks_ret.
    + destruct idx as [j|]; [split; auto; exists []; auto|left; split; auto; exists []; auto].
    + intros b H. destruct idx as [j|]; [intuition|]. destruct H as [[-> _]|(pre & p & post & E & _)]; auto. destruct pre; discriminate.
  - destruct b.
    + destruct idx as [j|].
      * cbn [is_some]. eapply checks_err; [apply IH|]. intros out [_ [ps E]]. destruct ps; discriminate.
      * cbn [is_some]. apply (checks_iff _ (fun out => out = Some i /\ exists ps, l = plain ps)).
        -- apply (IH (S i) (Some i)).
        -- intros out. split.
           ++ intros [[_ [ps E]]|(pre & p' & post & E & ->)]; [destruct ps; discriminate|]. destruct pre as [|x pre]; [|discriminate].
              cbn in *. injection E as -> ->. rewrite Nat.add_0_r. eauto.
           ++ intros [-> [ps ->]]. right. exists [], p, ps. cbn. rewrite Nat.add_0_r. auto.
    + eapply checks_iff; [apply IH|]. intros out. destruct idx as [j|].
      * split; intros [-> [ps E]]; split; auto; [|exists (p :: ps); cbn; rewrite E; auto].
        destruct ps as [|x ps]; [discriminate|]. injection E as -> ->. eauto.
      * split.
        -- intros [[-> [ps E]]|(pre & p' & post & E & ->)].
           ++ left. split; auto. destruct ps as [|x ps]; [discriminate|]. injection E as -> ->. eauto.
           ++ right. destruct pre as [|x pre]; [discriminate|]. injection E as -> ->. exists pre, p', post. cbn [length]. split; auto. f_equal. lia.
        -- intros [[-> [ps ->]]|(pre & p' & post & -> & ->)].
           ++ left. split; auto. exists (p :: ps). auto.
           ++ right. exists (p :: pre), p', post. cbn [length]. split; auto. f_equal. lia.
Qed.
Lemma not_html_spec p : can_match_html p = true <-> ~ NotHtml p.
Proof.
  assert (can_match_html p = false <-> NotHtml p) as H.
  { induction p using pattern_ind'; cbn [can_match_html];
      try (split; [discriminate|inversion 1]; fail); try (split; [intros _; constructor|auto]; fail).
    all: try (rewrite andb_false_iff, IHp1, IHp2; split; [intros [X|X]; [constructor 7; auto; fail|constructor 8; auto; fail]|inversion 1; auto]; fail).
    all: try (rewrite andb_false_iff, IHp1, IHp2; split; [intros [X|X]; [constructor 9; auto; fail|constructor 10; auto; fail]|inversion 1; auto]; fail).
    destruct e; split; try discriminate; try (inversion 1; fail); intros _; try reflexivity; constructor. }
  rewrite <- H. destruct (can_match_html p); intuition congruence.
Qed.
Lemma check_html_spec ps : Checks (check_html_patterns ps) (fun _ => Forall (fun p => ~ NotHtml p) ps).
Proof.
  induction ps as [|p ps IH]; cbn [check_html_patterns].
  - apply checks_ret; auto. intros []; auto.
  - pose proof (not_html_spec p) as S. destruct (can_match_html p).
    + refine (checks_if false PatternCannotMatchHTML _ _ _ IH _). intros []. rewrite Forall_cons_iff. intuition.
    + eapply checks_err; [exact IH|]. intros [] X. apply Forall_inv in X. apply S in X. discriminate.
Qed.
(** ** Dictionaries *)
Lemma ninsert_fresh {T} (m : nmap T) k v : nhas m k = false -> ninsert m k v = m ++ [(k, v)].
Proof.
  unfold nhas. induction m as [|[k' v'] m IH]; cbn; auto. destruct (str_eqb k k'); [discriminate|]. intros H. rewrite IH; auto.
Qed.
Lemma nhas_keys {T} (m : nmap T) k : nhas m k = true <-> In k (List.map fst m).
Proof.
  unfold nhas. induction m as [|[k' v'] m IH]; cbn; [intuition discriminate|]. destruct (str_eqb_spec k k') as [->|N].
  - intuition.
  - rewrite IH. intuition congruence.
Qed.
Definition DictParts (parts : list (option str * pattern)) (attrs : nmap pattern) (spread : option pattern) (out : nmap pattern * option pattern) : Prop :=
  match spread with
  | Some p => parts = [] /\ out = (attrs, Some p)
  | None => exists new r, parts = dict_items new r /\ out = (attrs ++ new, r) /\ NoDup (List.map fst new) /\
      forall n, In n (List.map fst new) -> ~ In n (List.map fst attrs)
  end.
Lemma dict_parts_spec parts : forall attrs spread, Checks (dict_parts parts attrs spread) (DictParts parts attrs spread).
Proof.
  induction parts as [|[[n|] p] parts IH]; intros attrs spread; cbn [dict_parts].
  - apply checks_ret.
    + destruct spread as [p|]; cbn; auto. exists [], None. rewrite app_nil_r. repeat split; auto; try constructor; intros ? [].
    + intros b H. destruct spread as [p|]; cbn in H; [intuition|]. destruct H as (new & r & E & -> & _).
      unfold dict_items in E. destruct new as [|x new]; [|discriminate]. destruct r; [discriminate|]. rewrite app_nil_r. auto.
  - destruct spread as [q|]; cbn [is_some].
    + eapply checks_err; [apply IH|]. intros b [X _]. discriminate.
    + eapply checks_if; [apply IH|]. intros out. cbn [DictParts]. split.
      * intros (new & r & E & -> & ND & F). destruct new as [|[n' p'] new]; cbn in E; [destruct r; discriminate|].
        injection E as -> -> ->. cbn in ND, F. inversion ND as [|? ? N1 N2]; subst.
        destruct (nhas attrs n') eqn:Hn.
        -- exfalso. apply nhas_keys in Hn. apply (F n'); auto.
        -- split; auto. rewrite (ninsert_fresh _ _ _ Hn). exists new, r. rewrite <- app_assoc. repeat split; auto.
           intros m Hm. rewrite map_app, in_app_iff. cbn. intros [X|[X|[]]]; [apply (F m); auto|]. subst m. auto.
      * intros [Hn (new & r & -> & -> & ND & F)]. rewrite (ninsert_fresh _ _ _ Hn) in *. exists ((n, p) :: new), r.
        rewrite <- app_assoc. repeat split; auto; cbn.
        -- constructor; auto. intros X. apply (F n X). rewrite map_app, in_app_iff. cbn. auto.
        -- intros m [<-|Hm]; [|intros X; apply (F m Hm); rewrite map_app, in_app_iff; auto].
           intros X. apply nhas_keys in X. congruence.
  - destruct spread as [q|]; cbn [is_some].
    + eapply checks_err; [apply IH|]. intros b [X _]. discriminate.
    + eapply checks_iff; [apply (IH attrs (Some p))|]. intros out. cbn [DictParts]. split.
      * intros (new & r & E & -> & ND & F). destruct new as [|x new]; cbn in E; [|discriminate]. destruct r as [r|]; [|discriminate].
        injection E as -> ->. rewrite app_nil_r. auto.
      * intros [-> ->]. exists [], (Some p). rewrite app_nil_r. repeat split; auto; try constructor; intros ? [].
Qed.
Lemma dict_items_inj a r a' r' : dict_items a r = dict_items a' r' -> a = a' /\ r = r'.
Proof.
  unfold dict_items. revert a'. induction a as [|[n p] a IH]; intros [|[n' p'] a'] E; cbn in E.
  - destruct r, r'; try discriminate; auto. injection E as ->. auto.
  - destruct r; discriminate.
  - destruct r'; discriminate.
  - injection E as -> -> E. destruct (IH _ E) as [-> ->]. auto.
Qed.
Lemma make_dict_spec items : Checks (make_dict_pattern items false) (DictPattern items).
Proof.
  unfold make_dict_pattern. destruct (dict_parts_spec items [] None) as ([attrs r] & ds & E & S & U). exists (PDict attrs r), ds. split; [|split].
  - intros s. unfold pbind. rewrite E. destruct attrs, r; auto.
  - intros C. destruct (S C) as (new & r' & -> & E' & ND & _). cbn in E'. injection E' as -> ->. constructor; auto.
  - intros b H. destruct H as [a' r' ND]. destruct (U (a', r')) as [C E'].
    + exists a', r'. repeat split; auto.
    + injection E' as -> ->. auto.
Qed.
Lemma make_attrs_spec items : Checks (make_dict_pattern items true) (AttrsPattern items).
Proof.
  unfold make_dict_pattern. destruct (dict_parts_spec items [] None) as ([attrs r] & ds & E & S & U).
  exists (match attrs, r with [], Some p => p | _, _ => PDict attrs r end), ds. split; [|split].
  - intros s. unfold pbind. rewrite E. destruct attrs, r; auto.
  - intros C. destruct (S C) as (new & r' & -> & E' & ND & _). cbn in E'. injection E' as -> ->.
    destruct new as [|x new], r' as [p|]; [apply ap_spread|constructor; auto|constructor; auto; left; discriminate|constructor; auto].
  - intros b H. destruct H as [p|a' r' ND Hn].
    + destruct (U ([], Some p)) as [C E']; [exists [], (Some p); repeat split; auto; constructor|]. injection E' as -> ->. auto.
    + destruct (U (a', r')) as [C E']; [exists a', r'; repeat split; auto|]. injection E' as -> ->. split; auto.
      destruct a'; auto. destruct Hn as [Hn| ->]; [congruence|auto].
Qed.
(** ** Template patterns *)
Lemma template_regex_spec ps : forall re vars, Checks (template_regex ps re vars) (fun out =>
  Forall SimplePart ps /\ out = (re ++ flat_map (regex_part regex_escape) ps, vars ++ regex_vars ps)).
Proof.
  induction ps as [|p ps IH]; intros re vars; cbn [template_regex].
  - apply checks_ret; [cbn; rewrite !app_nil_r; auto|]. intros b [_ ->]. cbn. rewrite !app_nil_r. auto.
  - destruct p as [s|c|[n|sub co a|sub co i]|].
    + eapply checks_iff; [apply IH|]. intros out. cbn [flat_map regex_vars regex_part app]. rewrite Forall_cons_iff, app_assoc. split; [tauto|].
      intros [H ->]. repeat split; auto. intros n' E. discriminate.
    + eapply checks_iff; [apply IH|]. intros out. cbn [flat_map regex_vars regex_part app]. rewrite Forall_cons_iff, app_assoc. split; [tauto|].
      intros [H ->]. repeat split; auto. intros n' E. discriminate.
    + eapply checks_iff; [apply IH|]. intros out. cbn [flat_map regex_part]. unfold regex_vars. cbn [flat_map]. rewrite Forall_cons_iff, !app_assoc. split; [tauto|].
      intros [H ->]. repeat split; auto. intros n' [= <-]. eauto.
    + eapply checks_err; [apply IH|]. intros b [H _]. inversion H as [|? ? H1 H2]; subst. destruct (H1 _ eq_refl) as [x Hx]. discriminate.
    + eapply checks_err; [apply IH|]. intros b [H _]. inversion H as [|? ? H1 H2]; subst. destruct (H1 _ eq_refl) as [x Hx]. discriminate.
    + eapply checks_iff; [apply IH|]. intros out. cbn [flat_map regex_vars regex_part app]. rewrite Forall_cons_iff, app_assoc. split; [tauto|].
      intros [H ->]. repeat split; auto. intros n' E. discriminate.
Qed.
Lemma literal_parts ps : forallb part_is_literal ps = true <-> Forall LiteralPart ps.
Proof.
  rewrite forallb_forall, Forall_forall. split; intros H x Hx; specialize (H x Hx).
  - intros n ->. discriminate.
  - destruct x; auto. destruct (H n); auto.
Qed.
(** ** Variables of alternatives *)
Lemma names_loop_all ps (F : Forall (fun p => forall out, get_name_ids p out = fold_left (fun out n => set_add n out) (pattern_vars p) out) ps) : forall out,
  (fix go ps out := match ps with [] => out | p :: ps => go ps (get_name_ids p out) end) ps out =
  fold_left (fun out n => set_add n out) (flat_map pattern_vars ps) out.
Proof. induction F as [|p ps H F IH]; intros out; cbn [flat_map]; auto. rewrite fold_left_app, <- H, <- IH. auto. Qed.
Lemma names_loop_dict ps (F : Forall (fun kv : str * pattern => forall out, get_name_ids (snd kv) out = fold_left (fun out n => set_add n out) (pattern_vars (snd kv)) out) ps) : forall out,
  (fix go attrs out := match attrs with [] => out | (_, p) :: attrs => go attrs (get_name_ids p out) end) ps out =
  fold_left (fun out n => set_add n out) (flat_map (fun kp => pattern_vars (snd kp)) ps) out.
Proof. induction F as [|[k p] ps H F IH]; intros out; cbn [flat_map]; auto. rewrite fold_left_app, <- H, <- IH. auto. Qed.
Lemma name_ids_spec p : forall out, get_name_ids p out = fold_left (fun out n => set_add n out) (pattern_vars p) out.
Proof.
  induction p using pattern_ind'; intros out; cbn [get_name_ids pattern_vars]; auto.
  - rewrite fold_left_app, <- IHp1, <- IHp2. auto.
  - apply names_loop_all; auto.
  - apply names_loop_all; auto.
  - cbn zeta. rewrite fold_left_app. rewrite <- names_loop_dict by auto. destruct r as [q|]; auto. 
  - rewrite !fold_left_app, <- IHp1, <- IHp2, <- IHp3. auto.
  - apply names_loop_all; auto.
  - apply names_loop_all; auto.
Qed.
Lemma or_names p q : get_name_ids q (get_name_ids p []) = distinct (pattern_vars p ++ pattern_vars q).
Proof. unfold distinct. rewrite fold_left_app, !name_ids_spec. auto. Qed.
(** ** White space at the end *)
Lemma white_node n : node_is_whitespace n = true <-> WhiteNode n.
Proof. destruct n; cbn; try intuition discriminate. unfold is_ascii_whitespace. rewrite !orb_true_iff, !N.eqb_eq. tauto. Qed.
Lemma pop_snoc l n : pop_whitespace (l ++ [n]) = if node_is_whitespace n then pop_whitespace l else l ++ [n].
Proof.
  induction l as [|m l IH]; cbn [app pop_whitespace].
  - destruct (node_is_whitespace n); auto.
  - rewrite IH. destruct (node_is_whitespace n); auto. destruct (l ++ [n]) eqn:E; auto. destruct l; discriminate.
Qed.
Lemma trimmed_spec l l' : pop_whitespace l = l' <-> Trimmed l l'.
Proof.
  split.
  - intros <-. induction l as [|n l IH] using rev_ind; [apply (trimmed [] []); auto; intros l' n E; destruct l'; discriminate|].
    rewrite pop_snoc. destruct (node_is_whitespace n) eqn:Wn.
    + remember (pop_whitespace l) as p eqn:Ep. destruct IH as [l w F N]. rewrite <- app_assoc. apply trimmed; auto.
      apply Forall_app. split; auto. constructor; auto. apply white_node; auto.
    + rewrite <- (app_nil_r (l ++ [n])) at 1. apply trimmed; auto. intros l' n' E. apply app_inj_tail in E as [_ <-].
      intros X. apply white_node in X. congruence.
  - intros [l0 w F N]. clear l l'. induction w as [|n w IH] using rev_ind.
    + rewrite app_nil_r. destruct l0 as [|n l0 _] using rev_ind; auto. rewrite pop_snoc. destruct (node_is_whitespace n) eqn:E; auto.
      apply white_node in E. destruct (N l0 n eq_refl E).
    + apply Forall_app in F as [F F']. inversion F'; subst. rewrite app_assoc, pop_snoc. rewrite (proj2 (white_node n)); auto.
Qed.
Lemma group_same ns : group_of ns = group ns.
Proof. destruct ns; auto. Qed.
(** ** Closing tags *)
Lemma lowered_same s : ascii_lower s = lowered s.
Proof. reflexivity. Qed.
Lemma ignore_case a b : eq_ignore_case a b = true <-> lowered a = lowered b.
Proof. unfold eq_ignore_case. rewrite str_eqb_eq. reflexivity. Qed.
Lemma lex_close_text t : LexTok t -> Is CloseTag t -> exists n, tk_text t = lit "</" ++ n ++ lit ">".
Proof.
  unfold LexTok, Is. intros L K. rewrite K in L. remember (tk_text t) as s. inversion L; subst; [eauto|]. cbn in *. intuition congruence.
Qed.
Lemma close_spec name t : LexTok t -> is_close_tag name t = true <-> CloseFor name t.
Proof.
  intros L. unfold is_close_tag, CloseFor. rewrite andb_true_iff, is_kind_spec, orb_true_iff, str_eqb_eq, andb_true_iff, negb_true_iff, ignore_case.
  assert (is_anonymous name = false <-> name <> n_anonymous) as An by (unfold is_anonymous; rewrite str_eqb_neq; tauto). rewrite An.
  split; intros [K H]; split; auto; destruct (lex_close_text _ L K) as [n E]; rewrite E in *.
  - destruct H as [H|[N H]]; auto. right. split; auto. exists n. split; auto. cbn [lit app skipn Ascii.N_of_ascii] in H.
    rewrite removelast_last in H. auto.
  - destruct H as [H|[N (m & Em & H)]]; auto. right. split; auto. apply app_inv_head in Em. apply app_inj_tail in Em as [-> _].
    cbn [lit app skipn]. rewrite removelast_last. auto.
Qed.
Lemma template_regex_form ps : forall re vars, exists ps' vars', forall s, exists s', template_regex ps re vars s = POk (re ++ flat_map (regex_part regex_escape) ps', vars') s'.
Proof.
  induction ps as [|p ps IH]; intros re vars; cbn [template_regex].
  - exists [], vars. intros s. exists s. cbn. rewrite app_nil_r. auto.
  - assert (forall re' x, re' = re ++ regex_part regex_escape x -> forall vars', exists ps' vars'', forall s, exists s',
      template_regex ps re' vars' s = POk (re ++ flat_map (regex_part regex_escape) ps', vars'') s') as H.
    { intros re' x -> vars'. destruct (IH (re ++ regex_part regex_escape x) vars') as (ps' & v & E). exists (x :: ps'), v. intros s. 
      destruct (E s) as [s' E']. exists s'. rewrite E'. cbn [flat_map]. rewrite app_assoc. auto. }
    assert (forall e, exists ps' vars'', forall s, exists s',
      (serr e;; template_regex ps re vars) s = POk (re ++ flat_map (regex_part regex_escape) ps', vars'') s') as H'.
    { intros e. destruct (IH re vars) as (ps' & v & E). exists ps', v. intros s. unfold pbind, serr, preport. apply E. }
    destruct p as [s|c|[m|sub co a|sub co i]|]; auto.
    + apply (H _ (TPLit s)); auto.
    + apply (H _ (TPChar c)); auto.
    + apply (H _ (TPName (NSimple m))); auto.
    + apply (H _ TPWhitespace); auto.
Qed.
