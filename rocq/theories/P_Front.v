(** Proofs about the token stream without comments, verbatim text, escapes and numbers. *)
From Coq Require Import DecimalPos.
From Verif Require Import Base BaseFacts M_Text M_Token M_Tokenizer M_TokenText S_Front P_Tokenizer.

(** ** Stripping comments. *)
Definition is_comment (t : token) := tk_kind t = Comment.
Lemma gap_small g r : GapToken g r -> rev r = r.
Proof. destruct 1; reflexivity. Qed.
Lemma gap_app g r t : GapToken g r -> tk_kind t = Comment -> GapToken (g ++ [t]) r.
Proof.
  intros H Ht; destruct H as [g Hg|b u a Hb Hu Ha|b u a Hu Ha].
  - apply Gap_comment_only, Forall_app; auto.
  - rewrite <- app_assoc. cbn. apply Gap_space; auto. apply Forall_app; split; [exact Ha|].
    constructor; [congruence|constructor].
  - rewrite <- app_assoc. cbn. apply Gap_break; auto. apply Forall_app; split; [exact Ha|].
    constructor; [congruence|constructor].
Qed.
Lemma gap_app_space g p t : GapToken g [p] -> tk_kind t = Whitespace -> GapToken (g ++ [t]) [p].
Proof.
  intros H Ht; inversion H as [|b u a Hb Hu Ha Eg|b u a Hu Ha Eg]; subst; rewrite <- app_assoc; cbn.
  - apply Gap_space; auto. apply Forall_app; split; [exact Ha|]. constructor; [congruence|constructor].
  - apply Gap_break; auto. apply Forall_app; split; [exact Ha|]. constructor; [congruence|constructor].
Qed.
Lemma kinds_cases t : tk_kind t = Comment \/ tk_kind t = Whitespace \/ tk_kind t = Newline \/ Significant t.
Proof.
  unfold Significant. destruct (kind_eq_dec (tk_kind t) Comment), (kind_eq_dec (tk_kind t) Whitespace),
    (kind_eq_dec (tk_kind t) Newline); auto. do 3 right. auto.
Qed.
Lemma not_sig t : tk_kind t = Comment \/ White t -> ~ Significant t.
Proof. unfold White, Significant. intros [H|[H|H]] (A & B & C); auto. Qed.
Lemma sig_not_ws t : Significant t -> tok_is_whitespace t = false.
Proof.
  intros (A & B & C). destruct (tok_is_whitespace t) eqn:E; [|reflexivity]. apply ws_White in E.
  destruct E; congruence.
Qed.

Lemma strip_fold l : forall g r base,
  Forall (fun t => ~ Significant t) g -> GapToken g r -> (forall b bs, base = b :: bs -> Significant b) ->
  exists out, fold_left (fun acc t => push_token true t acc) l (r ++ base) = rev out ++ base /\ Stripped (g ++ l) out.
Proof.
  induction l as [|t l IH]; intros g r base Hg Gg Hb; cbn [fold_left].
  - exists r. rewrite (gap_small _ _ Gg), app_nil_r. split; [reflexivity|now apply Str_end].
  - assert (Nx : forall r', ~ Significant t -> GapToken (g ++ [t]) r' -> push_token true t (r ++ base) = r' ++ base ->
        exists out, fold_left (fun acc t => push_token true t acc) l (push_token true t (r ++ base)) = rev out ++ base /\
          Stripped (g ++ t :: l) out).
    { intros r' Nt Gr' E. destruct (IH (g ++ [t]) r' base) as (out & E' & St).
      - apply Forall_app; split; [exact Hg|now constructor].
      - exact Gr'.
      - exact Hb.
      - exists out. rewrite E. split; [exact E'|]. now rewrite <- app_assoc in St. }
    destruct (kinds_cases t) as [K|[K|[K|K]]].
    + apply (Nx r).
      * apply not_sig; auto.
      * now apply gap_app.
      * unfold push_token. rewrite K. reflexivity.
    + assert (W : tok_is_whitespace t = true) by (apply ws_White; now left).
      destruct r as [|p r].
      * apply (Nx [t]).
        -- apply not_sig; right; now left.
        -- apply Gap_space; [|exact K|constructor]. now inversion Gg.
        -- unfold push_token. rewrite K. cbn [app kind_eqb]. cbn.
           destruct base as [|b bs]; [reflexivity|]. rewrite W, (sig_not_ws b) by now apply (Hb b bs). reflexivity.
      * assert (r = []) by (inversion Gg; reflexivity). subst r.
        assert (Wp : tok_is_whitespace p = true) by (apply ws_White; inversion Gg; subst; [now left|now right]).
        apply (Nx [p]).
        -- apply not_sig; right; now left.
        -- now apply gap_app_space.
        -- unfold push_token. rewrite K. cbn [app]. cbn [kind_eqb andb]. cbn. now rewrite W, Wp.
    + assert (W : tok_is_whitespace t = true) by (apply ws_White; now right).
      destruct r as [|p r].
      * apply (Nx [t]).
        -- apply not_sig; right; now right.
        -- apply Gap_break; [exact K|constructor].
        -- unfold push_token. rewrite K. cbn.
           destruct base as [|b bs]; [reflexivity|]. rewrite W, (sig_not_ws b) by now apply (Hb b bs). reflexivity.
      * assert (r = []) by (inversion Gg; reflexivity). subst r.
        assert (Wp : tok_is_whitespace p = true) by (apply ws_White; inversion Gg; subst; [now left|now right]).
        apply (Nx [t]).
        -- apply not_sig; right; now right.
        -- apply Gap_break; [exact K|constructor].
        -- unfold push_token. rewrite K. cbn. now rewrite W, Wp.
    + assert (E : push_token true t (r ++ base) = t :: r ++ base).
      { unfold push_token, kind_eqb. destruct (kind_eq_dec (tk_kind t) Comment) as [X|_]; [now destruct K|].
        cbn [andb]. destruct (r ++ base) as [|p l']; [reflexivity|]. rewrite (sig_not_ws t K). reflexivity. }
      rewrite E. destruct (IH [] [] (t :: r ++ base)) as (out & E' & St).
      * constructor.
      * apply Gap_comment_only; constructor.
      * now intros b bs [= <- <-].
      * exists (r ++ t :: out). cbn [app] in E', St. rewrite E'. split.
        -- rewrite rev_app_distr. cbn [rev]. rewrite (gap_small _ _ Gg), <- !app_assoc. reflexivity.
        -- now apply Str_next.
Qed.

Lemma tokenize_stripped src all errs toks errs' :
  tokenize src false = Ret (all, errs) -> tokenize src true = Ret (toks, errs') -> Stripped all toks /\ errs' = errs.
Proof.
  intros H1 H2. apply tokenize_all in H1. rewrite tokenize_lex, H1 in H2. cbn [obind] in H2. injection H2 as <- <-.
  split; [|reflexivity]. destruct (strip_fold all [] [] []) as (out & E & St).
  - constructor.
  - apply Gap_comment_only; constructor.
  - discriminate.
  - cbn [app] in E, St. rewrite E, app_nil_r, rev_involutive. exact St.
Qed.
Lemma tokenize_both src b b' : (exists r, tokenize src b = Ret r) -> exists r, tokenize src b' = Ret r.
Proof.
  rewrite !tokenize_lex. intros [r H]. destruct (lex _ _ _ _) as [[l e]| |]; try discriminate. eexists; reflexivity.
Qed.

Lemma gap_white g r : GapToken g r -> Forall White r.
Proof.
  destruct 1; [constructor|apply Forall_cons; [now left|constructor]|apply Forall_cons; [now right|constructor]].
Qed.
Lemma stripped_facts l out : Stripped l out ->
  Forall (fun t => tk_kind t <> Comment) out /\ NoAdjacentWhite out.
Proof.
  induction 1 as [gap r Hg G|gap r t rest out Hg G Sig St [I1 I2]].
  - destruct G as [g Hc|b u a Hb Hu Ha|b u a Hu Ha]; (split; [repeat constructor; congruence|constructor]).
  - assert (C : Forall (fun t => tk_kind t <> Comment) r).
    { destruct G; repeat constructor; congruence. }
    split.
    + apply Forall_app; split; [exact C|]. constructor; [apply Sig|exact I1].
    + assert (Nt : NoAdjacentWhite (t :: out)).
      { apply NAW_cons_iff. split; [|exact I2]. intros u q _ [W _]. apply not_sig in Sig; auto. }
      destruct G; cbn [app]; [exact Nt| |]; (apply NAW_cons_iff; split; [|exact Nt]);
        intros u q [= <- <-] [_ W]; apply not_sig in Sig; auto.
Qed.
Lemma significant_b_spec t : significant_b t = true <-> Significant t.
Proof. unfold significant_b, Significant. destruct (tk_kind t); intuition congruence. Qed.
Lemma filter_none {A} (f : A -> bool) l : (forall x, In x l -> f x = false) -> filter f l = [].
Proof.
  induction l as [|x l IH]; intros H; [reflexivity|]. cbn. rewrite (H x) by now left. apply IH. intros y Hy. apply H. now right.
Qed.
Lemma stripped_significant l out : Stripped l out -> filter significant_b out = filter significant_b l.
Proof.
  assert (Z : forall g, Forall (fun t => ~ Significant t) g -> filter significant_b g = []).
  { intros g Hg. apply filter_none. intros x Hx. rewrite Forall_forall in Hg. specialize (Hg x Hx).
    destruct (significant_b x) eqn:E; [|reflexivity]. apply significant_b_spec in E. contradiction. }
  assert (Y : forall g r, GapToken g r -> filter significant_b r = []).
  { intros g r G. apply Z. apply gap_white in G. eapply Forall_impl; [|exact G]. intros t W. apply not_sig; auto. }
  induction 1 as [gap r Hg G|gap r t rest out Hg G Sig St IH].
  - rewrite (Z _ Hg), (Y _ _ G). reflexivity.
  - rewrite !filter_app, (Z _ Hg), (Y _ _ G). cbn [app filter]. rewrite IH. reflexivity.
Qed.

(** ** Tokens in context. *)
Lemma lex_at fuel rest : forall cur dir l e tok, lex fuel rest cur dir = Ret (l, e) -> In tok l ->
  exists before after len k err d,
    rest = before ++ tk_text tok ++ after /\ tk_start tok = cur + blen before /\
    tk_end tok = tk_start tok + blen (tk_text tok) /\
    next_token (tk_text tok ++ after) = Ret (len, k, err) /\ len = blen (tk_text tok) /\ tk_kind tok = set_quote_dir k d /\
    (forall x, err = Some x -> In (x, (tk_start tok, tk_end tok)) e) /\
    (forall x r, In (x, (tk_start tok, r)) e -> err = Some x /\ r = tk_end tok).
Proof.
  assert (Low : forall fuel rest cur dir l e, lex fuel rest cur dir = Ret (l, e) -> forall x s r, In (x, (s, r)) e -> cur <= s).
  { intros f; induction f as [|f IH]; intros r0 cur dir l e.
    - destruct r0; [intros [= <- <-] ? ? ? []|discriminate].
    - destruct r0 as [|c t]; [intros [= <- <-] ? ? ? []|]. intros H x s r Hin.
      apply lex_step in H as (len & k & err & text & rest' & toks & errs & Hn & Nt & El & Es & L & -> & ->).
      apply in_app_or in Hin. destruct Hin as [Hin|Hin].
      + destruct err; [|destruct Hin]. destruct Hin as [[= <- <- <-]|[]]. lia.
      + specialize (IH _ _ _ _ _ L _ _ _ Hin). lia. }
  revert rest; induction fuel as [|fuel IH]; intros rest cur dir l e tok.
  - destruct rest; [intros [= <- <-] []|discriminate].
  - destruct rest as [|c t]; [intros [= <- <-] []|]. intros H Hin.
    apply lex_step in H as (len & k & err & text & rest' & toks & errs & Hn & Nt & El & Es & L & -> & ->).
    destruct Hin as [<-|Hin].
    + exists [], rest', len, k, err, dir. cbn [tk_text tk_start tk_end tk_kind app].
      rewrite <- Es. repeat (split; [auto; cbn; lia|]). split.
      * intros x ->. apply in_or_app. left. now left.
      * intros x r Hin. apply in_app_or in Hin. destruct Hin as [Hin|Hin].
        -- destruct err; [|destruct Hin]. destruct Hin as [[= <- <-]|[]]. auto.
        -- specialize (Low _ _ _ _ _ _ L _ _ _ Hin). assert (len <> 0) by (intros ->; apply Nt, blen_0; exact El). lia.
    + destruct (IH _ _ _ _ _ _ L Hin) as (before & after & len' & k' & err' & d' & E1 & E2 & E3 & E4 & E5 & E6 & E7 & E8).
      exists (text ++ before), after, len', k', err', d'. rewrite Es, E1, <- app_assoc, blen_app.
      repeat (split; [auto; lia|]). split.
      * intros x Hx. apply in_or_app. right. now apply E7.
      * intros x r Hx. apply in_app_or in Hx. destruct Hx as [Hx|Hx]; [|now apply E8].
        destruct err; [|destruct Hx]. destruct Hx as [[= <- Hs <-]|[]].
        assert (len <> 0) by (intros ->; apply Nt, blen_0; exact El). lia.
Qed.

Lemma push_subset b l : forall acc t, In t (fold_left (fun acc t => push_token b t acc) l acc) -> In t acc \/ In t l.
Proof.
  induction l as [|x l IH]; intros acc t H; cbn [fold_left] in H; [now left|].
  apply IH in H. destruct H as [H|H]; [|right; now right].
  unfold push_token in H. destruct (_ && _); [now left|].
  destruct acc as [|p acc]; [destruct H as [<-|[]]; right; now left|].
  destruct (_ && _); [destruct (kind_eqb _ _)|].
  - destruct H as [<-|H]; [right; now left|left; now right].
  - now left.
  - destruct H as [<-|H]; [right; now left|now left].
Qed.

Lemma token_at src b toks errs tok : tokenize src b = Ret (toks, errs) -> In tok toks ->
  exists before after len k err d,
    src = before ++ tk_text tok ++ after /\ tk_start tok = blen before /\
    tk_end tok = tk_start tok + blen (tk_text tok) /\
    next_token (tk_text tok ++ after) = Ret (len, k, err) /\ len = blen (tk_text tok) /\ tk_kind tok = set_quote_dir k d /\
    (forall x, err = Some x -> In (x, (tk_start tok, tk_end tok)) errs) /\
    (forall x r, In (x, (tk_start tok, r)) errs -> err = Some x /\ r = tk_end tok).
Proof.
  rewrite tokenize_lex. destruct (lex _ _ _ _) as [[l e]| |] eqn:L; try discriminate. cbn [obind]. intros [= <- <-] Hin.
  apply in_rev in Hin. apply push_subset in Hin. destruct Hin as [[]|Hin].
  exact (lex_at _ _ _ _ _ _ _ L Hin).
Qed.
Lemma app_inj_blen (a b x y : str) : a ++ x = b ++ y -> blen a = blen b -> a = b /\ x = y.
Proof.
  intros E H. assert (S1 : split_bytes (a ++ x) (blen a) = Some (a, x)) by apply split_bytes_app.
  assert (S2 : split_bytes (a ++ x) (blen a) = Some (b, y)) by (rewrite E, H; apply split_bytes_app).
  rewrite S1 in S2. injection S2 as -> ->. auto.
Qed.

(** ** Verbatim text. *)
Lemma ticks_all n : forallb (N.eqb 96) (ticks n) = true.
Proof. induction n; [reflexivity|exact IHn]. Qed.
Lemma ticks_len n : length (ticks n) = n.
Proof. apply repeat_length. Qed.
Lemma ticks_blen n : blen (ticks n) = n.
Proof. induction n as [|n IH]; [reflexivity|]. cbn [ticks repeat blen]. fold (ticks n). rewrite IH. reflexivity. Qed.

Lemma not_tick_head (w : str) : (forall t, w <> 96%N :: t) -> forall c t, w = c :: t -> (96 =? c)%N = false.
Proof. intros H c t ->. apply N.eqb_neq. intros <-. now apply (H t). Qed.

Lemma next_token_verbatim n w after : 1 <= n -> VerbatimBody n w -> (forall t, after <> 96%N :: t) ->
  next_token (ticks n ++ w ++ ticks n ++ after) =
  Ret (n + blen w + n, Verbatim (if 3 <=? n then VMultiline else VSimple),
       if (n <? 3) && existsb (N.eqb 10) w then Some TokenVerbatimMultilineNotEnoughBackticks else None).
Proof.
  intros Hn (Nw & Hrun & Hs & He) Ha. set (src := ticks n ++ w ++ ticks n ++ after).
  destruct (take_while_app_stop (N.eqb 96) (ticks n) (w ++ ticks n ++ after)) as [T D].
  { apply ticks_all. }
  { destruct w as [|x w]; [now destruct Nw|]. cbn [app]. intros c t [= <- <-]. now apply (not_tick_head _ Hs x w). }
  fold src in T, D.
  assert (F : find_sub (ticks n) (w ++ ticks n ++ after) = Some (w, ticks n ++ after)).
  { apply find_sub_found. intros x y Exy Ny t' E.
    (* y is a non-empty end of w; ticks n is a prefix of y ++ ticks n ++ after *)
    destruct (Nat.le_gt_cases n (length y)) as [Hle|Hgt].
    - apply (Hrun x (skipn n y)). rewrite Exy. f_equal.
      rewrite <- (firstn_skipn n y) at 1. f_equal.
      assert (Ef : firstn n (y ++ ticks n ++ after) = firstn n (ticks n ++ t')) by now rewrite E.
      rewrite !firstn_app in Ef. replace (n - length y) with 0 in Ef by lia.
      rewrite ticks_len, Nat.sub_diag in Ef. cbn [firstn] in Ef. rewrite !app_nil_r in Ef. rewrite Ef.
      rewrite <- (ticks_len n) at 1. now rewrite firstn_all.
    - assert (Ey : y = ticks (length y)).
      { assert (Ef : firstn (length y) (y ++ ticks n ++ after) = firstn (length y) (ticks n ++ t')) by now rewrite E.
        rewrite firstn_app, Nat.sub_diag, firstn_all in Ef. cbn [firstn] in Ef. rewrite app_nil_r in Ef.
        rewrite firstn_app, ticks_len in Ef. replace (length y - n) with 0 in Ef by lia. cbn [firstn] in Ef.
        rewrite app_nil_r in Ef. rewrite Ef at 1. clear - Hgt. revert Hgt. generalize (length y) as m. intros m.
        revert n; induction m as [|m IH]; intros n Hgt; [reflexivity|]. destruct n as [|n]; [lia|].
        cbn [ticks repeat firstn]. f_equal. apply IH. lia. }
      destruct (length y) as [|m] eqn:El; [destruct y; [now apply Ny|discriminate]|].
      apply (He (x ++ ticks m)). rewrite Exy, Ey, <- app_assoc. f_equal. unfold ticks.
      change [96%N] with (repeat 96%N 1). rewrite <- repeat_app. f_equal. lia. }
  assert (L3 : starts_with (lit "```") src = (3 <=? n)).
  { unfold src, starts_with. destruct n as [|[|[|n]]]; [lia| | |reflexivity].
    - destruct (strip_prefix _ _) as [u|] eqn:E; [|reflexivity]. apply strip_prefix_spec in E.
      destruct w as [|x w]; [now destruct Nw|]. cbn in E. injection E as -> _. now destruct (Hs w).
    - destruct (strip_prefix _ _) as [u|] eqn:E; [|reflexivity]. apply strip_prefix_spec in E.
      destruct w as [|x w]; [now destruct Nw|]. cbn in E. injection E as -> _. now destruct (Hs w). }
  assert (O : 1 + scan_while (N.eqb 96) (List.tl src) = n).
  { unfold scan_while. destruct n as [|n']; [lia|]. unfold src in T |- *. cbn [ticks repeat app List.tl] in T |- *.
    cbn [take_while N.eqb Pos.eqb] in T. injection T as T. fold (ticks n') in T |- *. rewrite T. rewrite ticks_blen. lia. }
  assert (Hd : exists t, src = 96%N :: t).
  { unfold src. destruct n as [|n']; [lia|]. now eexists. }
  destruct Hd as [t Et]. unfold next_token. rewrite Et. cbv zeta.
  change ((96 =? c_of "#")%N) with false. cbv iota. change (is_ascii_whitespace 96) with false. cbv iota.
  change (is_ident_start 96) with false. change (is_ascii_digit 96) with false. cbv iota.
  change (((96 =? c_of "$") || (96 =? c_of "@"))%N) with false. cbn [andb]. cbv iota.
  change ((96 =? c_of "&")%N) with false. cbn [andb]. cbv iota.
  change ((96 =? c_of "\")%N) with false. cbv iota. change ((96 =? c_of "`")%N) with true. cbv iota.
  change (c_of "`") with 96%N. rewrite <- Et.
  replace (1 + scan_while (N.eqb 96) t) with n by (rewrite <- O, Et; reflexivity).
  rewrite T, D, F, L3.
  assert (Sk : skipn n (ticks n ++ after) = after).
  { rewrite <- (ticks_len n) at 1. rewrite skipn_app, skipn_all, Nat.sub_diag. reflexivity. }
  rewrite Sk.
  assert (Za : scan_while (N.eqb 96) after = 0).
  { unfold scan_while. destruct after as [|x after']; [reflexivity|]. cbn [take_while].
    rewrite (not_tick_head _ Ha x after' eq_refl). reflexivity. }
  rewrite Za, Nat.add_0_r, Nat.ltb_irrefl.
  destruct ((n <? 3) && existsb (N.eqb 10) w); reflexivity.
Qed.

Lemma verbatim_text n w : VerbatimBody n w -> get_verbatim_text (ticks n ++ w ++ ticks n) = w.
Proof.
  intros (Nw & Hrun & Hs & He). unfold get_verbatim_text, trim_by.
  rewrite drop_while_app_all by apply ticks_all.
  rewrite drop_while_id.
  - rewrite trim_end_by_app by apply ticks_all. apply trim_end_by_id. intros a c ->. apply N.eqb_neq. intros <-.
    now apply (He a).
  - destruct w as [|x w]; [now destruct Nw|]. cbn [app]. intros c t [= <- <-]. now apply (not_tick_head _ Hs x w).
Qed.

Lemma verbatim_token n w before after strip toks errs tok :
  1 <= n -> VerbatimBody n w -> n >= 3 \/ ~ In 10%N w -> (forall t, after <> 96%N :: t) ->
  tokenize (before ++ ticks n ++ w ++ ticks n ++ after) strip = Ret (toks, errs) ->
  In tok toks -> tk_start tok = blen before ->
  (exists k, tk_kind tok = Verbatim k) /\ tk_text tok = ticks n ++ w ++ ticks n /\
  get_verbatim_text (tk_text tok) = w /\ (forall e r, ~ In (e, (tk_start tok, r)) errs).
Proof.
  intros Hn HV Hm Ha HT Hin Hst.
  destruct (token_at _ _ _ _ _ HT Hin) as (b' & a' & len & k & err & d & E1 & E2 & E3 & E4 & E5 & E6 & E7 & E8).
  assert (Eb : before = b' /\ ticks n ++ w ++ ticks n ++ after = tk_text tok ++ a').
  { apply app_inj_blen; [exact E1|congruence]. }
  destruct Eb as [<- Er]. rewrite <- Er, next_token_verbatim in E4 by assumption.
  assert (Ne : (n <? 3) && existsb (N.eqb 10) w = false).
  { destruct Hm as [Hm|Hm]; [destruct (Nat.ltb_spec n 3); [lia|reflexivity]|].
    apply andb_false_iff. right. destruct (existsb _ w) eqn:Ex; [|reflexivity].
    apply existsb_exists in Ex as (x & Hx & Ex). apply N.eqb_eq in Ex. subst x. contradiction. }
  rewrite Ne in E4. injection E4 as El Ek Ee.
  assert (Et : tk_text tok = ticks n ++ w ++ ticks n).
  { assert (X : ticks n ++ w ++ ticks n ++ after = (ticks n ++ w ++ ticks n) ++ after) by now rewrite <- !app_assoc.
    rewrite X in Er. apply app_inj_blen in Er as [Er _]; [now symmetry|].
    rewrite !blen_app, ticks_blen. rewrite <- E5, <- El. lia. }
  split; [rewrite E6, <- Ek; eexists; reflexivity|]. split; [exact Et|]. split; [rewrite Et; now apply verbatim_text|].
  intros e r Hx. apply E8 in Hx as [Hx _]. congruence.
Qed.

(** ** Texts of punctuation and keywords. *)
Definition FixedOk (s : str) (len : nat) (k : token_kind) : Prop :=
  fixed_text k <> [] -> exists p t, In p (fixed_text k) /\ s = p ++ t /\ len = blen p.
Lemma fixed_none s len k : fixed_text k = [] -> FixedOk s len k.
Proof. intros H H'. congruence. Qed.
Lemma fixed_one p t k : In p (fixed_text k) -> FixedOk (p ++ t) (blen p) k.
Proof. intros H _. now exists p, t. Qed.
Lemma prefix_scan c f t : is_ascii c = true -> prefix_str (c :: t) (1 + scan_while f t) = c :: take_while f t.
Proof.
  intros Ha. unfold prefix_str, scan_while. replace (1 + blen (take_while f t)) with (blen (c :: take_while f t)).
  2: { cbn [blen]. now rewrite (utf8_len_ascii _ Ha). }
  rewrite <- (take_drop_while f t) at 1. change (c :: take_while f t ++ drop_while f t) with ((c :: take_while f t) ++ drop_while f t).
  now rewrite split_bytes_app.
Qed.
Lemma prefix_scan0 f t : prefix_str t (scan_while f t) = take_while f t.
Proof.
  unfold prefix_str, scan_while. rewrite <- (take_drop_while f t) at 1. now rewrite split_bytes_app.
Qed.
Ltac fx := intros [= <- <- <-]; clean;
  first [apply fixed_none; reflexivity
        |match goal with
         | H : ?c :: ?t = lit ?p ++ ?u |- FixedOk (?c :: ?t) _ _ => rewrite H; refine (fixed_one (lit p) u _ _); first [left; reflexivity|right; left; reflexivity]
         end
        |subst; match goal with |- FixedOk (?c :: ?t) _ _ => refine (fixed_one [c] t _ _); first [left; reflexivity|right; left; reflexivity] end
        |idtac].
Lemma next_token_fixed s len k e : next_token s = Ret (len, k, e) -> FixedOk s len k.
Proof.
  unfold next_token. destruct s as [|c t]; [discriminate|]. cbv zeta.
  arm; [fx|]. arm; [arm; fx|].
  arm.
  { intros [= <- <- <-]. pose proof (ident_start_ascii _ E1) as Ha. rewrite prefix_scan by exact Ha. unfold ident_kind.
    assert (Es : c :: t = (c :: take_while is_ident_cont t) ++ drop_while is_ident_cont t) by (cbn; now rewrite take_drop_while).
    assert (El : S (scan_while is_ident_cont t) = blen (c :: take_while is_ident_cont t)) by (cbn [blen]; now rewrite (utf8_len_ascii _ Ha)).
    repeat (arm; [match goal with H : str_eqb _ _ = true |- _ => apply str_eqb_eq in H; rewrite H in Es, El end;
      rewrite Es, El; apply fixed_one; left; reflexivity|]).
    now apply fixed_none. }
  arm; [fx|].
  arm.
  { intros [= <- <- <-]. arm; [now apply fixed_none|]. apply andb_true_iff in E3. destruct E3 as [Ec _].
    cbn [orb] in Ec. apply N.eqb_eq in Ec. subst c. rewrite prefix_scan0. unfold keyword_kind.
    assert (Es : c_of "@" :: t = (c_of "@" :: take_while is_ident_cont t) ++ drop_while is_ident_cont t) by (cbn; now rewrite take_drop_while).
    assert (El : S (scan_while is_ident_cont t) = blen (c_of "@" :: take_while is_ident_cont t)) by reflexivity.
    repeat (arm; [match goal with H : str_eqb _ _ = true |- _ => apply str_eqb_eq in H; rewrite H in Es, El end;
      rewrite Es, El; apply fixed_one; left; reflexivity|]).
    now apply fixed_none. }
  arm; [arm; fx|].
  arm.
  { destruct t as [|d t2]; [fx|]. arm; [fx|]. arm; [|fx]. destruct (_ <=? blen _); [|fx].
    destruct (split_bytes _ _) as [[? ?]|]; [|discriminate]. arm; fx. }
  arm.
  { destruct (find_sub _ _) as [[? ?]|]; [|fx]. repeat (arm; try solve [fx]); fx. }
  arm.
  { destruct (starts_with (lit "<!--") (c :: t)); [destruct (find_sub _ _) as [[? ?]|]; fx|].
    repeat (arm; try solve [fx]); fx. }
  arm; [fx|]. arm; [fx|]. do 7 (arm; [fx|]). arm; [fx|]. do 5 (arm; [fx|]).
  arm; [arm; fx|]. arm; [arm; fx|]. arm; [arm; fx|]. arm; [arm; fx|]. arm; [fx|]. arm; [fx|]. fx.
Qed.
Lemma token_fixed src b toks errs tok : tokenize src b = Ret (toks, errs) -> In tok toks -> fixed_text (tk_kind tok) <> [] ->
  In (tk_text tok) (fixed_text (tk_kind tok)).
Proof.
  intros H Hin Hk. destruct (token_at _ _ _ _ _ H Hin) as (before & after & len & k & err & d & _ & _ & _ & Hn & Hl & Ek & _).
  assert (Ef : fixed_text (tk_kind tok) = fixed_text k) by (rewrite Ek; destruct k as [| | | | | | | | | | | | | | | | | | | | | | | | | | | | | | | | | | | |[]|]; reflexivity).
  rewrite Ef in *. destruct (next_token_fixed _ _ _ _ Hn Hk) as (p & t & Hp & Es & El).
  apply app_inj_blen in Es; [|congruence]. destruct Es as [-> _]. exact Hp.
Qed.
