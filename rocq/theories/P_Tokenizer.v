(** Proofs about the tokenizer. *)
From Verif Require Import Base BaseFacts M_Text M_Token M_Tokenizer S_Front.

(** ** Token lengths fall on character boundaries. *)
Definition Bound (s : str) (n : nat) := exists a b, s = a ++ b /\ blen a = n.
Lemma bound_0 s : Bound s 0.
Proof. now exists [], s. Qed.
Lemma bound_cons c t n m : Bound t n -> m = utf8_len c + n -> Bound (c :: t) m.
Proof. intros (a & b & -> & <-) ->. now exists (c :: a), b. Qed.
Lemma bound_scan f s : Bound s (scan_while f s).
Proof. exists (take_while f s), (drop_while f s). split; [symmetry; apply take_drop_while|reflexivity]. Qed.
Lemma bound_all s : Bound s (blen s).
Proof. exists s, []. now rewrite app_nil_r. Qed.
Lemma bound_app a b n m : Bound b n -> m = blen a + n -> Bound (a ++ b) m.
Proof. intros (x & y & -> & <-) ->. exists (a ++ x), y. now rewrite app_assoc, blen_app. Qed.
Lemma bound_while f s n m : Bound (drop_while f s) n -> m = scan_while f s + n -> Bound s m.
Proof. intros B ->. rewrite <- (take_drop_while f s) at 1. eapply bound_app; [exact B|reflexivity]. Qed.
Lemma bound_ascii1 c t : is_ascii c = true -> Bound (c :: t) 1.
Proof. intros H. eapply bound_cons; [apply bound_0|]. now rewrite (utf8_len_ascii _ H). Qed.

Lemma next_is_inv f s : next_is f s = true -> exists c t, s = c :: t /\ f c = true.
Proof. destruct s as [|c t]; [discriminate|]. intros H; now exists c, t. Qed.
Lemma starts_with_inv p s : starts_with p s = true -> exists t, s = p ++ t.
Proof.
  unfold starts_with. destruct (strip_prefix p s) as [t|] eqn:E; [|discriminate]. intros _. exists t.
  now apply strip_prefix_spec.
Qed.
Lemma find_sub_spec pat s a b : find_sub pat s = Some (a, b) ->
  s = a ++ b /\ (exists t, b = pat ++ t) /\ (forall x y, a = x ++ y -> y <> [] -> forall t, y ++ b <> pat ++ t).
Proof.
  revert a b; induction s as [|c s IH]; intros a b; cbn [find_sub].
  - destruct (strip_prefix pat []) as [t|] eqn:E; [|discriminate]. intros [= <- <-].
    apply strip_prefix_spec in E. split; [reflexivity|]. split; [now exists t|].
    intros x y Exy Ny. symmetry in Exy. apply app_eq_nil in Exy as [-> ->]. now destruct Ny.
  - destruct (strip_prefix pat (c :: s)) as [t|] eqn:E.
    + intros [= <- <-]. apply strip_prefix_spec in E. split; [reflexivity|]. split; [now exists t|].
      intros x y Exy Ny. symmetry in Exy. apply app_eq_nil in Exy as [-> ->]. now destruct Ny.
    + destruct (find_sub pat s) as [[a' b']|] eqn:F; [|discriminate]. intros [= <- <-].
      destruct (IH _ _ eq_refl) as (-> & Hb & M). split; [reflexivity|]. split; [exact Hb|].
      intros [|z x] y Exy Ny t.
      * cbn in Exy. subst y. intros Et. cbn in Et. apply strip_prefix_spec in Et. congruence.
      * injection Exy as <- ->. now apply (M x).
Qed.
Lemma find_sub_found pat a t :
  (forall x y, a = x ++ y -> y <> [] -> forall t', y ++ pat ++ t <> pat ++ t') ->
  find_sub pat (a ++ pat ++ t) = Some (a, pat ++ t).
Proof.
  induction a as [|c a IH]; intros H; cbn [app].
  - replace (find_sub pat (pat ++ t)) with (Some ([] : str, pat ++ t)); [reflexivity|].
    assert (E : strip_prefix pat (pat ++ t) = Some t) by now apply strip_prefix_spec.
    destruct (pat ++ t) as [|x l]; cbn [find_sub]; now rewrite E.
  - cbn [find_sub]. destruct (strip_prefix pat (c :: a ++ pat ++ t)) as [u|] eqn:E.
    + apply strip_prefix_spec in E. exfalso. now apply (H [] (c :: a) eq_refl ltac:(discriminate) u).
    + rewrite IH; [reflexivity|]. intros x y -> Ny t'. now apply (H (c :: x) y).
Qed.

(** Case analysis along the arms of [next_token]. *)
Ltac arm :=
  match goal with
  | |- context [if ?b then _ else _] =>
    lazymatch b with context [if _ then _ else _] => fail | _ => let E := fresh "E" in destruct b eqn:E end
  end.
Ltac clean :=
  repeat match goal with
  | H : (?c =? _)%N = true |- _ => apply N.eqb_eq in H
  | H : _ && _ = true |- _ => apply andb_true_iff in H as [? ?]
  | H : next_is _ _ = true |- _ => apply next_is_inv in H as (? & ? & -> & ?)
  | H : starts_with _ _ = true |- _ => apply starts_with_inv in H as (? & ?)
  end.

Definition starts_ascii (c : char) : bool := is_ascii c.
Lemma ident_start_ascii c : is_ident_start c = true -> is_ascii c = true.
Proof. unfold is_ident_start, is_ascii_alphabetic, is_ascii_lower, is_ascii_upper, is_ascii, in_range. lia. Qed.
Lemma alpha_ascii c : is_ascii_alphabetic c = true -> is_ascii c = true.
Proof. unfold is_ascii_alphabetic, is_ascii_lower, is_ascii_upper, is_ascii, in_range. lia. Qed.
Lemma ws_ascii c : is_ascii_whitespace c = true -> is_ascii c = true.
Proof. unfold is_ascii_whitespace, is_ascii. lia. Qed.

Lemma take_ticks_len f s : (forall c, f c = true -> is_ascii c = true) -> scan_while f s = length (take_while f s).
Proof.
  intros H. unfold scan_while. apply blen_ascii. apply forallb_impl with (f := f); [exact H|apply take_while_all].
Qed.
Lemma tick_ascii c : N.eqb (c_of "`") c = true -> is_ascii c = true.
Proof. intros H. apply N.eqb_eq in H. subst. reflexivity. Qed.

Lemma take_while_app_stop f a b : forallb f a = true -> (forall c t, b = c :: t -> f c = false) ->
  take_while f (a ++ b) = a /\ drop_while f (a ++ b) = b.
Proof.
  induction a as [|c a IH]; cbn [app forallb]; intros H Hb.
  - destruct b as [|c b]; [auto|]. cbn. now rewrite (Hb c b eq_refl).
  - apply andb_true_iff in H as [Hc H]. cbn [take_while drop_while]. rewrite Hc. destruct (IH H Hb) as [-> ->]. auto.
Qed.

Lemma next_token_bound s len k e : next_token s = Ret (len, k, e) -> Bound s len /\ 1 <= len.
Proof.
  unfold next_token. destruct s as [|c t]; [discriminate|]. cbv zeta.
  arm; [intros [= <- <- <-]; clean; subst c; split; [|arm; lia]|].
  { arm.
    - eapply bound_cons; [apply bound_scan|reflexivity].
    - eapply bound_cons; [apply (bound_while (fun c => negb (c =? 10)%N)) with (n := scan_while is_ascii_whitespace
        (drop_while (fun c => negb (c =? 10)%N) t)); [apply bound_scan|reflexivity]|].
      change (utf8_len (c_of "#")) with 1. lia. }
  arm; [intros [= <- <- <-]; clean; split; [|solve [clear; lia]]|].
  { eapply bound_cons; [apply bound_scan|]. now rewrite (utf8_len_ascii c (ws_ascii _ E0)). }
  arm; [intros [= <- <- <-]; clean; split; [|solve [clear; lia]]|].
  { eapply bound_cons; [apply bound_scan|]. now rewrite (utf8_len_ascii c (ident_start_ascii _ E1)). }
  arm; [intros [= <- <- <-]; clean; split; [|solve [clear; lia]]|].
  { eapply bound_cons; [apply bound_scan|]. now rewrite (utf8_len_ascii c (digit_is_ascii _ E2)). }
  arm; [intros [= <- <- <-]; clean; split; [|solve [clear; lia]]|].
  { eapply bound_cons; [apply bound_scan|]. apply orb_true_iff in H. destruct H as [H|H]; clean; now subst c. }
  arm.
  { clean. subst c. cbn [List.tl].
    assert (A : is_ascii x = true).
    { match goal with H : _ || _ = true |- _ => apply orb_true_iff in H; destruct H as [H|H] end;
        [now apply alpha_ascii|clean; now subst x]. }
    arm; intros [= <- <- <-]; (split; [|solve [clear; lia]]).
    - apply next_is_inv in E4 as (y & z & E4 & Ey). apply N.eqb_eq in Ey. subst y.
      eapply bound_cons; [eapply bound_cons; [eapply bound_while; [|reflexivity]|]|].
      + rewrite E4. eapply bound_cons; [apply bound_0|reflexivity].
      + reflexivity.
      + rewrite (utf8_len_ascii x A). change (utf8_len (c_of "&")) with 1. change (utf8_len (c_of ";")) with 1. lia.
    - eapply bound_cons; [eapply bound_cons; [apply bound_scan|reflexivity]|].
      rewrite (utf8_len_ascii x A). reflexivity. }
  arm.
  { clean. subst c. destruct t as [|d t2].
    { intros [= <- <- <-]. split; [apply bound_ascii1; reflexivity|lia]. }
    arm; [intros [= <- <- <-]; split; [apply bound_ascii1; reflexivity|lia]|].
    arm.
    - assert (A : is_ascii d = true).
      { apply orb_true_iff in E6. destruct E6 as [E6|E6]; [apply orb_true_iff in E6; destruct E6 as [E6|E6]|];
          clean; now subst d. }
      set (end_ := if (d =? c_of "x")%N then 4 else if (d =? c_of "u")%N then 6 else 10).
      assert (He : 4 <= end_) by (unfold end_; repeat arm; lia).
      assert (B2 : Bound (c_of "\" :: d :: t2) 2).
      { eapply bound_cons; [eapply bound_cons; [apply bound_0|reflexivity]|]. rewrite (utf8_len_ascii d A). reflexivity. }
      destruct (end_ <=? _); [|intros [= <- <- <-]; auto].
      destruct (split_bytes t2 (end_ - 2)) as [[dg r]|] eqn:Sp; [|discriminate].
      apply split_bytes_spec in Sp as [-> Hl].
      destruct (forallb _ _); intros [= <- <- <-]; [|auto]. split; [|solve [lia]].
      eapply bound_cons; [eapply bound_cons; [eapply bound_app; [apply bound_0|reflexivity]|reflexivity]|].
      rewrite (utf8_len_ascii d A), Hl. cbn [c_of lit]. change (utf8_len _) with 1. lia.
    - intros [= <- <- <-]. split; [|solve [clear; lia]]. eapply bound_cons; [eapply bound_cons; [apply bound_0|reflexivity]|].
      change (utf8_len (c_of "\")) with 1. lia. }
  arm.
  { clean. subst c. set (src := c_of "`" :: t). set (tick := N.eqb (c_of "`")).
    assert (Eo : 1 + scan_while tick t = scan_while tick src) by reflexivity. rewrite Eo.
    assert (L1 : 1 <= scan_while tick src) by lia.
    destruct (find_sub _ _) as [[content from]|] eqn:F.
    - apply find_sub_spec in F as (Er & (u & Eu) & _).
      assert (G : Bound src (scan_while tick src + blen content +
                  (scan_while tick src + scan_while tick (skipn (scan_while tick src) from)))).
      { eapply bound_while; [|rewrite <- Nat.add_assoc; reflexivity]. fold tick in Er. rewrite Er.
        eapply bound_app; [|reflexivity]. rewrite Eu. eapply bound_app; [apply bound_scan|].
        f_equal. fold tick. f_equal. f_equal.
        rewrite (take_ticks_len tick src) by apply tick_ascii. rewrite skipn_app, skipn_all, Nat.sub_diag. reflexivity. }
      arm; [|arm]; intros [= <- <- <-]; (split; [exact G|lia]).
    - intros [= <- <- <-]. split; [apply bound_all|]. unfold src. cbn [blen]. change (utf8_len _) with 1. lia. }
  arm.
  { arm.
    { clean. assert (S4 : skipn 4 (c :: t) = x) by now rewrite H. rewrite S4, H.
      destruct (find_sub _ x) as [[content r]|] eqn:F.
      - apply find_sub_spec in F as (-> & (u & ->) & _). intros [= <- <- <-]. split; [|solve [clear; lia]].
        eapply (bound_app (lit "<!--")); [eapply bound_app; [eapply (bound_app (lit "-->")); [apply bound_0|reflexivity]
          |reflexivity]|]. cbn. lia.
      - intros [= <- <- <-]. split; [apply bound_all|]. cbn. lia. }
    arm.
    { clean. subst c x. cbn [List.tl].
      arm.
      - clean. cbn [List.tl]. arm.
        + match goal with H : next_is _ (drop_while _ _) = true |- _ => apply next_is_inv in H as (y & z & E10 & Ey) end.
          apply N.eqb_eq in Ey. subst y. intros [= <- <- <-].
          split; [|solve [clear; lia]].
          eapply bound_cons; [eapply bound_cons; [eapply bound_cons; [eapply bound_while; [rewrite E10;
            eapply bound_cons; [apply bound_0|reflexivity]|reflexivity]|reflexivity]|reflexivity]|].
          rewrite (utf8_len_ascii x) by now apply ident_start_ascii.
          change (utf8_len _) with 1. change (utf8_len (c_of "<")) with 1. change (utf8_len (c_of "/")) with 1. lia.
        + intros [= <- <- <-]. split; [|solve [clear; lia]].
          eapply bound_cons; [eapply bound_cons; [eapply bound_cons; [apply bound_scan|reflexivity]|reflexivity]|].
          rewrite (utf8_len_ascii x) by now apply ident_start_ascii. reflexivity.
      - arm; intros [= <- <- <-]; (split; [|solve [clear; lia]]).
        + match goal with H : starts_with _ _ = true |- _ => apply starts_with_inv in H as [y E10] end. rewrite E10.
          eapply (bound_app (lit "</>")); [apply bound_0|reflexivity].
        + eapply bound_cons; [eapply bound_cons; [apply bound_0|reflexivity]|reflexivity]. }
    intros [= <- <- <-]. split; [|solve [clear; lia]]. clean. subst c. apply bound_ascii1; reflexivity. }
  arm.
  { intros [= <- <- <-]. clean. match goal with H : _ :: _ = lit _ ++ _ |- _ => rewrite H end. split; [|solve [clear; lia]]. eapply (bound_app (lit "->")); [apply bound_0|reflexivity]. }
  arm.
  { intros [= <- <- <-]. clean. subst c. cbn [List.tl]. split; [|solve [clear; lia]].
    eapply bound_cons; [eapply bound_cons; [apply bound_scan|reflexivity]|].
    rewrite (utf8_len_ascii x) by now apply digit_is_ascii. reflexivity. }
  do 7 (arm; [intros [= <- <- <-]; clean; subst c; split; [apply bound_ascii1; reflexivity|apply le_n]|]).
  arm.
  { intros [= <- <- <-]. clean. match goal with H : _ :: _ = lit _ ++ _ |- _ => rewrite H end. split; [|solve [clear; lia]]. eapply (bound_app (lit "/>")); [apply bound_0|reflexivity]. }
  do 5 (arm; [intros [= <- <- <-]; clean; subst c; split; [apply bound_ascii1; reflexivity|apply le_n]|]).
  arm; [clean; arm; intros [= <- <- <-]|].
  { clean. match goal with H : _ :: _ = lit _ ++ _ |- _ => rewrite H end. split; [|solve [clear; lia]]. eapply (bound_app (lit "**")); [apply bound_0|reflexivity]. }
  { subst c. split; [apply bound_ascii1; reflexivity|apply le_n]. }
  arm; [clean; arm; intros [= <- <- <-]|].
  { clean. match goal with H : _ :: _ = lit _ ++ _ |- _ => rewrite H end. split; [|solve [clear; lia]]. eapply (bound_app (lit "::")); [apply bound_0|reflexivity]. }
  { subst c. split; [apply bound_ascii1; reflexivity|apply le_n]. }
  arm; [clean; arm; intros [= <- <- <-]|].
  { clean. match goal with H : _ :: _ = lit _ ++ _ |- _ => rewrite H end. split; [|solve [clear; lia]]. eapply (bound_app (lit "?::")); [apply bound_0|reflexivity]. }
  { subst c. split; [apply bound_ascii1; reflexivity|apply le_n]. }
  arm; [clean; arm; intros [= <- <- <-]|].
  { clean. match goal with H : _ :: _ = lit _ ++ _ |- _ => rewrite H end. split; [|solve [clear; lia]]. eapply (bound_app (lit "...")); [apply bound_0|reflexivity]. }
  { subst c. split; [apply bound_ascii1; reflexivity|apply le_n]. }
  do 2 (arm; [intros [= <- <- <-]; clean; subst c; split; [apply bound_ascii1; reflexivity|apply le_n]|]).
  intros [= <- <- <-]. split; [eapply bound_cons; [apply bound_scan|reflexivity]|].
  pose proof (utf8_len_pos c) as HP. clear - HP. lia.
Qed.

(** ** Kinds. *)
Lemma ident_kind_cases n : ident_kind n = Name \/ ident_kind n = Underscore \/ exists b, ident_kind n = Boolean b.
Proof. unfold ident_kind. repeat arm; eauto. Qed.
Lemma keyword_kind_cases n : keyword_kind n = FuncName \/ exists k, keyword_kind n = Kw k.
Proof. unfold keyword_kind. repeat arm; eauto. Qed.
Lemma ident_not_ws n : kind_is_whitespace (ident_kind n) = false.
Proof. destruct (ident_kind_cases n) as [->|[->|[b ->]]]; reflexivity. Qed.
Lemma keyword_not_ws n : kind_is_whitespace (keyword_kind n) = false.
Proof. destruct (keyword_kind_cases n) as [->|[b ->]]; reflexivity. Qed.

Ltac arms H :=
  repeat match type of H with
  | context [if ?b then _ else _] =>
    lazymatch b with context [if _ then _ else _] => fail | _ => let E := fresh "E" in destruct b eqn:E end
  end.

Lemma next_token_ws s len k e : next_token s = Ret (len, k, e) -> kind_is_whitespace k = true ->
  exists c t, s = c :: t /\ is_ascii_whitespace c = true /\ len = 1 + scan_while is_ascii_whitespace t.
Proof.
  intros H Hk. unfold next_token in H. destruct s as [|c t]; [discriminate|]. cbv zeta in H.
  destruct (c =? c_of "#")%N; [injection H as <- <- <-; discriminate|].
  destruct (is_ascii_whitespace c) eqn:W; [injection H as <- <- <-; now exists c, t|]. exfalso.
  destruct (is_ident_start c); [injection H as <- <- <-; now rewrite ident_not_ws in Hk|].
  destruct (is_ascii_digit c); [injection H as <- <- <-; discriminate|].
  destruct ((_ || _) && _).
  { injection H as <- <- <-. destruct (c =? c_of "$")%N; [discriminate|]. now rewrite keyword_not_ws in Hk. }
  destruct (_ && _); [arms H; injection H as <- <- <-; discriminate|].
  destruct (c =? _)%N.
  { destruct t as [|d t]; [injection H as <- <- <-; discriminate|].
    destruct (d =? 10)%N; [injection H as <- <- <-; discriminate|].
    destruct (_ || _); [|injection H as <- <- <-; discriminate].
    destruct (_ <=? blen _); [|injection H as <- <- <-; discriminate].
    destruct (split_bytes _ _) as [[? ?]|]; [|discriminate]. arms H; injection H as <- <- <-; discriminate. }
  destruct (c =? _)%N.
  { destruct (find_sub _ _) as [[? ?]|]; [|injection H as <- <- <-; discriminate].
    destruct (_ <? _); [injection H as <- <- <-; discriminate|].
    destruct (_ && _); injection H as <- <- <-; discriminate. }
  destruct (c =? _)%N.
  { destruct (starts_with _ _).
    { destruct (find_sub _ _) as [[? ?]|]; injection H as <- <- <-; discriminate. }
    arms H; injection H as <- <- <-; discriminate. }
  destruct (_ && _); [injection H as <- <- <-; discriminate|].
  destruct (_ && _); [injection H as <- <- <-; discriminate|].
  do 7 (destruct (c =? _)%N; [injection H as <- <- <-; discriminate|]).
  destruct (_ && _); [injection H as <- <- <-; discriminate|].
  do 5 (destruct (c =? _)%N; [injection H as <- <- <-; discriminate|]).
  do 4 (destruct (c =? _)%N; [destruct (starts_with _ _); injection H as <- <- <-; discriminate|]).
  do 2 (destruct (c =? _)%N; [injection H as <- <- <-; discriminate|]).
  injection H as <- <- <-; discriminate.
Qed.

(** ** The stream of all tokens, before comments and whitespace are merged. *)
Fixpoint lex (fuel : nat) (rest : str) (cur : nat) (dir : quote_dir)
  : outcome (list token * list (syntax_error * (nat * nat))) :=
  match rest with
  | [] => Ret ([], [])
  | _ =>
    match fuel with
    | O => OutOfFuel
    | S fuel =>
      obind (next_token rest) (fun '(len, kind, error) =>
        match len with
        | O => Panic
        | _ =>
          let kind := set_quote_dir kind dir in
          match split_bytes rest len with
          | None => Panic
          | Some (text, rest') =>
            obind (lex fuel rest' (cur + len) (next_quote_dir kind)) (fun '(toks, errs) =>
              Ret ({| tk_kind := kind; tk_text := text; tk_start := cur; tk_end := cur + len |} :: toks,
                   match error with Some e => [(e, (cur, cur + len))] | None => [] end ++ errs))
          end
        end)
    end
  end.

Lemma loop_lex fuel b rest : forall cur dir toks errs,
  tokenize_loop fuel b rest cur dir toks errs =
  obind (lex fuel rest cur dir) (fun '(l, e) =>
    Ret (rev (fold_left (fun acc t => push_token b t acc) l toks), rev errs ++ e)).
Proof.
  revert rest; induction fuel as [|fuel IH]; intros rest cur dir toks errs.
  - destruct rest; cbn; [now rewrite app_nil_r|reflexivity].
  - destruct rest as [|c t]; [cbn; now rewrite app_nil_r|]. cbn [tokenize_loop lex].
    destruct (next_token (c :: t)) as [[[len k] e]| |]; cbn [obind]; try reflexivity.
    destruct len as [|len]; [reflexivity|].
    destruct (split_bytes _ _) as [[text rest']|]; [|reflexivity]. rewrite IH.
    destruct (lex fuel rest' _ _) as [[l es]| |]; cbn [obind]; try reflexivity. cbn [fold_left].
    do 2 f_equal. destruct e; [|reflexivity]. cbn [rev]. now rewrite <- app_assoc.
Qed.

Lemma tokenize_lex src b : tokenize src b =
  obind (lex (length src) src 0 QLeft) (fun '(l, e) =>
    Ret (rev (fold_left (fun acc t => push_token b t acc) l []), e)).
Proof. unfold tokenize. rewrite loop_lex. destruct (lex _ _ _ _) as [[l e]| |]; reflexivity. Qed.

Lemma lex_step fuel c t cur dir l e : lex (S fuel) (c :: t) cur dir = Ret (l, e) ->
  exists len k err text rest' toks errs,
    next_token (c :: t) = Ret (len, k, err) /\ text <> [] /\ blen text = len /\ c :: t = text ++ rest' /\
    lex fuel rest' (cur + len) (next_quote_dir (set_quote_dir k dir)) = Ret (toks, errs) /\
    l = {| tk_kind := set_quote_dir k dir; tk_text := text; tk_start := cur; tk_end := cur + len |} :: toks /\
    e = match err with Some x => [(x, (cur, cur + len))] | None => [] end ++ errs.
Proof.
  cbn [lex]. destruct (next_token (c :: t)) as [[[len k] err]| |] eqn:N; try discriminate. cbn [obind].
  destruct len as [|len]; [discriminate|].
  destruct (split_bytes (c :: t) (S len)) as [[text rest']|] eqn:Sp; [|discriminate].
  apply split_bytes_spec in Sp as [Es El].
  destruct (lex fuel rest' _ _) as [[toks errs]| |] eqn:L; try discriminate. cbn [obind]. intros [= <- <-].
  exists (S len), k, err, text, rest', toks, errs. repeat (split; [first [reflexivity|assumption]|]).
  split; [intros ->; discriminate|].
  repeat (split; [first [reflexivity|assumption]|]). reflexivity.
Qed.

Lemma lex_tiles fuel rest : forall cur dir l e, lex fuel rest cur dir = Ret (l, e) -> Tiles cur rest l.
Proof.
  revert rest; induction fuel as [|fuel IH]; intros rest cur dir l e.
  - destruct rest; [intros [= <- <-]; constructor|discriminate].
  - destruct rest as [|c t]; [intros [= <- <-]; constructor|]. intros H.
    apply lex_step in H as (len & k & err & text & rest' & toks & errs & _ & Nt & El & Es & L & -> & _).
    rewrite Es.
    change text with (tk_text {| tk_kind := set_quote_dir k dir; tk_text := text; tk_start := cur; tk_end := cur + len |})
      at 1.
    apply Tiles_cons; cbn [tk_text tk_start tk_end]; auto. eapply IH; exact L.
Qed.

Lemma lex_fuel fuel rest : length rest <= fuel -> forall cur dir, lex fuel rest cur dir <> OutOfFuel.
Proof.
  revert rest; induction fuel as [|fuel IH]; intros rest Hl cur dir.
  - destruct rest; [discriminate|cbn in Hl; lia].
  - destruct rest as [|c t]; [discriminate|]. cbn [lex].
    destruct (next_token (c :: t)) as [[[len k] err]| |] eqn:N; cbn [obind]; try discriminate.
    2:{ exfalso. clear - N. unfold next_token in N. cbv zeta in N.
        repeat match type of N with
        | (if ?b then _ else _) = _ => destruct b
        | match ?x with _ => _ end = _ => destruct x
        end; discriminate N. }
    destruct len as [|len]; [discriminate|].
    destruct (split_bytes (c :: t) (S len)) as [[text rest']|] eqn:Sp; [|discriminate].
    apply split_bytes_spec in Sp as [Es El].
    assert (Hr : length rest' <= fuel).
    { destruct text as [|x text]; [discriminate|]. cbn [app length] in *. injection Es as -> ->.
      rewrite app_length in Hl. lia. }
    pose proof (IH rest' Hr (cur + S len) (next_quote_dir (set_quote_dir k dir))) as G.
    destruct (lex fuel rest' _ _) as [[toks errs]| |]; [discriminate|discriminate|congruence].
Qed.

(** ** Whitespace. *)
Lemma set_dir_ws k d : kind_is_whitespace (set_quote_dir k d) = kind_is_whitespace k.
Proof. destruct k; reflexivity. Qed.

Lemma NAW_cons_iff t l : NoAdjacentWhite (t :: l) <->
  (forall u r, l = u :: r -> ~ (White t /\ White u)) /\ NoAdjacentWhite l.
Proof.
  split.
  - inversion 1; subst; (split; [|auto; constructor]); intros ? ? E; [discriminate|]. now injection E as <- <-.
  - intros [H1 H2]. destruct l as [|u r]; constructor; [now apply (H1 u r)|exact H2].
Qed.
Lemma ws_White t : tok_is_whitespace t = true <-> White t.
Proof.
  unfold tok_is_whitespace, kind_is_whitespace, kind_eqb, White.
  destruct (kind_eq_dec _ Whitespace), (kind_eq_dec _ Newline); cbn; intuition congruence.
Qed.

Lemma lex_no_adjacent fuel rest : forall cur dir l e, lex fuel rest cur dir = Ret (l, e) ->
  NoAdjacentWhite l /\ forall t l', l = t :: l' -> White t -> exists c r, rest = c :: r /\ is_ascii_whitespace c = true.
Proof.
  revert rest; induction fuel as [|fuel IH]; intros rest cur dir l e.
  - destruct rest; [intros [= <- <-]; split; [constructor|discriminate]|discriminate].
  - destruct rest as [|c t]; [intros [= <- <-]; split; [constructor|discriminate]|]. intros H.
    apply lex_step in H as (len & k & err & text & rest' & toks & errs & Hn & Nt & El & Es & L & -> & _).
    destruct (IH _ _ _ _ _ L) as [H1 H2]. split.
    + apply NAW_cons_iff. split; [|exact H1]. intros u r -> [W Wu].
      apply ws_White in W. unfold tok_is_whitespace in W. cbn [tk_kind] in W. rewrite set_dir_ws in W.
      apply next_token_ws in Hn as (c' & t' & E' & Hc & Hlen); [|exact W]. injection E' as <- <-.
      destruct (H2 u r eq_refl Wu) as (x & y & -> & Hx).
      assert (Et : text = c :: take_while is_ascii_whitespace t /\ x :: y = drop_while is_ascii_whitespace t).
      { assert (S1 : split_bytes (c :: t) len = Some (text, x :: y)) by (apply split_bytes_spec; auto).
        assert (S2 : split_bytes (c :: t) len =
          Some (c :: take_while is_ascii_whitespace t, drop_while is_ascii_whitespace t)).
        { apply split_bytes_spec. split; [cbn [app]; now rewrite take_drop_while|].
          cbn [blen]. rewrite (utf8_len_ascii c) by now apply ws_ascii. rewrite Hlen. reflexivity. }
        rewrite S1 in S2. injection S2 as -> ->. auto. }
      destruct Et as [_ Et]. symmetry in Et. apply drop_while_head in Et. congruence.
    + intros u l' [= <- <-] W. apply ws_White in W. unfold tok_is_whitespace in W. cbn [tk_kind] in W.
      rewrite set_dir_ws in W. apply next_token_ws in Hn as (c' & t' & E' & Hc & _); [|exact W].
      injection E' as <- <-. now exists c, t.
Qed.

Lemma push_all l : forall acc, NoAdjacentWhite (rev acc ++ l) ->
  fold_left (fun acc t => push_token false t acc) l acc = rev l ++ acc.
Proof.
  induction l as [|t l IH]; intros acc H; [reflexivity|]. cbn [fold_left rev].
  assert (E : push_token false t acc = t :: acc).
  { unfold push_token. rewrite andb_false_r. destruct acc as [|p acc]; [reflexivity|].
    destruct (tok_is_whitespace t && tok_is_whitespace p) eqn:W; [|reflexivity]. exfalso.
    apply andb_true_iff in W as [W1 W2]. apply ws_White in W1, W2.
    cbn [rev] in H. rewrite <- app_assoc in H. cbn [app] in H. revert H. clear - W1 W2.
    induction (rev acc) as [|x xs IH]; cbn [app]; intros H.
    - apply NAW_cons_iff in H as [H _]. now apply (H t l).
    - apply NAW_cons_iff in H as [_ H]. now apply IH. }
  rewrite E, IH.
  - now rewrite <- app_assoc.
  - cbn [rev]. now rewrite <- app_assoc.
Qed.

Lemma tokenize_all src l e : tokenize src false = Ret (l, e) <-> lex (length src) src 0 QLeft = Ret (l, e).
Proof.
  rewrite tokenize_lex. destruct (lex _ _ _ _) as [[l' e']| |] eqn:L; cbn [obind]; try (split; discriminate).
  destruct (lex_no_adjacent _ _ _ _ _ _ L) as [H _]. rewrite push_all by exact H.
  rewrite app_nil_r, rev_involutive. reflexivity.
Qed.

Lemma tokenize_tiles src toks errs : tokenize src false = Ret (toks, errs) -> Tiles 0 src toks.
Proof. intros H. apply tokenize_all in H. eapply lex_tiles; exact H. Qed.
Lemma tokenize_terminates src b : tokenize src b <> OutOfFuel.
Proof.
  rewrite tokenize_lex. pose proof (lex_fuel (length src) src (le_n _) 0 QLeft) as H.
  destruct (lex _ _ _ _) as [[l e]| |]; cbn [obind]; congruence.
Qed.

Lemma tiles_concat pos s l : Tiles pos s l -> List.concat (map tk_text l) = s.
Proof. induction 1 as [|? ? ? ? ? ? ? ? IH]; cbn; [reflexivity|now rewrite IH]. Qed.
