(** Exactly when the tokenizer crashes (C15). *)
From Verif Require Import Base BaseFacts M_Token M_Tokenizer S_Text S_Front S_Lex P_Tokenizer P_Lex1 P_Lex2 P_Lex3 P_Lex.

Lemma cut_panics s : CutEscape s -> next_token s = Panic.
Proof.
  intros (c & n & rest & -> & I & L & N). destruct (numeric_cases c n I) as (A & C1 & C2 & C3). start. go.
  change (c_of "x") with 120%N. change (c_of "u") with 117%N. change (c_of "U") with 85%N. rewrite C1, C2, C3.
  rewrite !blen_one by (try exact A; lia). replace (2 + n - 2) with n by lia.
  replace (2 + n <=? 1 + (1 + blen rest)) with true by (symmetry; apply Nat.leb_le; lia).
  destruct (split_bytes rest n) as [[a b]|] eqn:S; [|reflexivity]. apply split_bytes_spec in S as [E1 E2]. now elim (N a b).
Qed.
Lemma reads_cut dir src rest : Reads dir src rest -> CutEscape rest -> forall fuel cur, length src <= fuel -> lex fuel src cur dir = Panic.
Proof.
  induction 1 as [dir rest|dir text after k complaint next rest X A R IH]; intros C fuel cur F.
  - pose proof (cut_panics _ C) as P. destruct C as (c & n & t & -> & _). destruct fuel as [|fuel]; [cbn in F; lia|]. cbn [lex]. now rewrite P.
  - pose proof (lexeme_nonempty _ _ _ _ _ X) as Ne. destruct (next_token_complete _ _ _ _ _ X) as [Cut|(k0 & N & S)].
    + pose proof (cut_panics _ Cut) as P. destruct Cut as (c & n & t & E & _). rewrite E in *. destruct fuel as [|fuel]; [cbn in F; lia|]. cbn [lex]. now rewrite P.
    + destruct text as [|c text]; [congruence|]. destruct fuel as [|fuel]; [cbn in F; lia|]. cbn [app lex]. change (c :: text ++ after) with ((c :: text) ++ after).
      rewrite N. cbn [obind]. destruct (blen (c :: text)) eqn:B; [now apply blen_0 in B|]. rewrite <- B. rewrite split_bytes_app. cbv zeta. rewrite S.
      apply after_is in A as ->. rewrite IH; [reflexivity|exact C|]. cbn in F. rewrite app_length in F. lia.
Qed.
Lemma lex_panic fuel : forall src cur dir, length src <= fuel -> lex fuel src cur dir = Panic -> exists rest, Reads dir src rest /\ CutEscape rest.
Proof.
  induction fuel as [|fuel IH]; intros src cur dir F H; [destruct src; discriminate|]. destruct src as [|c t]; [discriminate|]. cbn [lex] in H.
  destruct (next_token (c :: t)) as [[[len k] err]| |] eqn:N; [|exists (c :: t); split; [constructor|now apply next_token_panic]|discriminate].
  destruct (next_token_sound dir _ _ _ _ N) as (text & rest & E & B & Lx). pose proof (lexeme_nonempty _ _ _ _ _ Lx) as Ne. cbn [obind] in H.
  destruct len as [|len]; [now apply blen_0 in B|]. cbv zeta in H.
  replace (split_bytes (c :: t) (S len)) with (Some (text, rest)) in H by (rewrite E, <- B; symmetry; apply split_bytes_app).
  destruct (IH rest (cur + S len) (next_quote_dir (set_quote_dir k dir))) as (b & R & C).
  - rewrite E, app_length in F. destruct text; [now destruct Ne|cbn in F; lia].
  - destruct (lex fuel rest _ _) as [[? ?]| |]; [discriminate|reflexivity|discriminate].
  - exists b. split; [|exact C]. rewrite E. eapply reads_more; [exact Lx|now apply after_is|exact R].
Qed.
Lemma tokenize_panic src strip : tokenize src strip = Panic <-> exists rest, Reads QLeft src rest /\ CutEscape rest.
Proof.
  rewrite tokenize_lex. split.
  - intro H. destruct (lex (length src) src 0 QLeft) as [[? ?]| |] eqn:L; [discriminate| |discriminate]. eapply lex_panic; [apply le_n|exact L].
  - intros (rest & R & C). now rewrite (reads_cut _ _ _ R C _ _ (le_n _)).
Qed.

(** ** Every text has exactly one reading *)
Lemma cut_short c n rest : In (c, n) numeric_escapes -> (forall a b, rest = a ++ b -> blen a <> n) -> ~ (n <= length rest /\ Forall HexDigitChar (firstn n rest)).
Proof.
  intros I N [L F]. apply (N (firstn n rest) (skipn n rest)); [symmetry; apply firstn_skipn|]. rewrite blen_ascii; [now apply firstn_length_le|].
  rewrite forallb_forall. rewrite Forall_forall in F. intros x Hx. specialize (F x Hx). unfold HexDigitChar, Digit, is_ascii in *. lia.
Qed.
Lemma lexeme_exists dir c t : exists text rest k e, c :: t = text ++ rest /\ Lexeme dir text rest k e.
Proof.
  destruct (next_token (c :: t)) as [[[len k] err]| |] eqn:N.
  - destruct (next_token_sound dir _ _ _ _ N) as (text & rest & E & B & Lx). eauto 6.
  - apply next_token_panic in N as (d & n & rest & E & I & _ & N). injection E as -> ->. exists [92%N; d], rest, Escape, (Some TokenInvalidEscape).
    split; [reflexivity|]. apply (lx_escape_short dir d n); [exact I|now apply (cut_short d)].
  - exfalso. pose proof (lex_fuel (length (c :: t)) (c :: t) (le_n _) 0 QLeft) as H. cbn [length lex] in H. rewrite N in H. now apply H.
Qed.
Lemma lexeme_cut dir text rest k e : Lexeme dir text rest k e -> CutEscape (text ++ rest) -> exists c, text = [92%N; c] /\ k = Escape /\ e = Some TokenInvalidEscape.
Proof.
  intros X (c & n & r & E & I & L & N).
  assert (D : forall d m, In (d, m) numeric_escapes -> d = c -> m = n).
  { intros d m J ->. unfold numeric_escapes in *. cbn in I, J. destruct I as [[= <- <-]|[[= <- <-]|[[= <- <-]|[]]]], J as [[= <-]|[[= <-]|[[= <-]|[]]]]; auto; discriminate. }
  destruct X; cbn [app lit] in E; try (injection E as E1; discriminate).
  - exfalso. destruct w as [|x w]; [destruct H1 as (? & ? & ? & Z); destruct x; discriminate|]. cbn in E. injection E as -> _. apply Forall_cons_iff in H as [H _]. unfold White in H. lia.
  - exfalso. destruct w as [|x w]; [congruence|]. cbn in E. injection E as -> _. apply Forall_cons_iff in H0 as [H0 _]. unfold White in H0. lia.
  - exfalso. destruct H as (x & w' & -> & Hx & _). cbn in E. injection E as -> _. unfold Letter in Hx. lia.
  - exfalso. destruct w as [|x w]; [congruence|]. cbn in E. injection E as -> _. apply Forall_cons_iff in H0 as [H0 _]. unfold Digit in H0. lia.
  - exfalso. injection E as -> _. apply H0. change c with (fst (c, n)). now apply in_map.
  - exfalso. injection E as -> E. pose proof (D _ _ H eq_refl) as ->. subst r. apply (cut_short c n (digits ++ rest) I N). rewrite <- H0. split; [rewrite app_length; lia|].
    now rewrite firstn_app, firstn_all, Nat.sub_diag, app_nil_r.
  - injection E as -> ->. eauto.
  - exfalso. injection E as <- _. cbn in I. intuition discriminate.
  - exfalso. destruct n0; [lia|]. cbn in E. discriminate.
  - exfalso. destruct n0; [lia|]. cbn in E. discriminate.
  - exfalso. destruct n0; [lia|]. cbn in E. discriminate.
  - exfalso. destruct n0; [lia|]. cbn in E. discriminate.
  - exfalso. cbn in H. repeat (destruct H as [H|H]; [injection H as <- <- <-; cbn in E; discriminate|]). contradiction.
  - exfalso. injection E as -> _. destruct H as [[H _]|[[H _]|[[H _]|[[H _]|[H _]]]]]; try discriminate. apply H. vm_compute. tauto.
Qed.
Lemma lexeme_unique dir s text rest k e text' rest' k' e' : s = text ++ rest -> s = text' ++ rest' -> Lexeme dir text rest k e -> Lexeme dir text' rest' k' e' ->
  text = text' /\ rest = rest' /\ k = k' /\ e = e'.
Proof.
  intros E E' X X'. destruct (next_token_complete _ _ _ _ _ X) as [Cut|(k0 & N & S)].
  - pose proof Cut as Cut'. rewrite <- E, E' in Cut'. destruct (lexeme_cut _ _ _ _ _ X Cut) as (c & -> & -> & ->). destruct (lexeme_cut _ _ _ _ _ X' Cut') as (c' & -> & -> & ->).
    rewrite E in E'. injection E' as <- <-. auto.
  - destruct (next_token_complete _ _ _ _ _ X') as [Cut|(k0' & N' & S')]; [rewrite <- E', E in Cut; apply cut_panics in Cut; congruence|].
    rewrite <- E in N. rewrite <- E', N in N'. injection N' as B -> ->. assert (text = text' /\ rest = rest') as [-> ->]; [|rewrite <- S, <- S'; auto].
    pose proof (split_bytes_app text rest) as Z. pose proof (split_bytes_app text' rest') as Z'. rewrite <- E, B in Z. rewrite <- E', Z in Z'. now injection Z' as -> ->.
Qed.
Lemma after_unique k d d' : After k d -> After k d' -> d = d'. Proof. intros A A'. apply after_is in A, A'. congruence. Qed.
Lemma lexes_unique_at pos dir src toks errs : Lexes pos dir src toks errs -> forall toks' errs', Lexes pos dir src toks' errs' -> toks = toks' /\ errs = errs'.
Proof.
  induction 1 as [pos dir|pos dir text rest k c next toks errs X A L IH]; intros toks' errs' L'.
  - inversion L' as [|? ? text rest k c next toks errs X A L E]; subst; [auto|]. apply lexeme_nonempty in X. apply app_eq_nil in H as [-> _]. congruence.
  - remember (text ++ rest) as src eqn:E. destruct L' as [|? ? text' rest' k' c' next' toks' errs' X' A' L'].
    + apply lexeme_nonempty in X. symmetry in E. apply app_eq_nil in E as [-> _]. congruence.
    + destruct (lexeme_unique _ _ _ _ _ _ _ _ _ _ eq_refl E X' X) as (-> & -> & -> & ->). rewrite (after_unique _ _ _ A' A) in *. destruct (IH _ _ L') as [-> ->]. auto.
Qed.
Lemma lexes_exist_at n : forall src pos dir, length src <= n -> exists toks errs, Lexes pos dir src toks errs.
Proof.
  induction n as [|n IH]; intros src pos dir L; (destruct src as [|c t]; [exists [], []; constructor|]); [cbn in L; lia|].
  destruct (lexeme_exists dir c t) as (text & rest & k & e & E & X). rewrite E in *. destruct (IH rest (pos + blen text) (next_quote_dir k)) as (toks & errs & H).
  - apply lexeme_nonempty in X. rewrite app_length in L. destruct text; [congruence|cbn in L; lia].
  - eexists. eexists. eapply lexes_more; [exact X|now apply after_is|exact H].
Qed.
Lemma lexes_exist src : exists toks errs, Lexes 0 QLeft src toks errs. Proof. eapply lexes_exist_at. apply le_n. Qed.
Lemma lexes_unique src toks errs toks' errs' : Lexes 0 QLeft src toks errs -> Lexes 0 QLeft src toks' errs' -> toks = toks' /\ errs = errs'.
Proof. intros L L'. eapply lexes_unique_at; eassumption. Qed.
Lemma uncut_suffixes src : (forall a b, src = a ++ b -> ~ CutEscape b) -> Uncut src.
Proof.
  intros C rest R. assert (exists a, src = a ++ rest) as (a & E); [|now apply (C a)]. clear C. induction R as [dir rest|dir text after k c next rest X A R (a & ->)]; [now exists []|].
  exists (text ++ a). now rewrite app_assoc.
Qed.

(** ** Escapes that are not complained about *)
Lemma escape_lexeme dir text rest k e t : Lexeme dir text rest k e -> text ++ rest = 92%N :: t ->
  k = Escape /\ e = None /\ GoodEscape t \/ k = Escape /\ e = Some TokenInvalidEscape /\ ~ GoodEscape t /\ (text = [92%N] \/ exists c n, In (c, n) numeric_escapes /\ text = [92%N; c]) \/
  k = RawText /\ t = [].
Proof.
  intros X E.
  assert (D : forall c m, EscapeDigits c m <-> In (c, m) numeric_escapes).
  { intros c m. unfold numeric_escapes. split; [intros []; cbn; auto|]. cbn. intros [[= <- <-]|[[= <- <-]|[[= <- <-]|[]]]]; constructor. }
  destruct X; cbn [app lit] in E; try (injection E as E1; discriminate).
  - exfalso. destruct w as [|x w]; [destruct H1 as (? & ? & ? & Z); destruct x; discriminate|]. cbn in E. injection E as -> _. apply Forall_cons_iff in H as [H _]. unfold White in H. lia.
  - exfalso. destruct w as [|x w]; [congruence|]. cbn in E. injection E as -> _. apply Forall_cons_iff in H0 as [H0 _]. unfold White in H0. lia.
  - exfalso. destruct H as (x & w' & -> & Hx & _). cbn in E. injection E as -> _. unfold Letter in Hx. lia.
  - exfalso. destruct w as [|x w]; [congruence|]. cbn in E. injection E as -> _. apply Forall_cons_iff in H0 as [H0 _]. unfold Digit in H0. lia.
  - left. injection E as <-. repeat split. right. exists c, rest. repeat split; auto; destruct H0; apply D in H1; change c with (fst (c, n)); now apply in_map.
  - left. injection E as <-. repeat split. right. exists c, (digits ++ rest). split; [reflexivity|]. split; [destruct (proj2 (D c n) H); discriminate|].
    intros m M. apply D in M. assert (m = n) as ->. { clear - M H. cbn in M, H. destruct M as [[= <- <-]|[[= <- <-]|[[= <- <-]|[]]]], H as [[= <-]|[[= <-]|[[= <-]|[]]]]; auto; discriminate. }
    subst n. split; [rewrite app_length; lia|]. rewrite firstn_app, firstn_all, Nat.sub_diag, app_nil_r. rewrite forallb_forall. rewrite Forall_forall in H1. intros x Hx. specialize (H1 x Hx).
    unfold HexDigitChar, Digit, is_ascii_hexdigit, is_ascii_digit, in_range in *. lia.
  - right. left. injection E as <-. split; [reflexivity|]. split; [reflexivity|]. split; [|right; exists c, n; auto].
    intros [Z|(c' & r' & [= <- <-] & _ & F)]; [discriminate|]. destruct (F n (proj2 (D c n) H)) as [L A]. apply H0. split; [exact L|].
    rewrite forallb_forall in A. apply Forall_forall. intros x Hx. specialize (A x Hx). unfold HexDigitChar, Digit, is_ascii_hexdigit, is_ascii_digit, in_range in *. lia.
  - right. left. injection E as <-. split; [reflexivity|]. split; [reflexivity|]. split; [|now left]. intros [Z|(c' & r' & [= <- <-] & N & _)]; [discriminate|]. congruence.
  - right. right. injection E as <-. auto.
  - exfalso. destruct n; [lia|]. cbn in E. discriminate.
  - exfalso. destruct n; [lia|]. cbn in E. discriminate.
  - exfalso. destruct n; [lia|]. cbn in E. discriminate.
  - exfalso. destruct n; [lia|]. cbn in E. discriminate.
  - exfalso. cbn in H. repeat (destruct H as [H|H]; [injection H as <- <- <-; cbn in E; discriminate|]). contradiction.
  - exfalso. injection E as -> _. destruct H as [[H _]|[[H _]|[[H _]|[[H _]|[H _]]]]]; try discriminate. apply H. vm_compute. tauto.
Qed.
Lemma escape_good t len k err : next_token (92%N :: t) = Ret (len, k, err) -> err <> Some TokenInvalidEscape -> GoodEscape t.
Proof.
  intros N E. destruct (next_token_sound QLeft _ _ _ _ N) as (text & rest & Et & B & X). symmetry in Et.
  destruct (escape_lexeme _ _ _ _ _ _ X Et) as [(_ & _ & G)|[(_ & Z & _)|(_ & ->)]]; [exact G|contradiction|now left].
Qed.
(** A reading without complaints meets no such escape. *)
Lemma clean_uncut_at dir src rest : Reads dir src rest -> forall pos toks, Lexes pos dir src toks [] -> ~ CutEscape rest.
Proof.
  induction 1 as [dir rest|dir text after k c next rest X A R IH]; intros pos toks L Cut.
  - remember rest as src eqn:E. remember [] as errs eqn:Z. destruct L as [|pos dir text after k c next toks errs X A L].
    + subst rest. destruct Cut as (? & ? & ? & E & _). discriminate.
    + destruct (lexeme_cut _ _ _ _ _ X Cut) as (d & -> & -> & ->). discriminate.
  - remember (text ++ after) as src eqn:E. remember [] as errs eqn:Z. destruct L as [|pos dir text' after' k' c' next' toks errs X' A' L].
    + apply lexeme_nonempty in X. symmetry in E. apply app_eq_nil in E as [-> _]. congruence.
    + destruct (lexeme_unique _ _ _ _ _ _ _ _ _ _ eq_refl E X' X) as (-> & -> & -> & ->). rewrite (after_unique _ _ _ A' A) in *.
      destruct c; [discriminate|]. cbn in Z. subst errs. exact (IH _ _ L Cut).
Qed.
Lemma clean_uncut src toks : Lexes 0 QLeft src toks [] -> Uncut src.
Proof. intros L rest R. exact (clean_uncut_at _ _ _ R _ _ L). Qed.
