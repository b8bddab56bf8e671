(** The tokenizer makes the tokens the parser relies on. *)
From Verif Require Import Base BaseFacts M_Text M_Token M_Tokenizer S_Front S_Grammar P_Tokenizer P_Front P_Escape.
From Verif Require P_Cut.

Definition lex_special : list token_kind := [Name; VarName; FuncName; CloseTag; Escape].
Definition LexOk (s : str) (len : nat) (k : token_kind) : Prop :=
  In k lex_special -> exists text rest, s = text ++ rest /\ blen text = len /\ Lexeme k text.
Lemma lexok_none s len k : ~ In k lex_special -> LexOk s len k.
Proof. intros H H'. tauto. Qed.
Ltac lx := intros [= <- <- <-]; apply lexok_none; cbn; intuition discriminate.
Lemma letter c : is_ident_start c = true -> Letter c.
Proof. unfold is_ident_start, is_ascii_alphabetic, is_ascii_lower, is_ascii_upper, in_range, Letter. lia. Qed.
Lemma next_token_lex s len k e : (forall t, s = 92%N :: t -> GoodEscape t) -> next_token s = Ret (len, k, e) -> LexOk s len k.
Proof.
  intros Good. unfold next_token. destruct s as [|c t]; [discriminate|]. cbv zeta.
  arm; [lx|]. arm; [arm; lx|].
  arm.
  { intros [= <- <- <-]. pose proof (ident_start_ascii _ E1) as Ha. rewrite prefix_scan by exact Ha. unfold ident_kind.
    repeat (arm; [apply lexok_none; cbn; intuition discriminate|]). intros _.
    exists (c :: take_while is_ident_cont t), (drop_while is_ident_cont t). repeat split.
    - cbn; now rewrite take_drop_while.
    - cbn [blen]. rewrite (utf8_len_ascii _ Ha). reflexivity.
    - constructor. apply letter; auto. }
  arm; [lx|].
  arm.
  { intros [= <- <- <-]. apply andb_true_iff in E3. destruct E3 as [Ec En]. apply next_is_inv in En as (d & t' & -> & Ed).
    assert (is_ident_cont d = true) as Ed'.
    { unfold is_ident_start, is_ident_cont, is_ascii_alphanumeric in *. destruct (is_ascii_alphabetic d); auto. cbn in Ed. rewrite Ed. apply orb_true_r. }
    assert (take_while is_ident_cont (d :: t') <> []) as Ne by (cbn; rewrite Ed'; discriminate).
    destruct (c =? c_of "$")%N eqn:Ed1.
    - apply N.eqb_eq in Ed1. subst c. intros _. exists (c_of "$" :: take_while is_ident_cont (d :: t')), (drop_while is_ident_cont (d :: t')). split; [|split].
      + cbn [app]. now rewrite take_drop_while.
      + reflexivity.
      + apply (lex_var _ Ne).
    - cbn [orb] in Ec. apply N.eqb_eq in Ec. subst c. unfold keyword_kind.
      repeat (arm; [apply lexok_none; cbn; intuition discriminate|]). intros _.
      exists (c_of "@" :: take_while is_ident_cont (d :: t')), (drop_while is_ident_cont (d :: t')). split; [|split].
      + cbn [app]. now rewrite take_drop_while.
      + reflexivity.
      + apply (lex_func _ Ne). }
  arm; [arm; lx|].
  arm.
  { apply N.eqb_eq in E5. subst c. destruct (Good t eq_refl) as [->|(d & rest & -> & Hd & Hx)]; [lx|].
    destruct (d =? 10)%N eqn:E10; [apply N.eqb_eq in E10; congruence|].
    arm.
    - assert (exists n, EscapeDigits d n /\ (if (d =? c_of "x")%N then 4 else if (d =? c_of "u")%N then 6 else 10) = 2 + n) as (n & D & ->).
      { destruct (d =? c_of "x")%N eqn:A; [apply N.eqb_eq in A; subst; exists 2; split; [constructor|auto]|].
        destruct (d =? c_of "u")%N eqn:B; [apply N.eqb_eq in B; subst; exists 4; split; [constructor|auto]|].
        apply N.eqb_eq in E5. subst. exists 8; split; [constructor|auto]. }
      destruct (Hx n D) as [Ln Hh].
      assert (blen (firstn n rest) = n) as Bl.
      { rewrite blen_ascii; [apply firstn_length_le; auto|]. revert Hh. rewrite !forallb_forall. intros Hh x Ix. specialize (Hh x Ix).
        unfold is_ascii_hexdigit, is_ascii_digit, is_ascii, in_range in *. lia. }
      replace (2 + n - 2) with (blen (firstn n rest)) by (rewrite Bl; lia).
      replace (split_bytes rest (blen (firstn n rest))) with (Some (firstn n rest, skipn n rest)) by (rewrite <- (split_bytes_app (firstn n rest) (skipn n rest)), firstn_skipn; auto).
      rewrite Hh. destruct (_ <=? blen _) eqn:Le.
      + intros [= <- <- <-] _. exists (92%N :: d :: firstn n rest), (skipn n rest). split; [|split].
        * cbn [app]. now rewrite firstn_skipn.
        * cbn [blen]. rewrite Bl. destruct D; reflexivity.
        * apply lex_numeric with (n := n); auto. apply firstn_length_le; auto.
      + exfalso. apply Nat.leb_gt in Le. rewrite <- (firstn_skipn n rest) in Le. cbn [blen] in Le. rewrite blen_app, Bl in Le.
        destruct D; cbn in Le; lia.
    - intros [= <- <- <-] _. exists [92%N; d], rest. split; [|split]; auto.
      + cbn [blen]. change (utf8_len 92) with 1. lia.
      + apply lex_escape. intros n D. destruct D; discriminate. }
  arm.
  { destruct (find_sub _ _) as [[? ?]|]; [|lx]. repeat (arm; try solve [lx]); lx. }
  arm.
  { destruct (starts_with (lit "<!--") (c :: t)); [destruct (find_sub _ _) as [[? ?]|]; lx|].
    apply N.eqb_eq in E7. subst c.
    destruct (next_is (N.eqb (c_of "/")) t) eqn:N1; [|lx]. apply next_is_inv in N1 as (d & t2 & -> & E1'). apply N.eqb_eq in E1'. subst d. cbn [List.tl].
    destruct (next_is is_ident_start t2) eqn:N2.
    - apply next_is_inv in N2 as (d & t3 & -> & Ed). cbn [List.tl]. destruct (next_is _ (drop_while _ _)) eqn:N3; [|lx].
      apply next_is_inv in N3 as (g & t4 & Eg4 & Eg). apply N.eqb_eq in Eg. subst g.
      intros [= <- <- <-] _. exists (lit "</" ++ (d :: take_while is_ident_cont t3) ++ lit ">"), t4. split; [|split].
      + cbn [app lit]. rewrite <- (take_drop_while is_ident_cont t3) at 1. rewrite Eg4, <- !app_assoc. reflexivity.
      + rewrite !blen_app. cbn [blen]. rewrite (utf8_len_ascii _ (ident_start_ascii _ Ed)). unfold scan_while. cbn. lia.
      + apply lex_close.
    - destruct (starts_with _ _) eqn:S3; [|lx]. apply starts_with_inv in S3 as (u & E'). intros [= <- <- <-] _.
      exists (lit "</" ++ [] ++ lit ">"), u. split; [exact E'|]. split; [reflexivity|]. apply lex_close. }
  arm; [lx|]. arm; [lx|]. do 7 (arm; [lx|]). arm; [lx|]. do 5 (arm; [lx|]).
  arm; [arm; lx|]. arm; [arm; lx|]. arm; [arm; lx|]. arm; [arm; lx|]. arm; [lx|]. arm; [lx|]. lx.
Qed.
Lemma token_lexeme src toks errs : tokenize src true = Ret (toks, errs) -> (forall place, ~ In (TokenInvalidEscape, place) errs) -> Forall LexTok toks.
Proof.
  intros H Good. apply Forall_forall. intros tok Hin.
  assert (tk_kind tok <> Comment) as Nc.
  { destruct (tokenize_both src true false) as [[all errs'] H']; [eexists; exact H|]. destruct (tokenize_stripped _ _ _ _ _ H' H) as [St _].
    apply stripped_facts in St as [St _]. rewrite Forall_forall in St. auto. }
  destruct (token_at _ _ _ _ _ H Hin) as (before & after & len & k & err & d & Es & _ & _ & Hn & Hl & Ek & He & _).
  assert (LexOk (tk_text tok ++ after) len k) as L.
  { eapply next_token_lex; eauto. intros t Et. rewrite Et in Hn. apply (P_Cut.escape_good _ _ _ _ Hn). intros ->. exact (Good _ (He _ eq_refl)). }
  unfold LexTok. destruct (in_dec kind_eq_dec k lex_special) as [I|I].
  - destruct (L I) as (text & rest & Et & Bt & X). apply app_inj_blen in Et; [|congruence]. destruct Et as [-> _].
    assert (tk_kind tok = k) as -> by (rewrite Ek; cbn in I; repeat (destruct I as [<-|I]; [reflexivity|]); tauto). auto.
  - destruct (kind_eq_dec (tk_kind tok) QuestionMark) as [Q|Q].
    + pose proof (token_fixed _ _ _ _ _ H Hin) as F. rewrite Q in *. destruct F as [<-|[]]; [discriminate|]. apply lex_question.
    + apply lex_other. intros I2. apply I. rewrite Ek in I2, Nc, Q. destruct k; cbn in *; intuition discriminate.
Qed.
