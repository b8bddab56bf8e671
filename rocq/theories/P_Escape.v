(** Proofs about escapes and number literals. *)
From Coq Require Import DecimalPos.
From Verif Require Import Base BaseFacts M_Text M_Token M_Tokenizer M_TokenText S_Front P_Tokenizer P_Front.

(** ** Escape tokens. *)
Lemma escape_digits_b d :
  ((d =? c_of "x") || (d =? c_of "u") || (d =? c_of "U"))%N = true <-> exists n, EscapeDigits d n.
Proof.
  split.
  - intros H. apply orb_true_iff in H. destruct H as [H|H]; [apply orb_true_iff in H; destruct H as [H|H]|];
      apply N.eqb_eq in H; subst d; eexists; constructor.
  - intros [n H]. destruct H; reflexivity.
Qed.
Lemma escape_digits_end d n : EscapeDigits d n ->
  (if (d =? c_of "x")%N then 4 else if (d =? c_of "u")%N then 6 else 10) = 2 + n.
Proof. destruct 1; reflexivity. Qed.
Lemma escape_digits_ascii d n : EscapeDigits d n -> utf8_len d = 1.
Proof. destruct 1; reflexivity. Qed.

Lemma next_token_backslash t : next_token (92%N :: t) =
  match t with
  | [] => Ret (1, RawText, Some (TokenExpectedWasEOF Escape))
  | d :: t2 =>
    if (d =? 10)%N then Ret (1, Escape, Some TokenInvalidEscape)
    else if ((d =? c_of "x") || (d =? c_of "u") || (d =? c_of "U"))%N then
      let end_ := if (d =? c_of "x")%N then 4 else if (d =? c_of "u")%N then 6 else 10 in
      if end_ <=? blen (92%N :: t) then
        match split_bytes t2 (end_ - 2) with
        | Some (digits, _) =>
          if forallb is_ascii_hexdigit digits then Ret (end_, Escape, None) else Ret (2, Escape, Some TokenInvalidEscape)
        | None => Panic
        end
      else Ret (2, Escape, Some TokenInvalidEscape)
    else Ret (1 + utf8_len d, Escape, None)
  end.
Proof. destruct t; reflexivity. Qed.

Ltac top := match goal with |- (if ?b then _ else _) <> _ /\ _ => destruct b end.
Lemma next_token_not_backslash c t : c <> 92%N ->
  next_token (c :: t) <> Panic /\ (forall len e, next_token (c :: t) <> Ret (len, Escape, e)).
Proof.
  intros Hc. unfold next_token. cbv zeta.
  destruct (c =? c_of "#")%N; [split; intros; discriminate|].
  destruct (is_ascii_whitespace c) eqn:W; [split; intros; [discriminate|]|].
  { intros H. injection H as _ H _. revert H. destruct (is_paragraph_break _); discriminate. }
  destruct (is_ident_start c).
  { split; [discriminate|]. intros len e H. injection H as _ H _.
    destruct (ident_kind_cases (prefix_str (c :: t) (1 + scan_while is_ident_cont t))) as [E|[E|[b E]]];
      cbn [Nat.add] in *; rewrite E in H; discriminate. }
  destruct (is_ascii_digit c); [split; intros; discriminate|].
  destruct ((_ || _) && _).
  { split; [discriminate|]. intros len e H. injection H as _ H _. destruct (c =? c_of "$")%N; [discriminate|].
    destruct (keyword_kind_cases (prefix_str t (scan_while is_ident_cont t))) as [E|[b E]]; rewrite E in H; discriminate. }
  destruct (_ && _); [destruct (next_is _ _); split; intros; discriminate|].
  destruct (c =? c_of "\")%N eqn:B; [apply N.eqb_eq in B; contradiction|].
  destruct (c =? c_of "`")%N.
  { destruct (find_sub _ _) as [[? ?]|]; [|split; intros; discriminate].
    destruct (_ <? _); [split; intros; discriminate|]. destruct (_ && _); split; intros; discriminate. }
  destruct (c =? c_of "<")%N.
  { destruct (starts_with (lit "<!--") _).
    { destruct (find_sub _ _) as [[? ?]|]; split; intros; discriminate. }
    repeat (top; try solve [split; intros; discriminate]). }
  repeat (top; try solve [split; intros; discriminate]).
Qed.


Lemma hexdigit_ascii c : is_ascii_hexdigit c = true -> is_ascii c = true.
Proof. unfold is_ascii_hexdigit, is_ascii_digit, in_range, is_ascii. lia. Qed.
Lemma hex_blen s : forallb is_ascii_hexdigit s = true -> blen s = length s.
Proof. intros H. apply blen_ascii. eapply forallb_impl; [exact hexdigit_ascii|exact H]. Qed.

Lemma good_split c rest n : EscapeDigits c n -> n <= length rest -> forallb is_ascii_hexdigit (firstn n rest) = true ->
  split_bytes rest n = Some (firstn n rest, skipn n rest) /\ 2 + n <= blen (92%N :: c :: rest).
Proof.
  intros D Hl Hx. assert (L : length (firstn n rest) = n) by now apply firstn_length_le.
  split.
  - apply split_bytes_spec. rewrite firstn_skipn. split; [reflexivity|]. now rewrite hex_blen.
  - cbn [blen]. rewrite (escape_digits_ascii _ _ D). change (utf8_len 92) with 1.
    rewrite <- (firstn_skipn n rest), blen_app, hex_blen by exact Hx. lia.
Qed.

Lemma next_token_good c rest : c <> 10%N ->
  (forall n, EscapeDigits c n -> n <= length rest /\ forallb is_ascii_hexdigit (firstn n rest) = true) ->
  exists digits after, rest = digits ++ after /\
    next_token (92%N :: c :: rest) = Ret (blen (92%N :: c :: digits), Escape, None) /\
    ((exists n, EscapeDigits c n /\ length digits = n /\ forallb is_ascii_hexdigit digits = true) \/
     ((forall n, ~ EscapeDigits c n) /\ digits = [])).
Proof.
  intros Hc Hd. rewrite next_token_backslash. destruct (N.eqb_spec c 10) as [|_]; [contradiction|].
  destruct (_ || _)%bool eqn:B.
  - apply escape_digits_b in B as [n D]. cbv zeta. rewrite (escape_digits_end _ _ D). destruct (Hd n D) as [Hl Hx].
    destruct (good_split _ _ _ D Hl Hx) as [S1 S2].
    destruct (Nat.leb_spec (2 + n) (blen (92%N :: c :: rest))); [|lia].
    replace (2 + n - 2) with n by lia. rewrite S1, Hx.
    exists (firstn n rest), (skipn n rest). rewrite firstn_skipn. split; [reflexivity|]. split.
    + f_equal. f_equal. f_equal. cbn [blen]. rewrite (escape_digits_ascii _ _ D), hex_blen by exact Hx.
      rewrite firstn_length_le by exact Hl. reflexivity.
    + left. exists n. split; [exact D|]. split; [now apply firstn_length_le|exact Hx].
  - exists [], rest. split; [reflexivity|]. split.
    + cbn [blen]. rewrite Nat.add_0_r. reflexivity.
    + right. split; [|reflexivity]. intros n D.
      assert (X : ((c =? c_of "x") || (c =? c_of "u") || (c =? c_of "U"))%N = true)
        by (apply escape_digits_b; now exists n). congruence.
Qed.

(** ** Hexadecimal digits. *)
Lemma hex_digit_spec c d : hex_digit c = Some d <-> HexDigit c d.
Proof.
  unfold hex_digit, is_ascii_digit, in_range. split.
  - destruct ((48 <=? c) && (c <=? 57))%N eqn:E1.
    { intros [= <-]. replace c with (48 + (c - 48))%N at 1 by lia. apply Hex_num. lia. }
    destruct ((97 <=? c) && (c <=? 102))%N eqn:E2.
    { intros [= <-]. replace c with (97 + (c - 87 - 10))%N at 1 by lia. apply Hex_low. lia. }
    destruct ((65 <=? c) && (c <=? 70))%N eqn:E3; [|discriminate].
    intros [= <-]. replace c with (65 + (c - 55 - 10))%N at 1 by lia. apply Hex_up. lia.
  - intros H. destruct H as [d Hd|d Hd|d Hd].
    + destruct ((48 <=? 48 + d) && (48 + d <=? 57))%N eqn:E1; [f_equal; lia|lia].
    + destruct ((48 <=? 97 + (d - 10)) && (97 + (d - 10) <=? 57))%N eqn:E1; [lia|].
      destruct ((97 <=? 97 + (d - 10)) && (97 + (d - 10) <=? 102))%N eqn:E2; [f_equal; lia|lia].
    + destruct ((48 <=? 65 + (d - 10)) && (65 + (d - 10) <=? 57))%N eqn:E1; [lia|].
      destruct ((97 <=? 65 + (d - 10)) && (65 + (d - 10) <=? 102))%N eqn:E2; [lia|].
      destruct ((65 <=? 65 + (d - 10)) && (65 + (d - 10) <=? 70))%N eqn:E3; [f_equal; lia|lia].
Qed.
Lemma hex_digit_lt c d : HexDigit c d -> (d < 16)%N.
Proof. destruct 1; lia. Qed.
Lemma hex_digit_none c : is_ascii_hexdigit c = true -> exists d, HexDigit c d.
Proof.
  intros H. destruct (hex_digit c) as [d|] eqn:E; [exists d; now apply hex_digit_spec|]. exfalso.
  unfold hex_digit, is_ascii_hexdigit, is_ascii_digit, in_range in *.
  destruct ((48 <=? c) && (c <=? 57))%N; [discriminate|].
  destruct ((97 <=? c) && (c <=? 102))%N; [discriminate|]. destruct ((65 <=? c) && (c <=? 70))%N; discriminate.
Qed.

Lemma radix_app r a b acc : radix_loop r (a ++ b) acc =
  match radix_loop r a acc with Some n => radix_loop r b n | None => None end.
Proof.
  revert acc; induction a as [|c a IH]; intros acc; [reflexivity|]. cbn [app radix_loop].
  destruct (hex_digit c) as [d|]; [|reflexivity]. destruct (d <? r)%N; [apply IH|reflexivity].
Qed.
Lemma radix_hex s n : HexValue s n -> radix_loop 16 s 0 = Some n.
Proof.
  induction 1 as [|s n c d _ IH Hd]; [reflexivity|]. rewrite radix_app, IH. cbn [radix_loop].
  rewrite (proj2 (hex_digit_spec c d) Hd). pose proof (hex_digit_lt _ _ Hd).
  destruct (N.ltb_spec d 16); [reflexivity|lia].
Qed.
Lemma hex_value_exists s : forallb is_ascii_hexdigit s = true -> exists n, HexValue s n.
Proof.
  induction s as [|c s IH] using rev_ind; intros H; [exists 0%N; constructor|].
  rewrite forallb_app' in H. apply andb_true_iff in H as [H1 H2]. cbn in H2. rewrite andb_true_r in H2.
  destruct (IH H1) as [n Hn]. destruct (hex_digit_none _ H2) as [d Hd]. eexists. eapply HV_snoc; eassumption.
Qed.
Lemma hex_value_bound s n : HexValue s n -> (n < 16 ^ N.of_nat (length s))%N.
Proof.
  induction 1 as [|s n c d _ IH Hd]; [reflexivity|]. pose proof (hex_digit_lt _ _ Hd).
  rewrite app_length. cbn [length]. replace (N.of_nat (length s + 1)) with (N.succ (N.of_nat (length s))) by lia.
  rewrite N.pow_succ_r'. lia.
Qed.
Lemma hex_value_digits s n : HexValue s n -> forallb is_ascii_hexdigit s = true.
Proof.
  induction 1 as [|s n c d _ IH Hd]; [reflexivity|]. rewrite forallb_app', IH. cbn. rewrite andb_true_r.
  unfold is_ascii_hexdigit, is_ascii_digit, in_range. destruct Hd; lia.
Qed.

Lemma u32_hex s n : HexValue s n -> s <> [] -> length s <= 8 -> u32_from_str_radix 16 s = Some n.
Proof.
  intros H Hne Hl. unfold u32_from_str_radix. pose proof (hex_value_digits _ _ H) as Hd.
  pose proof (hex_value_bound _ _ H) as Hb.
  assert (B : (n < 4294967296)%N).
  { eapply N.lt_le_trans; [exact Hb|]. change 4294967296%N with (16 ^ 8)%N. apply N.pow_le_mono_r; lia. }
  assert (E : match s with c :: (_ :: _ as t) => if (c =? 43)%N then t else s | _ => s end = s).
  { destruct s as [|x [|y s]]; try reflexivity. cbn [forallb] in Hd. apply andb_true_iff in Hd as [Hx _].
    destruct (N.eqb_spec x 43) as [->|]; [discriminate|reflexivity]. }
  rewrite E. destruct s as [|x s]; [now destruct Hne|]. rewrite (radix_hex _ _ H).
  destruct (N.ltb_spec n 4294967296); [reflexivity|lia].
Qed.

Lemma escape_digits_len d n : EscapeDigits d n -> 2 <= n <= 8.
Proof. destruct 1; lia. Qed.
Lemma unescape_numeric c n digits code : EscapeDigits c n -> length digits = n -> HexValue digits code ->
  unescape_char (92%N :: c :: digits) =
  (if (code <? 55296)%N || ((57343 <? code) && (code <? 1114112))%N then Ret (code, None)
   else Ret (replacement_character, Some TokenInvalidEscape)).
Proof.
  intros D L H. pose proof (escape_digits_len _ _ D). unfold unescape_char.
  assert (X : ((c =? 120) || (c =? 117) || (c =? 85))%N = true) by (destruct D; reflexivity).
  rewrite X, (u32_hex _ _ H); [|intros ->; cbn in L; lia|lia]. unfold char_from_u32.
  destruct ((code <? 55296)%N || _); reflexivity.
Qed.
Lemma unescape_other c : (forall n, ~ EscapeDigits c n) ->
  unescape_char [92%N; c] = Ret (if (c =? 110)%N then 10%N else if (c =? 116)%N then 9%N else c, None).
Proof.
  intros H. unfold unescape_char.
  destruct (N.eqb_spec c 120) as [->|]; [now destruct (H 2); constructor|].
  destruct (N.eqb_spec c 117) as [->|]; [now destruct (H 4); constructor|].
  destruct (N.eqb_spec c 85) as [->|]; [now destruct (H 8); constructor|]. cbn [orb].
  destruct (c =? 110)%N; [reflexivity|]. destruct (c =? 116)%N; reflexivity.
Qed.

(** ** No crash on sources whose escapes are well formed. *)
Lemma good_next s : s <> [] -> (forall t, s = 92%N :: t -> GoodEscape t) ->
  exists len k e, next_token s = Ret (len, k, e) /\ (k = Escape -> exists text rest,
    s = text ++ rest /\ blen text = len /\ exists r, unescape_char text = Ret r).
Proof.
  intros Hs Hg. destruct s as [|c t]; [now destruct Hs|].
  destruct (N.eq_dec c 92) as [->|Hc].
  - destruct (Hg t eq_refl) as [->|(d & rest & -> & Hd & Hx)].
    + do 3 eexists. split; [reflexivity|discriminate].
    + destruct (next_token_good d rest Hd Hx) as (digits & after & -> & E & C). do 3 eexists. split; [exact E|].
      intros _. exists (92%N :: d :: digits), after. split; [reflexivity|]. split; [reflexivity|].
      destruct C as [(n & D & L & H)|[Hn ->]].
      * destruct (hex_value_exists _ H) as [code Hv]. rewrite (unescape_numeric _ _ _ _ D L Hv).
        destruct (_ || _); eexists; reflexivity.
      * rewrite (unescape_other _ Hn). eexists; reflexivity.
  - destruct (next_token_not_backslash c t Hc) as [H1 H2].
    destruct (next_token (c :: t)) as [[[len k] e]| |] eqn:E; [|congruence|].
    + do 3 eexists. split; [reflexivity|]. intros ->. now destruct (H2 len e).
    + exfalso. clear - E. unfold next_token in E. cbv zeta in E.
      repeat match type of E with
      | (if ?b then _ else _) = _ => destruct b
      | match ?x with _ => _ end = _ => destruct x
      end; discriminate E.
Qed.

Lemma lex_no_panic fuel rest : length rest <= fuel -> EscapesWellFormed rest -> forall cur dir, lex fuel rest cur dir <> Panic.
Proof.
  revert rest; induction fuel as [|fuel IH]; intros rest Hl Hg cur dir.
  - destruct rest; [discriminate|cbn in Hl; lia].
  - destruct rest as [|c t]; [discriminate|]. cbn [lex].
    destruct (good_next (c :: t)) as (len & k & e & Hn & _); [discriminate|intros u Eu; now apply (Hg []) in Eu|].
    rewrite Hn. cbn [obind]. destruct (next_token_bound _ _ _ _ Hn) as [(a & b & Es & El) H1].
    destruct len as [|len]; [lia|].
    assert (Sp : split_bytes (c :: t) (S len) = Some (a, b)) by (apply split_bytes_spec; auto). rewrite Sp.
    assert (G : forall cur dir, lex fuel b cur dir <> Panic).
    { apply IH.
      - destruct a as [|x a]; [discriminate|]. cbn [app length] in *. injection Es as -> ->. rewrite app_length in Hl. lia.
      - intros p q ->. apply (Hg (a ++ p)). rewrite Es, <- app_assoc. reflexivity. }
    specialize (G (cur + S len) (next_quote_dir (set_quote_dir k dir))).
    destruct (lex fuel b _ _) as [[? ?]| |]; cbn [obind]; congruence.
Qed.

Lemma no_crash src b : EscapesWellFormed src ->
  exists toks errs, tokenize src b = Ret (toks, errs) /\
    forall tok, In tok toks -> tk_kind tok = Escape -> exists r, unescape_char (tk_text tok) = Ret r.
Proof.
  intros Hg. destruct (tokenize src b) as [[toks errs]| |] eqn:T.
  - exists toks, errs. split; [reflexivity|]. intros tok Hin Hk.
    destruct (token_at _ _ _ _ _ T Hin) as (b' & a' & len & k & err & d & E1 & E2 & E3 & E4 & E5 & E6 & _).
    destruct (good_next (tk_text tok ++ a')) as (len' & k' & e' & Hn & Hu).
    + intros E. rewrite E in E4. discriminate.
    + intros t Et. apply (Hg b'). now rewrite E1, Et.
    + rewrite E4 in Hn. injection Hn as -> -> ->. rewrite Hk in E6.
      destruct Hu as (text & rest & Et & El & Hr); [destruct k'; cbn in E6; congruence|].
      apply app_inj_blen in Et as [-> _]; [exact Hr|congruence].
  - exfalso. rewrite tokenize_lex in T. pose proof (lex_no_panic _ _ (le_n _) Hg 0 QLeft).
    destruct (lex _ _ _ _) as [[? ?]| |]; cbn [obind] in T; congruence.
  - now apply tokenize_terminates in T.
Qed.

(** ** Numbers. *)
Lemma radix_dec s n : DecValue s n -> radix_loop 10 s 0 = Some n.
Proof.
  induction 1 as [|s n d _ IH Hd]; [reflexivity|]. rewrite radix_app, IH. cbn [radix_loop].
  rewrite (proj2 (hex_digit_spec (48 + d)%N d) (Hex_num d Hd)). destruct (N.ltb_spec d 10); [reflexivity|lia].
Qed.
Lemma hex_digit_dec k : (k < 10)%N -> hex_digit (48 + k) = Some k.
Proof. intros H. apply hex_digit_spec. now constructor. Qed.
Lemma radix_step k s acc : (k < 10)%N -> radix_loop 10 ((48 + k)%N :: s) acc = radix_loop 10 s (acc * 10 + k)%N.
Proof. intros H. cbn [radix_loop]. rewrite hex_digit_dec by exact H. destruct (N.ltb_spec k 10); [reflexivity|lia]. Qed.
Ltac digit k IH :=
  cbn [uint_str Pos.of_uint_acc]; rewrite <- IH; rewrite (radix_step k) by lia; f_equal; lia.
Lemma radix_uint_pos d : forall p, radix_loop 10 (uint_str d) (Npos p) = Some (Npos (Pos.of_uint_acc d p)).
Proof.
  induction d as [|d IH|d IH|d IH|d IH|d IH|d IH|d IH|d IH|d IH|d IH]; intros p; [reflexivity|..].
  - digit 0%N IH. - digit 1%N IH. - digit 2%N IH. - digit 3%N IH. - digit 4%N IH.
  - digit 5%N IH. - digit 6%N IH. - digit 7%N IH. - digit 8%N IH. - digit 9%N IH.
Qed.
Lemma radix_uint d : radix_loop 10 (uint_str d) 0 = Some (N.of_uint d).
Proof.
  induction d as [|d IH|d IH|d IH|d IH|d IH|d IH|d IH|d IH|d IH|d IH]; [reflexivity|exact IH|..];
    exact (radix_uint_pos d _).
Qed.
Lemma radix_dec_str n : radix_loop 10 (dec n) 0 = Some n.
Proof. unfold dec. rewrite radix_uint. now rewrite DecimalN.Unsigned.of_to. Qed.

Definition NumberText (s : str) := exists digits, digits <> [] /\ forallb is_ascii_digit digits = true /\
  (s = digits \/ s = 45%N :: digits).
Lemma zdec_number z : NumberText (zdec z).
Proof.
  destruct z as [|p|p]; cbn [zdec]; eexists; (split; [apply dec_nonempty|split; [apply dec_digits|]]); [now left..|now right].
Qed.
Lemma digits_scan digits after : forallb is_ascii_digit digits = true ->
  (forall c t, after = c :: t -> is_ascii_digit c = false) ->
  scan_while is_ascii_digit (digits ++ after) = length digits.
Proof.
  intros H Ha. unfold scan_while. destruct (take_while_app_stop is_ascii_digit digits after H Ha) as [-> _].
  apply blen_ascii. eapply forallb_impl; [exact digit_is_ascii|exact H].
Qed.
Lemma digit_not_others c : is_ascii_digit c = true ->
  (c =? c_of "#")%N = false /\ is_ascii_whitespace c = false /\ is_ident_start c = false.
Proof.
  unfold is_ascii_digit, in_range, is_ascii_whitespace, is_ident_start, is_ascii_alphabetic, is_ascii_lower, is_ascii_upper,
    in_range. change (c_of "#") with 35%N. lia.
Qed.
Lemma next_token_number s after : NumberText s -> (forall c t, after = c :: t -> is_ascii_digit c = false) ->
  next_token (s ++ after) = Ret (blen s, Number, None).
Proof.
  intros (digits & Hne & Hd & Hs) Ha.
  assert (Bl : blen digits = length digits) by (apply blen_ascii; eapply forallb_impl; [exact digit_is_ascii|exact Hd]).
  destruct Hs as [->| ->].
  - pose proof (digits_scan digits after Hd Ha) as Sc. destruct digits as [|c digits]; [now destruct Hne|].
    cbn [forallb] in Hd. apply andb_true_iff in Hd as [Hc Hd']. destruct (digit_not_others _ Hc) as (E1 & E2 & E3).
    cbn [app]. unfold next_token. cbv zeta. rewrite E1, E2, E3, Hc. rewrite Bl. f_equal. f_equal. f_equal.
    rewrite (digits_scan digits after Hd' Ha). reflexivity.
  - cbn [app blen]. rewrite Bl. change (utf8_len 45) with 1.
    pose proof (digits_scan digits after Hd Ha) as Sc. destruct digits as [|c digits]; [now destruct Hne|].
    cbn [forallb] in Hd. apply andb_true_iff in Hd as [Hc Hd'].
    cbn [app]. unfold next_token. cbv zeta.
    change ((45 =? c_of "#")%N) with false. cbv iota. change (is_ascii_whitespace 45) with false. cbv iota.
    change (is_ident_start 45) with false. change (is_ascii_digit 45) with false. cbv iota.
    change (((45 =? c_of "$") || (45 =? c_of "@"))%N) with false. cbn [andb]. cbv iota.
    change ((45 =? c_of "&")%N) with false. cbn [andb]. cbv iota.
    change ((45 =? c_of "\")%N) with false. change ((45 =? c_of "`")%N) with false.
    change ((45 =? c_of "<")%N) with false. cbv iota. change ((45 =? c_of "-")%N) with true. cbn [andb].
    assert (Ar : starts_with (lit "->") (45%N :: c :: digits ++ after) = false).
    { unfold starts_with. destruct (strip_prefix _ _) as [u|] eqn:E; [|reflexivity].
      apply strip_prefix_spec in E. cbn in E. injection E as -> _. discriminate Hc. }
    rewrite Ar. cbn [next_is List.tl]. rewrite Hc. rewrite (digits_scan digits after Hd' Ha). reflexivity.
Qed.

Lemma parse_i64_spec s n : DecValue s n -> s <> [] ->
  parse_i64 s = (if in_i64 (Z.of_N n) then Some (Z.of_N n) else None) /\
  parse_i64 (45%N :: s) = (if in_i64 (- Z.of_N n) then Some (- Z.of_N n)%Z else None).
Proof.
  intros H Hne. assert (Hd : forallb is_ascii_digit s = true).
  { clear Hne. induction H as [|s n d _ IH Hd]; [reflexivity|]. rewrite forallb_app', IH. cbn [forallb andb].
    rewrite andb_true_r. unfold is_ascii_digit, in_range. lia. }
  pose proof (radix_dec _ _ H) as R. split.
  - destruct s as [|c s]; [now destruct Hne|]. cbn [forallb] in Hd. apply andb_true_iff in Hd as [Hc _].
    unfold parse_i64.
    destruct (N.eqb_spec c 45) as [->|_]; [discriminate Hc|]. destruct (N.eqb_spec c 43) as [->|_]; [discriminate Hc|].
    now rewrite R.
  - unfold parse_i64. cbn [N.eqb Pos.eqb]. destruct s as [|c s]; [now destruct Hne|]. now rewrite R.
Qed.
Lemma parse_zdec z : parse_i64 (zdec z) = if in_i64 z then Some z else None.
Proof.
  assert (P : forall p, parse_i64 (dec (Npos p)) = (if in_i64 (Zpos p) then Some (Zpos p) else None)).
  { intros p. pose proof (radix_dec_str (Npos p)) as R. pose proof (dec_digits (Npos p)) as Hd.
    pose proof (dec_nonempty (Npos p)) as Hne. destruct (dec (Npos p)) as [|c s]; [now destruct Hne|].
    cbn [forallb] in Hd. apply andb_true_iff in Hd as [Hc _]. unfold parse_i64.
    destruct (N.eqb_spec c 45) as [->|_]; [discriminate Hc|]. destruct (N.eqb_spec c 43) as [->|_]; [discriminate Hc|].
    rewrite R. reflexivity. }
  destruct z as [|p|p]; [reflexivity|apply P|]. cbn [zdec]. unfold parse_i64.
  pose proof (radix_dec_str (Npos p)) as R. pose proof (dec_nonempty (Npos p)) as Hne.
  destruct (dec (Npos p)) as [|c s]; [now destruct Hne|]. cbn [N.eqb Pos.eqb]. rewrite R. reflexivity.
Qed.
Lemma in_i64_spec z : in_i64 z = true <-> (- 2 ^ 63 <= z < 2 ^ 63)%Z.
Proof. unfold in_i64, i64_min, i64_max. change (2 ^ 63)%Z with 9223372036854775808%Z. lia. Qed.

Lemma number_token s before after strip toks errs tok :
  NumberText s -> (forall c t, after = c :: t -> is_ascii_digit c = false) ->
  tokenize (before ++ s ++ after) strip = Ret (toks, errs) -> In tok toks -> tk_start tok = blen before ->
  tk_kind tok = Number /\ tk_text tok = s /\ (forall e r, ~ In (e, (tk_start tok, r)) errs).
Proof.
  intros Hs Ha HT Hin Hst.
  destruct (token_at _ _ _ _ _ HT Hin) as (b' & a' & len & k & err & d & E1 & E2 & E3 & E4 & E5 & E6 & E7 & E8).
  assert (Eb : before = b' /\ s ++ after = tk_text tok ++ a') by (apply app_inj_blen; [exact E1|congruence]).
  destruct Eb as [<- Er]. rewrite <- Er, next_token_number in E4 by assumption. injection E4 as El <- <-.
  split; [exact E6|]. split.
  - symmetry in Er. apply app_inj_blen in Er as [Er _]; congruence.
  - intros e r Hx. apply E8 in Hx as [Hx _]. discriminate.
Qed.
Lemma escape_token c digits before after strip toks errs tok :
  c <> 10%N -> ((exists n, EscapeDigits c n /\ length digits = n /\ forallb is_ascii_hexdigit digits = true) \/
                ((forall n, ~ EscapeDigits c n) /\ digits = [])) ->
  tokenize (before ++ (92%N :: c :: digits) ++ after) strip = Ret (toks, errs) -> In tok toks -> tk_start tok = blen before ->
  tk_kind tok = Escape /\ tk_text tok = 92%N :: c :: digits /\ (forall e r, ~ In (e, (tk_start tok, r)) errs).
Proof.
  intros Hc Hd HT Hin Hst.
  destruct (token_at _ _ _ _ _ HT Hin) as (b' & a' & len & k & err & d & E1 & E2 & E3 & E4 & E5 & E6 & E7 & E8).
  assert (Eb : before = b' /\ (92%N :: c :: digits) ++ after = tk_text tok ++ a') by (apply app_inj_blen; [exact E1|congruence]).
  destruct Eb as [<- Er]. rewrite <- Er in E4. cbn [app] in E4.
  assert (N : next_token (92%N :: c :: digits ++ after) = Ret (blen (92%N :: c :: digits), Escape, None)).
  { destruct (next_token_good c (digits ++ after) Hc) as (dg & af & Ed & En & C).
    - intros n Hn. destruct Hd as [(m & Hm & L & Hx)|[Hn' _]]; [|now destruct (Hn' n)].
      assert (Emn : m = n) by (destruct Hm; inversion Hn; reflexivity). rewrite Emn in *. clear m Emn. rewrite app_length.
      split; [lia|]. rewrite <- L at 1. rewrite firstn_app, firstn_all, Nat.sub_diag. cbn [firstn]. now rewrite app_nil_r.
    - rewrite En. f_equal. f_equal. f_equal. f_equal. f_equal.
      destruct Hd as [(m & Hm & L & Hx)|[Hn' ->]], C as [(n & Hn & L' & Hx')|[Hn'' ->]].
      + assert (Emn : m = n) by (destruct Hm; inversion Hn; reflexivity). rewrite Emn in *. clear m Emn.
        assert (Bd : blen digits = blen dg) by (rewrite !hex_blen; congruence).
        apply app_inj_blen in Ed as [-> _]; auto.
      + now destruct (Hn'' m).
      + now destruct (Hn' n).
      + reflexivity. }
  rewrite N in E4.
  assert (Q : blen (92%N :: c :: digits) = len /\ k = Escape /\ err = None) by (split; [|split]; congruence).
  destruct Q as (El & -> & ->). split; [exact E6|]. split.
  - symmetry in Er. apply app_inj_blen in Er as [Er _]; [exact Er|congruence].
  - intros e r Hx. apply E8 in Hx as [Hx _]. discriminate.
Qed.

(** Decider, for examples. *)
Definition good_b (after : str) : bool :=
  match after with
  | [] => true
  | c :: rest =>
    let ok n := (n <=? length rest) && forallb is_ascii_hexdigit (firstn n rest) in
    negb (c =? 10)%N && (if (c =? 120)%N then ok 2 else if (c =? 117)%N then ok 4 else if (c =? 85)%N then ok 8 else true)
  end.
Fixpoint escapes_ok (s : str) : bool :=
  match s with [] => true | c :: t => (negb (c =? 92)%N || good_b t) && escapes_ok t end.
Lemma escapes_ok_spec s : escapes_ok s = true -> EscapesWellFormed s.
Proof.
  induction s as [|c s IH]; intros H before after E.
  - destruct before; discriminate.
  - cbn [escapes_ok] in H. apply andb_true_iff in H as [H1 H2]. destruct before as [|b before].
    + injection E as -> ->. cbn [N.eqb Pos.eqb negb orb] in H1. destruct after as [|c rest]; [now left|]. right.
      cbn [good_b] in H1. apply andb_true_iff in H1 as [Hc Hx]. exists c, rest. split; [reflexivity|].
      split; [intros ->; discriminate Hc|]. intros n D; destruct D; cbn [N.eqb Pos.eqb] in Hx;
        apply andb_true_iff in Hx as [Hl Hx]; apply Nat.leb_le in Hl; auto.
    + injection E as -> ->. now apply (IH H2 before after).
Qed.
