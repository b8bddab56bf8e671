(** Each token of the tokenizer is one of the lexical grammar. *)
From Verif Require Import Base BaseFacts M_Text M_Token M_Tokenizer S_Text S_Lex P_Tokenizer P_Lex1.

Lemma ident_kind_ok w : NameKind w (ident_kind w).
Proof.
  unfold ident_kind. destruct (str_eqb w (lit "True")) eqn:E1; [apply str_eqb_eq in E1; subst; constructor|].
  destruct (str_eqb w (lit "False")) eqn:E2; [apply str_eqb_eq in E2; subst; constructor|].
  destruct (str_eqb w (lit "_")) eqn:E3; [apply str_eqb_eq in E3; subst; constructor|].
  constructor. cbn [In]. intros [H|[H|[H|[]]]]; subst w; rewrite ?str_eqb_refl in *; discriminate.
Qed.
Lemma keyword_kind_ok w : AtKind w (keyword_kind w).
Proof.
  unfold keyword_kind.
  destruct (str_eqb w (lit "export")) eqn:E1; [apply str_eqb_eq in E1; subst; constructor|].
  destruct (str_eqb w (lit "fn")) eqn:E2; [apply str_eqb_eq in E2; subst; constructor|].
  destruct (str_eqb w (lit "implicit")) eqn:E3; [apply str_eqb_eq in E3; subst; constructor|].
  destruct (str_eqb w (lit "let")) eqn:E4; [apply str_eqb_eq in E4; subst; constructor|].
  destruct (str_eqb w (lit "match")) eqn:E5; [apply str_eqb_eq in E5; subst; constructor|].
  constructor. cbn [In]. intros [H|[H|[H|[H|[H|[]]]]]]; subst w; rewrite ?str_eqb_refl in *; discriminate.
Qed.
Lemma set_name_kind w k dir : NameKind w k -> set_quote_dir k dir = k.
Proof. now destruct 1. Qed.
Lemma set_at_kind w k dir : AtKind w k -> set_quote_dir k dir = k.
Proof. now destruct 1. Qed.
Lemma prefix_app a b n : n = blen a -> prefix_str (a ++ b) n = a.
Proof. intros ->. unfold prefix_str. now rewrite split_bytes_app. Qed.

Lemma sound_punct dir p k rest s len : s = p ++ rest -> blen p = len -> (forall no, In (p, no, k) punctuation -> Forall (fun q => NotText q rest) no) ->
  (exists no, In (p, no, k) punctuation) -> exists text rest, s = text ++ rest /\ blen text = len /\ Lexeme dir text rest k None.
Proof. intros -> L N (no & I). exists p, rest. split; [reflexivity|]. split; [exact L|]. eapply lx_punctuation; [exact I|eauto]. Qed.
Ltac in_table := unfold punctuation; repeat (first [apply in_eq | apply in_cons]).

Section Sound.
Variable dir : quote_dir.
Notation Good s len k e := (exists text rest, s = text ++ rest /\ blen text = len /\ Lexeme dir text rest (set_quote_dir k dir) e).

Lemma sound_hash t : Good (35%N :: t)
  (if is_paragraph_break (take_while is_ascii_whitespace (drop_while (fun c => negb (c =? 10)%N) t))
   then 1 + scan_while (fun c => negb (c =? 10)%N) t
   else 1 + scan_while (fun c => negb (c =? 10)%N) t + scan_while is_ascii_whitespace (drop_while (fun c => negb (c =? 10)%N) t)) Comment None.
Proof.
  set (f := fun c => negb (c =? 10)%N).
  assert (F : forall c, f c = true <-> c <> 10%N) by (intros c; unfold f; lia).
  destruct (run f _ F t) as (L & N & E). destruct (run _ _ white_spec (drop_while f t)) as (W & NW & E2).
  set (line := take_while f t) in *. set (after := drop_while f t) in *. set (gap := take_while is_ascii_whitespace after) in *.
  set (rest := drop_while is_ascii_whitespace after) in *.
  assert (L' : ~ In 10%N line) by (rewrite Forall_forall in L; intros I; now apply (L _ I)).
  rewrite E2 in N. unfold scan_while. fold line after gap.
  destruct (is_paragraph_break gap) eqn:B.
  - exists (35%N :: line), (gap ++ rest). split; [now rewrite <- E2, E at 1|]. split; [reflexivity|].
    apply lx_line_comment_blank; auto. now apply blank_spec.
  - exists (35%N :: line ++ gap), rest. split; [cbn [app]; now rewrite <- app_assoc, <- E2, <- E|].
    split; [change (blen (35%N :: line ++ gap)) with (1 + blen (line ++ gap)); rewrite blen_app; lia|].
    apply lx_line_comment; auto. rewrite <- blank_spec. congruence.
Qed.
Lemma sound_white c t : is_ascii_whitespace c = true -> Good (c :: t) (1 + scan_while is_ascii_whitespace t)
  (if is_paragraph_break (prefix_str (c :: t) (1 + scan_while is_ascii_whitespace t)) then Newline else Whitespace) None.
Proof.
  intros H. destruct (run _ _ white_spec t) as (L & N & E). unfold scan_while.
  set (w := take_while is_ascii_whitespace t) in *. set (rest := drop_while is_ascii_whitespace t) in *.
  assert (B : 1 + blen w = blen (c :: w)) by (cbn [blen]; now rewrite (utf8_len_ascii c (ws_ascii _ H))).
  replace (c :: t) with ((c :: w) ++ rest) by (cbn [app]; now rewrite <- E). rewrite (prefix_app _ _ _ B).
  exists (c :: w), rest. split; [reflexivity|]. split; [now rewrite B|].
  assert (A : Forall White (c :: w)) by (constructor; [now apply white_spec|exact L]).
  destruct (is_paragraph_break (c :: w)) eqn:P; [apply lx_blank|apply lx_space]; auto; [now apply blank_spec|discriminate|rewrite <- blank_spec; congruence].
Qed.
Lemma sound_word c t : is_ident_start c = true -> exists w rest, c :: t = w ++ rest /\ blen w = 1 + scan_while is_ident_cont t /\
  Identifier w /\ Not LetterOrDigit rest.
Proof.
  intros H. destruct (run _ _ cont_spec t) as (L & N & E). unfold scan_while.
  set (w := take_while is_ident_cont t) in *. set (rest := drop_while is_ident_cont t) in *.
  exists (c :: w), rest. split; [cbn [app]; now rewrite <- E|]. split; [cbn [blen]; now rewrite (utf8_len_ascii c (ident_start_ascii _ H))|].
  split; [|exact N]. exists c, w. split; [reflexivity|]. split; [now apply letter_spec|exact L].
Qed.
Lemma sound_name c t : is_ident_start c = true -> Good (c :: t) (1 + scan_while is_ident_cont t)
  (ident_kind (prefix_str (c :: t) (1 + scan_while is_ident_cont t))) None.
Proof.
  intros H. destruct (sound_word c t H) as (w & rest & E & B & I & N). rewrite E, (prefix_app _ _ _ (eq_sym B)).
  exists w, rest. split; [reflexivity|]. split; [exact B|]. rewrite (set_name_kind w _ dir (ident_kind_ok w)).
  apply lx_name; auto. apply ident_kind_ok.
Qed.
Lemma cont_of_start c t : is_ident_start c = true -> scan_while is_ident_cont (c :: t) = 1 + scan_while is_ident_cont t.
Proof.
  intros H. unfold scan_while. cbn [take_while].
  assert (X : is_ident_cont c = true) by (apply cont_spec; left; now apply letter_spec). rewrite X. cbn [blen].
  now rewrite (utf8_len_ascii c (ident_start_ascii _ H)).
Qed.
Lemma sound_var t : next_is is_ident_start t = true -> Good (36%N :: t) (1 + scan_while is_ident_cont t) VarName None.
Proof.
  intros H. apply next_is_inv in H as (c & u & -> & H). rewrite (cont_of_start _ _ H).
  destruct (sound_word c u H) as (w & rest & E & B & I & N). exists (36%N :: w), rest. rewrite E. split; [reflexivity|].
  split; [change (blen (36%N :: w)) with (1 + blen w); now rewrite B|]. now apply lx_variable.
Qed.
Lemma sound_at t : next_is is_ident_start t = true ->
  Good (64%N :: t) (1 + scan_while is_ident_cont t) (keyword_kind (prefix_str t (scan_while is_ident_cont t))) None.
Proof.
  intros H. apply next_is_inv in H as (c & u & -> & H). rewrite (cont_of_start _ _ H).
  destruct (sound_word c u H) as (w & rest & E & B & I & N). rewrite E, (prefix_app _ _ _ (eq_sym B)).
  exists (64%N :: w), rest. split; [reflexivity|].
  split; [change (blen (64%N :: w)) with (1 + blen w); now rewrite B|]. rewrite (set_at_kind w _ dir (keyword_kind_ok w)).
  apply lx_function; auto. apply keyword_kind_ok.
Qed.
Lemma sound_digits c t : is_ascii_digit c = true -> exists w rest, c :: t = w ++ rest /\ blen w = 1 + scan_while is_ascii_digit t /\
  w <> [] /\ Forall Digit w /\ Not Digit rest.
Proof.
  intros H. destruct (run _ _ digit_spec t) as (L & N & E). unfold scan_while.
  set (w := take_while is_ascii_digit t) in *. set (rest := drop_while is_ascii_digit t) in *.
  exists (c :: w), rest. split; [cbn [app]; now rewrite <- E|].
  split; [cbn [blen]; now rewrite (utf8_len_ascii c (digit_is_ascii _ H))|].
  split; [discriminate|]. split; [|exact N]. constructor; [now apply digit_spec|exact L].
Qed.
Lemma sound_number c t : is_ascii_digit c = true -> Good (c :: t) (1 + scan_while is_ascii_digit t) Number None.
Proof.
  intros H. destruct (sound_digits c t H) as (w & rest & E & B & N & D & R). exists w, rest. rewrite E.
  split; [reflexivity|]. split; [exact B|]. now apply lx_number.
Qed.
Lemma sound_negative t : next_is is_ascii_digit t = true -> Good (45%N :: t) (2 + scan_while is_ascii_digit (List.tl t)) Number None.
Proof.
  intros H. apply next_is_inv in H as (c & u & -> & H). cbn [List.tl].
  destruct (sound_digits c u H) as (w & rest & E & B & N & D & R). exists (45%N :: w), rest. rewrite E.
  split; [reflexivity|]. split; [change (blen (45%N :: w)) with (1 + blen w); rewrite B; lia|]. now apply lx_negative.
Qed.

Definition entity_char (c : char) : bool := negb (is_ascii_whitespace c) && negb (c =? 59)%N.
Lemma entity_char_spec c : entity_char c = true <-> ~ White c /\ c <> 59%N.
Proof. unfold entity_char. rewrite <- white_spec. destruct (is_ascii_whitespace c); cbn; rewrite ?negb_true_iff, ?N.eqb_neq; intuition congruence. Qed.
Lemma entity_start_spec c : is_ascii_alphabetic c || (c =? 35)%N = true <-> Letter c /\ c <> 95%N \/ c = 35%N.
Proof. rewrite orb_true_iff, alpha_spec, N.eqb_eq. reflexivity. Qed.
Lemma sound_entity t r : next_is (fun c => is_ascii_alphabetic c || (c =? 35)%N) t = true ->
  r = (if next_is (N.eqb 59) (drop_while entity_char (List.tl t))
   then (2 + scan_while entity_char (List.tl t) + 1, None) else (2 + scan_while entity_char (List.tl t), Some TokenEntityMissingSemicolon)) ->
  Good (38%N :: t) (fst r) Entity (snd r).
Proof.
  intros H. apply next_is_inv in H as (c & u & -> & H). cbn [List.tl].
  assert (A : utf8_len c = 1).
  { apply utf8_len_ascii. apply orb_true_iff in H. destruct H as [H|H]; [now apply alpha_ascii|]. apply N.eqb_eq in H. now subst. }
  apply entity_start_spec in H. destruct (run _ _ entity_char_spec u) as (L & N & E). unfold scan_while.
  set (w := take_while entity_char u) in *. set (rest := drop_while entity_char u) in *.
  destruct (next_is (N.eqb 59) rest) eqn:S; intros ->; cbn [fst snd].
  - apply next_is_inv in S as (x & rest' & Er & S). apply N.eqb_eq in S. subst x. rewrite E, Er.
    exists (38%N :: c :: w ++ [59%N]), rest'. split; [cbn [app]; now rewrite <- app_assoc|].
    split; [|now apply lx_entity]. cbn [blen]. rewrite A, blen_app. change (utf8_len 38) with 1. change (blen [59%N]) with 1. lia.
  - rewrite E. exists (38%N :: c :: w), rest. split; [reflexivity|]. split; [cbn [blen]; rewrite A; reflexivity|].
    apply lx_entity_open; auto. intros x y Ex Hx. rewrite Ex in N, S. cbn in S. apply (N x y eq_refl). split; [exact Hx|].
    intros ->. discriminate.
Qed.

Lemma sound_escape d t2 len k e : d <> 10%N ->
  (if (d =? c_of "x")%N || (d =? c_of "u")%N || (d =? c_of "U")%N then
     let end_ := if (d =? c_of "x")%N then 4 else if (d =? c_of "u")%N then 6 else 10 in
     if end_ <=? blen (92%N :: d :: t2) then
       match split_bytes t2 (end_ - 2) with
       | Some (digits, _) =>
         if forallb is_ascii_hexdigit digits then Ret (end_, Escape, None) else Ret (2, Escape, Some TokenInvalidEscape)
       | None => Panic
       end
     else Ret (2, Escape, Some TokenInvalidEscape)
   else Ret (1 + utf8_len d, Escape, None)) = Ret (len, k, e) -> Good (92%N :: d :: t2) len k e.
Proof.
  intros Nl. destruct (_ || _ || _) eqn:X.
  2: { intros [= <- <- <-]. exists [92%N; d], t2. split; [reflexivity|]. split; [cbn [blen]; change (utf8_len 92) with 1; lia|].
       apply lx_escape; [exact Nl|]. cbn [numeric_escapes map fst In]. change (c_of "x") with 120%N in X. change (c_of "u") with 117%N in X.
       change (c_of "U") with 85%N in X. lia. }
  set (end_ := if (d =? c_of "x")%N then 4 else if (d =? c_of "u")%N then 6 else 10). cbv zeta.
  assert (I : In (d, end_ - 2) numeric_escapes /\ utf8_len d = 1 /\ 4 <= end_).
  { unfold end_, numeric_escapes. change (c_of "x") with 120%N in *. change (c_of "u") with 117%N in *. change (c_of "U") with 85%N in *.
    destruct (N.eqb_spec d 120) as [->|]; [split; [left; reflexivity|split; [reflexivity|lia]]|].
    destruct (N.eqb_spec d 117) as [->|]; [split; [right; left; reflexivity|split; [reflexivity|lia]]|].
    destruct (N.eqb_spec d 85) as [->|]; [split; [right; right; left; reflexivity|split; [reflexivity|lia]]|discriminate]. }
  destruct I as (I & U & E4). cbn [blen]. change (utf8_len 92) with 1. rewrite U.
  assert (Short : ~ (end_ - 2 <= length t2 /\ Forall HexDigitChar (firstn (end_ - 2) t2)) -> Good (92%N :: d :: t2) 2 Escape (Some TokenInvalidEscape)).
  { intros H. exists [92%N; d], t2. split; [reflexivity|]. split; [cbn [blen]; now rewrite U|]. eapply lx_escape_short; eauto. }
  assert (Asc : forall l, Forall HexDigitChar l -> blen l = length l).
  { intros l H. apply blen_ascii. rewrite forallb_forall. rewrite Forall_forall in H. intros x Hx. specialize (H x Hx).
    unfold is_ascii. unfold HexDigitChar, Digit in H. lia. }
  destruct (Nat.leb_spec end_ (1 + (1 + blen t2))) as [Le|Lt].
  - destruct (split_bytes t2 (end_ - 2)) as [[digits r]|] eqn:Sp; [|discriminate].
    apply split_bytes_spec in Sp as [-> Bd]. destruct (forallb is_ascii_hexdigit digits) eqn:F.
    + intros [= <- <- <-]. apply (all_spec _ _ hex_spec) in F. exists (92%N :: d :: digits), r. split; [reflexivity|].
      split; [cbn [blen]; change (utf8_len 92) with 1; rewrite U, Bd; lia|]. eapply lx_escape_number; [exact I| |exact F].
      now rewrite <- (Asc _ F).
    + intros [= <- <- <-]. apply Short. intros [Ln H].
      assert (exists x, Forall HexDigitChar x /\ exists y, x = digits ++ y).
      { exists (firstn (end_ - 2) (digits ++ r)). split; [exact H|]. rewrite firstn_app, firstn_all2; [now eexists|].
        rewrite <- Bd. apply length_le_blen. }
      destruct H0 as (x & Hx & y & ->). apply Forall_app in Hx as [Hx _]. apply (all_spec _ _ hex_spec) in Hx. congruence.
  - intros [= <- <- <-]. apply Short. intros [Ln H].
    assert (end_ - 2 <= blen t2) by (etransitivity; [exact Ln|apply length_le_blen]). lia.
Qed.

Lemma sound_verbatim t len k e :
  match find_sub (take_while (N.eqb 96) (96%N :: t)) (drop_while (N.eqb 96) (96%N :: t)) with
  | Some (content, from_close) =>
    let close_len := 1 + scan_while (N.eqb 96) t + scan_while (N.eqb 96) (skipn (1 + scan_while (N.eqb 96) t) from_close) in
    let len := 1 + scan_while (N.eqb 96) t + blen content + close_len in
    let kind := Verbatim (if starts_with (lit "```") (96%N :: t) then VMultiline else VSimple) in
    if 1 + scan_while (N.eqb 96) t <? close_len then Ret (len, kind, Some TokenVerbatimTooManyBackticks)
    else if (1 + scan_while (N.eqb 96) t <? 3) && existsb (N.eqb 10) content then Ret (len, kind, Some TokenVerbatimMultilineNotEnoughBackticks)
    else Ret (len, kind, None)
  | None => Ret (blen (96%N :: t), Verbatim (if starts_with (lit "```") (96%N :: t) then VMultiline else VSimple), Some TokenVerbatimEOF)
  end = Ret (len, k, e) -> Good (96%N :: t) len k e.
Proof.
  destruct (run _ _ (eqb_spec 96) (96%N :: t)) as (L & N & E).
  rewrite (ticks_run (96%N :: t)) in *.
  assert (P : exists n, length (take_while (N.eqb 96) (96%N :: t)) = S n /\ scan_while (N.eqb 96) t = n).
  { cbn [take_while]. change (96 =? 96)%N with true. cbv iota. cbn [length]. eexists. split; [reflexivity|].
    unfold scan_while. rewrite (ticks_run t) at 1. apply blen_ticks. }
  destruct P as (n & P & ->). rewrite P in *. change (1 + n) with (S n).
  set (rest := drop_while (N.eqb 96) (96%N :: t)) in *.
  assert (K : (if starts_with (lit "```") (96%N :: t) then VMultiline else VSimple) = (if 3 <=? S n then VMultiline else VSimple)).
  { rewrite E. destruct (starts_spec (lit "```") (repeat 96%N (S n) ++ rest)) as [St Sf].
    destruct (Nat.leb_spec 3 (S n)) as [Le|Lt].
    - rewrite (proj2 St); [reflexivity|]. destruct n as [|[|n]]; [lia|lia|]. cbn [repeat app]. now eexists.
    - rewrite (proj2 Sf); [reflexivity|]. intros u Eu. destruct n as [|[|n]]; [| |lia]; cbn [repeat app] in Eu; change (lit "```") with [96;96;96]%N in Eu; cbn [app] in Eu.
      + injection Eu as Eu. now apply (N 96%N (96%N :: u)).
      + injection Eu as Eu. now apply (N 96%N u). }
  rewrite K, E. clear K E. remember (if 3 <=? S n then VMultiline else VSimple) as vk eqn:Vk. destruct (find_sub (repeat 96%N (S n)) rest) as [[w r]|] eqn:F.
  - destruct (find_first _ _ _ _ F) as (after & -> & Er & Fa). cbv zeta.
    rewrite skipn_app, repeat_length, Nat.sub_diag, skipn_O. rewrite skipn_all2 by (rewrite repeat_length; lia). cbn [app].
    destruct (run _ _ (eqb_spec 96) after) as (La & Na & Ea). rewrite (ticks_run after) in Ea, La.
    unfold scan_while. rewrite (ticks_run after), blen_ticks. set (m := length (take_while (N.eqb 96) after)) in *.
    set (tail := drop_while (N.eqb 96) after) in *.
    assert (Nw : w <> [] /\ Not (eq 96%N) w).
    { split; [intros ->; cbn [app repeat] in Er; now apply (N 96%N (repeat 96%N n ++ after))|].
      intros c u -> <-. cbn [app] in Er. now apply (N 96%N (u ++ repeat 96%N (S n) ++ after)). }
    destruct Nw as [N1 N2]. rewrite Er, Ea.
    destruct (Nat.ltb_spec (S n) (S n + m)) as [Lt|Ge].
    + intros [= <- <- <-]. exists (repeat 96%N (S n) ++ w ++ repeat 96%N (S n + m)), tail.
      split; [rewrite (repeat_app 96%N (S n) m), <- !app_assoc; reflexivity|].
      split; [rewrite !blen_app, !blen_ticks; lia|]. cbn [set_quote_dir]; rewrite Vk; apply lx_verbatim_ticks; auto; lia.
    + assert (m = 0) by lia. rewrite H in *. cbn [repeat app].
      assert (B : blen (repeat 96%N (S n) ++ w ++ repeat 96%N (S n)) = S n + blen w + (S n + 0)) by (rewrite !blen_app, !blen_ticks; lia).
      destruct ((S n <? 3) && existsb (N.eqb 10) w) eqn:X.
      * intros [= <- <- <-]. exists (repeat 96%N (S n) ++ w ++ repeat 96%N (S n)), tail.
        split; [rewrite <- !app_assoc; reflexivity|]. split; [exact B|]. apply andb_true_iff in X as [X1 X2].
        apply Nat.ltb_lt in X1. apply existsb_exists in X2 as (x & Hx & Ex). apply N.eqb_eq in Ex. subst x.
        cbn [set_quote_dir]. rewrite Vk. replace (3 <=? S n) with false by (symmetry; apply Nat.leb_gt; lia). apply lx_verbatim_lines; auto; lia.
      * intros [= <- <- <-]. exists (repeat 96%N (S n) ++ w ++ repeat 96%N (S n)), tail.
        split; [rewrite <- !app_assoc; reflexivity|]. split; [exact B|]. cbn [set_quote_dir]; rewrite Vk; apply lx_verbatim; auto; [lia|].
        apply andb_false_iff in X as [X|X]; [apply Nat.ltb_ge in X; now left|right]. intros I.
        assert (existsb (N.eqb 10) w = true) by (apply existsb_exists; exists 10%N; now split). congruence.
  - intros [= <- <- <-]. exists (repeat 96%N (S n) ++ rest), []. split; [now rewrite app_nil_r|]. split; [reflexivity|].
    cbn [set_quote_dir]; rewrite Vk; apply lx_verbatim_open; [lia|exact N|]. now apply find_none.
Qed.

Lemma sound_angle t len k e :
  (if starts_with (lit "<!--") (60%N :: t) then
     match find_sub (lit "-->") (skipn 4 (60%N :: t)) with
     | Some (content, _) => Ret (blen content + 7, Comment, None)
     | None => Ret (blen (60%N :: t), Comment, None)
     end
   else if next_is (N.eqb 47) t then
     if next_is is_ident_start (List.tl t) then
       if next_is (N.eqb 62) (drop_while is_ident_cont (List.tl (List.tl t)))
       then Ret (3 + (1 + scan_while is_ident_cont (List.tl (List.tl t))), CloseTag, None)
       else Ret (2 + (1 + scan_while is_ident_cont (List.tl (List.tl t))), RawText, Some TagCloseMalformed)
     else if starts_with (lit "</>") (60%N :: t) then Ret (3, CloseTag, None)
     else Ret (2, RawText, Some TagCloseMalformed)
   else Ret (1, LAngle, None)) = Ret (len, k, e) -> Good (60%N :: t) len k e.
Proof.
  destruct (starts_spec (lit "<!--") (60%N :: t)) as [St Sf]. destruct (starts_with (lit "<!--") (60%N :: t)).
  { destruct (proj1 St eq_refl) as (u & E). rewrite E. change (skipn 4 (lit "<!--" ++ u)) with u.
    destruct (find_sub (lit "-->") u) as [[w r]|] eqn:F.
    - destruct (find_first _ _ _ _ F) as (after & -> & -> & Fa). intros [= <- <- <-].
      exists (lit "<!--" ++ w ++ lit "-->"), after. split; [now rewrite <- !app_assoc|].
      split; [rewrite !blen_app; change (blen (lit "<!--")) with 4; change (blen (lit "-->")) with 3; lia|now apply lx_comment].
    - intros [= <- <- <-]. exists (lit "<!--" ++ u), []. split; [now rewrite app_nil_r|]. split; [reflexivity|].
      apply lx_comment_open. now apply find_none. }
  pose proof (proj1 Sf eq_refl) as NC. clear St Sf.
  destruct (next_spec _ _ (eqb_spec 47) t) as [Nf Nt]. destruct (next_is (N.eqb 47) t).
  2: { intros [= <- <- <-]. exists [60%N], t. split; [reflexivity|]. split; [reflexivity|].
       eapply (lx_punctuation _ (lit "<") [lit "!--"; lit "/"] LAngle); [in_table|]. constructor; [|constructor; [|constructor]].
       - intros u ->. now apply (NC u).
       - intros u Eu. now apply (proj1 Nf eq_refl 47%N u Eu). }
  destruct (proj1 Nt eq_refl) as (x & u & -> & <-). clear Nt Nf. cbn [List.tl].
  destruct (next_spec _ _ letter_spec u) as [Nf Nt]. destruct (next_is is_ident_start u).
  - destruct (proj1 Nt eq_refl) as (c & v & -> & Hc). cbn [List.tl]. destruct (run _ _ cont_spec v) as (Lv & Nv & Ev).
    unfold scan_while. set (w := take_while is_ident_cont v) in *. set (rest := drop_while is_ident_cont v) in *.
    assert (I : Identifier (c :: w)) by (exists c, w; auto).
    assert (U : utf8_len c = 1) by (apply utf8_len_ascii, ident_start_ascii; now apply letter_spec).
    destruct (next_spec _ _ (eqb_spec 62) rest) as [Rf Rt]. destruct (next_is (N.eqb 62) rest).
    + destruct (proj1 Rt eq_refl) as (x & r & Er & <-). intros [= <- <- <-]. exists (lit "</" ++ (c :: w) ++ lit ">"), r.
      rewrite Ev, Er. split; [change (lit "</") with [60; 47]%N; cbn [app]; now rewrite <- app_assoc|].
      split; [rewrite !blen_app; cbn [blen]; rewrite U; change (blen (lit "</")) with 2; change (blen (lit ">")) with 1; lia|now apply lx_close].
    + intros [= <- <- <-]. exists (lit "</" ++ (c :: w)), rest. rewrite Ev. split; [reflexivity|].
      split; [rewrite !blen_app; cbn [blen]; rewrite U; reflexivity|]. apply lx_close_name; auto. now apply Rf.
  - destruct (starts_spec (lit "</>") (60%N :: 47%N :: u)) as [St Sf]. destruct (starts_with (lit "</>") (60%N :: 47%N :: u)).
    + destruct (proj1 St eq_refl) as (r & E). rewrite E. intros [= <- <- <-]. exists (lit "</>"), r.
      split; [reflexivity|]. split; [reflexivity|apply lx_close_any].
    + intros [= <- <- <-]. exists (lit "</"), u. split; [reflexivity|]. split; [reflexivity|]. apply lx_close_bad; [now apply Nf|].
      intros c r -> <-. now apply (proj1 Sf eq_refl r).
Qed.
Lemma sound_raw c t : (Raw c \/ c = 36%N /\ Not Letter t \/ c = 64%N /\ Not Letter t \/
      c = 45%N /\ Not Digit t /\ Not (eq 62%N) t \/ c = 47%N /\ Not (eq 62%N) t) ->
  Good (c :: t) (utf8_len c + scan_while is_raw_text t) RawText None.
Proof.
  intros H. destruct (run _ _ raw_spec t) as (L & N & E). exists (c :: take_while is_raw_text t), (drop_while is_raw_text t).
  split; [cbn [app]; now rewrite <- E|]. split; [reflexivity|]. apply lx_raw; auto. now rewrite <- E.
Qed.
End Sound.

Ltac one dir c t p :=
  destruct (N.eqb_spec c (c_of p)) as [->|];
  [intros [= <- <- <-]; exists (lit p), t; repeat split; eapply (lx_punctuation dir (lit p) []); [in_table|constructor]|].
Ltac two dir c t p q :=
  destruct (N.eqb_spec c (c_of p)) as [->|];
  [let St := fresh in let Sf := fresh in let r := fresh in let E := fresh in
   destruct (starts_spec (lit q) (c_of p :: t)) as [St Sf]; destruct (starts_with (lit q) (c_of p :: t));
   [destruct (proj1 St eq_refl) as (r & E); rewrite E; intros [= <- <- <-]; exists (lit q), r; repeat split;
    eapply (lx_punctuation dir (lit q) []); [in_table|constructor]
   |intros [= <- <- <-]; exists (lit p), t; repeat split; eapply (lx_punctuation dir (lit p));
    [in_table|constructor; [|constructor]; intros r ->; now apply (proj1 Sf eq_refl r)]]|].

Lemma next_token_sound dir s len k e : next_token s = Ret (len, k, e) ->
  exists text rest, s = text ++ rest /\ blen text = len /\ Lexeme dir text rest (set_quote_dir k dir) e.
Proof.
  unfold next_token. destruct s as [|c t]; [discriminate|]. cbv beta zeta.
  change (c_of "#") with 35%N. change (c_of "$") with 36%N. change (c_of "@") with 64%N. change (c_of "&") with 38%N.
  change (c_of "\") with 92%N. change (c_of "`") with 96%N. change (c_of "<") with 60%N. change (c_of "-") with 45%N.
  change (c_of ";") with 59%N. change (c_of "/") with 47%N. change (c_of ">") with 62%N.
  destruct (N.eqb_spec c 35) as [->|N35]; [intros [= <- <- <-]; apply sound_hash|].
  destruct (is_ascii_whitespace c) eqn:Ew; [intros [= <- <- <-]; now apply sound_white|].
  destruct (is_ident_start c) eqn:Ei; [intros [= <- <- <-]; now apply sound_name|].
  destruct (is_ascii_digit c) eqn:Ed; [intros [= <- <- <-]; now apply sound_number|].
  destruct (next_spec _ _ letter_spec t) as [Lf Lt].
  destruct (((c =? 36)%N || (c =? 64)%N) && next_is is_ident_start t) eqn:Ev.
  { apply andb_true_iff in Ev as [Ev En]. destruct (N.eqb_spec c 36) as [->|N36].
    - intros [= <- <- <-]. now apply sound_var.
    - intros [= <- <- <-]. cbn [orb] in Ev. apply N.eqb_eq in Ev. subst c. now apply sound_at. }
  assert (V : forall x, (x = 36 \/ x = 64)%N -> c = x -> Not Letter t).
  { intros x Hx Ec. apply Lf. destruct (next_is is_ident_start t); [|reflexivity]. rewrite andb_true_r in Ev. lia. }
  clear Ev Lf Lt.
  destruct (N.eqb_spec c 38) as [->|N38].
  { cbn [andb]. change (fun c => negb (is_ascii_whitespace c) && negb (c =? 59)%N) with entity_char.
    destruct (next_is _ t) eqn:En.
    - intros H. destruct (next_is (N.eqb 59) _) eqn:E9; injection H as <- <- <-.
      + apply (sound_entity dir t (2 + scan_while entity_char (List.tl t) + 1, None) En). now rewrite E9.
      + apply (sound_entity dir t (2 + scan_while entity_char (List.tl t), Some TokenEntityMissingSemicolon) En). now rewrite E9.
    - intros H. exists [38%N], t. cbn in H. injection H as <- <- <-. split; [reflexivity|]. split; [reflexivity|]. apply lx_ampersand.
      now apply (next_spec _ _ entity_start_spec). }
  cbn [andb].
  destruct (N.eqb_spec c 92) as [->|N92].
  { destruct t as [|d t2].
    - intros [= <- <- <-]. exists [92%N], []. repeat split. apply lx_escape_end.
    - destruct (N.eqb_spec d 10) as [->|Nd].
      + intros [= <- <- <-]. exists [92%N], (10%N :: t2). repeat split. apply lx_escape_line.
      + now apply sound_escape. }
  destruct (N.eqb_spec c 96) as [->|N96]; [apply sound_verbatim|].
  destruct (N.eqb_spec c 60) as [->|N60]; [apply sound_angle|].
  destruct (N.eqb_spec c 45) as [->|N45].
  { cbn [andb]. destruct (starts_spec (lit "->") (45%N :: t)) as [St Sf]. destruct (starts_with (lit "->") (45%N :: t)).
    - destruct (proj1 St eq_refl) as (r & E). rewrite E. intros [= <- <- <-]. exists (lit "->"), r. repeat split.
      eapply lx_punctuation; [in_table|constructor].
    - destruct (next_spec _ _ digit_spec t) as [Df Dt]. destruct (next_is is_ascii_digit t) eqn:Dn.
      + intros [= <- <- <-]. now apply sound_negative.
      + cbn. intros [= <- <- <-]. apply sound_raw. right; right; right; left. split; [reflexivity|]. split; [now apply Df|].
        intros x r -> <-. now apply (proj1 Sf eq_refl r). }
  cbn [andb].
  one dir c t "("%string. one dir c t ")"%string. one dir c t "["%string. one dir c t "]"%string.
  one dir c t "{"%string. one dir c t "}"%string. change 62%N with (c_of ">"). one dir c t ">"%string.
  destruct (N.eqb_spec c 47) as [->|N47].
  { cbn [andb]. destruct (starts_spec (lit "/>") (47%N :: t)) as [St Sf]. destruct (starts_with (lit "/>") (47%N :: t)).
    - destruct (proj1 St eq_refl) as (r & E). rewrite E. intros [= <- <- <-]. exists (lit "/>"), r. repeat split.
      eapply lx_punctuation; [in_table|constructor].
    - cbn. intros [= <- <- <-]. apply sound_raw. do 4 right. split; [reflexivity|].
      intros x r -> <-. now apply (proj1 Sf eq_refl r). }
  cbn [andb].
  one dir c t "|"%string. one dir c t ","%string. one dir c t "="%string. one dir c t "!"%string.
  two dir c t "*"%string "**"%string. two dir c t ":"%string "::"%string. two dir c t "?"%string "?::"%string. two dir c t "."%string "..."%string.
  change (c_of "'") with 39%N. change (c_of """") with 34%N.
  destruct (N.eqb_spec c 39) as [->|N39]; [intros [= <- <- <-]; exists [39%N], t; repeat split; apply lx_single_quote|].
  destruct (N.eqb_spec c 34) as [->|N34]; [intros [= <- <- <-]; exists [34%N], t; repeat split; apply lx_double_quote|].
  intros [= <- <- <-]. apply sound_raw.
  destruct (N.eq_dec c 36) as [E36|N36]; [right; left; split; [exact E36|]; now apply (V 36%N); auto|].
  destruct (N.eq_dec c 64) as [E64|N64]; [right; right; left; split; [exact E64|]; now apply (V 64%N); auto|].
  left. split; [|split].
  - intros I. change special with [40;41;91;93;123;125;60;62;46;44;45;61;58;42;33;63;47;124;35;64;36;38;92;96;39;34]%N in I.
    cbn [In] in I. cbn in *. intuition congruence.
  - rewrite <- cont_spec. unfold is_ident_cont, is_ascii_alphanumeric. unfold is_ident_start in Ei. rewrite Ed.
    destruct (is_ascii_alphabetic c); [discriminate|]. cbn in *. congruence.
  - rewrite <- white_spec. congruence.
Qed.
