(** The lexical grammar and the tokenizer: characters and runs of characters. *)
From Verif Require Import Base BaseFacts M_Text M_Token M_Tokenizer S_Text S_Lex P_Tokenizer.

Lemma white_spec c : is_ascii_whitespace c = true <-> White c.
Proof. unfold is_ascii_whitespace, White. lia. Qed.
Lemma digit_spec c : is_ascii_digit c = true <-> Digit c.
Proof. unfold is_ascii_digit, in_range, Digit. lia. Qed.
Lemma hex_spec c : is_ascii_hexdigit c = true <-> HexDigitChar c.
Proof. unfold is_ascii_hexdigit, HexDigitChar, Digit, is_ascii_digit, in_range. lia. Qed.
Lemma letter_spec c : is_ident_start c = true <-> Letter c.
Proof. unfold is_ident_start, is_ascii_alphabetic, is_ascii_lower, is_ascii_upper, in_range, Letter. lia. Qed.
Lemma alpha_spec c : is_ascii_alphabetic c = true <-> Letter c /\ c <> 95%N.
Proof. unfold is_ascii_alphabetic, is_ascii_lower, is_ascii_upper, in_range, Letter. lia. Qed.
Lemma cont_spec c : is_ident_cont c = true <-> LetterOrDigit c.
Proof.
  unfold is_ident_cont, is_ascii_alphanumeric, is_ascii_alphabetic, is_ascii_lower, is_ascii_upper, is_ascii_digit, in_range,
    LetterOrDigit, Letter. lia.
Qed.
Lemma special_eq : special = special_chars. Proof. reflexivity. Qed.
Lemma special_spec c : existsb (N.eqb c) special_chars = true <-> In c special.
Proof.
  rewrite special_eq, existsb_exists. split; [intros (x & H & E); apply N.eqb_eq in E; now subst|].
  intros H. exists c. split; [exact H|apply N.eqb_refl].
Qed.
Lemma raw_spec c : is_raw_text c = true <-> Raw c.
Proof.
  unfold is_raw_text, Raw. rewrite <- special_spec, <- cont_spec, <- white_spec.
  destruct (existsb _ _); [split; [discriminate|intros [H _]; now destruct H]|].
  destruct (is_ident_cont c), (is_ascii_whitespace c); cbn; intuition discriminate.
Qed.

Lemma count_nl s : length (filter (N.eqb 10) s) = 0 <-> ~ In 10%N s.
Proof.
  induction s as [|c s IH]; cbn [filter In]; [intuition|]. destruct (N.eqb_spec 10 c) as [E|E]; cbn [length].
  - split; [discriminate|]. intros H. destruct H. now left.
  - rewrite IH. intuition.
Qed.
Lemma nl_split s : 1 <= length (filter (N.eqb 10) s) -> exists a b, s = a ++ 10%N :: b /\ length (filter (N.eqb 10) s) = S (length (filter (N.eqb 10) b)).
Proof.
  induction s as [|c s IH]; cbn [filter]; [cbn; lia|]. destruct (N.eqb_spec 10 c) as [E|E]; cbn [length].
  - intros _. subst. exists [], s. now split.
  - intros H. destruct (IH H) as (a & b & -> & E'). now exists (c :: a), b.
Qed.
Lemma blank_spec s : is_paragraph_break s = true <-> BlankLine s.
Proof.
  unfold is_paragraph_break, BlankLine. rewrite Nat.leb_le. split.
  - intros H. destruct (nl_split s) as (a & b & -> & E); [lia|]. destruct (nl_split b) as (x & y & -> & E2); [lia|]. now exists a, x, y.
  - intros (a & b & c & ->). rewrite !filter_app, !app_length. cbn [filter]. change (10 =? 10)%N with true. cbv iota. cbn [length].
    rewrite !filter_app, !app_length. cbn [filter]. change (10 =? 10)%N with true. cbv iota. cbn [length]. lia.
Qed.

Lemma spec_false (f : char -> bool) (P : N -> Prop) : (forall c, f c = true <-> P c) -> forall c, f c = false <-> ~ P c.
Proof. intros H c. rewrite <- H. destruct (f c); intuition congruence. Qed.
Lemma all_spec (f : char -> bool) (P : N -> Prop) : (forall c, f c = true <-> P c) -> forall s, forallb f s = true <-> Forall P s.
Proof.
  intros H s. rewrite forallb_forall, Forall_forall. split; intros K x Hx; apply H; now apply K.
Qed.
Lemma not_spec (f : char -> bool) (P : N -> Prop) : (forall c, f c = true <-> P c) -> forall s,
  Not P s <-> (forall c t, s = c :: t -> f c = false).
Proof. intros H s. unfold Not. split; intros K c t E; apply (spec_false f P H); eauto. Qed.

(** The run of characters of a class at the start of a text. *)
Lemma run (f : char -> bool) (P : N -> Prop) : (forall c, f c = true <-> P c) -> forall s,
  Forall P (take_while f s) /\ Not P (drop_while f s) /\ s = take_while f s ++ drop_while f s.
Proof.
  intros H s. split; [apply (all_spec f P H); apply take_while_all|]. split; [|symmetry; apply take_drop_while].
  intros c t E. apply (spec_false f P H). revert E. induction s as [|x s IH]; cbn [drop_while]; [discriminate|].
  destruct (f x) eqn:F; [exact IH|]. now intros [= <- _].
Qed.
Lemma run_is (f : char -> bool) (P : N -> Prop) : (forall c, f c = true <-> P c) -> forall a b, Forall P a -> Not P b ->
  take_while f (a ++ b) = a /\ drop_while f (a ++ b) = b /\ scan_while f (a ++ b) = blen a.
Proof.
  intros H a b Ha Hb. destruct (take_while_app_stop f a b) as [T D]; [now apply (all_spec f P H)|now apply (not_spec f P H)|].
  unfold scan_while. now rewrite T, D.
Qed.
Lemma next_spec (f : char -> bool) (P : N -> Prop) : (forall c, f c = true <-> P c) -> forall s,
  (next_is f s = false <-> Not P s) /\ (next_is f s = true <-> exists c t, s = c :: t /\ P c).
Proof.
  intros H s. unfold next_is, Not. destruct s as [|c t].
  - split; split; try discriminate; try reflexivity; [intros (c & t & E & _)]; discriminate.
  - split.
    + rewrite (spec_false f P H). split; [now intros K c' t' [= <- _]|eauto].
    + rewrite (H c). split; [intros K; now exists c, t|now intros (? & ? & [= <- _] & K)].
Qed.
Lemma eqb_spec x : forall c, N.eqb x c = true <-> x = c.
Proof. intros c. apply N.eqb_eq. Qed.

Lemma starts_spec p s : (starts_with p s = true <-> exists t, s = p ++ t) /\ (starts_with p s = false <-> NotText p s).
Proof.
  unfold starts_with, NotText. destruct (strip_prefix p s) as [t|] eqn:E.
  - apply strip_prefix_spec in E. split; split; try discriminate; [now exists t|reflexivity|intros K; now destruct (K t)].
  - split; split; try discriminate; [intros (t & ->)|intros _ t ->|reflexivity];
      rewrite (proj2 (strip_prefix_spec p (p ++ t) t) eq_refl) in E; discriminate.
Qed.

Lemma prefix_of (a b c d : str) : a ++ b = c ++ d -> length a <= length c -> exists e, c = a ++ e.
Proof.
  revert c; induction a as [|x a IH]; intros c E L; [now exists c|]. destruct c as [|y c]; [cbn in L; lia|].
  cbn in E, L. injection E as <- E. destruct (IH c E ltac:(lia)) as (e & ->). now exists e.
Qed.
Lemma first_after p w t : FirstAfter p w <-> (forall x y, w = x ++ y -> y <> [] -> forall t', y ++ p ++ t <> p ++ t').
Proof.
  unfold FirstAfter. split.
  - intros H x y -> Ny t' E.
    assert (L : length p <= length (y ++ p)) by (rewrite app_length; lia).
    assert (P : exists u, y ++ p = p ++ u).
    { rewrite app_assoc in E. symmetry in E. eapply prefix_of; [exact E|exact L]. }
    destruct P as (u & P). assert (u = []) by (apply (H x u); rewrite <- app_assoc, P; reflexivity). subst u.
    rewrite app_nil_r in P. apply (f_equal (@length N)) in P. rewrite app_length in P. destruct y; [now apply Ny|cbn in P; lia].
  - intros H a b E.
    assert (La : length a <= length w).
    { apply (f_equal (@length N)) in E. rewrite !app_length in E. lia. }
    destruct (prefix_of a (p ++ b) w p (eq_sym E) La) as (y & W). rewrite W, <- app_assoc in E. apply app_inv_head in E.
    destruct y as [|z y].
    + cbn in E. rewrite <- (app_nil_r p) in E at 1. now apply app_inv_head in E.
    + exfalso. apply (H a (z :: y) W ltac:(discriminate) (b ++ t)). rewrite app_assoc, E. now rewrite <- app_assoc.
Qed.
Lemma find_first p s w r : find_sub p s = Some (w, r) -> exists t, r = p ++ t /\ s = w ++ p ++ t /\ FirstAfter p w.
Proof.
  intros H. destruct (find_sub_spec _ _ _ _ H) as (E & (t & ->) & F). exists t. split; [reflexivity|]. split; [exact E|].
  now apply (first_after p w t).
Qed.
Lemma find_is p w t : FirstAfter p w -> find_sub p (w ++ p ++ t) = Some (w, p ++ t).
Proof. intros H. apply find_sub_found. now apply first_after. Qed.
Lemma find_none p s : find_sub p s = None <-> ~ Occurs p s.
Proof.
  split.
  - intros H (a & b & ->). revert H. induction a as [|c a IH]; cbn [app find_sub].
    + pose proof (proj2 (strip_prefix_spec p (p ++ b) b) eq_refl) as E. destruct (p ++ b); cbn [find_sub]; rewrite E; discriminate.
    + destruct (strip_prefix _ _); [discriminate|]. destruct (find_sub p _) as [[? ?]|]; [discriminate|exact IH].
  - intros H. destruct (find_sub p s) as [[w r]|] eqn:E; [|reflexivity]. exfalso. apply H.
    destruct (find_first _ _ _ _ E) as (t & _ & -> & _). now exists w, t.
Qed.
Lemma ticks_run s : take_while (N.eqb 96) s = repeat 96%N (length (take_while (N.eqb 96) s)).
Proof.
  induction s as [|c s IH]; [reflexivity|]. cbn [take_while]. destruct (N.eqb_spec 96 c) as [E|E]; [|reflexivity].
  cbn [length repeat]. now rewrite <- IH, <- E.
Qed.
Lemma blen_ticks n : blen (repeat 96%N n) = n.
Proof. induction n as [|n IH]; [reflexivity|]. cbn [repeat]. change (blen (96%N :: repeat 96%N n)) with (1 + blen (repeat 96%N n)). now rewrite IH. Qed.
