(** Proofs about prose: how it is tokenized. *)
From Verif Require Import Base BaseFacts M_Text M_Token M_Tokenizer M_TokenText S_Front P_Tokenizer S_TextSubs S_Prose.

Lemma white_iff c : WhiteChar c <-> is_ascii_whitespace c = true.
Proof. unfold WhiteChar, is_ascii_whitespace. rewrite !orb_true_iff, !N.eqb_eq. cbn [In]. intuition auto. Qed.
Lemma not_white c : ~ WhiteChar c <-> is_ascii_whitespace c = false.
Proof. rewrite white_iff. destruct (is_ascii_whitespace c); intuition congruence. Qed.
Lemma letter_iff c : Letter c <-> is_ascii_alphabetic c = true.
Proof.
  unfold Letter, is_ascii_alphabetic, is_ascii_lower, is_ascii_upper, in_range.
  rewrite orb_true_iff, !andb_true_iff, !N.leb_le. reflexivity.
Qed.

(** What follows a word *)
Definition Edge (rest : str) : Prop := rest = [] \/ exists c r, rest = c :: r /\ is_ascii_whitespace c = true.
Definition dull (f : char -> bool) : Prop := forall c, is_ascii_whitespace c = true -> f c = false.
Lemma take_edge f w rest : dull f -> Edge rest -> take_while f (w ++ rest) = take_while f w.
Proof.
  intros D E. induction w as [|c w IH]; cbn [app take_while].
  - destruct E as [-> | (c & r & -> & Hc)]; [reflexivity|]. cbn [take_while]. now rewrite (D c Hc).
  - destruct (f c); [now rewrite IH|reflexivity].
Qed.
Lemma scan_edge f w rest : dull f -> Edge rest -> scan_while f (w ++ rest) = blen (take_while f w).
Proof. intros D E. unfold scan_while. now rewrite take_edge. Qed.
Lemma next_edge f w rest : dull f -> Edge rest -> next_is f (w ++ rest) = next_is f w.
Proof. intros D E. destruct w; [|reflexivity]. destruct E as [-> | (c & r & -> & Hc)]; [reflexivity|]. cbn. now rewrite D. Qed.
Lemma starts_edge p w rest : Forall (fun c => is_ascii_whitespace c = false) p -> Edge rest ->
  starts_with p (w ++ rest) = starts_with p w.
Proof.
  intros F E. unfold starts_with. revert w; induction F as [|x p Hx F IH]; intros w.
  - destruct w; cbn; [destruct rest|]; reflexivity.
  - destruct w as [|c w]; cbn [app].
    + destruct E as [-> | (c & r & -> & Hc)]; [reflexivity|]. cbn [strip_prefix].
      destruct (N.eqb_spec x c) as [->|]; [congruence|reflexivity].
    + cbn [strip_prefix]. destruct (x =? c)%N; [apply IH|reflexivity].
Qed.
Lemma dull_ident_cont : dull is_ident_cont.
Proof.
  intros c H. unfold is_ascii_whitespace in H. rewrite !orb_true_iff, !N.eqb_eq in H. intuition (subst; reflexivity).
Qed.
Lemma dull_ident_start : dull is_ident_start.
Proof.
  intros c H. unfold is_ascii_whitespace in H. rewrite !orb_true_iff, !N.eqb_eq in H. intuition (subst; reflexivity).
Qed.
Lemma dull_digit : dull is_ascii_digit.
Proof.
  intros c H. unfold is_ascii_whitespace in H. rewrite !orb_true_iff, !N.eqb_eq in H. intuition (subst; reflexivity).
Qed.
Lemma dull_raw : dull is_raw_text.
Proof.
  intros c H. unfold is_ascii_whitespace in H. rewrite !orb_true_iff, !N.eqb_eq in H. intuition (subst; reflexivity).
Qed.

(** The tokens of which a word may consist *)
Definition opener (c : char) : bool := ((c =? 40) || (c =? 61) || (c =? 62))%N.
Definition ordinary (c : char) : bool := negb ((c =? 39) || (c =? 34) || (c =? 124) || (c =? 46))%N.
Definition texty (k : token_kind) : Prop :=
  (forall tok, tk_kind tok = k -> token_text tok = Some (tk_text tok)) /\ k <> LAngle.
Inductive Chunk : str -> str -> token_kind -> Prop :=
| ck_text text c w k : Forall (fun c => ordinary c = true) (text ++ [c]) -> texty k -> next_quote_dir k = QRight -> opener c = false ->
    (c = 45%N -> next_is (N.eqb 62) w = false) -> Chunk (text ++ [c]) w k
| ck_arrow w : Chunk [45%N; 62%N] w Arrow
| ck_open c w k : opener c = true -> texty k -> next_quote_dir k = QLeft -> Chunk [c] w k
| ck_close w : Chunk [47%N; 62%N] w RAngle
| ck_dots w : Chunk [46%N; 46%N; 46%N] w Ellipsis
| ck_dot w : starts_with (lit "..") w = false -> Chunk [46%N] w Dot
| ck_bar w : Chunk [124%N] w Bar
| ck_quote c q d w : In (c, q) [(39%N, QSingle); (34%N, QDouble)] -> Chunk [c] w (Quote q d).

Lemma last_split (c : char) l : exists a x, c :: l = a ++ [x].
Proof. destruct (exists_last (l := c :: l)) as (a & x & E); [discriminate|]. now exists a, x. Qed.
Lemma take_while_all f s : Forall (fun c => f c = true) (take_while f s).
Proof. induction s as [|c s IH]; cbn [take_while]; [constructor|]. destruct (f c) eqn:E; constructor; auto. Qed.

Ltac ascii1 c := rewrite (utf8_len_ascii c) by (unfold is_ascii; apply N.ltb_lt; lia).
(** A token of one class of characters *)
Lemma run_chunk (f : char -> bool) c w k : ordinary c = true -> opener c = false ->
  (forall x, f x = true -> ordinary x = true /\ opener x = false /\ x <> 45%N) ->
  (c = 45%N -> next_is (N.eqb 62) w = false) ->
  texty k -> next_quote_dir k = QRight -> Chunk (c :: take_while f w) (drop_while f w) k.
Proof.
  intros O P F D T N. destruct (last_split c (take_while f w)) as (a & x & E). rewrite E.
  assert (A : Forall (fun y => ordinary y = true) (c :: take_while f w)).
  { constructor; [exact O|]. eapply Forall_impl; [|apply take_while_all]. intros y Hy. now apply F. }
  assert (B : x = c /\ take_while f w = [] \/ f x = true).
  { destruct (take_while f w) as [|y l] eqn:Tw.
    - destruct a as [|z a]; [injection E as ->; auto|]. destruct a; discriminate.
    - right. assert (I : In x (y :: l)).
      { destruct a as [|z a]; [discriminate|]. injection E as -> E. rewrite E. apply in_or_app. right. now left. }
      pose proof (take_while_all f w) as W. rewrite Tw in W. rewrite Forall_forall in W. now apply W. }
  apply ck_text.
  - now rewrite <- E.
  - exact T.
  - exact N.
  - destruct B as [[-> _] | B]; [exact P|now apply F].
  - intros ->. destruct B as [[<- Tw] | B]; [|now apply F in B]. rewrite <- (D eq_refl).
    destruct w as [|y w]; [reflexivity|]. cbn [take_while] in Tw. cbn [drop_while]. destruct (f y); [discriminate|reflexivity].
Qed.

Lemma prose_cons c s : Prose (c :: s) -> Prose s.
Proof.
  intros [A B]. split; [intros x I; apply A; now right|]. intros a x d b ->. apply (B (c :: a) x d b). reflexivity.
Qed.
Lemma prose_app a s : Prose (a ++ s) -> Prose s.
Proof. induction a as [|c a IH]; [auto|]. intros H. apply IH. eapply prose_cons. exact H. Qed.

Lemma texty_ident n : texty (ident_kind n).
Proof.
  destruct (ident_kind_cases n) as [-> | [-> | [b ->]]]; (split; [|discriminate]); intros tok H; unfold token_text; now rewrite H.
Qed.
Lemma texty_k k : In k [Number; LPar; RPar; RAngle; Ampersand; Arrow; Asterisk; Colon; Comma; DoubleAsterisk; DoubleColon; Equals;
  ExclamationMark; QuestionMark; QuestionMarkDoubleColon; RawText] -> texty k.
Proof.
  cbn [In]. intros H. repeat (destruct H as [<- | H]; [split; [intros tok E; unfold token_text; now rewrite E|discriminate]|]).
  contradiction.
Qed.
Ltac tk := apply texty_k; cbn [In]; tauto.
Ltac chr := unfold ordinary, opener; cbn; reflexivity.

Lemma class_facts c : is_ident_cont c = true \/ is_raw_text c = true -> ordinary c = true /\ opener c = false /\ c <> 45%N.
Proof.
  intros H.
  assert (A : forall x, In x [39; 34; 124; 46; 40; 61; 62; 45]%N -> c <> x).
  { intros x I ->. cbn [In] in I. repeat (destruct I as [<- | I]; [destruct H as [H|H]; discriminate H|]). contradiction. }
  unfold ordinary, opener. repeat split; [| |apply A; cbn; tauto].
  - apply negb_true_iff. rewrite !orb_false_iff, !N.eqb_neq. repeat split; apply A; cbn; tauto.
  - rewrite !orb_false_iff, !N.eqb_neq. repeat split; apply A; cbn; tauto.
Qed.
Lemma start_cont c : is_ident_start c = true -> is_ident_cont c = true.
Proof. unfold is_ident_start, is_ident_cont, is_ascii_alphanumeric. destruct (is_ascii_alphabetic c), (is_ascii_digit c); auto. Qed.
Lemma digit_cont c : is_ascii_digit c = true -> is_ident_cont c = true.
Proof. unfold is_ident_cont, is_ascii_alphanumeric. intros ->. now rewrite orb_true_r. Qed.
Lemma digit_ascii c : is_ascii_digit c = true -> is_ascii c = true.
Proof. unfold is_ascii_digit, is_ascii, in_range. rewrite andb_true_iff, !N.leb_le, N.ltb_lt. lia. Qed.
Lemma prefix_app a b : prefix_str (a ++ b) (blen a) = a.
Proof. unfold prefix_str. now rewrite split_bytes_app. Qed.

Lemma chunk c w rest : Prose (c :: w ++ rest) -> is_ascii_whitespace c = false -> Edge rest ->
  exists text w2 k, c :: w = text ++ w2 /\ text <> [] /\ next_token (c :: w ++ rest) = Ret (blen text, k, None) /\ Chunk text w2 k.
Proof.
  intros P Wc E.
  assert (NS : forall x, In x starters -> (c =? x)%N = false).
  { intros x I. apply N.eqb_neq. intros ->. destruct P as [A _]. now apply (A x (or_introl eq_refl)). }
  assert (NI : forall x, In x (lit "$@") -> (c =? x)%N = true -> next_is is_ident_start w = false).
  { intros x I H. apply N.eqb_eq in H as ->. destruct w as [|d w]; [reflexivity|]. cbn [next_is].
    destruct P as [_ P]. destruct (P [] x d (w ++ rest) eq_refl) as [P1 _]. destruct (P1 I) as [Q1 Q2].
    unfold is_ident_start. rewrite letter_iff in Q1. apply orb_false_iff. split; [now destruct (is_ascii_alphabetic d)|now apply N.eqb_neq]. }
  assert (NA : (c =? 38)%N = true -> next_is (fun c => is_ascii_alphabetic c || (c =? 35)%N) w = false).
  { intros H. apply N.eqb_eq in H as ->. destruct w as [|d w]; [reflexivity|]. cbn [next_is].
    destruct P as [P0 P]. destruct (P [] 38%N d (w ++ rest) eq_refl) as [_ P1]. specialize (P1 (or_introl eq_refl)).
    rewrite letter_iff in P1. apply orb_false_iff. split; [now destruct (is_ascii_alphabetic d)|]. apply N.eqb_neq. intros ->.
    apply (P0 35%N); cbn; tauto. }
  assert (SW : forall p, Forall (fun c => is_ascii_whitespace c = false) p -> starts_with p (c :: w ++ rest) = starts_with p (c :: w)).
  { intros p F. exact (starts_edge p (c :: w) rest F E). }
  unfold next_token. cbv zeta.
  repeat match goal with |- context [c_of ?x] => let v := eval vm_compute in (c_of x) in change (c_of x) with v end.
  rewrite (NS 35%N), Wc by (cbn; tauto).
  destruct (is_ident_start c) eqn:Is.
  { exists (c :: take_while is_ident_cont w), (drop_while is_ident_cont w), (ident_kind (c :: take_while is_ident_cont w)).
    split; [cbn [app]; now rewrite take_drop_while|]. split; [discriminate|]. split.
    - rewrite (scan_edge _ _ _ dull_ident_cont E).
      assert (B : 1 + blen (take_while is_ident_cont w) = blen (c :: take_while is_ident_cont w))
        by (cbn [blen]; now rewrite (utf8_len_ascii c) by now apply ident_start_ascii).
      rewrite B.
      assert (S : c :: w ++ rest = (c :: take_while is_ident_cont w) ++ drop_while is_ident_cont w ++ rest)
        by (cbn [app]; now rewrite app_assoc, take_drop_while).
      rewrite S, prefix_app. reflexivity.
    - apply run_chunk; try (apply class_facts; left; now apply start_cont).
      + intros x Hx. apply class_facts. now left.
      + intros ->. discriminate Is.
      + apply texty_ident.
      + destruct (ident_kind_cases (c :: take_while is_ident_cont w)) as [-> | [-> | [b ->]]]; reflexivity. }
  destruct (is_ascii_digit c) eqn:Id.
  { exists (c :: take_while is_ascii_digit w), (drop_while is_ascii_digit w), Number.
    split; [cbn [app]; now rewrite take_drop_while|]. split; [discriminate|]. split.
    - rewrite (scan_edge _ _ _ dull_digit E). cbn [blen]. now rewrite (utf8_len_ascii c) by now apply digit_ascii.
    - apply run_chunk; try (apply class_facts; left; now apply digit_cont); [|intros ->; discriminate Id|tk|reflexivity].
      intros x Hx. apply class_facts. left. now apply digit_cont. }
  rewrite (next_edge _ _ _ dull_ident_start E).
  replace (((c =? 36)%N || (c =? 64)%N) && next_is is_ident_start w) with false.
  2:{ symmetry. destruct (c =? 36)%N eqn:E1; [now rewrite (NI 36%N); cbn; auto|].
      destruct (c =? 64)%N eqn:E2; [now rewrite (NI 64%N); cbn; auto|reflexivity]. }
  rewrite (next_edge (fun c => is_ascii_alphabetic c || (c =? 35)%N));
    [|intros x H; unfold is_ascii_whitespace in H; rewrite !orb_true_iff, !N.eqb_eq in H; intuition (subst; reflexivity)|exact E].
  replace ((c =? 38)%N && next_is (fun c => is_ascii_alphabetic c || (c =? 35)%N) w) with false
    by (symmetry; destruct (c =? 38)%N eqn:E1; [now rewrite NA|reflexivity]).
  rewrite (NS 92%N), (NS 96%N), (NS 60%N), (NS 91%N), (NS 93%N), (NS 123%N), (NS 125%N) by (cbn; tauto).
  rewrite !SW by (repeat constructor).
  assert (C1 : forall k, (c <? 128)%N = true -> opener c = false -> ordinary c = true -> c <> 45%N -> texty k -> next_quote_dir k = QRight ->
    exists text w2 k', c :: w = text ++ w2 /\ text <> [] /\
      @Ret (nat * token_kind * option syntax_error) (1, k, None) = Ret (blen text, k', None) /\ Chunk text w2 k').
  { intros k L O Or N T Q. exists [c], w, k. split; [reflexivity|]. split; [discriminate|]. split.
    - cbn [blen]. now rewrite (utf8_len_ascii c) by exact L.
    - apply (ck_text [] c w k); auto; try (repeat constructor; assumption); try (intros ->; now contradiction N). }
  assert (C0 : forall k, (c <? 128)%N = true -> opener c = true -> texty k -> next_quote_dir k = QLeft ->
    exists text w2 k', c :: w = text ++ w2 /\ text <> [] /\
      @Ret (nat * token_kind * option syntax_error) (1, k, None) = Ret (blen text, k', None) /\ Chunk text w2 k').
  { intros k L O T Q. exists [c], w, k. split; [reflexivity|]. split; [discriminate|]. split.
    - cbn [blen]. now rewrite (utf8_len_ascii c) by exact L.
    - now apply ck_open. }
  destruct (c =? 45)%N eqn:Em; cbn [andb].
  { apply N.eqb_eq in Em as ->. destruct (starts_with (lit "->") (45%N :: w)) eqn:Sa.
    { apply starts_with_inv in Sa as [t Et]. injection Et as ->. exists [45%N; 62%N], t, Arrow.
      split; [reflexivity|]. split; [discriminate|]. split; [reflexivity|constructor]. }
    assert (Ng : next_is (N.eqb 62) w = false).
    { destruct w as [|d w]; [reflexivity|]. cbn [next_is]. destruct (N.eqb_spec 62 d) as [<- |]; [discriminate Sa|reflexivity]. }
    rewrite (next_edge _ _ _ dull_digit E). destruct (next_is is_ascii_digit w) eqn:Nd.
    - apply next_is_inv in Nd as (d & w' & -> & Hd). cbn [app tl]. rewrite (scan_edge _ _ _ dull_digit E).
      exists (45%N :: take_while is_ascii_digit (d :: w')), (drop_while is_ascii_digit (d :: w')), Number.
      split; [cbn [app]; now rewrite take_drop_while|]. split; [discriminate|]. split.
      + cbn [take_while]. rewrite Hd. cbn [blen]. now rewrite (utf8_len_ascii d) by now apply digit_ascii.
      + apply run_chunk; [chr|chr| |intros _; exact Ng|tk|reflexivity].
        intros x Hx. apply class_facts. left. now apply digit_cont.
    - cbn [N.eqb Pos.eqb]. rewrite (scan_edge _ _ _ dull_raw E).
      exists (45%N :: take_while is_raw_text w), (drop_while is_raw_text w), RawText.
      split; [cbn [app]; now rewrite take_drop_while|]. split; [discriminate|]. split; [reflexivity|].
      apply run_chunk; [chr|chr| |intros _; exact Ng|tk|reflexivity]. intros x Hx. apply class_facts. now right. }
  destruct (c =? 40)%N eqn:E40; [apply N.eqb_eq in E40 as ->; apply C0; [reflexivity|reflexivity|tk|reflexivity]|].
  destruct (c =? 41)%N eqn:E41; [apply N.eqb_eq in E41 as ->; apply C1; [reflexivity|reflexivity|reflexivity|discriminate|tk|reflexivity]|].
  destruct (c =? 62)%N eqn:E62; [apply N.eqb_eq in E62 as ->; apply C0; [reflexivity|reflexivity|tk|reflexivity]|].
  destruct ((c =? 47)%N && starts_with (lit "/>") (c :: w)) eqn:E47.
  { apply andb_true_iff in E47 as [E47 Sa]. apply N.eqb_eq in E47 as ->. apply starts_with_inv in Sa as [t Et]. injection Et as ->.
    exists [47%N; 62%N], t, RAngle. split; [reflexivity|]. split; [discriminate|]. split; [reflexivity|constructor]. }
  destruct (c =? 38)%N eqn:E38; [apply N.eqb_eq in E38 as ->; apply C1; [reflexivity|reflexivity|reflexivity|discriminate|tk|reflexivity]|].
  destruct (c =? 124)%N eqn:E124.
  { apply N.eqb_eq in E124 as ->. exists [124%N], w, Bar. split; [reflexivity|]. split; [discriminate|]. split; [reflexivity|apply ck_bar]. }
  destruct (c =? 44)%N eqn:E44; [apply N.eqb_eq in E44 as ->; apply C1; [reflexivity|reflexivity|reflexivity|discriminate|tk|reflexivity]|].
  destruct (c =? 61)%N eqn:E61; [apply N.eqb_eq in E61 as ->; apply C0; [reflexivity|reflexivity|tk|reflexivity]|].
  destruct (c =? 33)%N eqn:E33; [apply N.eqb_eq in E33 as ->; apply C1; [reflexivity|reflexivity|reflexivity|discriminate|tk|reflexivity]|].
  assert (CN : forall p a x k, starts_with (p ++ [x]) (c :: w) = true -> p = c :: a -> forallb is_ascii (p ++ [x]) = true ->
    Forall (fun y => ordinary y = true) (p ++ [x]) -> opener x = false -> x <> 45%N -> texty k -> next_quote_dir k = QRight ->
    exists text w2 k', c :: w = text ++ w2 /\ text <> [] /\
      @Ret (nat * token_kind * option syntax_error) (length (p ++ [x]), k, None) = Ret (blen text, k', None) /\ Chunk text w2 k').
  { intros p a x k Sa -> Ha Or O N T Q. apply starts_with_inv in Sa as [t Et]. exists ((c :: a) ++ [x]), t, k.
    split; [exact Et|]. split; [discriminate|]. split; [now rewrite (blen_ascii _ Ha)|]. apply ck_text; auto; try (intros ->; now contradiction N). }
  destruct (c =? 42)%N eqn:E42.
  { apply N.eqb_eq in E42 as ->. destruct (starts_with (lit "**") _) eqn:Sa.
    - apply (CN [42%N] [] 42%N DoubleAsterisk Sa); try reflexivity; [repeat constructor|discriminate|tk].
    - apply C1; [reflexivity|reflexivity|reflexivity|discriminate|tk|reflexivity]. }
  destruct (c =? 58)%N eqn:E58.
  { apply N.eqb_eq in E58 as ->. destruct (starts_with (lit "::") _) eqn:Sa.
    - apply (CN [58%N] [] 58%N DoubleColon Sa); try reflexivity; [repeat constructor|discriminate|tk].
    - apply C1; [reflexivity|reflexivity|reflexivity|discriminate|tk|reflexivity]. }
  destruct (c =? 63)%N eqn:E63.
  { apply N.eqb_eq in E63 as ->. destruct (starts_with (lit "?::") _) eqn:Sa.
    - apply (CN [63%N; 58%N] [58%N] 58%N QuestionMarkDoubleColon Sa); try reflexivity; [repeat constructor|discriminate|tk].
    - apply C1; [reflexivity|reflexivity|reflexivity|discriminate|tk|reflexivity]. }
  destruct (c =? 46)%N eqn:E46.
  { apply N.eqb_eq in E46 as ->. destruct (starts_with (lit "...") _) eqn:Sa.
    - apply starts_with_inv in Sa as [t Et]. injection Et as ->. exists [46; 46; 46]%N, t, Ellipsis.
      split; [reflexivity|]. split; [discriminate|]. split; [reflexivity|constructor].
    - exists [46%N], w, Dot. split; [reflexivity|]. split; [discriminate|]. split; [reflexivity|]. apply ck_dot. exact Sa. }
  destruct (c =? 39)%N eqn:E39.
  { apply N.eqb_eq in E39 as ->. exists [39%N], w, (Quote QSingle QLeft). split; [reflexivity|]. split; [discriminate|].
    split; [reflexivity|]. apply ck_quote. cbn; auto. }
  destruct (c =? 34)%N eqn:E34.
  { apply N.eqb_eq in E34 as ->. exists [34%N], w, (Quote QDouble QLeft). split; [reflexivity|]. split; [discriminate|].
    split; [reflexivity|]. apply ck_quote. cbn; auto. }
  rewrite (scan_edge _ _ _ dull_raw E). exists (c :: take_while is_raw_text w), (drop_while is_raw_text w), RawText.
  split; [cbn [app]; now rewrite take_drop_while|]. split; [discriminate|]. split; [reflexivity|].
  apply run_chunk; [| | | |tk|reflexivity].
  - unfold ordinary. now rewrite E39, E34, E124, E46.
  - unfold opener. now rewrite E40, E61, E62.
  - intros x Hx. apply class_facts. now right.
  - intros ->. discriminate Em.
Qed.

(** Deciding whether a text is prose *)
Fixpoint prose_b (s : str) : bool :=
  match s with
  | [] => true
  | c :: t =>
    negb (existsb (N.eqb c) starters)
    && match t with
       | d :: _ => negb (((c =? 36) || (c =? 64))%N && is_ident_start d) && negb ((c =? 38)%N && is_ascii_alphabetic d)
       | [] => true
       end
    && prose_b t
  end.
Lemma prose_b_ok s : prose_b s = true -> Prose s.
Proof.
  induction s as [|c t IH]; intros H.
  - split; [intros c []|]. intros a c d b E. destruct a; discriminate E.
  - cbn [prose_b] in H. apply andb_true_iff in H as [H H3]. apply andb_true_iff in H as [H1 H2]. destruct (IH H3) as [P1 P2]. split.
    + intros x [<- | I]; [|now apply P1]. intros J. apply negb_true_iff in H1. apply not_true_iff_false in H1. apply H1.
      apply existsb_exists. exists c. split; [exact J|apply N.eqb_refl].
    + intros a x d b E. destruct a as [|y a]; [|injection E as -> ->; now apply (P2 a x d b)]. injection E as -> ->.
      apply andb_true_iff in H2 as [A B]. apply negb_true_iff in A, B. split; intros I.
      * assert (C : ((x =? 36) || (x =? 64))%N = true) by (cbn in I; destruct I as [<- | [<- | []]]; reflexivity).
        rewrite C in A. cbn [andb] in A. unfold is_ident_start in A. apply orb_false_iff in A as [A1 A2].
        rewrite letter_iff, A1. split; [discriminate|now apply N.eqb_neq].
      * cbn in I. destruct I as [<- | []]. cbn [N.eqb Pos.eqb andb] in B. rewrite letter_iff, B. discriminate.
Qed.
