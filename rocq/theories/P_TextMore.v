(** Proofs about text utilities: how identifiers are spelled and which unique ids are handed out. *)
From Verif Require Import Base BaseFacts M_Text S_Text P_Text.

Lemma alpha_spec c : is_ascii_alphabetic c = true <-> AsciiLetter c.
Proof. unfold is_ascii_alphabetic, is_ascii_lower, is_ascii_upper, in_range, AsciiLetter. lia. Qed.
Lemma alnum_spec c : is_ascii_alphanumeric c = true <-> AsciiAlnum c.
Proof. unfold AsciiAlnum. rewrite <- alpha_spec. unfold is_ascii_alphanumeric. rewrite orb_true_iff. unfold is_ascii_digit, in_range. lia. Qed.

(** [after]: an underscore has just been written *)
Fixpoint squeeze (after : bool) (t : str) : str :=
  match t with
  | [] => []
  | c :: t => if is_ascii_alphanumeric c then c :: squeeze false t
              else if after then squeeze true t else 95%N :: squeeze true t
  end.
Lemma squeeze_spec t : Squeezed t (squeeze false t) /\
  exists g t', t = g ++ t' /\ Forall (fun c => ~ AsciiAlnum c) g /\ (forall c r, t' = c :: r -> AsciiAlnum c) /\ Squeezed t' (squeeze true t).
Proof.
  induction t as [|c t [IH (g & t' & E & G & N & IH')]]; cbn [squeeze].
  - split; [constructor|]. exists [], []. repeat split; try constructor. discriminate.
  - destruct (is_ascii_alphanumeric c) eqn:A.
    + apply alnum_spec in A. split; [now constructor|]. exists [], (c :: t). split; [reflexivity|]. split; [constructor|]. split; [intros c' r' Q; injection Q as <- <-; exact A|now constructor].
    + assert (NA : ~ AsciiAlnum c) by (rewrite <- alnum_spec; congruence). split.
      * rewrite E. change (c :: g ++ t') with ((c :: g) ++ t'). rewrite <- E. apply sq_gap; auto. discriminate.
      * exists (c :: g), t'. rewrite E at 1. split; [reflexivity|]. split; [now constructor|]. split; auto.
Qed.
Lemma ends_nonempty x s : ends_with_char x s = true -> exists i, s = i ++ [x].
Proof.
  destruct (app_snoc_cases s) as [->|(i & c & ->)]; [discriminate|]. rewrite ends_with_char_snoc. intros H%N.eqb_eq. subst. now exists i.
Qed.
Lemma loop_squeeze t : forall m id, id <> [] -> length id <= m ->
  make_identifier_loop t m id = firstn m (id ++ squeeze (ends_with_char 95 id) t).
Proof.
  induction t as [|c t IH]; intros m id Hi Hl; cbn [make_identifier_loop squeeze].
  - rewrite app_nil_r. now rewrite firstn_all2.
  - destruct (Nat.leb_spec m (length id)) as [Hm|Hm].
    + rewrite firstn_app. replace (m - length id) with 0 by lia. rewrite firstn_O, app_nil_r. now rewrite firstn_all2.
    + assert (L : forall x, length (id ++ [x]) <= m) by (intro x; rewrite app_length; cbn; lia).
      assert (Z : forall x : N, id ++ [x] <> []) by (intros x Q; now apply app_eq_nil in Q as [_ Q]).
      destruct (is_ascii_alphanumeric c) eqn:A.
      * rewrite IH by auto. rewrite ends_with_char_snoc, <- app_assoc. destruct (N.eqb_spec c 95) as [E|_]; [subst; discriminate A|reflexivity].
      * destruct (ends_with_char 95 id) eqn:E; cbn [negb].
        -- rewrite IH by auto. now rewrite E.
        -- rewrite IH by (try apply L; apply Z). cbn [lit]. change (lit "_") with [95%N]. rewrite ends_with_char_snoc, <- app_assoc. reflexivity.
Qed.
Lemma make_identifier_spelling deu s m : 1 <= m ->
  (deu s = [] -> make_identifier deu s m = [95%N]) /\
  (forall c t, deu s = c :: t -> AsciiLetter c -> exists full, Squeezed (c :: t) full /\ make_identifier deu s m = firstn m full) /\
  (forall c t, deu s = c :: t -> ~ AsciiLetter c -> exists full, Squeezed (95%N :: t) full /\ make_identifier deu s m = firstn m full).
Proof.
  intros Hm. unfold make_identifier. split; [now intros ->|]. split; intros c t -> A.
  - assert (A' := A). apply alpha_spec in A'. rewrite A'. exists (c :: squeeze false t). split; [constructor; [now left|apply squeeze_spec]|].
    rewrite loop_squeeze by (cbn; try discriminate; lia). unfold ends_with_char. cbn [rev app].
    destruct (N.eqb_spec c 95) as [E|_]; [subst; discriminate A'|reflexivity].
  - assert (is_ascii_alphabetic c = false) as -> by (destruct (is_ascii_alphabetic c) eqn:E; [now apply alpha_spec in E|reflexivity]).
    exists (95%N :: squeeze true t). split.
    + change (95%N :: squeeze true t) with (squeeze false (95%N :: t)). apply squeeze_spec.
    + rewrite loop_squeeze by (cbn; try discriminate; lia). reflexivity.
Qed.

Lemma lower_of s : LowerOf s (map to_ascii_lower s).
Proof.
  induction s as [|c s IH]; cbn [map]; constructor; auto. unfold to_ascii_lower, is_ascii_upper, in_range.
  destruct ((65 <=? c) && (c <=? 90))%N eqn:E; lia.
Qed.
Lemma lower_fun s t : LowerOf s t -> t = map to_ascii_lower s.
Proof.
  induction 1 as [|c d s t H _ ->]; [reflexivity|]. cbn [map]. f_equal. unfold to_ascii_lower, is_ascii_upper, in_range.
  destruct ((65 <=? c) && (c <=? 90))%N eqn:E; lia.
Qed.
Lemma blen_ident b : Identifier b -> blen b = length b.
Proof. intros I. apply blen_ascii. now apply ident_ascii. Qed.
Lemma first_ident deu b m id : Identifier b -> LowerOf (firstn m b) id -> first_candidate deu b m = id.
Proof.
  intros I H. apply lower_fun in H. subst id. unfold first_candidate. assert (J := I). apply is_identifier_spec in J. rewrite J. cbn [negb].
  f_equal. rewrite blen_ident by auto. destruct (Nat.ltb_spec m (length b)); [reflexivity|]. symmetry. apply firstn_all2. lia.
Qed.
Lemma first_other deu b m id : ~ Identifier b -> LowerOf (make_identifier deu b m) id -> first_candidate deu b m = id.
Proof.
  intros I H. apply lower_fun in H. subst id. unfold first_candidate. destruct (is_identifier b) eqn:J; [now apply is_identifier_spec in J|reflexivity].
Qed.

(** the numbers are tried in order *)
Lemma dec_grows n d : length (dec n) <= length (dec (n + N.of_nat d)).
Proof.
  induction d as [|d IH]; [now rewrite N.add_0_r|]. rewrite Nat2N.inj_succ, N.add_succ_r, dec_succ_length.
  destruct (forallb _ _); lia.
Qed.
Lemma trim_nines_tail s : exists tail, s = trim_end_by (fun c => (c =? 57)%N) s ++ tail /\ forallb is_nine tail = true.
Proof.
  assert (H : forall r, exists tail, rev r = rev (drop_while (fun c => (c =? 57)%N) r) ++ tail /\ forallb is_nine tail = true).
  { induction r as [|c r (tail & E & F)]; [now exists []|]. cbn [drop_while]. destruct (c =? 57)%N eqn:C.
    - exists (tail ++ [c]). cbn [rev]. rewrite E at 1. rewrite <- app_assoc. split; [reflexivity|].
      rewrite forallb_app, F. cbn. unfold is_nine. now rewrite C.
    - exists []. now rewrite app_nil_r. }
  destruct (H (rev s)) as (tail & E & F). rewrite rev_involutive in E. now exists tail.
Qed.
Lemma nines_only b n : ends_with_char 95 (trim_end_by (fun c => (c =? 57)%N) (b ++ lit "_" ++ dec n)) = true -> forallb is_nine (dec n) = true.
Proof.
  intros H. destruct (app_snoc_cases (dec n)) as [E|(i & x & E)]; [now rewrite E|].
  apply ends_nonempty in H as [stem H].
  assert (T : exists tail, b ++ lit "_" ++ dec n = trim_end_by (fun c => (c =? 57)%N) (b ++ lit "_" ++ dec n) ++ tail /\ forallb is_nine tail = true).
  { apply trim_nines_tail. }
  destruct T as (tail & T & F). rewrite H in T. rewrite <- app_assoc in T. change (lit "_" ++ dec n) with (95%N :: dec n) in T. cbn [app] in T.
  apply split_last_sep in T as [_ ->]; [exact F|apply dec_no_underscore|].
  intro I. rewrite forallb_forall in F. apply F in I. discriminate I.
Qed.
Definition numbered (b : str) (n : N) : str := b ++ lit "_" ++ dec n.
Lemma loop_least fuel used b m : forall j c,
  (forall k, (c <= k < c + N.of_nat j)%N -> In (numbered b k) used) -> ~ In (numbered b (c + N.of_nat j)) used ->
  blen (numbered b (c + N.of_nat j)) <= m -> unique_id_loop fuel used b m c <> OutOfFuel ->
  unique_id_loop fuel used b m c = Ret (numbered b (c + N.of_nat j)).
Proof.
  induction fuel as [|fuel IH]; intros j c U F L; cbn [unique_id_loop]; [congruence|]. fold (numbered b c).
  destruct j as [|j].
  - rewrite N.add_0_r in *. apply mem_not_In in F. now rewrite F.
  - assert (I : In (numbered b c) used) by (apply U; lia). apply mem_In in I. rewrite I. cbn [negb].
    replace (c + N.of_nat (S j))%N with ((c + 1) + N.of_nat j)%N in * by lia.
    assert (_ && _ && ends_with_char 95 (trim_end_by (fun c0 => (c0 =? 57)%N) (numbered b c)) = false) as ->.
    { apply andb_false_iff. destruct (ends_with_char _ _) eqn:E; [left|now right]. apply nines_only in E.
      apply andb_false_iff. left. apply Nat.leb_gt. unfold numbered in *. rewrite blen_suffixed in *.
      pose proof (dec_grows (c + 1) j) as G. rewrite N.add_1_r, dec_succ_length, E in G. rewrite <- N.add_1_r in G. lia. }
    apply IH; auto. intros k K. apply U. lia.
Qed.
Lemma unique_numbered deu used b m first n : In first used ->
  Identifier b /\ LowerOf (firstn m b) first \/ ~ Identifier b /\ LowerOf (make_identifier deu b m) first ->
  (2 <= n)%N -> blen (numbered b n) <= m -> ~ In (numbered b n) used -> (forall k, (2 <= k < n)%N -> In (numbered b k) used) ->
  get_unique_id deu used b m = Ret (numbered b n, used ++ [numbered b n]).
Proof.
  intros I H N2 L F U. assert (first_candidate deu b m = first) as C by (destruct H as [[]|[]]; [now apply first_ident|now apply first_other]).
  unfold get_unique_id. rewrite C. apply mem_In in I. rewrite I. cbn [negb].
  assert ((m <? blen b + 2) = false) as ->.
  { apply Nat.ltb_ge. unfold numbered in L. rewrite blen_suffixed in L. pose proof (dec_nonempty n). destruct (dec n); [congruence|]. cbn [length] in L. lia. }
  cbn [andb]. pose proof (uid_loop_fuel0 used b m 2) as Z. replace n with (2 + N.of_nat (N.to_nat (n - 2)))%N in * by lia.
  rewrite (loop_least _ _ _ _ _ _ U F L Z). reflexivity.
Qed.
Lemma unique_first deu used b m first : ~ In first used ->
  Identifier b /\ LowerOf (firstn m b) first \/ ~ Identifier b /\ LowerOf (make_identifier deu b m) first ->
  get_unique_id deu used b m = Ret (first, used ++ [first]).
Proof.
  intros I H. assert (first_candidate deu b m = first) as C by (destruct H as [[]|[]]; [now apply first_ident|now apply first_other]).
  unfold get_unique_id. rewrite C. apply mem_not_In in I. now rewrite I.
Qed.
Lemma unique_shape deu used b m first id used' : In first used ->
  Identifier b /\ LowerOf (firstn m b) first \/ ~ Identifier b /\ LowerOf (make_identifier deu b m) first ->
  get_unique_id deu used b m = Ret (id, used') ->
  used' = used ++ [id] /\ exists stem rest n, b = stem ++ rest /\ (2 <= n)%N /\ id = stem ++ lit "_" ++ dec n.
Proof.
  intros I H. assert (first_candidate deu b m = first) as C by (destruct H as [[]|[]]; [now apply first_ident|now apply first_other]).
  unfold get_unique_id. rewrite C. apply mem_In in I. rewrite I. cbn [negb].
  assert (L : forall b', unique_id_loop (S (length used)) used b' m 2 = Ret id -> exists stem rest n, b' = stem ++ rest /\ (2 <= n)%N /\ id = stem ++ lit "_" ++ dec n).
  { intros b' E. apply uid_loop_shape in E as (stem & rest & n & -> & -> & _ & N); [|lia]. now exists stem, rest, n. }
  destruct (_ && _).
  - destruct (split_bytes b (m - 2)) as [[b' r]|] eqn:Es; [|discriminate]. apply split_bytes_spec in Es as [-> _].
    destruct (unique_id_loop _ _ _ _ _) as [i| |] eqn:El; cbn [obind]; try discriminate. intros Q. injection Q as -> <-. split; [reflexivity|].
    destruct (L _ El) as (stem & rest & n & -> & N & ->). exists stem, (rest ++ r), n. now rewrite app_assoc.
  - destruct (unique_id_loop _ _ _ _ _) as [i| |] eqn:El; cbn [obind]; try discriminate. intros Q. injection Q as -> <-. split; [reflexivity|].
    now apply L.
Qed.
