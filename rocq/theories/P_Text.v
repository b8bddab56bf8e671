(** Proofs about the text utilities. *)
From Verif Require Import Base BaseFacts M_Text S_Text.
Local Open Scope list_scope.

(** * Identifiers *)
Lemma ident_start_spec c : is_ident_start c = true <-> Letter c.
Proof.
  unfold is_ident_start, is_ascii_alphabetic, is_ascii_lower, is_ascii_upper, in_range, Letter. lia.
Qed.
Lemma ident_cont_spec c : is_ident_cont c = true <-> LetterOrDigit c.
Proof.
  unfold is_ident_cont, is_ascii_alphanumeric, is_ascii_alphabetic, is_ascii_lower, is_ascii_upper, is_ascii_digit,
    in_range, LetterOrDigit, Letter. lia.
Qed.
Lemma forallb_Forall {A} (f : A -> bool) (P : A -> Prop) l :
  (forall x, f x = true <-> P x) -> forallb f l = true <-> Forall P l.
Proof. intros H. rewrite forallb_forall, Forall_forall. split; intros G x Hx; apply H; auto. Qed.
Lemma is_identifier_spec s : is_identifier s = true <-> Identifier s.
Proof.
  unfold Identifier. destruct s as [|c t]; cbn [is_identifier].
  - split; [discriminate|]. intros (? & ? & ? & _); discriminate.
  - rewrite andb_true_iff, ident_start_spec, (forallb_Forall _ LetterOrDigit) by apply ident_cont_spec.
    split; [intros []; eauto|]. intros (c' & t' & [= <- <-] & ? & ?); auto.
Qed.

Lemma ends_with_char_snoc x s c : ends_with_char x (s ++ [c]) = (c =? x)%N.
Proof. unfold ends_with_char. rewrite rev_app_distr. reflexivity. Qed.

Definition no_double (s : str) : Prop := forall a b, s <> a ++ [95; 95]%N ++ b.

Lemma app_snoc_cases {A} (l : list A) : l = [] \/ exists i x, l = i ++ [x].
Proof. destruct l as [|x l] using rev_ind; eauto. Qed.

Lemma no_double_snoc s c : no_double s -> (c <> 95%N \/ ends_with_char 95 s = false) -> no_double (s ++ [c]).
Proof.
  intros Hs Hc a b E. destruct (app_snoc_cases b) as [->|(b' & x & ->)].
  - cbn [app] in E. replace (a ++ [95; 95]%N) with ((a ++ [95%N]) ++ [95%N]) in E by (rewrite <- app_assoc; reflexivity).
    apply app_inj_tail in E as [-> ->]. destruct Hc as [Hc|Hc]; [congruence|].
    rewrite ends_with_char_snoc in Hc. discriminate.
  - replace (a ++ [95; 95]%N ++ b' ++ [x]) with ((a ++ [95; 95]%N ++ b') ++ [x]) in E
      by (rewrite <- !app_assoc; reflexivity).
    apply app_inj_tail in E as [-> ->]. eapply Hs; reflexivity.
Qed.

Lemma make_identifier_loop_spec s max_len id :
  is_identifier id = true -> length id <= max_len -> no_double id ->
  let r := make_identifier_loop s max_len id in
  is_identifier r = true /\ length r <= max_len /\ no_double r.
Proof.
  revert id; induction s as [|c s IH]; intros id Hi Hl Hd; cbn [make_identifier_loop]; auto.
  destruct (Nat.leb_spec max_len (length id)); auto.
  assert (Hsnoc : forall x, is_ident_cont x = true -> is_identifier (id ++ [x]) = true).
  { intros x Hx. destruct id as [|y id]; [discriminate|]. cbn [is_identifier app] in *.
    apply andb_true_iff in Hi as [-> Hi]. rewrite forallb_app, Hi. cbn. rewrite Hx. reflexivity. }
  destruct (is_ascii_alphanumeric c) eqn:Ec.
  - apply IH.
    + apply Hsnoc. unfold is_ident_cont. rewrite Ec. reflexivity.
    + rewrite app_length; cbn; lia.
    + apply no_double_snoc; auto. left. intros ->. discriminate Ec.
  - destruct (ends_with_char 95 id) eqn:Ew; cbn [negb]; [apply IH; auto|].
    apply IH.
    + apply Hsnoc. reflexivity.
    + rewrite app_length; cbn; lia.
    + apply no_double_snoc; auto.
Qed.

Lemma no_double_single c : no_double [c].
Proof. intros [|? [|? ?]] b E; discriminate E. Qed.

Lemma make_identifier_spec deu s max_len : 1 <= max_len ->
  let r := make_identifier deu s max_len in
  Identifier r /\ length r <= max_len /\ no_double r.
Proof.
  intros Hm. unfold make_identifier. cbv zeta. rewrite <- is_identifier_spec.
  destruct (deu s) as [|c t].
  - cbn. repeat split; auto. apply no_double_single.
  - apply make_identifier_loop_spec.
    + destruct (is_ascii_alphabetic c) eqn:E; cbn; auto. unfold is_ident_start. rewrite E; reflexivity.
    + destruct (is_ascii_alphabetic c); cbn; lia.
    + destruct (is_ascii_alphabetic c); apply no_double_single.
Qed.

(** * Unique ids *)
Lemma dec_no_underscore n : ~ In 95%N (dec n).
Proof.
  intros H. pose proof (dec_digits n) as D. rewrite forallb_forall in D. apply D in H. discriminate H.
Qed.

Lemma split_last_sep {A} (sep : A) a a' d d' :
  ~ In sep d -> ~ In sep d' -> a ++ sep :: d = a' ++ sep :: d' -> a = a' /\ d = d'.
Proof.
  revert a'; induction a as [|x a IH]; intros a' Hd Hd' E.
  - destruct a' as [|y a']; cbn in E; [injection E; auto|]. injection E as -> E. exfalso. apply Hd. rewrite E.
    apply in_or_app; right; left; auto.
  - destruct a' as [|y a']; cbn in E.
    + injection E as -> E. exfalso. apply Hd'. rewrite <- E. apply in_or_app; right; left; auto.
    + injection E as -> E. apply IH in E as [-> ->]; auto.
Qed.

Lemma suffixed_inj b b' n m : b ++ lit "_" ++ dec n = b' ++ lit "_" ++ dec m -> b = b' /\ n = m.
Proof.
  intros E. cbn in E. apply split_last_sep in E as [-> E]; try apply dec_no_underscore.
  split; auto. apply dec_inj; auto.
Qed.

Lemma uid_loop_fresh fuel used b m c id :
  unique_id_loop fuel used b m c = Ret id -> ~ In id used.
Proof.
  revert b c; induction fuel as [|fuel IH]; intros b c; cbn [unique_id_loop]; [discriminate|].
  destruct (mem (b ++ lit "_" ++ dec c) used) eqn:E; cbn [negb].
  - destruct (_ && _ && _).
    + destruct (split_bytes b _) as [[b' ?]|]; [apply IH|discriminate].
    + apply IH.
  - intros [= <-]. apply mem_not_In; auto.
Qed.

Lemma uid_loop_fuel fuel used b m c seen :
  NoDup seen -> incl seen used -> (forall x, In x seen -> exists b' n, x = b' ++ lit "_" ++ dec n /\ (n < c)%N) ->
  length used < fuel + length seen -> unique_id_loop fuel used b m c <> OutOfFuel.
Proof.
  revert b c seen; induction fuel as [|fuel IH]; intros b c seen Hn Hi Hs Hf.
  - apply NoDup_incl_length in Hi; auto. lia.
  - cbn [unique_id_loop]. destruct (mem (b ++ lit "_" ++ dec c) used) eqn:E; cbn [negb]; [|discriminate].
    apply mem_In in E.
    assert (Hrec : forall b', unique_id_loop fuel used b' m (c + 1) <> OutOfFuel).
    { intros b'. apply IH with (seen := (b ++ lit "_" ++ dec c) :: seen).
      - constructor; auto. intros Hin. apply Hs in Hin as (b'' & n & En & Hlt). apply suffixed_inj in En as [_ ->]. lia.
      - intros x [<-|Hx]; auto.
      - intros x [<-|Hx]; [exists b, c; split; auto; lia|].
        apply Hs in Hx as (b'' & n & -> & Hlt). exists b'', n; split; auto; lia.
      - cbn [length]. lia. }
    destruct (_ && _ && _); auto. destruct (split_bytes b _) as [[b' ?]|]; auto. discriminate.
Qed.

Lemma uid_loop_fuel0 used b m c : unique_id_loop (S (length used)) used b m c <> OutOfFuel.
Proof.
  apply uid_loop_fuel with (seen := []); [constructor | intros x [] | intros x [] |]. cbn; lia.
Qed.

Lemma get_unique_id_total deu used b m : get_unique_id deu used b m <> OutOfFuel.
Proof.
  unfold get_unique_id. destruct (mem _ used); cbn [negb]; [|discriminate].
  destruct (if _ && _ then _ else _) as [b'|]; [|discriminate].
  destruct (unique_id_loop _ _ _ _ _) eqn:E; cbn [obind]; try discriminate.
  exfalso. revert E. apply uid_loop_fuel0.
Qed.

Lemma get_unique_id_fresh deu used b m id used' :
  get_unique_id deu used b m = Ret (id, used') -> ~ In id used /\ used' = used ++ [id].
Proof.
  unfold get_unique_id. destruct (mem _ used) eqn:E; cbn [negb].
  - destruct (if _ && _ then _ else _) as [b'|]; [|discriminate].
    destruct (unique_id_loop _ _ _ _ _) eqn:El; cbn [obind]; try discriminate.
    intros [= <- <-]. split; auto. eapply uid_loop_fresh; eauto.
  - intros [= <- <-]. split; auto. apply mem_not_In; auto.
Qed.

Definition is_req (o : uid_op) : bool := match o with UidReq _ _ => true | UidClear => false end.

Lemma uid_run_nodup_gen deu ops used ids used' :
  NoDup used -> forallb is_req ops = true -> uid_run deu used ops = Ret (ids, used') ->
  used' = used ++ ids /\ NoDup used'.
Proof.
  revert used ids used'; induction ops as [|o ops IH]; intros used ids used' Hn Hr; cbn [uid_run].
  - intros [= <- <-]. rewrite app_nil_r; auto.
  - destruct o as [b m|]; cbn in Hr; [|discriminate].
    destruct (get_unique_id deu used b m) as [[id u1]| |] eqn:Eg; cbn [obind]; try discriminate.
    apply get_unique_id_fresh in Eg as [Hf ->].
    destruct (uid_run deu _ ops) as [[ids1 u2]| |] eqn:Er; cbn [obind]; try discriminate.
    intros [= <- <-]. apply IH in Er as [-> Hn2]; auto.
    + rewrite <- app_assoc in *. auto.
    + apply NoDup_Add with (a := id) (l := used); [rewrite <- (app_nil_r used) at 1; apply Add_app|split; auto].
Qed.

Lemma NoDup_app_r {A} (a b : list A) : NoDup (a ++ b) -> NoDup b.
Proof. induction a; cbn; auto. inversion 1; auto. Qed.

Lemma uid_run_app deu ops1 ops2 used r :
  uid_run deu used (ops1 ++ ops2) = Ret r ->
  exists ids1 u1 ids2, uid_run deu used ops1 = Ret (ids1, u1) /\ uid_run deu u1 ops2 = Ret (ids2, snd r)
                       /\ fst r = ids1 ++ ids2.
Proof.
  revert used r; induction ops1 as [|o ops1 IH]; intros used r; cbn [app uid_run].
  - intros E. destruct r as [i u]. exists [], used, i; auto.
  - destruct o as [b m|]; [|apply IH].
    destruct (get_unique_id deu used b m) as [[id u1]| |]; cbn [obind]; try discriminate.
    destruct (uid_run deu u1 (ops1 ++ ops2)) as [[ids u2]| |] eqn:E; cbn [obind]; try discriminate.
    intros [= <-]. apply IH in E as (i1 & u' & i2 & E1 & E2 & E3). cbn [fst snd] in *.
    rewrite E1. cbn [obind]. exists (id :: i1), u', i2. repeat split; auto. cbn. congruence.
Qed.

Theorem uid_distinct_lemma deu before reqs ids used :
  forallb is_req reqs = true ->
  uid_run deu [] (before ++ UidClear :: reqs) = Ret (ids, used) ->
  exists earlier mine, ids = earlier ++ mine /\ length mine = length reqs /\ NoDup mine.
Proof.
  intros Hr E. apply uid_run_app in E as (i1 & u1 & i2 & _ & E2 & E3). cbn [fst snd] in *. subst ids.
  exists i1, i2. cbn [uid_run] in E2. split; auto.
  assert (Hl : forall u rs is' u', forallb is_req rs = true -> uid_run deu u rs = Ret (is', u') -> length is' = length rs).
  { clear. intros u rs; revert u; induction rs as [|o rs IH]; intros u is' u' Hr; cbn [uid_run].
    - intros [= <- <-]; auto.
    - destruct o; cbn in Hr; [|discriminate]. destruct (get_unique_id _ _ _ _) as [[? ?]| |]; cbn [obind]; try discriminate.
      destruct (uid_run _ _ rs) as [[? ?]| |] eqn:E; cbn [obind]; try discriminate. intros [= <- <-].
      cbn. f_equal. eapply IH; eauto. }
  split; [eapply Hl; eauto|].
  apply uid_run_nodup_gen in E2 as [-> Hn]; auto. constructor.
Qed.

Lemma uid_run_total deu used ops : uid_run deu used ops <> OutOfFuel.
Proof.
  revert used; induction ops as [|o ops IH]; intros used; cbn [uid_run]; [discriminate|].
  destruct o as [b m|]; auto.
  destruct (get_unique_id deu used b m) as [[id u1]| |] eqn:E; cbn [obind]; try discriminate.
  - specialize (IH u1). destruct (uid_run deu u1 ops) as [[? ?]| |]; cbn [obind]; congruence.
  - intros _. eapply get_unique_id_total; eauto.
Qed.

(** Shape of suffixed ids: stem is a prefix of the (possibly cut) base. *)
Lemma uid_loop_shape fuel used b m c id :
  (2 <= c)%N ->
  unique_id_loop fuel used b m c = Ret id ->
  exists stem rest n, id = stem ++ lit "_" ++ dec n /\ b = stem ++ rest /\ (stem = [] -> b = []) /\ (2 <= n)%N.
Proof.
  revert b c; induction fuel as [|fuel IH]; intros b c Hc; cbn [unique_id_loop]; [discriminate|].
  destruct (mem (b ++ lit "_" ++ dec c) used) eqn:E; cbn [negb].
  - destruct (_ && _ && _) eqn:Ec.
    + destruct (split_bytes b _) as [[b' r]|] eqn:Es; [|discriminate].
      apply split_bytes_spec in Es as [Eb Hb].
      assert (Hlt : 1 < blen b) by lia.
      intros H. apply IH in H as (stem & rest & n & -> & E' & Hne & Hn); [|lia].
      exists stem, (rest ++ r), n. split; [auto|]. split; [rewrite app_assoc, <- E'; auto|]. split; [|auto].
      intros Hs. apply Hne in Hs. rewrite Hs in Hb. cbn [blen] in Hb. lia.
    + intros H. apply IH in H as (stem & rest & n & ? & ? & ? & ?); [|lia]. exists stem, rest, n; auto.
  - intros [= <-]. exists b, [], c. rewrite app_nil_r. auto.
Qed.

Lemma uid_loop_no_panic fuel used b m c :
  forallb is_ascii b = true -> unique_id_loop fuel used b m c <> Panic.
Proof.
  revert b c; induction fuel as [|fuel IH]; intros b c Hb; cbn [unique_id_loop]; [discriminate|].
  destruct (mem (b ++ lit "_" ++ dec c) used) eqn:E; cbn [negb]; [|discriminate].
  destruct (_ && _ && _) eqn:Ec; [|apply IH; auto].
  rewrite split_bytes_ascii; auto.
  - apply IH. apply forallb_firstn; auto.
  - rewrite blen_ascii; auto; lia.
Qed.

Definition lower_ident_char (c : char) : bool := is_ascii_lower c || is_ascii_digit c || (c =? 95)%N.
Definition lower_ident (s : str) : Prop := Identifier s /\ Lowercase s.

Lemma lower_fix c : ~ (65 <= c <= 90)%N -> to_ascii_lower c = c.
Proof. unfold to_ascii_lower, is_ascii_upper, in_range. destruct ((65 <=? c) && (c <=? 90))%N eqn:E; auto. lia. Qed.
Lemma lower_map_id s : Lowercase s -> map to_ascii_lower s = s.
Proof. induction 1; cbn; auto. rewrite lower_fix, IHForall; auto. Qed.
Lemma to_lower_not_upper c : ~ (65 <= to_ascii_lower c <= 90)%N.
Proof. unfold to_ascii_lower, is_ascii_upper, in_range. destruct ((65 <=? c) && (c <=? 90))%N eqn:E; lia. Qed.
Lemma lower_map_lower s : Lowercase (map to_ascii_lower s).
Proof. apply Forall_map. apply Forall_forall. intros c _. apply to_lower_not_upper. Qed.
Lemma to_lower_letter c : Letter c -> Letter (to_ascii_lower c).
Proof. unfold Letter, to_ascii_lower, is_ascii_upper, in_range. destruct ((65 <=? c) && (c <=? 90))%N eqn:E; lia. Qed.
Lemma to_lower_lod c : LetterOrDigit c -> LetterOrDigit (to_ascii_lower c).
Proof. unfold LetterOrDigit, Letter, to_ascii_lower, is_ascii_upper, in_range. destruct ((65 <=? c) && (c <=? 90))%N eqn:E; lia. Qed.
Lemma lower_map_ident s : Identifier s -> Identifier (map to_ascii_lower s).
Proof.
  intros (c & t & -> & Hc & Ht). exists (to_ascii_lower c), (map to_ascii_lower t). repeat split.
  - apply to_lower_letter; auto.
  - apply Forall_map. eapply Forall_impl; [|apply Ht]. apply to_lower_lod.
Qed.
Lemma ident_prefix a b : a <> [] -> Identifier (a ++ b) -> Identifier a.
Proof.
  intros Ha (c & t & E & Hc & Ht). destruct a as [|x a]; [congruence|]. injection E as -> <-.
  exists c, a; repeat split; auto. apply Forall_app in Ht as [? _]; auto.
Qed.
Lemma ident_ascii s : Identifier s -> forallb is_ascii s = true.
Proof.
  intros (c & t & -> & Hc & Ht). rewrite forallb_forall. intros x [<-|Hx].
  - unfold Letter in Hc. unfold is_ascii. lia.
  - rewrite Forall_forall in Ht. apply Ht in Hx. unfold LetterOrDigit, Letter in Hx. unfold is_ascii. lia.
Qed.
Lemma ident_suffix s n : Identifier s -> Identifier (s ++ lit "_" ++ dec n).
Proof.
  intros (c & t & -> & Hc & Ht). exists c, (t ++ lit "_" ++ dec n). repeat split; auto.
  apply Forall_app; split; auto. constructor; [unfold LetterOrDigit, Letter; auto|].
  pose proof (dec_digits n) as D. rewrite forallb_forall in D. apply Forall_forall. intros x Hx. apply D in Hx.
  unfold is_ascii_digit, in_range in Hx. unfold LetterOrDigit. lia.
Qed.
Lemma lower_suffix s n : Lowercase s -> Lowercase (s ++ lit "_" ++ dec n).
Proof.
  intros H. apply Forall_app; split; auto. constructor; [cbn; lia|].
  pose proof (dec_digits n) as D. rewrite forallb_forall in D. apply Forall_forall. intros x Hx. apply D in Hx.
  unfold is_ascii_digit, in_range in Hx. lia.
Qed.

Lemma first_candidate_ok deu b m : 1 <= m -> lower_ident (first_candidate deu b m).
Proof.
  intros Hm. unfold first_candidate. split; [|apply lower_map_lower]. apply lower_map_ident.
  destruct (is_identifier b) eqn:E; cbn [negb].
  - apply is_identifier_spec in E. destruct (Nat.ltb_spec m (blen b)); auto.
    rewrite <- (firstn_skipn m b) in E. eapply ident_prefix; eauto. destruct b, m; cbn in *; try lia; discriminate.
  - apply make_identifier_spec; auto.
Qed.

(** A request whose base is itself a lower case identifier never panics and yields a lower case identifier. *)
Lemma get_unique_id_lower deu used b m :
  1 <= m -> lower_ident b -> exists id used', get_unique_id deu used b m = Ret (id, used') /\ lower_ident id.
Proof.
  intros Hm [Hi Hlow]. unfold get_unique_id. cbv zeta.
  destruct (mem (first_candidate deu b m) used) eqn:E; cbn [negb].
  2:{ eexists _, _; split; eauto. apply first_candidate_ok; auto. }
  pose proof (ident_ascii _ Hi) as Ha.
  assert (Hb : exists b', (if (m <? blen b + 2) && (3 <=? m)
                then match split_bytes b (m - 2) with Some (a, _) => Some a | None => None end else Some b) = Some b'
                /\ Identifier b' /\ Lowercase b').
  { destruct ((m <? blen b + 2) && (3 <=? m)) eqn:Ec; [|eauto].
    rewrite split_bytes_ascii; auto; [|rewrite blen_ascii in Ec by auto; lia].
    eexists; repeat split; eauto.
    - apply ident_prefix with (b := skipn (m - 2) b); [|rewrite firstn_skipn; auto].
      destruct Hi as (c & t & -> & _). replace (m - 2) with (S (m - 3)) by lia. discriminate.
    - rewrite <- (firstn_skipn (m - 2) b) in Hlow. apply Forall_app in Hlow as [? _]; auto. }
  destruct Hb as (b' & -> & Hi' & Hl').
  destruct (unique_id_loop (S (length used)) used b' m 2) as [id| |] eqn:El; cbn [obind].
  - eexists _, _; split; eauto. apply uid_loop_shape in El as (stem & rest & n & -> & -> & Hne & _); [|lia].
    split; [apply ident_suffix|apply lower_suffix].
    + eapply ident_prefix; eauto. intros ->. specialize (Hne eq_refl). cbn in Hne. subst.
      destruct Hi' as (? & ? & ? & _); discriminate.
    + apply Forall_app in Hl' as [? _]; auto.
  - exfalso. revert El. apply uid_loop_no_panic. apply ident_ascii; auto.
  - exfalso. revert El. apply uid_loop_fuel0.
Qed.

(** The refutation of C02's full statement. *)
Lemma get_unique_id_not_lower deu :
  exists ops ids used id, uid_run deu [] ops = Ret (ids, used) /\ In id ids /\ ~ Lowercase id.
Proof.
  exists [UidReq (lit "Foo") 20; UidReq (lit "Foo") 20], [lit "foo"; lit "Foo_2"], [lit "foo"; lit "Foo_2"], (lit "Foo_2").
  split; [vm_compute; reflexivity|]. split; [right; left; reflexivity|].
  intros H. inversion H as [|? ? H1 _]; subst. cbn in H1. lia.
Qed.
Lemma get_unique_id_not_ident deu :
  exists ops ids used id, uid_run deu [] ops = Ret (ids, used) /\ In id ids /\ ~ Identifier id.
Proof.
  set (b := lit "a b").
  destruct (get_unique_id deu [] b 20) as [[i1 u1]| |] eqn:E1; [|discriminate|discriminate].
  assert (i1 = first_candidate deu b 20 /\ u1 = [first_candidate deu b 20]) as [-> ->]
      by (unfold get_unique_id in E1; cbn in E1; injection E1; auto).
  set (f := first_candidate deu b 20) in *.
  assert (E2 : get_unique_id deu [f] b 20 = Ret (b ++ lit "_2", [f; b ++ lit "_2"])).
  { unfold get_unique_id. fold f. cbn [mem existsb]. rewrite str_eqb_refl. cbn [orb negb].
    change ((20 <? blen b + 2) && (3 <=? 20)) with false. cbn iota beta.
    cbn [List.length unique_id_loop]. change (b ++ lit "_" ++ dec 2) with (b ++ lit "_2").
    assert (mem (b ++ lit "_2") [f] = false) as ->; [|reflexivity].
    apply mem_not_In. intros [H|[]].
    assert (Hf : lower_ident f) by (apply first_candidate_ok; lia).
    rewrite H in Hf. destruct Hf as [Hf _]. apply is_identifier_spec in Hf. discriminate Hf. }
  exists [UidReq b 20; UidReq b 20], [f; b ++ lit "_2"], [f; b ++ lit "_2"], (b ++ lit "_2").
  split; [|split].
  - cbn [uid_run]. rewrite E1. cbn [obind]. rewrite E2. reflexivity.
  - right; left; reflexivity.
  - intros H. apply is_identifier_spec in H. discriminate H.
Qed.
Lemma get_unique_id_panics deu : exists ops, uid_run deu [] ops = Panic.
Proof.
  set (b := [233; 233; 233]%N).
  exists [UidReq b 3; UidReq b 3]. cbn [uid_run].
  assert (get_unique_id deu [] b 3 = Ret (first_candidate deu b 3, [first_candidate deu b 3])) as -> by reflexivity.
  cbn [obind]. set (f := first_candidate deu b 3).
  assert (get_unique_id deu [f] b 3 = Panic) as ->; [|reflexivity].
  unfold get_unique_id. fold f. cbn [mem existsb]. rewrite str_eqb_refl. cbn [orb negb]. reflexivity.
Qed.

(** * Length bound (C03) *)
Lemma trim_nines_suffixed b n :
  forallb is_nine (dec n) = true -> ends_with_char 95 (trim_end_by (fun c => (c =? 57)%N) (b ++ lit "_" ++ dec n)) = true.
Proof.
  intros H. rewrite app_assoc, trim_end_by_app by auto.
  rewrite trim_end_by_id.
  - apply ends_with_char_snoc.
  - intros a c E. apply app_inj_tail in E as [_ <-]. reflexivity.
Qed.

Lemma blen_suffixed b n : blen (b ++ lit "_" ++ dec n) = blen b + 1 + length (dec n).
Proof. rewrite !blen_app. cbn [lit blen]. rewrite (blen_ascii (dec n)) by apply dec_ascii. cbn. lia. Qed.

Lemma uid_loop_length fuel used b m c id :
  blen (b ++ lit "_" ++ dec c) <= m \/ blen b <= 1 ->
  unique_id_loop fuel used b m c = Ret id ->
  blen id <= m \/ exists stem n, id = stem ++ lit "_" ++ dec n /\ blen stem <= 1.
Proof.
  revert b c; induction fuel as [|fuel IH]; intros b c Hc; cbn [unique_id_loop]; [discriminate|].
  destruct (mem (b ++ lit "_" ++ dec c) used) eqn:E; cbn [negb].
  - rewrite blen_suffixed in *. rewrite N.add_1_r.
    destruct (_ && _ && _) eqn:Ec.
    + destruct (split_bytes b _) as [[b' r]|] eqn:Es; [|discriminate].
      apply split_bytes_spec in Es as [Hbr Hb]. apply IH. rewrite blen_suffixed, dec_succ_length.
      destruct (forallb is_nine (dec c)); lia.
    + apply IH. rewrite blen_suffixed, dec_succ_length. destruct (forallb is_nine (dec c)) eqn:E9; [|lia].
      rewrite trim_nines_suffixed in Ec by auto. lia.
  - intros [= <-]. destruct Hc as [Hc|Hc]; [auto|]. right. exists b, c; auto.
Qed.

Lemma get_unique_id_length deu used b m id used' :
  3 <= m -> get_unique_id deu used b m = Ret (id, used') ->
  blen id <= m \/ exists stem n, id = stem ++ lit "_" ++ dec n /\ blen stem <= 1.
Proof.
  intros Hm. unfold get_unique_id. cbv zeta. destruct (mem _ used) eqn:E; cbn [negb].
  - destruct ((m <? blen b + 2) && (3 <=? m)) eqn:Ec.
    + destruct (split_bytes b (m - 2)) as [[b' r]|] eqn:Es; [|discriminate].
      apply split_bytes_spec in Es as [-> Hb].
      destruct (unique_id_loop _ _ _ _ _) as [i| |] eqn:El; cbn [obind]; try discriminate.
      intros [= <- <-]. eapply uid_loop_length; [|apply El]. left. rewrite blen_suffixed. change (length (dec 2)) with 1. lia.
    + destruct (unique_id_loop _ _ _ _ _) as [i| |] eqn:El; cbn [obind]; try discriminate.
      intros [= <- <-]. eapply uid_loop_length; [|apply El]. left. rewrite blen_suffixed. change (length (dec 2)) with 1. lia.
  - intros [= <- <-]. left.
    rewrite blen_ascii by (apply ident_ascii, first_candidate_ok; lia).
    unfold first_candidate. rewrite map_length. destruct (is_identifier b) eqn:Ei; cbn [negb].
    + destruct (Nat.ltb_spec m (blen b)); [apply firstn_le_length|]. pose proof (length_le_blen b); lia.
    + apply make_identifier_spec; lia.
Qed.

(** * Entities (C07) *)
Lemma encode_decodes s q : Decodes (encode_entities s q) s.
Proof.
  induction s as [|c s IH]; cbn [encode_entities flat_map]; [constructor|]. fold (encode_entities s q).
  unfold encode_char.
  destruct (N.eqb_spec c 60); [subst; apply dec_lt; auto|].
  destruct (N.eqb_spec c 62); [subst; apply dec_gt; auto|].
  destruct (N.eqb_spec c 38); [subst; apply dec_amp; auto|].
  destruct (q && (c =? 34)%N) eqn:E1.
  { apply andb_true_iff in E1 as [_ E1]. apply N.eqb_eq in E1. subst. apply dec_quot; auto. }
  destruct (q && (c =? 39)%N) eqn:E2.
  { apply andb_true_iff in E2 as [_ E2]. apply N.eqb_eq in E2. subst. apply dec_apos; auto. }
  apply dec_plain; auto.
Qed.

Lemma Decodes_fun e s1 s2 : Decodes e s1 -> Decodes e s2 -> s1 = s2.
Proof.
  intros H; revert s2; induction H; intros s2 G; inversion G; subst; try congruence; try (f_equal; auto).
Qed.

Lemma encode_entities_safe s q c :
  In c (encode_entities s q) -> c <> 60%N /\ c <> 62%N /\ (q = true -> c <> 34%N /\ c <> 39%N).
Proof.
  unfold encode_entities. rewrite in_flat_map. intros (x & _ & Hx). revert Hx. unfold encode_char.
  destruct (N.eqb_spec x 60); [cbn; intuition (try subst; try lia; try discriminate)|].
  destruct (N.eqb_spec x 62); [cbn; intuition (try subst; try lia; try discriminate)|].
  destruct (N.eqb_spec x 38); [cbn; intuition (try subst; try lia; try discriminate)|].
  destruct q; cbn [andb].
  - destruct (N.eqb_spec x 34); [cbn; intuition (try subst; try lia; try discriminate)|].
    destruct (N.eqb_spec x 39); [cbn; intuition (try subst; try lia; try discriminate)|].
    intros [<-|[]]; auto.
  - intros [<-|[]]; repeat split; auto; discriminate.
Qed.

(** * Code fences (C08, C09) *)
Lemma ws_spec c : is_unicode_whitespace c = true <-> WhiteSpace c.
Proof.
  unfold is_unicode_whitespace, WhiteSpace, in_range. cbn [In]. lia.
Qed.

Lemma fix_loop_tail whole ls ind out :
  exists outs, Forall2 (Dedents ind) ls outs /\
  fix_indentation_loop whole ls (Some ind) out = Ret (out ++ flat_map (fun l => l ++ [10%N]) outs).
Proof.
  revert out; induction ls as [|l ls IH]; intros out; cbn [fix_indentation_loop].
  - exists []. rewrite app_nil_r. split; auto.
  - destruct (IH ((out ++ match strip_prefix ind l with Some s => s | None => trim_start l end) ++ [10%N])) as (outs & H1 & H2).
    rewrite H2. eexists (match strip_prefix ind l with Some s => s | None => trim_start l end :: outs). split.
    + constructor; auto. destruct (strip_prefix ind l) as [t|] eqn:E.
      * apply strip_prefix_spec in E. subst. constructor.
      * unfold trim_start. rewrite <- (take_drop_while is_unicode_whitespace l) at 1. apply dedent_less.
        -- intros t. rewrite take_drop_while. intros ->.
           assert (strip_prefix ind (ind ++ t) = Some t) by (apply strip_prefix_spec; auto). congruence.
        -- apply (forallb_Forall is_unicode_whitespace); [apply ws_spec | apply take_while_all].
        -- intros c t Ht Hw. apply drop_while_head in Ht. apply ws_spec in Hw. congruence.
    + cbn [flat_map]. rewrite <- !app_assoc. reflexivity.
Qed.

(** The lines of the body: blank lines, then a line whose indentation is [ind] and then the rest. *)
Lemma fix_indentation_indented s blanks ind first rest :
  lines (trim_end s) = blanks ++ (ind ++ first) :: rest ->
  Forall (Forall WhiteSpace) blanks -> Forall WhiteSpace ind -> ind <> [] ->
  (exists c t, first = c :: t /\ ~ WhiteSpace c) ->
  forallb is_ascii ind = true ->
  exists outs, Forall2 (Dedents ind) ((ind ++ first) :: rest) (first :: outs) /\
    fix_indentation s = Ret (flat_map (fun l => l ++ [10%N]) (first :: outs)).
Proof.
  intros El Hb Hi Hne (c & t & -> & Hc) Ha. unfold fix_indentation. rewrite El. clear El.
  induction blanks as [|b blanks IH]; cbn [app fix_indentation_loop].
  - assert (Ht : take_while is_unicode_whitespace (ind ++ c :: t) = ind).
    { clear Ha Hne. induction Hi as [|x ind Hx Hi IH]; cbn [app take_while].
      - destruct (is_unicode_whitespace c) eqn:E; auto. apply ws_spec in E; tauto.
      - apply ws_spec in Hx. rewrite Hx, IH; auto. }
    rewrite Ht.
    assert (forallb is_unicode_whitespace (ind ++ c :: t) = false) as ->.
    { destruct (forallb is_unicode_whitespace (ind ++ c :: t)) eqn:E; auto. rewrite forallb_app in E. cbn in E. rewrite !andb_true_iff in E.
      destruct E as [_ [E _]]. apply ws_spec in E. tauto. }
    replace (length ind =? 0) with false by (destruct ind; [congruence|reflexivity]).
    rewrite <- (blen_ascii ind) by auto. rewrite split_bytes_app. cbv beta iota.
    match goal with |- context[fix_indentation_loop s rest (Some ind) ?o] =>
      destruct (fix_loop_tail s rest ind o) as (outs & H1 & H2) end.
    exists outs. split; [constructor; auto; constructor|]. rewrite H2. reflexivity.
  - inversion Hb as [|? ? Hb1 Hb2]; subst.
    assert (forallb is_unicode_whitespace b = true) as ->; [|apply IH; auto].
    apply (forallb_Forall is_unicode_whitespace _ b ws_spec). auto.
Qed.

Lemma fix_indentation_unindented s blanks first rest :
  lines (trim_end s) = blanks ++ first :: rest ->
  Forall (Forall WhiteSpace) blanks ->
  (exists c t, first = c :: t /\ ~ WhiteSpace c) ->
  fix_indentation s = Ret (trim s).
Proof.
  intros El Hb (c & t & -> & Hc). unfold fix_indentation. rewrite El. clear El.
  induction blanks as [|b blanks IH]; cbn [app fix_indentation_loop].
  - cbn [forallb take_while]. destruct (is_unicode_whitespace c) eqn:E; [apply ws_spec in E; tauto|]. reflexivity.
  - inversion Hb as [|? ? Hb1 Hb2]; subst.
    assert (forallb is_unicode_whitespace b = true) as ->; [|apply IH; auto].
    apply (forallb_Forall is_unicode_whitespace _ b ws_spec). auto.
Qed.

Lemma fix_indentation_blank s : Forall (Forall WhiteSpace) (lines (trim_end s)) -> fix_indentation s = Ret [].
Proof.
  unfold fix_indentation. induction 1 as [|l ls Hl Hls IH]; cbn [fix_indentation_loop]; auto.
  assert (forallb is_unicode_whitespace l = true) as ->; auto.
  apply (forallb_Forall is_unicode_whitespace _ l ws_spec). auto.
Qed.

Lemma split_newline_some s a b : split_newline s = Some (a, b) <-> s = a ++ 10%N :: b /\ ~ In 10%N a.
Proof.
  revert a b; induction s as [|c s IH]; intros a b; cbn [split_newline].
  - split; [discriminate|]. intros [E _]. destruct a; discriminate E.
  - destruct (N.eqb_spec c 10).
    + subst. split; [intros [= <- <-]; auto|]. intros [E Hn]. destruct a as [|x a]; cbn in E; [congruence|].
      injection E as <- E. exfalso; apply Hn; left; auto.
    + destruct (split_newline s) as [[a' b']|] eqn:E.
      * split; [|].
        -- intros [= <- <-]. destruct (proj1 (IH a' b') eq_refl) as [-> Hn]. split; auto. intros [H|H]; auto.
        -- intros [Ea Hn]. destruct a as [|x a]; cbn in Ea; [congruence|]. injection Ea as <- ->.
           assert (Some (a', b') = Some (a, b)) as [= -> ->]; auto. apply IH. split; auto. intros H; apply Hn; right; auto.
      * split; [discriminate|]. intros [Ea Hn]. destruct a as [|x a]; cbn in Ea; [congruence|]. injection Ea as <- ->.
        assert (None = Some (a, b)); [|discriminate]. apply IH. split; auto. intros H; apply Hn; right; auto.
Qed.
Lemma split_newline_none s : split_newline s = None <-> ~ In 10%N s.
Proof.
  destruct (split_newline s) as [[a b]|] eqn:E.
  - apply split_newline_some in E as [-> _]. split; [discriminate|]. intros H. exfalso; apply H. apply in_or_app; right; left; auto.
  - split; auto. intros _ H. apply in_split in H as (a & b & Hs).
    revert a b Hs E. induction s as [|c s IH]; intros a b Hs E; [destruct a; discriminate|].
    cbn in E. destruct (N.eqb_spec c 10); [discriminate|]. destruct (split_newline s) as [[? ?]|] eqn:E2; [discriminate|].
    destruct a as [|x a]; cbn in Hs; [congruence|]. injection Hs as <- ->. eapply IH; eauto.
Qed.

Lemma trim_end_spec s : TrimmedEnd s (trim_end s).
Proof.
  destruct (trim_end_by_spec is_unicode_whitespace s) as (w & E & Hw). exists w. split; [exact E|]. split.
  - apply (forallb_Forall is_unicode_whitespace _ w ws_spec); auto.
  - intros i c E' Hc. apply trim_end_by_last in E'. apply ws_spec in Hc. congruence.
Qed.

Lemma trim_spec s : Trimmed s (trim s).
Proof.
  destruct (trim_end_by_spec is_unicode_whitespace (drop_while is_unicode_whitespace s)) as (w & E & Hw).
  exists (take_while is_unicode_whitespace s), w.
  split; [unfold trim, trim_by; rewrite <- E; symmetry; apply take_drop_while|].
  split; [apply (forallb_Forall is_unicode_whitespace _ _ ws_spec), take_while_all|].
  split; [apply (forallb_Forall is_unicode_whitespace _ _ ws_spec); auto|].
  split.
  - intros c r Ec Hc. unfold trim, trim_by in Ec. rewrite Ec in E. cbn [app] in E.
    apply drop_while_head in E. apply ws_spec in Hc. congruence.
  - intros i c Ec Hc. apply trim_end_by_last in Ec. apply ws_spec in Hc. congruence.
Qed.

Lemma SplitLines_cons c s ls :
  c <> 10%N -> (c = 13%N -> forall t, s <> 10%N :: t) -> SplitLines s ls ->
  SplitLines (c :: s) (match ls with [] => [[c]] | l :: ls => (c :: l) :: ls end).
Proof.
  intros Hc H13 H. inversion H as [|l Hl Hn|l rest ls' Hn Hl Hr|l rest ls' Hn Hr]; subst.
  - apply sl_last; [discriminate|]. intros [?|[]]; congruence.
  - apply sl_last; [discriminate|]. intros [?|?]; congruence.
  - apply (sl_lf (c :: l)); auto.
    + intros [?|?]; congruence.
    + intros [|x i] E; injection E as -> E.
      * subst l. cbn in H13. eapply H13; eauto.
      * eapply Hl; eauto.
  - apply (sl_crlf (c :: l)); auto. intros [?|?]; congruence.
Qed.

Lemma SplitLines_lf_inv s ls : SplitLines (10%N :: s) ([] :: ls) -> SplitLines s ls.
Proof.
  intros H. remember (10%N :: s) as x eqn:Ex; remember ([] :: ls) as y eqn:Ey.
  destruct H as [|l Hl Hn|l rest ls' Hn Hl Hr|l rest ls' Hn Hr].
  - discriminate.
  - congruence.
  - injection Ey as -> ->. cbn in Ex. congruence.
  - injection Ey as -> ->. cbn in Ex. congruence.
Qed.

Lemma lines_spec s : SplitLines s (lines s).
Proof.
  induction s as [|c s IH]; cbn [lines]; [constructor|].
  destruct (N.eqb_spec c 10).
  - subst. apply (sl_lf []); auto. intros [|? i] E; discriminate E.
  - destruct ((c =? 13)%N && _) eqn:E.
    + apply andb_true_iff in E as [E1 E2]. apply N.eqb_eq in E1. subst. destruct s as [|d s]; [discriminate|].
      apply N.eqb_eq in E2. subst. cbn [lines] in *. change (10 =? 10)%N with true in *. cbv iota in *.
      apply (sl_crlf []); auto.
      apply SplitLines_lf_inv; auto.
    + apply SplitLines_cons; auto. intros -> t ->. cbn in E. discriminate E.
Qed.

(** First line that is not blank. *)
Lemma lines_cases (ls : list str) :
  Forall (Forall WhiteSpace) ls \/
  exists blanks ind c first rest, ls = blanks ++ (ind ++ c :: first) :: rest /\ Forall (Forall WhiteSpace) blanks /\
    Forall WhiteSpace ind /\ ~ WhiteSpace c.
Proof.
  induction ls as [|l ls IH]; [left; constructor|].
  destruct (drop_while is_unicode_whitespace l) as [|c t] eqn:E.
  - apply drop_while_nil_all in E.
    assert (Forall WhiteSpace l) by (apply (forallb_Forall is_unicode_whitespace _ l ws_spec); auto).
    destruct IH as [IH|(b & i & c & f & r & -> & H1 & H2 & H3)]; [left; constructor; auto|].
    right. exists (l :: b), i, c, f, r. repeat split; auto.
  - right. exists [], (take_while is_unicode_whitespace l), c, t, ls. rewrite <- E, take_drop_while. repeat split; auto.
    + apply (forallb_Forall is_unicode_whitespace _ _ ws_spec), take_while_all.
    + intros Hc. apply ws_spec in Hc. apply drop_while_head in E. congruence.
Qed.

Lemma TrimmedEnd_fun s t : TrimmedEnd s t -> t = trim_end s.
Proof.
  intros (w & -> & Hw & Hl). unfold trim_end. rewrite trim_end_by_app.
  - symmetry. apply trim_end_by_id. intros a c E. destruct (is_unicode_whitespace c) eqn:Ec; auto.
    exfalso. eapply Hl; eauto. apply ws_spec; auto.
  - apply (forallb_Forall is_unicode_whitespace _ w ws_spec); auto.
Qed.

Lemma Trimmed_fun s t : Trimmed s t -> t = trim s.
Proof.
  intros (v & w & -> & Hv & Hw & Hf & Hl). unfold trim, trim_by.
  apply (forallb_Forall is_unicode_whitespace _ v ws_spec) in Hv.
  apply (forallb_Forall is_unicode_whitespace _ w ws_spec) in Hw.
  rewrite drop_while_app_all by auto. destruct t as [|c t].
  - cbn [app]. rewrite drop_while_all_nil by auto. reflexivity.
  - rewrite drop_while_id.
    + change (c :: t ++ w) with ((c :: t) ++ w). rewrite (trim_end_by_app _ (c :: t) w) by auto. symmetry. apply trim_end_by_id. intros a x E.
      destruct (is_unicode_whitespace x) eqn:Ec; auto. exfalso. eapply Hl; eauto. apply ws_spec; auto.
    + intros x r E. injection E as <- _. destruct (is_unicode_whitespace c) eqn:Ec; auto.
      exfalso. eapply Hf; eauto. apply ws_spec; auto.
Qed.

Lemma lines_lf l rest : ~ In 10%N l -> (forall i, l <> i ++ [13%N]) -> lines (l ++ 10%N :: rest) = l :: lines rest.
Proof.
  induction l as [|c l IH]; intros Hn Hcr; cbn [app lines]; auto.
  destruct (N.eqb_spec c 10); [exfalso; apply Hn; left; auto|].
  assert ((c =? 13)%N && match l ++ 10%N :: rest with d :: _ => (d =? 10)%N | [] => false end = false) as ->.
  { destruct l as [|d l]; cbn [app].
    - destruct (N.eqb_spec c 13); auto. subst. exfalso. apply (Hcr []). reflexivity.
    - destruct (N.eqb_spec d 10); [exfalso; apply Hn; right; left; auto|]. apply andb_false_r. }
  rewrite IH; auto.
  - intros H; apply Hn; right; auto.
  - intros i E. apply (Hcr (c :: i)). cbn. congruence.
Qed.
Lemma lines_crlf l rest : ~ In 10%N l -> lines (l ++ [13; 10]%N ++ rest) = l :: lines rest.
Proof.
  induction l as [|c l IH]; intros Hn; cbn [app lines]; auto.
  destruct (N.eqb_spec c 10); [exfalso; apply Hn; left; auto|].
  assert ((c =? 13)%N && match l ++ 13%N :: 10%N :: rest with d :: _ => (d =? 10)%N | [] => false end = false) as ->.
  { destruct l as [|d l]; cbn [app].
    - apply andb_false_r.
    - destruct (N.eqb_spec d 10); [exfalso; apply Hn; right; left; auto|]. apply andb_false_r. }
  cbn [app] in IH. rewrite IH; auto. intros H; apply Hn; right; auto.
Qed.
Lemma lines_last l : l <> [] -> ~ In 10%N l -> lines l = [l].
Proof.
  induction l as [|c l IH]; intros Hne Hn; [congruence|]. cbn [lines].
  destruct (N.eqb_spec c 10); [exfalso; apply Hn; left; auto|].
  assert ((c =? 13)%N && match l with d :: _ => (d =? 10)%N | [] => false end = false) as ->.
  { destruct l as [|d l]; [apply andb_false_r|].
    destruct (N.eqb_spec d 10); [exfalso; apply Hn; right; left; auto|]. apply andb_false_r. }
  destruct l as [|d l]; auto. rewrite IH; auto; [discriminate|]. intros H; apply Hn; right; auto.
Qed.
Lemma SplitLines_fun s ls : SplitLines s ls -> ls = lines s.
Proof.
  induction 1 as [|l H1 H2|l rest ls H1 H2 H3 IH|l rest ls H1 H3 IH].
  - reflexivity.
  - rewrite lines_last; auto.
  - rewrite lines_lf; congruence.
  - rewrite lines_crlf; congruence.
Qed.

Lemma Dedents_fun ind l o1 o2 : Dedents ind l o1 -> Dedents ind l o2 -> o1 = o2.
Proof.
  intros H1 H2. inversion H1 as [l1 E1|w1 l1 N1 W1 F1 E1]; subst; inversion H2 as [l2 E2|w2 l2 N2 W2 F2 E2]; subst.
  - apply app_inv_head in E2; auto.
  - exfalso. eapply N2; symmetry; eauto.
  - exfalso. eapply N1; eauto.
  - clear H1 H2 N1 N2. revert w2 W2 E2; induction W1 as [|x w1 Hx W1 IH]; intros w2 W2 E2; destruct W2 as [|y w2 Hy W2]; cbn in E2.
    + auto.
    + exfalso. eapply F1; [symmetry; apply E2|auto].
    + exfalso. eapply F2; [apply E2|auto].
    + injection E2 as E E2. eapply IH; eauto.
Qed.
Lemma Forall2_fun {A B} (R : A -> B -> Prop) l a b :
  (forall x y z, R x y -> R x z -> y = z) -> Forall2 R l a -> Forall2 R l b -> a = b.
Proof.
  intros HR H; revert b; induction H; intros b G; inversion G; subst; auto. f_equal; eauto.
Qed.

(** C08: unless the first non-blank line is indented by non-ASCII white space, the result is as specified. *)
Lemma fix_indentation_spec ind s out :
  FenceBody ind s out -> Forall (fun c => (c < 128)%N) ind -> fix_indentation s = Ret out.
Proof.
  intros H Ha.
  inversion H as [s' t ls Ht Hl Hb E1 E2 E3|s' t blanks c first rest o Ht Hl Hb Hc Ho E1 E2 E3
                 |s' t blanks i c first rest outs Ht Hl Hb Hi Hne Hc Ho E1 E2 E3]; subst;
    apply TrimmedEnd_fun in Ht; subst t; apply SplitLines_fun in Hl.
  - apply fix_indentation_blank. congruence.
  - apply Trimmed_fun in Ho. subst. eapply fix_indentation_unindented; eauto.
  - destruct (fix_indentation_indented s blanks ind (c :: first) rest) as (outs' & H1 & H2); eauto.
    + apply (forallb_Forall is_ascii _ ind (fun c => N.ltb_lt c 128)); auto.
    + rewrite H2. do 2 f_equal. eapply Forall2_fun; [|apply H1|apply Ho]. apply Dedents_fun.
Qed.

Lemma Dedents_total ind l : exists o, Dedents ind l o.
Proof.
  destruct (strip_prefix ind l) as [t|] eqn:E.
  - apply strip_prefix_spec in E. subst. exists t. constructor.
  - exists (drop_while is_unicode_whitespace l). rewrite <- (take_drop_while is_unicode_whitespace l) at 1.
    apply dedent_less.
    + intros t. rewrite take_drop_while. intros Hl. apply strip_prefix_spec in Hl. congruence.
    + apply (forallb_Forall is_unicode_whitespace); [apply ws_spec | apply take_while_all].
    + intros c t Ht Hw. apply drop_while_head in Ht. apply ws_spec in Hw. congruence.
Qed.
Lemma Forall2_total {A B} (R : A -> B -> Prop) l : (forall x, exists y, R x y) -> exists m, Forall2 R l m.
Proof. intros H. induction l as [|x l (m & Hm)]; eauto. destruct (H x) as (y & Hy). eauto. Qed.

Lemma FenceBody_total s : exists ind out, FenceBody ind s out.
Proof.
  destruct (lines_cases (lines (trim_end s))) as [H|(b & i & c & f & r & E & Hb & Hi & Hc)].
  - exists [], []. eapply fb_blank; eauto using trim_end_spec, lines_spec.
  - destruct i as [|x i].
    + exists [], (trim s). eapply fb_plain; eauto using trim_end_spec, trim_spec.
      rewrite <- (app_nil_l (c :: f)), <- E. apply lines_spec.
    + destruct (Forall2_total (Dedents (x :: i)) (((x :: i) ++ c :: f) :: r) (Dedents_total _)) as (outs & Ho).
      exists (x :: i), (flat_map (fun l => l ++ [10%N]) outs).
      eapply fb_indented; eauto using trim_end_spec; [rewrite <- E; apply lines_spec|discriminate].
Qed.

Lemma fix_indentation_panics : exists s, fix_indentation s = Panic.
Proof. exists [12288; 97]%N. reflexivity. Qed.
Lemma fix_indentation_wrong : exists ind s out, FenceBody ind s out /\ exists r, fix_indentation s = Ret r /\ r <> out.
Proof.
  exists [160; 160]%N, [160; 160; 97]%N, [97; 10]%N. split.
  - apply (fb_indented [160;160;97]%N [160;160;97]%N [] [160;160]%N 97%N [] [] [[97%N]]).
    + exists []. repeat split; auto. intros i c E. assert (c = 97)%N as ->.
      { change [160;160;97]%N with ([160;160] ++ [97])%N in E. apply app_inj_tail in E as [_ <-]; auto. }
      unfold WhiteSpace; cbn; lia.
    + apply sl_last; [discriminate|]. cbn; lia.
    + constructor.
    + repeat constructor; unfold WhiteSpace; cbn; lia.
    + discriminate.
    + unfold WhiteSpace; cbn; lia.
    + constructor; [|constructor]. constructor.
  - eexists; split; [reflexivity|]. vm_compute. discriminate.
Qed.

Lemma language_hint_spec src default :
  (exists l rest, src = l ++ 10%N :: rest /\ ~ In 10%N l /\ Identifier (trim_end l) /\
     get_source_language_hint src default = (trim_end l, rest))
  \/ ((~ exists l rest, src = l ++ 10%N :: rest /\ ~ In 10%N l /\ Identifier (trim_end l))
      /\ get_source_language_hint src default = (default, src)).
Proof.
  unfold get_source_language_hint. destruct (split_newline src) as [[l rest]|] eqn:E.
  - apply split_newline_some in E as [-> Hn]. destruct (is_identifier (trim_end l)) eqn:Ei.
    + apply is_identifier_spec in Ei. left. exists l, rest; auto.
    + right. split; auto. intros (l' & rest' & E & Hn' & Hi).
      assert (Some (l, rest) = Some (l', rest')) as [= -> ->].
      { rewrite <- (proj2 (split_newline_some (l ++ 10%N :: rest) l rest)); auto. apply split_newline_some; auto. }
      apply is_identifier_spec in Hi. congruence.
  - apply split_newline_none in E. right. split; auto. intros (l & rest & -> & _).
    apply E. apply in_or_app; right; left; auto.
Qed.
Lemma encode_entities_ampersands s q a b :
  encode_entities s q = a ++ 38%N :: b ->
  exists name t, In name [[108;116;59]; [103;116;59]; [97;109;112;59]; [113;117;111;116;59]; [97;112;111;115;59]]%N
     /\ b = name ++ t.
Proof.
  assert (Hc : forall c x y, encode_char q c = x ++ 38%N :: y ->
     In y [[108;116;59]; [103;116;59]; [97;109;112;59]; [113;117;111;116;59]; [97;112;111;115;59]]%N).
  { assert (Hp : forall y0 x y : str, ~ In 38%N y0 -> 38%N :: y0 = x ++ 38%N :: y -> y0 = y).
    { intros y0 [|z x] y Hn H; [injection H; auto|]. injection H as _ ->. exfalso. apply Hn. apply in_or_app; right; left; auto. }
    intros c x y. unfold encode_char.
    destruct (N.eqb_spec c 60); [intros H; apply Hp in H; [subst; cbn; auto 10|cbn; lia]|].
    destruct (N.eqb_spec c 62); [intros H; apply Hp in H; [subst; cbn; auto 10|cbn; lia]|].
    destruct (N.eqb_spec c 38); [intros H; apply Hp in H; [subst; cbn; auto 10|cbn; lia]|].
    destruct (q && (c =? 34)%N); [intros H; apply Hp in H; [subst; cbn; auto 10|cbn; lia]|].
    destruct (q && (c =? 39)%N); [intros H; apply Hp in H; [subst; cbn; auto 10|cbn; lia]|].
    intros H. destruct x as [|? x]; [injection H; congruence|]. injection H as _ H. destruct x; discriminate H. }
  revert a; induction s as [|c s IH]; intros a; cbn [encode_entities flat_map]; [destruct a; discriminate|].
  fold (encode_entities s q). intros E.
  apply app_eq_app in E as (l & [[E1 E2]|[E1 E2]]).
  - destruct l as [|x l].
    + cbn in E2. symmetry in E2. apply (IH []). auto.
    + injection E2 as <- ->. apply Hc in E1. exists l, (encode_entities s q). auto.
  - eapply IH; eauto.
Qed.
