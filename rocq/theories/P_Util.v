From Verif Require Import Base BaseFacts M_StringPool M_SliceRef M_SourceFile S_Util.

(** * String pool *)
Lemma index_of_some s p i : index_of s p = Some i -> nth_error p i = Some s.
Proof.
  revert i; induction p as [|x p IH]; cbn; intros i H; [discriminate|].
  destruct (str_eqb_spec s x) as [->|n]; [now injection H as <-|].
  destruct (index_of s p) as [j|]; [|discriminate]. injection H as <-. cbn. now apply IH.
Qed.
Lemma index_of_none s p : index_of s p = None -> ~ In s p.
Proof.
  induction p as [|x p IH]; cbn; intros H; [tauto|].
  destruct (str_eqb_spec s x) as [->|n]; [discriminate|].
  destruct (index_of s p) as [j|]; [discriminate|]. intros [->|Hin]; [easy|]. now apply IH.
Qed.
Lemma index_of_app_some s p q i : index_of s p = Some i -> index_of s (p ++ q) = Some i.
Proof.
  revert i; induction p as [|x p IH]; cbn; intros i H; [discriminate|].
  destruct (str_eqb s x); [easy|]. destruct (index_of s p) as [j|]; [|discriminate].
  now rewrite (IH j eq_refl).
Qed.
Lemma index_of_nodup p i s : NoDup p -> nth_error p i = Some s -> index_of s p = Some i.
Proof.
  intros ND H. destruct (index_of s p) as [j|] eqn:E.
  - pose proof (index_of_some _ _ _ E) as Hj. f_equal. rewrite NoDup_nth_error in ND. apply ND.
    + apply nth_error_Some. congruence.
    + congruence.
  - exfalso. apply (index_of_none _ _ E). eapply nth_error_In; eauto.
Qed.
Lemma pool_insert_spec s p id p' : NoDup p -> pool_insert s p = (id, p') ->
  NoDup p' /\ nth_error p' id = Some s /\ exists q, p' = p ++ q.
Proof.
  intros ND. unfold pool_insert, insert_full. destruct (index_of s p) as [i|] eqn:E; intros H; injection H as <- <-.
  - split; [easy|]. split; [now apply index_of_some|]. exists []. now rewrite app_nil_r.
  - split; [|split; [|now exists [s]]].
    + apply index_of_none in E. apply NoDup_rev in ND. rewrite <- (rev_involutive (p ++ [s])). apply NoDup_rev.
      rewrite rev_app_distr. cbn. constructor; [|easy]. now rewrite <- in_rev.
    + rewrite nth_error_app2 by lia. now rewrite Nat.sub_diag.
Qed.
Lemma pool_run_spec low ops p ids p' : NoDup p -> pool_run low ops p = (ids, p') ->
  NoDup p' /\ (exists q, p' = p ++ q) /\
  Forall2 (fun id o => nth_error p' id = Some (op_string low o)) ids ops.
Proof.
  revert p ids p'; induction ops as [|o ops IH]; cbn; intros p ids p' ND H.
  - injection H as <- <-. split; [easy|]. split; [exists []; now rewrite app_nil_r|constructor].
  - destruct (pool_step low o p) as [id p1] eqn:E1. destruct (pool_run low ops p1) as [ids1 p2] eqn:E2.
    injection H as <- <-.
    assert (E1' : pool_insert (op_string low o) p = (id, p1)) by (destruct o; exact E1).
    destruct (pool_insert_spec _ _ _ _ ND E1') as (ND1 & H1 & q1 & ->).
    destruct (IH _ _ _ ND1 E2) as (ND2 & (q2 & ->) & H2).
    split; [easy|]. split; [exists (q1 ++ q2); now rewrite app_assoc|]. constructor; [|easy].
    rewrite nth_error_app1; [easy|]. apply nth_error_Some. congruence.
Qed.
Definition nodupb (l : list str) : bool :=
  (fix go l := match l with [] => true | x :: t => negb (mem x t) && go t end) l.
Lemma nodupb_sound l : nodupb l = true -> NoDup l.
Proof.
  induction l as [|x t IH]; cbn; intros H; [constructor|]. apply andb_true_iff in H as [H1 H2].
  constructor; [|now apply IH]. apply negb_true_iff in H1. now apply mem_not_In.
Qed.
Lemma pool_new_const : pool_new = const_strs.
Proof. vm_compute. reflexivity. Qed.
Lemma const_strs_nodup : NoDup const_strs.
Proof. apply nodupb_sound. vm_compute. reflexivity. Qed.

Lemma pool_interning low ops ids p :
  pool_run low ops pool_new = (ids, p) ->
  length ids = length ops /\
  (forall i id o, nth_error ids i = Some id -> nth_error ops i = Some o -> pool_get id p = Some (op_string low o)) /\
  (forall i j id1 id2 o1 o2,
     nth_error ids i = Some id1 -> nth_error ids j = Some id2 -> nth_error ops i = Some o1 -> nth_error ops j = Some o2 ->
     (id1 = id2 <-> op_string low o1 = op_string low o2)) /\
  (forall id s, nth_error const_strs id = Some s -> pool_get id p = Some s /\ get_id_if_present s p = Some id).
Proof.
  intros H. rewrite pool_new_const in H. destruct (pool_run_spec _ _ _ _ _ const_strs_nodup H) as (ND & (q & ->) & F).
  assert (F2 : forall i id o, nth_error ids i = Some id -> nth_error ops i = Some o -> pool_get id (const_strs ++ q) = Some (op_string low o)).
  { clear -F. revert ops F. induction ids as [|a ids IH]; intros ops F; inversion F; subst; intros [|i]; cbn; try discriminate.
    - intros id o [= <-] [= <-]. assumption.
    - intros id o Hi Ho. eapply IH; eauto. }
  split; [now apply Forall2_len in F|]. split; [exact F2|]. split.
  - intros i j id1 id2 o1 o2 H1 H2 H3 H4. pose proof (F2 _ _ _ H1 H3) as A. pose proof (F2 _ _ _ H2 H4) as B.
    unfold pool_get in *. split; [intros ->; congruence|]. intros E. rewrite <- E in B.
    rewrite NoDup_nth_error in ND. apply ND; [apply nth_error_Some; congruence|congruence].
  - intros id s Hs. assert (G : nth_error (const_strs ++ q) id = Some s).
    { rewrite nth_error_app1; [easy|]. apply nth_error_Some. congruence. }
    split; [exact G|]. now apply index_of_nodup.
Qed.

(** * Source positions *)
Lemma coords_nth s : forall pre post line col, s = pre ++ post -> pre <> [] ->
  nth_error (line_col_coords s line col) (length pre - 1) =
  Some (line + count_occ N.eq_dec pre 10%N,
        match rev (take_while (fun c => negb (c =? 10)%N) (rev pre)) with l => (if existsb (fun c => (c =? 10)%N) pre then 1 else col) + length l end).
Proof.
  induction s as [|c s IH]; intros pre post line col E NE.
  - destruct pre; [easy|discriminate].
  - destruct pre as [|c' pre]; [easy|]. assert (c' = c) as -> by (cbn in E; congruence). injection E as E. cbn [length]. replace (S (length pre) - 1) with (length pre) by lia.
    destruct pre as [|c2 pre2].
    + cbn [length nth_error line_col_coords]. cbn [app] in E. cbn [rev app take_while existsb count_occ].
      destruct (N.eqb_spec c 10) as [->|n]; cbn; [now replace (line + 1) with (line + 1) by lia|].
      destruct (N.eq_dec c 10); [easy|]. do 2 f_equal; lia.
    + cbn [line_col_coords]. cbn [length nth_error].
      specialize (IH (c2 :: pre2) post (if (c =? 10)%N then line + 1 else line) (if (c =? 10)%N then 1 else col + 1) E ltac:(easy)).
      cbn [length] in IH. replace (S (length pre2) - 1) with (length pre2) in IH by lia. rewrite IH.
      set (p := c2 :: pre2) in *. f_equal. f_equal.
      * cbn [count_occ]. destruct (N.eqb_spec c 10) as [e|n]; destruct (N.eq_dec c 10); try easy; lia.
      * assert (T : forall l, take_while (fun c => negb (c =? 10)%N) (l ++ [c]) =
            if forallb (fun c => negb (c =? 10)%N) l then (if (c =? 10)%N then l else l ++ [c]) else take_while (fun c => negb (c =? 10)%N) l).
        { induction l as [|x l IHl]; cbn; [now destruct (c =? 10)%N|]. destruct (x =? 10)%N; cbn; [easy|].
          rewrite IHl. destruct (forallb _ l); [now destruct (c =? 10)%N|easy]. }
        assert (A : forallb (fun c => negb (c =? 10)%N) (rev p) = negb (existsb (fun c => (c =? 10)%N) p)).
        { rewrite forallb_rev. clear. generalize p. clear. intros p. induction p as [|x q IHp]; cbn; [easy|]. rewrite IHp. now destruct (x =? 10)%N. }
        assert (B : forall f l, forallb f l = true -> take_while f l = l).
        { induction l as [|x l IHl]; cbn; [easy|]. destruct (f x); cbn; [|discriminate]. intros H. now rewrite IHl. }
        change (rev (c :: p)) with (rev p ++ [c]). rewrite T, A. cbn [existsb].
        destruct (existsb (fun c => (c =? 10)%N) p) eqn:Ex; cbn [negb].
        -- now rewrite orb_true_r.
        -- rewrite (B _ (rev p) A). rewrite orb_false_r. destruct (c =? 10)%N; rewrite ?rev_length, ?app_length; rewrite ?rev_length; cbn [length]; lia.
Qed.
Lemma LineCol_total pre : LineCol pre (1 + count_occ N.eq_dec pre 10%N)
  ((if existsb (fun c => (c =? 10)%N) pre then 1 else 1) + length (take_while (fun c => negb (c =? 10)%N) (rev pre))).
Proof.
  pose proof (take_drop_while (fun c => negb (c =? 10)%N) (rev pre)) as E.
  set (f := fun c => negb (c =? 10)%N) in *.
  assert (A := take_while_all f (rev pre)).
  assert (N1 : ~ In 10%N (take_while f (rev pre))).
  { intros H. rewrite forallb_forall in A. specialize (A _ H). discriminate. }
  replace (if existsb (fun c => (c =? 10)%N) pre then 1 else 1) with 1 by now destruct (existsb _ _).
  destruct (drop_while f (rev pre)) as [|x r] eqn:D.
  - rewrite app_nil_r in E. rewrite E in N1 |- *. rewrite rev_length. rewrite <- in_rev in N1.
    rewrite (proj1 (count_occ_not_In N.eq_dec pre 10%N) N1). now constructor.
  - pose proof (drop_while_head _ _ _ _ D) as Hx. unfold f in Hx. apply negb_false_iff, N.eqb_eq in Hx. subst x.
    assert (E2 : pre = rev r ++ 10%N :: rev (take_while f (rev pre))).
    { transitivity (rev (rev pre)); [now rewrite rev_involutive|]. rewrite <- E at 1. rewrite rev_app_distr. cbn. now rewrite <- app_assoc. }
    rewrite in_rev in N1. set (t := take_while f (rev pre)) in *.
    replace (count_occ N.eq_dec pre 10%N) with (1 + count_occ N.eq_dec (rev r) 10%N).
    + rewrite <- (rev_length t). now apply line_col_next with (before := rev r).
    + rewrite E2, count_occ_app. cbn [count_occ]. destruct (N.eq_dec 10 10); [|easy].
      rewrite (proj1 (count_occ_not_In N.eq_dec (rev t) 10%N) N1). lia.
Qed.
Lemma line_col_chars pre post :
  exists line col, index_to_line_col (pre ++ post) (length pre) = Ret (line, col) /\ LineCol pre line col.
Proof.
  unfold index_to_line_col. destruct pre as [|c pre].
  - exists 1, 1. split; [easy|]. now constructor.
  - eexists _, _. split; [|apply LineCol_total]. cbn [nth_error length].
    pose proof (coords_nth ((c :: pre) ++ post) (c :: pre) post 1 1 eq_refl ltac:(easy)) as H.
    cbn [length] in H. replace (S (length pre) - 1) with (length pre) in H by lia. rewrite H.
    now rewrite rev_length.
Qed.
Lemma LineCol_fun pre l c l' c' : LineCol pre l c -> LineCol pre l' c' -> l = l' /\ c = c'.
Proof.
  assert (U : forall (b b' t t' : list N), b ++ 10%N :: t = b' ++ 10%N :: t' -> ~ In 10%N t -> ~ In 10%N t' -> b = b' /\ t = t').
  { induction b as [|x b IH]; intros [|y b'] t t' E H H'; cbn in E.
    - injection E as E. auto.
    - injection E as <- E. exfalso. apply H. rewrite E. apply in_or_app. right. now left.
    - injection E as -> E. exfalso. apply H'. rewrite <- E. apply in_or_app. right. now left.
    - injection E as <- E. destruct (IH _ _ _ E H H') as [-> ->]. auto. }
  intros [H|b t E H] [H'|b' t' E' H'].
  - auto.
  - exfalso. apply H. rewrite E'. apply in_or_app. right. now left.
  - exfalso. apply H'. rewrite E. apply in_or_app. right. now left.
  - rewrite E in E'. destruct (U _ _ _ _ E' H H') as [-> ->]. auto.
Qed.
Lemma line_col_ascii pre post : Forall (fun c => (c < 128)%N) (pre ++ post) ->
  exists line col, index_to_line_col (pre ++ post) (blen pre) = Ret (line, col) /\ LineCol pre line col.
Proof.
  intros H. rewrite blen_ascii; [apply line_col_chars|]. apply forallb_forall. rewrite Forall_forall in H.
  intros x Hx. unfold is_ascii. apply N.ltb_lt. apply H. apply in_or_app. now left.
Qed.
Lemma line_col_no_panic s i : i <= length s -> index_to_line_col s i <> Panic.
Proof.
  intros H. rewrite <- (firstn_skipn i s). destruct (line_col_chars (firstn i s) (skipn i s)) as (l & c & E & _).
  rewrite firstn_length_le in E by easy. rewrite E. discriminate.
Qed.
Lemma line_col_wrong : exists pre post line col l' c',
  index_to_line_col (pre ++ post) (blen pre) = Ret (l', c') /\ LineCol pre line col /\ (l', c') <> (line, col).
Proof.
  exists [233]%N, (lit "abc"), 1, 2, 1, 3. split; [reflexivity|]. split; [|congruence]. apply (line_col_first [233]%N).
  cbn. intros [H|[]]. discriminate.
Qed.
Lemma line_col_panic : exists s, index_to_line_col s (eof_index s) = Panic.
Proof. now exists [233]%N. Qed.
Lemma get_span_spec a b c : get_span (a ++ b ++ c) (blen a) (blen a + blen b) = Ret b.
Proof.
  unfold get_span. destruct (Nat.ltb_spec (blen a + blen b) (blen a)); [lia|].
  rewrite app_assoc, <- blen_app, split_bytes_app. now rewrite split_bytes_app.
Qed.

(** * Slices *)
Section Slices.
  Context {A : Type}.
  Implicit Types s : slice_ref A.
  Lemma sr_slice_view s l a b : sr_as_ref s = Ret l -> a <= b -> b <= length l ->
    exists s', sr_slice s a b = Ret s' /\ sr_as_ref s' = Ret (firstn (b - a) (skipn a l)).
  Proof.
    unfold sr_as_ref, sr_slice. destruct s as [o x y]; cbn.
    destruct (Nat.leb_spec x y) as [H1|], (Nat.leb_spec y (length o)) as [H2|]; cbn; try discriminate.
    intros E Hab Hb. injection E as <-. rewrite firstn_length, skipn_length in Hb.
    destruct (Nat.ltb_spec b a), (Nat.ltb_spec (length o) (x + b)); cbn; try lia.
    eexists. split; [reflexivity|]. cbn.
    destruct (Nat.leb_spec (x + a) (x + b)), (Nat.leb_spec (x + b) (length o)); cbn; try lia.
    f_equal. rewrite skipn_firstn_comm, skipn_skipn, firstn_firstn. f_equal; [lia|]. f_equal. lia.
  Qed.
  Lemma sr_len_view s l : sr_as_ref s = Ret l -> sr_len s = length l.
  Proof.
    unfold sr_as_ref, sr_len. destruct s as [o x y]; cbn.
    destruct (Nat.leb_spec x y), (Nat.leb_spec y (length o)); cbn; try discriminate.
    intros E; injection E as <-. rewrite firstn_length, skipn_length. lia.
  Qed.
  Lemma nth_error_firstn' (l : list A) n i : i < n -> nth_error (firstn n l) i = nth_error l i.
  Proof.
    revert n i; induction l as [|x l IH]; intros [|n] [|i] H; cbn; try easy; try lia. apply IH. lia.
  Qed.
  Lemma nth_error_skipn' (l : list A) n i : nth_error (skipn n l) i = nth_error l (n + i).
  Proof. revert n; induction l as [|x l IH]; intros [|n]; cbn; try easy. now destruct i. Qed.
  Lemma sr_get_view s l i : sr_as_ref s = Ret l -> i < length l ->
    exists x, sr_get s i = Ret x /\ nth_error l i = Some x.
  Proof.
    unfold sr_as_ref, sr_get. destruct s as [o x y]; cbn.
    destruct (Nat.leb_spec x y), (Nat.leb_spec y (length o)); cbn; try discriminate.
    intros E Hi; injection E as <-. rewrite firstn_length, skipn_length in Hi.
    rewrite nth_error_firstn' by lia. rewrite nth_error_skipn'.
    destruct (nth_error o (x + i)) eqn:E; [now eexists|]. apply nth_error_None in E. lia.
  Qed.
  Lemma sr_from_view (l : list A) : sr_as_ref (sr_from l) = Ret l.
  Proof.
    unfold sr_as_ref, sr_from; cbn. rewrite Nat.leb_refl. cbn. now rewrite Nat.sub_0_r, firstn_all.
  Qed.
  Lemma list_get_spec s l i : sr_as_ref s = Ret l ->
    (forall x, list_get s i = Ret (Some x) <-> ElementAt l i x) /\
    (list_get s i = Ret None <-> (i < - Z.of_nat (length l) \/ Z.of_nat (length l) <= i)%Z) /\
    list_get s i <> Panic /\ list_get s i <> OutOfFuel.
  Proof.
    intros V. unfold list_get. rewrite (sr_len_view _ _ V). set (n := Z.of_nat (length l)).
    assert (EL : forall x, ElementAt l i x <-> ((0 <= i < n)%Z /\ nth_error l (Z.to_nat i) = Some x) \/ ((- n <= i < 0)%Z /\ nth_error l (Z.to_nat (i + n)) = Some x)).
    { intros x. split.
      - intros H. destruct H as [pre x post E|pre x post E]; subst n; rewrite E, ?app_length; cbn [length].
        + left. split; [lia|]. rewrite Nat2Z.id, nth_error_app2 by lia. now rewrite Nat.sub_diag.
        + right. split; [lia|]. replace (Z.to_nat _) with (length pre) by lia. rewrite nth_error_app2 by lia. now rewrite Nat.sub_diag.
      - intros [[H1 H2]|[H1 H2]]; apply nth_error_split in H2 as (pre & post & E & L).
        + replace i with (Z.of_nat (length pre)) by lia. econstructor 1. exact E.
        + assert (length l = length pre + S (length post)) by (rewrite E, app_length; cbn; lia).
          replace i with (- Z.of_nat (S (length post)))%Z by (subst n; lia). econstructor 2. exact E. }
    destruct (Z.leb_spec 0 i), (Z.ltb_spec i n); cbn [andb].
    1:{ destruct (sr_get_view s l (Z.to_nat i) V) as (x & G & E); [subst n; lia|]. rewrite G. cbn.
        split; [|split; [split; [discriminate|lia]|split; discriminate]]. intros x'. rewrite EL. split.
        - intros [= <-]. left. auto.
        - intros [[_ Q]|[Q _]]; [congruence|lia]. }
    all: destruct (Z.leb_spec (-n) i), (Z.ltb_spec i 0); cbn [andb]; try lia.
    all: try (split; [intros x; rewrite EL; split; [discriminate|intros [[Q _]|[Q _]]; lia]|];
              split; [split; [lia|easy]|split; discriminate]).
    destruct (sr_get_view s l (Z.to_nat (i + n)) V) as (x & G & E); [subst n; lia|]. rewrite G. cbn.
    split; [|split; [split; [discriminate|lia]|split; discriminate]]. intros x'. rewrite EL. split.
    - intros [= <-]. right. auto.
    - intros [[Q _]|[_ Q]]; [lia|congruence].
  Qed.
  Lemma native_slice_spec s l i j : sr_as_ref s = Ret l ->
    exists s' out, native_slice s i j = Ret s' /\ sr_as_ref s' = Ret out /\
      Slice l i (match j with Some j => j | None => Z.of_nat (length l) end) out.
  Proof.
    intros V. unfold native_slice. rewrite (sr_len_view _ _ V). set (n := Z.of_nat (length l)).
    set (e := match j with Some e => e | None => n end).
    replace (if (i <? 0)%Z then Z.max 0 (i + n) else Z.min i n) with (clamp n i) by (unfold clamp; destruct (Z.ltb_spec i 0); lia).
    replace (if (e <? 0)%Z then Z.max 0 (e + n) else Z.min e n) with (clamp n e) by (unfold clamp; destruct (Z.ltb_spec e 0); lia).
    assert (C : forall k, (0 <= clamp n k <= n)%Z) by (intros k; unfold clamp; subst n; destruct (k <? 0)%Z; lia).
    pose proof (C i) as Ci. pose proof (C e) as Ce.
    destruct (sr_slice_view s l (Z.to_nat (Z.min (clamp n i) (clamp n e))) (Z.to_nat (clamp n e)) V) as (s' & E1 & E2);
      [subst n; lia|subst n; lia|].
    exists s', (firstn (Z.to_nat (clamp n e) - Z.to_nat (Z.min (clamp n i) (clamp n e))) (skipn (Z.to_nat (Z.min (clamp n i) (clamp n e))) l)).
    split; [exact E1|]. split; [exact E2|].
    destruct (Z.ltb_spec (clamp n e) (clamp n i)).
    - rewrite Z.min_r by lia. rewrite Nat.sub_diag. cbn. now apply slice_empty.
    - rewrite Z.min_l by lia. set (a := Z.to_nat (clamp n i)). set (b := Z.to_nat (clamp n e)).
      assert (a <= b <= length l) by (subst a b n; lia).
      apply slice_part with (pre := firstn a l) (post := skipn b l).
      + replace b with ((b - a) + a) at 2 by lia. rewrite <- skipn_skipn. now rewrite !firstn_skipn.
      + rewrite firstn_length_le by lia. subst a. fold n. lia.
      + rewrite !firstn_length, skipn_length. fold n. subst a b. lia.
  Qed.
  Lemma Slice_fun (l : list A) i j o o' : Slice l i j o -> Slice l i j o' -> o = o'.
  Proof.
    intros [pre out post E H1 H2|H] [pre' out' post' E' H1' H2'|H']; try lia; try easy.
    assert (length pre = length pre') by lia. assert (length out = length out') by lia.
    rewrite E in E'. assert (firstn (length out) (skipn (length pre) (pre ++ out ++ post)) = firstn (length out') (skipn (length pre') (pre' ++ out' ++ post'))).
    { rewrite E'. congruence. }
    rewrite !skipn_app, !skipn_all, !Nat.sub_diag in H3. cbn in H3. rewrite !firstn_app, !firstn_all, !Nat.sub_diag in H3.
    cbn in H3. now rewrite !app_nil_r in H3.
  Qed.
  (** The bound check of [slice] is against the original list: a sub-slice can be widened (only reachable from Rust). *)
  Remark sr_slice_widens (x y : A) : exists s, sr_as_ref s = Ret [x] /\ exists s', sr_slice s 0 2 = Ret s' /\ sr_as_ref s' = Ret [x; y].
  Proof. exists (SliceRef [x; y] 0 1). split; [easy|]. eexists. split; reflexivity. Qed.
End Slices.
