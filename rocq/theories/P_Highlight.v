(** Proofs about syntax highlighting. *)
From Verif Require Import Base BaseFacts M_Text M_Names M_Html M_Token M_Tokenizer M_SourceFile M_Highlight S_Html P_Html P_Util S_Front S_Native P_NativeText
  P_Tokenizer P_Front S_Highlight.

(** ** Marks *)
Lemma marks_in_app h : forall st r, marks_in st (events h ++ r) = marks_in st (events h) ++ marks_in st r.
Proof.
  induction h as [|n a c IH|l IH|s| |] using html_ind'; intros st r; cbn [events app]; try reflexivity.
  - cbn [marks_in]. rewrite <- app_assoc, IH. cbn [app marks_in List.tl]. rewrite IH. cbn [marks_in]. now rewrite app_nil_r.
  - induction l as [|x l IHl]; [reflexivity|]. inversion IH as [|? ? Hx Hl]; subst. cbn [flat_map].
    rewrite <- !app_assoc, !Hx, (IHl Hl), app_assoc. reflexivity.
  - induction s as [|c s IHs]; [reflexivity|]. cbn. now rewrite IHs.
Qed.
Lemma marks_flat st l : marks_in st (flat_map events l) = flat_map (fun h => marks_in st (events h)) l.
Proof. induction l as [|h l IH]; [reflexivity|]. cbn [flat_map]. now rewrite marks_in_app, IH. Qed.
Lemma marks_from_iter l : marks (from_iter l) = flat_map marks l.
Proof. unfold marks. now rewrite from_iter_events, marks_flat. Qed.
Lemma marks_chars st s : marks_in st (List.map EChar s) = List.map (fun c => Mark c (List.hd [] st)) s.
Proof. induction s as [|c s IH]; [reflexivity|]. cbn. now rewrite IH. Qed.
Lemma marks_text s : marks (html_text s) = List.map (fun c => Mark c []) s.
Proof. unfold marks. now rewrite events_html_text, marks_chars. Qed.
Lemma marks_tag n a s : marks (HTag n a (html_text s)) = List.map (fun c => Mark c a) s.
Proof.
  unfold marks. cbn [events marks_in]. rewrite marks_in_app, events_html_text, marks_chars. cbn [marks_in List.hd].
  apply app_nil_r.
Qed.
Lemma visible_marks evs : forall st, visible evs = List.map m_char (marks_in st evs).
Proof. induction evs as [|[c|n a|n] evs IH]; intros st; cbn; [reflexivity|f_equal; apply IH|apply IH|apply IH]. Qed.
Lemma text_marks h : text_of h = List.map m_char (marks h).
Proof. apply visible_marks. Qed.

Definition is_url (k : hkind) : bool := match k with HUrl _ => true | _ => false end.
Lemma make_token_marks k s : is_url k = false -> marks (make_token k s 0) = List.map (fun c => Mark c (kind_attrs k)) s.
Proof. intros H. destruct k; try discriminate; cbn [make_token kind_attrs]; first [apply marks_text|apply marks_tag]. Qed.
Lemma make_paren_marks k s n : In k [HParenLeft; HParenRight] -> (0 < n)%N ->
  marks (make_token k s n) = List.map (fun c => Mark c (numbered k (dec n))) s.
Proof.
  intros H Hn. destruct (N.ltb_spec 0 n) as [L|L]; [|lia]. apply N.ltb_lt in L. clear Hn.
  destruct H as [<- |[<- |[]]]; cbn [make_token]; rewrite L; apply marks_tag.
Qed.

(** ** The state of the highlighter *)
Definition Pend (l : lh) (pre : str) (d : list mark) : Prop :=
  match lh_kind l with
  | None => d = flat_map marks (lh_parts l)
  | Some k => exists x sp, pre = x ++ sp /\ lh_a l = blen x /\ lh_b l = blen pre /\ is_url k = false /\
      d = flat_map marks (lh_parts l) ++ List.map (fun c => Mark c (kind_attrs k)) sp
  end.
Definition Same (l l' : lh) : Prop := lh_src l' = lh_src l /\ lh_stack l' = lh_stack l /\ lh_count l' = lh_count l.
Lemma same_refl l : Same l l.
Proof. repeat split. Qed.
Lemma same_trans a b c : Same a b -> Same b c -> Same a c.
Proof. unfold Same. intros (-> & -> & ->) (-> & -> & ->). auto. Qed.

Lemma get_span_eq src a b c : src = a ++ b ++ c -> get_span src (blen a) (blen a + blen b) = Ret b.
Proof. intros ->. apply get_span_spec. Qed.

Lemma close_part_ok l pre rest d : lh_src l = pre ++ rest -> Pend l pre d ->
  exists l', close_part l = Ret l' /\ lh_kind l' = None /\ flat_map marks (lh_parts l') = d /\ Same l l'.
Proof.
  intros Hs Hp. unfold close_part, Pend in *. destruct (lh_kind l) as [k|] eqn:Ek.
  - destruct Hp as (x & sp & -> & -> & -> & Hu & ->). rewrite <- app_assoc in Hs. rewrite blen_app, (get_span_eq _ _ _ _ Hs).
    cbn [obind]. eexists. split; [reflexivity|]. cbn [lh_kind lh_parts]. split; [reflexivity|]. split; [|repeat split].
    rewrite flat_map_app. cbn [flat_map]. now rewrite app_nil_r, make_token_marks.
  - exists l. subst d. split; [reflexivity|]. split; [exact Ek|]. split; [reflexivity|apply same_refl].
Qed.
Lemma hkind_eqb_eq a b : hkind_eqb a b = true <-> a = b.
Proof. unfold hkind_eqb. destruct (hkind_eq_dec a b); split; congruence. Qed.
Lemma pend_none l pre d : lh_kind l = None -> flat_map marks (lh_parts l) = d -> Pend l pre d.
Proof. intros H <-. unfold Pend. now rewrite H. Qed.

Lemma push_other_ok l pre s rest d k : lh_src l = pre ++ s ++ rest -> Pend l pre d -> is_url k = false ->
  exists l', push_other (blen pre) (blen pre + blen s) k l = Ret l' /\
    Pend l' (pre ++ s) (d ++ List.map (fun c => Mark c (kind_attrs k)) s) /\ Same l l'.
Proof.
  intros Hs Hp Hk. unfold push_other. destruct (Nat.leb_spec (blen pre + blen s) (blen pre)) as [Hl|Hl].
  - assert (s = []) as -> by (apply blen_0; lia). cbn. rewrite !app_nil_r. exists l. split; [reflexivity|].
    split; [exact Hp|apply same_refl].
  - destruct (match lh_kind l with Some k' => hkind_eqb k' k | None => false end) eqn:Em.
    + destruct (lh_kind l) as [k'|] eqn:Ek; [|discriminate]. apply hkind_eqb_eq in Em. subst k'.
      eexists. split; [reflexivity|]. split; [|repeat split].
      unfold Pend in Hp. rewrite Ek in Hp. destruct Hp as (x & sp & -> & Ea & Eb & Hu & ->).
      unfold Pend. cbn [lh_kind lh_a lh_b lh_parts]. exists x, (sp ++ s).
      rewrite !blen_app, map_app, !app_assoc. repeat split; auto.
    + destruct (close_part_ok _ _ _ _ Hs Hp) as (l' & -> & Hk' & Hd & (S1 & S2 & S3)). cbn [obind].
      eexists. split; [reflexivity|]. split; [|repeat split; auto].
      unfold Pend. cbn [lh_kind lh_a lh_b lh_parts]. exists pre, s. rewrite Hd, blen_app. auto.
Qed.

Lemma push_paren_ok l pre s rest d k n : lh_src l = pre ++ s ++ rest -> Pend l pre d -> In k [HParenLeft; HParenRight] -> (0 < n)%N ->
  exists l', push_with_paren_no (blen pre) (blen pre + blen s) k n l = Ret l' /\
    Pend l' (pre ++ s) (d ++ List.map (fun c => Mark c (numbered k (dec n))) s) /\ Same l l'.
Proof.
  intros Hs Hp Hk Hn. unfold push_with_paren_no.
  destruct (close_part_ok _ _ _ _ Hs Hp) as (l' & -> & Hk' & Hd & (S1 & S2 & S3)). cbn [obind].
  rewrite (get_span_eq (lh_src l') pre s rest) by (now rewrite S1). cbn [obind]. eexists. split; [reflexivity|].
  split; [|repeat split; auto]. unfold Pend. cbn [lh_kind lh_parts]. rewrite Hk', flat_map_app. cbn [flat_map].
  now rewrite app_nil_r, make_paren_marks, Hd.
Qed.

(** ** Links *)
Definition seg_text (x : str + char) : str := match x with inl u => u | inr c => [c] end.
Lemma links_text s l : Links s l -> flat_map seg_text l = s.
Proof. induction 1; [reflexivity| |cbn; congruence]. cbn. rewrite IHLinks. now rewrite <- !app_assoc. Qed.
Lemma url_char_spec c : is_url_char c = true <-> UrlChar c.
Proof.
  unfold is_url_char, UrlChar. change (c_of "'") with 39%N. change (c_of """") with 34%N. change (c_of "`") with 96%N.
  rewrite negb_true_iff, !orb_false_iff, !N.eqb_neq. tauto.
Qed.
Lemma forallb_url w : forallb is_url_char w = true <-> Forall UrlChar w.
Proof.
  rewrite forallb_forall, Forall_forall. split; intros H x Hx; apply url_char_spec; auto.
Qed.
Lemma url_len_some s n : url_len s = Some n -> exists h w rest, Scheme h /\ w <> [] /\ Forall UrlChar w /\
  (forall c t, rest = c :: t -> ~ UrlChar c) /\ s = h ++ lit "://" ++ w ++ rest /\ n = length (h ++ lit "://" ++ w).
Proof.
  unfold url_len. destruct (strip_prefix (lit "http") s) as [t|] eqn:E1; [|discriminate]. apply strip_prefix_spec in E1.
  assert (exists h t', Scheme h /\ s = h ++ t' /\ match strip_prefix (lit "s") t with Some t' => t' | None => t end = t') as (h & t' & Hh & Es & ->).
  { destruct (strip_prefix (lit "s") t) as [t'|] eqn:E2.
    - apply strip_prefix_spec in E2. exists (lit "https"), t'. split; [now right|]. split; [|reflexivity]. subst. reflexivity.
    - exists (lit "http"), t. split; [now left|]. auto. }
  destruct (strip_prefix (lit "://") t') as [u|] eqn:E3; [|discriminate]. apply strip_prefix_spec in E3.
  destruct (take_while is_url_char u) as [|c w] eqn:Ew; [discriminate|]. intros [= <-].
  exists h, (c :: w), (drop_while is_url_char u). split; [exact Hh|]. split; [discriminate|].
  split; [apply forallb_url; rewrite <- Ew; apply take_while_all|]. split.
  - intros x y Ex Hx. apply drop_while_head in Ex. apply url_char_spec in Hx. congruence.
  - rewrite <- Ew, take_drop_while, Es, E3. split; [reflexivity|].
    rewrite !app_length, ?Ew. cbn [length]. lia.
Qed.
Lemma url_len_none s : url_len s = None -> ~ UrlStart s.
Proof.
  unfold url_len. intros H (h & c & rest & [-> | ->] & -> & Hc); apply url_char_spec in Hc; cbn in H; rewrite Hc in H; discriminate.
Qed.
Lemma find_skip a : forall pos b, find_urls (length a) pos (a ++ b) = find_urls 0 (pos + blen a) b.
Proof.
  induction a as [|c a IH]; intros pos b; [cbn [length app blen]; now rewrite Nat.add_0_r|].
  cbn [length app find_urls blen]. rewrite IH. f_equal. lia.
Qed.
Fixpoint url_ranges (pos : nat) (l : list (str + char)) : list (nat * nat) :=
  match l with
  | [] => []
  | inl u :: l => (pos, pos + blen u) :: url_ranges (pos + blen u) l
  | inr c :: l => url_ranges (pos + utf8_len c) l
  end.
Definition seg_ok (x : str + char) : Prop := match x with inl u => u <> [] | inr _ => True end.
Lemma urls_spec n : forall s pos, length s <= n -> exists l, Links s l /\ Forall seg_ok l /\ find_urls 0 pos s = url_ranges pos l.
Proof.
  induction n as [|n IH]; intros s pos Hn.
  - destruct s; [|cbn in Hn; lia]. exists []. repeat constructor.
  - destruct s as [|c s]; [exists []; repeat constructor|]. cbn [find_urls]. cbn [length] in Hn.
    destruct (url_len (c :: s)) as [m|] eqn:Eu.
    + apply url_len_some in Eu. destruct Eu as (h & w & rest & Hh & Hw & Hu & Hr & Es & ->).
      set (u := h ++ lit "://" ++ w) in *. assert (Es' : c :: s = u ++ rest) by (rewrite Es; unfold u; now rewrite <- !app_assoc).
      assert (Hne : u <> []) by (unfold u; destruct Hh as [-> | ->]; discriminate).
      assert (Eq : u = h ++ lit "://" ++ w) by reflexivity. clearbody u.
      destruct u as [|c' u]; [congruence|]. cbn [app] in Es'. injection Es' as <- Es'.
      assert (length rest <= n) as Hl by (rewrite Es', app_length in Hn; lia).
      destruct (IH rest (pos + blen (c :: u)) Hl) as (l & Hl1 & Hl2 & Hl3). exists (inl (c :: u) :: l). split; [|split].
      * rewrite Es, Eq. apply L_url; auto.
      * constructor; [discriminate|auto].
      * cbn [length url_ranges]. replace (firstn (S (length u)) (c :: s)) with (c :: u).
        2: { cbn [firstn]. now rewrite Es', firstn_app, Nat.sub_diag, firstn_all, app_nil_r. }
        f_equal. cbn [Nat.sub]. rewrite Nat.sub_0_r, Es', find_skip, <- Hl3. f_equal. cbn [blen]. lia.
    + apply url_len_none in Eu. destruct (IH s (pos + utf8_len c) ltac:(lia)) as (l & H1 & H2 & H3).
      exists (inr c :: l). split; [now apply L_char|]. split; [now constructor|exact H3].
Qed.

Definition link_attrs (b : bool) (u : str) := (lit "href", Some u) :: if b then class_attr HComment else [].
Lemma push_url_ok l pre u rest d b : lh_src l = pre ++ u ++ rest -> Pend l pre d -> u <> [] ->
  exists l', obind (push_other (blen pre) (blen pre + blen u) (HUrl b) l) close_part = Ret l' /\
    lh_kind l' = None /\ flat_map marks (lh_parts l') = d ++ List.map (fun c => Mark c (link_attrs b u)) u /\ Same l l'.
Proof.
  intros Hs Hp Hu. unfold push_other. destruct (Nat.leb_spec (blen pre + blen u) (blen pre)) as [Hl|Hl].
  - destruct Hu. apply blen_0. lia.
  - replace (match lh_kind l with Some k' => hkind_eqb k' (HUrl b) | None => false end) with false.
    2: { unfold Pend in Hp. destruct (lh_kind l) as [k'|]; [|reflexivity]. destruct Hp as (x & sp & _ & _ & _ & Hk & _).
         destruct (hkind_eqb k' (HUrl b)) eqn:E; [|reflexivity]. apply hkind_eqb_eq in E. subst k'. discriminate. }
    destruct (close_part_ok _ _ _ _ Hs Hp) as (l' & -> & Hk' & Hd & (S1 & S2 & S3)). cbn [obind].
    unfold close_part. cbn [lh_kind lh_a lh_b lh_src lh_parts lh_stack lh_count].
    rewrite (get_span_eq _ pre u rest) by congruence. cbn [obind]. eexists. split; [reflexivity|]. split; [reflexivity|].
    split; [|repeat split; auto]. cbn [lh_parts]. rewrite flat_map_app, Hd. cbn [flat_map make_token].
    rewrite app_nil_r, marks_tag. destruct b; reflexivity.
Qed.
Lemma link_marks_url k u : In k [HComment; HString] ->
  link_marks k (inl u) = List.map (fun c => Mark c (link_attrs (hkind_eqb k HComment) u)) u.
Proof. intros [<- |[<- |[]]]; reflexivity. Qed.
Lemma push_urls_ok k start segs : In k [HComment; HString] -> Forall seg_ok segs -> forall l pre t rest d,
  lh_src l = pre ++ t ++ flat_map seg_text segs ++ rest -> Pend l pre d -> start <= blen pre ->
  exists l', push_urls (url_ranges (blen pre + blen t - start) segs) start (blen pre) (blen pre + blen t + blen (flat_map seg_text segs)) k
                       (HUrl (hkind_eqb k HComment)) l = Ret l' /\
    Pend l' (pre ++ t ++ flat_map seg_text segs) (d ++ List.map (fun c => Mark c (class_attr k)) t ++ flat_map (link_marks k) segs) /\
    Same l l'.
Proof.
  intros Hk Hok. assert (Hu : is_url k = false) by (destruct Hk as [<- |[<- |[]]]; reflexivity).
  assert (Hka : kind_attrs k = class_attr k) by (destruct Hk as [<- |[<- |[]]]; reflexivity).
  induction Hok as [|[u|c] segs Hx Hok IH]; intros l pre t rest d Hs Hp Hst; cbn [flat_map url_ranges push_urls].
  - cbn [blen]. rewrite !app_nil_r, Nat.add_0_r, <- Hka. eapply push_other_ok; eauto.
  - cbn [seg_text]. cbn [seg_text flat_map] in Hs. rewrite <- app_assoc in Hs.
    replace (start + (blen pre + blen t - start)) with (blen pre + blen t) by lia.
    replace (start + (blen pre + blen t - start + blen u)) with (blen (pre ++ t) + blen u) by (rewrite blen_app; lia).
    destruct (push_other_ok l pre t _ d k Hs Hp Hu) as (l1 & -> & Hp1 & Sm1). cbn [obind]. rewrite <- (blen_app pre t).
    assert (Hs1 : lh_src l1 = (pre ++ t) ++ u ++ flat_map seg_text segs ++ rest) by (destruct Sm1 as (-> & _); now rewrite Hs, <- app_assoc).
    destruct (push_url_ok l1 _ u _ _ (hkind_eqb k HComment) Hs1 Hp1 Hx) as (l2 & E2 & Hk2 & Hd2 & Sm2).
    destruct (push_other (blen (pre ++ t)) (blen (pre ++ t) + blen u) (HUrl (hkind_eqb k HComment)) l1) as [l1'| |]; try discriminate.
    cbn [obind] in E2 |- *. rewrite E2. cbn [obind].
    assert (Hs2 : lh_src l2 = (pre ++ t ++ u) ++ [] ++ flat_map seg_text segs ++ rest).
    { destruct Sm2 as (-> & _). now rewrite Hs1, <- !app_assoc. }
    destruct (IH l2 (pre ++ t ++ u) [] rest _ Hs2 (pend_none _ _ _ Hk2 Hd2)) as (l3 & E3 & Hp3 & Sm3).
    { rewrite blen_app. lia. }
    exists l3. split; [|split].
    + rewrite <- E3. cbn [blen]. rewrite !blen_app. f_equal; [f_equal|..]; try lia.
    + rewrite <- !app_assoc in Hp3. cbn [app List.map] in Hp3. rewrite link_marks_url by exact Hk. rewrite Hka in Hp3. exact Hp3.
    + eapply same_trans; [exact Sm1|]. eapply same_trans; [exact Sm2|exact Sm3].
  - cbn [seg_text]. cbn [seg_text flat_map app] in Hs.
    destruct (IH l pre (t ++ [c]) rest d) as (l' & E & Hp' & Sm); auto.
    { now rewrite <- app_assoc. }
    exists l'. split; [|split; [|exact Sm]].
    + rewrite <- E, !blen_app. cbn [blen]. f_equal; [f_equal|]; lia.
    + cbn [app link_marks]. rewrite map_app, <- !app_assoc in Hp'. exact Hp'.
Qed.

(** ** One chunk *)
Definition hstate := (list (char * N) * N)%type.
Inductive Step : hstate -> chunk -> list mark -> hstate -> Prop :=
| S_plain st s k : ~ In k [HComment; HString; HParenLeft; HParenRight] -> Step st (s, k) (List.map (fun c => Mark c (kind_attrs k)) s) st
| S_links st s k l : In k [HComment; HString] -> Links s l -> Step st (s, k) (flat_map (link_marks k) l) st
| S_left st n c d : Pair c d -> Step (st, n) ([c], HParenLeft) [Mark c (numbered HParenLeft (dec (n + 1)))] ((d, (n + 1)%N) :: st, (n + 1)%N)
| S_right st n d m : Step ((d, m) :: st, n) ([d], HParenRight) [Mark d (numbered HParenRight (dec m))] (st, n)
| S_stray st n d : (forall m st', st <> (d, m) :: st') -> Step (st, n) ([d], HParenRight) [Mark d (class_attr HParenUnmatched)] (st, n).
Definition stack_of (st : list (char * N)) : list (str * N) := List.map (fun x => ([fst x], snd x)) st.
Definition Pos (st : list (char * N)) : Prop := Forall (fun x => (0 < snd x)%N) st.
Lemma matching_paren_ok c d : Pair c d -> matching_paren [c] = Ret [d].
Proof. destruct 1; reflexivity. Qed.

Lemma lh_push_ok l pre s k rest d st : ProperChunk (s, k) -> lh_src l = pre ++ s ++ rest -> Pend l pre d ->
  lh_stack l = stack_of st -> Pos st ->
  exists l' ms st', lh_push (blen pre) (blen pre + blen s) k l = Ret l' /\ lh_src l' = lh_src l /\
    Pend l' (pre ++ s) (d ++ ms) /\ lh_stack l' = stack_of st' /\ Pos st' /\ Step (st, lh_count l) (s, k) ms (st', lh_count l').
Proof.
  intros Hc Hs Hp Hst Hpos. unfold lh_push. rewrite (get_span_eq _ _ _ _ Hs). cbn [obind].
  assert (Plain : is_url k = false -> ~ In k [HComment; HString; HParenLeft; HParenRight] ->
    exists l' ms st', push_other (blen pre) (blen pre + blen s) k l = Ret l' /\ lh_src l' = lh_src l /\
    Pend l' (pre ++ s) (d ++ ms) /\ lh_stack l' = stack_of st' /\ Pos st' /\ Step (st, lh_count l) (s, k) ms (st', lh_count l')).
  { intros Hu Hk. destruct (push_other_ok _ _ _ _ _ _ Hs Hp Hu) as (l' & E & P & (S1 & S2 & S3)).
    exists l', (List.map (fun c => Mark c (kind_attrs k)) s), st. rewrite S2, S3. repeat (split; [assumption|]).
    now apply S_plain. }
  assert (Links : In k [HComment; HString] ->
    exists l' ms st', push_urls (find_urls 0 0 s) (blen pre) (blen pre) (blen pre + blen s) k (HUrl (hkind_eqb k HComment)) l = Ret l' /\ lh_src l' = lh_src l /\
    Pend l' (pre ++ s) (d ++ ms) /\ lh_stack l' = stack_of st' /\ Pos st' /\ Step (st, lh_count l) (s, k) ms (st', lh_count l')).
  { intros Hk. destruct (urls_spec (length s) s 0 (le_n _)) as (segs & Hl & Hok & ->). pose proof (links_text _ _ Hl) as Ht.
    destruct (push_urls_ok k (blen pre) segs Hk Hok l pre [] rest d) as (l' & E & P & (S1 & S2 & S3)); auto.
    { cbn [app]. now rewrite Ht. }
    rewrite Ht in E, P. cbn [app blen List.map] in E, P. rewrite Nat.add_0_r, Nat.sub_diag in E.
    exists l', (flat_map (link_marks k) segs), st. rewrite S2, S3. repeat (split; [assumption|]). now apply S_links. }
  assert (Stray : k = HParenRight -> (forall m st', lh_stack l <> (s, m) :: st') ->
    exists l' ms st', push_other (blen pre) (blen pre + blen s) HParenUnmatched l = Ret l' /\ lh_src l' = lh_src l /\
    Pend l' (pre ++ s) (d ++ ms) /\ lh_stack l' = stack_of st' /\ Pos st' /\ Step (st, lh_count l) (s, k) ms (st', lh_count l')).
  { intros -> Hm. destruct Hc as (c & b & Es & Hcb). cbn [fst] in Es. subst s.
    destruct (push_other_ok l pre [b] rest d HParenUnmatched Hs Hp eq_refl) as (l' & E & P & (S1 & S2 & S3)).
    exists l', [Mark b (class_attr HParenUnmatched)], st. rewrite S2, S3. repeat (split; [assumption|]).
    apply S_stray. intros m st' ->. apply (Hm m (stack_of st')). exact Hst. }
  destruct k; try (apply Plain; [reflexivity|cbn; intuition discriminate]); try (apply Links; cbn; tauto); try destruct Hc.
  - (* left *)
    destruct H as (b & Es & Hcb). cbn [fst] in Es. subst s. rewrite (matching_paren_ok _ _ Hcb). cbn [obind].
    set (l0 := LH _ _ _ _ _ _ _).
    destruct (push_paren_ok l0 pre [x] rest d HParenLeft (lh_count l + 1)%N) as (l' & E & P & (S1 & S2 & S3)).
    { exact Hs. } { exact Hp. } { now left. } { lia. }
    exists l', [Mark x (numbered HParenLeft (dec (lh_count l + 1)))], ((b, (lh_count l + 1)%N) :: st).
    split; [exact E|]. split; [exact S1|]. split; [exact P|]. split; [rewrite S2; unfold l0; cbn [lh_stack stack_of List.map fst snd]; now rewrite Hst|].
    split; [constructor; [cbn; lia|exact Hpos]|]. rewrite S3. unfold l0. cbn [lh_count]. now apply S_left.
  - (* right *)
    destruct (lh_stack l) as [|[rpar n] stack] eqn:El; [apply Stray; [reflexivity|discriminate]|].
    destruct (str_eqb rpar s) eqn:Er; [|apply Stray; [reflexivity|intros m st' [= -> _ _]; rewrite str_eqb_refl in Er; discriminate]].
    apply str_eqb_eq in Er. subst rpar. destruct st as [|[b m] st]; [discriminate|]. cbn [stack_of List.map fst snd] in Hst.
    injection Hst as Es -> Hst. inversion Hpos as [|? ? Hm Hpos']; subst.
    destruct (push_paren_ok l pre [b] rest d HParenRight m Hs Hp) as (l' & -> & P & (S1 & S2 & S3)); [right; now left|exact Hm|].
    cbn [obind]. eexists _, [Mark b (numbered HParenRight (dec m))], st. split; [reflexivity|]. cbn [lh_src lh_stack lh_count].
    split; [exact S1|]. split; [exact P|]. split; [reflexivity|]. split; [exact Hpos'|]. rewrite S3. apply S_right.
Qed.

(** ** A sequence of chunks *)
Inductive Steps : hstate -> list chunk -> list (list mark) -> hstate -> Prop :=
| Ss_nil st : Steps st [] [] st
| Ss_cons st x ms st1 l mss st2 : Step st x ms st1 -> Steps st1 l mss st2 -> Steps st (x :: l) (ms :: mss) st2.
Lemma steps_app a ms b : forall l mss c, Steps a l ms b -> forall l', Steps b l' mss c -> Steps a (l ++ l') (ms ++ mss) c.
Proof. intros l mss c H. revert mss c. induction H; intros; cbn; [assumption|]. econstructor; eauto. Qed.
Lemma step_shown st x ms st' : Step st x ms st' -> ShownAs x ms.
Proof. destruct 1; constructor; auto. Qed.
Lemma steps_shown st l mss st' : Steps st l mss st' -> Forall2 ShownAs l mss.
Proof. induction 1; constructor; eauto using step_shown. Qed.

(** ** Single characters *)
Inductive CStep : hstate -> char * hkind -> mark -> hstate -> Prop :=
| C_left st n c d : Pair c d -> CStep (st, n) (c, HParenLeft) (Mark c (numbered HParenLeft (dec (n + 1)))) ((d, (n + 1)%N) :: st, (n + 1)%N)
| C_right st n d m : CStep ((d, m) :: st, n) (d, HParenRight) (Mark d (numbered HParenRight (dec m))) (st, n)
| C_stray st n d : (forall m st', st <> (d, m) :: st') -> CStep (st, n) (d, HParenRight) (Mark d (class_attr HParenUnmatched)) (st, n)
| C_other st c k a : k <> HParenLeft -> k <> HParenRight -> (forall k n, a <> numbered k n) -> CStep st (c, k) (Mark c a) st.
Inductive CSteps : hstate -> list (char * hkind) -> list mark -> hstate -> Prop :=
| CS_nil st : CSteps st [] [] st
| CS_cons st x m st1 l ms st2 : CStep st x m st1 -> CSteps st1 l ms st2 -> CSteps st (x :: l) (m :: ms) st2.
Lemma csteps_app a l ms b : CSteps a l ms b -> forall l' ms' c, CSteps b l' ms' c -> CSteps a (l ++ l') (ms ++ ms') c.
Proof. induction 1; intros; cbn; [assumption|]. econstructor; eauto. Qed.
Lemma csteps_same st k a s : k <> HParenLeft -> k <> HParenRight -> (forall k n, a <> numbered k n) ->
  CSteps st (List.map (fun c => (c, k)) s) (List.map (fun c => Mark c a) s) st.
Proof. intros H1 H2 H3. induction s as [|c s IH]; cbn; [constructor|]. econstructor; [|exact IH]. now constructor. Qed.
Lemma step_csteps st x ms st' : Step st x ms st' -> ProperChunk x -> CSteps st (chars [x]) ms st'.
Proof.
  unfold chars. destruct 1 as [st s k Hk|st s k l Hk Hl|st n c d Hp|st n d m|st n d Hn]; intros Hc; cbn [flat_map fst snd]; rewrite app_nil_r.
  - apply csteps_same; [intros ->; apply Hk; cbn; tauto..|]. destruct k; intros k' n; unfold numbered, class_attr, kind_attrs; discriminate.
  - assert (Hk' : k <> HParenLeft /\ k <> HParenRight) by (destruct Hk as [<- |[<- |[]]]; split; discriminate).
    destruct Hk' as [K1 K2]. clear Hc. induction Hl as [|h w rest l Hh Hw Hu Hr Hl IH|c rest l Hc Hl IH]; [constructor| |].
    + cbn [flat_map]. rewrite !(app_assoc (lit "://")), app_assoc, map_app. eapply csteps_app; [|exact IH]. cbn [link_marks].
      apply csteps_same; auto. intros k' n. unfold numbered, class_attr. destruct k; discriminate.
    + cbn [flat_map link_marks List.map app]. econstructor; [|exact IH]. apply C_other; auto. intros k' n. discriminate.
  - repeat econstructor. exact Hp.
  - repeat econstructor.
  - repeat econstructor. exact Hn.
Qed.
Lemma chars_cons x l : chars (x :: l) = chars [x] ++ chars l.
Proof. unfold chars. cbn [flat_map]. now rewrite app_nil_r. Qed.
Lemma chars_app l l' : chars (l ++ l') = chars l ++ chars l'.
Proof. apply flat_map_app. Qed.
Lemma steps_csteps st l mss st' : Steps st l mss st' -> Forall ProperChunk l -> CSteps st (chars l) (List.concat mss) st'.
Proof.
  induction 1; intros H1; [constructor|]. inversion H1; subst. rewrite chars_cons. cbn [List.concat].
  eapply csteps_app; [eapply step_csteps; eassumption|auto].
Qed.

(** ** Matching brackets *)
Lemma inside_snoc_other d l : Inside d l -> forall c k, k <> HParenLeft -> k <> HParenRight -> Inside d (l ++ [(c, k)]).
Proof.
  induction 1; intros c' k' HA HB; cbn [app].
  - repeat constructor; auto.
  - apply In_other; auto.
  - apply In_stray; auto.
  - rewrite <- app_assoc. apply In_pair; auto.
Qed.
Lemma inside_snoc_stray d l : Inside d l -> forall c, c <> d -> Inside d (l ++ [(c, HParenRight)]).
Proof.
  induction 1; intros c' HA; cbn [app].
  - apply In_stray; [auto|constructor].
  - apply In_other; auto.
  - apply In_stray; auto.
  - rewrite <- app_assoc. apply In_pair; auto.
Qed.
Lemma inside_snoc_pair d l : Inside d l -> forall c e inner, Pair c e -> Inside e inner ->
  Inside d (l ++ (c, HParenLeft) :: inner ++ [(e, HParenRight)]).
Proof.
  induction 1; intros c' e' inner' HA HB; cbn [app].
  - apply In_pair; auto. constructor.
  - apply In_other; auto.
  - apply In_stray; auto.
  - rewrite <- app_assoc. apply In_pair; auto.
Qed.
Lemma csteps_app_inv l1 : forall a l2 ms c, CSteps a (l1 ++ l2) ms c ->
  exists m1 m2 b, ms = m1 ++ m2 /\ CSteps a l1 m1 b /\ CSteps b l2 m2 c.
Proof.
  induction l1 as [|x l1 IH]; intros a l2 ms c H; cbn [app] in H.
  - exists [], ms, a. repeat split; auto. constructor.
  - inversion H as [|? ? m st1 ? ms' ? Hx Hl]; subst. destruct (IH _ _ _ _ Hl) as (m1 & m2 & b & -> & H1 & H2).
    exists (m :: m1), m2, b. repeat split; auto. econstructor; eauto.
Qed.
Lemma csteps_length a l ms b : CSteps a l ms b -> length ms = length l.
Proof. induction 1; cbn; auto. Qed.
Lemma pair_fun c d d' : Pair c d -> Pair c d' -> d = d'.
Proof. destruct 1; inversion 1; reflexivity. Qed.
(** The inside of a pair of brackets leaves the stack as it was. *)
Lemma inside_steps d l : Inside d l -> forall m st n ms st', CSteps ((d, m) :: st, n) l ms st' -> fst st' = (d, m) :: st.
Proof.
  induction 1 as [d|d c k l K1 K2 Hl IH|d c l Hc Hl IH|d c e inner l Hp Hi IHi Hl IH]; intros m st n ms st' H.
  - inversion H; subst. reflexivity.
  - inversion H as [|? ? ? ? ? ? ? Hx Hr]; subst. inversion Hx; subst; try congruence. eapply IH; exact Hr.
  - inversion H as [|? ? ? ? ? ? ? Hx Hr]; subst. inversion Hx; subst; try congruence. eapply IH; exact Hr.
  - inversion H as [|? ? ? ? ? ? ? Hx Hr]; subst. inversion Hx as [? ? ? e' Hp'| | |]; subst; try congruence.
    assert (e' = e) as -> by (eapply pair_fun; eauto).
    apply csteps_app_inv in Hr. destruct Hr as (m1 & m2 & [sti ni] & -> & H1 & H2). apply IHi in H1. cbn [fst] in H1. subst sti.
    inversion H2 as [|? ? ? ? ? ? ? Hy Hr]; subst. inversion Hy as [|? ? ? ? | ? ? ? Hno|]; subst; try congruence.
    + eapply IH; exact Hr.
    + destruct (Hno _ _ eq_refl).
Qed.

(** What the stack says about the characters read so far: [pos m] is where the bracket with the number [m] is. *)
Inductive Stacked (ms : list mark) : list (char * hkind) -> list (char * N) -> Prop :=
| Sk_nil p : Stacked ms p []
| Sk_cons p c d m st mid : Stacked ms p st -> Pair c d -> nth_error ms (length p) = Some (Mark c (numbered HParenLeft (dec m))) ->
    Inside d mid -> Stacked ms (p ++ (c, HParenLeft) :: mid) ((d, m) :: st).
Lemma stacked_more ms p st : Stacked ms p st -> forall x, nth_error (ms ++ [x]) (length p) = nth_error (ms ++ [x]) (length p) -> Stacked (ms ++ [x]) p st.
Proof.
  induction 1 as [|p c d m st mid H IH Hp Hn Hi]; intros x _; [constructor|]. constructor; auto.
  rewrite nth_error_app1; [exact Hn|]. apply nth_error_Some. congruence.
Qed.
Lemma stacked_other ms p st : Stacked ms p st -> forall x, 
  (forall d mid, (exists m st', st = (d, m) :: st') -> Inside d mid -> Inside d (mid ++ x)) -> Stacked ms (p ++ x) st.
Proof.
  destruct 1 as [|p c d m st mid H Hp Hn Hi]; intros x Hx; [constructor|]. rewrite <- app_assoc. cbn [app]. constructor; auto.
  apply Hx; eauto.
Qed.
(** [l] and [ms] are read and written so far, in the state [st]. *)
Lemma stacked_step ms l st n x m st' : Stacked ms l st -> length ms = length l -> CStep (st, n) x m st' ->
  Stacked (ms ++ [m]) (l ++ [x]) (fst st') /\
  (forall c k, m = Mark c (numbered HParenRight k) -> exists i, Matching (l ++ [x]) i (length l) /\ HasNumber HParenLeft (ms ++ [m]) i k).
Proof.
  intros H Hl Hx. pose proof (stacked_more _ _ _ H m eq_refl) as H'.
  inversion Hx as [st0 n0 c d Hp|st0 n0 d k|st0 n0 d Hno|st0 c k a K1 K2 Ha]; subst; cbn [fst].
  - split; [|intros c' k' [=]]. change [(c, HParenLeft)] with ((c, HParenLeft) :: []). constructor; auto; [|constructor].
    rewrite nth_error_app2, Hl, Nat.sub_diag by lia. reflexivity.
  - inversion H' as [|p c ? ? ? mid Hs Hp Hn Hi]; subst. split.
    + rewrite <- app_assoc. apply stacked_other; [exact Hs|]. intros d' mid' _ Hm. apply inside_snoc_pair; auto.
    + intros c' k' [= <- Hk].
      exists (length p). split.
      * exists p, c, mid, d, []. rewrite <- !app_assoc. cbn [app]. rewrite app_length. cbn [length]. repeat split; auto. lia.
      * exists c. rewrite Hn. now rewrite Hk.
  - split; [|intros c' k' [=]]. apply stacked_other; [exact H'|]. intros d' mid (m & st' & ->) Hm.
    apply inside_snoc_stray; auto. intros ->. now apply (Hno m st').
  - split; [|intros c' k' [= -> ->]; now destruct (Ha HParenRight k')]. apply stacked_other; [exact H'|].
    intros d' mid _ Hm. apply inside_snoc_other; auto.
Qed.
Lemma matching_app l i j x : Matching l i j -> Matching (l ++ x) i j.
Proof.
  intros (a & c & mid & d & b & -> & Hi & Hj & Hp & Hin). exists a, c, mid, d, (b ++ x).
  rewrite <- app_assoc. cbn [app]. rewrite <- app_assoc. cbn [app]. auto.
Qed.
Lemma number_app k ms i n x : HasNumber k ms i n -> HasNumber k (ms ++ x) i n.
Proof. intros (c & H). exists c. rewrite nth_error_app1; [exact H|]. apply nth_error_Some. congruence. Qed.
Lemma number_snoc k ms i n x : HasNumber k (ms ++ [x]) i n -> HasNumber k ms i n \/ (i = length ms /\ exists c, x = Mark c (numbered k n)).
Proof.
  intros (c & H). destruct (Nat.lt_ge_cases i (length ms)) as [L|L].
  - rewrite nth_error_app1 in H by exact L. left. now exists c.
  - rewrite nth_error_app2 in H by exact L. right. destruct (i - length ms) as [|k'] eqn:E; [|destruct k'; discriminate].
    cbn in H. injection H as ->. split; [lia|]. now exists c.
Qed.
Lemma csteps_snoc l : forall a ms c, CSteps a l ms c -> l = [] /\ ms = [] /\ c = a \/
  exists l' x ms' m b, l = l' ++ [x] /\ ms = ms' ++ [m] /\ CSteps a l' ms' b /\ CStep b x m c.
Proof.
  induction l as [|x l IH]; intros a ms c H; [left; inversion H; auto|]. right.
  inversion H as [|? ? m st1 ? ms' ? Hx Hr]; subst. destruct (IH _ _ _ Hr) as [(-> & -> & ->)|(l' & y & ms2 & m2 & b & -> & -> & H1 & H2)].
  - exists [], x, [], m, a. repeat split; auto. constructor.
  - exists (x :: l'), y, (m :: ms2), m2, b. repeat split; auto. econstructor; eauto.
Qed.
Lemma numbered_inj k n n' : numbered k n = numbered k n' -> n = n'.
Proof. unfold numbered. intros H. apply app_inv_head in H. now injection H. Qed.
Lemma numbered_kind n n' : numbered HParenLeft n <> numbered HParenRight n'.
Proof. unfold numbered, class_attr. cbn [class_name]. intros H. injection H as H _. discriminate. Qed.
Lemma brackets_inv k : forall l ms st n, length l = k -> CSteps ([], 0%N) l ms (st, n) ->
  Stacked ms l st /\
  (forall i s, HasNumber HParenLeft ms i s -> exists m, s = dec m /\ (m <= n)%N) /\
  (forall i i' s, HasNumber HParenLeft ms i s -> HasNumber HParenLeft ms i' s -> i = i') /\
  (forall i c, nth_error l i = Some (c, HParenLeft) -> exists s, HasNumber HParenLeft ms i s) /\
  (forall j s, HasNumber HParenRight ms j s -> exists i, Matching l i j /\ HasNumber HParenLeft ms i s).
Proof.
  induction k as [|k IH]; intros l ms st n Hk H.
  - destruct l; [|discriminate]. inversion H; subst. assert (Z : forall k i s, ~ HasNumber k [] i s) by (intros k i s (c & E); destruct i; discriminate).
    split; [constructor|]. split; [intros i s E; now apply Z in E|]. split; [intros i i' s E; now apply Z in E|].
    split; [intros [|i] c E; discriminate|]. intros j s E; now apply Z in E.
  - apply csteps_snoc in H. destruct H as [(-> & -> & E)|(l' & x & ms' & m & [st0 n0] & -> & -> & H & Hx)]; [discriminate|].
    assert (Hk' : length l' = k) by (rewrite app_length in Hk; cbn in Hk; lia).
    destruct (IH _ _ _ _ Hk' H) as (I1 & I2 & I3 & I4 & I5). pose proof (csteps_length _ _ _ _ H) as Hl.
    destruct (stacked_step _ _ _ _ _ _ _ I1 Hl Hx) as [J1 J2]. split; [exact J1|].
    assert (New : forall s c, m = Mark c (numbered HParenLeft s) -> s = dec (n0 + 1) /\ n = (n0 + 1)%N).
    { intros s c Em. inversion Hx as [? ? ? ? ?|? ? ? ?|? ? ? ?|? ? ? ? ? ? Ha]; subst.
      - match goal with E : Mark _ _ = Mark _ _ |- _ => injection E as _ Es end. auto.
      - discriminate.
      - discriminate.
      - match goal with E : Mark _ _ = Mark _ _ |- _ => injection E as _ Es end. now apply Ha in Es. }
    assert (Le : (n0 <= n)%N) by (inversion Hx; subst; lia).
    split; [|split; [|split]].
    + intros i s Hn. apply number_snoc in Hn. destruct Hn as [Hn|(-> & c & Em)].
      * destruct (I2 _ _ Hn) as (m' & -> & L). exists m'. split; [reflexivity|lia].
      * destruct (New _ _ Em) as [-> ->]. exists (n0 + 1)%N. split; [reflexivity|lia].
    + intros i i' s H1 H2. apply number_snoc in H1, H2. destruct H1 as [H1|(-> & c & Em)], H2 as [H2|(-> & c' & Em')]; auto.
      * eauto.
      * exfalso. destruct (I2 _ _ H1) as (m1 & -> & L). destruct (New _ _ Em') as [E _]. apply dec_inj in E. lia.
      * exfalso. destruct (I2 _ _ H2) as (m1 & -> & L). destruct (New _ _ Em) as [E _]. apply dec_inj in E. lia.
    + intros i c E. destruct (Nat.lt_ge_cases i (length l')) as [L|L].
      * rewrite nth_error_app1 in E by exact L. destruct (I4 _ _ E) as (s & Hs). exists s. now apply number_app.
      * rewrite nth_error_app2 in E by exact L. destruct (i - length l') as [|q] eqn:Eq; [|destruct q; discriminate].
        cbn in E. injection E as ->. assert (i = length ms') as -> by lia.
        inversion Hx as [? ? ? ? ?|? ? ? ?|? ? ? ?|? ? ? ? K1 K2 Ha]; subst; [|congruence].
        exists (dec (n0 + 1)), c. now rewrite nth_error_app2, Nat.sub_diag by lia.
    + intros j s Hn. apply number_snoc in Hn. destruct Hn as [Hn|(-> & c & Em)].
      * destruct (I5 _ _ Hn) as (i & M & N1). exists i. split; [now apply matching_app|now apply number_app].
      * destruct (J2 _ _ Em) as (i & M & N1). exists i. rewrite Hl. auto.
Qed.
Lemma brackets_numbered l ms st : CSteps ([], 0%N) l ms st -> BracketsNumbered l ms.
Proof.
  intros H. destruct st as [st n]. destruct (brackets_inv _ _ _ _ _ eq_refl H) as (_ & _ & I3 & I4 & I5).
  split; [exact I3|]. split; [exact I4|]. intros i j. split.
  - intros (a & c & mid & d & b & -> & -> & -> & Hp & Hin).
    apply csteps_app_inv in H. destruct H as (m1 & m2 & [st1 n1] & -> & H1 & H2). pose proof (csteps_length _ _ _ _ H1) as L1.
    inversion H2 as [|? ? m ? ? ms' ? Hx Hr]; subst. inversion Hx as [? ? ? d' Hp'| | |]; subst; try congruence.
    assert (d' = d) as -> by (eapply pair_fun; eauto). apply csteps_app_inv in Hr. destruct Hr as (m3 & m4 & [st3 n3] & -> & H3 & H4).
    pose proof (csteps_length _ _ _ _ H3) as L3. pose proof (inside_steps _ _ Hin _ _ _ _ _ H3) as E. cbn [fst] in E. subst st3.
    inversion H4 as [|? ? m ? ? ms' ? Hy Hr]; subst. exists (dec (n1 + 1)). split.
    + exists c. rewrite nth_error_app2, L1, Nat.sub_diag by lia. reflexivity.
    + inversion Hy as [|? ? ? ? | ? ? ? Hno|]; subst; try congruence; try (now destruct (Hno _ _ eq_refl)).
      exists d. rewrite nth_error_app2 by lia.
      replace (length a + 1 + length mid - length m1) with (S (length m3)) by lia. cbn [nth_error].
      rewrite nth_error_app2, Nat.sub_diag by lia. reflexivity.
  - intros (s & N1 & N2). destruct (I5 _ _ N2) as (i' & M & N3). now rewrite (I3 _ _ _ N1 N3).
Qed.

(** ** Lines *)
Lemma take_line_ok l pre rest d : lh_src l = pre ++ rest -> Pend l pre d ->
  exists h l', take_line l = Ret (h, l') /\ marks h = d /\ Same l l' /\ lh_kind l' = None /\ lh_parts l' = [].
Proof.
  intros Hs Hp. unfold take_line. destruct (close_part_ok _ _ _ _ Hs Hp) as (l' & -> & Hk & Hd & (S1 & S2 & S3)). cbn [obind].
  eexists _, _. split; [reflexivity|]. rewrite marks_from_iter. split; [exact Hd|]. repeat split; auto.
Qed.
Lemma push_ranges_ok cs : Forall ProperChunk cs -> forall pos rs l pre rest d st, Cut pos cs rs -> pos = blen pre ->
  lh_src l = pre ++ chunks_text cs ++ rest -> Pend l pre d -> lh_stack l = stack_of st -> Pos st ->
  exists l' mss st', push_ranges rs l = Ret l' /\ lh_src l' = lh_src l /\ Pend l' (pre ++ chunks_text cs) (d ++ List.concat mss) /\
    lh_stack l' = stack_of st' /\ Pos st' /\ Steps (st, lh_count l) cs mss (st', lh_count l').
Proof.
  induction 1 as [|[s k] cs Hc Hcs IH]; intros pos rs l pre rest d st Hcut -> Hs Hp Hst Hpos.
  - inversion Hcut; subst. exists l, [], st. cbn. rewrite !app_nil_r. repeat (split; [assumption || reflexivity|]). constructor.
  - inversion Hcut as [|? ? ? ? rs' Hcut']; subst. unfold chunks_text in *. cbn [flat_map fst] in Hs |- *. rewrite <- app_assoc in Hs.
    fold (chunks_text cs) in *. cbn [push_ranges]. destruct (Nat.leb_spec (blen pre + blen s) (blen pre)) as [Hl|Hl].
    + assert (s = []) as -> by (apply blen_0; lia). cbn [app blen] in *. rewrite Nat.add_0_r in Hcut'.
      destruct (IH _ _ _ _ _ _ _ Hcut' eq_refl Hs Hp Hst Hpos) as (l' & mss & st' & E & Sr & P & T & Po & St).
      exists l', ([] :: mss), st'. repeat (split; [assumption|]). econstructor; [|exact St].
      destruct (In_dec hkind_eq_dec k [HComment; HString; HParenLeft; HParenRight]) as [Hi|Hi].
      * destruct Hi as [<- |[<- |[<- |[<- |[]]]]]; try (destruct Hc as (c & b & E' & _); discriminate);
          (change (@nil mark) with (flat_map (link_marks HComment) []); apply S_links; [cbn; tauto|constructor]) ||
          (change (@nil mark) with (flat_map (link_marks HString) []); apply S_links; [cbn; tauto|constructor]).
      * exact (S_plain (st, lh_count l) [] k Hi).
    + destruct (lh_push_ok l pre s k (chunks_text cs ++ rest) d st Hc Hs Hp Hst Hpos) as (l1 & ms & st1 & -> & Sr1 & P1 & T1 & Po1 & St1).
      cbn [obind]. rewrite <- blen_app in Hcut'.
      assert (Hs1 : lh_src l1 = (pre ++ s) ++ chunks_text cs ++ rest) by (rewrite Sr1, Hs; now rewrite <- app_assoc).
      destruct (IH _ _ _ _ _ _ _ Hcut' eq_refl Hs1 P1 T1 Po1) as (l' & mss & st' & E & Sr & P & T & Po & St).
      exists l', (ms :: mss), st'. split; [exact E|]. split; [congruence|]. cbn [List.concat]. rewrite <- !app_assoc in P.
      split; [exact P|]. split; [exact T|]. split; [exact Po|]. econstructor; eauto.
Qed.

Lemma highlight_lines_ok css gs : Forall2 LineGiven css gs -> Forall (Forall ProperChunk) css -> forall l st,
  lh_kind l = None -> lh_parts l = [] -> lh_stack l = stack_of st -> Pos st ->
  exists out msss st', highlight_lines (combine (List.map chunks_text css) gs) l = Ret out /\
    Steps (st, lh_count l) (List.concat css) (List.concat msss) st' /\
    Forall2 (fun h mss => marks h = List.concat mss) out msss /\ Forall2 (Forall2 ShownAs) css msss.
Proof.
  induction 1 as [|cs g css gs Hg Hgs IH]; intros Hpr l st Hk Hpa Hst Hpos.
  - exists [], [], (st, lh_count l). repeat constructor.
  - inversion Hpr as [|? ? Hc Hpr']; subst. cbn [List.map combine highlight_lines]. set (l0 := LH _ _ _ _ _ _ _).
    destruct g as [rs|].
    + assert (Hp0 : Pend l0 [] []) by (unfold Pend, l0; cbn [lh_kind lh_parts]; now rewrite Hk, Hpa).
      destruct (push_ranges_ok cs Hc 0 rs l0 [] [] [] st Hg eq_refl) as (l1 & mss & st1 & -> & Sr & P & T & Po & St); auto.
      { unfold l0. cbn. now rewrite app_nil_r. }
      cbn [obind]. cbn [app] in P. destruct (take_line_ok l1 (chunks_text cs) [] (List.concat mss)) as (h & l2 & -> & Hh & (S1 & S2 & S3) & Hk2 & Hp2); [|exact P|].
      { rewrite Sr. unfold l0. cbn. now rewrite app_nil_r. }
      cbn [obind fst snd]. destruct (IH Hpr' l2 st1 Hk2 Hp2) as (out & msss & st' & -> & Ss & F1 & F2); [now rewrite S2|exact Po|].
      cbn [obind]. exists (h :: out), (mss :: msss), st'. split; [reflexivity|]. cbn [List.concat]. split; [|split; constructor; auto].
      * eapply steps_app; [exact St|]. rewrite S3 in Ss. exact Ss.
      * eapply steps_shown. exact St.
    + destruct Hg as (line & ->). destruct (IH Hpr' l0 st) as (out & msss & st' & E & Ss & F1 & F2); auto. rewrite E.
      cbn [obind]. exists (html_text (chunks_text [(line, HPlain)]) :: out), ([List.map (fun c => Mark c []) line] :: msss), st'.
      split; [reflexivity|]. cbn [List.concat app chunks_text flat_map fst]. split; [|split; constructor; auto].
      * econstructor; [|exact Ss]. apply (S_plain _ line HPlain). cbn. intuition discriminate.
      * rewrite marks_text. cbn [List.concat]. now rewrite !app_nil_r.
      * constructor; [|constructor]. apply (SA_plain line HPlain). cbn. intuition discriminate.
Qed.
Lemma shown_lines css out msss : Forall2 (Forall2 ShownAs) css msss -> Forall2 (fun h mss => marks h = List.concat mss) out msss ->
  Forall2 LineShown css out /\ flat_map marks out = List.concat (List.concat msss).
Proof.
  intros H. revert out. induction H as [|cs mss css msss Hx H IH]; intros out Ho; inversion Ho as [|h ? out' ? Hh Ho']; subst.
  - split; [constructor|reflexivity].
  - destruct (IH _ Ho') as [I1 I2]. split.
    + constructor; [now exists mss|exact I1].
    + cbn [flat_map List.concat]. now rewrite Hh, I2, concat_app.
Qed.
Lemma proper_concat css : Forall (Forall ProperChunk) css -> Forall ProperChunk (List.concat css).
Proof. induction 1; cbn; [constructor|]. apply Forall_app; auto. Qed.
Lemma highlight_lines_spec css gs src : Forall2 LineGiven css gs -> Forall (Forall ProperChunk) css ->
  exists out, highlight_lines (combine (List.map chunks_text css) gs) (lh_new src) = Ret out /\ Highlighted css out.
Proof.
  intros Hg Hp. destruct (highlight_lines_ok css gs Hg Hp (lh_new src) []) as (out & msss & st' & E & Ss & F1 & F2); try reflexivity; [constructor|].
  exists out. split; [exact E|]. destruct (shown_lines _ _ _ F2 F1) as [H1 H2]. split; [exact H1|]. rewrite H2.
  eapply brackets_numbered, steps_csteps; [exact Ss|now apply proper_concat].
Qed.

(** ** Text *)
Lemma shown_text x ms : ShownAs x ms -> List.map m_char ms = fst x.
Proof.
  destruct 1 as [s k Hk|s k l Hk Hl| | |]; cbn [List.map m_char fst]; try reflexivity.
  - rewrite map_map. cbn. apply map_id.
  - rewrite <- (links_text _ _ Hl). clear. induction l as [|x l IH]; [reflexivity|]. cbn [flat_map]. rewrite map_app, IH. f_equal.
    destruct x; [|reflexivity]. cbn [link_marks seg_text]. rewrite map_map. apply map_id.
Qed.
Lemma line_text cs h : LineShown cs h -> text_of h = chunks_text cs.
Proof.
  intros (mss & H & E). rewrite text_marks, E. clear E. induction H as [|x ms cs mss Hx H IH]; [reflexivity|].
  cbn [List.concat chunks_text flat_map]. rewrite map_app, IH. f_equal. now apply shown_text.
Qed.
Lemma lines_text css out : Forall2 LineShown css out -> List.map text_of out = List.map chunks_text css.
Proof. induction 1; cbn; [reflexivity|]. f_equal; [now apply line_text|assumption]. Qed.

(** ** Papyri *)
Inductive LinesTo : list mark -> list (list chunk) -> hstate -> list html -> list mark -> hstate -> Prop :=
| LT_one d line mss st st' : Steps st line mss st' -> LinesTo d [line] st [] (d ++ List.concat mss) st'
| LT_more d line mss st st1 h ls done d' st' : Steps st line mss st1 -> marks h = d ++ List.concat mss ->
    LinesTo [] ls st1 done d' st' -> LinesTo d (line :: ls) st (h :: done) d' st'.
Fixpoint glue (a b : list (list chunk)) : list (list chunk) :=
  match a with
  | [] => b
  | [x] => match b with [] => [x] | y :: b => (x ++ y) :: b end
  | x :: a => x :: glue a b
  end.
Lemma glue_cons x y a b : glue (x :: y :: a) b = x :: glue (y :: a) b.
Proof. reflexivity. Qed.
Lemma lines_to_nonempty d ls st done d' st' : LinesTo d ls st done d' st' -> ls <> [].
Proof. destruct 1; discriminate. Qed.
Lemma lines_to_glue d a st done d1 st1 : LinesTo d a st done d1 st1 -> forall b done' d' st', LinesTo d1 b st1 done' d' st' ->
  LinesTo d (glue a b) st (done ++ done') d' st'.
Proof.
  induction 1 as [d line mss st st1 Hs|d line mss st st1 h ls done d1 st2 Hs Hh Hl IH]; intros b done' d' st' Hb.
  - cbn [app]. inversion Hb as [? line2 mss2 ? ? Hs2|? line2 mss2 ? st3 h2 ls2 done2 ? ? Hs2 Hh2 Hl2]; subst; cbn [glue].
    + rewrite <- app_assoc, <- concat_app. apply LT_one. eapply steps_app; eauto.
    + eapply LT_more; [eapply steps_app; eauto| |exact Hl2]. now rewrite Hh2, concat_app, app_assoc.
  - pose proof (lines_to_nonempty _ _ _ _ _ _ Hl) as Hn. destruct ls as [|y ls]; [congruence|]. rewrite glue_cons.
    cbn [app]. eapply LT_more; eauto.
Qed.
Lemma lines_to_shown d ls st done d' st' : LinesTo d ls st done d' st' -> d = [] -> forall h, marks h = d' ->
  exists msss, Forall2 (Forall2 ShownAs) ls msss /\ Forall2 (fun h mss => marks h = List.concat mss) (done ++ [h]) msss /\
    Steps st (List.concat ls) (List.concat msss) st'.
Proof.
  induction 1 as [d line mss st st1 Hs|d line mss st st1 h ls done d1 st2 Hs Hh Hl IH]; intros -> h' Hh'.
  - exists [mss]. repeat constructor; [eapply steps_shown; eauto|exact Hh'|]. cbn. now rewrite !app_nil_r.
  - destruct (IH eq_refl h' Hh') as (msss & F1 & F2 & Ss). exists (mss :: msss). cbn [app List.concat].
    split; [constructor; [eapply steps_shown; eauto|exact F1]|]. split; [constructor; assumption|]. eapply steps_app; eauto.
Qed.

Lemma split_nl_spec s : join_lines (split_nl s) = s /\ Forall (fun p => ~ In 10%N p) (split_nl s) /\ split_nl s <> [].
Proof.
  induction s as [|c s (J & F & N)]; cbn [split_nl]; [repeat constructor; auto; discriminate|].
  destruct (N.eqb_spec c 10) as [-> |Hc].
  - split; [|split; [constructor; [intros []|exact F]|discriminate]]. cbn [join_lines]. destruct (split_nl s); [congruence|]. cbn [app].
    now rewrite J.
  - destruct (split_nl s) as [|x xs]; [congruence|]. inversion F; subst. split; [|split; [constructor; auto; intros [E|E]; congruence|discriminate]].
    cbn [join_lines] in *. destruct xs; reflexivity.
Qed.
Lemma chunk_lines_nonempty cs ls : ChunkLines cs ls -> ls <> [].
Proof. destruct 1; discriminate. Qed.
Lemma chunk_lines_glue k parts : forall p cs ls, Forall (fun p => ~ In 10%N p) (p :: parts) -> ChunkLines cs ls ->
  ChunkLines ((join_lines (p :: parts), k) :: cs) (glue (List.map (fun p => [(p, k)]) (p :: parts)) ls).
Proof.
  induction parts as [|q parts IH]; intros p cs ls F H; inversion F as [|? ? Fp F']; subst.
  - cbn [join_lines List.map glue]. pose proof (chunk_lines_nonempty _ _ H). destruct ls as [|l ls]; [congruence|]. cbn [app]. now constructor.
  - cbn [List.map]. rewrite glue_cons. change (join_lines (p :: q :: parts)) with (p ++ 10%N :: join_lines (q :: parts)).
    apply CL_break; [exact Fp|]. now apply (IH q).
Qed.

Lemma push_parts_true p parts cur k l out :
  push_parts (p :: parts) cur true k l out =
  obind (obind (get_span (lh_src l) (cur - 1) cur) (fun s =>
             if str_eqb s [10%N] then obind (take_line l) (fun r => Ret (snd r, out ++ [fst r])) else Panic))
        (fun r => push_parts (p :: parts) cur false k (fst r) (snd r)).
Proof. cbn [push_parts]. destruct (obind (get_span _ _ _) _) as [[l' out']| |]; reflexivity. Qed.
Lemma push_parts_ok k parts : forall p l out pre rest d st, Forall (fun p => ProperChunk (p, k)) (p :: parts) ->
  lh_src l = pre ++ join_lines (p :: parts) ++ rest -> Pend l pre d -> lh_stack l = stack_of st -> Pos st ->
  exists l' done d' st', push_parts (p :: parts) (blen pre) false k l out = Ret (l', out ++ done) /\ lh_src l' = lh_src l /\
    LinesTo d (List.map (fun p => [(p, k)]) (p :: parts)) (st, lh_count l) done d' (st', lh_count l') /\
    Pend l' (pre ++ join_lines (p :: parts)) d' /\ lh_stack l' = stack_of st' /\ Pos st'.
Proof.
  induction parts as [|q parts IH]; intros p l out pre rest d st F Hs Hp Hst Hpos; inversion F as [|? ? Fp F']; subst.
  - cbn [push_parts obind]. cbn [join_lines] in Hs |- *.
    destruct (lh_push_ok l pre p k rest d st Fp Hs Hp Hst Hpos) as (l' & ms & st' & -> & Sr & P & T & Po & St). cbn [obind].
    exists l', [], (d ++ ms), st'. rewrite app_nil_r. split; [reflexivity|]. split; [exact Sr|]. split; [|split; [exact P|auto]].
    replace ms with (List.concat [ms]) by (cbn; apply app_nil_r). cbn [List.map]. apply LT_one. econstructor; [exact St|constructor].
  - change (join_lines (p :: q :: parts)) with (p ++ 10%N :: join_lines (q :: parts)) in *. rewrite <- app_assoc in Hs. cbn [app] in Hs.
    replace (push_parts (p :: q :: parts) (blen pre) false k l out) with
      (obind (lh_push (blen pre) (blen pre + blen p) k l) (fun l => push_parts (q :: parts) (blen pre + blen p + 1) true k l out)) by reflexivity.
    destruct (lh_push_ok l pre p k _ d st Fp Hs Hp Hst Hpos) as (l1 & ms & st1 & -> & Sr & P & T & Po & St). cbn [obind].
    rewrite push_parts_true. set (pre1 := pre ++ p) in *.
    assert (Hs1 : lh_src l1 = pre1 ++ [10%N] ++ join_lines (q :: parts) ++ rest) by (rewrite Sr, Hs; unfold pre1; now rewrite <- app_assoc).
    replace (blen pre + blen p + 1) with (blen pre1 + blen [10%N]) by (unfold pre1; rewrite blen_app; cbn; lia).
    replace (blen pre1 + blen [10%N] - 1) with (blen pre1) by (cbn; lia).
    rewrite (get_span_eq _ _ _ _ Hs1). cbn [obind]. rewrite str_eqb_refl.
    destruct (take_line_ok l1 pre1 _ _ Hs1 P) as (h & l2 & -> & Hh & (S1 & S2 & S3) & Hk2 & Hp2). cbn [obind fst snd].
    rewrite <- blen_app.
    destruct (IH q l2 (out ++ [h]) (pre1 ++ [10%N]) rest [] st1 F') as (l' & done & d' & st' & E & Sr2 & L & P2 & T2 & Po2).
    { rewrite S1, Hs1, <- app_assoc. reflexivity. } { apply pend_none; [exact Hk2|]. now rewrite Hp2. } { congruence. } { exact Po. }
    exists l', (h :: done), d', st'. split; [rewrite E, <- app_assoc; reflexivity|]. split; [congruence|]. split.
    + cbn [List.map]. eapply LT_more; [econstructor; [exact St|constructor]| |].
      * cbn. now rewrite app_nil_r.
      * rewrite S3 in L. exact L.
    + split; [|auto]. unfold pre1 in P2. rewrite <- !app_assoc in P2. cbn [app] in P2. exact P2.
Qed.

Lemma after_fn_snoc before t : AfterFn (before ++ [t]) <->
  tk_kind t = Kw KFn \/ (AfterFn before /\ tk_kind t <> Name /\ forall k, tk_kind t <> Kw k).
Proof.
  split.
  - intros (a & f & b & E & Hf & Hb). destruct b as [|x b] using rev_ind; [|clear IHb].
    + apply app_inj_tail in E. destruct E as [-> ->]. now left.
    + rewrite app_comm_cons, app_assoc in E. apply app_inj_tail in E. destruct E as [-> ->]. apply Forall_app in Hb. destruct Hb as [Hb Hx].
      inversion Hx; subst. right. split; [|assumption]. now exists a, f, b.
  - intros [H|((a & f & b & -> & Hf & Hb) & Hx)].
    + exists before, t, []. auto.
    + exists a, f, (b ++ [t]). rewrite <- app_assoc. split; [reflexivity|]. split; [exact Hf|]. apply Forall_app. auto.
Qed.
Lemma after_angle_snoc before t : AfterAngle (before ++ [t]) <-> tk_kind t = LAngle.
Proof.
  split.
  - intros (a & u & E & H). apply app_inj_tail in E. destruct E as [_ ->]. exact H.
  - intros H. now exists before, t.
Qed.
Definition Flags (before : list token) (is_def is_tag : bool) : Prop := (is_def = true <-> AfterFn before) /\ (is_tag = true <-> AfterAngle before).
Lemma papyri_kind_ok before is_def is_tag t : Flags before is_def is_tag ->
  PapyriKind before (tk_kind t) (fst (papyri_kind (tk_kind t) is_def is_tag)) /\
  Flags (before ++ [t]) (snd (papyri_kind (tk_kind t) is_def is_tag)) (kind_eqb (tk_kind t) LAngle).
Proof.
  intros [Hd Ht]. split.
  - destruct (tk_kind t); cbn [papyri_kind fst]; try (constructor; cbn; tauto); try (constructor; fail).
    + destruct is_def; cbn [fst]; [apply PK_name_def; now apply Hd|]. assert (N1 : ~ AfterFn before) by (intros H; apply Hd in H; discriminate).
      destruct is_tag; cbn [fst]; [apply PK_tag_name; auto; now apply Ht|]. apply PK_name; auto. intros H. apply Ht in H. discriminate.
    + apply PK_literal. destruct b; cbn; tauto.
    + apply PK_op. right. eauto.
  - split.
    + rewrite after_fn_snoc. destruct (tk_kind t) as [| | | | | | | [] | | | | | | | | | | | | | | | | | | | | | | | | | | | | | |]; cbn [papyri_kind snd];
        try (destruct is_def, is_tag; cbn [snd]); rewrite <- ?Hd; split; intros H; try discriminate; auto;
        try (right; split; [reflexivity || assumption|split; [discriminate|intros; discriminate]]); try (destruct H as [H|(H & H1 & H2)]; [discriminate|]; first [assumption|congruence]);
        try (destruct H as [H|(H & H1 & H2)]; [discriminate|]; now destruct (H2 _ eq_refl)).
    + rewrite after_angle_snoc. unfold kind_eqb. destruct (kind_eq_dec (tk_kind t) LAngle); split; congruence.
Qed.
Lemma papyri_kind_part before tok k : PapyriKind before (tk_kind tok) k -> (fixed_text (tk_kind tok) <> [] -> In (tk_text tok) (fixed_text (tk_kind tok))) ->
  ProperChunk (tk_text tok, k) /\ Forall (fun p => ProperChunk (p, k)) (split_nl (tk_text tok)).
Proof.
  intros H Ht.
  assert (Hp : In k [HParenLeft; HParenRight] \/ forall s, ProperChunk (s, k)).
  { destruct H; try (right; intros s; exact I); left; cbn; tauto. }
  destruct Hp as [Hp|Hp]; [|split; [apply Hp|apply Forall_forall; intros; apply Hp]].
  assert (exists c, tk_text tok = [c] /\ c <> 10%N /\ ProperChunk ([c], k)) as (c & -> & Hc & Hk).
  { inversion H as [| | | | | | | | | | |k' Hk|k' Hk|]; subst; try (destruct Hp as [Hp|[Hp|[]]]; discriminate).
    - destruct Hk as [E|[E|[E|[]]]]; rewrite <- E in Ht; (destruct Ht as [Ht|[]]; [discriminate|]); rewrite <- Ht; eexists;
        (split; [reflexivity|]); (split; [discriminate|]); (eexists _, _; split; [reflexivity|constructor]).
    - destruct Hk as [E|[E|[E|[]]]]; rewrite <- E in Ht; (destruct Ht as [Ht|[]]; [discriminate|]); rewrite <- Ht; eexists;
        (split; [reflexivity|]); (split; [discriminate|]); (eexists _, _; split; [reflexivity|constructor]). }
  split; [exact Hk|]. cbn [split_nl]. destruct (N.eqb_spec c 10); [contradiction|]. repeat constructor. exact Hk.
Qed.
Lemma highlight_tokens_ok src toks : forall before is_def is_tag l out pre d st,
  Flags before is_def is_tag -> Tiles (blen pre) (skipn (length pre) src) toks -> src = pre ++ skipn (length pre) src ->
  Forall (fun t => fixed_text (tk_kind t) <> [] -> In (tk_text t) (fixed_text (tk_kind t))) toks ->
  lh_src l = src -> Pend l pre d -> lh_stack l = stack_of st -> Pos st ->
  exists cs lines l' done d' st', highlight_tokens toks is_def is_tag l out = Ret (l', out ++ done) /\
    PapyriChunks before toks cs /\ Forall ProperChunk cs /\ ChunkLines cs lines /\ Forall (Forall ProperChunk) lines /\ lh_src l' = src /\
    LinesTo d lines (st, lh_count l) done d' (st', lh_count l') /\ Pend l' src d'.
Proof.
  induction toks as [|t toks IH]; intros before is_def is_tag l out pre d st Hf Ht Hsrc Hx Hs Hp Hst Hpos; cbn [highlight_tokens].
  - inversion Ht as [? E1 E2|]; subst src. rewrite <- E2, app_nil_r in Hsrc.
    exists [], [[]], l, [], (d ++ List.concat []), st. rewrite app_nil_r. split; [reflexivity|]. split; [constructor|].
    split; [constructor|]. split; [constructor|]. split; [repeat constructor|]. split; [reflexivity|].
    split; [apply LT_one; constructor|]. cbn [List.concat]. rewrite app_nil_r, Hsrc. exact Hp.
  - inversion Ht as [|? ? rest ? Hne Hst0 Hend Htl E0 Er]; subst. inversion Hx as [|? ? Hx1 Hx2]; subst.
    destruct (papyri_kind_ok _ _ _ t Hf) as [Hk Hf']. destruct (papyri_kind (tk_kind t) is_def is_tag) as [k is_def'] eqn:Ek. cbn [fst snd] in *.
    destruct (papyri_kind_part _ _ _ Hk Hx1) as [Hpc Hpp].
    destruct (split_nl_spec (tk_text t)) as (J & Fn & Nn). destruct (split_nl (tk_text t)) as [|p parts] eqn:Es; [congruence|].
    rewrite Hst0. set (s := lh_src l) in *.
    destruct (push_parts_ok k parts p l out pre rest d st Hpp) as (l1 & done & d1 & st1 & E & Sr & L & P & T & Po); auto.
    { rewrite J. fold s. rewrite Hsrc at 1. now rewrite Er. }
    rewrite E. cbn [obind]. rewrite J in P.
    assert (Hrest : skipn (length (pre ++ tk_text t)) s = rest).
    { rewrite app_length, Nat.add_comm, <- skipn_skipn, <- Er. rewrite skipn_app, Nat.sub_diag, skipn_all. reflexivity. }
    destruct (IH (before ++ [t]) is_def' (kind_eqb (tk_kind t) LAngle) l1 (out ++ done) (pre ++ tk_text t) d1 st1)
      as (cs & lines & l' & done' & d' & st' & E' & Hc & Fc & Hl & Fl & Sr' & L' & P'); auto.
    { rewrite Hrest. rewrite Hend in Htl. rewrite blen_app. exact Htl. }
    { rewrite Hrest, <- app_assoc. rewrite Hsrc at 1. now rewrite Er. }
    exists ((tk_text t, k) :: cs), (glue (List.map (fun p => [(p, k)]) (p :: parts)) lines), l', (done ++ done'), d', st'.
    split; [rewrite E', app_assoc; reflexivity|]. split; [constructor; assumption|]. split; [constructor; assumption|].
    split; [rewrite <- J; now apply chunk_lines_glue|]. split.
    + clear - Hpp Fl. assert (G : forall a b, Forall (Forall ProperChunk) a -> Forall (Forall ProperChunk) b -> Forall (Forall ProperChunk) (glue a b)).
      { intros a b Ha. revert b. induction Ha as [|x a Hx Ha IHa]; intros b Hb; [exact Hb|]. destruct a as [|y a].
        - cbn [glue]. destruct Hb; repeat constructor; auto. apply Forall_app; auto.
        - rewrite glue_cons. constructor; auto. }
      apply G; [|exact Fl]. apply Forall_map. eapply Forall_impl; [|exact Hpp]. intros q Hq. repeat constructor. exact Hq.
    + split; [congruence|]. split; [|exact P']. eapply lines_to_glue; eauto.
Qed.
Lemma highlight_papyri_spec src toks errs : tokenize (trim_end src) false = Ret (toks, errs) ->
  exists cs lines out, syntax_highlight_papyri src = Ret out /\ PapyriChunks [] toks cs /\ ChunkLines cs lines /\ Highlighted lines out.
Proof.
  intros Ht. unfold syntax_highlight_papyri. cbv zeta. rewrite Ht. cbn [obind fst]. set (s := trim_end src) in *.
  destruct (highlight_tokens_ok s toks [] false false (lh_new s) [] [] [] []) as (cs & lines & l' & done & d' & st' & E & Hc & Fc & Hl & Fl & Sr & L & P).
  { split; split; try discriminate.
    - intros (a & f & b & Eq & _). destruct a; discriminate.
    - intros (a & t & Eq & _). destruct a; discriminate. }
  { exact (tokenize_tiles _ _ _ Ht). } { reflexivity. }
  { apply Forall_forall. intros t Hin. eapply token_fixed; eauto. }
  { reflexivity. } { reflexivity. } { reflexivity. } { constructor. }
  rewrite E. cbn [obind app]. destruct (take_line_ok l' s [] d') as (h & l2 & -> & Hh & _); [now rewrite app_nil_r|exact P|]. cbn [obind fst].
  exists cs, lines, (done ++ [h]). split; [reflexivity|]. split; [exact Hc|]. split; [exact Hl|].
  destruct (lines_to_shown _ _ _ _ _ _ L eq_refl h Hh) as (msss & F1 & F2 & Ss).
  destruct (shown_lines _ _ _ F1 F2) as [H1 H2]. split; [exact H1|]. rewrite H2.
  eapply brackets_numbered, steps_csteps; [exact Ss|now apply proper_concat].
Qed.
Lemma chunk_lines_text cs ls : ChunkLines cs ls -> join_lines (List.map chunks_text ls) = chunks_text cs.
Proof.
  induction 1 as [|s k l line ls Hn H IH|s t k l ls Hn H IH]; [reflexivity| |].
  - unfold chunks_text in *. cbn [List.map flat_map fst]. rewrite <- IH. cbn [List.map]. cbn [join_lines].
    destruct ls; cbn [List.map]; [reflexivity|]. now rewrite <- app_assoc.
  - unfold chunks_text in *. cbn [List.map flat_map fst]. cbn [flat_map fst] in IH. rewrite app_nil_r, <- app_assoc. cbn [app]. rewrite <- IH.
    pose proof (chunk_lines_nonempty _ _ H). destruct ls; [congruence|]. reflexivity.
Qed.
Lemma papyri_chunks_text before toks cs : PapyriChunks before toks cs -> chunks_text cs = List.concat (List.map tk_text toks).
Proof. induction 1; cbn; [reflexivity|]. unfold chunks_text in *. cbn. now rewrite IHPapyriChunks. Qed.
Lemma visible_app a : forall b, visible (a ++ b) = visible a ++ visible b.
Proof. induction a as [|[c|n l|n] a IH]; intros b; cbn; rewrite ?IH; reflexivity. Qed.
Lemma url_run_unique a : forall b x y, Forall UrlChar a -> Forall UrlChar b -> (forall c t, x = c :: t -> ~ UrlChar c) ->
  (forall c t, y = c :: t -> ~ UrlChar c) -> a ++ x = b ++ y -> a = b /\ x = y.
Proof.
  induction a as [|c a IH]; intros [|d b] x y Ha Hb Hx Hy E; cbn [app] in E; auto.
  - subst x. inversion Hb; subst. now destruct (Hx d (b ++ y)).
  - subst y. inversion Ha; subst. now destruct (Hy c (a ++ x)).
  - inversion Ha; inversion Hb; subst. injection E as -> E. destruct (IH b x y) as [-> ->]; auto.
Qed.
Lemma links_unique s l : Links s l -> forall l', Links s l' -> l = l'.
Proof.
  assert (Start : forall h w rest, Scheme h -> w <> [] -> Forall UrlChar w -> UrlStart (h ++ lit "://" ++ w ++ rest)).
  { intros h [|c w] rest Hh Hw Hu; [congruence|]. inversion Hu; subst. now exists h, c, (w ++ rest). }
  induction 1 as [|h w rest l Hh Hw Hu Hr Hl IH|c rest l Hc Hl IH]; intros l' H'.
  - remember (@nil char) as s eqn:Es. destruct H' as [|h' w' rest' l2 Hh' Hw' Hu' Hr' Hl'|]; [reflexivity| |discriminate].
    destruct Hh' as [-> | ->]; discriminate.
  - remember (h ++ lit "://" ++ w ++ rest) as s eqn:Es. destruct H' as [|h' w' rest' l2 Hh' Hw' Hu' Hr' Hl'|c' rest' l2 Hc' Hl'].
    + destruct Hh as [-> | ->]; discriminate.
    + assert (h' = h /\ w' ++ rest' = w ++ rest) as [-> E].
      { destruct Hh as [-> | ->], Hh' as [-> | ->]; cbn in Es |- *; injection Es; intros; split; congruence. }
      destruct (url_run_unique _ _ _ _ Hu' Hu Hr' Hr E) as [-> ->]. f_equal. now apply IH.
    + destruct Hc'. rewrite Es. now apply Start.
  - remember (c :: rest) as s eqn:Es. destruct H' as [|h' w' rest' l2 Hh' Hw' Hu' Hr' Hl'|c' rest' l2 Hc' Hl']; [discriminate| |].
    + destruct Hc. now apply Start.
    + injection Es as -> ->. f_equal. now apply IH.
Qed.
Lemma enumerate_ok checks start ls : forall i, (forall j, j < length ls -> Int64 (start + Z.of_nat (i + j))) ->
  exists out, enumerate_loop checks ls i start = Ret out /\ flat_map events out = NumberedLines (start + Z.of_nat i) ls.
Proof.
  induction ls as [|h ls IH]; intros i Hj; cbn [enumerate_loop]; [exists []; auto|].
  assert (H0 : Int64 (start + Z.of_nat (i + 0))) by (apply Hj; cbn; lia). rewrite Nat.add_0_r, Z.add_comm in H0.
  rewrite i64_exact by exact H0. cbn [obind]. destruct (IH (S i)) as (out & -> & E).
  { intros j Hl. replace (S i + j) with (i + S j) by lia. apply Hj. cbn. lia. }
  cbn [obind]. eexists. split; [reflexivity|]. cbn [flat_map events NumberedLines app]. rewrite (Z.add_comm (Z.of_nat i)). f_equal.
  rewrite <- !app_assoc. cbn [app]. f_equal. f_equal. f_equal. rewrite E. f_equal. lia.
Qed.
