(** Names and order of paths, for C42. *)
From Coq Require Import Lia List.
From Verif Require Import Base BaseFacts M_Text M_SourceFile M_Path M_Native M_Cli S_Util S_Cli P_Path.
Import ListNotations.
Local Open Scope list_scope.

(** * Names *)
Lemma idle_slash_start t : Idle t -> AtSlash t.
Proof. intros [|u _|u _ _]; [now left|right; now exists u|right]. eexists. reflexivity. Qed.
Lemma idle_parts t : Idle t -> parts t = [].
Proof.
  induction 1 as [|t _ IH|t A _ IH]; [reflexivity|now rewrite parts_slash|].
  change (lit "/." ++ t) with (47%N :: (lit "." ++ t)). rewrite parts_slash, parts_name_app by (try exact A; cbn; intuition discriminate).
  now rewrite IH.
Qed.
Lemma parts_nil_idle q : parts q = [] -> Idle (47%N :: q).
Proof.
  induction q as [q IH] using (well_founded_induction (Wf_nat.well_founded_ltof _ (@length N))). intro E.
  destruct (first_part q) as (n & t & -> & H1 & H2). rewrite parts_name_app in E by assumption.
  apply app_eq_nil in E as [E1 E2]. assert (I : Idle t).
  { destruct H2 as [-> | (u & ->)]; [constructor|]. apply IH; [unfold ltof; rewrite app_length; cbn; lia|]. now rewrite parts_slash in E2. }
  apply part_comp_nil in E1 as [-> | ->]; [now apply idle_slash|now apply (idle_dot t)].
Qed.
Lemma parts_last p l n : parts p = l ++ [Norm n] -> LastName p n.
Proof.
  revert l. induction p as [p IH] using (well_founded_induction (Wf_nat.well_founded_ltof _ (@length N))). intros l E.
  assert (V : ValidName n) by (eapply parts_valid; rewrite E; apply in_or_app; right; now left).
  split; [exact V|]. destruct (first_part p) as (m & t & -> & H1 & H2). rewrite parts_name_app in E by assumption.
  destruct H2 as [-> | (u & ->)].
  - cbn in E. unfold parts in E. cbn in E. rewrite app_nil_r in E. unfold part_comp in E.
    destruct (str_eqb m []); [destruct l; discriminate|]. destruct (str_eqb m (lit ".")); [destruct l; discriminate|].
    destruct (str_eqb m (lit "..")); destruct l as [|? [|? ?]]; try discriminate. injection E as ->. exists [], []. cbn. split; [reflexivity|]. split; [now left|constructor].
  - rewrite parts_slash in E. destruct (parts u) as [|c cs] eqn:U.
    + rewrite app_nil_r in E. unfold part_comp in E.
      destruct (str_eqb m []); [destruct l; discriminate|]. destruct (str_eqb m (lit ".")); [destruct l; discriminate|].
      destruct (str_eqb m (lit "..")); destruct l as [|? [|? ?]]; try discriminate. injection E as ->. exists [], (47%N :: u). split; [reflexivity|].
      split; [now left|]. now apply parts_nil_idle.
    + assert (exists l', c :: cs = l' ++ [Norm n]) as (l' & E').
      { destruct (@exists_last _ (c :: cs)) as (l' & y & E'); [discriminate|]. exists l'. rewrite E' in *. rewrite app_assoc in E.
        apply app_inj_tail in E as [_ ->]. reflexivity. }
      destruct (IH u) with (l := l') as (_ & pre & tail & -> & P & I); [unfold ltof; rewrite app_length; cbn; lia|now rewrite U|].
      exists (m ++ 47%N :: pre), tail. split; [now rewrite <- app_assoc|]. split; [|exact I]. right.
      destruct P as [-> | (q & ->)]; [now exists m|]. exists (m ++ 47%N :: q). now rewrite <- app_assoc.
Qed.
Lemma last_parts p n : LastName p n -> exists l, parts p = l ++ [Norm n].
Proof.
  intros (V & pre & tail & -> & P & I). assert (E : parts (n ++ tail) = [Norm n]).
  { rewrite parts_name_app; [|apply V|now apply idle_slash_start]. rewrite part_comp_valid by exact V. now rewrite idle_parts. }
  destruct P as [-> | (q & ->)]; [exists []; exact E|]. exists (parts q). rewrite <- app_assoc. cbn [app]. change (lit "/") with [47%N]. cbn [app].
  now rewrite parts_app, E.
Qed.
Lemma components_shape p : exists pre, components p = pre ++ parts p /\ (pre = [] \/ pre = [Root] /\ is_absolute p = true \/ pre = [Cur] /\ is_absolute p = false).
Proof.
  destruct (is_absolute p) eqn:A; [exists [Root]; rewrite components_abs by exact A; auto|].
  destruct (components_rel p A) as [-> | ->]; [exists []; auto|exists [Cur]; auto].
Qed.
Lemma file_name_components p n : file_name p = Some n <-> exists l, components p = l ++ [Norm n].
Proof.
  unfold file_name. split.
  - destruct (rev (components p)) as [|[] r] eqn:E; try discriminate. intros [= ->]. exists (rev r).
    apply (f_equal (@rev comp)) in E. rewrite rev_involutive in E. exact E.
  - intros (l & ->). now rewrite rev_unit.
Qed.
Lemma file_name_spec p n : file_name p = Some n <-> LastName p n.
Proof.
  rewrite file_name_components. destruct (components_shape p) as (pre & -> & P). split.
  - intros (l & E). destruct (parts p) as [|c cs] eqn:U.
    + rewrite app_nil_r in E. destruct P as [-> |[(-> & _) | (-> & _)]]; destruct l as [|? [|? ?]]; discriminate.
    + destruct (@exists_last _ (c :: cs)) as (l' & y & E'); [discriminate|]. rewrite E' in E. rewrite app_assoc in E.
      apply app_inj_tail in E as [_ ->]. apply (parts_last p l'). now rewrite U.
  - intro L. destruct (last_parts _ _ L) as (l & ->). exists (pre ++ l). now rewrite app_assoc.
Qed.

Lemma rsplit_dot_spec s a b : rsplit_dot s = Some (a, b) <-> s = a ++ 46%N :: b /\ ~ In 46%N b.
Proof.
  assert (N : forall s, rsplit_dot s = None -> ~ In 46%N s).
  { clear. induction s as [|c s IH]; [easy|]. cbn. destruct (rsplit_dot s) as [[]|] eqn:E; [discriminate|].
    destruct (N.eqb_spec c 46); [discriminate|]. intros _ [H|H]; [easy|]. now apply IH. }
  revert a b. induction s as [|c s IH]; intros a b; cbn.
  - split; [discriminate|]. intros [E _]. destruct a; discriminate.
  - destruct (rsplit_dot s) as [[a' b']|] eqn:E.
    + split.
      * intros [= <- <-]. destruct (IH a' b') as [I _]. destruct (I eq_refl) as [-> I2]. now split.
      * intros [E1 E2]. destruct a as [|x a].
        -- injection E1 as -> ->. destruct (IH a' b') as [I _]. destruct (I eq_refl) as [-> _]. destruct E2. apply in_or_app. right. now left.
        -- injection E1 as -> ->. destruct (IH a b) as [_ I]. specialize (I (conj eq_refl E2)). injection I as -> ->. reflexivity.
    + pose proof (N _ E) as NI. destruct (N.eqb_spec c 46) as [->|Hc].
      * split; [intros [= <- <-]; split; [reflexivity|exact NI]|]. intros [E1 E2]. destruct a as [|x a]; [injection E1 as ->; reflexivity|].
        injection E1 as E0 E1. destruct NI. rewrite E1. apply in_elt.
      * split; [discriminate|]. intros [E1 E2]. destruct a as [|x a]; [injection E1 as E1 _; now destruct Hc|].
        injection E1 as E0 E1. destruct NI. rewrite E1. apply in_elt.
Qed.
Lemma same_letters_lower a b : SameLetters a (List.map to_ascii_lower b) <-> List.map to_ascii_lower a = List.map to_ascii_lower (List.map to_ascii_lower b).
Proof.
  unfold SameLetters. split.
  - intro H. induction H as [|x y l l' E H IH]; [reflexivity|]. cbn. now rewrite E, IH.
  - revert a. generalize (List.map to_ascii_lower b). clear b. intros b a. revert b. induction a as [|x a IH]; intros [|y b]; try discriminate; [constructor|].
    cbn. intros [= E1 E2]. constructor; auto.
Qed.
Lemma same_papyri e : SameLetters e (lit "papyri") <-> List.map to_ascii_lower e = lit "papyri".
Proof. apply (same_letters_lower e (lit "papyri")). Qed.
Lemma lower_46 x : to_ascii_lower x = 46%N -> x = 46%N.
Proof. unfold to_ascii_lower, is_ascii_upper, in_range. destruct ((65 <=? x) && (x <=? 90))%N eqn:E; [|easy]. apply andb_true_iff in E as [E1 E2]. apply N.leb_le in E1, E2. lia. Qed.
Lemma papyri_no_dot e : List.map to_ascii_lower e = lit "papyri" -> ~ In 46%N e.
Proof.
  intros E I. assert (In 46%N (lit "papyri")) as J; [|cbn in J; intuition discriminate].
  rewrite <- E. apply in_map_iff. exists 46%N. now split.
Qed.
Lemma papyri_name_spec n stem : PapyriName n stem <-> is_papyri_file n = true /\ file_stem n = stem.
Proof.
  unfold PapyriName, is_papyri_file, file_extension, file_stem. split.
  - intros (NE & ext & -> & E). apply same_papyri in E. pose proof (papyri_no_dot _ E) as ND.
    assert (R : rsplit_dot (stem ++ 46%N :: ext) = Some (stem, ext)) by now apply rsplit_dot_spec.
    change (stem ++ lit "." ++ ext) with (stem ++ 46%N :: ext). rewrite R. destruct stem as [|c t]; [easy|]. rewrite E. now split.
  - destruct (rsplit_dot n) as [[[|c t] ext]|] eqn:R; intros [E F]; try discriminate. subst stem. split; [discriminate|].
    exists ext. apply rsplit_dot_spec in R as [-> _]. split; [reflexivity|]. apply same_papyri. now apply str_eqb_eq.
Qed.
Lemma is_papyri_path_spec p : is_papyri_path p = true <-> PapyriFile p.
Proof.
  unfold is_papyri_path, PapyriFile. split.
  - destruct (file_name p) as [n|] eqn:E; [|discriminate]. intro I. exists n, (file_stem n). split; [now apply file_name_spec|].
    now apply papyri_name_spec.
  - intros (n & stem & L & P). apply file_name_spec in L. rewrite L. now apply papyri_name_spec in P.
Qed.
Lemma is_library_spec p : is_papyri_library p = true <-> Library p.
Proof.
  unfold is_papyri_library, M_SourceFile.ends_with, Library. destruct (strip_prefix (rev (lit ".lib.papyri")) (rev (List.map to_ascii_lower p))) as [t|] eqn:E.
  - split; [|intros _; reflexivity]. intros _. apply strip_prefix_spec in E. apply (f_equal (@rev N)) in E. rewrite rev_involutive, rev_app_distr, rev_involutive in E.
    apply map_eq_app in E as (a & b & -> & _ & Eb). exists a, b. split; [reflexivity|]. apply (same_letters_lower b (lit ".lib.papyri")). exact Eb.
  - split; [discriminate|]. intros (a & b & -> & Eb). apply (same_letters_lower b (lit ".lib.papyri")) in Eb.
    assert (strip_prefix (rev (lit ".lib.papyri")) (rev (List.map to_ascii_lower (a ++ b))) = Some (rev (List.map to_ascii_lower a))) as C; [|congruence].
    apply strip_prefix_spec. rewrite map_app, rev_app_distr, Eb. reflexivity.
Qed.
Lemma is_pattern_spec s : looks_like_glob s = true <-> IsPattern s.
Proof.
  unfold looks_like_glob, IsPattern. rewrite existsb_exists, Exists_exists. split; intros (c & I & E); exists c; (split; [exact I|]).
  - rewrite !orb_true_iff, !N.eqb_eq in E. cbn. intuition.
  - rewrite !orb_true_iff, !N.eqb_eq. cbn in E. intuition.
Qed.

(** * Output paths *)
Definition Plain (c : comp) : Prop := match c with Par => True | Norm n => ValidName n | _ => False end.
Lemma parts_plain p : Forall Plain (parts p).
Proof.
  apply Forall_forall. intros c I. destruct (parts_no_root p c I) as [H1 H2]. destruct c; try easy. cbn. now apply (parts_valid p).
Qed.
Lemma parts_join_plain cs : Forall Plain cs -> is_absolute (join_names cs) = false /\ parts (join_names cs) = cs.
Proof.
  intro F. induction F as [|c cs P F IH]; [split; reflexivity|]. destruct IH as [IH1 IH2].
  assert (N : exists n, ~ In 47%N n /\ n <> [] /\ part_comp n = [c] /\ join_names (c :: cs) = match cs with [] => n | _ => n ++ 47%N :: join_names cs end).
  { destruct c as [| | |n]; try easy.
    - exists (lit ".."). split; [cbn; intuition discriminate|]. split; [discriminate|]. split; [reflexivity|]. now destruct cs.
    - exists n. destruct P as (P1 & P2 & P3 & P4). split; [exact P2|]. split; [exact P1|]. split; [now apply part_comp_valid|]. now destruct cs. }
  destruct N as (n & N1 & N2 & N3 & ->). destruct n as [|x n]; [easy|]. assert (A : is_absolute (x :: n) = false).
  { cbn. destruct (N.eqb_spec x 47); [subst; destruct N1; now left|reflexivity]. }
  destruct cs as [|d cs].
  - split; [exact A|]. unfold parts. rewrite split_slash_name by exact N1. cbn [flat_map]. now rewrite N3.
  - split; [exact A|]. rewrite parts_name_app; [|exact N1|right; eexists; reflexivity]. rewrite parts_slash, IH2, N3. reflexivity.
Qed.
Lemma walk_join_names wd pre cs : pre = [] \/ pre = [Root] \/ pre = [Cur] -> Forall Plain cs -> cs <> [] ->
  walk wd (components (join_names (pre ++ cs))) = walk wd (pre ++ cs).
Proof.
  intros P F NE. destruct (parts_join_plain cs F) as [A E]. rewrite walk_components. destruct P as [-> |[-> | ->]].
  - cbn [app]. now rewrite A, E.
  - destruct cs as [|c cs]; [easy|]. change (join_names ([Root] ++ c :: cs)) with (47%N :: join_names (c :: cs)).
    cbn [is_absolute]. rewrite N.eqb_refl, parts_slash, E. reflexivity.
  - destruct cs as [|c cs]; [easy|]. change (join_names ([Cur] ++ c :: cs)) with (lit "." ++ 47%N :: join_names (c :: cs)).
    replace (is_absolute (lit "." ++ 47%N :: join_names (c :: cs))) with false by reflexivity.
    rewrite parts_name_app; [|cbn; intuition discriminate|right; eexists; reflexivity]. rewrite parts_slash, E. reflexivity.
Qed.
Lemma new_name_valid stem ext : ~ In 47%N stem -> ext = lit "txt" \/ ext = lit "html" -> ValidName (stem ++ lit "." ++ ext).
Proof.
  intros NS E. split; [destruct stem; discriminate|]. split.
  - intro I. apply in_app_or in I as [I|I]; [easy|]. destruct E as [-> | ->]; cbn in I; intuition discriminate.
  - assert (L : 4 <= length (stem ++ lit "." ++ ext)) by (rewrite app_length; destruct E as [-> | ->]; cbn; lia).
    split; intro C; rewrite C in L; cbn in L; lia.
Qed.
Lemma file_stem_no_slash n : ~ In 47%N n -> ~ In 47%N (file_stem n).
Proof.
  intro NI. unfold file_stem. destruct (rsplit_dot n) as [[[|c t] ext]|] eqn:R; try exact NI.
  apply rsplit_dot_spec in R as [-> _]. intro I. apply NI. apply in_or_app. now left.
Qed.
Lemma set_extension_denotes wd p ext n l : ext = lit "txt" \/ ext = lit "html" -> components p = l ++ [Norm n] ->
  exists q, set_extension p ext = Some q /\ Denotes wd q (walk wd l ++ [file_stem n ++ lit "." ++ ext]).
Proof.
  intros E C. unfold set_extension. assert (FN : file_name p = Some n) by (apply file_name_components; now exists l). rewrite FN.
  eexists. split; [reflexivity|]. apply Denotes_walk. rewrite C, removelast_last.
  destruct (components_shape p) as (pre & CS & P). pose proof (parts_plain p) as PP. pose proof FN as FN'. apply file_name_spec in FN.
  destruct (last_parts _ _ FN) as (l' & E'). rewrite CS, E', app_assoc in C. apply app_inj_tail in C as [<- _].
  rewrite E' in PP. apply Forall_app in PP as [PP _]. rewrite <- app_assoc, walk_join_names.
  - rewrite !walk_app. reflexivity.
  - intuition.
  - apply Forall_app. split; [exact PP|]. constructor; [|constructor]. apply new_name_valid; [|exact E]. apply file_stem_no_slash. apply FN.
  - destruct l'; discriminate.
Qed.
Lemma denotes_join in_dir wd src f : Absolute in_dir -> Denotes [] in_dir wd -> (Denotes [] (join in_dir src) f <-> Denotes wd src f).
Proof.
  intros A D. rewrite !Denotes_walk in *. apply Absolute_spec in A. destruct (is_absolute src) eqn:AS.
  - unfold join. rewrite AS. rewrite !walk_components, AS. reflexivity.
  - assert (NE : in_dir <> []) by (now intros ->). rewrite components_join by assumption. rewrite walk_app, <- D, walk_components, AS. reflexivity.
Qed.

(** * The order *)
Lemma str_leb_spec a b : str_leb a b = true <-> a = b \/ StrBefore a b.
Proof.
  revert b; induction a as [|x a IH]; intros [|y b]; cbn.
  - split; auto.
  - split; [right; constructor|reflexivity].
  - split; [discriminate|]. intros [H|H]; [discriminate|inversion H].
  - destruct (N.eqb_spec x y) as [->|D].
    + rewrite IH. split; [intros [->|H]; [now left|right; now constructor]|]. intros [[= ->]|H]; [now left|]. inversion H; subst; [lia|now right].
    + rewrite N.ltb_lt. split; [intro L; right; now constructor|]. intros [[= -> _]|H]; [easy|]. inversion H; subst; [assumption|easy].
Qed.
Lemma comp_leb_spec a b : a <> b -> (comp_leb a b = true <-> PartBefore a b).
Proof.
  intro D. destruct a, b; cbn; try (split; [discriminate|intro H; inversion H; easy]); try easy; try (split; [intros _; constructor; discriminate|reflexivity]).
  rewrite str_leb_spec. split.
  - intros [->|H]; [easy|now constructor].
  - intro H. inversion H; subst. now right.
Qed.
Lemma comps_eqb_eq a b : comps_eqb a b = true <-> a = b.
Proof.
  revert b; induction a as [|x a IH]; intros [|y b]; cbn; try (split; [discriminate|intro H; discriminate H]); [tauto|].
  rewrite andb_true_iff, comp_eqb_eq, IH. split; [now intros [-> ->]|now intros [= -> ->]].
Qed.
Lemma path_eqb_spec p q : path_eqb p q = true <-> SamePath p q.
Proof. apply comps_eqb_eq. Qed.
Lemma str_before_irr s : ~ StrBefore s s.
Proof. induction s as [|c s IH]; intro B; inversion B; subst; [lia|auto]. Qed.
Lemma part_before_irr c : ~ PartBefore c c.
Proof. intro B. destruct c; inversion B; subst; try easy. eapply str_before_irr; eassumption. Qed.
Lemma comps_leb_spec a b : comps_leb a b = true <-> a = b \/ PartsBefore a b.
Proof.
  revert b; induction a as [|x a IH]; intros [|y b]; cbn.
  - split; auto.
  - split; [right; constructor|reflexivity].
  - split; [discriminate|]. intros [H|H]; [discriminate|inversion H].
  - destruct (comp_eqb x y) eqn:E.
    + apply comp_eqb_eq in E as ->. rewrite IH. split; [intros [->|H]; [now left|right; now constructor]|].
      intros [[= ->]|H]; [now left|]. inversion H as [|? ? ? ? B|]; subst; [|now right]. now apply part_before_irr in B.
    + assert (x <> y) as D by (intro; subst; rewrite (proj2 (comp_eqb_eq y y) eq_refl) in E; discriminate).
      rewrite comp_leb_spec by exact D. split; [intro L; right; now constructor|]. intros [[= -> _]|H]; [easy|]. inversion H; subst; [assumption|easy].
Qed.
Lemma str_leb_total a b : str_leb a b = true \/ str_leb b a = true.
Proof.
  revert b; induction a as [|x a IH]; intros [|y b]; cbn; auto. rewrite (N.eqb_sym y x). destruct (N.eqb_spec x y); [apply IH|].
  rewrite !N.ltb_lt. lia.
Qed.
Lemma comps_leb_total a b : comps_leb a b = true \/ comps_leb b a = true.
Proof.
  revert b; induction a as [|x a IH]; intros [|y b]; cbn; auto. destruct (comp_eqb x y) eqn:E.
  - apply comp_eqb_eq in E as ->. rewrite (proj2 (comp_eqb_eq y y) eq_refl). apply IH.
  - destruct (comp_eqb y x) eqn:E'; [apply comp_eqb_eq in E' as ->; rewrite (proj2 (comp_eqb_eq x x) eq_refl) in E; discriminate|].
    destruct x, y; cbn in *; auto; try discriminate. apply str_leb_total.
Qed.
Lemma str_before_trans a b c : StrBefore a b -> StrBefore b c -> StrBefore a c.
Proof.
  intro H. revert c. induction H as [x t|x y s t L|x s t H IH]; intros u Hu; inversion Hu; subst; try (constructor; fail).
  - apply before_char. lia.
  - now apply before_char.
  - now apply before_char.
  - apply before_rest. auto.
Qed.
Lemma part_before_trans a b c : PartBefore a b -> PartBefore b c -> PartBefore a c.
Proof.
  intros H1 H2. inversion H1; subst; inversion H2; subst; try easy; try (constructor; discriminate); try (now constructor).
  constructor. eapply str_before_trans; eassumption.
Qed.
Lemma parts_before_trans a b c : PartsBefore a b -> PartsBefore b c -> PartsBefore a c.
Proof.
  intro H. revert c. induction H; intros u Hu; inversion Hu; subst; try (now constructor).
  - apply parts_first. eapply part_before_trans; eassumption.
  - apply parts_rest. auto.
Qed.
