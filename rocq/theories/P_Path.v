From Verif Require Import Base BaseFacts M_Path S_Util.

(** Walking over components, the common ground between [Resolves] and [normalize]. *)
Definition cstep (d : list str) (c : comp) : list str :=
  match c with Root => [] | Cur => d | Par => removelast d | Norm n => d ++ [n] end.
Definition walk (d : list str) (cs : list comp) : list str := fold_left cstep cs d.
Lemma walk_app d a b : walk d (a ++ b) = walk (walk d a) b.
Proof. apply fold_left_app. Qed.
Definition parts (s : str) : list comp := flat_map part_comp (split_slash s).

Lemma split_slash_app a b : split_slash (a ++ 47%N :: b) = split_slash a ++ split_slash b.
Proof.
  induction a as [|c a IH]; [reflexivity|]. cbn. destruct (c =? 47)%N; [now rewrite IH|].
  rewrite IH. destruct (split_slash a) as [|x xs] eqn:E; [|reflexivity].
  exfalso. clear -E. destruct a; cbn in E; [discriminate|]. destruct (n =? 47)%N; [discriminate|]. destruct (split_slash a); discriminate.
Qed.
Lemma parts_app a b : parts (a ++ 47%N :: b) = parts a ++ parts b.
Proof. unfold parts. now rewrite split_slash_app, flat_map_app. Qed.
Lemma split_slash_name n : ~ In 47%N n -> split_slash n = [n].
Proof.
  induction n as [|c n IH]; [reflexivity|]. cbn. intros H. destruct (N.eqb_spec c 47); [tauto|]. rewrite IH; [easy|tauto].
Qed.
Lemma parts_slash b : parts (47%N :: b) = parts b.
Proof. apply (parts_app [] b). Qed.
Lemma parts_name_app n p : ~ In 47%N n -> AtSlash p -> parts (n ++ p) = part_comp n ++ parts p.
Proof.
  intros H [->|(q & ->)].
  - rewrite app_nil_r. unfold parts. rewrite split_slash_name by easy. cbn. now rewrite app_nil_r.
  - rewrite parts_app, parts_slash. f_equal. unfold parts. rewrite split_slash_name by easy. cbn. now rewrite app_nil_r.
Qed.
Lemma part_comp_valid n : ValidName n -> part_comp n = [Norm n].
Proof.
  intros (H1 & H2 & H3 & H4). unfold part_comp.
  destruct (str_eqb_spec n []); [easy|]. destruct (str_eqb_spec n (lit ".")); [easy|].
  destruct (str_eqb_spec n (lit "..")); easy.
Qed.
Lemma Resolves_walk d p f : Resolves d p f -> f = walk d (parts p).
Proof.
  induction 1.
  - reflexivity.
  - now rewrite parts_slash.
  - rewrite parts_name_app; [|cbn; intros [?|[]]; discriminate|easy]. now cbn [part_comp lit].
  - rewrite parts_name_app; [|cbn; intros [?|[?|[]]]; discriminate|easy]. rewrite walk_app. exact IHResolves.
  - rewrite parts_name_app; [|apply H|easy]. rewrite walk_app, part_comp_valid by easy. exact IHResolves.
Qed.
Lemma first_part p : exists n q, p = n ++ q /\ ~ In 47%N n /\ AtSlash q.
Proof.
  induction p as [|c p IH].
  - exists [], []. repeat split; [tauto|now left].
  - destruct (N.eqb_spec c 47) as [->|H].
    + exists [], (47%N :: p). repeat split; [tauto|right; now exists p].
    + destruct IH as (n & q & -> & H1 & H2). exists (c :: n), q. repeat split; [|easy].
      intros [->|]; tauto.
Qed.
Lemma walk_Resolves p : forall d, Resolves d p (walk d (parts p)).
Proof.
  induction p as [p IH] using (well_founded_induction (Wf_nat.well_founded_ltof _ (@length N))). intros d.
  destruct (first_part p) as (n & q & E & H1 & H2).
  destruct (str_eq_dec n []) as [->|Hn].
  - cbn in E. subst q. destruct H2 as [->|(q & ->)]; [constructor|]. rewrite parts_slash. constructor. apply IH. unfold ltof. cbn. lia.
  - assert (L : ltof _ (@length N) q p). { unfold ltof. rewrite E, app_length. destruct n; [easy|]. cbn. lia. }
    rewrite E, parts_name_app, walk_app by easy.
    destruct (str_eq_dec n (lit ".")) as [->|H3]; [apply res_dot; [easy|]; apply IH; exact L|].
    destruct (str_eq_dec n (lit "..")) as [->|H4]; [apply res_dotdot; [easy|]; apply IH; exact L|].
    assert (V : ValidName n) by (repeat split; easy).
    rewrite part_comp_valid by easy. apply res_name; [easy|easy|]. apply IH. exact L.
Qed.

Lemma Absolute_spec p : is_absolute p = true <-> Absolute p.
Proof.
  destruct p as [|c p]; cbn.
  - split; [discriminate|]. intros (q & H). discriminate.
  - rewrite N.eqb_eq. split; [intros ->; now exists p|]. intros (q & H). now injection H.
Qed.
Lemma components_abs p : is_absolute p = true -> components p = Root :: parts p.
Proof. destruct p as [|c p]; [discriminate|]. cbn [is_absolute components]. intros E. rewrite E. apply N.eqb_eq in E. subst c. now rewrite parts_slash. Qed.
Lemma components_rel p : is_absolute p = false -> components p = parts p \/ components p = Cur :: parts p.
Proof.
  destruct p as [|c p]; [now left|]. cbn [is_absolute components]. intros E. rewrite E.
  unfold parts. cbn [split_slash]. rewrite E. destruct (split_slash p) as [|x xs]; cbn [flat_map].
  - destruct (str_eqb_spec [c] (lit ".")) as [H|H]; [right|left]; [|easy]. rewrite H. reflexivity.
  - destruct (str_eqb_spec (c :: x) (lit ".")) as [H|H]; [right|left]; [|easy]. rewrite H. reflexivity.
Qed.
Lemma walk_components cwd p : walk cwd (components p) = walk (if is_absolute p then [] else cwd) (parts p).
Proof.
  destruct (is_absolute p) eqn:E.
  - now rewrite components_abs.
  - destruct (components_rel _ E) as [-> | ->]; reflexivity.
Qed.
Lemma Denotes_walk cwd p f : Denotes cwd p f <-> f = walk cwd (components p).
Proof.
  rewrite walk_components. split.
  - intros [p' f' A R|p' f' A R]; apply Resolves_walk in R; rewrite <- Absolute_spec in A.
    + now rewrite A.
    + destruct (is_absolute p'); [easy|exact R].
  - intros ->. destruct (is_absolute p) eqn:E.
    + apply den_abs; [now apply Absolute_spec|apply walk_Resolves].
    + apply den_rel; [rewrite <- Absolute_spec; congruence|apply walk_Resolves].
Qed.

(** * Shape of component lists *)
Lemma part_comp_no_root n c : In c (part_comp n) -> c <> Root /\ c <> Cur.
Proof.
  unfold part_comp. destruct (str_eqb n []); [easy|]. destruct (str_eqb n (lit ".")); [easy|].
  destruct (str_eqb n (lit "..")); intros [<-|[]]; split; discriminate.
Qed.
Lemma split_slash_no_slash s n : In n (split_slash s) -> ~ In 47%N n.
Proof.
  revert n; induction s as [|c s IH]; cbn.
  - intros n [<-|[]]. tauto.
  - destruct (N.eqb_spec c 47).
    + intros n [<-|H]; [tauto|]. now apply IH.
    + destruct (split_slash s) as [|x xs].
      * intros n' [<-|[]]. cbn. intros [->|[]]. easy.
      * intros n' [<-|H]; [|apply IH; now right]. cbn. intros [->|Hx]; [easy|]. apply (IH x); [now left|easy].
Qed.
Lemma parts_valid s n : In (Norm n) (parts s) -> ValidName n.
Proof.
  unfold parts. rewrite in_flat_map. intros (x & Hx & H). pose proof (split_slash_no_slash _ _ Hx) as NS.
  unfold part_comp in H. destruct (str_eqb_spec x []); [easy|]. destruct (str_eqb_spec x (lit ".")); [easy|].
  destruct (str_eqb_spec x (lit "..")); destruct H as [H|[]]; [discriminate|]. injection H as <-. repeat split; easy.
Qed.
Lemma parts_no_root s c : In c (parts s) -> c <> Root /\ c <> Cur.
Proof. unfold parts. rewrite in_flat_map. intros (x & _ & H). eapply part_comp_no_root, H. Qed.
Lemma parts_clean s : exists ps, parts s = ps /\ Forall (fun c => c <> Root /\ c <> Cur) ps.
Proof. exists (parts s). split; [easy|]. apply Forall_forall. apply parts_no_root. Qed.

(** * normalize *)
Definition nstep (ret : list comp) (c : comp) : list comp :=
  match c with Root => [Root] | Cur => ret | Par => pop ret | Norm n => ret ++ [Norm n] end.
Lemma pop_norm pre ns : (pre = [] \/ pre = [Root]) -> pop (pre ++ map Norm ns) = pre ++ map Norm (removelast ns).
Proof.
  intros H. destruct ns as [|n ns] using rev_ind.
  - cbn. rewrite app_nil_r. destruct H as [-> | ->]; reflexivity.
  - rewrite removelast_last. rewrite map_app, app_assoc. unfold pop. rewrite rev_app_distr. cbn. now rewrite rev_involutive.
Qed.
Lemma normalize_fold pre ns cs : (pre = [] \/ pre = [Root]) -> Forall (fun c => c <> Root) cs ->
  fold_left nstep cs (pre ++ map Norm ns) = pre ++ map Norm (walk ns cs).
Proof.
  intros Hp. revert ns; induction cs as [|c cs IH]; intros ns H; [reflexivity|].
  inversion H as [|? ? Hc Hcs]; subst. cbn [fold_left walk]. destruct c; cbn [nstep cstep].
  - easy.
  - now apply IH.
  - rewrite pop_norm by easy. now apply IH.
  - rewrite <- app_assoc. change [Norm name] with (map Norm [name]). rewrite <- map_app. now apply IH.
Qed.
Definition root_of (p : str) : list comp := if is_absolute p then [Root] else [].
Lemma normalize_components p : normalize (components p) = root_of p ++ map Norm (walk [] (parts p)).
Proof.
  unfold normalize. fold nstep. unfold root_of.
  assert (C : Forall (fun c => c <> Root) (parts p)) by (apply Forall_forall; intros c Hc; now apply parts_no_root in Hc).
  destruct (is_absolute p) eqn:E.
  - rewrite components_abs by easy. cbn [fold_left]. apply (normalize_fold [Root] []); auto.
  - destruct (components_rel _ E) as [-> | ->]; cbn [app]; [|cbn [fold_left nstep]]; apply (normalize_fold [] []); auto.
Qed.
Lemma walk_names ns cs n : In n (walk ns cs) -> In n ns \/ In (Norm n) cs.
Proof.
  revert ns; induction cs as [|c cs IH]; intros ns H; [now left|]. cbn in H. apply IH in H as [H|H]; [|right; now right].
  destruct c; cbn in H.
  - easy.
  - now left.
  - left. destruct ns as [|x ns] using rev_ind; [easy|]. rewrite removelast_last in H. apply in_or_app. now left.
  - apply in_app_or in H as [H|[->|[]]]; [now left|]. right. now left.
Qed.

(** * join *)
Lemma is_absolute_app a b : a <> [] -> is_absolute (a ++ b) = is_absolute a.
Proof. now destruct a. Qed.
Lemma join_shape base rel : is_absolute rel = false -> base <> [] ->
  is_absolute (join base rel) = is_absolute base /\ parts (join base rel) = parts base ++ parts rel.
Proof.
  intros Hr Hb. unfold join. rewrite Hr. destruct (rev base) as [|c t] eqn:E.
  - apply (f_equal (@rev N)) in E. rewrite rev_involutive in E. easy.
  - apply (f_equal (@rev N)) in E. rewrite rev_involutive in E. cbn in E.
    split; [destruct (c =? 47)%N; now rewrite is_absolute_app|].
    destruct (N.eqb_spec c 47) as [->|H].
    + subst base. rewrite <- app_assoc. cbn [app]. rewrite !parts_app. f_equal. unfold parts at 2. cbn. now rewrite app_nil_r.
    + change (lit "/" ++ rel) with (47%N :: rel). now rewrite parts_app.
Qed.
Lemma components_join base rel : is_absolute rel = false -> base <> [] ->
  components (join base rel) = components base ++ parts rel.
Proof.
  intros Hr Hb. destruct (is_absolute base) eqn:E.
  - destruct (join_shape _ _ Hr Hb) as [A P]. rewrite E in A. rewrite !components_abs, P by easy. reflexivity.
  - unfold join. rewrite Hr. destruct (rev base) as [|c t] eqn:R.
    { apply (f_equal (@rev N)) in R. rewrite rev_involutive in R. easy. }
    apply (f_equal (@rev N)) in R. rewrite rev_involutive in R. cbn in R.
    assert (G : forall a b, a <> [] -> is_absolute a = false -> components (a ++ 47%N :: b) = components a ++ parts b).
    { intros a b Ha Hab. destruct a as [|x a]; [easy|]. cbn [is_absolute] in Hab.
      unfold components. cbn [app]. rewrite Hab.
      change (x :: a ++ 47%N :: b) with ((x :: a) ++ 47%N :: b). rewrite split_slash_app.
      destruct (split_slash (x :: a)) as [|f r] eqn:S.
      - cbn in S. rewrite Hab in S. destruct (split_slash a); discriminate.
      - cbn [app]. rewrite flat_map_app, app_assoc. reflexivity. }
    destruct (N.eqb_spec c 47) as [->|H].
    + subst base. destruct t as [|x t] using rev_ind; [discriminate|]. clear IHt.
      assert (rev (t ++ [x]) <> []) by (rewrite rev_app_distr; discriminate).
      assert (is_absolute (rev (t ++ [x])) = false) by (rewrite rev_app_distr in E |- *; exact E).
      rewrite <- app_assoc. cbn [app]. rewrite !G by easy. rewrite <- app_assoc. f_equal.
    + now apply G.
Qed.
Lemma parts_join_names ns : Forall ValidName ns -> is_absolute (join_names (map Norm ns)) = false /\ parts (join_names (map Norm ns)) = map Norm ns.
Proof.
  intros H. induction H as [|n ns V F IH]; [split; reflexivity|]. destruct V as (V1 & V2 & V3 & V4).
  assert (PN : parts n = [Norm n]). { unfold parts. rewrite split_slash_name by easy. cbn [flat_map]. rewrite app_nil_r. apply part_comp_valid. repeat split; easy. }
  assert (AN : is_absolute n = false). { destruct n as [|c n]; [easy|]. cbn. apply N.eqb_neq. intros ->. apply V2. now left. }
  cbn [map]. destruct ns as [|m ns].
  - cbn. split; [easy|]. exact PN.
  - cbn [map join_names] in *. split; [now rewrite is_absolute_app|].
    change (lit "/" ++ ?x) with (47%N :: x). rewrite parts_app, PN. cbn [app]. f_equal. apply IH.
Qed.

(** * make_relative *)
Lemma comp_eqb_eq x y : comp_eqb x y = true <-> x = y.
Proof.
  destruct x, y; cbn; try (split; [discriminate|intros H; discriminate H]); try tauto.
  rewrite str_eqb_eq. split; [now intros ->|now intros [= ->]].
Qed.
Lemma strip_comps_spec p s t : strip_comps p s = Some t <-> s = p ++ t.
Proof.
  revert s; induction p as [|x p IH]; intros s; cbn.
  - split; [now intros [= ->]|now intros ->].
  - destruct s as [|y s]; [split; discriminate|]. destruct (comp_eqb x y) eqn:E.
    + apply comp_eqb_eq in E. subst y. rewrite IH. split; [now intros ->|now intros [= ->]].
    + split; [discriminate|]. intros H. injection H as H _. symmetry in H. apply comp_eqb_eq in H. congruence.
Qed.
Lemma components_nonempty_base base : components base <> [] -> base <> [].
Proof. now intros H ->. Qed.
Lemma map_Norm_app_inv ns a b : map Norm ns = a ++ b -> exists n1 n2, ns = n1 ++ n2 /\ a = map Norm n1 /\ b = map Norm n2.
Proof. intros H. apply map_eq_app in H as (l1 & l2 & -> & <- & <-). now exists l1, l2. Qed.

(** Base paths that denote anything at all: not the empty path. *)
Lemma part_comp_nil p : part_comp p = [] -> p = [] \/ p = lit ".".
Proof.
  unfold part_comp. destruct (str_eqb_spec p []); [now left|]. destruct (str_eqb_spec p (lit ".")); [now right|].
  destruct (str_eqb_spec p (lit "..")); discriminate.
Qed.
Lemma components_nil base : components base = [] -> base = [].
Proof.
  destruct base as [|c t]; [easy|]. cbn [components]. destruct (c =? 47)%N eqn:E; [discriminate|].
  cbn [split_slash]. rewrite E. destruct (split_slash t) as [|x xs]; intros H; apply app_eq_nil in H as [H _].
  - destruct (str_eqb_spec [c] (lit ".")); [discriminate|]. apply part_comp_nil in H as [H|H]; easy.
  - destruct (str_eqb_spec (c :: x) (lit ".")); [discriminate|]. apply part_comp_nil in H as [H|H]; easy.
Qed.
Lemma make_relative_names base rel p : base <> [] -> make_relative base rel = Some p ->
  exists ns, p = map Norm ns /\ Forall ValidName ns.
Proof.
  intros Hb H. unfold make_relative in H. apply strip_comps_spec in H. rewrite normalize_components in H.
  set (j := join base rel) in *. assert (V : Forall ValidName (walk [] (parts j))).
  { apply Forall_forall. intros n Hn. apply walk_names in Hn as [[]|Hn]. eapply parts_valid, Hn. }
  assert (NE : components base <> []) by (intros E; apply components_nil in E; easy).
  destruct (components base) as [|c cs] eqn:EB; [easy|]. unfold root_of in H.
  assert (Q : exists q, map Norm (walk [] (parts j)) = q ++ p).
  { destruct (is_absolute j); cbn in H; [|exists (c :: cs); exact H]. injection H as _ H. eexists; exact H. }
  destruct Q as (q & Q). apply map_Norm_app_inv in Q as (n1 & n2 & E1 & _ & ->). exists n2. split; [easy|].
  rewrite E1 in V. apply Forall_app in V. apply V.
Qed.
Lemma walk_snoc_names d ns : walk d (map Norm ns) = d ++ ns.
Proof.
  revert d. induction ns as [|n ns IH]; intros d; [now rewrite app_nil_r|].
  change (walk d (map Norm (n :: ns))) with (walk (d ++ [n]) (map Norm ns)). rewrite IH. now rewrite <- app_assoc.
Qed.
Lemma make_relative_contained base rel p cwd : base <> [] -> make_relative base rel = Some p ->
  exists dir names, Denotes cwd base dir /\ Forall ValidName names /\ Denotes cwd (join base (join_names p)) (dir ++ names).
Proof.
  intros Hb H. destruct (make_relative_names _ _ _ Hb H) as (ns & -> & V).
  destruct (parts_join_names _ V) as [A P].
  exists (walk cwd (components base)), ns. split; [now apply Denotes_walk|]. split; [easy|]. apply Denotes_walk.
  rewrite components_join by easy. rewrite P, walk_app. now rewrite walk_snoc_names.
Qed.
Lemma Denotes_fun cwd p f f' : Denotes cwd p f -> Denotes cwd p f' -> f = f'.
Proof. rewrite !Denotes_walk. congruence. Qed.
Lemma Denotes_total cwd p : exists f, Denotes cwd p f.
Proof. eexists. now apply Denotes_walk. Qed.

Lemma no_parent_parts base : NoParent base -> Absolute base -> ~ In Par (parts base).
Proof.
  intros NP (q & ->). assert (G : forall q a, In Par (parts q) -> exists b c, (a ++ 47%N :: q) = b ++ lit "/.." ++ c /\ AtSlash c).
  { clear. induction q as [q IH] using (well_founded_induction (Wf_nat.well_founded_ltof _ (@length N))). intros a H.
    destruct (first_part q) as (n & t & E & H1 & H2). rewrite E in H. rewrite parts_name_app in H by easy.
    apply in_app_or in H as [H|H].
    - unfold part_comp in H. destruct (str_eqb_spec n []); [easy|]. destruct (str_eqb_spec n (lit ".")); [easy|].
      destruct (str_eqb_spec n (lit "..")); destruct H as [H|[]]; [|discriminate]. subst n.
      exists a, t. now rewrite E.
    - destruct H2 as [->|(t' & ->)]; [destruct H|]. rewrite parts_slash in H.
      destruct (IH t') with (a := a ++ 47%N :: n) as (b & c & E2 & Hc); [unfold ltof; rewrite E, app_length; cbn; lia|easy|].
      exists b, c. split; [|easy]. rewrite <- E2, E. now rewrite <- app_assoc. }
  intros H. rewrite parts_slash in H. destruct (G q [] H) as (b & c & E & Hc). now apply (NP b c).
Qed.
Lemma parts_all_norm base : ~ In Par (parts base) -> exists ns, parts base = map Norm ns.
Proof.
  intros H. assert (C := parts_no_root base). induction (parts base) as [|c cs IH]; [now exists []|].
  destruct IH as (ns & E); [intros Hc; apply H; now right|intros x Hx; apply C; now right|]. rewrite E.
  destruct c; [destruct (C Root); [now left|easy]|destruct (C Cur); [now left|easy]|destruct H; now left|].
  now exists (name :: ns).
Qed.
Lemma map_Norm_inj a b : map Norm a = map Norm b -> a = b.
Proof. revert b; induction a as [|x a IH]; intros [|y b]; cbn; try discriminate; [easy|]. intros [= -> H]. f_equal. now apply IH. Qed.
Lemma make_relative_faithful base rel names cwd dir :
  Absolute base -> NoParent base -> Denotes cwd base dir ->
  (make_relative base rel = Some (map Norm names) <-> Denotes cwd (join base rel) (dir ++ names)).
Proof.
  intros HA NP HD. pose proof (no_parent_parts _ NP HA) as H1. destruct (parts_all_norm _ H1) as (bs & E).
  apply Absolute_spec in HA. rewrite Denotes_walk in HD |- *. rewrite walk_components, HA, E, walk_snoc_names in HD. subst dir.
  unfold make_relative. rewrite strip_comps_spec, normalize_components, (components_abs base) by easy. rewrite E.
  assert (J : is_absolute (join base rel) = true).
  { unfold join. destruct (is_absolute rel) eqn:R; [easy|]. destruct (rev base) as [|c t] eqn:RB.
    - apply (f_equal (@rev N)) in RB. rewrite rev_involutive in RB. subst base. discriminate.
    - assert (base <> []) by now destruct base. destruct (c =? 47)%N; now rewrite is_absolute_app. }
  unfold root_of. rewrite J, walk_components, J. cbn [app].
  split.
  - intros [= H]. rewrite <- map_app in H. apply map_Norm_inj in H. now rewrite H.
  - intros H. rewrite <- H. cbn. now rewrite map_app.
Qed.

Lemma push_all_spec {T} base (reqs : list (str * T)) o oks o' :
  base_path o = base -> push_all o reqs = (oks, o') ->
  base_path o' = base /\ length oks = length reqs /\
  exists acc, out_v o' = out_v o ++ acc /\
    acc = flat_map (fun '(p, t) => match make_relative base p with Some r => [(r, t)] | None => [] end) reqs /\
    Forall2 (fun ok (r : str * T) => ok = true <-> make_relative base (fst r) <> None) oks reqs.
Proof.
  revert o oks o'; induction reqs as [|[p t] reqs IH]; intros o oks o' B H; cbn in H.
  - injection H as <- <-. split; [easy|]. split; [easy|]. exists []. rewrite app_nil_r. repeat split; constructor.
  - unfold try_push in H. rewrite B in H. cbn [flat_map]. destruct (make_relative base p) as [r|] eqn:E.
    + destruct (push_all _ reqs) as [oks1 o1] eqn:E1. injection H as <- <-.
      destruct (IH _ _ _ (eq_refl : base_path (OutFiles base _) = base) E1) as (B1 & L & acc & A1 & A2 & F). cbn in A1. split; [easy|]. split; [cbn; lia|].
      exists ((r, t) :: acc). split; [now rewrite A1, <- app_assoc|]. split; [now rewrite A2|]. constructor; [|easy]. cbn. rewrite E. easy.
    + destruct (push_all _ reqs) as [oks1 o1] eqn:E1. injection H as <- <-.
      destruct (IH _ _ _ B E1) as (B1 & L & acc & A1 & A2 & F). split; [easy|]. split; [cbn; lia|].
      exists acc. split; [easy|]. split; [now rewrite A2|]. constructor; [|easy]. cbn. rewrite E. split; [discriminate|easy].
Qed.
Lemma out_files_contained {T} base (reqs : list (str * T)) oks o files o' cwd dir :
  base <> [] -> push_all (out_files_new base) reqs = (oks, o) -> take_iter o = (files, o') -> Denotes cwd base dir ->
  Forall (fun pt => exists names, Forall ValidName names /\ Denotes cwd (fst pt) (dir ++ names)) files /\
  out_is_empty o' = true.
Proof.
  intros Hb Hp Ht Hd. destruct (push_all_spec base reqs (out_files_new base) _ _ eq_refl Hp) as (B & L & acc & A1 & A2 & F). cbn in A1.
  unfold take_iter in Ht. injection Ht as <- <-. split; [|easy]. rewrite A1, B, A2.
  apply Forall_forall. intros [q t] Hin. apply in_map_iff in Hin as ([r t'] & Hq & Hin). injection Hq as <- <-.
  apply in_flat_map in Hin as ([p t2] & _ & Hin). destruct (make_relative base p) as [r'|] eqn:E; [|easy].
  destruct Hin as [Hin|[]]. injection Hin as <- <-. cbn [fst].
  destruct (make_relative_contained _ _ _ cwd Hb E) as (dir' & names & D1 & V & D2). exists names. split; [easy|].
  now rewrite (Denotes_fun _ _ _ _ Hd D1).
Qed.

Lemma out_files_exact {T} base (reqs : list (str * T)) oks o files o' cwd dir :
  Absolute base -> NoParent base -> push_all (out_files_new base) reqs = (oks, o) -> take_iter o = (files, o') -> Denotes cwd base dir ->
  Written cwd dir (join base) reqs oks files.
Proof.
  intros HA NP Hp Ht Hd.
  assert (G : forall (reqs : list (str * T)) (o : out_files T) oks o1, base_path o = base -> push_all o reqs = (oks, o1) -> exists acc, out_v o1 = out_v o ++ acc /\ base_path o1 = base /\
    Written cwd dir (join base) reqs oks (List.map (fun '(p, t) => (join base (join_names p), t)) acc)).
  { clear - HA NP Hd. intros reqs. induction reqs as [|[p t] reqs IH]; intros o oks o1 B H; cbn [push_all] in H.
    - injection H as <- <-. exists []. rewrite app_nil_r. repeat split; [exact B|constructor].
    - unfold try_push in H. rewrite B in H. destruct (make_relative base p) as [r|] eqn:E.
      + destruct (push_all _ reqs) as [oks1 o2] eqn:E1. injection H as <- <-.
        destruct (IH _ _ _ (eq_refl : base_path (OutFiles base _) = base) E1) as (acc & A & B1 & W). cbn in A.
        exists ((r, t) :: acc). split; [now rewrite A, <- app_assoc|]. split; [exact B1|]. cbn [map].
        assert (Hb : base <> []) by (destruct HA as (q & ->); discriminate).
        destruct (make_relative_names _ _ _ Hb E) as (ns & -> & V). apply (make_relative_faithful _ _ _ cwd dir HA NP Hd) in E.
        eapply written_inside; [exact E| |exact W]. destruct (parts_join_names _ V) as [A' P].
        apply Denotes_walk. rewrite components_join by easy. rewrite P, walk_app, walk_snoc_names. f_equal. now apply Denotes_walk.
      + destruct (push_all _ reqs) as [oks1 o2] eqn:E1. injection H as <- <-.
        destruct (IH _ _ _ B E1) as (acc & A & B1 & W). exists acc. split; [exact A|]. split; [exact B1|].
        apply written_outside; [|exact W]. intros names D. apply (make_relative_faithful _ _ _ cwd dir HA NP Hd) in D. congruence. }
  destruct (G reqs (out_files_new base) oks o eq_refl Hp) as (acc & A & B & W). cbn in A. unfold take_iter in Ht. injection Ht as <- _.
  now rewrite A, B.
Qed.
Lemma empty_base_escapes : exists p, make_relative [] (lit "/etc/x") = Some p /\
  forall cwd, Denotes cwd (join [] (join_names p)) [lit "etc"; lit "x"].
Proof. eexists. split; [vm_compute; reflexivity|]. intros cwd. apply Denotes_walk. reflexivity. Qed.
Lemma dot_base_rejects rel : is_absolute rel = false -> make_relative (lit ".") rel = None.
Proof.
  intros H. destruct (make_relative (lit ".") rel) as [p|] eqn:E; [|easy]. unfold make_relative in E.
  apply strip_comps_spec in E. rewrite normalize_components in E. unfold root_of in E.
  destruct (join_shape (lit ".") rel H ltac:(discriminate)) as [A _]. rewrite A in E. cbn in E.
  destruct (walk [] _) in E; discriminate.
Qed.
Lemma relative_base_unfaithful : exists p,
  make_relative (lit "out") (lit "../../out/x") = Some p /\
  forall cwd w, Denotes (cwd ++ [w]) (join (lit "out") (lit "../../out/x")) (cwd ++ [lit "out"; lit "x"]) /\
                Denotes (cwd ++ [w]) (join (lit "out") (join_names p)) (cwd ++ [w; lit "out"; lit "x"]).
Proof.
  eexists. split; [vm_compute; reflexivity|]. intros cwd w. split; apply Denotes_walk.
  - change (components (join (lit "out") (lit "../../out/x"))) with [Norm (lit "out"); Par; Par; Norm (lit "out"); Norm (lit "x")].
    unfold walk. cbn [fold_left cstep]. rewrite !removelast_last. now rewrite <- app_assoc.
  - change (components (join (lit "out") (join_names [Norm [120%N]]))) with [Norm (lit "out"); Norm (lit "x")].
    unfold walk. cbn [fold_left cstep]. now rewrite <- !app_assoc.
Qed.
