(** Proofs for C80. *)
From Verif Require Import Base BaseFacts M_Text M_Path S_Util P_Path M_Cli S_Cli P_CliPath P_Cli S_Sources.

Section TreeInd.
  Variable P : tree -> Prop.
  Hypothesis HF : P TFile. Hypothesis HL : P TLocked. Hypothesis HK : forall to, P (TLink to).
  Hypothesis HD : forall l, Forall (fun e => P (snd e)) l -> P (TDir l).
  Fixpoint tree_ind' (t : tree) : P t :=
    match t with
    | TFile => HF | TLocked => HL | TLink to => HK to
    | TDir l => HD l ((fix all l := match l return Forall (fun e => P (snd e)) l with [] => Forall_nil _ | e :: l => Forall_cons e (tree_ind' (snd e)) (all l) end) l)
    end.
End TreeInd.

Fixpoint places (t : tree) : list (list str * tree) :=
  ([], t) :: match t with TDir l => flat_map (fun e => List.map (fun x => (fst e :: fst x, snd x)) (places (snd e))) l | _ => [] end.
Lemma in_places t : forall ns u, In (ns, u) (places t) <-> At t ns u.
Proof.
  induction t as [| |to|l IH] using tree_ind'; intros ns u; cbn [places].
  1-3: split; [intros [[= <- <-]|[]]; constructor|inversion 1; subst; now left].
  split.
  - intros [[= <- <-]|I]; [constructor|]. apply in_flat_map in I as ([n t] & In1 & In2). apply in_map_iff in In2 as ([ns' u'] & [= <- <-] & I).
    econstructor; [exact In1|]. rewrite Forall_forall in IH. now apply (IH _ In1).
  - inversion 1 as [|? n t ns' ? I A]; subst; [now left|]. right. apply in_flat_map. exists (n, t). split; [exact I|]. apply in_map_iff. exists (ns', u). split; [reflexivity|].
    rewrite Forall_forall in IH. now apply (IH _ I).
Qed.
Definition entry_of (dir : str) (x : list str * tree) : list (str + str) := inr (below dir (fst x)) :: match snd x with TLocked => [inl (below dir (fst x))] | _ => [] end.
Lemma below_nil dir : below dir [] = dir. Proof. unfold below. cbn. apply app_nil_r. Qed.
Lemma below_cons dir n ns : below dir (n :: ns) = below (dir ++ lit "/" ++ n) ns.
Proof. unfold below. cbn [flat_map]. now rewrite <- !app_assoc. Qed.
Lemma below_app dir a b : below dir (a ++ b) = below (below dir a) b.
Proof. unfold below. now rewrite flat_map_app, app_assoc. Qed.
Lemma walked_places t : forall dir, walked dir t = flat_map (entry_of dir) (places t).
Proof.
  induction t as [| |to|l IH] using tree_ind'; intro dir; cbn [walked places flat_map]; unfold entry_of at 1; cbn [fst snd app]; rewrite ?below_nil; try reflexivity.
  f_equal. induction IH as [|[n t] l H _ IHl]; [reflexivity|]. cbn [flat_map fst snd] in *. rewrite flat_map_app, <- IHl. f_equal. rewrite H.
  generalize (places t). intro ps. induction ps as [|[ns u] ps IHp]; [reflexivity|]. cbn [flat_map List.map]. rewrite IHp. f_equal.
  unfold entry_of. cbn [fst snd]. now rewrite below_cons.
Qed.
(** Paths *)
Lemma parts_below ns : Forall ValidName ns -> AtSlash (flat_map (fun n => lit "/" ++ n) ns) /\ parts (flat_map (fun n => lit "/" ++ n) ns) = map Norm ns.
Proof.
  induction 1 as [|n ns V _ [A IH]]; [now split; [left|]|]. cbn [flat_map map]. split; [right; eexists; reflexivity|].
  set (rest := flat_map _ ns) in *. rewrite <- app_assoc. change (lit "/" ++ n ++ rest) with (47%N :: n ++ rest). rewrite parts_slash, parts_name_app by (auto; apply V). now rewrite part_comp_valid, IH.
Qed.
Lemma parts_of_below ns : Forall ValidName ns -> parts (below [] ns) = map Norm ns.
Proof. intro V. exact (proj2 (parts_below ns V)). Qed.
Lemma below_inj a b : Forall ValidName a -> Forall ValidName b -> below [] a = below [] b -> a = b.
Proof. intros A B E. apply map_Norm_inj. rewrite <- (parts_of_below a A), <- (parts_of_below b B). now f_equal. Qed.
Lemma components_below ns : ns <> [] -> Forall ValidName ns -> components (below [] ns) = Root :: map Norm ns /\ is_absolute (below [] ns) = true.
Proof.
  intros N V. assert (A : is_absolute (below [] ns) = true) by (destruct ns; [contradiction|reflexivity]). split; [|exact A].
  rewrite components_abs by exact A. now rewrite parts_of_below.
Qed.
Lemma normalize_below ns : ns <> [] -> Forall ValidName ns -> normalize (components (below [] ns)) = Root :: map Norm ns.
Proof.
  intros N V. rewrite normalize_components. destruct (components_below ns N V) as [_ A]. unfold root_of. rewrite A. cbn [app]. f_equal.
  rewrite parts_of_below by exact V. f_equal. now rewrite walk_snoc_names.
Qed.
Lemma relative_below bs qs : bs <> [] -> qs <> [] -> Forall ValidName bs -> Forall ValidName qs -> forall cs,
  make_relative (below [] bs) (below [] qs) = Some cs <-> exists ns, qs = bs ++ ns /\ cs = map Norm ns.
Proof.
  intros Nb Nq Vb Vq cs. unfold make_relative. unfold join. rewrite (proj2 (components_below qs Nq Vq)), normalize_below, (proj1 (components_below bs Nb Vb)) by assumption.
  rewrite strip_comps_spec. split.
  - intros [= E]. apply map_Norm_app_inv in E as (n1 & n2 & -> & E1 & E2). apply map_Norm_inj in E1. subst. now exists n2.
  - intros (ns & -> & ->). now rewrite map_app.
Qed.
Lemma slashed_join ns : slashed ns = join_names (map Norm ns).
Proof. induction ns as [|n [|m ns] IH]; cbn [slashed map join_names] in *; [reflexivity..|]. now rewrite IH. Qed.
Lemma slashed_components ns : Forall ValidName ns -> components (slashed ns) = map Norm ns \/ components (slashed ns) = Cur :: map Norm ns.
Proof. intro V. rewrite slashed_join. destruct (parts_join_names ns V) as [A B]. destruct (components_rel _ A) as [E|E]; rewrite E, B; auto. Qed.
Lemma slashed_same a b : Forall ValidName a -> Forall ValidName b -> SamePath (slashed a) (slashed b) -> a = b.
Proof.
  intros A B E. unfold SamePath in E. apply map_Norm_inj. destruct (slashed_components a A) as [X|X], (slashed_components b B) as [Y|Y]; rewrite X, Y in E; auto.
  - destruct a; discriminate E.
  - destruct b; discriminate E.
  - now injection E.
Qed.
Lemma slashed_papyri ns : Forall ValidName ns -> (is_papyri_path (slashed ns) = true <-> SourceEntry ns).
Proof.
  intro V. unfold is_papyri_path.
  assert (F : forall n, file_name (slashed ns) = Some n <-> exists before, ns = before ++ [n]).
  { intro n. rewrite file_name_components. split.
    - intros [l E]. assert (exists l', map Norm ns = l' ++ [Norm n]) as [l' E'].
      { destruct (slashed_components ns V) as [X|X]; rewrite X in E; [now exists l|]. destruct l as [|c l]; [discriminate E|]. injection E as _ E. now exists l. }
      apply map_Norm_app_inv in E' as (n1 & n2 & -> & _ & E2). destruct n2 as [|m [|? ?]]; try discriminate E2. injection E2 as <-. now exists n1.
    - intros [before ->]. destruct (slashed_components _ V) as [X|X]; rewrite X, map_app; [now exists (map Norm before)|now exists (Cur :: map Norm before)]. }
  destruct (file_name (slashed ns)) as [n|] eqn:E.
  - split.
    + intro P. destruct (proj1 (F n) eq_refl) as [before ->]. exists before, n, (file_stem n). split; [reflexivity|]. now apply papyri_name_spec.
    + intros (before & m & stem & -> & P). assert (n = m) as ->. { destruct (proj1 (F n) eq_refl) as [b Eb]. apply app_inj_tail in Eb as [_ Eb]. auto. }
      now apply papyri_name_spec in P as [P _].
  - split; [discriminate|]. intros (before & m & stem & -> & P). discriminate (proj2 (F m) (ex_intro _ before eq_refl)).
Qed.
Lemma places_valid t : Proper t -> forall ns u, At t ns u -> Forall ValidName ns.
Proof.
  intros P ns u A. induction A as [|l n t ns u I A IH]; [constructor|]. constructor.
  - destruct (P [] l (at_here _)) as [_ V]. eapply V; eauto.
  - apply IH. intros ns' l' A'. apply (P (n :: ns') l'). econstructor; eauto.
Qed.
Lemma proper_entry l n t : Proper (TDir l) -> In (n, t) l -> Proper t.
Proof. intros P I ns l' A. apply (P (n :: ns) l'). econstructor; eauto. Qed.
Lemma NoDup_app_intro {A} (a b : list A) : NoDup a -> NoDup b -> (forall x, In x a -> In x b -> False) -> NoDup (a ++ b).
Proof.
  induction 1 as [|x a N _ IH]; intros B D; [exact B|]. cbn. constructor; [|apply IH; auto; intros y Ia Ib; eapply D; [right|]; eauto].
  intro I. apply in_app_iff in I as [I|I]; [contradiction|]. eapply D; [now left|exact I].
Qed.
Lemma nodup_places t : Proper t -> NoDup (map fst (places t)).
Proof.
  induction t as [| |to|l IH] using tree_ind'; intro P; cbn [places map fst]; constructor; try (now intros []); try (now constructor).
  - rewrite in_map_iff. intros ([ns u] & E & I). cbn in E. subst. apply in_flat_map in I as (e & _ & I). apply in_map_iff in I as (x & [=] & _).
  - destruct (P [] l (at_here _)) as [N _]. assert (K : forall n t, In (n, t) l -> Proper t) by (intros n t I; eapply proper_entry; eauto). clear P.
    induction l as [|[n t] l IHl]; [constructor|]. cbn [flat_map]. rewrite map_app. inversion IH as [|? ? Ht Hl]; subst. cbn [map fst snd] in *. inversion N as [|? ? Nn Nl]; subst.
    apply NoDup_app_intro.
    + rewrite map_map. cbn [fst]. specialize (Ht (K n t (or_introl eq_refl))). clear - Ht. induction (places t) as [|x ps IHp]; [constructor|]. cbn [map] in *.
      inversion Ht as [|? ? H1 H2]; subst. constructor; [|auto]. rewrite in_map_iff. intros (y & [= E] & I). apply H1. rewrite <- E. now apply in_map.
    + apply IHl; auto. intros m u I. eapply K. right. exact I.
    + intros ns I J. rewrite in_map_iff in I, J. destruct I as ([ns1 u1] & <- & I). destruct J as ([ns2 u2] & E & J). cbn [fst] in E.
      apply in_map_iff in I as (x & [= <- <-] & _). apply in_flat_map in J as ([m v] & J1 & J2). apply in_map_iff in J2 as (y & [= <- <-] & _). cbn [fst] in E. injection E as -> _.
      apply Nn. apply in_map_iff. now exists (n, v).
Qed.
Lemma in_walked dir t e : In e (walked dir t) <-> exists ns u, At t ns u /\ In e (entry_of dir (ns, u)).
Proof.
  rewrite walked_places, in_flat_map. split.
  - intros ([ns u] & I & J). exists ns, u. split; [now apply in_places|exact J].
  - intros (ns & u & A & J). exists (ns, u). split; [now apply in_places|exact J].
Qed.
Lemma distinct_filter f l : Distinct l -> Distinct (List.filter f l).
Proof.
  induction 1 as [|p l F D IH]; cbn; [constructor|]. destruct (f p); [|exact IH]. constructor; [|exact IH].
  rewrite Forall_forall in *. intros q I. apply filter_In in I as [I _]. auto.
Qed.
Lemma sources_found canon dir base t : Resolving canon dir base t -> LinksCanonical t -> Proper t ->
  exists errs l, find_sources canon (walked dir t) dir = (errs, Some l) /\
    (forall p, In p l <-> exists ns, Place base t ns /\ SourceEntry ns /\ p = slashed ns) /\
    (NoLinks t -> Increasing l) /\
    (forall p, In p errs <-> exists ns, p = below dir ns /\ (At t ns TLocked \/ At t ns (TLink None))).
Proof.
  intros (Cd & (bs & Nb & Vb & ->) & R) LC P. unfold find_sources. rewrite Cd.
  set (visit := fun e : str + str => _). eexists _, _. split; [reflexivity|].
  assert (VE : forall ns u, At t ns u -> (forall to, u <> TLink to) -> visit (inr (below dir ns)) = inr (Some (slashed ns))).
  { intros ns u A N. unfold visit. rewrite (R ns u A). assert (V := places_valid t P ns u A).
    assert (E : match u with TLink to => to | _ => Some (below (below [] bs) ns) end = Some (below [] (bs ++ ns))) by (rewrite below_app; destruct u; try reflexivity; now destruct (N to)).
    rewrite E. rewrite (proj2 (relative_below bs (bs ++ ns) Nb ltac:(destruct bs; [contradiction|discriminate]) Vb (proj2 (Forall_app _ _ _) (conj Vb V)) (map Norm ns))) by eauto.
    now rewrite slashed_join. }
  assert (VL : forall ns to, At t ns (TLink to) -> visit (inr (below dir ns)) =
            match to with None => inl (below dir ns) | Some q => inr (match make_relative (below [] bs) q with Some cs => Some (join_names cs) | None => None end) end).
  { intros ns to A. unfold visit. now rewrite (R ns _ A). }
  split; [|split].
  - intro p. rewrite in_sort, filter_In, in_flat_map. split.
    + intros ((v & Iv & Ip) & Q). destruct v as [?|[p'|]]; try (now destruct Ip). destruct Ip as [->|[]]. apply in_map_iff in Iv as (e & Ev & Ie).
      apply in_walked in Ie as (ns & u & A & Ie). unfold entry_of in Ie. cbn [fst snd] in Ie.
      destruct Ie as [<-|Ie]; [|destruct u; try (now destruct Ie); destruct Ie as [<-|[]]; discriminate Ev].
      assert (K : (exists to, u = TLink to) \/ forall to, u <> TLink to) by (destruct u; [right; discriminate..|left; eauto]).
      destruct K as [[to ->]|K].
      * rewrite (VL ns to A) in Ev. destruct to as [q|]; [|discriminate Ev]. destruct (LC _ _ A) as (qs & Nq & Vq & ->).
        destruct (make_relative _ _) as [cs|] eqn:M; [|discriminate Ev]. injection Ev as <-. apply (relative_below bs qs Nb Nq Vb Vq) in M as (ns' & -> & ->).
        apply Forall_app in Vq as [_ Vq]. rewrite <- slashed_join in *. exists ns'. split; [|split; [now apply slashed_papyri|reflexivity]].
        eapply place_link; [|exact Vq]. rewrite <- below_app. exact A.
      * rewrite (VE ns u A K) in Ev. injection Ev as <-. exists ns. split; [econstructor; eauto|]. split; [|reflexivity]. apply slashed_papyri; [eapply places_valid; eauto|exact Q].
    + intros (ns & Pl & S & ->). destruct Pl as [ns u A N|ns to A V].
      * split; [|apply slashed_papyri; [eapply places_valid; eauto|exact S]]. exists (inr (Some (slashed ns))). split; [|now left]. apply in_map_iff. exists (inr (below dir ns)).
        split; [eapply VE; eauto|]. apply in_walked. exists ns, u. split; [exact A|now left].
      * split; [|now apply slashed_papyri]. exists (inr (Some (slashed to))). split; [|now left]. apply in_map_iff. exists (inr (below dir ns)). split.
        -- rewrite (VL _ _ A). rewrite <- below_app.
           rewrite (proj2 (relative_below bs (bs ++ to) Nb ltac:(destruct bs; [contradiction|discriminate]) Vb (proj2 (Forall_app _ _ _) (conj Vb V)) (map Norm to))) by eauto.
           now rewrite slashed_join.
        -- apply in_walked. eexists ns, _. split; [exact A|now left].
  - intro NL. apply sort_increasing, distinct_filter. rewrite walked_places.
    assert (G : forall ps, (forall x, In x ps -> At t (fst x) (snd x)) -> NoDup (map fst ps) ->
      Distinct (flat_map (fun v : str + option str => match v with inr (Some p) => [p] | _ => [] end) (List.map visit (flat_map (entry_of dir) ps)))).
    { induction ps as [|[ns u] ps IH]; intros HA ND; [constructor|]. cbn [flat_map]. rewrite map_app, flat_map_app. cbn [map fst] in ND. inversion ND as [|? ? Nx Nd]; subst.
      specialize (IH (fun x I => HA x (or_intror I)) Nd). pose proof (HA (ns, u) (or_introl eq_refl)) as A. cbn [fst snd] in A.
      assert (K : forall to, u <> TLink to) by (intros to ->; exact (NL _ _ A)). unfold entry_of at 1. cbn [fst snd List.map flat_map]. rewrite (VE _ _ A K).
      assert (Z : flat_map (fun v : str + option str => match v with inr (Some p) => [p] | _ => [] end) (List.map visit match u with TLocked => [inl (below dir ns)] | _ => [] end) = []) by (destruct u; reflexivity).
      rewrite Z. cbn [app]. constructor; [|exact IH]. apply Forall_forall. intros q Iq Sq. apply in_flat_map in Iq as (v & Iv & Ip). destruct v as [?|[p'|]]; try (now destruct Ip). destruct Ip as [->|[]].
      apply in_map_iff in Iv as (e & Ev & Ie). apply in_flat_map in Ie as ([ns' u'] & I' & Ie). unfold entry_of in Ie. cbn [fst snd] in Ie.
      destruct Ie as [<-|Ie]; [|destruct u'; try (now destruct Ie); destruct Ie as [<-|[]]; discriminate Ev].
      pose proof (HA _ (or_intror I')) as A'. cbn [fst snd] in A'. rewrite (VE _ _ A') in Ev by (intros to ->; exact (NL _ _ A')). injection Ev as <-.
      apply slashed_same in Sq; [|eapply places_valid; eauto|eapply places_valid; eauto]. subst ns'. apply Nx. apply in_map_iff. now exists (ns, u'). }
    apply G; [|now apply nodup_places]. intros [ns u] I. now apply in_places.
  - intro p. rewrite in_flat_map. split.
    + intros (v & Iv & Ip). destruct v as [p'|?]; [|now destruct Ip]. destruct Ip as [->|[]]. apply in_map_iff in Iv as (e & Ev & Ie).
      apply in_walked in Ie as (ns & u & A & Ie). unfold entry_of in Ie. cbn [fst snd] in Ie. exists ns.
      destruct Ie as [<-|Ie].
      * assert (K : (exists to, u = TLink to) \/ forall to, u <> TLink to) by (destruct u; [right; discriminate..|left; eauto]). destruct K as [[to ->]|K].
        -- rewrite (VL _ _ A) in Ev. destruct to; [discriminate Ev|]. injection Ev as <-. auto.
        -- rewrite (VE _ _ A K) in Ev. discriminate Ev.
      * destruct u; try (now destruct Ie). destruct Ie as [<-|[]]. cbn in Ev. injection Ev as <-. auto.
    + intros (ns & -> & [A|A]).
      * exists (inl (below dir ns)). split; [|now left]. apply in_map_iff. exists (inl (below dir ns)). split; [reflexivity|]. apply in_walked. eexists ns, _. split; [exact A|]. right. now left.
      * exists (inl (below dir ns)). split; [|now left]. apply in_map_iff. exists (inr (below dir ns)). split; [now rewrite (VL _ _ A)|]. apply in_walked. eexists ns, _. split; [exact A|]. now left.
Qed.
(** Listing from a program *)
From Verif Require Import M_Names M_Value M_Diag M_State M_Tokenizer M_Native P_NativeText P_Native2.
Lemma slashed_snoc before n : exists pre, forall x, slashed (before ++ [x]) = pre ++ x /\ slashed (before ++ [n]) = pre ++ n.
Proof.
  induction before as [|m before [pre IH]]; [exists []; intro x; now split|]. exists (m ++ lit "/" ++ pre). intro x. destruct (IH x) as [A B].
  assert (G : forall y, slashed ((m :: before) ++ [y]) = m ++ lit "/" ++ slashed (before ++ [y])) by (intro y; destruct before; reflexivity).
  rewrite !G, A, B, <- !app_assoc. now split.
Qed.
Lemma app_suffix_inj {A} (a b s : list A) : a ++ s = b ++ s -> a = b.
Proof. intro E. apply app_inv_tail in E. exact E. Qed.
Lemma trailing_unique d1 d2 s1 s2 : d1 ++ s1 = d2 ++ s2 -> Forall (eq (c_of "/"%string)) s1 -> Forall (eq (c_of "/"%string)) s2 ->
  (forall d, d1 <> d ++ lit "/") -> (forall d, d2 <> d ++ lit "/") -> d1 = d2.
Proof.
  intros E F1 F2 N1 N2. apply app_eq_app in E as (l & [[-> E2]|[-> E1]]).
  - destruct l as [|c l]; [now rewrite app_nil_r|]. exfalso. subst s2. apply Forall_app in F2 as [F2 _].
    destruct (exists_last (l := c :: l)) as (l' & x & E); [discriminate|]. rewrite E in *. apply Forall_app in F2 as [_ F2]. inversion F2; subst. apply (N1 (d2 ++ l')). now rewrite <- app_assoc.
  - destruct l as [|c l]; [now rewrite app_nil_r|]. exfalso. subst s1. apply Forall_app in F1 as [F1 _].
    destruct (exists_last (l := c :: l)) as (l' & x & E); [discriminate|]. rewrite E in *. apply Forall_app in F1 as [_ F1]. inversion F1; subst. apply (N2 (d1 ++ l')). now rewrite <- app_assoc.
Qed.
Lemma forall2_length {A B} (R : A -> B -> Prop) l l' : Forall2 R l l' -> length l = length l'.
Proof. induction 1; cbn; congruence. Qed.
Lemma sources_listed X call load bs src s p canon base t : let d := resolve_relative_path src p false in
  ngetm bs (lit "path") = Some (VStr p) ->
  x_list_dir X d = match find_sources canon (walked d t) d with (errs, Some l) => Some (errs, l) | (_, None) => None end ->
  Resolving canon d base t -> Proper t -> NoLinks t ->
  (forall ns u, At t ns u -> SourceEntry ns -> exists before stem, ns = before ++ [stem ++ lit ".papyri"]) ->
  exists out errs dir slashes, evaluate_native_func X call load FileList bs src s =
      Ok (VList (List.map VStr out)) (set_sink (fold_left (fun k q => sink_add (ModuleErr (IOError q)) k) errs (st_sink s)) s) /\
    (forall q, In q errs <-> exists ns, q = below d ns /\ At t ns TLocked) /\
    p = dir ++ slashes /\ Forall (eq (c_of "/"%string)) slashes /\ (forall q, dir <> q ++ lit "/") /\
    forall o, In o out <-> exists before stem u, At t (before ++ [stem ++ lit ".papyri"]) u /\ stem <> [] /\ o = dir ++ lit "/" ++ slashed (before ++ [stem]).
Proof.
  cbv zeta. intros Hp Hd R P NL Suf.
  destruct (sources_found _ _ _ _ R (fun ns to A => match NL _ _ A with end) P) as (errs & l & E & Inl & _ & Ie). rewrite E in Hd.
  assert (Hf : forall f, In f l -> exists stem, f = stem ++ lit ".papyri").
  { intros f I. apply Inl in I as (ns & Pl & S & ->). destruct Pl as [ns u A _|ns to A _]; [|now destruct (NL _ _ A)]. destruct (Suf _ _ A S) as (before & stem & ->).
    destruct (slashed_snoc before (stem ++ lit ".papyri")) as [pre G]. exists (pre ++ stem). rewrite (proj2 (G [])). apply app_assoc. }
  destruct (listing X call load bs src s p errs l Hp Hd Hf) as (out & Ev & F2).
  assert (T : exists dir slashes, p = dir ++ slashes /\ Forall (eq (c_of "/"%string)) slashes /\ forall q, dir <> q ++ lit "/").
  { exists (trim_slashes p). apply trimmed_slashes. }
  destruct T as (dir & slashes & Ep & Fs & Ns). exists out, errs, dir, slashes. split; [exact Ev|]. split.
  { intro q. rewrite Ie. split; intros (ns & -> & A); [|eauto]. destruct A as [A|A]; [eauto|now destruct (NL _ _ A)]. }
  split; [exact Ep|]. split; [exact Fs|]. split; [exact Ns|].
  assert (K : Forall2 (fun f o => o ++ lit ".papyri" = dir ++ lit "/" ++ f) l out).
  { clear - F2 Ep Fs Ns. induction F2 as [|f o l out (d & E & sl & Ep' & Fs' & Ns') _ IH]; constructor; auto. rewrite E. f_equal.
    apply (trailing_unique d dir sl slashes); auto. congruence. }
  intro o. split.
  - intro I. apply In_nth_error in I as [i I]. destruct (nth_error l i) as [f|] eqn:Ef.
    2:{ apply nth_error_None in Ef. apply forall2_length in K. assert (i < length out) by (apply nth_error_Some; congruence). lia. }
    assert (Eo : o ++ lit ".papyri" = dir ++ lit "/" ++ f).
    { clear - K I Ef. revert i I Ef. induction K; intros [|i] I Ef; cbn in *; try discriminate; [injection I as <-; injection Ef as <-; auto|eauto]. }
    apply nth_error_In in Ef. apply Inl in Ef as (ns & Pl & S & ->). destruct Pl as [ns u A _|ns to A _]; [|now destruct (NL _ _ A)]. destruct (Suf _ _ A S) as (before & stem & ->).
    exists before, stem, u. split; [exact A|]. split.
    { destruct S as (b' & n & st & Eq & Nst & ext & En & Sl). apply app_inj_tail in Eq as [_ <-]. intros ->. cbn [app] in En. apply Nst.
      apply forall2_length in Sl. apply (f_equal (@length _)) in En. rewrite !app_length in En. cbn in En, Sl. destruct st; [reflexivity|]. cbn in En. lia. }
    destruct (slashed_snoc before (stem ++ lit ".papyri")) as [pre G]. rewrite (proj1 (G stem)). rewrite (proj2 (G [])) in Eo. apply app_suffix_inj with (s := lit ".papyri"). rewrite Eo, <- !app_assoc. reflexivity.
  - intros (before & stem & u & A & Nst & ->).
    assert (I : In (slashed (before ++ [stem ++ lit ".papyri"])) l).
    { apply Inl. eexists. split; [econstructor; [exact A|]; intros to ->; exact (NL _ _ A)|]. split; [|reflexivity]. exists before, (stem ++ lit ".papyri"), stem. split; [reflexivity|].
      split; [exact Nst|]. exists (lit "papyri"). split; [reflexivity|]. unfold SameLetters. repeat constructor. }
    apply In_nth_error in I as [i I]. destruct (nth_error out i) as [o|] eqn:Eo.
    2:{ apply nth_error_None in Eo. apply forall2_length in K. assert (i < length l) by (apply nth_error_Some; congruence). lia. }
    assert (E2 : o ++ lit ".papyri" = dir ++ lit "/" ++ slashed (before ++ [stem ++ lit ".papyri"])).
    { clear - K I Eo. revert i I Eo. induction K; intros [|i] I Ef; cbn in *; try discriminate; [injection I as <-; injection Ef as <-; auto|eauto]. }
    apply nth_error_In in Eo. destruct (slashed_snoc before (stem ++ lit ".papyri")) as [pre G]. rewrite (proj2 (G [])) in E2. rewrite (proj1 (G stem)).
    replace (dir ++ lit "/" ++ pre ++ stem) with o; [exact Eo|]. apply app_suffix_inj with (s := lit ".papyri"). rewrite E2, <- !app_assoc. reflexivity.
Qed.
