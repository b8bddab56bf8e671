(** Proofs for C83: a compiler that has been used differs from a new one by more scopes. *)
From Verif Require Import Base BaseFacts M_Int M_Text M_Names M_Html M_Path M_Types M_Diag M_Ast M_Value M_State M_Native M_Eval
  S_Types S_Scope S_Call S_Safe P_Types P_State P_Built S_Alone P_Shift1 P_Shift2 P_Shift5.

(** ** Values that refer to scopes below [n] only *)
Section Same.
  Variable n : nat.
  Variable r : nat -> nat.
  Hypothesis Hr : forall i, i < n -> r i = i.
  Definition H (v : value) : Prop := forall w, Within v w -> GoodHere Lax n w.
  Definition Hd (p : fparam) : Prop := match p_default p with Some v => H v | None => True end.
  Definition Hs (s : fsig) : Prop :=
    Forall Hd (s_positional s) /\ match s_spread s with Some p => Hd p | None => True end /\ Forall Hd (nvalues (s_named s)) /\
    match s_spread_named s with Some p => Hd p | None => True end /\ Hd (s_content s).
  Notation rv := (rv r). Notation rf := (rf r). Notation rp := (rp r). Notation rs := (rs r). Notation rpp := (rpp r).
  Lemma forall_cons A (P : A -> Prop) a l : Forall P (a :: l) -> P a /\ Forall P l.
  Proof. intro F. now inversion F. Qed.
  Lemma h_in l v : (forall x, In x l -> H x) -> In v l -> H v. Proof. auto. Qed.
  Lemma defaults_hs s : Forall H (defaults s) -> Hs s.
  Proof.
    intro F. assert (G : forall p, In p (params s ++ [s_content s]) -> Hd p).
    { intros p I. unfold Hd. destruct (p_default p) as [v|] eqn:E; [|exact Logic.I]. rewrite Forall_forall in F. apply F. unfold defaults.
      apply in_flat_map. exists p. split; [exact I|]. rewrite E. now left. }
    unfold Hs, params in *. repeat split; try (apply Forall_forall; intros p I; apply G; rewrite !in_app_iff; tauto).
    - destruct (s_spread s) as [p|]; [|exact I]. apply G. rewrite !in_app_iff. cbn. tauto.
    - destruct (s_spread_named s) as [p|]; [|exact I]. apply G. rewrite !in_app_iff. cbn. tauto.
    - apply G. rewrite in_app_iff. right. now left.
  Qed.
  Fixpoint same_v (v : value) {struct v} : H v -> rv v = v
  with same_f (f : func) {struct f} : GoodFunc Lax n f -> Forall H (held f) -> rf f = f
  with same_p (p : fparam) {struct p} : Hd p -> rp p = p
  with same_s (s : fsig) {struct s} : Hs s -> rs s = s
  with same_pp (p : partials) {struct p} : Forall H (partial_values p) -> rpp p = p.
  Proof.
    - intro G. destruct v as [| | |vs|vs| |f|]; try reflexivity.
      + change (rv (VDict vs)) with (VDict (rm rv vs)). f_equal.
        assert (F : Forall H (nvalues vs)) by (apply Forall_forall; intros x I w W; apply G; now apply W_dict with x). clear G.
        revert vs F. fix go 1. intros [|[k v] vs] F; [reflexivity|]. apply forall_cons in F as [A B].
        change (rm rv ((k, v) :: vs)) with ((k, rv v) :: rm rv vs). f_equal; [f_equal; now apply same_v|now apply go].
      + change (rv (VList vs)) with (VList (List.map rv vs)). f_equal.
        assert (F : Forall H vs) by (apply Forall_forall; intros x I w W; apply G; now apply W_list with x). clear G.
        revert vs F. fix go 1. intros [|v vs] F; [reflexivity|]. apply forall_cons in F as [A B]. cbn [List.map]. f_equal; [now apply same_v|now apply go].
      + change (rv (VFunc f)) with (VFunc (rf f)). f_equal. apply same_f; [exact (G _ (W_here _))|].
        apply Forall_forall. intros x I w W. apply G. now apply W_func with x.
    - destruct f as [x c s b|g x s|f p]; intros G F.
      + change (rf (FClosure x c s b)) with (FClosure x (r c) (rs s) b). destruct G as (G & _). rewrite (Hr _ G). f_equal.
        apply same_s. now apply defaults_hs.
      + change (rf (FNative g x s)) with (FNative g x (rs s)). cbn in G. rewrite G. now rewrite rs_native.
      + change (rf (FBound f p)) with (FBound (rf f) (rpp p)). destruct G as [G _]. cbn [held] in F. apply Forall_app in F as [F1 F2].
        f_equal; [now apply same_f|now apply same_pp].
    - destruct p as [x i t [v|]]; intro G; [|reflexivity]. change (rp (FParam x i t (Some v))) with (FParam x i t (Some (rv v))).
      do 2 f_equal. apply same_v. exact G.
    - destruct s as [ps sp nm sn c]. intros (A & B & C & D & E). cbn [s_positional s_spread s_named s_spread_named s_content] in *.
      change (rs (FSig ps sp nm sn c)) with (FSig (List.map rp ps) (match sp with Some q => Some (rp q) | None => None end) (rm rp nm)
        (match sn with Some q => Some (rp q) | None => None end) (rp c)).
      f_equal.
      + clear - A same_p. revert ps A. fix go 1. intros [|p ps] F; [reflexivity|]. apply forall_cons in F as [A B]. cbn [List.map]. f_equal; [now apply same_p|now apply go].
      + destruct sp as [q|]; [|reflexivity]. f_equal. now apply same_p.
      + clear - C same_p. revert nm C. fix go 1. intros [|[k p] ps] F; [reflexivity|]. apply forall_cons in F as [A B].
        change (rm rp ((k, p) :: ps)) with ((k, rp p) :: rm rp ps). f_equal; [f_equal; now apply same_p|now apply go].
      + destruct sn as [q|]; [|reflexivity]. f_equal. now apply same_p.
      + now apply same_p.
    - destruct p as [c sp sn m]. intro F. rewrite rpp_eq. unfold partial_values in F. cbn [pp_spread_pos pp_spread_named pp_map] in F.
      apply Forall_app in F as [F1 F]. apply Forall_app in F as [F2 F3].
      f_equal.
      + clear - F1 same_v. revert sp F1. fix go 1. intros [|v vs] F; [reflexivity|]. apply forall_cons in F as [A B]. cbn [List.map]. f_equal; [now apply same_v|now apply go].
      + clear - F2 same_v. revert sn F2. fix go 1. intros [|[k v] vs] F; [reflexivity|]. apply forall_cons in F as [A B].
        change (rm rv ((k, v) :: vs)) with ((k, rv v) :: rm rv vs). f_equal; [f_equal; now apply same_v|now apply go].
      + clear - F3 same_v. revert m F3. fix go 1. intros [|[k v] vs] F; [reflexivity|]. apply forall_cons in F as [A B].
        change (rm rv ((k, v) :: vs)) with ((k, rv v) :: rm rv vs). f_equal; [f_equal; now apply same_v|now apply go].
  Qed.
End Same.

(** ** The state of a compiler between sources *)
Lemma prefix_ext A (a b : list A) : length a <= length b -> (forall i x, nth_error a i = Some x -> nth_error b i = Some x) -> exists c, b = a ++ c.
Proof.
  revert b. induction a as [|x a IH]; intros b L E; [now exists b|]. destruct b as [|y b]; [cbn in L; lia|].
  pose proof (E 0 x eq_refl) as E0. injection E0 as ->. destruct (IH b) as [c ->]; [cbn in L; lia|intros i z Hz; exact (E (S i) z Hz)|].
  now exists c.
Qed.
Definition SamePlace (s0 s : st) : Prop :=
  (exists extra, st_heap s = st_heap s0 ++ extra) /\ st_stack s = [] /\ st_exports s = [] /\ st_root s = st_root s0 /\
  sk_level (st_sink s) = sk_level (st_sink s0) /\
  match st_out s0, st_out s with None, None => True | Some o, Some o' => base_path o' = base_path o | _, _ => False end.
Lemma built_level K w A (m : EM A) : Built K w A m -> forall s s', after (m s) = Some s' -> sk_level (st_sink s') = sk_level (st_sink s).
Proof. apply (built_rel (fun s s' => sk_level (st_sink s') = sk_level (st_sink s))); intros; cbn in *; congruence. Qed.
Lemma report_all_exports es : forall s, exists s', report_all es s = Ok tt s' /\ st_exports s' = st_exports s.
Proof.
  induction es as [|e es IH]; intro s; cbn [report_all]; [eexists; split; reflexivity|]. unfold bind, report, modify.
  destruct (IH (set_sink (sink_add e (st_sink s)) s)) as (s' & E & X). exists s'. split; [exact E|]. rewrite X. reflexivity.
Qed.
Lemma source_exports X R p t k s s' : after (compile_source X R p t k s) = Some s' -> st_exports s' = st_exports s.
Proof.
  unfold compile_source, bind, pure. destruct (parse_source X p t) as [[root errs]| |]; [|discriminate|discriminate].
  destruct (report_all_exports errs s) as (s1 & -> & E). unfold with_compiler. rewrite <- E.
  destruct (compile_sequence _ _ _ _ _); cbn; intro Q; inversion Q; reflexivity.
Qed.
Lemma load_exports X R p s s' : after (load_uncached X R p s) = Some s' -> st_exports s' = st_exports s.
Proof. unfold load_uncached. destruct (x_read X p); [apply source_exports|]. cbn. now intros [= <-]. Qed.
Lemma built_place s0 K w A (m : EM A) s s' : Built K w A m -> after (m s) = Some s' -> st_exports s' = st_exports s -> SamePlace s0 s -> SamePlace s0 s'.
Proof.
  intros B E X ((extra & Hh) & Hs & He & Hr & Hl & Ho). destruct (frame_rule _ _ _ _ B _ _ E) as (Fs & Fr & Fl & Ff).
  pose proof (built_level _ _ _ _ B _ _ E) as L. pose proof (built_out _ _ _ _ B _ _ E) as C. unfold Collected in C.
  split; [|repeat split; try congruence].
  - destruct (prefix_ext _ (st_heap s) (st_heap s') Fl) as [c Hc].
    { intros i f Hf. destruct (Ff i f Hf) as (f' & Hf' & _ & K'). rewrite Hf'. f_equal. apply K'. now rewrite Hs. }
    exists (extra ++ c). rewrite Hc, Hh, app_assoc. reflexivity.
  - destruct (st_out s0), (st_out s), (st_out s'); try contradiction; auto. destruct C as [C _]. congruence.
Qed.
Lemma reset_place s s' : reset s = Ok tt s' ->
  s' = set_uids [] (set_sink (sink_clear (st_sink s)) s) /\ forall o, st_out s = Some o -> out_v o = [].
Proof.
  unfold reset, bind, modify, gets. cbn [set_uids set_sink st_out]. destruct (st_out s) as [o|].
  - unfold out_is_empty. destruct (out_v o) eqn:E; [|discriminate]. intros [= <-]. split; [reflexivity|]. now intros o' [= <-].
  - intros [= <-]. split; [reflexivity|discriminate].
Qed.
Lemma used_place s0 s : SamePlace s0 s0 -> Used s0 s -> SamePlace s0 s.
Proof.
  intros P. induction 1 as [|X fuel path text s1 s2 U IH E|X fuel path s1 s2 U IH E|s1 o U IH E|s1 s2 U IH E]; [exact P|..].
  - eapply built_place; [exact (built_compile X fuel path text false)|exact E|eapply source_exports; exact E|exact IH].
  - eapply built_place; [apply (built_load_uncached any_key X (evals_n X fuel)) with (w := false)| exact E|eapply load_exports; exact E|exact IH];
      intros; first [apply built_evals | idtac]; intros; try exact I.
  - destruct IH as (Hh & Hs & He & Hr & Hl & Ho). repeat split; cbn [set_out st_heap st_stack st_exports st_root st_sink st_out]; auto.
    rewrite E in Ho. destruct (st_out s0); [|contradiction]. exact Ho.
  - apply reset_place in E as [-> _]. exact IH.
Qed.

(** The state of a compiler that is new, but for its collected files *)
Record Starting (s0 : st) : Prop := {
  sg_frames : Forall (GoodFrame Lax (length (st_heap s0))) (st_heap s0);
  sg_running : Running s0;
  sg_place : SamePlace s0 s0;
  sg_mods : st_mods s0 = [];
  sg_trace : st_trace s0 = [];
  sg_uids : st_uids s0 = [];
  sg_sink : st_sink s0 = sink_new (sk_level (st_sink s0));
  sg_out : forall o, st_out s0 = Some o -> out_v o = []
}.
Lemma starting_shifted s0 s1 s : Starting s0 -> Used s0 s1 -> reset s1 = Ok tt s -> exists extra,
  s = sh (length (st_heap s0)) extra (st_mods s) (st_trace s) s0.
Proof.
  intros [F [W [Rt _]] P M T U S O] Us E. pose proof (used_place _ _ P Us) as ((extra & Hh) & Hs & He & Hr & Hl & Ho).
  apply reset_place in E as [-> V]. exists extra. unfold sh. destruct P as (_ & Ps & Pe & _).
  rewrite M, T, U, Ps, Pe, !app_nil_r. cbn [rm List.map]. destruct s1 as [h k sk ex md ou ui ro tr]. cbn in *. subst.
  unfold set_uids, set_sink. cbn [st_heap st_stack st_sink st_exports st_mods st_out st_uids st_root st_trace]. f_equal.
  - unfold sh_heap. rewrite firstn_all, skipn_all. cbn [List.map]. rewrite app_nil_r. f_equal. transitivity (List.map (fun x => x) (st_heap s0)); [symmetry; apply map_id|]. apply map_ext_in.
    intros f I. apply In_nth_error in I as [i I]. rewrite Forall_forall in F. pose proof (F f (nth_error_In _ _ I)) as [[_ G] _].
    assert (Hlt : forall j, j < length (st_heap s0) -> r (length (st_heap s0)) extra j = j).
    { intros j Hj. unfold r. apply Nat.ltb_lt in Hj. now rewrite Hj. }
    destruct f as [pa lo im]. unfold rfr. cbn [fr_parent fr_locals fr_implicit] in *. symmetry. f_equal.
    + destruct pa as [p|]; [|reflexivity]. cbn [option_map]. f_equal. apply Hlt. pose proof (W i _ p I eq_refl).
      assert (i < length (st_heap s0)) by (apply nth_error_Some; congruence). lia.
    + clear - G Hlt. induction lo as [|[k v] lo IH]; [reflexivity|]. apply forall_cons in G as [G1 G2].
      change (rm ?f ((k, v) :: lo)) with ((k, f v) :: rm f lo). f_equal; [f_equal|now apply IH]. eapply same_v; [exact Hlt|exact G1].
  - rewrite S. unfold sink_clear, sink_new. now rewrite Hl.
  - destruct (st_out s0) as [o|]; destruct ou as [o'|]; try contradiction; auto. specialize (V _ eq_refl). specialize (O _ eq_refl).
    destruct o, o'. cbn in *. now subst.
  - unfold r. apply Nat.ltb_lt in Rt. now rewrite Rt.
Qed.
