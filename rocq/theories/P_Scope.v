(** Lookup of names, and which scopes evaluation can change. *)
From Verif Require Import Base BaseFacts M_Text P_Text M_Names M_Html M_Path M_Types M_Diag M_Ast M_Value M_State M_Matcher M_Binder
  M_Native M_Eval P_Built S_Scope P_State.

Lemma enclosing_exists h : WellScoped h -> forall i, i < length h -> exists is, Enclosing h i is.
Proof.
  intros Hw i. induction i as [i IH] using (well_founded_induction lt_wf). intro Hi.
  destruct (nth_error h i) as [f|] eqn:E; [|apply nth_error_None in E; lia].
  destruct (fr_parent f) as [p|] eqn:Ep.
  - pose proof (Hw i f p E Ep) as Hp. destruct (IH p Hp) as [is His]; [lia|]. exists (i :: is). eapply enc_in; eauto.
  - exists [i]. eapply enc_top; eauto.
Qed.
Lemma enclosing_fun h i is is' : Enclosing h i is -> Enclosing h i is' -> is = is'.
Proof.
  intro H. revert is'. induction H as [i f Hf Hp|i f p is Hf Hp H IH]; intros is' H'; inversion H' as [i' f' Hf' Hp'|i' f' p' is2 Hf' Hp' H2]; subst.
  - reflexivity.
  - congruence.
  - congruence.
  - f_equal. apply IH. congruence.
Qed.
Lemma enclosing_lt h i is j : WellScoped h -> Enclosing h i is -> In j is -> j <= i /\ j < length h.
Proof.
  intros Hw H. induction H as [i f Hf Hp|i f p is Hf Hp H IH]; intros [<-|Hj]; try contradiction;
    try (split; [lia|]; apply nth_error_Some; congruence).
  specialize (IH Hj). pose proof (Hw i f p Hf Hp). lia.
Qed.

Definition Binds (imp : bool) h n i v := if imp then BindsImplicitlyAt h i n v else BindsAt h i n v.
Lemma binds_fun imp h n i v w : Binds imp h n i v -> Binds imp h n i w -> v = w.
Proof. destruct imp; intros (f & H & H') (f' & G & G'); [destruct H', G'|]; congruence. Qed.
Lemma innermost_fun (B : nat -> value -> Prop) is v w : (forall i v w, B i v -> B i w -> v = w) ->
  Innermost B is v -> Innermost B is w -> v = w.
Proof.
  intros HB (a & i & b & -> & Hv & Ha) (a' & i' & b' & E & Hw & Ha').
  assert (i = i').
  { revert a' E Ha'. induction a as [|x a IH]; intros [|x' a'] E Ha'; cbn in E; injection E as E1 E2.
    - exact E1.
    - exfalso. apply (Ha' x' (or_introl eq_refl) v). congruence.
    - exfalso. apply (Ha x (or_introl eq_refl) w). congruence.
    - apply (IH ltac:(intros; apply Ha; now right) a' E2). intros. apply Ha'. now right. }
  subst i'. eapply HB; eauto.
Qed.
Lemma innermost_nowhere (B : nat -> value -> Prop) is v : Innermost B is v -> Nowhere B is -> False.
Proof. intros (a & i & b & -> & Hv & _) H. apply (H i) with v; [|exact Hv]. apply in_app_iff. right. now left. Qed.

Lemma frame_get_fuel_spec h n imp : WellScoped h -> forall i is, Enclosing h i is -> forall fuel, i < fuel ->
  match frame_get_fuel fuel h i n imp with
  | Some v => Innermost (Binds imp h n) is v
  | None => Nowhere (Binds imp h n) is
  end.
Proof.
  intros Hw i is H. induction H as [i f Hf Hp|i f p is Hf Hp H IH]; intros fuel Hi; (destruct fuel as [|fuel]; [lia|]);
    cbn [frame_get_fuel]; rewrite Hf.
  - destruct (if negb imp || mem n (fr_implicit f) then ngetm (fr_locals f) n else None) as [v|] eqn:E.
    + exists [], i, []. split; [reflexivity|]. split; [|intros ? []]. unfold Binds. destruct imp; cbn [negb orb] in E.
      * destruct (mem n (fr_implicit f)) eqn:Em; [|discriminate]. exists f. repeat split; auto. now apply mem_In.
      * exists f. auto.
    + rewrite Hp. intros j [<-|[]] w Hb. unfold Binds in Hb. destruct imp; cbn [negb orb] in E.
      * destruct Hb as (f' & Hf' & Hv & Hm). assert (f' = f) by congruence. subst f'. apply mem_In in Hm. rewrite Hm in E. congruence.
      * destruct Hb as (f' & Hf' & Hv). congruence.
  - destruct (if negb imp || mem n (fr_implicit f) then ngetm (fr_locals f) n else None) as [v|] eqn:E.
    + exists [], i, is. split; [reflexivity|]. split; [|intros ? []]. unfold Binds. destruct imp; cbn [negb orb] in E.
      * destruct (mem n (fr_implicit f)) eqn:Em; [|discriminate]. exists f. repeat split; auto. now apply mem_In.
      * exists f. auto.
    + assert (Hno : forall w, ~ Binds imp h n i w).
      { intros w Hb. unfold Binds in Hb. destruct imp; cbn [negb orb] in E.
        - destruct Hb as (f' & Hf' & Hv & Hm). assert (f' = f) by congruence. subst f'. apply mem_In in Hm. rewrite Hm in E. congruence.
        - destruct Hb as (f' & Hf' & Hv). congruence. }
      rewrite Hp. specialize (IH fuel). pose proof (Hw i f p Hf Hp).
      destruct (frame_get_fuel fuel h p n imp) as [v|].
      * destruct IH as (a & j & b & -> & Hv & Ha); [lia|]. exists (i :: a), j, b. split; [reflexivity|]. split; [exact Hv|].
        intros j' [<-|Hj']; auto.
      * intros j [<-|Hj]; [exact Hno|]. apply IH; [lia|exact Hj].
Qed.
Lemma frame_get_spec h i n imp is : WellScoped h -> Enclosing h i is ->
  match frame_get h i n imp with
  | Some v => Innermost (Binds imp h n) is v
  | None => Nowhere (Binds imp h n) is
  end.
Proof. intros. apply frame_get_fuel_spec; auto. Qed.
Lemma frame_get_some h i n v : WellScoped h -> i < length h -> (frame_get h i n false = Some v <-> Means h i n v).
Proof.
  intros Hw Hi. destruct (enclosing_exists h Hw i Hi) as [is His]. pose proof (frame_get_spec h i n false is Hw His) as H. split.
  - intro E. rewrite E in H. exists is. auto.
  - intros (is' & His' & HI). rewrite (enclosing_fun _ _ _ _ His' His) in HI.
    destruct (frame_get h i n false) as [w|].
    + f_equal. eapply innermost_fun; [apply (binds_fun false)|exact H|exact HI].
    + exfalso. eapply innermost_nowhere; eauto.
Qed.
Lemma frame_get_none h i n : WellScoped h -> i < length h -> (frame_get h i n false = None <-> MeansNothing h i n).
Proof.
  intros Hw Hi. destruct (enclosing_exists h Hw i Hi) as [is His]. pose proof (frame_get_spec h i n false is Hw His) as H. split.
  - intro E. rewrite E in H. exists is. auto.
  - intros (is' & His' & HI). rewrite (enclosing_fun _ _ _ _ His' His) in HI.
    destruct (frame_get h i n false) as [w|]; [|reflexivity]. exfalso. eapply innermost_nowhere; eauto.
Qed.
Lemma frame_get_imp_some h i n v : WellScoped h -> i < length h -> (frame_get h i n true = Some v <-> MeansImplicitly h i n v).
Proof.
  intros Hw Hi. destruct (enclosing_exists h Hw i Hi) as [is His]. pose proof (frame_get_spec h i n true is Hw His) as H. split.
  - intro E. rewrite E in H. exists is. auto.
  - intros (is' & His' & HI). rewrite (enclosing_fun _ _ _ _ His' His) in HI.
    destruct (frame_get h i n true) as [w|].
    + f_equal. eapply innermost_fun; [apply (binds_fun true)|exact H|exact HI].
    + exfalso. eapply innermost_nowhere; eauto.
Qed.
Lemma frame_get_imp_none h i n : WellScoped h -> i < length h -> (frame_get h i n true = None <-> MeansNothingImplicitly h i n).
Proof.
  intros Hw Hi. destruct (enclosing_exists h Hw i Hi) as [is His]. pose proof (frame_get_spec h i n true is Hw His) as H. split.
  - intro E. rewrite E in H. exists is. auto.
  - intros (is' & His' & HI). rewrite (enclosing_fun _ _ _ _ His' His) in HI.
    destruct (frame_get h i n true) as [w|]; [|reflexivity]. exfalso. eapply innermost_nowhere; eauto.
Qed.
Lemma running_current s i k : Running s -> st_stack s = i :: k -> WellScoped (st_heap s) /\ i < length (st_heap s).
Proof. intros (H1 & _ & H3) E. rewrite E in H3. inversion H3; subst. auto. Qed.

Lemma frame_lookup_eq n imp s i k : st_stack s = i :: k -> frame_lookup n imp s = Ok (frame_get (st_heap s) i n imp) s.
Proof. intro E. unfold frame_lookup, bind, frame_id. rewrite E. reflexivity. Qed.
Lemma get_var_eq n s i k : st_stack s = i :: k ->
  get_var n s = match frame_get (st_heap s) i n false with
                | Some v => Ok v s
                | None => Err (NameErr (NoSuchVariable n)) s
                end.
Proof. intro E. unfold get_var, bind. rewrite (frame_lookup_eq _ _ _ _ _ E). destruct (frame_get _ _ _ _); reflexivity. Qed.
Lemma get_implicit_eq n d s i k : st_stack s = i :: k ->
  get_implicit n d s = match frame_get (st_heap s) i n true with
                | Some v => Ok v s
                | None => match d with
                          | Some v => Ok v s
                          | None => Err (RuntimeErr (match frame_get (st_heap s) i n false with
                                                     | Some _ => ParamExistsButNotImplicit n
                                                     | None => ParamMissingImplicit n end)) s
                          end
                end.
Proof.
  intro E. unfold get_implicit, bind. rewrite !(frame_lookup_eq _ _ _ _ _ E). destruct (frame_get _ _ _ _); [reflexivity|].
  destruct d; [reflexivity|]. rewrite (frame_lookup_eq _ _ _ _ _ E). reflexivity.
Qed.
Lemma get_var_spec s i k n : Running s -> st_stack s = i :: k ->
  (forall v, get_var n s = Ok v s <-> Means (st_heap s) i n v) /\
  (get_var n s = Err (NameErr (NoSuchVariable n)) s <-> MeansNothing (st_heap s) i n) /\
  ((exists v, Means (st_heap s) i n v) \/ MeansNothing (st_heap s) i n).
Proof.
  intros Hr E. destruct (running_current s i k Hr E) as [Hw Hi]. rewrite (get_var_eq n s i k E). split; [|split].
  - intro v. rewrite <- (frame_get_some _ _ _ _ Hw Hi). destruct (frame_get _ _ _ _); split; congruence.
  - rewrite <- (frame_get_none _ _ _ Hw Hi). destruct (frame_get _ _ _ _); split; congruence.
  - destruct (frame_get (st_heap s) i n false) as [v|] eqn:Eg.
    + left. exists v. now apply frame_get_some.
    + right. now apply frame_get_none.
Qed.
Lemma get_implicit_spec s i k n d : Running s -> st_stack s = i :: k ->
  (forall v, MeansImplicitly (st_heap s) i n v -> get_implicit n d s = Ok v s) /\
  (MeansNothingImplicitly (st_heap s) i n ->
     (forall v, d = Some v -> get_implicit n d s = Ok v s) /\
     (forall v, d = None -> Means (st_heap s) i n v -> get_implicit n d s = Err (RuntimeErr (ParamExistsButNotImplicit n)) s) /\
     (d = None -> MeansNothing (st_heap s) i n -> get_implicit n d s = Err (RuntimeErr (ParamMissingImplicit n)) s)) /\
  ((exists v, MeansImplicitly (st_heap s) i n v) \/ MeansNothingImplicitly (st_heap s) i n).
Proof.
  intros Hr E. destruct (running_current s i k Hr E) as [Hw Hi]. rewrite (get_implicit_eq n d s i k E). split; [|split].
  - intros v H. apply (frame_get_imp_some _ _ _ _ Hw Hi) in H. now rewrite H.
  - intro H. apply (frame_get_imp_none _ _ _ Hw Hi) in H. rewrite H. repeat split.
    + now intros v ->.
    + intros v -> Hm. apply (frame_get_some _ _ _ _ Hw Hi) in Hm. now rewrite Hm.
    + intros -> Hm. apply (frame_get_none _ _ _ Hw Hi) in Hm. now rewrite Hm.
  - destruct (frame_get (st_heap s) i n true) as [v|] eqn:Eg.
    + left. exists v. now apply frame_get_imp_some.
    + right. now apply frame_get_imp_none.
Qed.

(** ** Scopes that are not inside a changed one keep their meaning *)
Lemma means_local h h' j is n v : Enclosing h j is -> (forall i, In i is -> nth_error h' i = nth_error h i) ->
  (Means h j n v <-> Means h' j n v) /\ Enclosing h' j is.
Proof.
  intros He Hs.
  assert (He' : Enclosing h' j is).
  { induction He as [i f Hf Hp|i f p is Hf Hp He IH].
    - eapply enc_top; [rewrite Hs by (now left); exact Hf|exact Hp].
    - eapply enc_in; [rewrite Hs by (now left); exact Hf|exact Hp|]. apply IH. intros. apply Hs. now right. }
  split; [|exact He'].
  assert (HB : forall i w, In i is -> (BindsAt h i n w <-> BindsAt h' i n w)).
  { intros i w Hi. unfold BindsAt. rewrite (Hs i Hi). reflexivity. }
  split; intros (is' & Hx & a & i & b & -> & Hv & Ha).
  - rewrite (enclosing_fun _ _ _ _ He Hx) in *. exists (a ++ i :: b). split; [exact He'|]. exists a, i, b. split; [reflexivity|]. split.
    + apply HB; [apply in_app_iff; right; now left|exact Hv].
    + intros i' Hi' w Hw. apply (Ha i' Hi' w). apply HB; [apply in_app_iff; now left|exact Hw].
  - rewrite (enclosing_fun _ _ _ _ He' Hx) in *. exists (a ++ i :: b). split; [exact He|]. exists a, i, b. split; [reflexivity|]. split.
    + apply HB; [apply in_app_iff; right; now left|exact Hv].
    + intros i' Hi' w Hw. apply (Ha i' Hi' w). apply HB; [apply in_app_iff; now left|exact Hw].
Qed.
Lemma same_elsewhere_means s s' j is n v : SameElsewhere s s' -> Enclosing (st_heap s) j is ->
  (forall c, hd_error (st_stack s) = Some c -> ~ In c is) ->
  (Means (st_heap s) j n v <-> Means (st_heap s') j n v).
Proof.
  intros (A1 & B1 & C1 & D1) He Hc. apply (means_local _ _ _ is); [exact He|]. intros i Hi.
  assert (Hf : exists f, nth_error (st_heap s) i = Some f).
  { clear - He Hi. induction He as [i' f Hf Hp|i' f p is Hf Hp He IH]; destruct Hi as [<-|Hi]; eauto; contradiction. }
  destruct Hf as [f Hf]. destruct (D1 i f Hf) as (f' & Hf' & _ & Hq). rewrite Hf', Hf. f_equal. apply Hq.
  intro Hh. exact (Hc i Hh Hi).
Qed.
Lemma same_scopes_means s s' j n v : WellScoped (st_heap s) -> SameScopes s s' -> j < length (st_heap s) ->
  (Means (st_heap s) j n v <-> Means (st_heap s') j n v).
Proof.
  intros Hw (A1 & B1 & new & ->) Hj. destruct (enclosing_exists _ Hw j Hj) as [is His].
  apply (means_local _ _ _ is); [exact His|]. intros i Hi. apply nth_error_app1. eapply enclosing_lt; eauto.
Qed.

(** ** Declaring a name *)
Lemma set_var_eq n v imp s i k : st_stack s = i :: k ->
  exists d, set_var n v imp s = Ok tt (set_sink d (set_heap (update (st_heap s) i (fr_set n v imp)) s)).
Proof.
  intro E. unfold set_var, frame_set, frame_has, with_frame, bind, frame_id, gets, modify. st_simpl. rewrite !E. st_simpl.
  destruct (match nth_error (st_heap s) i with Some f => fr_has n f | None => false end); eexists; reflexivity.
Qed.
Lemma set_add_iff n m out : In n (set_add m out) <-> n = m \/ In n out.
Proof.
  unfold set_add. destruct (mem m out) eqn:E; [|rewrite in_app_iff; cbn; intuition].
  apply mem_In in E. split; [auto|]. intros [-> | H]; assumption.
Qed.
Lemma declare_implicit s i k n v imp : Running s -> st_stack s = i :: k ->
  exists s', set_var n v imp s = Ok tt s' /\
    (forall j m w, j <> i \/ m <> n -> (BindsImplicitlyAt (st_heap s') j m w <-> BindsImplicitlyAt (st_heap s) j m w)) /\
    (forall w, BindsImplicitlyAt (st_heap s') i n w <->
       w = v /\ (imp = true \/ exists f, nth_error (st_heap s) i = Some f /\ In n (fr_implicit f))).
Proof.
  intros Hr E. destruct (running_current s i k Hr E) as [Hw Hi]. destruct (set_var_eq n v imp s i k E) as [d Hd].
  eexists. split; [exact Hd|]. st_simpl. set (h := st_heap s) in *.
  destruct (nth_error h i) as [f|] eqn:Hf; [|apply nth_error_None in Hf; lia].
  assert (Hu : nth_error (update h i (fr_set n v imp)) i = Some (fr_set n v imp f)) by (apply update_same; exact Hf). split.
  - intros j m w Hne. unfold BindsImplicitlyAt. destruct (Nat.eq_dec j i) as [-> | Hji].
    + destruct Hne as [Hne|Hne]; [congruence|]. rewrite Hu, Hf.
      split; intros (g & Eg & Hl & Him); injection Eg as <-; (eexists; split; [reflexivity|]); unfold fr_set in *; cbn [fr_locals fr_implicit] in *;
        rewrite ngetm_ninsert_other in * by congruence; (split; [exact Hl|]); destruct imp; auto; rewrite set_add_iff in *; tauto.
    + rewrite update_other by congruence. reflexivity.
  - intros w. unfold BindsImplicitlyAt. rewrite Hu. split.
    + intros (g & Eg & Hl & Him). injection Eg as <-. unfold fr_set in Hl, Him. cbn [fr_locals fr_implicit] in *.
      rewrite ngetm_ninsert_same in Hl. injection Hl as <-. split; [reflexivity|]. destruct imp; [auto|]. right. eauto.
    + intros (-> & H). eexists. split; [reflexivity|]. unfold fr_set. cbn [fr_locals fr_implicit]. rewrite ngetm_ninsert_same.
      split; [reflexivity|]. destruct H as [-> | (g & Eg & H)]; [rewrite set_add_iff; auto|]. injection Eg as <-.
      destruct imp; [rewrite set_add_iff; auto|exact H].
Qed.
Lemma update_enclosing h i g : (forall f, fr_parent (g f) = fr_parent f) -> forall j is,
  Enclosing h j is -> Enclosing (update h i g) j is.
Proof.
  intros Hg j is H. induction H as [j f Hf Hp|j f p is Hf Hp H IH].
  - destruct (Nat.eq_dec j i) as [->|Hn].
    + eapply enc_top; [apply update_same; exact Hf|now rewrite Hg].
    + eapply enc_top; [rewrite update_other by exact Hn; exact Hf|exact Hp].
  - destruct (Nat.eq_dec j i) as [->|Hn].
    + eapply enc_in; [apply update_same; exact Hf|rewrite Hg; exact Hp|exact IH].
    + eapply enc_in; [rewrite update_other by exact Hn; exact Hf|exact Hp|exact IH].
Qed.
Lemma fr_set_getm n v imp f m : ngetm (fr_locals (fr_set n v imp f)) m = if str_eqb m n then Some v else ngetm (fr_locals f) m.
Proof.
  cbn [fr_set fr_locals]. destruct (str_eqb m n) eqn:E.
  - apply str_eqb_eq in E as ->. apply ngetm_ninsert_same.
  - apply ngetm_ninsert_other. intros ->. now rewrite str_eqb_refl in E.
Qed.
Lemma set_var_spec s i k n v imp : Running s -> st_stack s = i :: k ->
  exists s', set_var n v imp s = Ok tt s' /\
    Means (st_heap s') i n v /\
    (forall j m w, j < length (st_heap s) -> m <> n -> (Means (st_heap s) j m w <-> Means (st_heap s') j m w)) /\
    (forall j is w, Enclosing (st_heap s) j is -> ~ In i is -> (Means (st_heap s) j n w <-> Means (st_heap s') j n w)) /\
    (forall j inner outer, Enclosing (st_heap s) j (inner ++ i :: outer) ->
       (forall c w, In c inner -> ~ BindsAt (st_heap s) c n w) -> ~ In i inner -> Means (st_heap s') j n v).
Proof.
  intros Hr E. destruct (running_current s i k Hr E) as [Hw Hi]. destruct (set_var_eq n v imp s i k E) as [d Hd].
  eexists. split; [exact Hd|]. st_simpl. set (h := st_heap s) in *. set (h' := update h i (fr_set n v imp)).
  assert (He' : forall j is, Enclosing h j is -> Enclosing h' j is) by (apply update_enclosing; reflexivity).
  destruct (nth_error h i) as [f|] eqn:Hf; [|apply nth_error_None in Hf; lia].
  assert (Hbi : BindsAt h' i n v).
  { exists (fr_set n v imp f). split; [now apply update_same|]. rewrite fr_set_getm, str_eqb_refl. reflexivity. }
  assert (Hinner : forall j inner outer, Enclosing h j (inner ++ i :: outer) ->
       (forall c w, In c inner -> ~ BindsAt h c n w) -> ~ In i inner -> Means h' j n v).
  { intros j inner outer He Hno Hni. exists (inner ++ i :: outer). split; [auto|]. exists inner, i, outer. repeat split; auto.
    intros c Hc w (f' & Hf' & Hg). apply (Hno c w Hc). exists f'. split; [|exact Hg].
    unfold h' in Hf'. rewrite update_other in Hf' by congruence. exact Hf'. }
  split; [|split; [|split]].
  - destruct (enclosing_exists h Hw i Hi) as [is His].
    assert (exists o, is = [] ++ i :: o) as [o ->] by (inversion His; subst; eexists; reflexivity).
    apply (Hinner i [] o His); auto.
  - intros j m w Hj Hm. destruct (enclosing_exists h Hw j Hj) as [is His].
    assert (HB : forall c x, BindsAt h c m x <-> BindsAt h' c m x).
    { intros c x. unfold BindsAt. destruct (Nat.eq_dec c i) as [->|Hc].
      - unfold h'. rewrite (update_same _ _ _ _ _ Hf), Hf. split; intros (g & [= <-] & Hg); eexists; (split; [reflexivity|]).
        + rewrite fr_set_getm. destruct (str_eqb m n) eqn:Eq; [apply str_eqb_eq in Eq; congruence|exact Hg].
        + rewrite fr_set_getm in Hg. destruct (str_eqb m n) eqn:Eq; [apply str_eqb_eq in Eq; congruence|exact Hg].
      - unfold h'. rewrite update_other by exact Hc. reflexivity. }
    split; intros (is' & Hx & a & c & b & -> & Hv & Ha).
    + exists (a ++ c :: b). split; [auto|]. exists a, c, b. split; [reflexivity|]. split; [now apply HB|].
      intros c' Hc' x Hx'. apply (Ha c' Hc' x). now apply HB.
    + pose proof (enclosing_fun _ _ _ _ Hx (He' _ _ His)) as Eis. subst is.
      exists (a ++ c :: b). split; [auto|]. exists a, c, b. split; [reflexivity|]. split; [now apply HB|].
      intros c' Hc' x Hx'. apply (Ha c' Hc' x). now apply HB.
  - intros j is w His Hn. apply (means_local h h' j is); [exact His|]. intros c Hc. unfold h'. apply update_other. congruence.
  - exact Hinner.
Qed.

(** ** Evaluation *)
Section Eval.
  Variable X : externals.
  Variable fuel : nat.
  Notation R := (evals_n X fuel).

  Lemma node_running e t s s' : after (e_node R e t s) = Some s' -> SameElsewhere s s' /\ (Running s -> Running s').
  Proof. apply (built_running any_key true). apply built_node. Qed.
  Lemma closure_call_same f : IsClosure f -> forall bs t src s s',
    after (e_call R f bs t src s) = Some s' -> SameScopes s s'.
  Proof.
    destruct fuel as [|n]; [discriminate|]. cbn [evals_n step e_call]. intro H.
    induction H as [nm c sig body|f p H IH]; intros bs t src s s'; cbn [evaluate_call]; [|apply IH].
    apply (call_frame_same any_key true). apply built_node.
  Qed.
  Lemma closure_call_stack f : IsClosure f -> forall bs t src s k,
    e_call R f bs t src (set_stack k s) = restack k (e_call R f bs t src s).
  Proof.
    destruct fuel as [|n]; [reflexivity|]. cbn [evals_n step e_call]. intro H.
    induction H as [nm c sig body|f p H IH]; intros bs t src s k; cbn [evaluate_call]; [|apply IH].
    apply (call_frame_stack_free any_key true). apply built_node.
  Qed.
  Lemma node_stack_tail e t s i k k' : st_stack s = i :: k ->
    e_node R e t (set_stack (i :: k') s) = restack (i :: k') (e_node R e t s).
  Proof. apply (built_tail_free any_key true). apply built_node. Qed.
  Lemma let_same l t s s' : after (e_node R (ELetIn l) t s) = Some s' -> SameScopes s s'.
  Proof.
    destruct fuel as [|n]; [discriminate|]. cbn [evals_n step e_node]. unfold evaluate_node, evaluate_let_in. destruct l as [imp vars child].
    unfold in_child_frame, bind, frame_id. destruct (st_stack s) eqn:E; [discriminate|]. apply (call_frame_same any_key true).
    apply B_bind; [|intro; apply built_node]. apply built_let_vars; intros; apply built_evals; intros; exact I.
  Qed.
  Lemma import_same p t s s' : after (compile X fuel p t s) = Some s' -> SameScopes s s'.
  Proof.
    unfold compile, compile_source. unfold bind, pure. destruct (parse_source X p t) as [[root errs]| |]; try discriminate.
    assert (Hr : forall errs s, exists d, report_all errs s = Ok tt (set_sink d s)).
    { clear. induction errs as [|e es IH]; intro s; cbn [report_all]; [exists (st_sink s); now destruct s|].
      unfold bind, report, modify. destruct (IH (set_sink (sink_add e (st_sink s)) s)) as [d ->]. exists d. reflexivity. }
    destruct (Hr errs s) as [d ->]. intro H. unfold with_compiler in H.
    set (m := compile_sequence _ _ _ _) in H. set (s0 := set_sink d s) in H.
    assert (Hm : Built any_key true html m) by (apply built_compile_sequence; intros; apply built_evals; intros; exact I).
    change (after match m (new_compiler s0) with
                  | Ok a s' => Ok (a, st_exports s') (set_stack (st_stack s0) (set_exports (st_exports s0) s'))
                  | Err e s' => Err e (set_stack (st_stack s0) (set_exports (st_exports s0) s'))
                  | Crash c => Crash c
                  | NoFuel => NoFuel end = Some s') in H.
    pose proof (frame_rule _ _ _ _ Hm (new_compiler s0)) as HF.
    assert (Hgen : forall s1, SameElsewhere (new_compiler s0) s1 -> SameScopes s (set_stack (st_stack s0) (set_exports (st_exports s0) s1))).
    { intros s1 (A1 & B1 & C1 & D1). unfold new_compiler, s0 in *. st_simpl. rewrite app_length in C1. cbn [length] in C1.
      unfold SameScopes. st_simpl. repeat split; auto.
      exists (skipn (length (st_heap s)) (st_heap s1)).
      rewrite <- (firstn_skipn (length (st_heap s)) (st_heap s1)) at 1. f_equal.
      apply nth_error_ext. intro i. destruct (Nat.lt_ge_cases i (length (st_heap s))) as [Hi|Hi].
      - destruct (nth_error (st_heap s) i) as [f|] eqn:Ef; [|apply nth_error_None in Ef; lia].
        destruct (D1 i f) as (f' & H' & _ & Q'). { rewrite nth_error_app1 by exact Hi. exact Ef. }
        rewrite <- (Q' ltac:(cbn; intros [= E]; lia)).
        rewrite <- H'. rewrite <- (firstn_skipn (length (st_heap s)) (st_heap s1)) at 2.
        rewrite nth_error_app1 by (rewrite firstn_length; lia). reflexivity.
      - rewrite (proj2 (nth_error_None _ _)) by (rewrite firstn_length; lia). symmetry. now apply nth_error_None. }
    destruct (m (new_compiler s0)) as [a s1|e s1| |]; try discriminate; injection H as <-; apply Hgen, HF; reflexivity.
  Qed.
End Eval.

(** ** Implicit arguments *)
Lemma bind_implicits_spec s i k : Running s -> st_stack s = i :: k -> forall ps b,
  match bind_implicits ps b s with
  | Ok b' s' =>
    s' = s /\ pp_set_map (pp_map b) b' = b /\
    (forall n, (forall p, In p ps -> p_implicit p = true -> p_name p <> n) -> ngetm (pp_map b') n = ngetm (pp_map b) n) /\
    (forall n v, ngetm (pp_map b) n = Some v -> ngetm (pp_map b') n = Some v) /\
    (NoDup (List.map p_name ps) -> forall p, In p ps -> p_implicit p = true -> ngetm (pp_map b) (p_name p) = None ->
       exists v, ngetm (pp_map b') (p_name p) = Some v /\
         (MeansImplicitly (st_heap s) i (p_name p) v \/
          MeansNothingImplicitly (st_heap s) i (p_name p) /\ p_default p = Some v))
  | Err e s' =>
    s' = s /\ exists p, In p ps /\ p_implicit p = true /\ ngetm (pp_map b) (p_name p) = None /\ p_default p = None /\
      MeansNothingImplicitly (st_heap s) i (p_name p) /\
      (e = RuntimeErr (ParamExistsButNotImplicit (p_name p)) \/ e = RuntimeErr (ParamMissingImplicit (p_name p)))
  | Crash _ | NoFuel => False
  end.
Proof.
  intros Hr E. destruct (running_current s i k Hr E) as [Hw Hi]. induction ps as [|p ps IH]; intro b; cbn [bind_implicits].
  - cbn. repeat split; auto; [now destruct b|]. intros _ p [].
  - destruct (negb (p_implicit p) || nhas (pp_map b) (p_name p)) eqn:Ec.
    + specialize (IH b). destruct (bind_implicits ps b s) as [b' s'|e s'| |]; try exact IH.
      * destruct IH as (H1 & H2 & H3 & H4 & H5). repeat split; auto.
        -- intros n Hn. apply H3. intros q Hq. apply Hn. now right.
        -- intros Hnd q [<-|Hq] Hqi Hqn; [|inversion Hnd; subst; auto].
           rewrite Hqi in Ec. unfold nhas in Ec. rewrite Hqn in Ec. discriminate.
      * destruct IH as (H1 & q & H2 & H3). split; [exact H1|]. exists q. split; [now right|exact H3].
    + apply Bool.orb_false_iff in Ec as [Ei En]. apply Bool.negb_false_iff in Ei.
      assert (En' : ngetm (pp_map b) (p_name p) = None) by (unfold nhas in En; destruct (ngetm _ _); [discriminate|reflexivity]).
      unfold bind. rewrite (get_implicit_eq _ _ _ _ _ E).
      assert (Hok : forall v, (MeansImplicitly (st_heap s) i (p_name p) v \/
          MeansNothingImplicitly (st_heap s) i (p_name p) /\ p_default p = Some v) ->
         match bind_implicits ps (pp_set_map (ninsert (pp_map b) (p_name p) v) b) s with
         | Ok b' s' =>
            s' = s /\ pp_set_map (pp_map b) b' = b /\
            (forall n, (forall q, In q (p :: ps) -> p_implicit q = true -> p_name q <> n) -> ngetm (pp_map b') n = ngetm (pp_map b) n) /\
            (forall n v, ngetm (pp_map b) n = Some v -> ngetm (pp_map b') n = Some v) /\
            (NoDup (List.map p_name (p :: ps)) -> forall q, In q (p :: ps) -> p_implicit q = true -> ngetm (pp_map b) (p_name q) = None ->
               exists v, ngetm (pp_map b') (p_name q) = Some v /\
                 (MeansImplicitly (st_heap s) i (p_name q) v \/
                  MeansNothingImplicitly (st_heap s) i (p_name q) /\ p_default q = Some v))
          | Err e s' =>
            s' = s /\ exists q, In q (p :: ps) /\ p_implicit q = true /\ ngetm (pp_map b) (p_name q) = None /\ p_default q = None /\
              MeansNothingImplicitly (st_heap s) i (p_name q) /\
              (e = RuntimeErr (ParamExistsButNotImplicit (p_name q)) \/ e = RuntimeErr (ParamMissingImplicit (p_name q)))
          | Crash _ | NoFuel => False
          end).
      { intros v Hv. specialize (IH (pp_set_map (ninsert (pp_map b) (p_name p) v) b)).
        destruct (bind_implicits ps _ s) as [b' s'|e s'| |]; try exact IH.
        - destruct b as [bp bs bm bc]. destruct b' as [bp' bs' bm' bc']. cbn [pp_set_map pp_map] in *.
          destruct IH as (H1 & H2 & H3 & H4 & H5). repeat split; auto.
          + injection H2 as -> -> ->. reflexivity.
          + intros n Hn. rewrite H3; [|intros q Hq; apply Hn; now right]. apply ngetm_ninsert_other.
            intros ->. apply (Hn p (or_introl eq_refl) Ei eq_refl).
          + intros n w Hnw. apply H4. rewrite ngetm_ninsert_other; [exact Hnw|]. congruence.
          + intros Hnd q [<-|Hq] Hqi Hqn.
            * exists v. split; [|exact Hv]. apply H4. apply ngetm_ninsert_same.
            * inversion Hnd as [|x l Hnx Hnd']; subst. apply H5; auto. rewrite ngetm_ninsert_other; [exact Hqn|].
              intro Eq. apply Hnx. rewrite <- Eq. now apply in_map.
        - destruct IH as (H1 & q & Hq & Hqi & Hqn & Hr'). split; [exact H1|]. exists q. split; [now right|]. split; [exact Hqi|].
          split; [|exact Hr']. destruct b as [bp bs bm bc]. cbn [pp_set_map pp_map] in *.
          destruct (str_eqb (p_name q) (p_name p)) eqn:Eq; [apply str_eqb_eq in Eq; rewrite Eq, ngetm_ninsert_same in Hqn; discriminate|].
          rewrite ngetm_ninsert_other in Hqn; [exact Hqn|]. intro Eq'. rewrite Eq', str_eqb_refl in Eq. discriminate. }
      destruct (frame_get (st_heap s) i (p_name p) true) as [v|] eqn:Eg.
      * apply Hok. left. now apply frame_get_imp_some.
      * apply frame_get_imp_none in Eg; auto. destruct (p_default p) as [v|] eqn:Ed; [apply Hok; right; auto|].
        split; [reflexivity|]. exists p. split; [now left|]. repeat split; auto.
        destruct (frame_get (st_heap s) i (p_name p) false); auto.
Qed.
