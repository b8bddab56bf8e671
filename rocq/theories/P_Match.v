(** [bind_pattern] matches as specified in S_Match. *)
From Coq Require Import Permutation.
From Verif Require Import Base BaseFacts M_Names M_Html M_Types M_Token M_Diag M_Ast M_Value M_State M_Matcher M_Native M_Eval S_Scope S_Match P_Pattern P_State P_Scope P_Coerce P_Built.

(** ** What matching does to the variables *)
Section Spec.
  Variable groups : str -> str -> option (list (option str)).
  Variable value_of : env -> expr -> option value.
  Variable allowed : expr -> Prop.
  Notation Try := (Try groups value_of).
  Notation TryAll := (TryAll groups value_of).
  Notation Wf := (WfPattern groups allowed).

  Lemma bound_to_other E n v m : m <> n -> bound_to E n v m = E m.
  Proof. intro H. unfold bound_to. destruct (str_eqb m n) eqn:X; [apply str_eqb_eq in X; contradiction|reflexivity]. Qed.
  Lemma bound_to_keeps E n v m : E m <> None -> bound_to E n v m <> None.
  Proof. intro H. unfold bound_to. destruct (str_eqb m n); [discriminate|exact H]. Qed.
  Lemma bound_to_same E n v : bound_to E n v n = Some v.
  Proof. unfold bound_to. now rewrite str_eqb_refl. Qed.
  Lemma groups_other gs : forall ns E m, ~ In m ns ->
    fold_left (fun E ng => bound_to E (fst ng) (group_value (snd ng))) (combine ns gs) E m = E m.
  Proof.
    induction gs as [|g gs IH]; intros [|n ns] E m H; try reflexivity. cbn [combine fold_left]. rewrite IH by (intro; apply H; right; auto).
    apply bound_to_other. intros ->. apply H. now left.
  Qed.
  Lemma groups_keep gs : forall ns E m, E m <> None ->
    fold_left (fun E ng => bound_to E (fst ng) (group_value (snd ng))) (combine ns gs) E m <> None.
  Proof.
    induction gs as [|g gs IH]; intros [|n ns] E m H; try exact H. cbn [combine fold_left]. apply IH. now apply bound_to_keeps.
  Qed.
  Lemma groups_bind gs : forall ns E m, length gs = length ns -> In m ns ->
    fold_left (fun E ng => bound_to E (fst ng) (group_value (snd ng))) (combine ns gs) E m <> None.
  Proof.
    induction gs as [|g gs IH]; intros [|n ns] E m L H; try discriminate; [destruct H|]. cbn [combine fold_left].
    destruct H as [-> | H]; [|apply IH; auto; cbn in L; lia]. apply groups_keep. rewrite bound_to_same. discriminate.
  Qed.

  Definition Effect (E : env) (vars : str -> Prop) (E' : env) : Prop :=
    (forall m, ~ vars m -> E' m = E m) /\ (forall m, E m <> None -> E' m <> None) /\ (forall m, vars m -> E' m <> None).
  Definition ListVar (l : list (pattern * value)) (m : str) : Prop := exists p v, In (p, v) l /\ PatVar p m.
  Lemma effect_iff E vars vars' E' : (forall m, vars m <-> vars' m) -> Effect E vars E' -> Effect E vars' E'.
  Proof. intros H (H1 & H2 & H3). repeat split; auto; intros m Hm; [apply H1|apply H3]; now rewrite H. Qed.
  Lemma effect_none E vars : (forall m, ~ vars m) -> Effect E vars E.
  Proof. intro H. repeat split; auto. intros m Hm. now destruct (H m). Qed.
  Lemma in_combine_exists A B (x : A) : forall l (l' : list B), length l' = length l -> In x l -> exists y, In (x, y) (combine l l').
  Proof.
    induction l as [|a l IH]; intros [|b l'] L; try discriminate; [intros []|]. cbn. intros [-> |H]; [exists b; auto|].
    destruct (IH l') as [y Hy]; [cbn in L; lia|exact H|]. exists y. auto.
  Qed.
  Lemma list_var_combine l vs : length vs = length l -> forall m, ListVar (combine l vs) m <-> exists p, In p l /\ PatVar p m.
  Proof.
    intros L m. split.
    - intros (p & v & Hi & Hp). exists p. split; auto. eapply in_combine_l. exact Hi.
    - intros (p & Hi & Hp). destruct (in_combine_exists _ _ p l vs L Hi) as [v Hv]. exists p, v. auto.
  Qed.
  Lemma list_var_app l l' m : ListVar (l ++ l') m <-> ListVar l m \/ ListVar l' m.
  Proof.
    split.
    - intros (p & v & Hi & Hp). apply in_app_or in Hi as [Hi|Hi]; [left|right]; exists p, v; auto.
    - intros [(p & v & Hi & Hp)|(p & v & Hi & Hp)]; exists p, v; split; auto; apply in_or_app; auto.
  Qed.
  Lemma list_var_cons p v l m : ListVar ((p, v) :: l) m <-> PatVar p m \/ ListVar l m.
  Proof.
    split.
    - intros (q & w & [[= <- <-]|Hi] & Hp); [auto|]. right. exists q, w. auto.
    - intros [H|(q & w & Hi & Hp)]; [exists p, v|exists q, w]; split; auto; cbn; auto.
  Qed.
  Lemma list_var_nil m : ListVar [] m <-> False.
  Proof. split; [intros (p & v & [] & _)|intros []]. Qed.
  Lemma wf_combine ps (vs : list value) : Forall Wf ps -> Forall (fun pv => Wf (fst pv)) (combine ps vs).
  Proof. intro H. revert vs. induction H; intros [|v vs]; cbn; auto. Qed.
  Lemma forall2_length A B (P : A -> B -> Prop) l l' : Forall2 P l l' -> length l = length l'.
  Proof. induction 1; cbn; auto. Qed.
  Lemma wf_snd (attrs : list (str * pattern)) : Forall (fun kp => Wf (snd kp)) attrs -> Forall Wf (List.map snd attrs).
  Proof. induction 1; cbn; auto. Qed.

  Lemma fill_other ns E m : ~ In m ns -> fill ns E m = E m.
  Proof. intro H. unfold fill. destruct (E m); auto. destruct (mem m ns) eqn:X; [|auto]. apply mem_In in X. contradiction. Qed.
  Lemma fill_keeps ns E m : E m <> None -> fill ns E m <> None.
  Proof. unfold fill. destruct (E m); congruence. Qed.
  Lemma fill_all ns E m : In m ns -> fill ns E m <> None.
  Proof. intro H. apply mem_In in H. unfold fill. destruct (E m); [discriminate|]. rewrite H. discriminate. Qed.
  Lemma forget_other ns E m : ~ In m ns -> forget ns E m = E m.
  Proof. intro H. unfold forget. destruct (mem m ns) eqn:X; [|auto]. apply mem_In in X. contradiction. Qed.

  Lemma try_effect : forall E p v o, Try E p v o -> Wf p -> match o with Some E' => Effect E (PatVar p) E' | None => True end.
  Proof.
    apply (Try_mut groups value_of (fun E p v o _ => Wf p -> match o with Some E' => Effect E (PatVar p) E' | None => True end)
             (fun E l o _ => Forall (fun pv => Wf (fst pv)) l -> match o with Some E' => Effect E (ListVar l) E' | None => True end));
      intros; auto; try match goal with H : Wf _ |- _ => inversion H; subst end.
    all: try (destruct (_ : bool); [|exact I]).
    all: try (apply effect_none; intros m Hm; solve [inversion Hm | apply list_var_nil in Hm; exact Hm]).
    - repeat split; intros m Hm; [apply bound_to_other|now apply bound_to_keeps|]. { intros ->. apply Hm. constructor. }
      inversion Hm. rewrite bound_to_same. discriminate.
    - repeat split; intros m Hm; [apply bound_to_other|now apply bound_to_keeps|]. { intros ->. apply Hm. constructor. }
      inversion Hm. rewrite bound_to_same. discriminate.
    - destruct r; auto. eapply effect_iff; [|apply H; repeat constructor; auto]. intro m. rewrite !list_var_cons, list_var_nil.
      split; [intros [?|[?|[]]]; [now apply pv_and_l|now apply pv_and_r]|intro X; inversion X; auto].
    - match goal with X : forall n, In n ns <-> _ |- _ => rename X into Hns end.
      destruct H as (A1 & A2 & A3); [assumption|]. repeat split; intros m Hm.
      + rewrite fill_other; [apply A1; intro; apply Hm; now apply pv_or_l|]. rewrite Hns. intros [?|?]; apply Hm; [now apply pv_or_l|now apply pv_or_r].
      + apply fill_keeps. auto.
      + apply fill_all. apply Hns. inversion Hm; auto.
    - destruct r as [E'|]; cbn [option_map]; auto. match goal with X : forall n, In n ns <-> _ |- _ => rename X into Hns end.
      destruct H0 as (A1 & A2 & A3); [assumption|]. repeat split; intros m Hm.
      + assert (Hn : ~ In m ns). { rewrite Hns. intros [?|?]; apply Hm; [now apply pv_or_l|now apply pv_or_r]. }
        rewrite fill_other by exact Hn. rewrite A1; [now apply forget_other|]. intro; apply Hm; now apply pv_or_r.
      + destruct (in_dec str_eq_dec m ns) as [Hi|Hi]; [now apply fill_all|]. apply fill_keeps, A2. now rewrite forget_other.
      + apply fill_all. apply Hns. inversion Hm; auto.
    - destruct r; auto. eapply effect_iff; [|apply H, wf_combine; auto]. intro m. rewrite list_var_combine by auto.
      split; [intros (q & Hi & Hq); eapply pv_list; eauto|]. intro X; inversion X; subst; eauto.
    - destruct r; auto. match goal with X : Forall _ (_ ++ _) |- _ => apply Forall_app in X as [W1 W2] end. inversion W2; subst.
      eapply effect_iff; [|apply H; apply Forall_app; split; [apply wf_combine; auto|constructor; [auto|now apply wf_combine]]].
      intro m. rewrite list_var_app, list_var_cons, !list_var_combine by auto. split.
      + intros [(q & Hi & Hq)|[Hq|(q & Hi & Hq)]]; eapply pv_spread; try exact Hq; apply in_or_app; cbn; auto.
      + intro X; inversion X; subst. match goal with H : In _ (_ ++ _) |- _ => apply in_app_or in H as [?|[<- | ?]] end; eauto.
    - destruct r; auto. eapply effect_iff; [|apply H, wf_combine; auto]. intro m. rewrite list_var_combine by (rewrite map_length; auto).
      split; [intros (q & Hi & Hq); eapply pv_html; eauto|]. intro X; inversion X; subst; eauto.
    - destruct r; auto. match goal with X : Forall _ (_ ++ _) |- _ => apply Forall_app in X as [W1 W2] end. inversion W2; subst.
      eapply effect_iff; [|apply H; apply Forall_app; split; [apply wf_combine; auto|constructor; [auto|now apply wf_combine]]].
      intro m. rewrite list_var_app, list_var_cons, !list_var_combine by (rewrite map_length; auto). split.
      + intros [(q & Hi & Hq)|[Hq|(q & Hi & Hq)]]; eapply pv_spread_html; try exact Hq; apply in_or_app; cbn; auto.
      + intro X; inversion X; subst. match goal with H : In _ (_ ++ _) |- _ => apply in_app_or in H as [?|[<- | ?]] end; eauto.
    - destruct r; auto. pose proof (forall2_length _ _ _ _ _ f) as L.
      eapply effect_iff; [|apply H, wf_combine, wf_snd; auto]. intro m. rewrite list_var_combine by (rewrite map_length; auto). split.
      + intros (q & Hi & Hq). apply in_map_iff in Hi as ([k' q'] & <- & Hi). eapply pv_dict; eauto.
      + intro X; inversion X; subst. match goal with H : In (?k, ?p) attrs |- _ => exists p; split; auto; apply in_map_iff; exists (k, p); auto end.
    - destruct r; auto. pose proof (forall2_length _ _ _ _ _ f) as L.
      eapply effect_iff; [|apply H; apply Forall_app; split; [apply wf_combine, wf_snd; auto|repeat constructor; auto]].
      intro m. rewrite list_var_app, list_var_cons, list_var_nil, list_var_combine by (rewrite map_length; auto). split.
      + intros [(q & Hi & Hq)|[Hq|[]]]; [|now apply pv_rest]. apply in_map_iff in Hi as ([k' q'] & <- & Hi). eapply pv_dict; eauto.
      + intro X; inversion X; subst; auto. left. match goal with H : In (?k, ?p) attrs |- _ => exists p; split; auto; apply in_map_iff; exists (k, p); auto end.
    - destruct r; auto. eapply effect_iff; [|apply H; repeat constructor; auto]. intro m. rewrite !list_var_cons, list_var_nil.
      split; [intros [?|[?|[?|[]]]]; [now apply pv_tag_name|now apply pv_tag_attrs|now apply pv_tag_content]|intro X; inversion X; auto].
    - repeat split; intros m Hm; [apply groups_other|now apply groups_keep|apply groups_bind].
      + intro; apply Hm. now constructor.
      + eauto.
      + now inversion Hm.
    - inversion H1; subst. cbn [fst] in *. destruct r; auto. destruct H as (A1 & A2 & A3); [assumption|]. destruct H0 as (B1 & B2 & B3); [assumption|].
      repeat split; intros m Hm.
      + rewrite B1, A1; auto; intro; apply Hm; apply list_var_cons; auto.
      + auto.
      + apply list_var_cons in Hm as [?|?]; auto.
  Qed.
End Spec.

(** ** Maps *)
Lemma ngetm_perm T (m m' : nmap T) : NoDup (nkeys m) -> Permutation m m' -> forall k, ngetm m' k = ngetm m k.
Proof.
  intros Hn Hp k. assert (Hn' : NoDup (nkeys m')). { eapply Permutation_NoDup; [|exact Hn]. now apply Permutation_map. }
  destruct (ngetm m k) as [v|] eqn:E.
  - apply ngetm_NoDup; [exact Hn'|]. eapply Permutation_in; [exact Hp|]. now apply ngetm_In.
  - apply ngetm_None. apply ngetm_None in E. intro H. apply E.
    eapply Permutation_in; [|exact H]. apply Permutation_map. now apply Permutation_sym.
Qed.
Lemma nremove_at_none T (m : nmap T) k x : ngetm m k = None -> nremove_at m k x = m.
Proof. induction m as [|[j v] m IH]; cbn; [auto|]. destruct (str_eqb k j); [discriminate|]. intro H. now rewrite IH. Qed.
Lemma nremove_none T (m : nmap T) k : ngetm m k = None -> nremove m k = m.
Proof. destruct m as [|e m]; [auto|]. unfold nremove. apply nremove_at_none. Qed.
Lemma nremove_at_some T k (v : T) x : forall a b, ~ In k (nkeys a) ->
  nremove_at (a ++ (k, v) :: b) k x = a ++ match b with [] => [] | _ => x :: removelast b end.
Proof.
  induction a as [|[j w] a IH]; intros b H; cbn [app nremove_at fst].
  - rewrite str_eqb_refl. reflexivity.
  - destruct (str_eqb k j) eqn:E; [apply str_eqb_eq in E; subst; exfalso; apply H; now left|].
    rewrite IH; [reflexivity|]. intro; apply H; now right.
Qed.
Lemma ngetm_split T (m : nmap T) k v : ngetm m k = Some v -> exists a b, m = a ++ (k, v) :: b /\ ~ In k (nkeys a).
Proof.
  induction m as [|[j w] m IH]; cbn [ngetm fst snd]; [discriminate|]. destruct (str_eqb k j) eqn:E.
  - intros [= <-]. apply str_eqb_eq in E. subst j. exists [], m. auto.
  - intro H. destruct (IH H) as (a & b & -> & Ha). exists ((j, w) :: a), b. split; [reflexivity|]. intros [X|X]; [|auto]. cbn in X. subst.
    now rewrite str_eqb_refl in E.
Qed.
Lemma nremove_some T k (v : T) a b : ~ In k (nkeys a) -> Permutation (nremove (a ++ (k, v) :: b) k) (a ++ b).
Proof.
  intro H. assert (E : exists x, nremove (a ++ (k, v) :: b) k = a ++ match b with [] => [] | _ => x :: removelast b end /\
    (forall y b', b = y :: b' -> x = List.last b x)).
  { destruct a as [|e a].
    - cbn [app]. unfold nremove. exists (List.last ((k, v) :: b) (k, v)). split; [apply (nremove_at_some T k v _ [] b); auto|].
      intros y b' ->. change (List.last ((k, v) :: y :: b') (k, v)) with (List.last (y :: b') (k, v)).
      clear. revert y. induction b' as [|z b' IH]; intro y; [reflexivity|]. apply IH.
    - cbn [app]. unfold nremove. exists (List.last (e :: a ++ (k, v) :: b) e). split; [apply (nremove_at_some T k v _ (e :: a) b); auto|].
      intros y b' ->. change (e :: a ++ (k, v) :: y :: b') with ((e :: a) ++ (k, v) :: y :: b').
      assert (L : forall d (l : list (str * T)), List.last (l ++ (k, v) :: y :: b') d = List.last (y :: b') d).
      { intros d l. induction l as [|z l IH]; [reflexivity|]. cbn [app]. destruct (l ++ (k, v) :: y :: b') eqn:X; [destruct l; discriminate|].
        change (List.last (z :: p :: l0) d) with (List.last (p :: l0) d). exact IH. }
      rewrite L. clear. revert y. induction b' as [|z b' IH]; intro y; [reflexivity|]. apply IH. }
  destruct E as (x & -> & Hx). apply Permutation_app_head. destruct b as [|y b]; [constructor|].
  rewrite (Hx y b eq_refl) at 1. rewrite (app_removelast_last x (l := y :: b)) at 3 by discriminate.
  apply Permutation_cons_append.
Qed.
Lemma nremove_spec T (m : nmap T) k : NoDup (nkeys m) ->
  NoDup (nkeys (nremove m k)) /\ forall j, ngetm (nremove m k) j = if str_eqb j k then None else ngetm m j.
Proof.
  intro Hn. destruct (ngetm m k) as [v|] eqn:E.
  - destruct (ngetm_split _ _ _ _ E) as (a & b & -> & Ha). pose proof (nremove_some T k v a b Ha) as Hp.
    unfold nkeys in Hn. rewrite map_app in Hn. cbn [List.map fst] in Hn. apply NoDup_remove in Hn as [Hn Hk].
    rewrite <- map_app in Hn, Hk. assert (Hn2 : NoDup (nkeys (nremove (a ++ (k, v) :: b) k))).
    { eapply Permutation_NoDup; [|exact Hn]. apply Permutation_map. now apply Permutation_sym. }
    split; [exact Hn2|]. intro j. rewrite <- (ngetm_perm T (nremove (a ++ (k, v) :: b) k) (a ++ b)); auto.
    destruct (str_eqb j k) eqn:Ej.
    + apply str_eqb_eq in Ej. subst j. now apply ngetm_None.
    + clear -Ej. induction a as [|[i w] a IH]; cbn [app ngetm fst snd].
      * now rewrite Ej.
      * destruct (str_eqb j i); auto.
  - rewrite nremove_none by exact E. split; [exact Hn|]. intro j. destruct (str_eqb j k) eqn:Ej; [|reflexivity].
    apply str_eqb_eq in Ej. now subst.
Qed.
Lemma ninsert_keys T (m : nmap T) k v : nkeys (ninsert m k v) = if nhas m k then nkeys m else nkeys m ++ [k].
Proof.
  unfold nhas. induction m as [|[j w] m IH]; [reflexivity|]. cbn [ninsert ngetm fst snd nkeys List.map].
  destruct (str_eqb k j) eqn:E; cbn; [apply str_eqb_eq in E; now subst|]. unfold nkeys in IH. rewrite IH. destruct (ngetm m k); reflexivity.
Qed.
Lemma ninsert_nodup T (m : nmap T) k v : NoDup (nkeys m) -> NoDup (nkeys (ninsert m k v)).
Proof.
  intro H. rewrite ninsert_keys. destruct (nhas m k) eqn:E; [exact H|]. eapply Permutation_NoDup; [apply Permutation_cons_append|].
  constructor; [|exact H].
  unfold nhas in E. apply ngetm_None. now destruct (ngetm m k).
Qed.

(** ** Steps in a scope *)
Lemma frame_get_below h h' n imp : WellScoped h -> forall fuel p, (forall j, j <= p -> nth_error h' j = nth_error h j) ->
  frame_get_fuel fuel h' p n imp = frame_get_fuel fuel h p n imp.
Proof.
  intros W. induction fuel as [|fuel IH]; intros p H; [reflexivity|]. cbn [frame_get_fuel]. rewrite H by lia.
  destruct (nth_error h p) as [f|] eqn:E; [|reflexivity]. destruct (if _ : bool then _ else _); [reflexivity|].
  destruct (fr_parent f) as [q|] eqn:Ep; [|reflexivity]. apply IH. intros j Hj. apply H. specialize (W p f q E Ep). lia.
Qed.
Lemma outside_below h h' i f f' : WellScoped h -> nth_error h i = Some f -> fr_parent f' = fr_parent f ->
  (forall j, j < i -> nth_error h' j = nth_error h j) -> forall n, outside h' f' n = outside h f n.
Proof.
  intros W Hi Hp H n. unfold outside. rewrite Hp. destruct (fr_parent f) as [p|] eqn:E; [|reflexivity].
  apply frame_get_below; [exact W|]. intros j Hj. apply H. specialize (W i f p Hi E). lia.
Qed.
Lemma running_update s i g : Running s -> (forall f, fr_parent (g f) = fr_parent f) -> Running (set_heap (update (st_heap s) i g) s).
Proof.
  intros (W & R & F) Hg. repeat split; st_simpl; rewrite ?update_length; auto.
  intros j f p Hj Hp. destruct (Nat.eq_dec j i) as [->|Hn].
  - destruct (nth_error (st_heap s) i) as [f0|] eqn:E.
    + rewrite (update_same _ _ _ _ _ E) in Hj. injection Hj as <-. rewrite Hg in Hp. eapply W; eauto.
    + unfold update in Hj. rewrite E in Hj. congruence.
  - rewrite update_other in Hj by exact Hn. eapply W; eauto.
Qed.
Lemma step_with_frame out s i f E g E' : InScope out s i f E -> (forall f, fr_parent (g f) = fr_parent f) ->
  NoDup (nkeys (fr_locals (g f))) -> (forall n, ngetm (fr_locals (g f)) n = E' n) ->
  exists s', with_frame g s = Ok tt s' /\ InScope out s' i (g f) E' /\ SameElsewhere s s'.
Proof.
  intros [HR HC HF HD HL HO] Hg Hn HE. destruct (st_stack s) as [|i' k] eqn:Es; [discriminate|]. injection HC as ->.
  exists (set_heap (update (st_heap s) i g) s). split; [|split].
  - unfold with_frame, bind, frame_id, modify. now rewrite Es.
  - constructor; auto.
    + now apply running_update.
    + st_simpl. now rewrite Es.
    + st_simpl. now apply update_same.
    + intro n. st_simpl. rewrite (outside_below (st_heap s) _ i f); auto.
      * apply HR.
      * intros j Hj. apply update_other. lia.
  - repeat split; st_simpl; auto; [rewrite update_length; lia|]. intros j f0 Hj. destruct (Nat.eq_dec j i) as [->|Hne].
    + exists (g f). assert (f0 = f) by congruence. subst f0. rewrite (update_same _ _ _ _ _ HF). repeat split; auto. rewrite Es. intro X. now destruct X.
    + exists f0. rewrite update_other by exact Hne. auto.
Qed.
Lemma step_same_heap out s i f E s' : InScope out s i f E -> st_heap s' = st_heap s -> st_stack s' = st_stack s -> st_root s' = st_root s ->
  InScope out s' i f E /\ SameElsewhere s s'.
Proof.
  intros [HR HC HF HD HL HO] Hh Hs Hr. split; [|now apply same_elsewhere_heap]. constructor; auto; try congruence.
  unfold Running in *. rewrite Hh, Hs, Hr. exact HR.
Qed.
Lemma step_report out s i f E e : InScope out s i f E -> exists s', report e s = Ok tt s' /\ InScope out s' i f E /\ SameElsewhere s s'.
Proof. intro H. eexists. split; [reflexivity|]. eapply step_same_heap; eauto. Qed.
Lemma inscope_ext out s i f E E' : (forall n, E n = E' n) -> InScope out s i f E -> InScope out s i f E'.
Proof. intros H [HR HC HF HD HL HO]. constructor; auto. intro n. now rewrite HL. Qed.

Lemma step_bind_one out s i f E n v : InScope out s i f E -> exists s' f',
  bind_one n v s = Ok true s' /\ InScope out s' i f' (bound_to E n v) /\ SameElsewhere s s'.
Proof.
  intro H. destruct (step_with_frame out s i f E (fr_set n v false) (bound_to E n v) H) as (s1 & E1 & I1 & S1).
  - reflexivity.
  - apply ninsert_nodup. apply (in_distinct _ _ _ _ _ H).
  - intro m. rewrite fr_set_getm. unfold bound_to. now rewrite (in_locals _ _ _ _ _ H).
  - unfold bind_one, frame_set, frame_has, bind at 1 2 3 4, frame_id, gets.
    pose proof (in_current _ _ _ _ _ H) as Hc. destruct (st_stack s) as [|i' k] eqn:Es; [discriminate|].
    unfold bind at 1. rewrite E1. unfold ret at 1.
    destruct (match nth_error _ _ with Some _ => _ | None => _ end).
    + destruct (step_report out s1 i _ _ (Warn (PatternNameAlreadyBound n)) I1) as (s2 & E2 & I2 & S2).
      exists s2, (fr_set n v false f). unfold bind. rewrite E2. split; [reflexivity|]. split; [exact I2|]. now apply same_elsewhere_trans with s1.
    + exists s1, (fr_set n v false f). auto.
Qed.
Lemma step_bind_groups out i : forall gs ns s f E, InScope out s i f E -> exists s' f',
  bind_groups gs ns s = Ok true s' /\
  InScope out s' i f' (fold_left (fun E ng => bound_to E (fst ng) (group_value (snd ng))) (combine ns gs) E) /\ SameElsewhere s s'.
Proof.
  induction gs as [|g gs IH]; intros [|n ns] s f E H; cbn [bind_groups combine fold_left fst snd];
    try (exists s, f; split; [reflexivity|split; [exact H|apply same_elsewhere_refl]]).
  destruct (step_bind_one out s i f E n (group_value g) H) as (s1 & f1 & E1 & I1 & S1).
  destruct (IH ns s1 f1 _ I1) as (s2 & f2 & E2 & I2 & S2).
  exists s2, f2. unfold bind. fold (group_value g). rewrite E1, E2. split; [reflexivity|]. split; [exact I2|]. now apply same_elsewhere_trans with s1.
Qed.
Lemma unset_all_spec ns : forall f, NoDup (nkeys (fr_locals f)) ->
  NoDup (nkeys (fr_locals (fr_unset_all ns f))) /\
  forall m, ngetm (fr_locals (fr_unset_all ns f)) m = if mem m ns then None else ngetm (fr_locals f) m.
Proof.
  induction ns as [|n ns IH]; intros f H; [auto|]. unfold fr_unset_all in *. cbn [fold_left].
  destruct (nremove_spec _ (fr_locals f) n H) as [H1 H2]. destruct (IH (fr_unset n f)) as [H3 H4]; [exact H1|]. split; [exact H3|].
  intro m. rewrite H4. cbn [fr_unset fr_locals]. rewrite H2. cbn [mem existsb]. unfold mem.
  destruct (str_eqb m n); cbn; [now destruct (existsb _ ns)|reflexivity].
Qed.
Lemma set_missing_spec ns : forall f, NoDup (nkeys (fr_locals f)) ->
  NoDup (nkeys (fr_locals (fr_set_missing ns UNIT f))) /\
  forall m, ngetm (fr_locals (fr_set_missing ns UNIT f)) m =
    match ngetm (fr_locals f) m with Some v => Some v | None => if mem m ns then Some UNIT else None end.
Proof.
  induction ns as [|n ns IH]; intros f H; [split; [exact H|]; intro m; cbn; now destruct (ngetm _ _)|].
  unfold fr_set_missing in *. cbn [fold_left]. destruct (IH (if fr_has n f then f else fr_set n UNIT false f)) as [H1 H2].
  { destruct (fr_has n f); [exact H|]. now apply ninsert_nodup. }
  split; [exact H1|]. intro m. rewrite H2. cbn [mem existsb]. unfold mem. unfold fr_has, nhas.
  destruct (ngetm (fr_locals f) n) as [v|] eqn:En.
  - destruct (str_eqb m n) eqn:Em; [apply str_eqb_eq in Em; subst; now rewrite En|]. reflexivity.
  - rewrite fr_set_getm. destruct (str_eqb m n) eqn:Em; [apply str_eqb_eq in Em; subst; now rewrite En|]. reflexivity.
Qed.

(** ** The matcher *)
Section Main.
  Variable eval : expr -> ty -> EM value.
  Variable captures : str -> str -> option (list (option str)).
  Variable value_of : env -> expr -> option value.
  Variable allowed : expr -> Prop.
  Variable out : env.
  Hypothesis Hcap : forall re s, captures re s <> Some [].
  Hypothesis Heval : forall e, allowed e -> Describes eval value_of out e.
  Notation bp := (bind_pattern eval captures).
  Notation Try := (Try (groups_of captures) value_of).
  Notation TryAll := (TryAll (groups_of captures) value_of).
  Notation Wf := (WfPattern (groups_of captures) allowed).

  Definition Done (s : st) (i : nat) (E : env) (vars : str -> Prop) (r : res bool) (o : option env) : Prop :=
    exists s' f' E', r = Ok (match o with Some _ => true | None => false end) s' /\ InScope out s' i f' E' /\ SameElsewhere s s' /\
      match o with Some E1 => E' = E1 | None => forall m, ~ vars m -> E' m = E m end.
  Definition Good (p : pattern) : Prop := forall v s i f E, InScope out s i f E -> exists o, Try E p v o /\ Done s i E (PatVar p) (bp p v s) o.

  Lemma done_here s i f E vars b : InScope out s i f E -> Done s i E vars (Ok b s) (if b then Some E else None).
  Proof. intro H. exists s, f, E. split; [now destruct b|]. split; [exact H|]. split; [apply same_elsewhere_refl|]. now destruct b. Qed.
  Lemma done_false s i f E vars : InScope out s i f E -> Done s i E vars (Ok false s) None.
  Proof. apply (done_here s i f E vars false). Qed.
  Lemma done_true s i f E vars : InScope out s i f E -> Done s i E vars (Ok true s) (Some E).
  Proof. apply (done_here s i f E vars true). Qed.
  Lemma done_none s i E (vars vars' : str -> Prop) r : (forall m, vars m -> vars' m) -> Done s i E vars r None -> Done s i E vars' r None.
  Proof. intros H (s' & f' & E' & A & B & C & D). exists s', f', E'. split; [exact A|]. split; [exact B|]. split; [exact C|]. auto. Qed.
  Lemma done_vars s i E (vars vars' : str -> Prop) r o : (forall m, vars m -> vars' m) -> Done s i E vars r o -> Done s i E vars' r o.
  Proof. intros H (s' & f' & E' & A & B & C & D). exists s', f', E'. split; [exact A|]. split; [exact B|]. split; [exact C|]. destruct o; auto. Qed.

  Fixpoint bind_items (l : list (pattern * value)) : EM bool :=
    match l with [] => ret true | (p, v) :: l => and_then (bp p v) (bind_items l) end.
  Lemma bind_all_items ps : forall vs, bind_all bp ps vs = bind_items (combine ps vs).
  Proof. induction ps as [|p ps IH]; intros [|v vs]; try reflexivity. cbn [bind_all combine bind_items]. now rewrite IH. Qed.
  Lemma bind_spread_items A one mk : forall ps i (vs : list A), i < length ps -> length ps <= length vs + 1 ->
    exists pre p post us mid ws, ps = pre ++ p :: post /\ length pre = i /\ vs = us ++ mid ++ ws /\ length us = length pre /\
      length ws = length post /\
      bind_spread bp A one mk ps i vs = bind_items (combine pre (List.map one us) ++ (p, mk mid) :: combine post (List.map one ws)).
  Proof.
    induction ps as [|p ps IH]; intros i vs Hi L; [cbn in Hi; lia|]. cbn [length] in *. destruct i as [|i].
    - exists [], p, ps, [], (firstn (length vs - length ps) vs), (skipn (length vs - length ps) vs). repeat split.
      + cbn [app]. now rewrite firstn_skipn.
      + rewrite skipn_length. lia.
      + cbn [bind_spread combine app bind_items List.map]. now rewrite bind_all_items.
    - destruct vs as [|v vs]; [cbn in L; lia|]. cbn [length] in L.
      destruct (IH i vs) as (pre & q & post & us & mid & ws & -> & Hp & -> & Lu & Lw & E); [lia|lia|].
      exists (p :: pre), q, post, (v :: us), mid, ws. repeat split; cbn [length app]; auto; try congruence.
      cbn [bind_spread List.map combine app bind_items]. now rewrite E.
  Qed.

  Lemma run_items i : forall l, Forall (fun pv => Wf (fst pv) /\ Good (fst pv)) l -> forall s f E, InScope out s i f E ->
    exists o, TryAll E l o /\ Done s i E (ListVar l) (bind_items l s) o.
  Proof.
    intros l H. induction H as [|[p v] l [Hw Hg] H IH]; intros s f E HI; cbn [bind_items].
    - exists (Some E). split; [constructor|]. now apply done_true with f.
    - cbn [fst] in *. destruct (Hg v s i f E HI) as (o & HT & s1 & f1 & E1 & R1 & I1 & S1 & D1).
      unfold and_then, bind. rewrite R1. destruct o as [E1'|].
      + subst E1'. destruct (IH s1 f1 E1 I1) as (o & HTA & s2 & f2 & E2 & R2 & I2 & S2 & D2). exists o. split; [econstructor; eauto|].
        exists s2, f2, E2. split; [exact R2|]. split; [exact I2|]. split; [now apply same_elsewhere_trans with s1|].
        destruct o; [exact D2|]. intros m Hm. rewrite D2 by (intro X; apply Hm, list_var_cons; auto).
        destruct (try_effect _ _ allowed _ _ _ _ HT Hw) as [X _]. apply X. intro Y; apply Hm, list_var_cons; auto.
      + exists None. split; [now constructor|]. exists s1, f1, E1. split; [reflexivity|]. split; [exact I1|]. split; [exact S1|].
        intros m Hm. apply D1. intro Y; apply Hm, list_var_cons; auto.
  Qed.
  Lemma items_good ps (vs : list value) : Forall Wf ps -> Forall Good ps -> Forall (fun pv => Wf (fst pv) /\ Good (fst pv)) (combine ps vs).
  Proof. intros H. revert vs. induction H; intros [|v vs] G; cbn [combine]; auto. inversion G; subst. constructor; auto. Qed.

  Lemma attrs_present vs : forall attrs, (exists ws, Forall2 (fun kp w => ngetm vs (fst kp) = Some w) attrs ws /\
      bind_attrs bp vs attrs = bind_items (combine (List.map snd attrs) ws)) \/
    exists k p, In (k, p) attrs /\ ngetm vs k = None.
  Proof.
    induction attrs as [|[n p] attrs [(ws & F & E)|(k & q & Hi & Hk)]].
    - left. exists []. split; constructor.
    - destruct (ngetm vs n) as [w|] eqn:En.
      + left. exists (w :: ws). split; [now constructor|]. cbn [bind_attrs List.map combine bind_items snd]. now rewrite En, E.
      + right. exists n, p. split; [now left|exact En].
    - right. exists k, q. split; [now right|exact Hk].
  Qed.
  Lemma attrs_missing i vs : forall attrs, Forall (fun kp => Wf (snd kp) /\ Good (snd kp)) attrs ->
    (exists k p, In (k, p) attrs /\ ngetm vs k = None) -> forall s f E, InScope out s i f E ->
    Done s i E (fun m => exists k p, In (k, p) attrs /\ PatVar p m) (bind_attrs bp vs attrs s) None.
  Proof.
    intros attrs H. induction H as [|[n p] attrs [Hw Hg] H IH]; intros (k & q & Hi & Hk) s f E HI; [destruct Hi|]. cbn [bind_attrs snd] in *.
    destruct (ngetm vs n) as [w|] eqn:En; [|now apply done_false with f].
    destruct Hi as [[= -> ->]|Hi]; [congruence|].
    destruct (Hg w s i f E HI) as (o & HT & s1 & f1 & E1 & R1 & I1 & S1 & D1). unfold and_then, bind. rewrite R1. destruct o as [E1'|].
    - subst E1'. destruct (IH (ex_intro _ k (ex_intro _ q (conj Hi Hk))) s1 f1 E1 I1) as (s2 & f2 & E2 & R2 & I2 & S2 & D2).
      exists s2, f2, E2. split; [exact R2|]. split; [exact I2|]. split; [now apply same_elsewhere_trans with s1|].
      intros m Hm. rewrite D2; [|intros (k' & q' & Hi' & Hq'); apply Hm; exists k', q'; split; [now right|exact Hq']].
      destruct (try_effect _ _ allowed _ _ _ _ HT Hw) as [X _]. apply X. intro Y; apply Hm. exists n, p. split; [now left|exact Y].
    - exists s1, f1, E1. split; [reflexivity|]. split; [exact I1|]. split; [exact S1|]. intros m Hm. apply D1. intro Y; apply Hm.
      exists n, p. split; [now left|exact Y].
  Qed.

  Ltac no_match H f := eexists None; split; [|apply (done_false _ _ f _ _ H)].
  Lemma bind_good : forall p, Wf p -> Good p.
  Proof.
    induction p using pattern_ind'; intros W v s j f E HI; inversion W; subst.
    - exists (Some E). split; [constructor|]. now apply done_true with f.
    - exists (if is_unit v then Some E else None). split; [constructor|]. now apply done_here with f.
    - destruct v as [b|z|t|d|l|h|g|x]; cbn [bind_pattern]; try (no_match HI f; constructor; discriminate).
      destruct (str_eqb t n) eqn:X.
      + apply str_eqb_eq in X. subst t. exists (Some E). split; [constructor|]. now apply done_true with f.
      + no_match HI f. constructor. intros [= ->]. now rewrite str_eqb_refl in X.
    - destruct (step_bind_one out s j f E n v HI) as (s1 & f1 & R1 & I1 & S1). exists (Some (bound_to E n v)). split; [constructor|].
      exists s1, f1, (bound_to E n v). auto.
    - match goal with X : allowed e |- _ => pose proof (Heval e X s j f E HI) as HD end. cbn [bind_pattern]. unfold bind, catch.
      assert (step : forall s', SameScopes s s' -> Running s' -> InScope out s' j f E /\ SameElsewhere s s').
      { intros s' (A1 & A2 & new & A3) HR. destruct HI as [B1 B2 B3 B4 B5 B6].
        assert (Hlt : j < length (st_heap s)) by (apply nth_error_Some; congruence). split.
        - constructor; auto; [congruence|rewrite A3, nth_error_app1; auto|]. intro n. rewrite <- B6.
          apply outside_below with j; auto; [apply B1|]. intros j0 Hj. rewrite A3, nth_error_app1; auto. lia.
        - repeat split; auto; [rewrite A3, app_length; lia|]. intros j0 f0 Hj. exists f0. rewrite A3.
          rewrite nth_error_app1 by (apply nth_error_Some; congruence). auto. }
      destruct (value_of E e) as [w|] eqn:Ev.
      + destruct HD as (s1 & R1 & S1 & RR). rewrite R1. exists (if value_eqb v w then Some E else None). split; [now constructor|].
        destruct (step s1 S1 RR) as [I1 S2]. exists s1, f, E. split; [now destruct (value_eqb v w)|]. split; [exact I1|]. split; [exact S2|].
        now destruct (value_eqb v w).
      + destruct HD as (err & s1 & R1 & S1 & RR). rewrite R1. exists None. split; [now constructor|].
        destruct (step s1 S1 RR) as [I1 S2]. exists s1, f, E. auto.
    - destruct (run_items j [(p1, v); (p2, v)]) with (s := s) (f := f) (E := E) as (o & HT & HD); auto.
      exists o. split; [now constructor|]. cbn [bind_pattern].
      destruct HD as (s' & f' & E' & R1 & I1 & S1 & D1). exists s', f', E'. split; [|split; [exact I1|split; [exact S1|]]].
      + rewrite <- R1. unfold bind_items, and_then, bind. destruct (bp p1 v s) as [[]| | |]; auto. destruct (bp p2 v s0) as [[]| | |]; auto.
      + destruct o; [exact D1|]. intros m Hm. apply D1. intros (q & w & Hi & Hq). apply Hm.
        destruct Hi as [[= <- <-]|[[= <- <-]|[]]]; [now apply pv_and_l|now apply pv_and_r].
    - match goal with X : forall n, In n ns <-> _ |- _ => rename X into Hns end.
      assert (G1 : Good p1) by auto. assert (G2 : Good p2) by auto. clear IHp1 IHp2. cbn [bind_pattern].
      destruct (G1 v s j f E HI) as (o1 & HT1 & s1 & f1 & E1 & R1 & I1 & S1 & D1). unfold bind at 1. rewrite R1.
      assert (fin : forall s2 f2 E2, InScope out s2 j f2 E2 -> exists s3 f3,
        with_frame (fr_set_missing ns UNIT) s2 = Ok tt s3 /\ InScope out s3 j f3 (fill ns E2) /\ SameElsewhere s2 s3).
      { intros s2 f2 E2 I2. destruct (set_missing_spec ns f2 (in_distinct _ _ _ _ _ I2)) as [X1 X2].
        destruct (step_with_frame out s2 j f2 E2 (fr_set_missing ns UNIT) (fill ns E2) I2) as (s3 & Y1 & Y2 & Y3); auto.
        - apply P_Built.fr_set_missing_parent.
        - intro n. rewrite X2, (in_locals _ _ _ _ _ I2). unfold fill. now destruct (E2 n).
        - exists s3, (fr_set_missing ns UNIT f2). auto. }
      destruct o1 as [E1'|].
      + subst E1'. unfold bind at 1. unfold ret at 1. destruct (fin s1 f1 E1 I1) as (s2 & f2 & R2 & I2 & S2).
        exists (Some (fill ns E1)). split; [now apply try_or_left|]. exists s2, f2, (fill ns E1). unfold bind. rewrite R2.
        split; [reflexivity|]. split; [exact I2|]. split; [now apply same_elsewhere_trans with s1|reflexivity].
      + destruct (unset_all_spec ns f1 (in_distinct _ _ _ _ _ I1)) as [X1 X2].
        destruct (step_with_frame out s1 j f1 E1 (fr_unset_all ns) (forget ns E) I1) as (s2 & R2 & I2 & S2); auto.
        { apply P_Built.fr_unset_all_parent. }
        { intro n. rewrite X2, (in_locals _ _ _ _ _ I1). unfold forget. destruct (mem n ns) eqn:En; [reflexivity|]. apply D1.
          intro Hp. assert (In n ns) as Hi by (apply Hns; auto). apply mem_In in Hi. congruence. }
        unfold bind at 1. unfold bind at 1. rewrite R2.
        destruct (G2 v s2 j _ _ I2) as (o2 & HT2 & s3 & f3 & E3 & R3 & I3 & S3 & D3). rewrite R3.
        exists (option_map (fill ns) o2). split; [now apply try_or_right|]. destruct o2 as [E2|]; cbn [option_map].
        * subst E3. destruct (fin s3 f3 E2 I3) as (s4 & f4 & R4 & I4 & S4). exists s4, f4, (fill ns E2). unfold bind. rewrite R4.
          split; [reflexivity|]. split; [exact I4|]. split; [|reflexivity]. eapply same_elsewhere_trans; [exact S1|].
          eapply same_elsewhere_trans; [exact S2|]. eapply same_elsewhere_trans; eauto.
        * exists s3, f3, E3. split; [reflexivity|]. split; [exact I3|]. split.
          { eapply same_elsewhere_trans; [exact S1|]. eapply same_elsewhere_trans; eauto. }
          intros m Hm. rewrite D3 by (intro; apply Hm; now apply pv_or_r). apply forget_other. intro Hi. apply Hns in Hi as [?|?]; apply Hm; [now apply pv_or_l|now apply pv_or_r].
    - destruct v as [b|z|t|d|l|h|g|x]; cbn [bind_pattern]; try (no_match HI f; apply try_regex_not; discriminate).
      destruct (captures re t) as [gs|] eqn:Ec.
      + destruct gs as [|g0 gs]; [now destruct (Hcap re t)|].
        assert (L : length gs = length ns). { match goal with X : forall s gs, _ -> length gs = _ |- _ => apply (X t gs) end. unfold groups_of. now rewrite Ec. }
        cbn [length List.tl]. replace (S (length gs) =? length ns + 1) with true by (symmetry; apply Nat.eqb_eq; lia).
        destruct (step_bind_groups out j gs ns s f E HI) as (s1 & f1 & R1 & I1 & S1).
        eexists (Some _). split; [apply try_regex; unfold groups_of; now rewrite Ec|]. exists s1, f1. eexists. eauto.
      + no_match HI f. apply try_regex_none. unfold groups_of. now rewrite Ec.
    - exists (if check_value t v then Some E else None). split; [constructor|]. now apply done_here with f.
    - destruct (step_bind_one out s j f E n (VStr (t_display (get_type v))) HI) as (s1 & f1 & R1 & I1 & S1). eexists (Some _). split; [constructor|].
      exists s1, f1. eexists. split; [exact R1|]. eauto.
    - rewrite bp_exact_list. assert (G : Forall Good ps). { rewrite Forall_forall in *. auto. }
      destruct v as [b|z|t|d|l|h|g|x]; try (no_match HI f; apply try_list_not; discriminate).
      destruct (length ps =? length l) eqn:L.
      + apply Nat.eqb_eq in L. rewrite bind_all_items. destruct (run_items j (combine ps l)) with (s := s) (f := f) (E := E) as (o & HT & HD); auto.
        { now apply items_good. }
        exists o. split; [now constructor|]. eapply done_vars; [|exact HD]. intros m (q & w & Hi & Hq). apply in_combine_l in Hi. eapply pv_list; eauto.
      + apply Nat.eqb_neq in L. no_match HI f. apply try_list_length. auto.
    - rewrite bp_spread_list. assert (G : Forall Good ps). { rewrite Forall_forall in *. auto. }
      destruct v as [b|z|t|d|l|h|g|x]; try (no_match HI f; apply try_spread_not; discriminate).
      destruct (length l + 1 <? length ps) eqn:L; [apply Nat.ltb_lt in L; no_match HI f; now apply try_spread_short|]. apply Nat.ltb_ge in L.
      destruct (bind_spread_items value (fun v => v) VList ps i l) as (pre & q & post & us & mid & ws & -> & <- & -> & Lu & Lw & ->); auto.
      rewrite !map_id. apply Forall_app in G as [G1 G2]. inversion G2; subst.
      match goal with X : Forall Wf (_ ++ _) |- _ => apply Forall_app in X as [W1 W2] end. inversion W2; subst.
      destruct (run_items j (combine pre us ++ (q, VList mid) :: combine post ws)) with (s := s) (f := f) (E := E) as (o & HT & HD); auto.
      { apply Forall_app. split; [now apply items_good|]. constructor; [auto|now apply items_good]. }
      exists o. split; [now apply try_spread|]. eapply done_vars; [|exact HD]. intros m (p' & w & Hi & Hq). eapply pv_spread; [|exact Hq].
      apply in_app_or in Hi as [Hi|[[= <- <-]|Hi]]; apply in_or_app; cbn; [left|right; left; auto|right; right]; eapply in_combine_l; exact Hi.
    - rewrite bp_dict. assert (G : Forall (fun kp => Wf (snd kp) /\ Good (snd kp)) attrs). { rewrite Forall_forall in *. auto. }
      destruct v as [b|z|t|d|l|h|g|x]; try (no_match HI f; apply try_dict_not; discriminate).
      destruct (attrs_present d attrs) as [(ws & F2 & Eb)|Hmiss].
      + assert (Li : Forall (fun pv => Wf (fst pv) /\ Good (fst pv)) (combine (List.map snd attrs) ws)).
        { clear -G. revert ws. induction G; intros [|w ws]; cbn [List.map combine]; auto. }
        assert (Hv : forall m, ListVar (combine (List.map snd attrs) ws) m -> PatVar (PDict attrs r) m).
        { intros m (q & w & Hi & Hq). apply in_combine_l, in_map_iff in Hi as ([k' q'] & <- & Hi). eapply pv_dict; eauto. }
        destruct r as [rp|].
        * rewrite Eb. assert (Grp : Wf rp /\ Good rp) by auto.
          destruct (run_items j (combine (List.map snd attrs) ws ++ [(rp, VDict (List.filter (fun kv => negb (nhas attrs (fst kv))) d))]))
            with (s := s) (f := f) (E := E) as (o & HT & HD); auto. { apply Forall_app. split; [exact Li|]. apply Forall_cons; [exact Grp|apply Forall_nil]. }
          exists o. split; [now apply try_dict_rest with ws|]. eapply done_vars with (vars' := PatVar (PDict attrs (Some rp))) in HD.
          2:{ intros m Hm. apply list_var_app in Hm as [Hm|Hm]; [auto|]. apply list_var_cons in Hm as [Hm|Hm]; [now apply pv_rest|now apply list_var_nil in Hm]. }
          assert (X : forall l a s, bind_items (l ++ [a]) s = and_then (bind_items l) (bp (fst a) (snd a)) s).
          { clear. induction l as [|[p v] l IH]; intros [q w] s; cbn [app bind_items fst snd]; unfold and_then, bind at 1 2, ret.
            - destruct (bp q w s) as [[]| | |]; reflexivity.
            - unfold bind. destruct (bp p v s) as [[]| | |]; auto. rewrite IH. unfold and_then, bind. reflexivity. }
          rewrite X in HD. cbn [fst snd] in HD. destruct rp; exact HD.
        * destruct (length d =? length attrs) eqn:L; cbn [negb].
          -- apply Nat.eqb_eq in L. rewrite Eb. destruct (run_items j (combine (List.map snd attrs) ws)) with (s := s) (f := f) (E := E) as (o & HT & HD); auto.
             exists o. split; [now apply try_dict with ws|]. eapply done_vars in HD; [|exact Hv].
             destruct HD as (s' & f' & E' & R1 & I1 & S1 & D1). exists s', f', E'. split; [|auto]. unfold and_then, bind. rewrite R1. now destruct o.
          -- apply Nat.eqb_neq in L. no_match HI f. now apply try_dict_size.
      + exists None. destruct (match r with None => _ | Some _ => _ end) eqn:Ez.
        * destruct r; [discriminate|]. apply negb_true_iff, Nat.eqb_neq in Ez. split; [now apply try_dict_size|now apply done_false with f].
        * destruct Hmiss as (k' & q' & Hi & Hk). split; [now apply try_dict_missing with k' q'|].
          destruct (attrs_missing j d attrs G (ex_intro _ k' (ex_intro _ q' (conj Hi Hk))) s f E HI) as (s' & f' & E' & R1 & I1 & S1 & D1).
          exists s', f', E'. unfold and_then, bind. rewrite R1. split; [reflexivity|]. split; [exact I1|]. split; [exact S1|].
          intros m Hm. apply D1. intros (k2 & q2 & Hi2 & Hq2). apply Hm. eapply pv_dict; eauto.
    - cbn [bind_pattern]. destruct v as [b|z|t|d|l|h|g|x]; try (no_match HI f; apply try_tag_not; discriminate).
      destruct h as [|n a c| | | |]; try (no_match HI f; apply try_tag_not; discriminate).
      destruct (run_items j [(p1, VStr n); (p2, VDict (attr_values a)); (p3, of_html c)]) with (s := s) (f := f) (E := E) as (o & HT & HD); auto.
      { repeat (apply Forall_cons; [split; cbn [fst]; auto|]). apply Forall_nil. }
      exists o. split; [now constructor|].
      destruct HD as (s' & f' & E' & R1 & I1 & S1 & D1). exists s', f', E'. split; [|split; [exact I1|split; [exact S1|]]].
      + rewrite <- R1. unfold bind_items, and_then, bind. fold (attr_values a). destruct (bp p1 _ s) as [[] s1| | |]; auto.
        change (List.map _ a) with (attr_values a).
        destruct (bp p2 _ s1) as [[] s2| | |]; auto. destruct (bp p3 _ s2) as [[] s3| | |]; auto.
      + destruct o; [exact D1|]. intros m Hm. apply D1. intros (q & w & Hi & Hq). apply Hm.
        destruct Hi as [[= <- <-]|[[= <- <-]|[[= <- <-]|[]]]]; [now apply pv_tag_name|now apply pv_tag_attrs|now apply pv_tag_content].
    - rewrite bp_exact_html. assert (G : Forall Good ps). { rewrite Forall_forall in *. auto. }
      destruct (to_html v) as [h|] eqn:Eh; [|no_match HI f; now apply try_html_not].
      destruct (length (html_nodes h) =? length ps) eqn:L.
      + apply Nat.eqb_eq in L. rewrite bind_all_items.
        destruct (run_items j (combine ps (List.map of_html (html_nodes h)))) with (s := s) (f := f) (E := E) as (o & HT & HD); auto.
        { now apply items_good. }
        exists o. split; [now apply try_html with h|]. eapply done_vars; [|exact HD]. intros m (q & w & Hi & Hq). apply in_combine_l in Hi. eapply pv_html; eauto.
      + apply Nat.eqb_neq in L. no_match HI f. now apply try_html_length with h.
    - rewrite bp_spread_html. assert (G : Forall Good ps). { rewrite Forall_forall in *. auto. }
      destruct (to_html v) as [h|] eqn:Eh; [|no_match HI f; now apply try_spread_html_not].
      destruct (length (html_nodes h) + 1 <? length ps) eqn:L; [apply Nat.ltb_lt in L; no_match HI f; now apply try_spread_html_short with h|]. apply Nat.ltb_ge in L.
      destruct (bind_spread_items html of_html (fun hs => of_html (from_iter hs)) ps i (html_nodes h)) as (pre & q & post & us & mid & ws & -> & <- & Ehn & Lu & Lw & ->); auto.
      apply Forall_app in G as [G1 G2]. inversion G2; subst.
      match goal with X : Forall Wf (_ ++ _) |- _ => apply Forall_app in X as [W1 W2] end. inversion W2; subst.
      destruct (run_items j (combine pre (List.map of_html us) ++ (q, of_html (from_iter mid)) :: combine post (List.map of_html ws))) with (s := s) (f := f) (E := E) as (o & HT & HD); auto.
      { apply Forall_app. split; [now apply items_good|]. constructor; [auto|now apply items_good]. }
      exists o. split; [now apply try_spread_html with h us mid ws|]. eapply done_vars; [|exact HD]. intros m (p' & w & Hi & Hq). eapply pv_spread_html; [|exact Hq].
      apply in_app_or in Hi as [Hi|[[= <- <-]|Hi]]; apply in_or_app; cbn; [left|right; left; auto|right; right]; eapply in_combine_l; exact Hi.
  Qed.
End Main.

(** ** A value matches in at most one way *)
Section Fun.
  Variable groups : str -> str -> option (list (option str)).
  Variable value_of : env -> expr -> option value.
  Notation Try := (Try groups value_of).
  Notation TryAll := (TryAll groups value_of).
  Lemma app_same_length A (a a' b b' : list A) : length a = length a' -> a ++ b = a' ++ b' -> a = a' /\ b = b'.
  Proof. revert a'. induction a as [|x a IH]; intros [|y a'] L H; try discriminate; auto. injection H as -> H. destruct (IH a') as [-> ->]; auto. Qed.
  Lemma mid_unique A (u u' m m' w w' : list A) : length u = length u' -> length w = length w' -> u ++ m ++ w = u' ++ m' ++ w' ->
    u = u' /\ m = m' /\ w = w'.
  Proof.
    intros Lu Lw H. destruct (app_same_length _ _ _ _ _ Lu H) as [-> H2].
    assert (L : length m = length m'). { apply (f_equal (@length A)) in H2. rewrite !app_length in H2. lia. }
    destruct (app_same_length _ _ _ _ _ L H2) as [-> ->]. auto.
  Qed.
  Lemma forall2_fun A B (P : A -> B -> Prop) l a b : (forall x y z, P x y -> P x z -> y = z) -> Forall2 P l a -> Forall2 P l b -> a = b.
  Proof. intros HP H. revert b. induction H; intros b Hb; inversion Hb; subst; [auto|]. f_equal; eauto. Qed.
  Lemma forall2_in A B (P : A -> B -> Prop) l a x : Forall2 P l a -> In x l -> exists y, P x y.
  Proof. induction 1; intros []; subst; eauto. Qed.
  Lemma try_fun : forall E p v o, Try E p v o -> forall o', Try E p v o' -> o = o'.
  Proof.
    apply (Try_mut groups value_of (fun E p v o _ => forall o', Try E p v o' -> o = o') (fun E l o _ => forall o', TryAll E l o' -> o = o'));
      intros; match goal with H : S_Match.Try _ _ _ _ _ ?o |- _ = ?o => inversion H; subst | H : S_Match.TryAll _ _ _ _ ?o |- _ = ?o => inversion H; subst end;
      try reflexivity; try congruence; try contradiction; auto;
      try (exfalso; solve [eauto | match goal with H : forall x, ?v <> _ |- _ => eapply H; reflexivity end]).
    all: try (match goal with H : forall n a c, VHtml _ <> _ |- _ => edestruct H; reflexivity end).
    all: try (match goal with F : Forall2 _ ?l _, I : In _ ?l |- _ => destruct (forall2_in _ _ _ _ _ _ F I) as [? X]; cbn [fst] in X; congruence end).
    all: try (match goal with F : Forall2 _ ?l ?a, G : Forall2 _ ?l ?b |- _ =>
                assert (a = b) as Hab by (eapply forall2_fun; [|exact F|exact G]; intros ? ? ? ? ?; congruence) end; subst; auto).
    all: try (match goal with A : to_html ?v = Some ?a, B : to_html ?v = Some ?b |- _ => assert (a = b) by congruence; subst end; try clear A; auto).
    all: try (match goal with e : html_nodes ?h = _, X : context[length (html_nodes ?h)] |- _ => rewrite e in X end).
    all: try (exfalso; repeat match goal with X : context[length (_ ++ _)] |- _ => rewrite !app_length in X; cbn [length] in X end; lia).
    all: try (match goal with X : ?a ++ ?b :: ?c = ?d ++ ?e :: ?f |- _ => apply app_same_length in X as [-> [= -> ->]]; [|auto] end;
              match goal with
              | X : ?a ++ ?b ++ ?c = ?d ++ ?e ++ ?f |- _ => apply mid_unique in X as (-> & -> & ->); [|congruence|congruence]
              | X : html_nodes ?h = ?a ++ _, Y : html_nodes ?h = ?b ++ _ |- _ =>
                rewrite X in Y; apply mid_unique in Y as (-> & -> & ->); [|congruence|congruence]
              end; auto).
    - replace w0 with w by congruence. reflexivity.
    - apply H in H7. congruence.
    - apply H in H7. congruence.
    - apply H in H8. congruence.
    - f_equal. auto.
    - apply H in H6. congruence.
    - apply H in H7. congruence.
    - apply H in H7. injection H7 as ->. auto.
  Qed.
End Fun.

(** ** Branches *)
Lemma prefix_of A : forall h h' : list A, (forall j f, nth_error h j = Some f -> nth_error h' j = Some f) -> exists new, h' = h ++ new.
Proof.
  induction h as [|x h IH]; intros h' H; [now exists h'|]. destruct h' as [|y h']; [specialize (H 0 x eq_refl); discriminate|].
  pose proof (H 0 x eq_refl) as [= ->]. destruct (IH h') as [new ->]; [|now exists new]. intros j f Hj. exact (H (S j) f Hj).
Qed.
Section Branches.
  Variable eval : expr -> ty -> EM value.
  Variable captures : str -> str -> option (list (option str)).
  Variable value_of : env -> expr -> option value.
  Variable allowed : expr -> Prop.
  Variable outer : env.
  Hypothesis Hcap : forall re s, captures re s <> Some [].
  Hypothesis Heval : forall e, allowed e -> Describes eval value_of outer e.
  (** evaluation leaves the call stack as it was *)
  Hypothesis Hstack : forall e t s s', after (eval e t s) = Some s' -> st_stack s' = st_stack s.
  Notation Try := (Try (groups_of captures) value_of).
  Notation Wf := (WfPattern (groups_of captures) allowed).

  Lemma frame_get_step h i f n : WellScoped h -> nth_error h i = Some f -> frame_get h i n false =
    match ngetm (fr_locals f) n with Some v => Some v | None => outside h f n end.
  Proof.
    intros W Hi. unfold frame_get. cbn [frame_get_fuel]. rewrite Hi. cbn [negb orb]. destruct (ngetm (fr_locals f) n); [reflexivity|].
    unfold outside. destruct (fr_parent f) as [p|] eqn:Ep; [|reflexivity]. pose proof (W i f p Hi Ep) as Hlt.
    unfold frame_get. clear -W Hlt. 
    assert (X : forall fuel fuel' p, p < fuel -> p < fuel' -> frame_get_fuel fuel h p n false = frame_get_fuel fuel' h p n false).
    { induction fuel as [|fuel IH]; intros [|fuel'] q H1 H2; try lia. cbn [frame_get_fuel]. destruct (nth_error h q) as [g|] eqn:E; [|reflexivity].
      destruct (if _ : bool then _ else _); [reflexivity|]. destruct (fr_parent g) as [r|] eqn:Er; [|reflexivity].
      specialize (W q g r E Er). apply IH; lia. }
    apply X; lia.
  Qed.
  (** Entering a new scope inside the current one *)
  Lemma child_scope s i k : Running s -> st_stack s = i :: k -> (forall n, frame_get (st_heap s) i n false = outer n) ->
    let s1 := set_stack (length (st_heap s) :: i :: k) (set_heap (st_heap s ++ [Frame (Some i) [] []]) s) in
    InScope outer s1 (length (st_heap s)) (Frame (Some i) [] []) no_vars.
  Proof.
    intros (W & R & F) Es Ho s1. rewrite Es in F. inversion F as [|? ? Fi Fk]; subst.
    assert (Hb : forall j, j < length (st_heap s) -> nth_error (st_heap s ++ [Frame (Some i) [] []]) j = nth_error (st_heap s) j)
      by (intros; now rewrite nth_error_app1).
    constructor; subst s1; st_simpl; auto.
    - repeat split; st_simpl; rewrite ?app_length; cbn [length].
      + now apply running_scoped_snoc.
      + lia.
      + constructor; [lia|]. constructor; [lia|]. eapply forall_lt_mono; [|exact Fk]. lia.
    - rewrite nth_error_app2, Nat.sub_diag by lia. reflexivity.
    - constructor.
    - intro n. rewrite <- Ho. unfold outside. cbn [fr_parent]. apply frame_get_below; [exact W|]. intros j Hj. apply Hb. lia.
  Qed.
  Lemma in_child_eq A (m : EM A) s i k : Running s -> st_stack s = i :: k ->
    in_child_frame m s =
    let s1 := set_stack (length (st_heap s) :: i :: k) (set_heap (st_heap s ++ [Frame (Some i) [] []]) s) in
    match m s1 with
    | Ok a s' => Ok a (set_stack (List.tl (st_stack s')) s')
    | Err e s' => Err e (set_stack (List.tl (st_stack s')) s')
    | r => r
    end.
  Proof.
    intros (W & R & F) Es. rewrite Es in F. inversion F as [|? ? Fi Fk]; subst.
    unfold in_child_frame, bind, frame_id. rewrite Es. unfold in_call_frame, bind, gets.
    replace (i <? length (st_heap s)) with true by (symmetry; now apply Nat.ltb_lt).
    unfold new_frame, in_frame. cbv zeta. st_simpl. rewrite Es. reflexivity.
  Qed.
  Lemma branches_spec bs v t : Forall (fun b => Wf (fst b)) bs -> forall s i k, Running s -> st_stack s = i :: k ->
    (forall n, frame_get (st_heap s) i n false = outer n) ->
    (exists pre p e post E s1 j f, bs = pre ++ (p, e) :: post /\ Forall (fun b => Try no_vars (fst b) v None) pre /\
       Try no_vars p v (Some E) /\ st_stack s1 = j :: st_stack s /\ InScope outer s1 j f E /\ fr_parent f = Some i /\
       (exists new, st_heap s1 = st_heap s ++ new) /\
       match_branches eval captures bs v t s = restack (st_stack s) (eval e t s1)) \/
    (Forall (fun b => Try no_vars (fst b) v None) bs /\ exists s1, SameScopes s s1 /\
       match_branches eval captures bs v t s = Err AlreadyReported (set_sink (sink_add (RuntimeErr NoMatchingBranch) (st_sink s1)) s1)).
  Proof.
    intro H. induction H as [|[p e] bs Hw H IH]; intros s i k HR Es Ho.
    - right. split; [constructor|]. exists s. split; [|reflexivity]. repeat split; auto. exists []. now rewrite app_nil_r.
    - remember (match_branches eval captures ((p, e) :: bs) v t s) as r eqn:Hr.
      cbn [match_branches fst] in *. unfold bind at 1 in Hr. rewrite (in_child_eq _ _ s i k HR Es) in Hr. cbv zeta in Hr.
      pose proof (child_scope s i k HR Es Ho) as HI. cbv zeta in HI.
      set (s1 := set_stack _ _) in *.
      destruct (bind_good eval captures value_of allowed outer Hcap Heval p Hw v s1 _ _ _ HI) as (o & HT & s2 & f2 & E2 & R2 & I2 & S2 & D2).
      unfold bind in Hr. rewrite R2 in Hr. destruct S2 as (A1 & A2 & A3 & A4).
      assert (Hstk : st_stack s2 = length (st_heap s) :: st_stack s). { rewrite A1. subst s1. st_simpl. now rewrite Es. }
      assert (Hold : forall j f, nth_error (st_heap s) j = Some f -> nth_error (st_heap s2) j = Some f).
      { intros j f Hj. assert (j < length (st_heap s)) by (apply nth_error_Some; congruence).
        assert (Hj1 : nth_error (st_heap s1) j = Some f) by (subst s1; st_simpl; now rewrite nth_error_app1).
        destruct (A4 j f Hj1) as (f' & Hf' & _ & Hsame). rewrite Hf'. f_equal. apply Hsame. subst s1. st_simpl. cbn [hd_error]. intro X. injection X. lia. }
      assert (Hpar : fr_parent f2 = Some i).
      { destruct (A4 (length (st_heap s)) (Frame (Some i) [] [])) as (f' & Hf' & Hp & _); [apply (in_frame_i _ _ _ _ _ HI)|].
        pose proof (in_frame_i _ _ _ _ _ I2). assert (f2 = f') by congruence. subst f'. exact Hp. }
      destruct o as [E1|].
      + subst E2. left. exists [], p, e, bs, E1, s2, (length (st_heap s)), f2. split; [reflexivity|]. split; [constructor|].
        split; [exact HT|]. split; [exact Hstk|]. split; [exact I2|]. split; [exact Hpar|]. split; [now apply prefix_of|].
        rewrite Hr. pose proof (Hstack e t s2) as Hk. destruct (eval e t s2) as [w s3|er s3| |]; cbn [restack]; try reflexivity.
        * specialize (Hk s3 eq_refl). unfold ret. rewrite Hk, Hstk. reflexivity.
        * specialize (Hk s3 eq_refl). rewrite Hk, Hstk. reflexivity.
      + unfold ret at 1 in Hr. cbv beta iota in Hr. rewrite Hstk in Hr. cbn [List.tl] in Hr. set (s3 := set_stack (st_stack s) s2) in *.
        assert (HR3 : Running s3).
        { destruct I2 as [(W & R & F) _ _ _ _ _]. repeat split; subst s3; st_simpl; auto. rewrite Hstk in F. now inversion F. }
        destruct (prefix_of _ _ _ Hold) as [new Hnew].
        destruct (IH s3 i k HR3) as [(pre & q & e' & post & E & s4 & j & f & -> & HF & HT' & Hs4 & HI4 & Hp & (new' & Hn) & Heq)|(HF & s4 & HS & Heq)].
        { subst s3. st_simpl. exact Es. }
        { intro n. rewrite <- Ho. subst s3. st_simpl. apply frame_get_below; [apply HR|]. intros j Hj. rewrite Hnew. apply nth_error_app1.
          destruct HR as (_ & _ & F). rewrite Es in F. inversion F; subst. lia. }
        * left. exists ((p, e) :: pre), q, e', post, E, s4, j, f. split; [reflexivity|]. split; [constructor; auto|]. split; [exact HT'|].
          split; [exact Hs4|]. split; [exact HI4|]. split; [exact Hp|]. split; [|rewrite Hr; exact Heq].
          exists (new ++ new'). rewrite Hn. subst s3. st_simpl. now rewrite Hnew, app_assoc.
        * right. split; [constructor; auto|]. exists s4. split; [|rewrite Hr; exact Heq]. destruct HS as (B1 & B2 & new' & B3). repeat split.
          -- rewrite B1. reflexivity.
          -- rewrite B2. subst s3. st_simpl. rewrite A2. reflexivity.
          -- exists (new ++ new'). rewrite B3. subst s3. st_simpl. now rewrite Hnew, app_assoc.
  Qed.
End Branches.

(** ** The evaluator on literals and variables *)
Lemma coerce_any v : coerce TAny v = inl v.
Proof. destruct v; reflexivity. Qed.
Lemma plain_describes X fuel outer e : Plain e -> Describes (e_node (evals_n X (S fuel))) (plain_value outer) outer e.
Proof.
  intros HP s i f E HI. pose proof (in_current _ _ _ _ _ HI) as Hc. destruct (st_stack s) as [|i' k] eqn:Es; [discriminate|]. injection Hc as ->.
  assert (same : SameScopes s s /\ Running s).
  { split; [|apply HI]. repeat split. exists []. now rewrite app_nil_r. }
  inversion HP; subst; cbn [plain_value]; try (exists s; split; [reflexivity|exact same]).
  cbn [evals_n step e_node]. unfold evaluate_node. cbn [evaluate_name]. unfold or_report, bind. rewrite (get_var_eq n s i k Es).
  rewrite (frame_get_step _ _ f) by apply HI. rewrite (in_locals _ _ _ _ _ HI), (in_outside _ _ _ _ _ HI).
  assert (X1 : forall v, exists s', coerceM v TAny s = Ok v s' /\ SameScopes s s' /\ Running s').
  { intro v. exists s. unfold coerceM. rewrite coerce_any. split; [reflexivity|exact same]. }
  assert (X2 : forall v, (exists s', coerceM v TAny s = Ok v s' /\ SameScopes s s' /\ Running s') -> exists s', match coerceM v TAny s with
    | Err e s0 => Err AlreadyReported (set_sink (sink_add e (st_sink s0)) s0) | r => r end = Ok v s' /\ SameScopes s s' /\ Running s').
  { intros v (s' & -> & H). exists s'. auto. }
  destruct (E n) as [v|]; [apply X2, X1|]. destruct (outer n) as [v|]; [apply X2, X1|].
  do 2 eexists. split; [reflexivity|]. destruct same as ((A & B & C) & (D & F & G)). split; [repeat split; auto|repeat split; auto].
Qed.

(** ** Consequences *)
Lemma frame_get_same_name h h' n : (forall j f, nth_error h j = Some f -> exists f', nth_error h' j = Some f' /\ fr_parent f' = fr_parent f /\
    ngetm (fr_locals f') n = ngetm (fr_locals f) n) -> WellScoped h ->
  forall fuel j, j < length h -> frame_get_fuel fuel h' j n false = frame_get_fuel fuel h j n false.
Proof.
  intros H W. induction fuel as [|fuel IH]; intros j Hj; [reflexivity|]. cbn [frame_get_fuel negb orb].
  destruct (nth_error h j) as [f|] eqn:E; [|apply nth_error_None in E; lia]. destruct (H j f E) as (f' & E' & Hp & Hg). rewrite E', Hg, Hp.
  destruct (ngetm (fr_locals f) n); [reflexivity|]. destruct (fr_parent f) as [q|] eqn:Eq; [|reflexivity]. apply IH.
  specialize (W j f q E Eq). lia.
Qed.
Section Cons.
  Variable eval : expr -> ty -> EM value.
  Variable captures : str -> str -> option (list (option str)).
  Variable value_of : env -> expr -> option value.
  Variable allowed : expr -> Prop.
  Variable outer : env.
  Hypothesis Hcap : forall re s, captures re s <> Some [].
  Hypothesis Heval : forall e, allowed e -> Describes eval value_of outer e.
  Notation bp := (bind_pattern eval captures).
  Notation Try := (Try (groups_of captures) value_of).
  Notation Wf := (WfPattern (groups_of captures) allowed).

  Lemma match_outcome p v s i f E : Wf p -> InScope outer s i f E -> exists b s' f',
    bp p v s = Ok b s' /\ SameElsewhere s s' /\
    if b then exists E', Try E p v (Some E') /\ InScope outer s' i f' E'
    else Try E p v None /\ exists E', InScope outer s' i f' E' /\ forall n, ~ PatVar p n -> E' n = E n.
  Proof.
    intros W HI. destruct (bind_good eval captures value_of allowed outer Hcap Heval p W v s i f E HI) as (o & HT & s' & f' & E' & R1 & I1 & S1 & D1).
    destruct o as [E1|]; [exists true|exists false]; exists s', f'; repeat (split; [assumption|]); [subst; eauto|eauto].
  Qed.
  Lemma match_vars p v s i f E b s' : Wf p -> InScope outer s i f E -> bp p v s = Ok b s' ->
    (b = true -> forall n, PatVar p n -> exists w, BindsAt (st_heap s') i n w) /\
    (forall n j w, ~ PatVar p n -> j < length (st_heap s) -> (Means (st_heap s') j n w <-> Means (st_heap s) j n w)).
  Proof.
    intros W HI R. destruct (match_outcome p v s i f E W HI) as (b' & s1 & f' & R1 & S1 & D1). rewrite R in R1. injection R1 as <- <-.
    assert (Hloc : exists E', InScope outer s' i f' E' /\ (forall n, ~ PatVar p n -> E' n = E n) /\ (b = true -> forall n, PatVar p n -> E' n <> None)).
    { destruct b.
      - destruct D1 as (E' & HT & HI'). exists E'. destruct (try_effect _ _ allowed _ _ _ _ HT W) as (A1 & A2 & A3). auto.
      - destruct D1 as (_ & E' & HI' & HE). exists E'. split; [exact HI'|]. split; [exact HE|discriminate]. }
    destruct Hloc as (E' & HI' & HE & HB). split.
    - intros Hb n Hn. specialize (HB Hb n Hn). destruct (E' n) as [w|] eqn:En; [|now destruct HB]. exists w, f'. split; [apply HI'|].
      now rewrite (in_locals _ _ _ _ _ HI').
    - intros n j w Hn Hj. destruct S1 as (A1 & A2 & A3 & A4). pose proof (in_running _ _ _ _ _ HI) as (W0 & _). pose proof (in_running _ _ _ _ _ HI') as (W1 & _).
      rewrite <- !frame_get_some by (auto; lia). unfold frame_get. rewrite (frame_get_same_name (st_heap s) (st_heap s') n); auto; [reflexivity|].
      intros k g Hk. destruct (A4 k g Hk) as (g' & Hk' & Hp & Hs). exists g'. split; [exact Hk'|]. split; [exact Hp|].
      destruct (Nat.eq_dec k i) as [->|Hne].
      + pose proof (in_frame_i _ _ _ _ _ HI). pose proof (in_frame_i _ _ _ _ _ HI'). assert (g = f) by congruence. assert (g' = f') by congruence. subst.
        rewrite (in_locals _ _ _ _ _ HI), (in_locals _ _ _ _ _ HI'). now apply HE.
      + rewrite Hs; [reflexivity|]. rewrite (in_current _ _ _ _ _ HI). congruence.
  Qed.
  Lemma spread_matches pre p post vs s i f E : Wf (PSpreadList (pre ++ p :: post) (length pre)) -> InScope outer s i f E ->
    ((exists s', bp (PSpreadList (pre ++ p :: post) (length pre)) (VList vs) s = Ok true s') <->
     exists us mid ws E', vs = us ++ mid ++ ws /\ length us = length pre /\ length ws = length post /\
       TryAll (groups_of captures) value_of E (combine pre us ++ (p, VList mid) :: combine post ws) (Some E')).
  Proof.
    intros W HI. destruct (match_outcome _ (VList vs) s i f E W HI) as (b & s' & f' & R & _ & D). split.
    - intros (s1 & R1). rewrite R in R1. injection R1 as -> ->. destruct D as (E' & HT & _). inversion HT; subst.
      match goal with X : ?a ++ ?b :: ?c = ?d ++ ?e :: ?f |- _ => apply app_same_length in X as [-> [= -> ->]]; [|auto] end. eauto 10.
    - intros (us & mid & ws & E' & -> & Lu & Lw & HT). exists s'. rewrite R. f_equal. destruct b; [reflexivity|]. destruct D as [D _].
      assert (X : Try E (PSpreadList (pre ++ p :: post) (length pre)) (VList (us ++ mid ++ ws)) (Some E')) by now apply try_spread.
      pose proof (try_fun _ _ _ _ _ _ D _ X). discriminate.
  Qed.
  Lemma tryall_app E l1 l2 o : TryAll (groups_of captures) value_of E (l1 ++ l2) (Some o) ->
    exists E', TryAll (groups_of captures) value_of E l1 (Some E') /\ TryAll (groups_of captures) value_of E' l2 (Some o).
  Proof.
    revert E. induction l1 as [|[p v] l1 IH]; intros E H; [exists E; split; [constructor|exact H]|]. inversion H; subst.
    match goal with X : S_Match.TryAll _ _ _ _ _ |- _ => destruct (IH _ X) as (E2 & X1 & X2) end. exists E2. split; [econstructor; eauto|exact X2].
  Qed.
  Lemma tryall_other l : Forall (fun pv => Wf (fst pv)) l -> forall E o n, TryAll (groups_of captures) value_of E l (Some o) ->
    (forall p v, In (p, v) l -> ~ PatVar p n) -> o n = E n.
  Proof.
    induction 1 as [|[p v] l Hw H IH]; intros E o n HT Hn; inversion HT; subst; [reflexivity|].
    match goal with X : S_Match.TryAll _ _ _ l _, Y : S_Match.Try _ _ _ _ _ _ |- _ =>
      rewrite (IH _ _ _ X) by (intros q w Hi; apply (Hn q w); now right); destruct (try_effect _ _ allowed _ _ _ _ Y Hw) as [Z _] end. apply Z. apply (Hn p v). now left.
  Qed.
  Lemma spread_var pre n post us mid ws E E' : Forall Wf post -> length us = length pre -> length ws = length post ->
    (forall q, In q post -> ~ PatVar q n) ->
    TryAll (groups_of captures) value_of E (combine pre us ++ (PVarName n, VList mid) :: combine post ws) (Some E') ->
    E' n = Some (VList mid).
  Proof.
    intros W Lu Lw Hn H. apply tryall_app in H as (E1 & _ & H). inversion H; subst.
    match goal with X : S_Match.TryAll _ _ _ _ _ |- _ => apply (tryall_other _ (wf_combine _ allowed post ws W)) with (n := n) in X; [rewrite X|] end.
    - match goal with X : S_Match.Try _ _ _ (PVarName _) _ _ |- _ => inversion X; subst end. apply bound_to_same.
    - intros q w Hi. apply Hn. eapply in_combine_l; exact Hi.
  Qed.
End Cons.

(** The names the parser lists for alternatives *)
Lemma set_add_in n m out : In n (set_add m out) <-> n = m \/ In n out.
Proof.
  unfold set_add. destruct (mem m out) eqn:E.
  - apply mem_In in E. split; [auto|]. intros [-> |]; auto.
  - rewrite in_app_iff. cbn. intuition.
Qed.
Lemma fold_set_add ns : forall out n, In n (fold_left (fun out n => set_add n out) ns out) <-> In n out \/ In n ns.
Proof.
  induction ns as [|m ns IH]; intros out n; cbn [fold_left]; [cbn; intuition|]. rewrite IH, set_add_in. cbn. intuition.
Qed.
Lemma get_name_ids_spec groups allowed : forall p, WfPattern groups allowed p -> forall out n, In n (get_name_ids p out) <-> In n out \/ PatVar p n.
Proof.
  assert (leaf : forall p out n, (forall n, ~ PatVar p n) -> (In n out <-> In n out \/ PatVar p n)).
  { intros p out n H. split; [auto|]. intros [|X]; [auto|]. destruct (H n X). }
  assert (lst : forall ps, Forall (fun p => WfPattern groups allowed p -> forall out n, In n (get_name_ids p out) <-> In n out \/ PatVar p n) ps ->
    Forall (WfPattern groups allowed) ps -> forall out n,
    In n ((fix go ps out := match ps with [] => out | p :: ps => go ps (get_name_ids p out) end) ps out) <-> In n out \/ exists p, In p ps /\ PatVar p n).
  { induction 1 as [|p ps Hp H IH]; intros W out n.
    - split; [auto|]. intros [|(q & [] & _)]; auto.
    - inversion W; subst. rewrite IH, Hp by assumption. split.
      + intros [[|]|(q & Hi & Hq)]; [auto|right; exists p; cbn; auto|right; exists q; cbn; auto].
      + intros [|(q & [<- | Hi] & Hq)]; [auto|auto|right; eauto]. }
  induction p using pattern_ind'; intros W out m; inversion W; subst; cbn [get_name_ids];
    try (apply leaf; intros k Hk; solve [inversion Hk]).
  - rewrite set_add_in. split; [intros [-> |]; [right; constructor|auto]|intros [|X]; [auto|inversion X; auto]].
  - rewrite IHp2, IHp1 by assumption. split; [intros [[|]|]; auto; right; [now apply pv_and_l|now apply pv_and_r]|intros [|X]; [auto|inversion X; auto]].
  - rewrite fold_set_add. match goal with X : forall n, In n ns <-> _ |- _ => rewrite X end.
    split; [intros [|[|]]; auto; right; [now apply pv_or_l|now apply pv_or_r]|intros [|X]; [auto|inversion X; auto]].
  - rewrite fold_set_add. split; [intros [|]; auto; right; now constructor|intros [|X]; [auto|inversion X; auto]].
  - rewrite set_add_in. split; [intros [-> |]; [right; constructor|auto]|intros [|X]; [auto|inversion X; auto]].
  - rewrite lst by assumption. split; [intros [|(q & Hi & Hq)]; [auto|right; eapply pv_list; eauto]|intros [|X]; [auto|inversion X; subst; eauto]].
  - rewrite lst by assumption. split; [intros [|(q & Hi & Hq)]; [auto|right; eapply pv_spread; eauto]|intros [|X]; [auto|inversion X; subst; eauto]].
  - assert (Hat : forall out, In m ((fix go (attrs : list (str * pattern)) out := match attrs with [] => out | (_, p) :: attrs => go attrs (get_name_ids p out) end) attrs out) <->
      In m out \/ exists k p, In (k, p) attrs /\ PatVar p m).
    { match goal with X : Forall (fun kp => WfPattern _ _ (snd kp)) attrs |- _ => rename X into HW end. clear W H0. induction H as [|[k p] attrs Hp H IH]; intro o.
      - split; [auto|]. intros [|(k' & q & [] & _)]; auto.
      - inversion HW; subst. cbn [snd] in *. rewrite IH, Hp by assumption. split.
        + intros [[|]|(k' & q & Hi & Hq)]; [auto|right; exists k, p; cbn; auto|right; exists k', q; cbn; auto].
        + intros [|(k' & q & [[= <- <-]|Hi] & Hq)]; [auto|auto|right; eauto]. }
    destruct r as [rp|].
    + rewrite (H0 rp eq_refl) by auto. rewrite Hat. split.
      * intros [[|(k & q & Hi & Hq)]|]; [auto|right; eapply pv_dict; eauto|right; now apply pv_rest].
      * intros [|X]; [auto|]. inversion X; subst; [left; right; eauto|auto].
    + rewrite Hat. split; [intros [|(k & q & Hi & Hq)]; [auto|right; eapply pv_dict; eauto]|intros [|X]; [auto|inversion X; subst; eauto]].
  - rewrite IHp3, IHp2, IHp1 by assumption. split.
    + intros [[[|]|]|]; auto; right; [now apply pv_tag_name|now apply pv_tag_attrs|now apply pv_tag_content].
    + intros [|X]; [auto|inversion X; auto].
  - rewrite lst by assumption. split; [intros [|(q & Hi & Hq)]; [auto|right; eapply pv_html; eauto]|intros [|X]; [auto|inversion X; subst; eauto]].
  - rewrite lst by assumption. split; [intros [|(q & Hi & Hq)]; [auto|right; eapply pv_spread_html; eauto]|intros [|X]; [auto|inversion X; subst; eauto]].
Qed.
Lemma parsed_or_wf groups allowed p q : WfPattern groups allowed p -> WfPattern groups allowed q ->
  WfPattern groups allowed (POr p q (get_name_ids q (get_name_ids p []))).
Proof.
  intros Hp Hq. constructor; auto. intro n. rewrite (get_name_ids_spec groups allowed q Hq), (get_name_ids_spec groups allowed p Hp). cbn. intuition.
Qed.
