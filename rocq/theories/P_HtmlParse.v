(** Proofs about parsing HTML (C63). *)
From Coq Require Import Permutation.
From Verif Require Import Base BaseFacts M_Names M_Html M_HtmlParse S_Html P_Html M_Value S_Call P_Call P_Coerce S_Safe P_SafeBase P_SafeHtml S_HtmlParse.

Lemma nfrom_snoc T (l : list (str * T)) n v : nfrom (l ++ [(n, v)]) = ninsert (nfrom l) n v.
Proof. unfold nfrom. rewrite fold_left_app. reflexivity. Qed.
Lemma ninsert_get T (m : nmap T) n v k : ngetm (ninsert m n v) k = if str_eqb k n then Some v else ngetm m k.
Proof.
  induction m as [|[x y] m IH]; cbn [ninsert ngetm].
  - destruct (str_eqb k n); reflexivity.
  - destruct (str_eqb n x) eqn:E; cbn [ngetm].
    + apply str_eqb_eq in E as ->. destruct (str_eqb k x); reflexivity.
    + destruct (str_eqb k x) eqn:F; [|exact IH]. apply str_eqb_eq in F as ->.
      destruct (str_eqb x n) eqn:G; [|reflexivity]. apply str_eqb_eq in G as ->. rewrite str_eqb_refl in E. discriminate.
Qed.
Lemma attributes_of lower attrs : AttributesOf lower attrs (nfrom (List.map (fun a => (lower (fst a), Some (snd a))) attrs)).
Proof.
  split; [apply nfrom_nodup|]. split.
  - intros n v. set (m := nfrom _). assert (G : In (n, v) m <-> ngetm m n = Some v).
    { split; [apply ngetm_NoDup, nfrom_nodup|apply ngetm_In]. }
    rewrite G. unfold m. clear G m. revert n v. induction attrs as [|[k x] attrs IH] using rev_ind; intros n v.
    + cbn. split; [discriminate|]. intros (b & k & x & a & H & _). now destruct b.
    + rewrite map_app. cbn [List.map fst snd]. rewrite nfrom_snoc, ninsert_get. destruct (str_eqb n (lower k)) eqn:E.
      * apply str_eqb_eq in E as ->. split.
        -- intros [= <-]. exists attrs, k, x, []. repeat split; auto.
        -- intros (b & k' & x' & a & H & H1 & -> & H2). destruct a as [|c a] using rev_ind.
           ++ apply app_inj_tail in H as [_ [= -> ->]]. reflexivity.
           ++ clear IHa. exfalso. rewrite app_comm_cons, app_assoc in H. apply app_inj_tail in H as [_ <-]. apply (H2 k x); [apply in_or_app; right; now left|reflexivity].
      * rewrite IH. split.
        -- intros (b & k' & x' & a & -> & H1 & -> & H2). exists b, k', x', (a ++ [(k, x)]). rewrite <- app_assoc. repeat split; auto.
           intros k2 x2 I. apply in_app_or in I as [I|[[= <- <-]|[]]]; [eauto|]. intro Q. rewrite Q, str_eqb_refl in E. discriminate.
        -- intros (b & k' & x' & a & H & H1 & -> & H2). destruct a as [|c a] using rev_ind.
           ++ apply app_inj_tail in H as [_ [= -> ->]]. subst n. rewrite str_eqb_refl in E. discriminate.
           ++ clear IHa. rewrite app_comm_cons, app_assoc in H. apply app_inj_tail in H as [H _]. subst attrs. exists b, k', x', a. repeat split; auto.
              intros k2 x2 I. apply H2 with x2. apply in_or_app. now left.
  - intro D. apply nfrom_distinct. rewrite map_map. exact D.
Qed.
Definition dom_all (lower : str -> str) : list dom -> outcome (list html) := fix all ds :=
  match ds with
  | [] => Ret []
  | d :: ds => obind (node_to_html lower d) (fun h => obind (all ds) (fun hs => Ret (h :: hs)))
  end.
Lemma dom_all_cons lower d ds : dom_all lower (d :: ds) = obind (node_to_html lower d) (fun h => obind (dom_all lower ds) (fun hs => Ret (h :: hs))).
Proof. reflexivity. Qed.
Lemma node_document lower ds : node_to_html lower (DDocument ds) = obind (dom_all lower ds) (fun hs => Ret (from_iter hs)).
Proof. reflexivity. Qed.
Lemma node_element lower n attrs ds : node_to_html lower (DElement n attrs ds) =
  obind (dom_all lower ds) (fun hs => Ret (HTag (lower n) (nfrom (List.map (fun a => (lower (fst a), Some (snd a))) attrs)) (from_iter hs))).
Proof. reflexivity. Qed.
Lemma node_reads lower d : forall h, node_to_html lower d = Ret h -> Reads lower d (events h).
Proof.
  assert (All : forall ds hs, Forall (fun d => forall h, node_to_html lower d = Ret h -> Reads lower d (events h)) ds ->
    dom_all lower ds = Ret hs -> ReadsAll lower ds (events (from_iter hs))).
  { intros ds hs H. revert hs. induction H as [|d0 ds H H1 IH]; intros hs E.
    - inversion E; subst. constructor.
    - rewrite dom_all_cons in E. destruct (node_to_html lower d0) as [h| |] eqn:E1; try discriminate. cbn [obind] in E. destruct (dom_all lower ds) as [hs'| |] eqn:E2; try discriminate.
      cbn [obind] in E. inversion E; subst. rewrite from_iter_events. cbn [flat_map]. constructor; [now apply H|]. rewrite <- from_iter_events. now apply IH. }
  induction d using dom_ind'; intros h E; try rewrite node_document in E; try rewrite node_element in E; cbn [node_to_html] in E.
  - destruct (dom_all lower ds) as [hs| |] eqn:E1; try discriminate. cbn [obind] in E. inversion E; subst. constructor. now apply All.
  - inversion E; subst. constructor.
  - inversion E; subst. rewrite events_html_text. constructor.
  - inversion E; subst. constructor.
  - destruct (dom_all lower ds) as [hs| |] eqn:E1; try discriminate. cbn [obind] in E. inversion E; subst. cbn [events]. constructor; [apply attributes_of|now apply All].
  - discriminate.
Qed.
Lemma node_normal lower d h : node_to_html lower d = Ret h -> Normal h.
Proof. intro E. assert (P : Lax = Plain -> PlainDom lower d) by discriminate. exact (proj1 (proj1 (@gives_node Lax lower d P h E))). Qed.
Lemma node_no_fuel lower d : node_to_html lower d <> OutOfFuel.
Proof.
  induction d using dom_ind'; try rewrite node_document; try rewrite node_element; cbn [node_to_html]; try discriminate.
  - intro E. assert (G : dom_all lower ds <> OutOfFuel).
    { clear E. induction H as [|d ds H1 H2 IH]; [discriminate|]. rewrite dom_all_cons. destruct (node_to_html lower d); cbn; try congruence. destruct (dom_all lower ds); cbn; congruence. }
    destruct (dom_all lower ds); cbn in E; congruence.
  - intro E. assert (G : dom_all lower ds <> OutOfFuel).
    { clear E. induction H as [|d ds H1 H2 IH]; [discriminate|]. rewrite dom_all_cons. destruct (node_to_html lower d); cbn; try congruence. destruct (dom_all lower ds); cbn; congruence. }
    destruct (dom_all lower ds); cbn in E; congruence.
Qed.
Lemma node_total lower d : has_instruction d = false -> exists h, node_to_html lower d = Ret h.
Proof.
  intro H. destruct (node_to_html lower d) as [h| |] eqn:E; [eauto| |].
  - rewrite (node_panic _ _ E) in H. discriminate.
  - now apply node_no_fuel in E.
Qed.
Lemma first_error errs : FirstError errs (hd_error (html_errors errs)).
Proof.
  unfold html_errors. induction errs as [|e errs IH]; cbn [List.filter].
  - constructor.
  - destruct (str_eqb e (lit "Duplicate attribute")) eqn:E; cbn [negb].
    + apply str_eqb_eq in E. destruct (hd_error _) as [x|]; cbn [FirstError] in *.
      * destruct IH as (b & a & -> & N & F). exists (e :: b), a. repeat split; auto.
      * now constructor.
    + cbn. exists [], errs. repeat split; [|constructor]. intros ->. discriminate.
Qed.
Lemma first_error_unique errs o o' : FirstError errs o -> FirstError errs o' -> o = o'.
Proof.
  assert (S : forall b e a errs', b ++ e :: a = errs' -> e <> lit "Duplicate attribute" -> Forall (fun e => e = lit "Duplicate attribute") errs' -> False).
  { intros b e a errs' <- N F. apply Forall_app in F as [_ F]. inversion F; subst. now apply N. }
  destruct o as [e|], o' as [e'|]; cbn.
  - intros (b & a & -> & N & F) (b' & a' & H & N' & F'). f_equal. revert b' H F'. induction b as [|x b IH]; intros [|y b'] H F'; cbn in H; inversion H; subst; auto.
    + exfalso. inversion F'; subst. now apply N.
    + exfalso. inversion F; subst. now apply N'.
    + inversion F; inversion F'; subst. eauto.
  - intros (b & a & -> & N & F) F'. exfalso. eauto.
  - intros F' (b & a & -> & N & F). exfalso. eauto.
  - reflexivity.
Qed.
Definition same_event (e e' : event) : Prop :=
  match e, e' with
  | EChar c, EChar c' => c = c' | EClose n, EClose n' => n = n'
  | EOpen n a, EOpen n' a' => n = n' /\ Permutation a a'
  | _, _ => False
  end.
Lemma attributes_perm lower attrs a a' : AttributesOf lower attrs a -> AttributesOf lower attrs a' -> Permutation a a'.
Proof.
  intros (N & H & _) (N' & H' & _). apply NoDup_Permutation; [now apply NoDup_map_inv in N|now apply NoDup_map_inv in N'|].
  intros [n v]. rewrite H, H'. reflexivity.
Qed.
Lemma reads_same lower d : forall evs evs', Reads lower d evs -> Reads lower d evs' -> Forall2 same_event evs evs'.
Proof.
  assert (All : forall ds, Forall (fun d => forall evs evs', Reads lower d evs -> Reads lower d evs' -> Forall2 same_event evs evs') ds ->
    forall evs evs', ReadsAll lower ds evs -> ReadsAll lower ds evs' -> Forall2 same_event evs evs').
  { intros ds H. induction H as [|d0 ds H H1 IH]; intros evs evs' R R'; inversion R; inversion R'; subst; [constructor|].
    apply Forall2_app; eauto. }
  induction d using dom_ind'; intros evs evs' R R'; inversion R; inversion R'; subst; try constructor.
  - eapply All; eauto.
  - clear R R'. match goal with |- Forall2 _ (List.map EChar ?x) _ => induction x end; constructor; auto. reflexivity.
  - split; [reflexivity|]. eapply attributes_perm; eauto.
  - apply Forall2_app; [eapply All; eauto|]. constructor; [reflexivity|constructor].
Qed.
Lemma bind_refused f gs scope i e r : WfSig (func_sig f) -> Objection (func_sig f) gs e \/ TooMany (func_sig f) gs ->
  ~ Acceptable (func_sig f) (gs ++ r) scope i.
Proof.
  intros W [O|O].
  - eapply complaint_unacceptable; [exact W|]. apply objection_complaint. apply objection_more. exact O.
  - intro A. apply (too_many_more _ _ r) in O as [O1 O2]. pose proof (acc_count _ _ _ _ A O1). lia.
Qed.
