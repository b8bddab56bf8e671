(** Proofs for C29_bound: what a match binds, whatever the expressions inside the pattern do. *)
From Verif Require Import Base BaseFacts M_Names M_Html M_Types M_Diag M_Ast M_Value M_State M_Matcher M_Native M_Eval S_Scope S_Match
  P_Built P_State P_Pattern P_Coerce P_Match.
From Coq Require Import Permutation.

Definition Binds (m : EM bool) (V : str -> Prop) : Prop :=
  forall s i k f b s', st_stack s = i :: k -> nth_error (st_heap s) i = Some f -> m s = Ok b s' ->
  st_stack s' = i :: k /\ exists f', nth_error (st_heap s') i = Some f' /\
    forall n, (if b then fr_has n f = true \/ V n else fr_has n f = true /\ ~ V n) -> fr_has n f' = true.

Lemma binds_iff m V W : Binds m V -> (forall n, V n <-> W n) -> Binds m W.
Proof.
  intros H HVW s i k f b s' Es Ef Em. destruct (H s i k f b s' Es Ef Em) as (A & f' & Ef' & B). split; [exact A|].
  exists f'. split; [exact Ef'|]. intros n Hn. apply B. destruct b; specialize (HVW n); tauto.
Qed.
Lemma binds_false V : Binds (ret false) V.
Proof. intros s i k f b s' Es Ef [= <- <-]. split; [exact Es|]. exists f. split; [exact Ef|]. tauto. Qed.
Lemma binds_ret b V : (forall n, ~ V n) -> Binds (ret b) V.
Proof. intros HV s i k f b' s' Es Ef [= <- <-]. split; [exact Es|]. exists f. split; [exact Ef|]. intros n. specialize (HV n). destruct b; tauto. Qed.
Lemma binds_crash x V : Binds (crash x) V.
Proof. intros s i k f b s' _ _. discriminate. Qed.
Lemma binds_and a b V W : Binds a V -> Binds b W -> Binds (and_then a b) (fun n => V n \/ W n).
Proof.
  intros Ha Hb s i k f r s' Es Ef. unfold and_then, bind. destruct (a s) as [[|] s1|e s1| |] eqn:Ea; try discriminate.
  - destruct (Ha s i k f true s1 Es Ef Ea) as (E1 & f1 & Ef1 & H1). intro Eb.
    destruct (Hb s1 i k f1 r s' E1 Ef1 Eb) as (E2 & f2 & Ef2 & H2). split; [exact E2|]. exists f2. split; [exact Ef2|].
    intros n Hn. apply H2. specialize (H1 n). destruct r; [destruct Hn as [Hn|[Hn|Hn]]; tauto|].
    split; [|tauto]. tauto.
  - intros [= <- <-]. destruct (Ha s i k f false s1 Es Ef Ea) as (E1 & f1 & Ef1 & H1). split; [exact E1|]. exists f1.
    split; [exact Ef1|]. intros n Hn. apply H1. tauto.
Qed.

Lemma fr_set_self n v imp f : fr_has n (fr_set n v imp f) = true.
Proof.
  unfold fr_has, nhas, fr_set. cbn [fr_locals]. induction (fr_locals f) as [|[k x] l IH]; cbn [ngetm ninsert].
  - now rewrite str_eqb_refl.
  - destruct (str_eqb n k) eqn:E; cbn [ngetm]; now rewrite E.
Qed.
Lemma fr_set_missing_in ns v n : forall f, In n ns -> fr_has n (fr_set_missing ns v f) = true.
Proof.
  induction ns as [|m ns IH]; intros f; [intros []|]. intros [-> | H].
  - unfold fr_set_missing in *. cbn [fold_left]. fold (fr_set_missing ns v (if fr_has n f then f else fr_set n v false f)).
    apply fr_set_missing_has. destruct (fr_has n f) eqn:E; [exact E|apply fr_set_self].
  - unfold fr_set_missing in *. cbn [fold_left]. apply IH, H.
Qed.
Lemma nhas_In {T} (m : nmap T) n : nhas m n = true <-> In n (List.map fst m).
Proof.
  unfold nhas. pose proof (ngetm_None m n) as H. destruct (ngetm m n) as [v|].
  - split; [|auto]. intros _. destruct (in_dec (list_eq_dec N.eq_dec) n (List.map fst m)) as [Hi|Hi]; [exact Hi|].
    apply H in Hi. discriminate.
  - split; [discriminate|]. intro Hi. destruct (proj1 H eq_refl Hi).
Qed.
Lemma fr_unset_other m n f : m <> n -> fr_has n f = true -> fr_has n (fr_unset m f) = true.
Proof.
  intro Hne. unfold fr_has, fr_unset. cbn [fr_locals]. rewrite !nhas_In. destruct (ngetm (fr_locals f) m) as [v|] eqn:E.
  - destruct (ngetm_split _ _ _ _ E) as (a & b & -> & Ha). intro Hi.
    eapply Permutation_in; [apply Permutation_map, Permutation_sym, nremove_some; exact Ha|].
    rewrite map_app in *. cbn in Hi. apply in_app_or in Hi. apply in_or_app. destruct Hi as [Hi|[Hi|Hi]]; auto. contradiction.
  - now rewrite nremove_none.
Qed.
Lemma fr_unset_all_other ns n : forall f, ~ In n ns -> fr_has n f = true -> fr_has n (fr_unset_all ns f) = true.
Proof.
  induction ns as [|m ns IH]; intros f Hn Hf; [exact Hf|]. unfold fr_unset_all in *. cbn [fold_left].
  apply IH; [intro H; apply Hn; now right|]. apply fr_unset_other; [|exact Hf]. intros ->. apply Hn. now left.
Qed.

Lemma with_frame_eq g s i k : st_stack s = i :: k -> exists s', with_frame g s = Ok tt s' /\ st_stack s' = i :: k /\ st_heap s' = update (st_heap s) i g.
Proof. intro Es. unfold with_frame, bind, frame_id. rewrite Es. eexists. split; [reflexivity|]. split; [exact Es|reflexivity]. Qed.

Lemma binds_one n v : Binds (bind_one n v) (fun m => m = n).
Proof.
  intros s i k f b s' Es Ef. unfold bind_one, frame_set, frame_has, bind, frame_id, gets. rewrite Es.
  destruct (with_frame_eq (fr_set n v false) s i k Es) as (s1 & E1 & Es1 & Eh1). cbn. rewrite ?Es. 
  rewrite E1. rewrite Ef. intro H.
  assert (Hs : b = true /\ st_stack s' = i :: k /\ st_heap s' = st_heap s1)
    by (destruct (fr_has n f); cbn in H; injection H as <- <-; auto).
  destruct Hs as (-> & Hs & Hh). split; [exact Hs|]. rewrite Hh, Eh1. exists (fr_set n v false f).
  split; [now apply update_same|]. intros m [Hm | ->]; [now apply fr_set_has|apply fr_set_self].
Qed.

Lemma binds_groups : forall gs names, length gs = length names -> Binds (bind_groups gs names) (fun m => In m names).
Proof.
  induction gs as [|g gs IH]; intros [|n names]; cbn [length]; try discriminate; intro Hl; [apply binds_ret; intros n []|].
  injection Hl as Hl. cbn [bind_groups].
  eapply (binds_iff _ (fun m => m = n \/ In m names)); [|intro m; cbn [In]; intuition congruence].
  intros s i k f b s' Es Ef. unfold bind. destruct (bind_one n _ s) as [b1 s1|e s1| |] eqn:E; try discriminate.
  assert (b1 = true) as ->.
  { unfold bind_one, bind in E. match type of E with match ?c with _ => _ end = _ => destruct c as [[|] s2| | |] end; cbn in E; try discriminate; now injection E. }
  intro H. refine (binds_and _ _ _ _ (binds_one n _) (IH names Hl) s i k f b s' Es Ef _).
  unfold and_then, bind. rewrite E. exact H.
Qed.
Lemma binds_or p q names V W : Binds p V -> Binds q W -> (forall n, In n names <-> V n \/ W n) ->
  Binds (let* l := p in
         let* r := if l then ret true else with_frame (fr_unset_all names);;; q in
         if r then with_frame (fr_set_missing names UNIT);;; ret true else ret false) (fun n => V n \/ W n).
Proof.
  intros Hp Hq Hn s i k f b s' Es Ef. unfold bind.
  destruct (p s) as [[|] s1|e s1| |] eqn:Ep; try discriminate.
  - destruct (Hp s i k f true s1 Es Ef Ep) as (E1 & f1 & Ef1 & H1). cbn.
    destruct (with_frame_eq (fr_set_missing names UNIT) s1 i k E1) as (s2 & -> & E2 & Eh2). intros [= <- <-].
    split; [exact E2|]. rewrite Eh2. eexists. split; [apply update_same; eassumption|]. intros n [H|H].
    + apply fr_set_missing_has, H1. now left.
    + apply fr_set_missing_in, Hn, H.
  - destruct (Hp s i k f false s1 Es Ef Ep) as (E1 & f1 & Ef1 & H1).
    destruct (with_frame_eq (fr_unset_all names) s1 i k E1) as (s2 & -> & E2 & Eh2).
    assert (Ef2 : nth_error (st_heap s2) i = Some (fr_unset_all names f1)) by (rewrite Eh2; now apply update_same).
    destruct (q s2) as [[|] s3|e s3| |] eqn:Eq; try discriminate; destruct (Hq s2 i k _ _ s3 E2 Ef2 Eq) as (E3 & f3 & Ef3 & H3).
    + destruct (with_frame_eq (fr_set_missing names UNIT) s3 i k E3) as (s4 & -> & E4 & Eh4). intros [= <- <-].
      split; [exact E4|]. rewrite Eh4. eexists. split; [apply update_same; eassumption|]. intros n H.
      destruct (in_dec (list_eq_dec N.eq_dec) n names) as [Hi|Hi]; [now apply fr_set_missing_in|].
      apply fr_set_missing_has, H3. left. apply fr_unset_all_other; [exact Hi|]. apply H1.
      rewrite Hn in Hi. tauto.
    + intros [= <- <-]. split; [exact E3|]. exists f3. split; [exact Ef3|]. intros n [H HV]. apply H3.
      split; [|tauto]. apply fr_unset_all_other; [rewrite Hn; exact HV|]. apply H1. tauto.
Qed.

Section Pattern.
  Variables (X : externals) (fuel : nat).
  Notation eval := (e_node (evals_n X fuel)).
  Notation bp := (bind_pattern eval (x_captures X)).
  Notation Wf := (WfPattern (groups_of (x_captures X)) (fun _ => True)).
  Definition AnyVar (ps : list pattern) (n : str) : Prop := exists p, In p ps /\ PatVar p n.

  Lemma binds_equals e v : Binds (bp (PEquals e) v) (fun n => PatVar (PEquals e) n).
  Proof.
    intros s i k f b s' Es Ef. cbn [bind_pattern]. unfold bind.
    pose proof (B_catch _ _ _ _ (built_node X fuel e TAny true)) as HB.
    destruct (catch (eval e TAny) s) as [r s1|x s1| |] eqn:E; try discriminate. intros [= <- <-].
    assert (Ha : after (catch (eval e TAny) s) = Some s1) by (rewrite E; reflexivity).
    destruct (built_keeps _ _ _ _ HB eq_refl s s1 i k f Ha Es Ef) as (f' & Ef' & Hk).
    destruct (frame_rule _ _ _ _ HB s s1 Ha) as (Hs & _). split; [congruence|]. exists f'. split; [exact Ef'|].
    intros n Hn. apply Hk. match type of Hn with if ?c then _ else _ => destruct c end; [|tauto].
    destruct Hn as [Hn|Hn]; [exact Hn|inversion Hn].
  Qed.
  Lemma binds_all : forall ps vs, length ps = length vs -> Forall (fun p => Wf p -> forall v, Binds (bp p v) (PatVar p)) ps ->
    Forall Wf ps -> Binds (bind_all bp ps vs) (AnyVar ps).
  Proof.
    induction ps as [|p ps IH]; intros [|v vs]; cbn [length]; try discriminate; intros Hl HF HW; cbn [bind_all].
    - apply binds_ret. intros n (p & [] & _).
    - inversion HF; inversion HW; subst. injection Hl as Hl. eapply binds_iff; [apply binds_and; [auto|apply (IH vs); assumption]|].
      intro n. unfold AnyVar. split; [intros [H|(q & Hq & H)]; [exists p; cbn; auto|exists q; cbn; auto]|].
      intros (q & [<- | Hq] & H); eauto.
  Qed.
  Lemma binds_spread A one mk : forall ps i (vs : list A), length ps <= length vs + 1 ->
    Forall (fun p => Wf p -> forall v, Binds (bp p v) (PatVar p)) ps ->
    Forall Wf ps -> Binds (bind_spread bp A one mk ps i vs) (AnyVar ps).
  Proof.
    assert (Hiff : forall p ps n, PatVar p n \/ AnyVar ps n <-> AnyVar (p :: ps) n).
    { intros p ps n. unfold AnyVar. split; [intros [H|(q & Hq & H)]; [exists p; cbn; auto|exists q; cbn; auto]|].
      intros (q & [<- | Hq] & H); eauto. }
    induction ps as [|p ps IH]; intros i vs Hl HF HW; cbn [bind_spread]; [apply binds_crash|].
    inversion HF; inversion HW; subst. cbn [length] in Hl. destruct i as [|i].
    - eapply binds_iff; [apply binds_and; [auto|apply binds_all; try assumption]|apply Hiff].
      rewrite map_length, skipn_length. lia.
    - destruct vs as [|v vs]; [apply binds_crash|]. cbn [length] in Hl.
      eapply binds_iff; [apply binds_and; [auto|apply IH; try assumption; lia]|apply Hiff].
  Qed.
  Lemma binds_attrs vs : forall attrs, Forall (fun kp => Wf (snd kp) -> forall v, Binds (bp (snd kp) v) (PatVar (snd kp))) attrs ->
    Forall (fun kp => Wf (snd kp)) attrs -> Binds (bind_attrs bp vs attrs) (fun n => exists k p, In (k, p) attrs /\ PatVar p n).
  Proof.
    induction attrs as [|[k p] attrs IH]; intros HF HW; cbn [bind_attrs]; [apply binds_ret; intros n (k & p & [] & _)|].
    inversion HF; inversion HW; subst. cbn [snd] in *. destruct (ngetm vs k) as [v|]; [|apply binds_false].
    eapply binds_iff; [apply binds_and; [auto|apply IH; assumption]|].
    intro n. split; [intros [Hv|(k' & q & Hq & Hv)]; [exists k, p; cbn; auto|exists k', q; cbn; auto]|].
    intros (k' & q & [[= <- <-] | Hq] & Hv); eauto.
  Qed.

  Ltac novar := let H := fresh in intros ? H; inversion H.
  Lemma binds_pattern p : Wf p -> forall v, Binds (bp p v) (PatVar p).
  Proof.
    pattern p. apply pattern_ind'; clear p;
      [intros HW v|intros HW v|intros n HW v|intros n HW v|intros e HW v|intros p q IHp IHq HW v|intros p q ns IHp IHq HW v|intros re ns HW v
      |intros t HW v|intros n HW v|intros ps IHps HW v|intros ps i IHps HW v|intros attrs r IHa IHr HW v|intros a b c IHa IHb IHc HW v
      |intros ps IHps HW v|intros ps i IHps HW v].
    - cbn [bind_pattern]. apply binds_ret. novar.
    - cbn [bind_pattern]. apply binds_ret. novar.
    - cbn [bind_pattern]. apply binds_ret. novar.
    - cbn [bind_pattern]. eapply binds_iff; [apply binds_one|]. intro m. split; [intros ->; constructor|intro Hv; now inversion Hv].
    - apply binds_equals.
    - inversion HW; subst. cbn [bind_pattern]. eapply binds_iff; [apply binds_and; eauto|]. intro m.
      split; [intros [H|H]; [now apply pv_and_l|now apply pv_and_r]|intro Hv; inversion Hv; auto].
    - inversion HW; subst. cbn [bind_pattern]. eapply binds_iff; [apply binds_or; eauto|]. intro m.
      split; [intros [H|H]; [now apply pv_or_l|now apply pv_or_r]|intro Hv; inversion Hv; auto].
    - cbn [bind_pattern]. destruct v; try apply binds_false. destruct (x_captures X re s) as [gs|]; [|apply binds_false].
      destruct (length gs =? length ns + 1) eqn:E; [|apply binds_crash]. apply Nat.eqb_eq in E.
      eapply binds_iff; [apply binds_groups; destruct gs; cbn [length List.tl] in *; lia|].
      intro m. split; [apply pv_regex|intro Hv; now inversion Hv].
    - cbn [bind_pattern]. apply binds_ret. novar.
    - cbn [bind_pattern]. eapply binds_iff; [apply binds_one|]. intro m. split; [intros ->; constructor|intro Hv; now inversion Hv].
    - inversion HW; subst. rewrite bp_exact_list. destruct v; try apply binds_false.
      match goal with |- context[if ?c then _ else _] => destruct c eqn:E end; [|apply binds_false]. apply Nat.eqb_eq in E.
      eapply binds_iff; [apply binds_all; assumption|]. intro n. split; [intros (q & Hq & Hv); eapply pv_list; eauto|].
      intro Hv. inversion Hv; subst. eexists; eauto.
    - inversion HW; subst. rewrite bp_spread_list. destruct v; try apply binds_false.
      match goal with |- context[if ?c then _ else _] => destruct c eqn:E end; [apply binds_false|]. apply Nat.ltb_ge in E.
      eapply binds_iff; [apply binds_spread; assumption|]. intro n. split; [intros (q & Hq & Hv); eapply pv_spread; eauto|].
      intro Hv. inversion Hv; subst. eexists; eauto.
    - inversion HW; subst. rewrite bp_dict. destruct v as [| | |vs| | | |]; try apply binds_false.
      match goal with |- context[if ?c then _ else _] => destruct c eqn:E end; [apply binds_false|].
      eapply binds_iff; [apply binds_and; [apply binds_attrs; assumption|]|].
      + instantiate (1 := fun n => exists q, r = Some q /\ PatVar q n). destruct r as [q|]; [|apply binds_ret; intros n (q & [=] & _)].
        assert (Hq : Binds (bp q (VDict (List.filter (fun kv => negb (nhas attrs (fst kv))) vs))) (PatVar q)) by auto.
        destruct q; try (eapply binds_iff; [exact Hq|]; intro; split; [eauto|intros (q' & [= <-] & Hv); exact Hv]).
      + intro n. cbv beta. split; [intros [(k & q & Hi & Hv)|(q & -> & Hv)]; [eapply pv_dict; eauto|now apply pv_rest]|].
        intro Hv. inversion Hv; subst; [left|right]; eauto.
    - inversion HW; subst. cbn [bind_pattern]. destruct v as [| | | | |[]| |]; try apply binds_false.
      eapply binds_iff; [apply binds_and; [eauto|apply binds_and; eauto]|]. intro m. cbv beta.
      split; [intros [Hv|[Hv|Hv]]; [now apply pv_tag_name|now apply pv_tag_attrs|now apply pv_tag_content]|].
      intro Hv; inversion Hv; subst; auto.
    - inversion HW; subst. rewrite bp_exact_html. destruct (to_html v) as [h|]; [|apply binds_false].
      match goal with |- context[if ?c then _ else _] => destruct c eqn:E end; [|apply binds_false]. apply Nat.eqb_eq in E.
      eapply binds_iff; [apply binds_all; try assumption; now rewrite map_length|]. intro n. split; [intros (q & Hq & Hv); eapply pv_html; eauto|].
      intro Hv. inversion Hv; subst. eexists; eauto.
    - inversion HW; subst. rewrite bp_spread_html. destruct (to_html v) as [h|]; [|apply binds_false].
      match goal with |- context[if ?c then _ else _] => destruct c eqn:E end; [apply binds_false|]. apply Nat.ltb_ge in E.
      eapply binds_iff; [apply binds_spread; assumption|]. intro n. split; [intros (q & Hq & Hv); eapply pv_spread_html; eauto|].
      intro Hv. inversion Hv; subst. eexists; eauto.
  Qed.

  Lemma match_bound p v s i k s' : Wf p -> st_stack s = i :: k -> i < length (st_heap s) -> bp p v s = Ok true s' ->
    st_stack s' = i :: k /\
    forall n, PatVar p n \/ (exists w, BindsAt (st_heap s) i n w) -> exists w, BindsAt (st_heap s') i n w.
  Proof.
    intros HW Es Hi E. destruct (nth_error (st_heap s) i) as [f|] eqn:Ef; [|apply nth_error_None in Ef; lia].
    destruct (binds_pattern p HW v s i k f true s' Es Ef E) as (Es' & f' & Ef' & H). split; [exact Es'|].
    intros n Hn. assert (Hf : fr_has n f' = true).
    { apply H. destruct Hn as [Hn|(w & f0 & Ef0 & Hw)]; [now right|left]. rewrite Ef in Ef0. injection Ef0 as <-.
      unfold fr_has, nhas. now rewrite Hw. }
    unfold fr_has, nhas in Hf. destruct (ngetm (fr_locals f') n) as [w|] eqn:Ew; [|discriminate]. exists w, f'. auto.
  Qed.
End Pattern.
