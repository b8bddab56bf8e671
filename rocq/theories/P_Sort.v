(** Proofs about sorting (C38). *)
From Coq Require Import Permutation Sorted.
From Verif Require Import Base BaseFacts M_Names M_Html M_Types M_Token M_Diag M_Ast M_Value M_State M_Binder M_Native S_Native.

(** *** The order of strings *)
Lemma str_leb_spec a : forall b, str_leb a b = true <-> StrLe a b.
Proof.
  induction a as [|x a IH]; intros b; cbn [str_leb].
  - split; [|reflexivity]. intros _. left. exists b. reflexivity.
  - destruct b as [|y b].
    + split; [discriminate|]. intros [[r H] | (p & u & v & a' & b' & Ha & Hb & _)]; [discriminate|]. destruct p; discriminate.
    + destruct (x <? y)%N eqn:H1; [|destruct (y <? x)%N eqn:H2].
      * split; [|reflexivity]. intros _. right. exists [], x, y, a, b. split; [reflexivity|]. split; [reflexivity|]. lia.
      * split; [discriminate|]. intros [[r H] | (p & u & v & a' & b' & Ha & Hb & Hlt)].
        -- injection H as -> ->. lia.
        -- destruct p as [|q p]; cbn in Ha, Hb; injection Ha as -> ->; injection Hb as -> ->; lia.
      * assert (x = y) as -> by lia. rewrite (IH b). split.
        -- intros [[r ->] | (p & u & v & a' & b' & -> & -> & Hlt)].
           ++ left. exists r. reflexivity.
           ++ right. exists (y :: p), u, v, a', b'. split; [reflexivity|]. split; [reflexivity|]. exact Hlt.
        -- intros [[r H] | (p & u & v & a' & b' & Ha & Hb & Hlt)].
           ++ injection H as ->. left. exists r. reflexivity.
           ++ destruct p as [|q p]; cbn in Ha, Hb.
              ** injection Ha as -> ->. injection Hb as -> ->. lia.
              ** injection Ha as -> ->. injection Hb as ->. right. exists p, u, v, a', b'.
                 split; [reflexivity|]. split; [reflexivity|]. exact Hlt.
Qed.
Lemma str_leb_total a : forall b, str_leb a b = true \/ str_leb b a = true.
Proof.
  induction a as [|x a IH]; intros [|y b]; cbn [str_leb]; auto.
  destruct (x <? y)%N eqn:H1, (y <? x)%N eqn:H2; auto.
Qed.
Lemma str_leb_trans a : forall b c, str_leb a b = true -> str_leb b c = true -> str_leb a c = true.
Proof.
  induction a as [|x a IH]; intros [|y b] [|z c]; cbn [str_leb]; auto; try discriminate.
  intros H1 H2.
  destruct (x <? y)%N eqn:E1; [|destruct (y <? x)%N eqn:E2; [discriminate|]];
  (destruct (y <? z)%N eqn:E3; [|destruct (z <? y)%N eqn:E4; [discriminate|]]);
  (destruct (x <? z)%N eqn:E5; [reflexivity|]; destruct (z <? x)%N eqn:E6; try lia).
  exact (IH b c H1 H2).
Qed.
Lemma str_leb_antisym a : forall b, str_leb a b = true -> str_leb b a = true -> a = b.
Proof.
  induction a as [|x a IH]; intros [|y b]; cbn [str_leb]; auto; try discriminate.
  destruct (x <? y)%N eqn:E1, (y <? x)%N eqn:E2; try discriminate; try lia.
  intros H1 H2. f_equal; [lia|exact (IH b H1 H2)].
Qed.

Lemma key_leb_spec a b : key_leb a b = true <-> KeyLe a b.
Proof.
  split.
  - destruct a, b; cbn; try discriminate; intros H; constructor; [lia|]. apply str_leb_spec, H.
  - intros [x y H | x y H]; cbn; [lia|]. apply str_leb_spec, H.
Qed.
Lemma key_refl k : IsKey k -> KeyLe k k.
Proof.
  intros [[i ->] | [s ->]]; constructor; [lia|]. left. exists []. symmetry. apply app_nil_r.
Qed.
Lemma key_trans a b c : KeyLe a b -> KeyLe b c -> KeyLe a c.
Proof.
  rewrite <- !key_leb_spec. destruct a, b, c; cbn; try discriminate; try lia. apply str_leb_trans.
Qed.
Lemma key_antisym a b : KeyLe a b -> KeyLe b a -> a = b.
Proof.
  rewrite <- !key_leb_spec. destruct a, b; cbn; try discriminate.
  - intros; f_equal; lia.
  - intros; f_equal; apply str_leb_antisym; assumption.
Qed.
Lemma key_total ks a b : Comparable ks -> In a ks -> In b ks -> KeyLe a b \/ KeyLe b a.
Proof.
  rewrite <- !key_leb_spec.
  intros [H|H] Ha Hb; destruct (H a Ha) as [x ->]; destruct (H b Hb) as [y ->]; cbn; [lia|]. apply str_leb_total.
Qed.
Lemma comparable_key ks k : Comparable ks -> In k ks -> IsKey k.
Proof. intros [H|H] Hk; destruct (H k Hk) as [x ->]; [left|right]; exists x; reflexivity. Qed.
Lemma comparable_incl ks ks' : incl ks' ks -> Comparable ks -> Comparable ks'.
Proof. intros Hi [H|H]; [left|right]; intros k Hk; apply H, Hi, Hk. Qed.

(** *** Insertion sort *)
Lemma insert_perm {A} leb (x : A) l : Permutation (x :: l) (insert_by leb x l).
Proof.
  induction l as [|y l IH]; cbn [insert_by]; [apply Permutation_refl|].
  destruct (leb x y); [apply Permutation_refl|].
  eapply perm_trans; [apply perm_swap|]. apply perm_skip, IH.
Qed.
Lemma sort_perm {A} leb (l : list A) : Permutation l (sort_by leb l).
Proof.
  induction l as [|x l IH]; cbn [sort_by]; [constructor|].
  eapply perm_trans; [apply perm_skip, IH|]. apply insert_perm.
Qed.

Definition by_key (a b : value * value) : bool := key_leb (fst a) (fst b).
Definition Le (a b : value * value) : Prop := KeyLe (fst a) (fst b).

Lemma comparable_perm (l l' : list (value * value)) : Permutation l l' -> Comparable (List.map fst l) -> Comparable (List.map fst l').
Proof.
  intros Hp. apply comparable_incl. intros k Hk.
  eapply Permutation_in; [apply Permutation_sym, Permutation_map, Hp|exact Hk].
Qed.
Lemma insert_sorted x l : Comparable (List.map fst (x :: l)) -> StronglySorted Le l -> StronglySorted Le (insert_by by_key x l).
Proof.
  induction l as [|y l IH]; intros Hc Hs; cbn [insert_by]; [repeat constructor|].
  apply StronglySorted_inv in Hs. destruct Hs as [Hs Hy].
  destruct (by_key x y) eqn:E.
  - apply key_leb_spec in E. constructor; [constructor; assumption|].
    constructor; [exact E|]. eapply Forall_impl; [|exact Hy]. intros z Hz. eapply key_trans; [exact E|exact Hz].
  - constructor.
    + apply IH; [|exact Hs]. eapply comparable_incl; [|exact Hc]. intros k [<- | Hk]; cbn; auto.
    + assert (Hyx : Le y x).
      { destruct (key_total _ (fst x) (fst y) Hc) as [H|H]; cbn; auto. apply key_leb_spec in H. unfold by_key in E. congruence. }
      eapply Permutation_Forall; [apply insert_perm|]. constructor; assumption.
Qed.
Lemma sort_sorted l : Comparable (List.map fst l) -> StronglySorted Le (sort_by by_key l).
Proof.
  induction l as [|x l IH]; intros Hc; cbn [sort_by]; [constructor|].
  assert (Hl : Comparable (List.map fst l)) by (eapply comparable_incl; [|exact Hc]; intros k Hk; cbn; auto).
  apply insert_sorted; [|apply IH, Hl].
  eapply comparable_perm; [|exact Hc]. apply perm_skip, sort_perm.
Qed.

(** *** Stability *)
Lemma withkey_cons k k' v l vs : WithKey k ((k', v) :: l) vs ->
  (k' = k /\ exists vs', vs = v :: vs' /\ WithKey k l vs') \/ (k' <> k /\ WithKey k l vs).
Proof.
  intros H. inversion H as [|v' l' out Hw E1 E2|k'' v' l' out Hne Hw E1 E2]; subst.
  - left. split; [reflexivity|]. exists out. split; [reflexivity|exact Hw].
  - right. split; assumption.
Qed.
Lemma withkey_swap k a b l vs : fst a <> fst b -> WithKey k (a :: b :: l) vs -> WithKey k (b :: a :: l) vs.
Proof.
  destruct a as [ka va], b as [kb vb]. cbn. intros Hne H.
  apply withkey_cons in H. destruct H as [(-> & vs' & -> & H) | [Ha H]]; apply withkey_cons in H;
    destruct H as [(-> & vs2 & -> & H) | [Hb H]]; try congruence; repeat (constructor; auto).
Qed.
Lemma withkey_skip k a l l' : (forall vs, WithKey k l vs -> WithKey k l' vs) ->
  forall vs, WithKey k (a :: l) vs -> WithKey k (a :: l') vs.
Proof.
  destruct a as [ka va]. intros Hi vs H. apply withkey_cons in H.
  destruct H as [(-> & vs' & -> & H) | [Ha H]]; constructor; auto.
Qed.
Lemma insert_stable x l : IsKey (fst x) -> forall k vs, WithKey k (x :: l) vs <-> WithKey k (insert_by by_key x l) vs.
Proof.
  intros Hx k. induction l as [|y l IH]; intros vs; cbn [insert_by]; [reflexivity|].
  destruct (by_key x y) eqn:E; [reflexivity|].
  assert (Hne : fst x <> fst y).
  { intros Heq. unfold by_key in E. rewrite <- Heq in E. rewrite (proj2 (key_leb_spec _ _) (key_refl _ Hx)) in E. discriminate. }
  split; intros H.
  - apply withkey_swap in H; [|exact Hne]. revert vs H. apply withkey_skip. intros vs. apply IH.
  - apply withkey_swap; [congruence|]. revert vs H. apply withkey_skip. intros vs. apply IH.
Qed.
Lemma sort_stable l : Forall (fun a => IsKey (fst a)) l -> forall k vs, WithKey k l vs <-> WithKey k (sort_by by_key l) vs.
Proof.
  induction l as [|x l IH]; intros Hf k vs; cbn [sort_by]; [reflexivity|].
  inversion_clear Hf. rewrite <- insert_stable by assumption.
  split; apply withkey_skip; intros vs'; apply IH; assumption.
Qed.
Lemma withkey_app k l1 : forall l2 vs, WithKey k (l1 ++ l2) vs <-> exists vs1 vs2, vs = vs1 ++ vs2 /\ WithKey k l1 vs1 /\ WithKey k l2 vs2.
Proof.
  induction l1 as [|[ka va] l1 IH]; intros l2 vs; cbn [app].
  - split; [intros H; exists [], vs; split; [reflexivity|]; split; [constructor|exact H]|].
    intros (vs1 & vs2 & -> & H1 & H2). inversion H1. exact H2.
  - split.
    + intros H. apply withkey_cons in H. destruct H as [(-> & vs' & -> & H) | [Ha H]]; apply IH in H;
        destruct H as (vs1 & vs2 & -> & H1 & H2).
      * exists (va :: vs1), vs2. split; [reflexivity|]. split; [constructor; exact H1|exact H2].
      * exists vs1, vs2. split; [reflexivity|]. split; [constructor; assumption|exact H2].
    + intros (vs1 & vs2 & -> & H1 & H2). apply withkey_cons in H1.
      destruct H1 as [(-> & vs' & -> & H1) | [Ha H1]]; cbn [app]; constructor; auto; apply IH.
      * exists vs', vs2. auto.
      * exists vs1, vs2. auto.
Qed.
Lemma withkey_rev k l : forall vs, WithKey k l vs -> WithKey k (rev l) (rev vs).
Proof.
  induction l as [|[ka va] l IH]; intros vs H; cbn [rev].
  - inversion H. constructor.
  - apply withkey_cons in H. destruct H as [(-> & vs' & -> & H) | [Ha H]]; apply withkey_app.
    + cbn [rev]. exists (rev vs'), [va]. split; [reflexivity|]. split; [apply IH, H|repeat constructor].
    + exists (rev vs), []. split; [symmetry; apply app_nil_r|]. split; [apply IH, H|]. constructor; [exact Ha|constructor].
Qed.
Lemma withkey_rev_iff k l vs : WithKey k (rev l) vs <-> WithKey k l (rev vs).
Proof.
  split; intros H; apply withkey_rev in H; rewrite ?rev_involutive in H; exact H.
Qed.
Lemma sorted_app {A} (R : A -> A -> Prop) l x : StronglySorted R l -> Forall (fun y => R y x) l -> StronglySorted R (l ++ [x]).
Proof.
  induction l as [|y l IH]; intros Hs Hf; cbn [app]; [repeat constructor|].
  apply StronglySorted_inv in Hs. destruct Hs as [Hs Hy]. inversion_clear Hf as [|? ? Hyx Hl].
  constructor; [apply IH; assumption|]. apply Forall_app. split; [exact Hy|repeat constructor; exact Hyx].
Qed.
Lemma sorted_rev {A} (R : A -> A -> Prop) l : StronglySorted R l -> StronglySorted (fun a b => R b a) (rev l).
Proof.
  induction l as [|x l IH]; intros Hs; cbn [rev]; [constructor|].
  apply StronglySorted_inv in Hs. destruct Hs as [Hs Hx].
  apply sorted_app; [apply IH, Hs|]. apply Forall_rev, Hx.
Qed.

Lemma comparable_isKey l : Comparable (List.map fst l) -> Forall (fun a : value * value => IsKey (fst a)) l.
Proof. intros H. apply Forall_forall. intros a Ha. eapply comparable_key; [exact H|]. apply in_map, Ha. Qed.

Definition sort_pairs (reversed : bool) (ds : list (value * value)) : list (value * value) :=
  let ds := if reversed then rev ds else ds in
  let out := sort_by by_key ds in
  if reversed then rev out else out.
Lemma sort_pairs_spec reversed ds : Comparable (List.map fst ds) -> StablySorted reversed ds (sort_pairs reversed ds).
Proof.
  intros Hc. unfold sort_pairs. destruct reversed.
  - assert (Hr : Comparable (List.map fst (rev ds))).
    { eapply comparable_perm; [|exact Hc]. apply Permutation_rev. }
    split; [|split].
    + eapply perm_trans; [apply Permutation_rev|]. eapply perm_trans; [apply (sort_perm by_key)|]. apply Permutation_rev.
    + apply (sorted_rev Le), sort_sorted, Hr.
    + intros k vs. rewrite withkey_rev_iff. rewrite <- sort_stable by (apply comparable_isKey, Hr).
      rewrite withkey_rev_iff, rev_involutive. reflexivity.
  - split; [apply sort_perm|]. split; [apply sort_sorted, Hc|]. intros k vs. apply sort_stable, comparable_isKey, Hc.
Qed.

(** *** Uniqueness *)
Lemma key_eq_dec k k' : IsKey k -> IsKey k' -> {k = k'} + {k <> k'}.
Proof.
  intros H H'. destruct (key_leb k k') eqn:E1, (key_leb k' k) eqn:E2.
  - left. apply key_antisym; apply key_leb_spec; assumption.
  - right. intros ->. congruence.
  - right. intros ->. congruence.
  - right. intros ->. rewrite (proj2 (key_leb_spec _ _) (key_refl _ H')) in E1. discriminate.
Qed.
Lemma key_or_not k : IsKey k \/ ~ IsKey k.
Proof.
  destruct k; try (right; intros [[? E] | [? E]]; discriminate E).
  - left. left. eexists. reflexivity.
  - left. right. eexists. reflexivity.
Qed.
Lemma withkey_total k l : IsKey k -> Forall (fun a => IsKey (fst a)) l -> exists vs, WithKey k l vs.
Proof.
  intros Hk. induction l as [|[ka va] l IH]; intros Hf; [exists []; constructor|].
  inversion_clear Hf as [|? ? Ha Hl]. destruct (IH Hl) as [vs H]. cbn in Ha. destruct (key_eq_dec ka k Ha Hk) as [-> | Hne].
  - exists (va :: vs). constructor. exact H.
  - exists vs. constructor; assumption.
Qed.
Lemma withkey_fun k l : forall vs vs', WithKey k l vs -> WithKey k l vs' -> vs = vs'.
Proof.
  induction l as [|[ka va] l IH]; intros vs vs' H H'.
  - inversion H; inversion H'; reflexivity.
  - apply withkey_cons in H, H'.
    destruct H as [(-> & w & -> & H) | [Ha H]]; destruct H' as [(E & w' & -> & H') | [Ha' H']]; try congruence.
    + f_equal. apply IH; assumption.
    + apply IH; assumption.
Qed.
Lemma stable_unique_aux (Rk : value -> value -> Prop) :
  (forall a b, Rk a b -> Rk b a -> a = b) ->
  forall out out', Forall (fun a => IsKey (fst a)) out -> Permutation out out' ->
    StronglySorted (fun a b => Rk (fst a) (fst b)) out -> StronglySorted (fun a b => Rk (fst a) (fst b)) out' ->
    (forall k vs, WithKey k out vs <-> WithKey k out' vs) -> out = out'.
Proof.
  intros Hanti. induction out as [|[k v] out IH]; intros out' Hk Hp Hs Hs' Hw.
  - apply Permutation_nil in Hp. congruence.
  - destruct out' as [|[k' v'] out']; [apply Permutation_sym, Permutation_nil in Hp; discriminate|].
    apply StronglySorted_inv in Hs, Hs'. destruct Hs as [Hs Hh], Hs' as [Hs' Hh'].
    assert (Hkk : k = k').
    { assert (H1 : In (k, v) ((k', v') :: out')) by (eapply Permutation_in; [exact Hp|left; reflexivity]).
      assert (H2 : In (k', v') ((k, v) :: out)) by (eapply Permutation_in; [apply Permutation_sym, Hp|left; reflexivity]).
      destruct H1 as [E|H1]; [congruence|]. destruct H2 as [E|H2]; [congruence|].
      rewrite Forall_forall in Hh, Hh'. apply Hanti; [apply (Hh _ H2)|apply (Hh' _ H1)]. }
    subst k'. inversion_clear Hk as [|? ? Hk0 Hks]. cbn in Hk0.
    destruct (withkey_total k out Hk0 Hks) as [vs Hvs].
    assert (Hv : WithKey k ((k, v') :: out') (v :: vs)) by (apply Hw; constructor; exact Hvs).
    apply withkey_cons in Hv. destruct Hv as [(_ & w & E & Hv) | [Hne _]]; [|congruence].
    injection E as <- <-.
    f_equal. apply IH; try assumption.
    + eapply Permutation_cons_inv. exact Hp.
    + intros k0 vs0. split; intros H.
      * assert (IsKey k0 \/ k0 <> k) as [Hi|Hn].
        { destruct (key_or_not k0) as [Hi|Hi]; [left; exact Hi|right; intros ->; exact (Hi Hk0)]. }
        -- destruct (key_eq_dec k k0 Hk0 Hi) as [<- | Hn].
           ++ rewrite (withkey_fun _ _ _ _ H Hvs). exact Hv.
           ++ assert (H' : WithKey k0 ((k, v) :: out') vs0) by (apply Hw; constructor; assumption).
              apply withkey_cons in H'. destruct H' as [[E _] | [_ H']]; [congruence|exact H'].
        -- assert (H' : WithKey k0 ((k, v) :: out') vs0) by (apply Hw; constructor; auto).
           apply withkey_cons in H'. destruct H' as [[E _] | [_ H']]; [congruence|exact H'].
      * assert (IsKey k0 \/ k0 <> k) as [Hi|Hn].
        { destruct (key_or_not k0) as [Hi|Hi]; [left; exact Hi|right; intros ->; exact (Hi Hk0)]. }
        -- destruct (key_eq_dec k k0 Hk0 Hi) as [<- | Hn].
           ++ rewrite (withkey_fun _ _ _ _ H Hv). exact Hvs.
           ++ assert (H' : WithKey k0 ((k, v) :: out) vs0) by (apply Hw; constructor; assumption).
              apply withkey_cons in H'. destruct H' as [[E _] | [_ H']]; [congruence|exact H'].
        -- assert (H' : WithKey k0 ((k, v) :: out) vs0) by (apply Hw; constructor; auto).
           apply withkey_cons in H'. destruct H' as [[E _] | [_ H']]; [congruence|exact H'].
Qed.
Lemma stably_sorted_unique reversed l out out' : Forall (fun a => IsKey (fst a)) l ->
  StablySorted reversed l out -> StablySorted reversed l out' -> out = out'.
Proof.
  intros Hk (Hp & Hs & Hw) (Hp' & Hs' & Hw').
  apply (stable_unique_aux (fun a b => if reversed then KeyLe b a else KeyLe a b)).
  - destruct reversed; intros a b H1 H2; apply key_antisym; assumption.
  - eapply Permutation_Forall; [exact Hp|exact Hk].
  - eapply perm_trans; [apply Permutation_sym, Hp|exact Hp'].
  - exact Hs.
  - exact Hs'.
  - intros k vs. rewrite <- Hw, <- Hw'. reflexivity.
Qed.
