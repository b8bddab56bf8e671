(** Proofs about sound states: calls and definitions of functions (C47, C57). *)
From Verif Require Import Base BaseFacts M_Names M_TagInfo M_Html S_Html P_Html M_Path M_TextSubs M_Token M_Types M_Diag M_Ast M_Value
  M_State M_Binder M_HtmlParse M_Native S_Types P_Types P_Coerce S_Scope P_State P_Scope S_Call P_Call P_Match S_Safe P_SafeBase P_SafeMonad.

Section Bind.
  Variable m : mode.
  Variable X : externals.
  Notation Safe := (Safe m X).
  Hypothesis cover : Covers m.

  Definition MapOk (sig : fsig) (n : nat) (map : nmap value) : Prop :=
    GoodMap m n map /\ (~ Loose m -> forall p v, In p (params sig) -> ngetm map (p_name p) = Some v -> HasType (p_type p) v).
  (** Every parameter has a value of its type. *)
  Definition Bindings (sig : fsig) (n : nat) (map : nmap value) : Prop :=
    GoodMap m n map /\ (~ Loose m -> forall p, In p (params sig) -> exists v, ngetm map (p_name p) = Some v /\ HasType (p_type p) v).
  Record GoodPart (sig : fsig) (n : nat) (b : partials) : Prop := {
    gp_map : MapOk sig n (pp_map b);
    gp_sp : Forall (Good m n) (pp_spread_pos b);
    gp_sn : GoodNamed m n (pp_spread_named b);
    gp_count : ~ Loose m -> forall i p, nth_error (s_positional sig) i = Some p -> i < pp_count b -> nhas (pp_map b) (p_name p) = true
  }.
  Lemma accepts_option t : AcceptsNone (t_option t).
  Proof.
    apply unit_assignable_spec. unfold t_option. destruct (unit_is_assignable t) eqn:E; [exact E|]. reflexivity.
  Qed.
  (** A signature whose defaults are good *)
  Definition SigOk (n : nat) (sig : fsig) : Prop := GoodSig m sig /\ Forall (Good m n) (defaults sig).

  Lemma sigok_mono n k sig : n <= k -> SigOk n sig -> SigOk k sig.
  Proof. intros L [A B]. split; [exact A|now apply (goods_mono m n)]. Qed.
  Lemma mapok_mono sig n k map : n <= k -> MapOk sig n map -> MapOk sig k map.
  Proof. intros L [A B]. split; [now apply (goodmap_mono m n)|exact B]. Qed.
  Lemma goodpart_mono sig n k b : n <= k -> GoodPart sig n b -> GoodPart sig k b.
  Proof.
    intros L [A B C D]. constructor; [now apply (mapok_mono sig n)|now apply (goods_mono m n)|now apply (named_mono m n)|exact D].
  Qed.
  Lemma sig_wf n sig : SigOk n sig -> ~ Loose m -> WfSig sig.
  Proof. intros [[_ A] _] H. destruct m; [now elim H|now elim H|exact A]. Qed.
  Lemma sig_default n sig p v : SigOk n sig -> In p (params sig) -> p_default p = Some v -> Good m n v /\ (~ Loose m -> HasType (p_type p) v).
  Proof.
    intros [[A _] B] Hp E. rewrite Forall_forall in *. split.
    - apply B. unfold defaults. apply in_flat_map. exists p. split; [apply in_or_app; now left|]. rewrite E. now left.
    - intro H. destruct (A p Hp) as [F _]. destruct (F v E) as [K|[K _]]; [exact K|contradiction].
  Qed.

  Lemma mapok_insert n sig map p v : SigOk n sig -> MapOk sig n map -> Good m n v -> (~ Loose m -> In p (params sig) /\ HasType (p_type p) v) ->
    MapOk sig n (ninsert map (p_name p) v).
  Proof.
    intros S [A B] G H. split; [now apply map_insert|]. intros Hm q w Hq E. destruct (H Hm) as [Hp Ht]. apply ngetm_insert in E as [[E ->]|[_ E]].
    - assert (q = p) as -> by (apply (params_inj sig (sig_wf _ _ S Hm)); assumption). exact Ht.
    - now apply B.
  Qed.
  Lemma nhas_insert T (map : nmap T) k v n : nhas (ninsert map k v) n = str_eqb n k || nhas map n.
  Proof.
    unfold nhas. destruct (str_eqb n k) eqn:E.
    - apply str_eqb_eq in E. subst. now rewrite ngetm_ninsert_same.
    - assert (n <> k) by (intros ->; rewrite str_eqb_refl in E; discriminate). now rewrite ngetm_ninsert_other.
  Qed.
  Lemma nhas_insert_keep T (map : nmap T) k v n : nhas map n = true -> nhas (ninsert map k v) n = true.
  Proof. rewrite nhas_insert. intros ->. apply orb_true_r. Qed.
  Lemma nhas_insert_same T (map : nmap T) k v : nhas (ninsert map k v) k = true.
  Proof. rewrite nhas_insert, str_eqb_refl. reflexivity. Qed.

  Lemma goodpart_insert n sig b p v : SigOk n sig -> GoodPart sig n b -> Good m n v -> (~ Loose m -> In p (params sig) /\ HasType (p_type p) v) ->
    GoodPart sig n (pp_set_map (ninsert (pp_map b) (p_name p) v) b).
  Proof.
    intros S [A B C D] G H. destruct b as [c sp sn map]; cbn in *. constructor; cbn; auto; [now apply mapok_insert|].
    intros Hm i q Hq L. apply nhas_insert_keep. eauto.
  Qed.

  Lemma safe_add_positional n sig v b : SigOk n sig -> GoodPart sig n b -> Good m n v -> Safe n (GoodPart sig) (add_positional_arg sig v b).
  Proof.
    intros S P G. unfold add_positional_arg. destruct b as [c sp sn map].
    destruct (nth_error (s_positional sig) c) as [p|] eqn:Ep.
    - eapply safe_bind; [apply safe_coerce; exact G|]. intros k w L [Gw Tw]. apply safe_ret. intros j Lj.
      assert (Lj' : n <= j) by lia. apply (sigok_mono n j) in S; [|exact Lj']. apply (goodpart_mono sig n j) in P; [|exact Lj'].
      apply (good_mono m k j) in Gw; [|exact Lj]. destruct P as [A B C D]; cbn in *.
      assert (Hp : In p (params sig)) by (apply in_params_positional; eapply nth_error_In; exact Ep).
      constructor; cbn; auto; [now apply mapok_insert|]. intros Hm i q Hq Li.
      destruct (Nat.eq_dec i c) as [->|N]; [assert (q = p) as -> by congruence; apply nhas_insert_same|].
      apply nhas_insert_keep. eapply D; [exact Hm|exact Hq|lia].
    - assert (Hc : forall i q, nth_error (s_positional sig) i = Some q -> i < c).
      { intros i q Hq. apply nth_error_None in Ep. assert (i < length (s_positional sig)) by (apply nth_error_Some; congruence). lia. }
      destruct (s_spread sig) as [p|] eqn:Es.
      + eapply safe_bind; [apply safe_coerce; exact G|]. intros k w L [Gw Tw]. apply safe_ret. intros j Lj.
        assert (Lj' : n <= j) by lia. apply (goodpart_mono sig n j) in P; [|exact Lj'].
        apply (good_mono m k j) in Gw; [|exact Lj]. destruct P as [A B C D]; cbn in *. constructor; cbn; auto.
        * apply Forall_app. split; [exact B|now constructor].
        * intros Hm i q Hq Li. eapply D; eauto.
      + apply safe_ret. intros j Lj. apply (goodpart_mono sig n j) in P; [|exact Lj]. destruct P as [A B C D]; cbn in *. constructor; cbn; auto.
        intros Hm i q Hq Li. eapply D; eauto.
  Qed.
  Lemma safe_add_named n sig x v b : (m = Plain -> PlainName x) -> SigOk n sig -> GoodPart sig n b -> Good m n v -> Safe n (GoodPart sig) (add_named_arg sig x v b).
  Proof.
    intros Px S P G. unfold add_named_arg. destruct b as [c sp sn map].
    destruct (ngetm (s_named sig) x) as [p|] eqn:Ep.
    - eapply safe_bind; [apply safe_coerce; exact G|]. intros k w L [Gw Tw]. destruct (nhas map x) eqn:Eh; [apply safe_fail|]. apply safe_ret. intros j Lj.
      assert (Lj' : n <= j) by lia. apply (sigok_mono n j) in S; [|exact Lj']. apply (goodpart_mono sig n j) in P; [|exact Lj'].
      apply (good_mono m k j) in Gw; [|exact Lj]. destruct P as [A B C D]; cbn in *.
      constructor; cbn; auto.
      + destruct A as [A1 A2]. split; [now apply map_insert|]. intros Hm. pose proof (sig_wf _ _ S Hm) as W.
        apply (named_key sig W) in Ep as [Hp <-]. destruct (mapok_insert j sig map p w) as [_ K]; auto; [now split|]. intros _. split; [now apply in_params_named|exact Tw].
      + intros Hm i q Hq Li. apply nhas_insert_keep. eapply D; eauto.
    - destruct (s_spread_named sig) as [p|] eqn:Es; [|apply safe_fail].
      eapply safe_bind; [apply safe_coerce; exact G|]. intros k w L [Gw Tw]. destruct (nhas sn x) eqn:Eh; [apply safe_fail|]. apply safe_ret. intros j Lj.
      assert (Lj' : n <= j) by lia. apply (goodpart_mono sig n j) in P; [|exact Lj'].
      apply (good_mono m k j) in Gw; [|exact Lj]. destruct P as [A B C D]; cbn in *. constructor; cbn; auto. now apply named_insert.
  Qed.
  Definition HasContent (sig : fsig) (b : partials) : Prop :=
    ~ Loose m -> is_anonymous (p_name (s_content sig)) = false -> nhas (pp_map b) (p_name (s_content sig)) = true.
  Lemma safe_add_content n sig v b : SigOk n sig -> GoodPart sig n b -> Good m n v ->
    Safe n (fun k b => GoodPart sig k b /\ HasContent sig b) (add_content_arg sig v b).
  Proof.
    intros S P G. unfold add_content_arg. destruct (nhas (pp_map b) (p_name (s_content sig))) eqn:Eh.
    - destruct (is_unit v); [|apply safe_fail]. apply safe_ret. intros j Lj. split; [now apply (goodpart_mono sig n j)|]. intros _ _. exact Eh.
    - eapply safe_bind; [apply safe_coerce; exact G|]. intros k w L [Gw Tw]. apply safe_ret. intros j Lj.
      assert (Lj' : n <= j) by lia. apply (sigok_mono n j) in S; [|exact Lj']. apply (goodpart_mono sig n j) in P; [|exact Lj'].
      apply (good_mono m k j) in Gw; [|exact Lj].
      destruct (is_anonymous (p_name (s_content sig))) eqn:Ea.
      + split; [exact P|]. intros _ K. congruence.
      + split.
        * apply goodpart_insert; auto. intros _. split; [|exact Tw]. apply in_params_content. unfold has_content. now rewrite Ea.
        * intros _ _. destruct b; cbn. apply nhas_insert_same.
  Qed.
  Lemma safe_check_count n sig b : Safe n (fun _ _ => ~ Loose m -> s_spread sig = None -> pp_count b <= length (s_positional sig)) (check_pos_count sig b).
  Proof.
    unfold check_pos_count. destruct (s_spread sig) eqn:E; cbn; [apply safe_ret; intros k L Hm K; discriminate|].
    destruct (length (s_positional sig) <? pp_count b) eqn:El; [apply safe_fail|]. apply safe_ret. apply Nat.ltb_ge in El. intros. exact El.
  Qed.
  Lemma func_good n f : Good m n (VFunc f) -> SigOk n (func_sig f) /\ GoodPart (func_sig f) n (get_partials f).
  Proof.
    intro G. apply good_func in G as [F H].
    assert (N : forall sig, GoodPart sig n partials_new).
    { intro sig. constructor; cbn; [split; [apply map_nil|discriminate]|constructor|apply named_nil|intros; lia]. }
    assert (S : forall f, GoodFunc m n f -> Forall (Good m n) (held f) -> SigOk n (func_sig f)).
    { clear f F H. intro f. induction f as [a c sig b|g a sig|f IH p]; cbn; intros F H.
      - destruct F as (_ & F & _). now split.
      - subst sig. split; [|exact H]. destruct (native_wf g) as [W D]. split.
        + apply Forall_forall. intros p Hp. split; [intros v E; left; now apply (D p)|].
          destruct m as [| |gr T]; [exact I|exact I|]. cbn in cover. intro Hi. clear - Hp Hi cover.
          destruct g; cbn in Hp; repeat (destruct Hp as [<-|Hp]; [try (discriminate Hi); exact cover|]); destruct Hp.
        + destruct m; [exact I|exact I|exact W].
      - destruct F as [F _]. apply Forall_app in H as [H _]. now apply IH. }
    split; [now apply S|]. destruct f as [a c sig b|g a sig|f p]; cbn; [apply N|apply N|].
    cbn in F, H. destruct F as [_ F]. apply Forall_app in H as [_ H]. unfold partial_values in H. rewrite !Forall_app in H. destruct H as (H1 & H2 & H3).
    destruct F as (F1 & F2 & FK & F3). constructor; auto.
    - split; [now split|]. intro Hm. destruct m; [now elim Hm|now elim Hm|]. destruct F3 as [F3 _]. eauto.
    - split; [now split|exact FK].
    - intros Hm i q Hq L. destruct m; [now elim Hm|now elim Hm|]. destruct F3 as [_ F3]. apply nhas_true. eauto.
  Qed.
  Lemma good_bound n f b : Good m n (VFunc f) -> GoodPart (func_sig f) n b -> Good m n (VFunc (FBound f b)).
  Proof.
    intros G [A B C D]. apply good_func in G as [F H]. apply good_func. cbn. split.
    - split; [exact F|]. destruct A as [[A1 A2] A3]. destruct C as [[C1 C2] CK]. split; [exact A1|]. split; [exact C1|]. split; [exact CK|]. destruct m as [| |gr T]; [exact I|exact I|]. split.
      + intros. eapply A3; eauto. 
      + intros i p Hp L. apply nhas_true. eapply D; eauto. 
    - apply Forall_app. split; [exact H|]. unfold partial_values. rewrite !Forall_app. destruct A as [[A1 A2] A3]. destruct C as [[C1 C2] CK]. auto.
  Qed.
  Lemma safe_close_bound n f b : Good m n (VFunc f) -> GoodPart (func_sig f) n b -> Safe n (fun k f => Good m k (VFunc f)) (close_bound (func_sig f) b f).
  Proof.
    intros G P. unfold close_bound. eapply safe_bind; [apply safe_check_count|]. intros k u L _. apply safe_ret. intros j Lj.
    assert (Lj' : n <= j) by lia. apply good_bound; [now apply (good_mono m n)|now apply (goodpart_mono _ n)].
  Qed.

  (** Implicit parameters *)
  Lemma safe_bind_implicits n sig ps : (forall p, In p ps -> In p (params sig)) -> SigOk n sig -> forall b, GoodPart sig n b -> Safe n (GoodPart sig) (bind_implicits ps b).
  Proof.
    intros Hps S. revert n S. induction ps as [|p ps IH]; intros n S b P; cbn [bind_implicits]; [apply safe_ret; intros; now apply (goodpart_mono sig n)|].
    destruct (negb (p_implicit p) || nhas (pp_map b) (p_name p)) eqn:E; [apply IH; [intros q Hq; apply Hps; now right|exact S|exact P]|].
    apply orb_false_iff in E as [Ei _]. apply negb_false_iff in Ei. assert (Hp : In p (params sig)) by (apply Hps; now left).
    eapply safe_bind; [apply safe_get_implicit; intros v Ed; eapply sig_default; eassumption|]. intros k v L [G H].
    assert (S' : SigOk k sig) by now apply (sigok_mono n).
    apply IH; [intros q Hq; apply Hps; now right|exact S'|].
    apply goodpart_insert; [exact S'|now apply (goodpart_mono sig n)|exact G|]. intro Hm. split; [exact Hp|].
    destruct H as [H|H]; [eapply sig_default; eassumption|]. destruct S as [[S1 _] _]. rewrite Forall_forall in S1. destruct (S1 p Hp) as [_ Sp].
    destruct m as [| |gr T]; [now elim Hm|now elim Hm|]. destruct H as (t & Ht & H). rewrite (Sp Ei) in Ht. now injection Ht as <-.
  Qed.
  Lemma safe_bind_implicit_args n sig b : SigOk n sig -> GoodPart sig n b -> Safe n (GoodPart sig) (bind_implicit_args sig b).
  Proof. intros S P. unfold bind_implicit_args. apply safe_bind_implicits; auto. intros p. apply in_params_named. Qed.

  (** Building the bindings *)
  Definition More (a b : nmap value) : Prop := forall k, nhas a k = true -> nhas b k = true.
  Lemma safe_fill_positional n sig c ps : (forall p, In p ps -> In p (params sig)) -> SigOk n sig -> forall map, MapOk sig n map ->
    Safe n (fun k r => MapOk sig k r /\ More map r /\ forall p, In p ps -> nhas r (p_name p) = true) (fill_positional sig c ps map).
  Proof.
    intros Hps S. induction ps as [|p ps IH]; intros map A; cbn [fill_positional].
    - apply safe_ret. intros k L. split; [now apply (mapok_mono sig n)|]. split; [now intros ?|intros ? []].
    - destruct (p_default p) as [v|] eqn:Ed; [|apply safe_fail].
      assert (Hp : In p (params sig)) by (apply Hps; now left). destruct (sig_default _ _ _ _ S Hp Ed) as [G T].
      eapply safe_weaken; [apply IH; [intros q Hq; apply Hps; now right|apply mapok_insert; auto]|auto|].
      intros k r L (B & C & D). split; [exact B|]. split; [intros x Hx; apply C, nhas_insert_keep, Hx|].
      intros q [<-|Hq]; [apply C, nhas_insert_same|now apply D].
  Qed.
  Lemma safe_fill_named n sig ps : (forall p, In p ps -> In p (params sig)) -> SigOk n sig -> forall map, MapOk sig n map ->
    Safe n (fun k r => MapOk sig k r /\ More map r /\ forall p, In p ps -> nhas r (p_name p) = true) (fill_named ps map).
  Proof.
    intros Hps S. induction ps as [|p ps IH]; intros map A; cbn [fill_named].
    - apply safe_ret. intros k L. split; [now apply (mapok_mono sig n)|]. split; [now intros ?|intros ? []].
    - destruct (nhas map (p_name p)) eqn:Eh.
      + eapply safe_weaken; [apply IH; [intros q Hq; apply Hps; now right|exact A]|auto|].
        intros k r L (B & C & D). split; [exact B|]. split; [exact C|]. intros q [<-|Hq]; [now apply C|now apply D].
      + destruct (p_default p) as [v|] eqn:Ed; [|apply safe_fail].
        assert (Hp : In p (params sig)) by (apply Hps; now left). destruct (sig_default _ _ _ _ S Hp Ed) as [G T].
        eapply safe_weaken; [apply IH; [intros q Hq; apply Hps; now right|apply mapok_insert; auto]|auto|].
        intros k r L (B & C & D). split; [exact B|]. split; [intros x Hx; apply C, nhas_insert_keep, Hx|].
        intros q [<-|Hq]; [apply C, nhas_insert_same|now apply D].
  Qed.
  Lemma safe_build n sig b : SigOk n sig -> GoodPart sig n b -> HasContent sig b -> Safe n (Bindings sig) (build sig b).
  Proof.
    intros S P HC. unfold build. eapply safe_bind; [apply safe_check_count|]. intros k u L Hcount.
    apply (sigok_mono n k) in S; [|exact L]. apply (goodpart_mono sig n k) in P; [|exact L].
    destruct b as [c sp sn map]. destruct P as [A B C D]. cbn in A, B, C, D, HC, Hcount.
    apply (safe_bind m X _ _ k (fun j r => MapOk sig j r /\ More map r /\ forall p, s_spread sig = Some p -> nhas r (p_name p) = true)).
    { destruct (s_spread sig) as [p|] eqn:Es; [|apply safe_ret; intros j Lj; split; [now apply (mapok_mono sig k)|]; split; [now intros ?|discriminate]].
      eapply safe_bind; [apply safe_coerce; apply good_list; exact B|]. intros j v Lj [G T]. apply safe_ret. intros i Li.
      split; [|split].
      - apply mapok_insert; [eapply sigok_mono; [|exact S]; lia|eapply mapok_mono; [|exact A]; lia|now apply (good_mono m j)|].
        intros _. split; [now apply in_params_spread|exact T].
      - intros x Hx. now apply nhas_insert_keep.
      - intros q [= <-]. apply nhas_insert_same. }
    intros k1 map1 L1 (A1 & M1 & H1).
    apply (safe_bind m X _ _ k1 (fun j r => MapOk sig j r /\ More map1 r /\ forall p, s_spread_named sig = Some p -> nhas r (p_name p) = true)).
    { destruct (s_spread_named sig) as [p|] eqn:Es; [|apply safe_ret; intros j Lj; split; [now apply (mapok_mono sig k1)|]; split; [now intros ?|discriminate]].
      eapply safe_bind; [apply safe_coerce; apply good_dict; apply (named_mono m k); [exact L1|exact C]|]. intros j v Lj [G T]. apply safe_ret. intros i Li.
      split; [|split].
      - apply mapok_insert; [eapply sigok_mono; [|exact S]; lia|eapply mapok_mono; [|exact A1]; lia|now apply (good_mono m j)|].
        intros _. split; [now apply in_params_spread_named|exact T].
      - intros x Hx. now apply nhas_insert_keep.
      - intros q [= <-]. apply nhas_insert_same. }
    intros k2 map2 L2 (A2 & M2 & H2). cbv zeta.
    destruct (negb (is_anonymous (p_name (s_content sig))) && negb (nhas map2 (p_name (s_content sig)))) eqn:Ec.
    { apply andb_prop in Ec as [E1 E2]. apply negb_true_iff in E1, E2. apply safe_crash. left. destruct m as [| |gr T] eqn:Em; [exact I|exact I|].
      exfalso. unfold HasContent in HC. rewrite (M2 _ (M1 _ (HC ltac:(intro K; rewrite Em in K; exact K) E1))) in E2. discriminate. }
    eapply safe_bind; [apply (safe_fill_positional k2 sig c (skipn c (s_positional sig))); [|eapply sigok_mono; [|exact S]; lia|exact A2]|].
    { intros p Hp. apply in_params_positional. rewrite <- (firstn_skipn c (s_positional sig)). apply in_app_iff. now right. }
    intros k3 map3 L3 (A3 & M3 & H3).
    eapply safe_weaken; [apply (safe_fill_named k3 sig (nvalues (s_named sig))); [intros p; apply in_params_named|eapply sigok_mono; [|exact S]; lia|exact A3]|auto|].
    intros j r Lj (A4 & M4 & H4). destruct A4 as [A4 A5]. split; [exact A4|]. intros Hm p Hp.
    assert (Hh : nhas r (p_name p) = true).
    { unfold params in Hp. rewrite !in_app_iff in Hp. destruct Hp as [Hp|[Hp|[Hp|[Hp|Hp]]]].
      - apply M4. apply In_nth_error in Hp as [i Hi]. destruct (Nat.lt_ge_cases i c) as [Lc|Lc].
        + apply M3, M2, M1. eapply D; eauto.
        + apply H3. rewrite <- (firstn_skipn c (s_positional sig)) in Hi. rewrite nth_error_app2 in Hi; rewrite firstn_length in *; [|lia].
          eapply nth_error_In. exact Hi.
      - destruct (s_spread sig); [|destruct Hp]. destruct Hp as [<-|[]]. apply M4, M3, M2. now apply H1.
      - now apply H4.
      - destruct (s_spread_named sig); [|destruct Hp]. destruct Hp as [<-|[]]. apply M4, M3. now apply H2.
      - unfold has_content in Hp. destruct (is_anonymous (p_name (s_content sig))) eqn:Ea; [destruct Hp|]. destruct Hp as [<-|[]].
        apply M4, M3, M2, M1. now apply HC. }
    apply nhas_true in Hh as [v Hv]. exists v. split; [exact Hv|]. now apply (A5 Hm p).
  Qed.

  (** Binding *)
  Lemma safe_add_positionals sig vs : forall n b, SigOk n sig -> GoodPart sig n b -> Forall (Good m n) vs -> Safe n (GoodPart sig) (add_positionals sig vs b).
  Proof.
    induction vs as [|v vs IH]; intros n b S P F; cbn; [apply safe_ret; intros; now apply (goodpart_mono sig n)|].
    inversion F as [|? ? G F']; subst. eapply safe_bind; [now apply safe_add_positional|]. intros k b' L P'. apply IH; [now apply (sigok_mono n)|exact P'|now apply (goods_mono m n)].
  Qed.
  Lemma safe_add_nameds sig (vs : nmap value) : forall n b, SigOk n sig -> GoodPart sig n b -> Forall (Good m n) (nvalues vs) -> PlainKeys m vs -> Safe n (GoodPart sig) (add_nameds sig vs b).
  Proof.
    induction vs as [|[x v] vs IH]; intros n b S P F K; cbn; [apply safe_ret; intros; now apply (goodpart_mono sig n)|].
    inversion F as [|? ? G F']; subst. eapply safe_bind; [apply safe_add_named; auto; intro E; specialize (K E); now inversion K|]. intros k b' L P'.
    apply IH; [now apply (sigok_mono n)|exact P'|now apply (goods_mono m n)|]. intro E. specialize (K E). now inversion K.
  Qed.
  Lemma safe_bind_content n f v : Good m n (VFunc f) -> Good m n v -> Safe n (fun k f => Good m k (VFunc f)) (bind_content f v).
  Proof.
    intros G Gv. destruct (func_good n f G) as [S P]. unfold bind_content. eapply safe_bind; [now apply safe_add_content|]. intros k b L [P' _].
    apply safe_close_bound; [now apply (good_mono m n)|exact P'].
  Qed.
  Lemma safe_bind_positional n f v : Good m n (VFunc f) -> Good m n v -> Safe n (fun k f => Good m k (VFunc f)) (bind_positional f v).
  Proof.
    intros G Gv. destruct (func_good n f G) as [S P]. unfold bind_positional. eapply safe_bind; [now apply safe_add_positional|]. intros k b L P'.
    apply safe_close_bound; [now apply (good_mono m n)|exact P'].
  Qed.
  Lemma safe_bind_partial n f pos named content : Good m n (VFunc f) -> Forall (Good m n) pos -> GoodNamed m n named -> Good m n content ->
    Safe n (fun k f => Good m k (VFunc f)) (bind_partial f pos named content).
  Proof.
    intros G Gp [[_ Gn] Kn] Gc. destruct (func_good n f G) as [S P]. unfold bind_partial. eapply safe_bind; [now apply safe_add_positionals|]. intros k b L P1.
    eapply safe_bind; [apply safe_add_nameds; [now apply (sigok_mono n)|exact P1|now apply (goods_mono m n)|exact Kn]|]. intros k2 b2 L2 P2.
    assert (Ln : n <= k2) by lia.
    apply (safe_bind m X _ _ k2 (GoodPart (func_sig f))).
    - destruct (is_unit content); [apply safe_ret; intros; now apply (goodpart_mono _ k2)|].
      eapply safe_weaken; [apply (safe_add_content k2); [now apply (sigok_mono n)|exact P2|now apply (good_mono m n)]|auto|]. now intros j a _ [Q _].
    - intros k3 b3 L3 P3. apply safe_close_bound; [apply (good_mono m n); [lia|exact G]|exact P3].
  Qed.
  Lemma safe_bind_synthetic n f imp v : Good m n (VFunc f) -> Good m n v -> Safe n (Bindings (func_sig f)) (bind_synthetic_call f imp v).
  Proof.
    intros G Gv. destruct (func_good n f G) as [S P]. unfold bind_synthetic_call.
    apply (safe_bind m X _ _ n (GoodPart (func_sig f))).
    - destruct imp; [now apply safe_bind_implicit_args|]. apply safe_ret. intros. now apply (goodpart_mono _ n).
    - intros k b L P1. eapply safe_bind; [apply safe_add_content; [now apply (sigok_mono n)|exact P1|now apply (good_mono m n)]|].
      intros k2 b2 L2 [P2 HC]. apply safe_build; [apply (sigok_mono n); [lia|exact S]|exact P2|exact HC].
  Qed.

  Section Calls.
    Variable eval : expr -> ty -> EM value.
    Hypothesis eval_safe : forall n e t, GoodExpr m e -> Safe n (fun k v => Good m k v /\ Fits m t v) (eval e t).

    Lemma fits_strict t v : ~ Loose m -> Fits m t v -> HasType t v.
    Proof. intros H [K|[K _]]; [exact K|contradiction]. Qed.
    Lemma safe_fconvert A n (Q : nat -> A -> Prop) : (~ Loose m -> False) -> Safe n Q (crash FConvert).
    Proof. intro H. apply safe_crash. left. destruct (lax_or_strict m); tauto. Qed.
    Lemma unit_html : UNIT = VHtml HEmpty. Proof. reflexivity. Qed.
    Lemma list_typed v t : HasType (TList t) v -> exists vs, v = VList vs /\ Forall (HasType t) vs.
    Proof.
      intro H. inversion H; subst; eauto. match goal with K : AcceptsNone _ |- _ => inversion K end; subst; try discriminate.
      all: repeat match goal with K : _ \/ _ |- _ => destruct K | K : exists _, _ |- _ => destruct K end; discriminate.
    Qed.
    Lemma dict_typed v t : HasType (TDict t) v -> exists vs, v = VDict vs /\ Forall (fun kv => HasType t (snd kv)) vs.
    Proof.
      intro H. inversion H; subst; eauto. match goal with K : AcceptsNone _ |- _ => inversion K end; subst; try discriminate.
      all: repeat match goal with K : _ \/ _ |- _ => destruct K | K : exists _, _ |- _ => destruct K end; discriminate.
    Qed.

    Lemma safe_compile_positional n sig spread e b : SigOk n sig -> GoodPart sig n b -> GoodExpr m e -> Safe n (GoodPart sig) (compile_positional_arg eval sig spread e b).
    Proof.
      intros S P G. unfold compile_positional_arg. destruct spread.
      - eapply safe_bind; [now apply eval_safe|]. intros k v L [Gv F].
        destruct v; try (apply safe_fconvert; intro Hm; apply (fits_strict _ _ Hm) in F; apply list_typed in F as (? & K & _); discriminate).
        apply good_list in Gv. apply safe_add_positionals; [now apply (sigok_mono n)|now apply (goodpart_mono sig n)|exact Gv].
      - cbv zeta. eapply safe_bind; [now apply eval_safe|]. intros k v L [Gv F].
        apply safe_add_positional; [now apply (sigok_mono n)|now apply (goodpart_mono sig n)|exact Gv].
    Qed.
    Lemma safe_compile_named n sig spread x e b : (spread = false -> m = Plain -> PlainName x) -> SigOk n sig -> GoodPart sig n b -> GoodExpr m e -> Safe n (GoodPart sig) (compile_named_arg eval sig spread x e b).
    Proof.
      intros Px S P G. unfold compile_named_arg. destruct spread.
      - eapply safe_bind; [now apply eval_safe|]. intros k v L [Gv F].
        destruct v; try (apply safe_fconvert; intro Hm; apply (fits_strict _ _ Hm) in F; apply dict_typed in F as (? & K & _); discriminate).
        apply good_dict in Gv as [[_ Gv] Kv]. apply safe_add_nameds; [now apply (sigok_mono n)|now apply (goodpart_mono sig n)|exact Gv|exact Kv].
      - cbv zeta. eapply safe_bind; [now apply eval_safe|]. intros k v L [Gv F].
        apply safe_add_named; [now apply Px|now apply (sigok_mono n)|now apply (goodpart_mono sig n)|exact Gv].
    Qed.
    Definition GoodArg (a : arg) : Prop := match a with Arg x _ e => GoodExpr m e /\ (is_anonymous x = false -> m = Plain -> PlainName x) end.
    Lemma safe_compile_arg n sig a b : SigOk n sig -> GoodPart sig n b -> GoodArg a -> Safe n (GoodPart sig) (compile_arg eval sig a b).
    Proof.
      intros S P G. destruct a as [x k e]. destruct G as [G K]. unfold compile_arg. apply safe_or_report.
      destruct (arg_is_positional x k) eqn:Ep; [now apply safe_compile_positional|]. apply safe_compile_named; auto.
      intros Es Em. apply K; [|exact Em]. unfold arg_is_positional in Ep. destruct k; try discriminate Es. now rewrite andb_true_r in Ep.
    Qed.
    Lemma safe_compile_args sig l : forall n b, SigOk n sig -> GoodPart sig n b -> Forall GoodArg l -> Safe n (GoodPart sig) (compile_args eval sig l b).
    Proof.
      induction l as [|a l IH]; intros n b S P F; cbn [compile_args]; [apply safe_ret; intros; now apply (goodpart_mono sig n)|].
      inversion F as [|? ? G F']; subst. eapply safe_bind; [now apply safe_compile_arg|]. intros k b' L P'. apply IH; [now apply (sigok_mono n)|exact P'|exact F'].
    Qed.
    Lemma safe_bind_call n f l c : Good m n (VFunc f) -> Forall GoodArg l -> GoodExpr m c -> Safe n (Bindings (func_sig f)) (bind_call eval f l c).
    Proof.
      intros G Gl Gc. destruct (func_good n f G) as [S P]. unfold bind_call. eapply safe_bind; [now apply safe_compile_args|]. intros k b L P1.
      eapply safe_bind; [apply safe_bind_implicit_args; [now apply (sigok_mono n)|exact P1]|]. intros k2 b2 L2 P2.
      assert (S2 : SigOk k2 (func_sig f)) by (apply (sigok_mono n); [lia|exact S]).
      apply (safe_bind m X _ _ k2 (fun k b => GoodPart (func_sig f) k b /\ HasContent (func_sig f) b)); [|intros k3 b3 L3 [P3 HC]; apply safe_build; [apply (sigok_mono k2); [lia|exact S2]|exact P3|exact HC]].
      unfold compile_content_arg. cbv zeta. eapply safe_bind; [now apply eval_safe|]. intros k3 v L3 [Gv F].
      apply safe_or_report, safe_add_content; [now apply (sigok_mono k2)|now apply (goodpart_mono _ k2)|exact Gv].
    Qed.

    (** Definitions *)
    Definition ParamOk (n : nat) (p : fparam) : Prop := GoodParam m p /\ (forall v, p_default p = Some v -> Good m n v).
    Lemma paramok_mono n k p : n <= k -> ParamOk n p -> ParamOk k p.
    Proof. intros L [A B]. split; [exact A|]. intros v E. apply (good_mono m n); auto. Qed.
    Definition GoodDecl (p : param) : Prop :=
      match p with Param _ _ _ _ d => (forall e, d = Some e -> GoodExpr m e) /\ match m with Strict _ T => disciplined_param T p = true | _ => True end end.
    Lemma safe_compile_param n p : GoodDecl p -> Safe n ParamOk (compile_param eval p).
    Proof.
      destruct p as [x q i t d]. intros [G H]. unfold compile_param. cbv zeta.
      apply (safe_bind m X _ _ n (fun k r => forall v, r = Some v -> Good m k v /\ Fits m (t_option_if t q) v)).
      - destruct d as [e|]; [|apply safe_ret; discriminate]. eapply safe_bind; [apply safe_catch, eval_safe; now apply G|].
        intros k r L Hr. apply safe_ret. intros j Lj v E. destruct r as [w|]; [|discriminate]. injection E as <-. destruct Hr as [Hr F]. split; [now apply (good_mono m k)|exact F].
      - intros k r L Hr. apply safe_ret. intros j Lj.
        assert (Hd : forall v, match r with Some v => Some v | None => if q then Some UNIT else None end = Some v -> Good m j v /\ Fits m (t_option_if t q) v).
        { destruct r as [w|]; intros v E.
          - injection E as <-. destruct (Hr w eq_refl). split; [now apply (good_mono m k)|assumption].
          - destruct q; [|discriminate]. injection E as <-. split; [apply good_unit|]. left. apply HT_none. apply accepts_option. }
        split; [|intros v E; now apply Hd]. split; [intros v E; now apply Hd|]. cbn [p_implicit p_name p_type]. destruct m as [| |gr T]; [exact I|exact I|].
        intros ->. unfold disciplined_param in H. cbn [negb orb] in H. destruct (ngetm T x) as [t'|]; [|discriminate]. apply ty_eqb_eq in H. now subst.
    Qed.
    Lemma safe_compile_params ps : forall n, Forall GoodDecl ps -> Safe n (fun k qs => Forall (ParamOk k) qs) (compile_params eval ps).
    Proof.
      induction ps as [|p ps IH]; intros n F; cbn [compile_params]; [apply safe_ret; constructor|]. inversion F as [|? ? G F']; subst.
      eapply safe_bind; [now apply safe_compile_param|]. intros k q L Hq. eapply safe_bind; [now apply IH|]. intros k2 qs L2 Hqs. apply safe_ret. intros j Lj. constructor.
      - apply (paramok_mono k); [lia|exact Hq].
      - eapply Forall_impl; [|exact Hqs]. intros a. now apply paramok_mono.
    Qed.
    Lemma safe_ran A n (Q : nat -> A -> Prop) p : Safe n Q p -> Safe n (fun k a => Q k a /\ exists s s', p s = Ok a s') p.
    Proof.
      intros H s S L K. specialize (H s S L K). destruct (p s) as [a s1|e s1|c|] eqn:E; cbn in *; auto.
      destruct H as (H1 & H2 & H3). split; [exact H1|]. split; [exact H2|]. split; [exact H3|]. eauto.
    Qed.
    Lemma nfrom_in T (l : list (str * T)) x : In x (nvalues (nfrom l)) -> In x (List.map snd l).
    Proof.
      unfold nfrom. assert (H : forall acc : nmap T, In x (nvalues (fold_left (fun m kv => ninsert m (fst kv) (snd kv)) l acc)) -> In x (nvalues acc) \/ In x (List.map snd l)).
      { induction l as [|[k v] l IH]; intros acc; cbn [fold_left]; [now left|]. intro H. apply IH in H as [H|H]; [|right; now right].
        unfold nvalues in H. apply in_map_iff in H as ((k' & v') & <- & H). apply ninsert_in in H as [H|H].
        - injection H as -> ->. right. now left.
        - left. unfold nvalues. apply in_map_iff. now exists (k', v'). }
      intro K. apply H in K as [[]|K]. exact K.
    Qed.
    Lemma in_skipn A n (l : list A) x : In x (skipn n l) -> In x l.
    Proof. intro H. rewrite <- (firstn_skipn n l). apply in_app_iff. now right. Qed.
    Lemma in_firstn A n (l : list A) x : In x (firstn n l) -> In x l.
    Proof. intro H. rewrite <- (firstn_skipn n l). apply in_app_iff. now left. Qed.
    Lemma in_tl A (l : list A) x : In x (List.tl l) -> In x l.
    Proof. destruct l; [auto|]. now right. Qed.
    Lemma hd_in A (l : list A) x : hd_error l = Some x -> In x l.
    Proof. destruct l; [discriminate|]. intros [= <-]. now left. Qed.
    Definition sig_total (s : signature) : nat :=
      let '(Signature ps np sp nn sn hc) := s in np + (if sp then 1 else 0) + nn + (if sn then 1 else 0) + (if hc then 1 else 0).
    Definition cut_sig (s : signature) : signature :=
      let '(Signature ps np sp nn sn hc) := s in Signature (firstn (sig_total s) ps) np sp nn sn hc.
    Definition EnoughSig (s : signature) : Prop :=
      let '(Signature ps _ _ _ _ _) := s in
      NoDup (List.map param_name ps) /\ ~ In n_anonymous (List.map param_name ps) /\ sig_total s <= length ps.
    Lemma cut_same s : compile_func_signature eval (cut_sig s) = compile_func_signature eval s.
    Proof. destruct s as [ps np sp nn sn hc]. unfold cut_sig, compile_func_signature. cbv zeta. unfold sig_total. now rewrite firstn_firstn, Nat.min_id. Qed.
    Lemma NoDup_firstn A (l : list A) k : NoDup l -> NoDup (firstn k l).
    Proof.
      revert k. induction l as [|x l IH]; intros [|k] H; cbn; try constructor.
      - inversion H as [|? ? Hx Hl]; subst. intro K. apply in_firstn in K. contradiction.
      - inversion H; subst. now apply IH.
    Qed.
    Lemma cut_proper s : EnoughSig s -> ProperSignature (cut_sig s).
    Proof.
      destruct s as [ps np sp nn sn hc]. unfold EnoughSig, cut_sig, ProperSignature. intros (D & A & L). rewrite <- firstn_map. repeat split.
      - now apply NoDup_firstn.
      - intro K. apply in_firstn in K. contradiction.
      - rewrite firstn_length. unfold sig_total in *. lia.
    Qed.
    Definition GoodSg (s : signature) : Prop :=
      match s with Signature ps _ _ _ _ _ => Forall GoodDecl ps /\ (~ Loose m -> EnoughSig s) end.
    Lemma safe_compile_signature n s : GoodSg s -> Safe n SigOk (compile_func_signature eval s).
    Proof.
      intro G.
      eapply safe_weaken; [apply (safe_ran _ n (fun k sig => Forall (ParamOk k) (params sig) /\ Forall (Good m k) (match p_default (s_content sig) with Some v => [v] | None => [] end)))|auto|].
      - destruct s as [ps np sp nn sn hc]. destruct G as [F W]. unfold compile_func_signature. cbv zeta.
        set (total := np + _ + nn + _ + _).
        assert (F' : Forall GoodDecl (firstn total ps)) by (rewrite Forall_forall in *; intros x Hx; apply F; now apply in_firstn in Hx).
        eapply safe_bind; [apply safe_ran; now apply safe_compile_params|]. intros k all L [Hall (s1 & s2 & Er)].
        destruct (length all <? total) eqn:El.
        + apply safe_crash. left. destruct (lax_or_strict m) as [K|K]; [exact K|]. destruct (W K) as (_ & _ & Hl). apply compile_params_names in Er.
          assert (length all = total).
          { rewrite <- (map_length p_name all), Er, map_length, firstn_length. unfold sig_total in Hl. unfold total in *. lia. }
          apply Nat.ltb_lt in El. lia.
        + apply safe_ret. intros j Lj.
          assert (Hj : forall p, In p all -> ParamOk j p) by (intros p K; rewrite Forall_forall in Hall; apply (paramok_mono k); auto).
          set (l1 := skipn np all) in *. set (l2 := if sp then List.tl l1 else l1) in *. set (l3 := skipn nn l2) in *. set (l4 := if sn then List.tl l3 else l3) in *.
          assert (I1 : forall x, In x l1 -> In x all) by (intros x; apply in_skipn).
          assert (I2 : forall x, In x l2 -> In x all) by (intros x Hx; apply I1; unfold l2 in Hx; destruct sp; [now apply in_tl|exact Hx]).
          assert (I3 : forall x, In x l3 -> In x all) by (intros x Hx; apply I2; now apply in_skipn in Hx).
          assert (I4 : forall x, In x l4 -> In x all) by (intros x Hx; apply I3; unfold l4 in Hx; destruct sn; [now apply in_tl|exact Hx]).
          split.
          2:{ cbn [s_content]. destruct hc; [|constructor]. destruct (hd_error l4) eqn:E; [|constructor].
              destruct (Hj f) as [_ K]; [apply I4; now apply hd_in|]. destruct (p_default f); repeat constructor; auto. }
          apply Forall_forall. intros p Hp. apply Hj.
          unfold params in Hp. cbn in Hp. rewrite !in_app_iff in Hp. destruct Hp as [Hp|[Hp|[Hp|[Hp|Hp]]]].
          * now apply in_firstn in Hp.
          * destruct sp; [|destruct Hp]. destruct (hd_error l1) eqn:E; [|destruct Hp]. destruct Hp as [<-|[]]. apply I1. now apply hd_in.
          * apply nfrom_in in Hp. rewrite map_map in Hp. cbn in Hp. rewrite map_id in Hp. apply I2. now apply in_firstn in Hp.
          * destruct sn; [|destruct Hp]. destruct (hd_error l3) eqn:E; [|destruct Hp]. destruct Hp as [<-|[]]. apply I3. now apply hd_in.
          * destruct (has_content _) eqn:Eh in Hp; [|destruct Hp]. destruct Hp as [<-|[]]. unfold has_content in Eh. cbn in Eh.
            destruct hc; [|discriminate]. destruct (hd_error l4) eqn:E; [|discriminate]. apply I4. now apply hd_in.
      - intros k sig L [[F Fc] (s1 & s2 & E)]. split.
        + split; [eapply Forall_impl; [|exact F]; now intros a [K _]|].
          assert (W : ~ Loose m -> WfSig sig).
          { intro Hm. rewrite <- cut_same in E. apply signature_wf in E; [tauto|]. apply cut_proper. destruct s. destruct G as [_ G]. now apply G. }
          destruct m as [| |gr T] eqn:Em; [exact I|exact I|]. apply W. now intros K.
        + unfold defaults. rewrite flat_map_app. apply Forall_app. split; [|cbn; now rewrite app_nil_r]. apply Forall_flat_map. eapply Forall_impl; [|exact F]. intros a [_ K]. destruct (p_default a); [|constructor]. constructor; auto.
    Qed.
    Definition GoodDef (d : func_def) : Prop := match d with FuncDef _ s body => GoodSg s /\ GoodExpr m body end.
    Lemma safe_compile_func_def n d : GoodDef d -> Safe n (fun k f => Good m k (VFunc f)) (compile_func_def eval d).
    Proof.
      destruct d as [x s body]. intros [G Gb]. unfold compile_func_def. eapply safe_bind; [apply (safe_frame_id m X n (fun k i => i < k)); auto|].
      intros k c L Hc. cbv beta in Hc. eapply safe_bind; [now apply safe_compile_signature|]. intros k2 sig L2 [S D]. apply safe_ret. intros j Lj. apply good_func. cbn. split.
      - split; [lia|]. now split.
      - now apply (goods_mono m k2).
    Qed.
  End Calls.
End Bind.
