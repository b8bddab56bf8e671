(** Proofs about sound states: matching of patterns (C47, C57). *)
From Verif Require Import Base BaseFacts M_Names M_TagInfo M_Html S_Html P_Html M_Path M_TextSubs M_Token M_Types M_Diag M_Ast M_Value
  M_State M_Binder M_Matcher M_HtmlParse M_Native S_Types P_Types P_Coerce S_Scope P_State P_Scope S_Call P_Call P_Pattern P_Match S_Safe P_SafeBase P_SafeMonad P_SafeBind.

Lemma nodes_good m h : GoodHtml m h -> Forall (GoodHtml m) (html_nodes h).
Proof.
  intros [[N D] P]. destruct N; cbn; try (constructor; [split; [split; [constructor; auto|exact D]|exact P]|constructor]); [constructor|].
  inversion D as [|? F|h K]; subst; [|destruct K]. match goal with H : Forall Normal _ |- _ => rewrite Forall_forall in H end. rewrite Forall_forall in F |- *. intros x Hx. split; [split; auto|]. intro E.
  specialize (P E). inversion P as [| | | | |? Pl]; subst. rewrite Forall_forall in Pl. auto.
Qed.

Section Match.
  Variable m : mode.
  Variable X : externals.
  Notation Safe := (Safe m X).
  Hypothesis groups_are : forall g T, m = Strict g T -> GroupsAre X g.

  Definition GoodPat (p : pattern) : Prop :=
    match m with Strict g T => every_pattern (well_formed g) p = true /\ every_pattern (discipline T) p = true | Plain => every_pattern named p = true | Lax => True end.
  Ltac parts := unfold GoodPat, GoodName, GoodExpr; destruct m as [| |gr T]; cbn; rewrite ?andb_true_iff; intuition.
  Ltac all_parts := unfold GoodPat, GoodName; destruct m as [| |gr T]; cbn; [intros _; apply Forall_forall; auto| |];
    rewrite ?andb_true_iff, ?forallb_forall; intros ?; rewrite Forall_forall; intuition.
  Lemma pat_var n : GoodPat (PVarName n) -> GoodName m n. Proof. parts. Qed.
  Lemma pat_type n : GoodPat (PTypeOf n) -> GoodName m n. Proof. parts. Qed.
  Lemma pat_equals e : GoodPat (PEquals e) -> GoodExpr m e. Proof. parts. Qed.
  Lemma pat_and p q : GoodPat (PAnd p q) -> GoodPat p /\ GoodPat q. Proof. parts. Qed.
  Lemma pat_or p q ns : GoodPat (POr p q ns) -> GoodPat p /\ GoodPat q /\ Forall (GoodName m) ns.
  Proof.
    unfold GoodPat, GoodName; destruct m as [| |gr T]; cbn; rewrite ?andb_true_iff, ?forallb_forall, ?Forall_forall; intuition.
  Qed.
  Lemma pat_exact_list ps : GoodPat (PExactList ps) -> Forall GoodPat ps. Proof. all_parts. Qed.
  Lemma pat_exact_html ps : GoodPat (PExactHtml ps) -> Forall GoodPat ps. Proof. all_parts. Qed.
  Lemma pat_spread_list ps i : GoodPat (PSpreadList ps i) -> Forall GoodPat ps. Proof. all_parts. Qed.
  Lemma pat_spread_html ps i : GoodPat (PSpreadHtml ps i) -> Forall GoodPat ps. Proof. all_parts. Qed.
  Lemma pat_spread_list_lt ps i : GoodPat (PSpreadList ps i) -> ~ Loose m -> i < length ps.
  Proof. unfold GoodPat; destruct m as [| |gr T]; [intros _ K; now elim K|intros _ K; now elim K|]. cbn. rewrite !andb_true_iff. intros [[H _] _] _. now apply Nat.ltb_lt. Qed.
  Lemma pat_spread_html_lt ps i : GoodPat (PSpreadHtml ps i) -> ~ Loose m -> i < length ps.
  Proof. unfold GoodPat; destruct m as [| |gr T]; [intros _ K; now elim K|intros _ K; now elim K|]. cbn. rewrite !andb_true_iff. intros [[H _] _] _. now apply Nat.ltb_lt. Qed.
  Lemma pat_dict ps r : GoodPat (PDict ps r) -> Forall (fun kp => GoodPat (snd kp)) ps /\ (forall p, r = Some p -> GoodPat p).
  Proof.
    unfold GoodPat; destruct m as [| |gr T]; cbn; [intros _; split; [apply Forall_forall; auto|auto]| |].
    { rewrite ?andb_true_iff, ?forallb_forall, Forall_forall. intros [H1 H2]. split; [intros kp Hk; auto|]. intros p ->. exact H2. }
    rewrite ?andb_true_iff, ?forallb_forall, Forall_forall. intros [[H1 H2] [H3 H4]]. split; [intros kp Hk; split; auto|]. intros p ->. now split.
  Qed.
  Lemma pat_tag a b c : GoodPat (PTag a b c) -> GoodPat a /\ GoodPat b /\ GoodPat c. Proof. parts. Qed.
  Lemma pat_regex re ns : GoodPat (PRegex re ns) -> Forall (GoodName m) ns.
  Proof. all_parts. Qed.
  Lemma pat_groups re ns s gs : GoodPat (PRegex re ns) -> ~ Loose m -> x_captures X re s = Some gs -> length gs = length ns + 1.
  Proof.
    unfold GoodPat. intros H Hm E. destruct m as [| |gr T] eqn:Em; [now elim Hm|now elim Hm|]. cbn in H. rewrite !andb_true_iff in H. destruct H as [[H _] _].
    apply Nat.eqb_eq in H. rewrite (groups_are gr T eq_refl re s gs E). lia.
  Qed.

  Lemma safe_bind_one n x v : Good m n v -> GoodName m x -> Safe n (fun _ _ => True) (bind_one x v).
  Proof.
    intros G H. unfold bind_one. eapply safe_bind; [apply safe_frame_set; [exact G|exact H]|]. intros k b L _.
    destruct b; [|now apply safe_ret]. eapply safe_bind; [now apply (safe_report m X k _ (fun _ _ => True))|]. intros. now apply safe_ret.
  Qed.
  Lemma safe_and_then n a b : Safe n (fun _ _ => True) a -> (forall k, n <= k -> Safe k (fun _ _ => True) b) -> Safe n (fun _ _ => True) (and_then a b).
  Proof. intros Ha Hb. unfold and_then. eapply safe_bind; [exact Ha|]. intros k r L _. destruct r; [now apply Hb|now apply safe_ret]. Qed.
  Lemma safe_bind_groups gs : forall n ns, Forall (GoodName m) ns -> Safe n (fun _ _ => True) (bind_groups gs ns).
  Proof.
    induction gs as [|g gs IH]; intros n [|x ns] F; cbn [bind_groups]; try now apply safe_ret. inversion F; subst.
    eapply safe_bind; [apply safe_bind_one; [destruct g; [apply good_str|apply good_unit]|assumption]|]. intros. now apply IH.
  Qed.
  Lemma goodframe_unset k x f : GoodFrame m k f -> GoodFrame m k (fr_unset x f).
  Proof.
    intros [A B]. destruct (nremove_spec _ (fr_locals f) x (proj1 A)) as [D E]. split.
    - split; cbn; [exact D|]. apply Forall_forall. intros v Hv. unfold nvalues in Hv. apply in_map_iff in Hv as ((y & v') & <- & Hv). cbn.
      apply ngetm_NoDup in Hv; [|exact D]. rewrite E in Hv. destruct (str_eqb y x); [discriminate|]. eapply map_get; eassumption.
    - destruct m as [| |gr T]; [exact I|exact I|]. cbn. intros y Hy. apply filter_In in Hy as [Hy Hn]. destruct (B y Hy) as (t & Ht & Hv). exists t. split; [exact Ht|].
      intros v Ev. apply Hv. rewrite E in Ev. destruct (str_eqb y x); [discriminate|exact Ev].
  Qed.
  Lemma goodframe_unset_all k xs : forall f, GoodFrame m k f -> GoodFrame m k (fr_unset_all xs f).
  Proof. induction xs as [|x xs IH]; intros f H; [exact H|]. unfold fr_unset_all in *. cbn. apply IH. now apply goodframe_unset. Qed.
  Lemma goodframe_set_missing k xs : Forall (GoodName m) xs -> forall f, GoodFrame m k f -> GoodFrame m k (fr_set_missing xs UNIT f).
  Proof.
    induction xs as [|x xs IH]; intros F f H; [exact H|]. inversion F; subst. unfold fr_set_missing in *. cbn. apply IH; [assumption|].
    destruct (fr_has x f); [exact H|]. apply goodframe_set; [exact H|apply good_unit|assumption].
  Qed.

  Section Pattern.
    Variable eval : expr -> ty -> EM value.
    Hypothesis eval_safe : forall n e t, GoodExpr m e -> Safe n (fun k v => Good m k v /\ Fits m t v) (eval e t).
    Notation bp := (bind_pattern eval (x_captures X)).
    Notation SafePat := (fun p => GoodPat p -> forall n v, Good m n v -> Safe n (fun _ _ => True) (bp p v)).
    Lemma safe_bind_all ps : Forall SafePat ps -> Forall GoodPat ps -> forall n vs, Forall (Good m n) vs -> Safe n (fun _ _ => True) (bind_all bp ps vs).
    Proof.
      intro H. induction H as [|p ps Hp H IH]; intros F n vs G; cbn [bind_all]; [now apply safe_ret|]. destruct vs as [|v vs]; [now apply safe_ret|].
      inversion F; subst. inversion G; subst. apply safe_and_then; [now apply Hp|]. intros k L. apply IH; [assumption|]. now apply (goods_mono m n).
    Qed.
    Lemma safe_bind_spread A (one : A -> value) (mk : list A -> value) (P : A -> Prop) :
      forall n0, (forall k a, n0 <= k -> P a -> Good m k (one a)) -> (forall k l, n0 <= k -> Forall P l -> Good m k (mk l)) ->
      forall ps, Forall SafePat ps -> Forall GoodPat ps -> forall n i vs, n0 <= n -> Forall P vs -> (~ Loose m -> i < length ps /\ length ps <= length vs + 1) ->
      Safe n (fun _ _ => True) (bind_spread bp A one mk ps i vs).
    Proof.
      intros n0 H1 H2 ps H. induction H as [|p ps Hp H IH]; intros F n i vs L0 G Hl; cbn [bind_spread].
      - apply safe_crash. left. destruct (lax_or_strict m) as [K|K]; [exact K|]. destruct (Hl K) as [K1 _]. cbn in K1. lia.
      - inversion F; subst. destruct i as [|i].
        + cbv zeta. apply safe_and_then.
          * apply Hp; [assumption|]. apply H2; [exact L0|]. rewrite Forall_forall in *. intros x Hx. apply G. now apply in_firstn in Hx.
          * intros k L. apply safe_bind_all; auto. apply Forall_map. rewrite Forall_forall in *. intros x Hx. apply H1; [lia|]. apply G. now apply in_skipn in Hx.
        + destruct vs as [|v vs].
          * apply safe_crash. left. destruct (lax_or_strict m) as [K|K]; [exact K|]. destruct (Hl K) as [K1 K2]. cbn in K1, K2. lia.
          * inversion G; subst. apply safe_and_then; [apply Hp; auto|]. intros k L. apply IH; auto; [lia|]. intro K. destruct (Hl K) as [K1 K2]. cbn in K1, K2. lia.
    Qed.
    Lemma safe_bind_pattern : forall p, SafePat p.
    Proof.
      induction p using pattern_ind'; intros G n0 v Gv.
      - now apply safe_ret.
      - now apply safe_ret.
      - now apply safe_ret.
      - cbn [bind_pattern]. apply safe_bind_one; [exact Gv|now apply pat_var].
      - cbn [bind_pattern]. eapply safe_bind; [apply safe_catch, eval_safe; now apply pat_equals|]. intros. now apply safe_ret.
      - cbn [bind_pattern]. apply pat_and in G as [G1 G2]. apply safe_and_then; [now apply IHp1|]. intros k L. apply IHp2; [exact G2|]. now apply (good_mono m n0).
      - cbn [bind_pattern]. apply pat_or in G as (G1 & G2 & G3). eapply safe_bind; [now apply IHp1|]. intros k l L _.
        apply (safe_bind m X _ _ k (fun _ _ => True)).
        + destruct l; [now apply safe_ret|]. eapply safe_bind; [apply (safe_with_frame m X k (fun _ _ => True)); auto|].
          * intro f. clear. revert f. induction ns as [|x ns IH]; intro f; [reflexivity|]. unfold fr_unset_all in *. cbn. now rewrite IH.
          * intros j f _. apply goodframe_unset_all.
          * intros j u Lj _. apply IHp2; [exact G2|]. apply (good_mono m n0); [lia|exact Gv].
        + intros j r Lj _. destruct r; [|now apply safe_ret]. eapply safe_bind; [apply (safe_with_frame m X j (fun _ _ => True)); auto|intros; now apply safe_ret].
          * intro f. clear. revert f. induction ns as [|x ns IH]; intro f; [reflexivity|]. unfold fr_set_missing in *. cbn. rewrite IH. now destruct (fr_has x f).
          * intros i f _. now apply goodframe_set_missing.
      - cbn [bind_pattern]. destruct v; try now apply safe_ret. destruct (x_captures X re s) as [gs|] eqn:E; [|now apply safe_ret].
        destruct (length gs =? length ns + 1) eqn:El; [apply safe_bind_groups; now apply (pat_regex re)|].
        apply safe_crash. left. destruct (lax_or_strict m) as [K|K]; [exact K|]. apply Nat.eqb_neq in El. destruct El. eapply pat_groups; eassumption.
      - now apply safe_ret.
      - cbn [bind_pattern]. apply safe_bind_one; [apply good_str|now apply pat_type].
      - rewrite bp_exact_list. destruct v; try now apply safe_ret. destruct (length ps =? length vs); [|now apply safe_ret].
        apply safe_bind_all; [assumption|now apply pat_exact_list|now apply good_list].
      - rewrite bp_spread_list. destruct v; try now apply safe_ret. destruct (length vs + 1 <? length ps) eqn:El; [now apply safe_ret|]. apply Nat.ltb_ge in El.
        apply (safe_bind_spread value (fun v => v) VList (Good m n0) n0); auto.
        + intros k a L. now apply good_mono.
        + intros k l L F. apply good_list. now apply (goods_mono m n0).
        + now apply (pat_spread_list ps i).
        + now apply good_list.
        + intro K. split; [now apply pat_spread_list_lt|lia].
      - rewrite bp_dict. apply pat_dict in G as [Ga Gr]. destruct v; try now apply safe_ret.
        destruct (match r with None => _ | _ => _ end); [now apply safe_ret|]. apply good_dict in Gv as [Gv Kv]. apply safe_and_then.
        + assert (K : forall n, n0 <= n -> Safe n (fun _ _ => True) (bind_attrs bp vs attrs)); [|now apply K]. clear H0 Gr.
          induction H as [|[x p] l Hp H IH]; intros n L; cbn [bind_attrs]; [now apply safe_ret|]. inversion Ga; subst.
          destruct (ngetm vs x) as [w|] eqn:Ew; [|now apply safe_ret]. apply safe_and_then.
          * apply Hp; [assumption|]. apply (good_mono m n0); [exact L|]. eapply map_get; eassumption.
          * intros k Lk. apply IH; [assumption|lia].
        + intros k L. destruct r as [p|]; [|now apply safe_ret].
          assert (K : Safe k (fun _ _ => True) (bp p (VDict (List.filter (fun kv => negb (nhas attrs (fst kv))) vs)))); [|destruct p; try exact K; now apply safe_ret].
          apply H0; [reflexivity|now apply Gr|]. apply (good_mono m n0); [exact L|]. apply good_dict. destruct Gv as [D F]. split; [split|].
          * clear - D. unfold nkeys in *. induction vs as [|[x w] vs IH]; cbn; [constructor|]. inversion D as [|? ? Hn D']; subst.
            destruct (negb (nhas attrs x)); cbn; [|now apply IH]. constructor; [|now apply IH]. intro Hx. apply Hn. apply in_map_iff in Hx as (e & <- & Hx).
            apply filter_In in Hx as [Hx _]. apply in_map_iff. eauto.
          * rewrite Forall_forall in *. intros w Hw. apply F. unfold nvalues in *. apply in_map_iff in Hw as (e & <- & Hw). apply filter_In in Hw as [Hw _].
            apply in_map_iff. eauto.
          * intro E. specialize (Kv E). rewrite Forall_forall in *. intros w Hw. apply Kv. unfold nkeys in *. apply in_map_iff in Hw as (e & <- & Hw). apply filter_In in Hw as [Hw _].
            apply in_map_iff. eauto.
      - cbn [bind_pattern]. apply pat_tag in G as (G1 & G2 & G3). destruct v; try now apply safe_ret. match goal with x : html |- _ => destruct x; try now apply safe_ret end.
        apply good_html in Gv as [[[N D] P] _]. inversion N; subst. inversion D; subst; try match goal with K : False |- _ => destruct K end.
        match goal with K : NoDup _ |- _ => rename K into Da end.
        apply safe_and_then; [apply IHp1; [exact G1|apply good_str]|]. intros k L. apply safe_and_then.
        + apply IHp2; [exact G2|]. apply good_dict. split; [split|].
          * unfold nkeys. rewrite map_map. cbn. exact Da.
          * unfold nvalues. rewrite map_map. apply Forall_map. apply Forall_forall. intros [x [y|]] _; cbn; [apply good_str|apply good_unit].
          * intro E. specialize (P E). inversion P as [| | | |? ? ? _ Pa _ _|]; subst. unfold nkeys. rewrite map_map. cbn. now apply Forall_map.
        + intros j Lj. apply IHp3; [exact G3|]. apply good_of_html. split; [now split|]. intro E. specialize (P E). now inversion P.
      - rewrite bp_exact_html. destruct (to_html v) as [h|] eqn:E; [|now apply safe_ret]. destruct (length (html_nodes h) =? length ps); [|now apply safe_ret].
        apply safe_bind_all; [assumption|now apply pat_exact_html|]. apply Forall_map. eapply Forall_impl; [|apply (nodes_good m); eapply good_to_html; eassumption].
        intros. now apply good_of_html.
      - rewrite bp_spread_html. destruct (to_html v) as [h|] eqn:E; [|now apply safe_ret]. destruct (length (html_nodes h) + 1 <? length ps) eqn:El; [now apply safe_ret|].
        apply Nat.ltb_ge in El. apply (safe_bind_spread html of_html (fun hs => of_html (from_iter hs)) (GoodHtml m) n0); auto.
        + intros k a L. now apply good_of_html.
        + intros k l L F. apply good_of_html. now apply gh_from_iter.
        + now apply (pat_spread_html ps i).
        + apply nodes_good. eapply good_to_html; eassumption.
        + intro K. split; [now apply pat_spread_html_lt|lia].
    Qed.
    Definition GoodBranch (b : pattern * expr) : Prop := GoodPat (fst b) /\ GoodExpr m (snd b).
    Lemma safe_match_branches bs : Forall GoodBranch bs -> forall n v t, Good m n v -> Safe n (fun k w => Good m k w /\ Fits m t w) (match_branches eval (x_captures X) bs v t).
    Proof.
      induction bs as [|[p e] bs IH]; intros F n v t G; cbn [match_branches].
      - eapply safe_bind; [apply (safe_report m X n _ (fun _ _ => True)); auto|]. intros. apply safe_fail.
      - inversion F as [|? ? [Gp Ge] F']; subst.
        apply (safe_bind m X _ _ n (fun k r => forall w, r = Some w -> Good m k w /\ Fits m t w)).
        + apply safe_in_child_frame. intros k L. eapply safe_bind; [apply safe_bind_pattern; [exact Gp|now apply (good_mono m n)]|].
          intros j b Lj _. destruct b; [|apply safe_ret; discriminate]. eapply safe_bind; [apply eval_safe; exact Ge|]. intros i w Li [Gw Fw].
          apply safe_ret. intros i2 Li2 w' [= <-]. split; [now apply (good_mono m i)|exact Fw].
        + intros k r L H. destruct r as [w|]; [|apply IH; [exact F'|now apply (good_mono m n)]]. destruct (H w eq_refl) as [Gw Fw].
          apply safe_ret. intros j Lj. split; [now apply (good_mono m k)|exact Fw].
    Qed.
    Lemma safe_evaluate_match e bs n t : GoodExpr m e -> Forall GoodBranch bs -> Safe n (fun k w => Good m k w /\ Fits m t w) (evaluate_match eval (x_captures X) e bs t).
    Proof.
      intros G F. unfold evaluate_match. eapply safe_bind; [now apply eval_safe|]. intros k v L [Gv _]. now apply safe_match_branches.
    Qed.
  End Pattern.
End Match.
