(** Proofs for C24-C26. *)
From Verif Require Import Base BaseFacts M_Text M_Names M_TagInfo M_Html S_Html P_Html M_Sequence S_Sequence.

(** ** Content kinds *)

Definition all_kinds : list content_kind :=
  List.map content_kind_for (List.map lit
    ["article"; "a"; "dl"; "hgroup"; "html"; "head"; "ul"; "table"; "tbody"; "tr"; "p"; "br"; "span"]%string).
Definition good_kind (k : content_kind) : Prop := In k all_kinds.
Lemma kind_for_good : forall n, good_kind (content_kind_for n).
Proof.
  intro n. unfold good_kind, content_kind_for at 1.
  repeat match goal with |- context [if ?b then _ else _] => destruct b end; vm_compute; tauto.
Qed.
Lemma all_kinds_forall : forall P : content_kind -> Prop,
  P (content_kind_for (lit "article")) -> P (content_kind_for (lit "a")) -> P (content_kind_for (lit "dl")) ->
  P (content_kind_for (lit "hgroup")) -> P (content_kind_for (lit "html")) -> P (content_kind_for (lit "head")) ->
  P (content_kind_for (lit "ul")) -> P (content_kind_for (lit "table")) -> P (content_kind_for (lit "tbody")) ->
  P (content_kind_for (lit "tr")) -> P (content_kind_for (lit "p")) -> P (content_kind_for (lit "br")) ->
  P (content_kind_for (lit "span")) -> forall k, good_kind k -> P k.
Proof.
  intros P; intros. unfold good_kind, all_kinds in *. cbn [List.map In] in *.
  repeat match goal with H : _ \/ _ |- _ => destruct H as [<-|H]; [assumption|] end. tauto.
Qed.

Ltac kinds := match goal with |- forall k, good_kind k -> @?P k => apply (all_kinds_forall P); cbn beta end.

Definition can_wrap (k : content_kind) : bool :=
  match k with RequireOneOf _ | RequireBlock _ | AllowBlock _ => true | _ => false end.

(** Nesting of implicit wrappers: always at most three levels. *)
Fixpoint level_ok (m : nat) (k : content_kind) : bool :=
  match m with 0 => false | S m => negb (can_wrap k) || level_ok m (content_kind_for (wrap_with k)) end.
Lemma good_level : forall k, good_kind k -> level_ok 3 k = true.
Proof. kinds; reflexivity. Qed.
Lemma wrap_wrappers : forall k, good_kind k -> In (wrap_with k) wrappers.
Proof. kinds; vm_compute; tauto. Qed.
Lemma wrap_among : forall k, good_kind k -> forall names, k = RequireOneOf names -> In (wrap_with k) names.
Proof. kinds; intros names E; vm_compute in E; try discriminate; injection E as <-; vm_compute; tauto. Qed.
Lemma wrap_block : forall k, good_kind k -> forall n, k = RequireBlock n \/ k = AllowBlock n -> n = n_p.
Proof. kinds; intros n [E|E]; vm_compute in E; try discriminate; injection E as <-; reflexivity. Qed.

(** ** Builders *)

Section BInd.
  Variable P : builder -> Prop.
  Hypothesis H0 : forall p k ch, P (Builder p k ch None).
  Hypothesis H1 : forall p k ch c, P c -> P (Builder p k ch (Some c)).
  Fixpoint builder_ind' (b : builder) : P b :=
    match b with
    | Builder p k ch None => H0 p k ch
    | Builder p k ch (Some c) => H1 p k ch c (builder_ind' c)
    end.
End BInd.

Lemma into_html_eq : forall p k ch nx, b_into_html (Builder p k ch nx) =
  let child := match nx with None => inl HEmpty | Some c => b_into_html c end in
  match k, ch with
  | AllowBlock _, [] => child
  | _, _ =>
    match child with
    | inr e => inr e
    | inl h =>
      let closed := if html_is_empty h then ch else ch ++ [in_tag h (wrap_with k)] in
      let result := from_iter (pop_white closed) in
      match k with
      | RequireEmpty => if html_is_empty result then inl result else inr NoContentAllowed
      | _ => inl result
      end
    end
  end.
Proof. reflexivity. Qed.

Lemma b_push_eq : forall fuel child p k ch nx, b_push (S fuel) child (Builder p k ch nx) =
    if html_is_empty child then Ret (None, Builder p k ch nx) else
      match (if require_inline k then block_kind child else None) with
      | Some tag =>
        Ret (Some (match p with Some p => TagNotAllowedIn tag p | None => TagNotAllowed tag end), Builder p k ch nx)
      | None =>
        let is_allowed :=
          match k with
          | RequireOneOf names => html_is_all names child
          | RequireBlock _ | AllowBlock _ => html_is_block child
          | _ => true
          end in
        if is_allowed then
          Ret match b_close_child (Builder p k ch nx) with
              | (Some e, b) => (Some e, b)
              | (None, Builder parent kind children next) =>
                (None, match children with
                       | [] => if html_is_whitespace child then Builder parent kind [] next
                               else Builder parent kind [child] next
                       | _ => Builder parent kind (children ++ [child]) next
                       end)
              end
        else
          let into := fun c =>
            obind (b_push fuel child c) (fun r => let (e, c) := r in Ret (e, Builder p k ch (Some c))) in
          match nx with
          | Some c => into c
          | None =>
            if html_is_whitespace child then Ret (None, Builder p k ch nx)
            else into (b_new (content_kind_for (wrap_with k)) (Some (wrap_with k)))
          end
      end.
Proof. reflexivity. Qed.

Definition allowed (k : content_kind) (h : html) : Prop :=
  match k with
  | RequireOneOf names => html_is_all names h = true
  | RequireBlock _ | AllowBlock _ => html_is_block h = true
  | RequireInline | RequireInlineNoLineBreaks => block_kind h = None
  | RequireEmpty => True
  end.
Definition head_not_white (ch : list html) : Prop :=
  match ch with [] => True | x :: _ => html_is_whitespace x = false end.

Lemma head_not_white_snoc : forall ch x, head_not_white ch -> html_is_whitespace x = false -> head_not_white (ch ++ [x]).
Proof. intros [|y ch] x H H'; cbn in *; auto. Qed.
Lemma head_not_white_snoc' : forall ch x, ch <> [] -> head_not_white ch -> head_not_white (ch ++ [x]).
Proof. intros [|y ch] x H H'; cbn in *; auto. congruence. Qed.

Lemma pop_white_rev_spec : forall l, exists w, l = w ++ pop_white_rev l /\ Forall (fun x => html_is_whitespace x = true) w
   /\ match pop_white_rev l with [] => True | x :: _ => html_is_whitespace x = false end.
Proof.
  induction l as [|x l IH].
  { exists []. cbn. auto. }
  destruct IH as (w & E & Hw & Hh). cbn [pop_white_rev]. destruct (html_is_whitespace x) eqn:Ex.
  - exists (x :: w). cbn. rewrite <- E. auto.
  - exists []. auto.
Qed.
Lemma pop_white_spec : forall l, exists w, l = pop_white l ++ w /\ Forall (fun x => html_is_whitespace x = true) w
   /\ (forall i x, pop_white l = i ++ [x] -> html_is_whitespace x = false).
Proof.
  intro l. destruct (pop_white_rev_spec (rev l)) as (w & E & Hw & Hh). exists (rev w). unfold pop_white.
  rewrite <- rev_app_distr, <- E, rev_involutive. split; [reflexivity|]. split.
  - apply Forall_rev. exact Hw.
  - intros i x Ei. apply (f_equal (@rev _)) in Ei. rewrite rev_involutive, rev_app_distr in Ei. cbn in Ei.
    rewrite Ei in Hh. exact Hh.
Qed.
Lemma pop_white_incl : forall (P : html -> Prop) l, Forall P l -> Forall P (pop_white l).
Proof.
  intros P l H. destruct (pop_white_spec l) as (w & E & _). rewrite E in H. now apply Forall_app in H.
Qed.

(** A generic invariant: [CO k h] holds of every child of a builder of kind [k], [RO k h] of its final content. *)
Section Gen.
  Variable CO RO : content_kind -> html -> Prop.
  Variable PO : html -> Prop.
  Hypothesis H_result : forall k ch, good_kind k -> Forall (CO k) ch -> head_not_white ch ->
    (k = RequireEmpty -> from_iter (pop_white ch) = HEmpty) -> RO k (from_iter (pop_white ch)).
  Hypothesis H_allow : forall n h, good_kind (AllowBlock n) -> RO (content_kind_for n) h -> RO (AllowBlock n) h.
  Hypothesis H_empty : forall k, good_kind k -> RO k HEmpty.
  Hypothesis H_wrap : forall k h, good_kind k -> can_wrap k = true -> RO (content_kind_for (wrap_with k)) h ->
    h <> HEmpty -> CO k (in_tag h (wrap_with k)).
  Hypothesis H_piece : forall k h, good_kind k -> PO h -> h <> HEmpty -> allowed k h -> CO k h.
  Hypothesis H_br : CO RequireInline (html_tag n_br HEmpty).

  Fixpoint BInv (b : builder) : Prop :=
    match b with
    | Builder _ k ch nx =>
      good_kind k /\ Forall (CO k) ch /\ head_not_white ch /\
      match nx with
      | None => True
      | Some c => can_wrap k = true /\ b_kind c = content_kind_for (wrap_with k) /\ BInv c
      end
    end.

  Lemma is_empty_spec : forall h, html_is_empty h = true <-> h = HEmpty.
  Proof. intros []; cbn; split; congruence. Qed.

  Lemma closed_ok : forall k ch h, good_kind k -> can_wrap k = true -> Forall (CO k) ch -> head_not_white ch ->
    RO (content_kind_for (wrap_with k)) h ->
    let closed := if html_is_empty h then ch else ch ++ [in_tag h (wrap_with k)] in
    Forall (CO k) closed /\ head_not_white closed.
  Proof.
    intros k ch h Hk Hw Hc Hh Hr. cbn zeta. destruct (html_is_empty h) eqn:Ee; [auto|].
    split; [|now apply head_not_white_snoc].
    apply Forall_app. split; [exact Hc|]. constructor; [|constructor].
    apply H_wrap; auto. intros ->. discriminate.
  Qed.

  Lemma into_html_ok : forall b h, BInv b -> b_into_html b = inl h -> RO (b_kind b) h.
  Proof.
    intro b. induction b as [p k ch|p k ch c IH] using builder_ind'; intros h (Hk & Hc & Hh & Hn) E;
      rewrite into_html_eq in E; cbv zeta in E; cbn [b_kind].
    - cbn [html_is_empty] in E.
      assert (forall r, r = from_iter (pop_white ch) -> (k = RequireEmpty -> r = HEmpty) -> RO k r) as HR.
      { intros r -> Hr. now apply H_result. }
      destruct k; try (injection E as <-; apply HR; [reflexivity|discriminate]).
      + destruct ch; injection E as <-; [now apply H_empty|apply HR; [reflexivity|discriminate]].
      + destruct (html_is_empty (from_iter (pop_white ch))) eqn:Ee; [|discriminate]. injection E as <-.
        apply HR; [reflexivity|]. intros _. now apply is_empty_spec.
    - destruct Hn as (Hw & Hkc & Hb). destruct (b_into_html c) as [hc|e] eqn:Ec.
      2:{ destruct k; try discriminate; destruct ch; discriminate. }
      specialize (IH hc Hb eq_refl). rewrite Hkc in IH.
      destruct (closed_ok k ch hc Hk Hw Hc Hh IH) as [C1 C2]. cbn zeta in C1, C2.
      destruct k; try discriminate Hw.
      + injection E as <-. apply H_result; auto. discriminate.
      + injection E as <-. apply H_result; auto. discriminate.
      + destruct ch as [|x ch].
        * injection E as <-. now apply H_allow.
        * injection E as <-. apply H_result; auto. discriminate.
  Qed.

  Lemma close_ok : forall b e b', BInv b -> b_close_child b = (e, b') ->
    BInv b' /\ b_kind b' = b_kind b /\ b_next b' = None.
  Proof.
    intros [p k ch [c|]] e b' H E.
    - destruct H as (Hk & Hc & Hh & Hw & Hkc & Hb). unfold b_close_child in E. destruct (b_into_html c) as [hc|x] eqn:Ec.
      + injection E as <- <-. pose proof (into_html_ok c hc Hb Ec) as Hr. rewrite Hkc in Hr.
        destruct (closed_ok k ch hc Hk Hw Hc Hh Hr). cbn. auto.
      + injection E as <- <-. cbn. auto.
    - cbn in E. injection E as <- <-. auto.
  Qed.

  Lemma newline_ok : forall b e b', BInv b -> b_newline b = (e, b') -> BInv b' /\ b_kind b' = b_kind b.
  Proof.
    intros b e b' H E. unfold b_newline in E. destruct (b_kind b) eqn:Ek;
      try (injection E as <- <-; auto); try (rewrite <- Ek; destruct (close_ok _ _ _ H E) as (? & ? & ?); auto).
    destruct (b_close_child b) as [o [p k ch nx]] eqn:Ec. destruct (close_ok _ _ _ H Ec) as (H1 & H2 & H3).
    cbn [b_kind b_next] in H2, H3. rewrite H2, Ek in *. destruct o as [err|]; injection E as <- <-; [auto|].
    destruct H1 as (G1 & G2 & G3 & _). subst nx. split; [|reflexivity]. repeat split; auto.
    - apply Forall_app; split; [exact G2|]. constructor; [exact H_br|constructor].
    - now apply head_not_white_snoc.
  Qed.

  Lemma is_allowed_spec : forall k h,
    (if require_inline k then block_kind h else None) = None ->
    (match k with
     | RequireOneOf names => html_is_all names h
     | RequireBlock _ | AllowBlock _ => html_is_block h
     | _ => true
     end) = true -> allowed k h.
  Proof. intros []; cbn; auto. Qed.

  Lemma new_ok : forall k p, good_kind k -> BInv (b_new k p).
  Proof. intros k p H. cbn. auto. Qed.

  Lemma push_ok : forall fuel h b e b', PO h -> BInv b -> b_push fuel h b = Ret (e, b') ->
    BInv b' /\ b_kind b' = b_kind b.
  Proof.
    induction fuel as [|fuel IH]; intros h b e b' Hp Hb E; [discriminate|].
    destruct b as [p k ch nx]. rewrite b_push_eq in E.
    destruct (html_is_empty h) eqn:Ee; [injection E as <- <-; auto|].
    destruct (if require_inline k then block_kind h else None) as [t|] eqn:Er; [injection E as <- <-; auto|].
    cbv zeta in E.
    match type of E with (if ?a then _ else _) = _ => destruct a eqn:Ea end.
    - assert (h <> HEmpty) as Hne by (intros ->; discriminate).
      assert (good_kind k) as Hk by apply Hb.
      pose proof (H_piece k h Hk Hp Hne (is_allowed_spec k h Er Ea)) as Hco.
      destruct (b_close_child (Builder p k ch nx)) as [o [p' k' ch' nx']] eqn:Ec.
      destruct (close_ok _ _ _ Hb Ec) as (H1 & H2 & H3). cbn [b_kind b_next] in H2, H3. subst k' nx'.
      destruct o as [err|]; injection E as <- <-; [auto|].
      destruct H1 as (G1 & G2 & G3 & _).
      destruct ch' as [|x ch'].
      + destruct (html_is_whitespace h) eqn:Ew; cbn; auto.
      + split; [|reflexivity]. repeat split; auto.
        * apply Forall_app; auto.
    - assert (can_wrap k = true) as Hw by (destruct k; cbn in *; congruence).
      destruct Hb as (Hk & Hc & Hh & Hn).
      destruct nx as [c|].
      + destruct Hn as (_ & Hkc & Hb). destruct (b_push fuel h c) as [[e1 c1]| |] eqn:Ep; cbn in E; try discriminate.
        injection E as <- <-. destruct (IH _ _ _ _ Hp Hb Ep) as [H1 H2]. split; [|reflexivity].
        cbn. repeat split; auto. congruence.
      + destruct (html_is_whitespace h); [injection E as <- <-; cbn; auto|].
        destruct (b_push fuel h (b_new (content_kind_for (wrap_with k)) (Some (wrap_with k)))) as [[e1 c1]| |] eqn:Ep;
          cbn in E; try discriminate.
        injection E as <- <-.
        assert (BInv (b_new (content_kind_for (wrap_with k)) (Some (wrap_with k)))) as Hnew by apply new_ok, kind_for_good.
        destruct (IH _ _ _ _ Hp Hnew Ep) as [H1 H2]. split; [|reflexivity]. cbn. repeat split; auto.
  Qed.

  Definition ItemOk (i : item) : Prop := match i with Piece h => PO h | ParagraphBreak => True end.

  Lemma items_ok : forall items b es b', Forall ItemOk items -> BInv b -> b_items items b = Ret (es, b') ->
    BInv b' /\ b_kind b' = b_kind b.
  Proof.
    induction items as [|i items IH]; intros b es b' Hi Hb E; cbn [b_items] in E; [injection E as <- <-; auto|].
    inversion Hi; subst.
    destruct (b_item i b) as [[e1 b1]| |] eqn:E1; cbn in E; try discriminate.
    destruct (b_items items b1) as [[es2 b2]| |] eqn:E2; cbn in E; try discriminate. injection E as <- <-.
    assert (BInv b1 /\ b_kind b1 = b_kind b) as [B1 B2].
    { destruct i; cbn in E1; [now apply (push_ok push_fuel h b e1)|].
      injection E1 as E1. now apply (newline_ok b e1). }
    destruct (IH _ _ _ H2 B1 E2). split; congruence || auto.
  Qed.

  Lemma compile_items_ok : forall k p items es h, good_kind k -> Forall ItemOk items ->
    compile_items k p items = Ret (es, h) -> RO k h.
  Proof.
    intros k p items es h Hk Hi E. unfold compile_items in E.
    destruct (b_items items (b_new k p)) as [[es1 b]| |] eqn:E1; cbn in E; try discriminate.
    destruct (items_ok _ _ _ _ Hi (new_ok k p Hk) E1) as [B1 B2].
    destruct (b_into_html b) as [h'|e] eqn:E2; injection E as <- <-.
    - change k with (b_kind (b_new k p)). rewrite <- B2. now apply into_html_ok.
    - now apply H_empty.
  Qed.
End Gen.

(** ** Termination *)

Fixpoint BKinds (b : builder) : Prop :=
  match b with
  | Builder _ k _ nx =>
    good_kind k /\ match nx with None => True | Some c => b_kind c = content_kind_for (wrap_with k) /\ BKinds c end
  end.
Lemma BKinds_new : forall k p, good_kind k -> BKinds (b_new k p).
Proof. intros k p H. cbn. auto. Qed.
Lemma push_total_level : forall m h b, BKinds b -> level_ok m (b_kind b) = true -> exists r, b_push m h b = Ret r.
Proof.
  induction m as [|m IH]; intros h [p k ch nx] Hb Hl; [discriminate|]. rewrite b_push_eq.
  destruct (html_is_empty h); [eauto|]. destruct (if require_inline k then block_kind h else None); [eauto|]. cbv zeta.
  match goal with |- exists r, (if ?a then _ else _) = _ => destruct a eqn:Ea end; [eauto|].
  assert (can_wrap k = true) as Hw by (destruct k; cbn in *; congruence).
  cbn [b_kind] in Hl. cbn [level_ok] in Hl. rewrite Hw in Hl. cbn [negb orb] in Hl.
  destruct Hb as [Hk Hn]. destruct nx as [c|].
  - destruct Hn as [E Hc]. destruct (IH h c Hc) as [[e c'] ->]; [now rewrite E|]. cbn. eauto.
  - destruct (html_is_whitespace h); [eauto|].
    destruct (IH h (b_new (content_kind_for (wrap_with k)) (Some (wrap_with k)))) as [[e c'] ->].
    + apply BKinds_new, kind_for_good.
    + exact Hl.
    + cbn. eauto.
Qed.
Lemma level_mono : forall m k, level_ok m k = true -> level_ok (S m) k = true.
Proof.
  induction m as [|m IH]; intros k H; [discriminate|]. cbn [level_ok] in H |- *.
  apply orb_true_iff in H as [->|H]; [reflexivity|]. apply orb_true_iff. right. now apply IH.
Qed.
Lemma b_push_total : forall h b, BKinds b -> exists r, b_push push_fuel h b = Ret r.
Proof.
  intros h b H. apply push_total_level; [exact H|]. unfold push_fuel.
  destruct b. apply level_mono, good_level, H.
Qed.

(** [BKinds] is the generic invariant with trivial predicates. *)
Notation TInv := (BInv (fun _ _ => True)).
Lemma TInv_kinds : forall b, TInv b -> BKinds b.
Proof.
  intro b. induction b as [p k ch|p k ch c IH] using builder_ind'; intros (H1 & H2 & H3 & H4); cbn; [auto|].
  destruct H4 as (_ & H5 & H6). auto.
Qed.
Lemma triv_push : forall fuel h b e b', TInv b -> b_push fuel h b = Ret (e, b') -> TInv b'.
Proof.
  intros fuel h b e b' H E.
  eapply (push_ok (fun _ _ => True) (fun _ _ => True) (fun _ => True)); eauto; trivial.
Qed.
Lemma triv_newline : forall b e b', TInv b -> b_newline b = (e, b') -> TInv b'.
Proof.
  intros b e b' H E.
  eapply (newline_ok (fun _ _ => True) (fun _ _ => True)); eauto; trivial.
Qed.
Lemma b_items_total : forall items b, TInv b -> exists r, b_items items b = Ret r.
Proof.
  induction items as [|i items IH]; intros b H; cbn [b_items]; [eauto|].
  assert (exists e b1, b_item i b = Ret (e, b1) /\ TInv b1) as (e & b1 & -> & H1).
  { destruct i; cbn.
    - destruct (b_push_total h b (TInv_kinds b H)) as [[e b1] E]. eauto using triv_push.
    - destruct (b_newline b) as [e b1] eqn:E. eauto using triv_newline. }
  cbn. destruct (IH b1 H1) as [[es b2] ->]. cbn. eauto.
Qed.
Lemma compile_items_total : forall k p items, good_kind k -> exists es h, compile_items k p items = Ret (es, h).
Proof.
  intros k p items H. unfold compile_items. destruct (b_items_total items (b_new k p)) as [[es b] ->].
  - cbn. auto.
  - cbn. destruct (b_into_html b); eauto.
Qed.

(** ** C24 *)

Lemma block_kind_seq : forall l, block_kind (HSeq l) = None <-> Forall (fun x => block_kind x = None) l.
Proof.
  induction l as [|x l IH]; cbn; [split; auto|]. split.
  - intro H. destruct (block_kind x) eqn:E; [discriminate|]. constructor; [exact E|]. now apply IH.
  - intro H. inversion H as [|? ? Hx Hl]; subst. rewrite Hx. now apply IH.
Qed.

Lemma block_kind_none : forall h, block_kind h = None <-> ~ BlockLevel h.
Proof.
  induction h as [|n a c IH|l IH|s| |] using html_ind'; try (split; [intros _ H; inversion H|reflexivity]).
  - cbn [block_kind]. destruct (str_eqb_spec n n_a) as [->|Hna].
    + rewrite IH. split.
      * intros H B. inversion B as [? ? ? X| |]; subst; [now apply X|auto].
      * intros H B. apply H. now apply BL_link.
    + destruct (is_block_name n) eqn:Eb.
      * split; [discriminate|]. intro H. exfalso. apply H. constructor; [exact Hna|]. now apply mem_In.
      * split; [|reflexivity]. intros _ B. inversion B as [? ? ? Hn1 Hn2| |]; subst; [|now apply Hna].
        apply mem_In in Hn2. unfold is_block_name in Eb. congruence.
  - rewrite block_kind_seq. split.
    + intros H B. inversion B as [| |? x Hx Hb]; subst. rewrite Forall_forall in H, IH.
      now apply (IH x Hx) in Hb; [|apply H].
    + intro H. rewrite Forall_forall in *. intros x Hx. apply IH; [exact Hx|]. intro B. apply H. econstructor; eauto.
Qed.
Lemma block_kind_some : forall h, html_is_block h = true <-> BlockLevel h.
Proof.
  intro h. unfold html_is_block. destruct (block_kind h) as [s|] eqn:E; split; try discriminate; auto; intro H.
  - assert (~ ~ BlockLevel h) as N by (intro N; apply block_kind_none in N; congruence).
    clear H. revert s E N. induction h as [|n a c IH|l IH|t| |] using html_ind'; intros s E N; try discriminate.
    + cbn [block_kind] in E. destruct (str_eqb_spec n n_a) as [->|Hna].
      * apply BL_link. eapply IH; [exact E|]. intro B. apply N. intro B'. inversion B' as [? ? ? X| |]; subst; [now apply X|auto].
      * destruct (is_block_name n) eqn:Eb; [|discriminate]. constructor; [exact Hna|]. now apply mem_In.
    + clear N. induction l as [|x l IHl]; [discriminate|]. inversion IH as [|? ? Hx Hl]; subst. cbn in E.
      destruct (block_kind x) as [t|] eqn:Ex.
      * apply (BL_seq _ x); [now left|]. eapply Hx; [reflexivity|]. intro B. apply block_kind_none in B. congruence.
      * assert (BlockLevel (HSeq l)) as B by (apply IHl; auto).
        inversion B as [| |? y Hy Hb]; subst. apply (BL_seq _ y); [now right|exact Hb].
  - apply block_kind_none in E. contradiction.
Qed.

Lemma notblock_nodes : forall h, ~ BlockLevel h -> Forall (fun h => ~ BlockLevel h) (nodes h).
Proof.
  intros [] H; cbn; repeat constructor; auto.
  apply Forall_forall. intros x Hx B. apply H. econstructor; eauto.
Qed.
Lemma block_nodes_homogeneous : forall h, Homogeneous h -> BlockLevel h -> Forall BlockLevel (nodes h).
Proof.
  intros h [H|H] B; [exact H|]. exfalso. destruct h; cbn in H; inversion B; subst; try (inversion H; subst; contradiction).
  rewrite Forall_forall in H. firstorder.
Qed.
Lemma is_all_nodes : forall names h, Normal h -> html_is_all names h = true -> Forall (TagAmong names) (nodes h).
Proof.
  intros names h HN H. destruct HN as [| | |s H1 H2 H3|n a c Hc|l H1 H2 H3 H4]; cbn in *; try discriminate; [constructor| |].
  - constructor; [|constructor]. exists n, a, c. split; [reflexivity|]. now apply mem_In.
  - rewrite Forall_forall in *. rewrite forallb_forall in H. intros x Hx. specialize (H x Hx). specialize (H2 x Hx).
    destruct x; cbn in *; try discriminate; try contradiction.
    do 3 eexists. split; [reflexivity|]. now apply mem_In.
Qed.


(** Predicates on nodes survive [from_iter]. *)
Section NodesP.
  Variable P : html -> Prop.
  Hypothesis Ptext : forall x s, P x -> IsText x -> P (HText s).

  Lemma close_P : forall b, sb_ok b -> Forall P (sb_children b) -> Forall P (sb_text b) ->
    Forall P (sb_children (sb_close_text b)).
  Proof.
    intros b Hb H1 H2. pose proof (ok_text b Hb) as H3. unfold sb_close_text.
    destruct (sb_text b) as [|x [|y l]]; cbn; [auto|apply Forall_app; auto|].
    apply Forall_app; split; [exact H1|]. constructor; [|constructor].
    inversion H3 as [|? ? Hx H3']; subst. inversion H3' as [|? ? Hy ?]; subst.
    pose proof (flat_len_two x y l Hx Hy) as Hl. cbn [flat_map] in Hl. rewrite (html_text_two _ Hl).
    inversion H2; subst. eapply Ptext; [eassumption|apply Hx].
  Qed.

  Lemma push_piece_P : forall x b, IsPiece x -> P x -> sb_ok b -> Forall P (sb_children b) -> Forall P (sb_text b) ->
    Forall P (sb_children (sb_push x b)) /\ Forall P (sb_text (sb_push x b)).
  Proof.
    intros x b Hx Px Hb H1 H2. pose proof (close_P b Hb H1 H2) as H3. destruct (sb_close_ok b Hb) as (_ & _ & _ & H4).
    destruct x; cbn in Hx; try contradiction; cbn [sb_push sb_children sb_text]; rewrite ?Forall_app; auto.
    rewrite H4. auto.
  Qed.

  Lemma push_pieces_P : forall l b, Forall IsPiece l -> Forall Normal l -> Forall P l -> sb_ok b ->
    Forall P (sb_children b) -> Forall P (sb_text b) ->
    let b' := fold_left (fun b h => sb_push h b) l b in
    sb_ok b' /\ Forall P (sb_children b') /\ Forall P (sb_text b').
  Proof.
    induction l as [|x l IH]; intros b Hp Hn HP Hb H1 H2; cbn; [auto|].
    inversion Hp; inversion Hn; inversion HP; subst.
    destruct (push_piece_P x b) as [G1 G2]; auto. apply IH; auto using sb_push_ok.
  Qed.

  Lemma sb_push_nodes : forall h b, sb_push h b = fold_left (fun b h => sb_push h b) (nodes h) b.
  Proof. intros [] b; reflexivity. Qed.

  Lemma normal_pieces : forall h, Normal h -> Forall IsPiece (nodes h) /\ Forall Normal (nodes h).
  Proof. intros h H. apply Items_nodes in H as (H1 & _ & H3). auto. Qed.

  Lemma from_iter_P : forall l, Forall Normal l -> Forall (fun h => Forall P (nodes h)) l -> Forall P (nodes (from_iter l)).
  Proof.
    intros l Hn HP. unfold from_iter.
    assert (forall b, sb_ok b -> Forall P (sb_children b) -> Forall P (sb_text b) ->
      let b' := fold_left (fun b h => sb_push h b) l b in
      sb_ok b' /\ Forall P (sb_children b') /\ Forall P (sb_text b')) as H.
    { induction l as [|x l IH]; intros b Hb H1 H2; cbn; [auto|]. inversion Hn; inversion HP; subst.
      rewrite sb_push_nodes. destruct (normal_pieces x) as [N1 N2]; [assumption|].
      destruct (push_pieces_P (nodes x) b) as (G1 & G2 & G3); auto. }
    destruct (H sb_new) as (G1 & G2 & G3); [apply sb_new_ok|constructor|constructor|].
    pose proof (close_P _ G1 G2 G3) as G4. destruct (sb_close_ok _ G1) as (G5 & _).
    unfold sb_build. destruct (sb_children (sb_close_text _)) as [|x [|y t]]; cbn; [constructor| |exact G4].
    inversion G5; subst. destruct x; cbn in *; try contradiction; exact G4.
  Qed.
End NodesP.

Lemma Valid_nodes : forall h, Valid h <-> Forall Valid (nodes h).
Proof.
  intro h. split.
  - intro H. destruct H; cbn; repeat constructor; auto.
  - intro H. destruct h; cbn in H; try (inversion H; assumption); now constructor.
Qed.

Definition CO24 (k : content_kind) (h : html) : Prop :=
  Normal h /\ Valid h /\
  match k with
  | RequireOneOf names => Forall (TagAmong names) (nodes h)
  | RequireBlock _ | AllowBlock _ => Forall BlockLevel (nodes h)
  | RequireInline | RequireInlineNoLineBreaks => Forall (fun h => ~ BlockLevel h) (nodes h)
  | RequireEmpty => True
  end.
Definition RO24 (k : content_kind) (h : html) : Prop := Normal h /\ Valid h /\ Conforms k (nodes h).
Definition PO24 (h : html) : Prop := Normal h /\ Valid h /\ Homogeneous h.

Lemma TagAmong_text : forall names x s, TagAmong names x -> IsText x -> TagAmong names (HText s).
Proof. intros names x s (n & a & c & -> & _) []. Qed.
Lemma Block_text : forall x s, BlockLevel x -> IsText x -> BlockLevel (HText s).
Proof. intros x s H T. destruct H; destruct T. Qed.
Lemma NotBlock_text : forall x s, ~ BlockLevel x -> IsText x -> ~ BlockLevel (HText s).
Proof. intros x s _ _ H. inversion H. Qed.
Lemma Valid_text : forall x s, Valid x -> IsText x -> Valid (HText s).
Proof. intros. constructor. Qed.

Lemma p_block : forall a c, BlockLevel (HTag n_p a c).
Proof. intros. constructor; [discriminate|]. vm_compute. tauto. Qed.

Lemma result24 : forall k ch, good_kind k -> Forall (CO24 k) ch -> head_not_white ch ->
  (k = RequireEmpty -> from_iter (pop_white ch) = HEmpty) -> RO24 k (from_iter (pop_white ch)).
Proof.
  intros k ch Hk Hc _ He. apply pop_white_incl in Hc. set (l := pop_white ch) in *. clearbody l.
  assert (Forall Normal l) as HN by (eapply Forall_impl; [|exact Hc]; intros h H; apply H).
  assert (Forall (fun h => Forall Valid (nodes h)) l) as HV
    by (eapply Forall_impl; [|exact Hc]; intros h H; apply Valid_nodes; apply H).
  split; [now apply from_iter_normal|]. split.
  - apply Valid_nodes. apply from_iter_P; [exact Valid_text|exact HN|exact HV].
  - destruct k; cbn [Conforms].
    + apply from_iter_P; [apply TagAmong_text|exact HN|]. eapply Forall_impl; [|exact Hc]. intros h H; apply H.
    + apply from_iter_P; [apply Block_text|exact HN|]. eapply Forall_impl; [|exact Hc]. intros h H; apply H.
    + left. apply from_iter_P; [apply Block_text|exact HN|]. eapply Forall_impl; [|exact Hc]. intros h H; apply H.
    + apply from_iter_P; [apply NotBlock_text|exact HN|]. eapply Forall_impl; [|exact Hc]. intros h H; apply H.
    + apply from_iter_P; [apply NotBlock_text|exact HN|]. eapply Forall_impl; [|exact Hc]. intros h H; apply H.
    + rewrite He; reflexivity.
Qed.

Lemma allow24 : forall n h, good_kind (AllowBlock n) -> RO24 (content_kind_for n) h -> RO24 (AllowBlock n) h.
Proof.
  intros n h Hk (H1 & H2 & H3). split; [exact H1|]. split; [exact H2|].
  rewrite (wrap_block _ Hk n (or_intror eq_refl)) in H3. right. exact H3.
Qed.
Lemma empty24 : forall k, good_kind k -> RO24 k HEmpty.
Proof. intros k _. repeat split; try constructor. destruct k; cbn; auto. Qed.
Lemma wrap24 : forall k h, good_kind k -> can_wrap k = true -> RO24 (content_kind_for (wrap_with k)) h ->
  h <> HEmpty -> CO24 k (in_tag h (wrap_with k)).
Proof.
  intros k h Hk Hw (H1 & H2 & H3) Hne. unfold in_tag, html_tag. repeat split; [now constructor|now constructor|].
  destruct k; try discriminate Hw; cbn [nodes].
  - constructor; [|constructor]. do 3 eexists. split; [reflexivity|]. now apply wrap_among.
  - constructor; [|constructor]. cbn [wrap_with]. rewrite (wrap_block _ Hk wrap (or_introl eq_refl)). apply p_block.
  - constructor; [|constructor]. cbn [wrap_with]. rewrite (wrap_block _ Hk wrap (or_intror eq_refl)). apply p_block.
Qed.
Lemma piece24 : forall k h, good_kind k -> PO24 h -> h <> HEmpty -> allowed k h -> CO24 k h.
Proof.
  intros k h Hk (H1 & H2 & H3) Hne Ha. repeat split; auto. destruct k; cbn in Ha; auto.
  - now apply is_all_nodes.
  - apply block_nodes_homogeneous; [exact H3|]. now apply block_kind_some.
  - apply block_nodes_homogeneous; [exact H3|]. now apply block_kind_some.
  - apply notblock_nodes. now apply block_kind_none.
  - apply notblock_nodes. now apply block_kind_none.
Qed.
Lemma br24 : CO24 RequireInline (html_tag n_br HEmpty).
Proof.
  split; [repeat constructor|]. split; [constructor; [reflexivity|constructor]|].
  cbn. constructor; [|constructor]. intro H. apply block_kind_some in H. discriminate.
Qed.

Lemma content_conforms : forall name parent items es h,
  Forall (fun i => match i with Piece p => Normal p /\ Valid p /\ Homogeneous p | ParagraphBreak => True end) items ->
  compile_items (content_kind_for name) parent items = Ret (es, h) ->
  Normal h /\ Valid h /\ Conforms (content_kind_for name) (nodes h).
Proof.
  intros name parent items es h Hi E.
  apply (compile_items_ok CO24 RO24 PO24 result24 allow24 empty24 wrap24 piece24 br24 _ parent items es h); auto using kind_for_good.
Qed.

(** The parts that need no homogeneity. *)
Definition CO24' (k : content_kind) (h : html) : Prop :=
  Normal h /\
  match k with
  | RequireOneOf names => Forall (TagAmong names) (nodes h)
  | RequireInline | RequireInlineNoLineBreaks => Forall (fun h => ~ BlockLevel h) (nodes h)
  | _ => True
  end.
Definition RO24' (k : content_kind) (h : html) : Prop := Normal h /\
  match k with RequireBlock _ | AllowBlock _ => True | _ => Conforms k (nodes h) end.
Lemma content_conforms' : forall name parent items es h,
  Forall (fun i => match i with Piece p => Normal p | ParagraphBreak => True end) items ->
  compile_items (content_kind_for name) parent items = Ret (es, h) ->
  (forall w, content_kind_for name <> RequireBlock w /\ content_kind_for name <> AllowBlock w) ->
  Normal h /\ Conforms (content_kind_for name) (nodes h).
Proof.
  intros name parent items es h Hi E Hnot.
  enough (RO24' (content_kind_for name) h) as [H1 H2].
  { split; [exact H1|]. destruct (content_kind_for name); try exact H2; now destruct (Hnot wrap). }
  refine (compile_items_ok CO24' RO24' Normal _ _ _ _ _ _ (content_kind_for name) parent items es h _ _ E);
    auto using kind_for_good.
  - intros k ch Hk Hc _ He. apply pop_white_incl in Hc. set (l := pop_white ch) in *. clearbody l.
    assert (Forall Normal l) as HN by (eapply Forall_impl; [|exact Hc]; intros x H; apply H).
    split; [now apply from_iter_normal|].
    destruct k; cbn [Conforms]; auto.
    + apply from_iter_P; [apply TagAmong_text|exact HN|]. eapply Forall_impl; [|exact Hc]. intros x H; apply H.
    + apply from_iter_P; [apply NotBlock_text|exact HN|]. eapply Forall_impl; [|exact Hc]. intros x H; apply H.
    + apply from_iter_P; [apply NotBlock_text|exact HN|]. eapply Forall_impl; [|exact Hc]. intros x H; apply H.
    + rewrite He; reflexivity.
  - intros n x Hk [H1 H2]. split; auto.
  - intros k _. split; [constructor|]. destruct k; cbn; auto.
  - intros k x Hk Hw [H1 H2] Hne. split; [now constructor|]. destruct k; try discriminate Hw; auto.
    cbn [nodes]. constructor; [|constructor]. do 3 eexists. split; [reflexivity|]. now apply wrap_among.
  - intros k x Hk H1 Hne Ha. split; [exact H1|]. destruct k; cbn in Ha; auto.
    + now apply is_all_nodes.
    + apply notblock_nodes. now apply block_kind_none.
    + apply notblock_nodes. now apply block_kind_none.
  - split; [repeat constructor|]. cbn. constructor; [|constructor]. intro H. apply block_kind_some in H. discriminate.
Qed.

Lemma content_mixed : exists p items h,
  items = [Piece p] /\ Normal p /\ Valid p /\
  compile_items (content_kind_for (lit "section")) None items = Ret ([], h) /\
  ~ Conforms (content_kind_for (lit "section")) (nodes h).
Proof.
  exists (HSeq [HText (lit "abc"); HTag (lit "div") [] HEmpty]). eexists. eexists. split; [reflexivity|].
  split. { constructor; cbn; auto; repeat constructor; cbn; try tauto; discriminate. }
  split. { constructor. repeat constructor. }
  split; [vm_compute; reflexivity|].
  cbn. intro H. inversion H as [|? ? Hb]; subst. inversion Hb.
Qed.

(** REQUIRE_P and ALLOW_P content accepts anything. *)
Definition BlockB (b : builder) : Prop :=
  match b with
  | Builder _ k ch nx =>
    (k = REQUIRE_P \/ k = ALLOW_P) /\
    match nx with None => True | Some c => exists p ch', c = Builder p RequireInlineNoLineBreaks ch' None end
  end.
Lemma block_close : forall b, BlockB b -> exists b', b_close_child b = (None, b') /\ BlockB b' /\ b_next b' = None.
Proof.
  intros [p k ch [c|]] [Hk Hn].
  - destruct Hn as (p' & ch' & ->). cbn. eexists. split; [reflexivity|]. cbn. auto.
  - eexists. split; [reflexivity|]. cbn. auto.
Qed.
Lemma inline_push : forall fuel h p ch, block_kind h = None ->
  exists ch', b_push (S fuel) h (Builder p RequireInlineNoLineBreaks ch None)
              = Ret (None, Builder p RequireInlineNoLineBreaks ch' None).
Proof.
  intros fuel h p ch H. rewrite b_push_eq. destruct (html_is_empty h); [eauto|]. cbn [require_inline]. rewrite H. cbv zeta.
  cbn [b_close_child]. destruct ch; [destruct (html_is_whitespace h)|]; eauto.
Qed.
Lemma block_push : forall h b, BlockB b -> exists b', b_push push_fuel h b = Ret (None, b') /\ BlockB b'.
Proof.
  intros h [p k ch nx] Hb. unfold push_fuel. rewrite b_push_eq. destruct (html_is_empty h); [eauto|].
  destruct Hb as [Hk Hn].
  assert ((if require_inline k then block_kind h else None) = None) as -> by (destruct Hk as [->| ->]; reflexivity). cbv zeta.
  assert ((match k with
     | RequireOneOf names => html_is_all names h
     | RequireBlock _ | AllowBlock _ => html_is_block h
     | _ => true end) = html_is_block h) as -> by (destruct Hk as [->| ->]; reflexivity).
  destruct (html_is_block h) eqn:Eb.
  - destruct (block_close (Builder p k ch nx)) as ([p' k' ch' nx'] & -> & Hb' & Hn'); [now split|].
    destruct ch'; [destruct (html_is_whitespace h)|]; eexists; (split; [reflexivity|]); exact Hb'.
  - assert (block_kind h = None) as Hbk by (unfold html_is_block in Eb; destruct (block_kind h); congruence).
    destruct nx as [c|].
    + destruct Hn as (p' & ch' & ->). destruct (inline_push 2 h p' ch' Hbk) as (ch2 & ->). cbn.
      eexists. split; [reflexivity|]. cbn. eauto.
    + destruct (html_is_whitespace h); [eexists; split; [reflexivity|]; cbn; auto|].
      assert (b_new (content_kind_for (wrap_with k)) (Some (wrap_with k)) = Builder (Some n_p) RequireInlineNoLineBreaks [] None) as ->
        by (destruct Hk as [->| ->]; reflexivity).
      destruct (inline_push 2 h (Some n_p) [] Hbk) as (ch2 & ->). cbn.
      eexists. split; [reflexivity|]. cbn. eauto.
Qed.
Lemma block_into : forall b, BlockB b -> exists h, b_into_html b = inl h.
Proof.
  intros [p k ch nx] [Hk Hn]. rewrite into_html_eq.
  assert (exists h, match nx with Some c => b_into_html c | None => inl HEmpty end = inl h) as [h ->].
  { destruct nx as [c|]; [|eauto]. destruct Hn as (p' & ch' & ->). rewrite into_html_eq. cbn. eauto. }
  destruct Hk as [->| ->]; cbn; [eauto|]. destruct ch; eauto.
Qed.
Lemma block_content_total : forall k parent items, k = REQUIRE_P \/ k = ALLOW_P ->
  exists h, compile_items k parent items = Ret ([], h).
Proof.
  intros k parent items Hk. unfold compile_items.
  assert (forall items b, BlockB b -> exists b', b_items items b = Ret ([], b') /\ BlockB b') as H.
  { clear. induction items as [|i items IH]; intros b Hb; cbn [b_items]; [eauto|].
    assert (exists b1, b_item i b = Ret (None, b1) /\ BlockB b1) as (b1 & -> & H1).
    { destruct i; cbn [b_item]; [now apply block_push|].
      destruct (block_close b Hb) as (b' & E & H1 & _). exists b'. split; [|exact H1].
      unfold b_newline. destruct b as [p k ch nx]. destruct Hb as [[->| ->] _]; cbn [b_kind REQUIRE_P ALLOW_P]; now rewrite E. }
    cbn. destruct (IH b1 H1) as (b2 & -> & H2). cbn. eauto. }
  destruct (H items (b_new k parent)) as (b & -> & Hb); [now split|].
  cbn. destruct (block_into b Hb) as [h ->]. eauto.
Qed.

(** ** C25 *)

Lemma Arranged_refl : forall es, Arranged es es.
Proof. induction es; constructor; auto. Qed.
Lemma Arranged_app : forall a a' b b', Arranged a a' -> Arranged b b' -> Arranged (a ++ b) (a' ++ b').
Proof. intros a a' b b' H H'. induction H; cbn; auto; constructor; auto. Qed.
Lemma Arranged_trans : forall b c, Arranged b c -> forall a, Arranged a b -> Arranged a c.
Proof.
  induction 1 as [|e es es' H IH|c es es' Hc H IH|n es es' Hn H IH|n es es' Hn H IH]; intros a Ha.
  - exact Ha.
  - remember (e :: es) as b eqn:Eb. induction Ha as [|e1 a b1 H1 IH1|c a b1 Hc H1 IH1|n a b1 Hn H1 IH1|n a b1 Hn H1 IH1];
      try discriminate.
    + injection Eb as -> ->. constructor. auto.
    + constructor; auto.
    + injection Eb as <- ->. constructor; auto.
    + injection Eb as <- ->. constructor; auto.
  - remember (EChar c :: es) as b eqn:Eb. induction Ha as [|e1 a b1 H1 IH1|c' a b1 Hc' H1 IH1|n a b1 Hn H1 IH1|n a b1 Hn H1 IH1];
      try discriminate.
    + injection Eb as -> ->. constructor; auto.
    + constructor; auto.
  - constructor; auto.
  - constructor; auto.
Qed.
Lemma Arranged_white : forall es, AllWhite es -> Arranged es [].
Proof. induction 1 as [|e es (c & -> & Hc) H IH]; constructor; auto. Qed.

Lemma White_spec : forall c, is_ascii_whitespace c = true <-> White c.
Proof.
  intro c. unfold is_ascii_whitespace, White. split.
  - intro H. repeat (apply orb_true_iff in H as [H|H]); apply N.eqb_eq in H; subst; cbn; tauto.
  - cbn [In]. intros [<-|[<-|[<-|[<-|[<-|[]]]]]]; reflexivity.
Qed.
Lemma is_whitespace_events : forall h, html_is_whitespace h = true -> AllWhite (events h).
Proof.
  intros [] H; cbn in *; try discriminate.
  - constructor.
  - unfold is_whitespace in H. rewrite forallb_forall in H. apply Forall_forall. intros e He.
    apply in_map_iff in He as (c & <- & Hc). exists c. split; [reflexivity|]. apply White_spec. auto.
  - constructor; [|constructor]. exists 32%N. split; [reflexivity|]. cbn. tauto.
  - constructor; [|constructor]. exists 10%N. split; [reflexivity|]. cbn. tauto.
Qed.

Fixpoint braw (b : builder) : list event :=
  match b with
  | Builder _ _ ch nx => flat_map events ch ++ match nx with None => [] | Some c => braw c end
  end.

Lemma wrap_arranged : forall k es h, good_kind k -> Arranged es (events h) ->
  Arranged es (events (in_tag h (wrap_with k))).
Proof.
  intros k es h Hk H. cbn. constructor; [now apply wrap_wrappers|].
  rewrite <- (app_nil_r es). apply Arranged_app; [exact H|]. constructor; [now apply wrap_wrappers|constructor].
Qed.

Lemma close_arranged : forall k ch es h, good_kind k -> Arranged es (events h) ->
  Arranged (flat_map events ch ++ es)
           (flat_map events (if html_is_empty h then ch else ch ++ [in_tag h (wrap_with k)])).
Proof.
  intros k ch es h Hk H. destruct h; cbn [html_is_empty];
    try (rewrite flat_map_snoc; apply Arranged_app; [apply Arranged_refl|]; now apply wrap_arranged).
  rewrite <- (app_nil_r (flat_map events ch)) at 2. apply Arranged_app; [apply Arranged_refl|exact H].
Qed.
Lemma pop_arranged : forall l, Arranged (flat_map events l) (flat_map events (pop_white l)).
Proof.
  intro l. destruct (pop_white_spec l) as (w & E & Hw & _). rewrite E at 1. rewrite flat_map_app.
  rewrite <- (app_nil_r (flat_map events (pop_white l))) at 2. apply Arranged_app; [apply Arranged_refl|].
  apply Arranged_white. clear - Hw. induction Hw; cbn; [constructor|]. apply Forall_app. split; [|assumption].
  now apply is_whitespace_events.
Qed.

Lemma into_arranged : forall b h, BKinds b -> b_into_html b = inl h -> Arranged (braw b) (events h).
Proof.
  intro b. induction b as [p k ch|p k ch c IH] using builder_ind'; intros h [Hk Hn] E;
    rewrite into_html_eq in E; cbv zeta in E; cbn [braw].
  - rewrite app_nil_r. cbn [html_is_empty] in E.
    assert (Arranged (flat_map events ch) (events (from_iter (pop_white ch)))) as HA
      by (rewrite from_iter_events; apply pop_arranged).
    destruct k; try (injection E as <-; exact HA).
    + destruct ch; injection E as <-; [constructor|exact HA].
    + destruct (html_is_empty (from_iter (pop_white ch))); [injection E as <-; exact HA|discriminate].
  - destruct (b_into_html c) as [hc|e] eqn:Ec.
    2:{ destruct k; try discriminate; destruct ch; discriminate. }
    destruct Hn as [_ Hn]. specialize (IH hc Hn eq_refl).
    assert (Arranged (flat_map events ch ++ braw c)
      (events (from_iter (pop_white (if html_is_empty hc then ch else ch ++ [in_tag hc (wrap_with k)]))))) as HA.
    { rewrite from_iter_events. eapply Arranged_trans; [apply pop_arranged|]. now apply close_arranged. }
    destruct k; try (injection E as <-; exact HA).
    + destruct ch; [|injection E as <-; exact HA]. injection E as <-. exact IH.
    + match type of E with (if ?x then _ else _) = _ => destruct x end; [injection E as <-; exact HA|discriminate].
Qed.
Lemma bclose_arranged : forall b b', BKinds b -> b_close_child b = (None, b') -> Arranged (braw b) (braw b') /\ b_next b' = None.
Proof.
  intros [p k ch [c|]] b' H E; cbn [b_close_child] in E.
  - destruct (b_into_html c) as [hc|e] eqn:Ec; [|discriminate]. injection E as <-. split; [|reflexivity]. cbn [braw].
    rewrite app_nil_r. destruct H as (Hk & _ & Hc). apply close_arranged; [exact Hk|]. now apply into_arranged.
  - injection E as <-. split; [apply Arranged_refl|reflexivity].
Qed.
Lemma br_in : In n_br wrappers. Proof. vm_compute. tauto. Qed.
Lemma newline_arranged : forall b b', BKinds b -> b_newline b = (None, b') -> Arranged (braw b) (braw b').
Proof.
  intros b b' H E. unfold b_newline in E. destruct (b_kind b);
    try (now apply bclose_arranged); try discriminate; try (injection E as <-; apply Arranged_refl).
  destruct (b_close_child b) as [[e|] [p k ch nx]] eqn:Ec; [discriminate|].
  destruct (bclose_arranged _ _ H Ec) as [HA Hn]. cbn in Hn. subst nx. injection E as <-.
  eapply Arranged_trans; [|exact HA]. cbn [braw]. rewrite !app_nil_r, flat_map_snoc.
  rewrite <- (app_nil_r (flat_map events ch)) at 1. apply Arranged_app; [apply Arranged_refl|].
  cbn. repeat constructor; apply br_in.
Qed.
Lemma push_arranged : forall fuel h b b', BKinds b -> b_push fuel h b = Ret (None, b') ->
  Arranged (braw b ++ events h) (braw b').
Proof.
  induction fuel as [|fuel IH]; intros h [p k ch nx] b' Hb E; [discriminate|]. rewrite b_push_eq in E.
  destruct (html_is_empty h) eqn:Ee.
  { injection E as <-. apply is_empty_spec in Ee as ->. cbn [events]. rewrite app_nil_r. apply Arranged_refl. }
  destruct (if require_inline k then block_kind h else None) as [t|]; [discriminate|]. cbv zeta in E.
  match type of E with (if ?a then _ else _) = _ => destruct a end.
  - destruct (b_close_child (Builder p k ch nx)) as [[e|] [p' k' ch' nx']] eqn:Ec; [discriminate|].
    destruct (bclose_arranged _ _ Hb Ec) as [HA Hn]. cbn [b_next] in Hn. subst nx'. injection E as <-.
    eapply Arranged_trans; [|apply Arranged_app; [exact HA|apply Arranged_refl]].
    destruct ch' as [|x ch'].
    + destruct (html_is_whitespace h) eqn:Ew.
      * cbn. apply Arranged_white. now apply is_whitespace_events.
      * cbn. rewrite !app_nil_r. apply Arranged_refl.
    + cbn [braw]. rewrite !app_nil_r, flat_map_snoc. apply Arranged_refl.
  - destruct Hb as [Hk Hn]. cbn [braw]. rewrite <- app_assoc. destruct nx as [c|].
    + destruct (b_push fuel h c) as [[e1 c1]| |] eqn:Ep; cbn in E; try discriminate. injection E as -> <-.
      cbn [braw]. apply Arranged_app; [apply Arranged_refl|]. apply IH; [apply Hn|exact Ep].
    + destruct (html_is_whitespace h) eqn:Ew.
      * injection E as <-. cbn [braw app]. apply Arranged_app; [apply Arranged_refl|].
        apply Arranged_white. now apply is_whitespace_events.
      * destruct (b_push fuel h (b_new (content_kind_for (wrap_with k)) (Some (wrap_with k)))) as [[e1 c1]| |] eqn:Ep;
          cbn in E; try discriminate. injection E as -> <-.
        cbn [braw]. apply Arranged_app; [apply Arranged_refl|].
        apply (IH h (b_new (content_kind_for (wrap_with k)) (Some (wrap_with k)))); [|exact Ep].
        apply BKinds_new, kind_for_good.
Qed.

Definition item_events (i : item) : list event := match i with Piece h => events h | ParagraphBreak => [] end.
Lemma items_arranged : forall items b b', TInv b -> b_items items b = Ret ([], b') ->
  Arranged (braw b ++ flat_map item_events items) (braw b') /\ TInv b'.
Proof.
  induction items as [|i items IH]; intros b b' Hb E; cbn [b_items] in E.
  - injection E as <-. cbn. rewrite app_nil_r. auto using Arranged_refl.
  - destruct (b_item i b) as [[e1 b1]| |] eqn:E1; cbn in E; try discriminate.
    destruct (b_items items b1) as [[es2 b2]| |] eqn:E2; cbn in E; try discriminate.
    destruct e1; [discriminate|]. injection E as -> <-.
    assert (Arranged (braw b ++ item_events i) (braw b1) /\ TInv b1) as [A1 B1].
    { destruct i; cbn [b_item item_events] in *.
      - split; [eapply push_arranged; eauto using TInv_kinds|eauto using triv_push].
      - injection E1 as E1. rewrite app_nil_r. split; [eauto using newline_arranged, TInv_kinds|eauto using triv_newline]. }
    destruct (IH _ _ B1 E2) as [A2 B2]. split; [|exact B2].
    cbn [flat_map]. rewrite app_assoc. eapply Arranged_trans; [exact A2|]. apply Arranged_app; [exact A1|apply Arranged_refl].
Qed.
Lemma content_arranged : forall name parent items h,
  compile_items (content_kind_for name) parent items = Ret ([], h) ->
  Arranged (flat_map (fun i => match i with Piece p => events p | ParagraphBreak => [] end) items) (events h).
Proof.
  intros name parent items h E. unfold compile_items in E.
  destruct (b_items items (b_new (content_kind_for name) parent)) as [[es b]| |] eqn:E1; cbn in E; try discriminate.
  destruct (b_into_html b) as [h'|e] eqn:E2; [injection E as -> <-|injection E as E _; now destruct es].
  destruct (items_arranged items (b_new (content_kind_for name) parent) b) as [A1 A2].
  - apply new_ok, kind_for_good.
  - exact E1.
  - eapply Arranged_trans; [|exact A1]. apply into_arranged; [now apply TInv_kinds|exact E2].
Qed.
Lemma visible_app : forall a b, visible (a ++ b) = visible a ++ visible b.
Proof. intros. apply flat_map_app. Qed.
Lemma Arranged_visible : forall es es', Arranged es es' -> visible es' = visible es.
Proof.
  induction 1 as [|e es es' H IH|c es es' Hc H IH|n es es' Hn H IH|n es es' Hn H IH]; try reflexivity.
  - change (e :: es') with ([e] ++ es'). change (e :: es) with ([e] ++ es). rewrite !visible_app. congruence.
  - change (EChar c :: es) with ([EChar c] ++ es). rewrite visible_app, IH. cbn [visible flat_map].
    replace (existsb (N.eqb c) [9; 10; 12; 13; 32]%N) with true; [reflexivity|].
    symmetry. apply existsb_exists. exists c. split; [exact Hc|apply N.eqb_refl].
  - exact IH.
  - exact IH.
Qed.

(** ** C26 *)

Definition Firm (es : list event) : Prop :=
  (exists e t, es = e :: t /\ NotWhite e) /\ (exists e t, es = t ++ [e] /\ NotWhite e).
Definition PO26 (h : html) : Prop := Normal h /\ DeepClean h /\ (AllWhite (events h) \/ CleanEdges (events h)).
Definition CO26 (k : content_kind) (h : html) : Prop :=
  Normal h /\ DeepClean h /\ (html_is_whitespace h = false -> Firm (events h)).
Definition RO26 (k : content_kind) (h : html) : Prop := Normal h /\ DeepClean h /\ CleanEdges (events h).

Lemma tag_firm : forall n a c, Firm (events (HTag n a c)).
Proof.
  intros n a c. split.
  - do 2 eexists. split; [reflexivity|exact I].
  - exists (EClose n), (EOpen n a :: events c). split; [reflexivity|exact I].
Qed.
Lemma DeepClean_nodes : forall h, DeepClean h <-> Forall DeepClean (nodes h).
Proof.
  intro h. split.
  - intro H. destruct H; cbn; auto; constructor; try constructor; auto.
  - intro H. destruct h; cbn in H; try (inversion H; assumption); now constructor.
Qed.
Lemma Normal_nonempty : forall h, Normal h -> h <> HEmpty -> events h <> [].
Proof.
  intros h H Hne. destruct H as [| | |s H1 H2 H3|n a c Hc|l H1 H2 H3 H4]; cbn; try congruence; try discriminate.
  - now destruct s.
  - destruct l as [|x l]; [cbn in H1; lia|]. inversion H2; inversion H4; subst.
    destruct (events_head x (flat_map events l)) as [(_ & c & t & E)|(n & a & c & _ & E)]; auto;
      cbn [flat_map]; rewrite E; discriminate.
Qed.
(** An all white document in normal form is a single text node. *)
Lemma AllWhite_is_whitespace : forall h, Normal h -> AllWhite (events h) -> html_is_whitespace h = true.
Proof.
  intros h H Hw. destruct H as [| | |s H1 H2 H3|n a c Hc|l H1 H2 H3 H4]; try reflexivity.
  - cbn in *. unfold is_whitespace. apply forallb_forall. intros c Hc. unfold AllWhite in Hw. rewrite Forall_forall in Hw.
    destruct (Hw (EChar c)) as (c' & E & Hc'); [apply in_map; exact Hc|]. injection E as <-. now apply White_spec.
  - exfalso. cbn in Hw. inversion Hw as [|? ? (c' & E & _) _]. discriminate.
  - exfalso. destruct l as [|x [|y l]]; cbn in H1; try lia.
    inversion H2 as [|? ? P1 H2']; inversion H2' as [|? ? P2 _]; inversion H4 as [|? ? N1 H4']; inversion H4' as [|? ? N2 _]; subst.
    cbn in H3. destruct H3 as [H3 _]. cbn [events flat_map] in Hw. apply Forall_app in Hw as [Hx Hw].
    apply Forall_app in Hw as [Hy _].
    assert (forall z, IsPiece z -> AllWhite (events z) -> IsText z) as T.
    { intros z Pz Wz. destruct z; cbn in *; auto. inversion Wz as [|? ? (c' & E & _) _]. discriminate. }
    apply H3. split; apply T; auto.
Qed.

Lemma result26 : forall k ch, good_kind k -> Forall (CO26 k) ch -> head_not_white ch ->
  (k = RequireEmpty -> from_iter (pop_white ch) = HEmpty) -> RO26 k (from_iter (pop_white ch)).
Proof.
  intros k ch Hk Hc Hh _. assert (Forall (CO26 k) (pop_white ch)) as Hp by now apply pop_white_incl.
  assert (Forall Normal (pop_white ch)) as HN by (eapply Forall_impl; [|exact Hp]; intros h H; apply H).
  split; [now apply from_iter_normal|]. split.
  - apply DeepClean_nodes. apply from_iter_P; [constructor|exact HN|].
    eapply Forall_impl; [|exact Hp]. intros h H. apply DeepClean_nodes. apply H.
  - rewrite from_iter_events. destruct (pop_white_spec ch) as (w & E & Hw & Hlast).
    destruct (pop_white ch) as [|x l] eqn:El; [now left|]. right. split.
    + rewrite E in Hh. cbn in Hh. inversion Hp as [|? ? Hx _]; subst. destruct Hx as (_ & _ & Hx).
      destruct (Hx Hh) as [(e & t & Ee & He) _]. exists e, (t ++ flat_map events l). cbn. rewrite Ee. auto.
    + destruct (exists_last (l := x :: l)) as (i & y & Ei); [discriminate|]. rewrite Ei in *.
      specialize (Hlast i y eq_refl). apply Forall_app in Hp as [_ Hp]. inversion Hp as [|? ? Hy _]; subst.
      destruct Hy as (_ & _ & Hy). destruct (Hy Hlast) as [_ (e & t & Ee & He)].
      exists e, (flat_map events i ++ t). rewrite flat_map_snoc, Ee, app_assoc. auto.
Qed.
Lemma content_clean : forall name parent items es h,
  Forall (fun i => match i with
                   | Piece p => Normal p /\ DeepClean p /\ (AllWhite (events p) \/ CleanEdges (events p))
                   | ParagraphBreak => True
                   end) items ->
  compile_items (content_kind_for name) parent items = Ret (es, h) ->
  CleanEdges (events h) /\ DeepClean h.
Proof.
  intros name parent items es h Hi E.
  enough (RO26 (content_kind_for name) h) as (H1 & H2 & H3) by auto.
  refine (compile_items_ok CO26 RO26 PO26 result26 _ _ _ _ _ (content_kind_for name) parent items es h (kind_for_good name) Hi E).
  - intros n x _ Hx. exact Hx.
  - intros k _. split; [constructor|]. split; [constructor|now left].
  - intros k x Hk Hw (H1 & H2 & H3) Hne. split; [now constructor|]. split; [now constructor|]. intros _. apply tag_firm.
  - intros k x Hk (H1 & H2 & H3) Hne Ha. split; [exact H1|]. split; [exact H2|]. intro Hw. destruct H3 as [H3|[H3|H3]].
    + apply AllWhite_is_whitespace in H3; congruence.
    + now apply Normal_nonempty in H3.
    + exact H3.
  - split; [repeat constructor|]. split; [|intros _; apply tag_firm]. constructor; [now left|constructor].
Qed.
