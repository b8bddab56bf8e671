(** Proofs for C39: equality of values. *)
From Verif Require Import Base BaseFacts M_Names M_Html M_Value S_Html P_Html S_Types P_Types P_Coerce S_Equal.

Lemma attrs_equal (a b : nmap (option str)) : NoDup (List.map fst a) -> NoDup (List.map fst b) ->
  (neqb ostr_eqb a b = true <-> forall k v, In (k, v) a <-> In (k, v) b).
Proof.
  intros Da Db. split.
  - intros E k v. split; intro I.
    + apply neqb_spec in E as [_ E]. destruct (E k v I) as (w & G & Q). apply ostr_eqb_eq in Q. subst. now apply ngetm_In.
    + destruct (neqb_flip _ _ _ Da Db E k v I) as (w & G & Q). apply ostr_eqb_eq in Q. subst. now apply ngetm_In.
  - intros H. apply neqb_spec. split.
    + assert (L : forall x y : nmap (option str), NoDup (List.map fst x) -> (forall k v, In (k, v) x -> In (k, v) y) -> length x <= length y).
      { intros x y D S. apply NoDup_incl_length; [now apply NoDup_map_inv in D|]. intros [k v]. apply S. }
      apply Nat.le_antisymm; apply L; auto; intros k v; apply H.
    + intros k v I. exists v. split; [apply ngetm_NoDup; auto; now apply H|now apply ostr_eqb_eq].
Qed.
Lemma html_equal a : forall b, DistinctAttrs a -> DistinctAttrs b -> (html_eqb a b = true <-> HtmlEqual a b).
Proof.
  induction a as [|n a c IH|l IH|s| |] using html_ind'; intros b Da Db.
  1,5,6: destruct b; cbn; split; intro Q; try discriminate; try constructor; now inversion Q.
  - destruct b as [|n' a' c'| | | |]; try (split; intro H; [discriminate|inversion H]). rewrite html_eqb_tag, !andb_true_iff.
    inversion Da as [? ? ? D1 D2|?|? Z]; subst; [|destruct Z]. inversion Db as [? ? ? E1 E2|?|? Z]; subst; [|destruct Z].
    rewrite str_eqb_eq, (attrs_equal _ _ D1 E1), (IH _ D2 E2). split.
    + intros [[-> A] C]. now constructor.
    + intro H. inversion H; subst. auto.
  - destruct b as [| |m| | |]; try (split; intro H; [discriminate|inversion H]). rewrite html_eqb_seq, leqb_spec.
    assert (Dl : Forall DistinctAttrs l) by (inversion Da as [|? F|? Z]; subst; [exact F|destruct Z]).
    assert (Dm : Forall DistinctAttrs m) by (inversion Db as [|? F|? Z]; subst; [exact F|destruct Z]). clear Da Db.
    assert (Q : Forall2 (fun a b => html_eqb a b = true) l m <-> Forall2 HtmlEqual l m).
    { revert m Dm. induction l as [|x l IHl]; intros m Dm.
      - split; intro H; inversion H; constructor.
      - inversion IH; inversion Dl; subst. split; intro H; inversion H; subst; inversion Dm; subst; constructor.
        1,3: match goal with F : forall b, _ -> _ -> (_ <-> _) |- _ => now apply F end.
        all: apply IHl; auto. }
    rewrite Q. split; [now constructor|now inversion 1].
  - destruct b; try (split; intro H; [discriminate|inversion H]). cbn. rewrite str_eqb_eq. split; [intros ->; constructor|]. now inversion 1.
Qed.
Lemma value_equal a : forall b, WfValue a -> WfValue b -> (value_eqb a b = true <-> Equal a b).
Proof.
  induction a using value_ind'; intros w Wa Wb.
  - destruct w; try (split; intro Q; [discriminate|inversion Q]). cbn. rewrite Bool.eqb_true_iff. split; [intros ->; constructor|now inversion 1].
  - destruct w; try (split; intro Q; [discriminate|inversion Q]). cbn. rewrite Z.eqb_eq. split; [intros ->; constructor|now inversion 1].
  - destruct w; try (split; intro Q; [discriminate|inversion Q]). cbn. rewrite str_eqb_eq. split; [intros ->; constructor|now inversion 1].
  - destruct w; split; intro Q; try discriminate; inversion Q.
  - destruct w; try (split; intro Q; [discriminate|inversion Q]). cbn. rewrite str_eqb_eq. split; [now constructor|now inversion 1].
  - destruct w; try (split; intro Q; [discriminate|inversion Q]). cbn. rewrite html_equal by (inversion Wa; inversion Wb; auto). split; [now constructor|now inversion 1].
  - destruct w as [| | | |ws| | |]; try (split; intro Q; [discriminate|inversion Q]). rewrite value_eqb_list, leqb_spec.
    assert (Dl : Forall WfValue vs) by (now inversion Wa). assert (Dm : Forall WfValue ws) by (now inversion Wb). clear Wa Wb.
    assert (Q : Forall2 (fun a b => value_eqb a b = true) vs ws <-> Forall2 Equal vs ws).
    { revert ws Dm. induction vs as [|x l IHl]; intros m Dm.
      - split; intro Q; inversion Q; constructor.
      - inversion H; inversion Dl; subst. split; intro Q; inversion Q; subst; inversion Dm; subst; constructor.
        1,3: match goal with F : forall b, _ -> _ -> (_ <-> _) |- _ => now apply F end.
        all: apply IHl; auto. }
    rewrite Q. split; [now constructor|now inversion 1].
  - destruct w as [| | |ws| | | |]; try (split; intro Q; [discriminate|inversion Q]).
    inversion Wa as [| | | | | | |? D F]; subst. inversion Wb as [| | | | | | |? D' F']; subst. rewrite (value_eqb_dict_spec _ _ D D').
    rewrite Forall_forall in H, F, F'. split.
    + intros [K V]. apply eq_dict; [exact K|]. intros k x y Ix Iy. apply (H (k, x) Ix); [apply (F _ Ix)|apply (F' _ Iy)|]. now apply (V k).
    + intro Q. inversion Q as [| | | | | |? ? K V]; subst. split; [exact K|]. intros k x y Ix Iy. apply (H (k, x) Ix); [apply (F _ Ix)|apply (F' _ Iy)|]. now apply (V k).
Qed.
