(** Proofs about types and values (C17-C20, C39). *)
From Verif Require Import Base BaseFacts M_Names M_TagInfo M_Html S_Html P_Html M_TextSubs M_Token M_Types M_Ast M_Diag M_Value S_Types.

(** ** Induction over values, functions being leaves *)
Section ValueInd.
  Variable P : value -> Prop.
  Hypothesis Hbool : forall b, P (VBool b).
  Hypothesis Hint : forall i, P (VInt i).
  Hypothesis Hstr : forall s, P (VStr s).
  Hypothesis Hfunc : forall f, P (VFunc f).
  Hypothesis Hregex : forall r, P (VRegex r).
  Hypothesis Hhtml : forall h, P (VHtml h).
  Hypothesis Hlist : forall vs, Forall P vs -> P (VList vs).
  Hypothesis Hdict : forall vs, Forall (fun kv => P (snd kv)) vs -> P (VDict vs).
  Fixpoint value_ind' (v : value) : P v :=
    match v with
    | VBool b => Hbool b
    | VInt i => Hint i
    | VStr s => Hstr s
    | VFunc f => Hfunc f
    | VRegex r => Hregex r
    | VHtml h => Hhtml h
    | VList vs => Hlist vs ((fix go vs : Forall P vs :=
        match vs with [] => Forall_nil _ | v :: vs => Forall_cons _ (value_ind' v) (go vs) end) vs)
    | VDict vs => Hdict vs ((fix go vs : Forall (fun kv => P (snd kv)) vs :=
        match vs with [] => Forall_nil _ | kv :: vs => Forall_cons _ (value_ind' (snd kv)) (go vs) end) vs)
    end.
End ValueInd.

(** ** Deciders against their specifications *)
Lemma unit_assignable_spec t : unit_is_assignable t = true <-> AcceptsNone t.
Proof.
  unfold AcceptsNone. split.
  - destruct t; try discriminate; intros _; eauto 10.
  - intros [->|[->|[->|[->|[->|[t' ->]]]]]]; reflexivity.
Qed.
Lemma ty_eqb_eq a b : ty_eqb a b = true <-> a = b.
Proof.
  revert b; induction a; destruct b; cbn; split; intros H; try discriminate; try reflexivity.
  all: try (apply IHa in H; now subst).
  all: try (injection H as H; now apply IHa).
Qed.
Lemma ty_eqb_refl a : ty_eqb a a = true. Proof. now apply ty_eqb_eq. Qed.
Lemma ty_eqb_neq a b : ty_eqb a b = false <-> a <> b.
Proof. rewrite <- ty_eqb_eq. destruct (ty_eqb a b); intuition congruence. Qed.

Lemma block_seq l :
  ((fix find_map l := match l with
                      | [] => None
                      | x :: l => match block_kind x with Some n => Some n | None => find_map l end
                      end) l) = None <-> Forall (fun x => block_kind x = None) l.
Proof.
  induction l as [|x l IH]; cbn; [split; auto|].
  destruct (block_kind x) eqn:E.
  - split; [discriminate|]. intros H; inversion H; congruence.
  - rewrite IH. split; [constructor; auto|]. intros H; inversion H; auto.
Qed.
Lemma is_block_name_spec n : is_block_name n = true <-> In n block_names.
Proof. unfold is_block_name. apply mem_In. Qed.
Lemma not_block_spec h : html_is_block h = false <-> block_kind h = None.
Proof. unfold html_is_block. destruct (block_kind h); split; congruence. Qed.
Lemma html_is_block_seq l : html_is_block (HSeq l) = existsb html_is_block l.
Proof.
  induction l as [|x l IH]; [reflexivity|]. cbn [existsb]. rewrite <- IH. unfold html_is_block. cbn [block_kind].
  destruct (block_kind x); reflexivity.
Qed.
Lemma html_is_block_tag n a c :
  html_is_block (HTag n a c) = if str_eqb n n_a then html_is_block c else is_block_name n.
Proof.
  unfold html_is_block. cbn [block_kind]. destruct (str_eqb n n_a); [reflexivity|]. destruct (is_block_name n); reflexivity.
Qed.
Lemma html_is_block_spec h : html_is_block h = true <-> BlockLevel h.
Proof.
  induction h using html_ind'; try (split; [discriminate|now inversion 1]).
  - rewrite html_is_block_tag. destruct (str_eqb n n_a) eqn:E.
    + apply str_eqb_eq in E. subst n. rewrite IHh. split.
      * intros; now constructor.
      * inversion 1 as [? ? ? N| |]; subst; [elim N; reflexivity|assumption].
    + apply str_eqb_neq in E. rewrite is_block_name_spec. split; [now constructor|].
      inversion 1 as [? ? ? N I| |]; subst; [assumption|now elim E].
  - rewrite html_is_block_seq. split.
    + intros E. apply existsb_exists in E. destruct E as (x & I & B). constructor. apply Exists_exists. exists x.
      split; [assumption|]. rewrite Forall_forall in H. now apply H.
    + inversion 1 as [| |l' E]; subst. apply Exists_exists in E. destruct E as (x & I & B). apply existsb_exists.
      exists x; split; [assumption|]. rewrite Forall_forall in H. now apply H.
Qed.
Lemma html_is_inline_spec h : html_is_inline h = true <-> InlineLevel h.
Proof.
  induction h using html_ind'; try (split; [constructor|reflexivity]); try (split; [discriminate|now inversion 1]).
  - cbn [html_is_inline]. split.
    + intros E. constructor. rewrite <- is_block_name_spec. destruct (is_block_name n); [discriminate|congruence].
    + inversion 1 as [| | |? ? ? N|]; subst. rewrite <- is_block_name_spec in N. destruct (is_block_name n); [now elim N|reflexivity].
  - cbn. split.
    + intros E. constructor. rewrite forallb_forall in E. rewrite Forall_forall in *. intros x I. apply H; auto.
    + inversion 1 as [| | | |? N]; subst. rewrite forallb_forall. rewrite Forall_forall in *. intros x I. apply H; auto.
Qed.

Lemma is_unit_spec v : is_unit v = true <-> v = UNIT.
Proof. destruct v; cbn; try (split; discriminate). destruct h; split; try discriminate; reflexivity. Qed.
Lemma is_unit_false v : is_unit v = false <-> v <> UNIT.
Proof. rewrite <- is_unit_spec. destruct (is_unit v); intuition congruence. Qed.

(** [check_value] without the shortcuts *)
Lemma check_any v : check_value TAny v = true.
Proof. cbn. destruct (is_unit v); reflexivity. Qed.
Lemma check_unit t : check_value t UNIT = unit_is_assignable t.
Proof. destruct t; reflexivity. Qed.
Lemma check_list t vs : check_value (TList t) (VList vs) = forallb (check_value t) vs.
Proof.
  cbn. destruct (ty_eqb t TAny) eqn:E; [|reflexivity]. apply ty_eqb_eq in E; subst.
  symmetry. apply forallb_forall. intros. apply check_any.
Qed.
Lemma check_dict t vs : check_value (TDict t) (VDict vs) = forallb (fun kv => check_value t (snd kv)) vs.
Proof.
  cbn. destruct (ty_eqb t TAny) eqn:E; [|reflexivity]. apply ty_eqb_eq in E; subst.
  symmetry. apply forallb_forall. intros. apply check_any.
Qed.
Lemma check_option t v : check_value (TOptional t) v = is_unit v || check_value t v.
Proof. destruct v; reflexivity. Qed.

Lemma check_value_spec t : forall v, check_value t v = true <-> HasType t v.
Proof.
  induction t; intros v;
    try (destruct (is_unit v) eqn:U;
         [ apply is_unit_spec in U; subst v; rewrite check_unit; cbn;
           split; [intros; constructor; apply unit_assignable_spec; assumption || reflexivity
                  | first [reflexivity | inversion 1 as [? A| | | | | | | | | | | | | |]; subst; apply unit_assignable_spec in A; exact A]]
         |]).
  - destruct v; cbn; try (split; [discriminate|]); try (inversion 1; fail). cbn in U. rewrite U. split; [discriminate|].
    inversion 1; subst; discriminate.
  - rewrite check_any. split; [constructor|reflexivity].
  - destruct v; cbn; try (split; [discriminate|]); try (inversion 1; fail). { split; constructor. }
    cbn in U. rewrite U. split; constructor.
  - destruct v; cbn; try (split; [discriminate|]); try (inversion 1; fail). cbn in U. rewrite U.
    rewrite html_is_block_spec. split; [now constructor|]. inversion 1; subst; [discriminate|assumption].
  - destruct v; cbn; try (split; [discriminate|]); try (inversion 1; fail). { split; constructor. } cbn in U. rewrite U.
    rewrite html_is_inline_spec. split; [now constructor|]. inversion 1; subst; [discriminate|assumption].
  - destruct v; cbn; try (split; [discriminate|]); try (inversion 1; fail). { split; constructor. }
    cbn in U. rewrite U. split; [discriminate|]. inversion 1; subst; discriminate.
  - destruct v; cbn; try (split; [discriminate|]); try (inversion 1; fail). { split; constructor. }
    cbn in U. rewrite U. split; [discriminate|]. inversion 1; subst; discriminate.
  - destruct v; cbn; try (split; [discriminate|]); try (inversion 1; fail). { split; constructor. }
    cbn in U. rewrite U. split; [discriminate|]. inversion 1; subst; discriminate.
  - destruct v; cbn; try (split; [discriminate|]); try (inversion 1; fail). 2:{ split; constructor. }
    cbn in U. rewrite U. split; [discriminate|]. inversion 1; subst; discriminate.
  - destruct v; cbn; try (split; [discriminate|]); try (inversion 1; fail). 2:{ split; constructor. }
    cbn in U. rewrite U. split; [discriminate|]. inversion 1; subst; discriminate.
  - destruct v; try (cbn; split; [discriminate|]; inversion 1; fail).
    + rewrite check_dict, forallb_forall. split.
      * intros H. constructor. apply Forall_forall. intros kv I. apply IHt. auto.
      * inversion 1 as [| | | | | | | | | | | |? ? F| |]; subst. rewrite Forall_forall in F. intros kv I. apply IHt. auto.
    + cbn in *. rewrite U. split; [discriminate|]. inversion 1; subst; discriminate.
  - destruct v; try (cbn; split; [discriminate|]; inversion 1; fail).
    + rewrite check_list, forallb_forall. split.
      * intros H. constructor. apply Forall_forall. intros kv I. apply IHt. auto.
      * inversion 1 as [| | | | | | | | | | | | |? ? F|]; subst. rewrite Forall_forall in F. intros kv I. apply IHt. auto.
    + cbn in *. rewrite U. split; [discriminate|]. inversion 1; subst; discriminate.
  - rewrite check_option, U. cbn. rewrite IHt. split; [now constructor|].
    inversion 1; subst; [discriminate|assumption].
Qed.

(** ** C17 *)
Lemma option_spec t v : HasType (t_option t) v <-> HasType t v \/ v = UNIT.
Proof.
  rewrite <- !check_value_spec. unfold t_option. destruct (unit_is_assignable t) eqn:E.
  - split; [auto|]. intros [H | ->]; [assumption|]. now rewrite check_unit.
  - rewrite check_option, orb_true_iff, is_unit_spec. tauto.
Qed.
Lemma option_idempotent t : t_option (t_option t) = t_option t.
Proof.
  unfold t_option. destruct (unit_is_assignable t) eqn:E; [now rewrite E|reflexivity].
Qed.
Lemma option_normal t : NormalTy t -> NormalTy (t_option t).
Proof.
  intros N. unfold t_option. destruct (unit_is_assignable t) eqn:E; [assumption|]. constructor; [assumption|].
  rewrite <- unit_assignable_spec. congruence.
Qed.

(** ** C20 *)
Lemma ty_eqb_sym a b : ty_eqb a b = ty_eqb b a.
Proof. revert b; induction a; destruct b; cbn; auto. Qed.
Lemma ty_size_pos t : exists n, ty_size t = S n.
Proof. destruct t; cbn; eauto. Qed.
Lemma lub_fuel_comm n : forall a b, lub_fuel n a b = lub_fuel n b a.
Proof.
  induction n as [|n IH]; [reflexivity|]. intros a b.
  destruct (ty_eqb a b) eqn:E.
  - apply ty_eqb_eq in E. now subst.
  - assert (E' : ty_eqb b a = false) by now rewrite ty_eqb_sym.
    cbn [lub_fuel]. unfold lub_step. rewrite E, E'.
    destruct a, b; try discriminate E; cbn [ty_eqb t_is_html andb]; try reflexivity; f_equal; apply IH.
Qed.
Lemma lub_comm a b : lub a b = lub b a.
Proof. unfold lub. rewrite lub_fuel_comm, Nat.add_comm. reflexivity. Qed.
Lemma lub_refl t : lub t t = t.
Proof.
  unfold lub. destruct (ty_size_pos t) as [n ->]. cbn [lub_fuel Nat.add]. unfold lub_step. now rewrite ty_eqb_refl.
Qed.

Lemma AnyFree_any : ~ AnyFree TAny.
Proof. inversion 1. subst. cbn in *. intuition discriminate. Qed.
Lemma AnyFree_list t : AnyFree (TList t) -> AnyFree t.
Proof. inversion 1; subst; [cbn in *; intuition discriminate|assumption]. Qed.
Lemma AnyFree_dict t : AnyFree (TDict t) -> AnyFree t.
Proof. inversion 1; subst; [cbn in *; intuition discriminate|assumption]. Qed.
Lemma AnyFree_option t : AnyFree (TOptional t) -> AnyFree t.
Proof. inversion 1; subst; [cbn in *; intuition discriminate|assumption]. Qed.

Lemma check_html_types t v : t_is_html t = true -> check_value t v = true -> check_value THtml v = true.
Proof.
  intros T C. cbn. destruct (is_unit v) eqn:U; [reflexivity|].
  destruct t; try discriminate; destruct v; cbn in *; try discriminate; try reflexivity.
Qed.
Lemma check_t_option t v : check_value (t_option t) v = is_unit v || check_value t v.
Proof.
  unfold t_option. destruct (unit_is_assignable t) eqn:E; [|apply check_option].
  destruct (is_unit v) eqn:U; [|reflexivity]. apply is_unit_spec in U. subst. now rewrite check_unit.
Qed.
Lemma check_list_inv t v : check_value (TList t) v = true -> exists vs, v = VList vs /\ forallb (check_value t) vs = true.
Proof.
  destruct v; cbn; try discriminate.
  - intros H. exists vs. split; [reflexivity|]. now rewrite <- check_list.
  - destruct h; discriminate.
Qed.
Lemma check_dict_inv t v : check_value (TDict t) v = true ->
  exists vs, v = VDict vs /\ forallb (fun kv => check_value t (snd kv)) vs = true.
Proof.
  destruct v; cbn; try discriminate.
  - intros H. exists vs. split; [reflexivity|]. now rewrite <- check_dict.
  - destruct h; discriminate.
Qed.
Lemma check_none v : check_value TUnit v = is_unit v.
Proof. cbn. destruct (is_unit v); [reflexivity|]. now destruct v. Qed.

Lemma lub_fuel_upper n : forall a b v, AnyFree a -> AnyFree b -> check_value a v = true \/ check_value b v = true ->
  check_value (lub_fuel n a b) v = true.
Proof.
  induction n as [|n IH]; [intros; apply check_any|]. intros a b v Fa Fb C.
  cbn [lub_fuel]. unfold lub_step. destruct (ty_eqb a b) eqn:E; [apply ty_eqb_eq in E; subst; tauto|].
  destruct (t_is_html a && t_is_html b) eqn:HT.
  { apply andb_true_iff in HT. destruct HT as [Ha Hb].
    assert (R : check_value THtml v = true) by (destruct C as [C|C]; [apply (check_html_types a)|apply (check_html_types b)]; assumption).
    destruct a; try discriminate Ha; destruct b; try discriminate Hb; try discriminate E; exact R. }
  destruct a; try (now apply AnyFree_any in Fa); destruct b; try (now apply AnyFree_any in Fb); try discriminate E;
    cbn [t_is_html andb ty_eqb] in *; try discriminate HT; try apply check_any;
    rewrite ?check_t_option; rewrite ?check_none in C;
    try (destruct C as [C|C]; rewrite C; rewrite ?orb_true_r; reflexivity).
  all: try (apply AnyFree_option in Fa as Fa'); try (apply AnyFree_option in Fb as Fb').
  all: try (rewrite ?check_option in C; destruct (is_unit v); [reflexivity|]; cbn [orb] in *;
            apply IH; auto; intuition congruence).
  - (* dict *)
    apply AnyFree_dict in Fa, Fb.
    destruct C as [C|C]; apply check_dict_inv in C; destruct C as (vs & -> & C); rewrite check_dict;
      rewrite forallb_forall in *; intros kv I; specialize (C kv I); apply IH; auto.
  - apply AnyFree_list in Fa, Fb.
    destruct C as [C|C]; apply check_list_inv in C; destruct C as (vs & -> & C); rewrite check_list;
      rewrite forallb_forall in *; intros kv I; specialize (C kv I); apply IH; auto.
Qed.
Lemma lub_upper a b v : a = b \/ AnyFree a /\ AnyFree b -> HasType a v \/ HasType b v -> HasType (lub a b) v.
Proof.
  intros [->|[A B]] H; [rewrite lub_refl; tauto|].
  rewrite <- !check_value_spec in *. now apply lub_fuel_upper.
Qed.

Lemma NormalTy_list t : NormalTy (TList t) -> NormalTy t.
Proof. inversion 1; subst; [cbn in *; intuition discriminate|assumption]. Qed.
Lemma NormalTy_dict t : NormalTy (TDict t) -> NormalTy t.
Proof. inversion 1; subst; [cbn in *; intuition discriminate|assumption]. Qed.
Lemma NormalTy_option t : NormalTy (TOptional t) -> NormalTy t /\ ~ AcceptsNone t.
Proof. inversion 1; subst; [cbn in *; intuition discriminate|auto]. Qed.
Lemma lub_fuel_normal n : forall a b, NormalTy a -> NormalTy b -> NormalTy (lub_fuel n a b).
Proof.
  assert (B : forall t, In t [TUnit; TAny; THtml; TBlock; TInline; TBool; TInt; TStr; TFunction; TRegex] -> NormalTy t)
    by (intros; now constructor).
  induction n as [|n IH]; [intros; apply B; cbn; tauto|]. intros a b Na Nb. cbn [lub_fuel]. unfold lub_step.
  destruct (ty_eqb a b); [assumption|].
  destruct a; try apply NormalTy_list in Na as Na'; try apply NormalTy_dict in Na as Na';
    try (apply NormalTy_option in Na as Na'; destruct Na' as [Na' _]);
  destruct b; try apply NormalTy_list in Nb as Nb'; try apply NormalTy_dict in Nb as Nb';
    try (apply NormalTy_option in Nb as Nb'; destruct Nb' as [Nb' _]); cbn [t_is_html andb ty_eqb];
    try assumption; try (apply B; cbn; tauto); try (apply option_normal; auto); try (constructor; auto; fail).
Qed.
Lemma lub_normal a b : NormalTy a -> NormalTy b -> NormalTy (lub a b).
Proof. apply lub_fuel_normal. Qed.

(** ** C19 *)
Lemma common_normal ts : Forall NormalTy ts -> NormalTy (common_type ts).
Proof.
  intros F. destruct F as [|t ts N F]; [constructor; cbn; tauto|]. cbn. revert t N.
  induction F; intros t N; cbn; [assumption|]. apply IHF. now apply lub_normal.
Qed.
Lemma get_type_normal v : NormalTy (get_type v).
Proof.
  induction v using value_ind'; cbn; try (constructor; cbn; tauto).
  - destruct (html_is_empty h); [constructor; cbn; tauto|]. destruct (html_is_block h); constructor; cbn; tauto.
  - apply NT_list, common_normal. apply Forall_forall. intros t I. apply in_map_iff in I. destruct I as (v & <- & I).
    rewrite Forall_forall in H. auto.
  - apply NT_dict, common_normal. apply Forall_forall. intros t I. apply in_map_iff in I. destruct I as (v & <- & I).
    rewrite Forall_forall in H. auto.
Qed.

Definition lossless (vs : list value) : Prop :=
  forall others e rest, vs = others ++ e :: rest -> others <> [] ->
    get_type (VList others) = TList (get_type e) \/
    (AnyFree (get_type (VList others)) /\ AnyFree (get_type e)).
Lemma common_snoc ts t : ts <> [] -> common_type (ts ++ [t]) = lub (common_type ts) t.
Proof. destruct ts as [|x ts]; [congruence|]. intros _. cbn. now rewrite fold_left_app. Qed.
Lemma lossless_common vs : lossless vs -> Forall (fun v => HasType (get_type v) v) vs ->
  Forall (HasType (common_type (List.map get_type vs))) vs.
Proof.
  induction vs as [|e vs IH] using rev_ind; [constructor|]. intros L F.
  apply Forall_app in F as [F Fe]. inversion Fe as [|? ? He _]; subst.
  destruct vs as [|v0 vs']; [now constructor|]. set (vs := v0 :: vs') in *.
  assert (L' : lossless vs).
  { intros o x r E N. apply (L o x (r ++ [e])); [|assumption]. rewrite E, <- app_assoc. reflexivity. }
  specialize (IH L' F).
  rewrite map_app. cbn [List.map]. rewrite common_snoc by (unfold vs; discriminate).
  assert (J : common_type (List.map get_type vs) = get_type e \/
              (AnyFree (common_type (List.map get_type vs)) /\ AnyFree (get_type e))).
  { destruct (L vs e [] eq_refl) as [E|[A B]]; [unfold vs; discriminate| |].
    - left. cbn [get_type] in E. now injection E.
    - right. split; [|assumption]. now apply AnyFree_list. }
  apply Forall_app. split.
  - eapply Forall_impl; [|exact IH]. intros v H. apply lub_upper; auto.
  - constructor; [|constructor]. apply lub_upper; auto.
Qed.
Lemma EveryPart_list (P : value -> Prop) vs : EveryPart P (VList vs) -> P (VList vs) /\ Forall (EveryPart P) vs.
Proof. inversion 1; subst; [auto|contradiction]. Qed.
Lemma EveryPart_dict (P : value -> Prop) vs : EveryPart P (VDict vs) ->
  P (VDict vs) /\ Forall (fun kv => EveryPart P (snd kv)) vs.
Proof. inversion 1; subst; [auto|contradiction]. Qed.
Lemma not_block_inline h : Normal h -> html_is_empty h = false -> html_is_block h = false -> html_is_inline h = true.
Proof.
  assert (T : forall n a c, html_is_block (HTag n a c) = false -> html_is_inline (HTag n a c) = true).
  { intros n a c. rewrite html_is_block_tag. cbn [html_is_inline]. destruct (str_eqb n n_a) eqn:E.
    - apply str_eqb_eq in E. subst. reflexivity.
    - now intros ->. }
  intros N E B. destruct h as [|n a c|l|s| |]; try reflexivity; try discriminate; [now apply T|].
  inversion N as [| | | | |? L P A F]; subst. cbn. apply forallb_forall. intros x I.
  rewrite html_is_block_seq in B. assert (Bx : html_is_block x = false).
  { destruct (html_is_block x) eqn:Bx; [|reflexivity]. assert (existsb html_is_block l = true) by (apply existsb_exists; eauto). congruence. }
  rewrite Forall_forall in P. specialize (P x I). destruct x; try contradiction; try reflexivity. now apply T.
Qed.
Lemma get_type_sound v : WfValue v -> NoLostAny v -> HasType (get_type v) v.
Proof.
  induction v using value_ind'; intros W N; try (constructor; fail).
  - cbn. destruct (html_is_empty h) eqn:E.
    + destruct h; try discriminate. constructor. unfold AcceptsNone. tauto.
    + destruct (html_is_block h) eqn:B.
      * constructor. now apply html_is_block_spec.
      * constructor. apply html_is_inline_spec. inversion W; subst. now apply not_block_inline.
  - cbn. apply EveryPart_list in N as [L N]. inversion W as [| | | | | |? F|]; subst. constructor.
    apply lossless_common; [exact L|]. rewrite Forall_forall in *. intros x I. exact (H x I (F x I) (N x I)).
  - cbn. apply EveryPart_dict in N as [L N]. inversion W as [| | | | | | |? D F]; subst. constructor.
    apply lossless_common in L.
    + cbn [elements] in L. rewrite map_map in L. cbn in L. rewrite Forall_forall in *. intros kv I. apply L. now apply in_map.
    + rewrite Forall_forall in *. intros x I. apply in_map_iff in I. destruct I as (kv & <- & I).
      exact (H kv I (F kv I) (N kv I)).
Qed.
