(** Proofs for C56: renaming the frames that values refer to. *)
From Verif Require Import Base BaseFacts M_Int M_Text M_Names M_Html M_TextSubs M_SliceRef M_Types M_Token M_Diag M_Ast M_Value M_State M_Native P_Types S_Alone.

Section Rename.
Variable r : nat -> nat.
Notation rv := (rv r). Notation rf := (rf r). Notation rp := (rp r). Notation rs := (rs r). Notation rpp := (rpp r).
Lemma rv_dict vs : rv (VDict vs) = VDict (rm rv vs). Proof. reflexivity. Qed.
Lemma rpp_eq c sp sn m : rpp (Partials c sp sn m) = Partials c (List.map rv sp) (rm rv sn) (rm rv m). Proof. reflexivity. Qed.

Lemma rm_get A B (f : A -> B) m n : ngetm (rm f m) n = option_map f (ngetm m n).
Proof. induction m as [|[k v] m IH]; [reflexivity|]. cbn. destruct (str_eqb n k); [reflexivity|]. exact IH. Qed.
Lemma rm_has A B (f : A -> B) m n : nhas (rm f m) n = nhas m n.
Proof. unfold nhas. rewrite rm_get. destruct (ngetm m n); reflexivity. Qed.
Lemma rm_insert A B (f : A -> B) m n v : ninsert (rm f m) n (f v) = rm f (ninsert m n v).
Proof. induction m as [|[k w] m IH]; [reflexivity|]. cbn. destruct (str_eqb n k); [reflexivity|]. cbn. f_equal. exact IH. Qed.
Lemma removelast_map A B (f : A -> B) l : removelast (List.map f l) = List.map f (removelast l).
Proof. induction l as [|a [|b l] IH]; [reflexivity|reflexivity|]. cbn [List.map removelast] in *. f_equal. exact IH. Qed.
Lemma last_map A B (f : A -> B) l d : List.last (List.map f l) (f d) = f (List.last l d).
Proof. induction l as [|a [|b l] IH]; [reflexivity|reflexivity|]. exact IH. Qed.
Lemma rm_remove_at A B (f : A -> B) n l : forall m, nremove_at (rm f m) n (fst l, f (snd l)) = rm f (nremove_at m n l).
Proof.
  induction m as [|[k w] m IH]; [reflexivity|]. cbn [rm List.map nremove_at fst snd]. destruct (str_eqb n k).
  - destruct m as [|e m]; [reflexivity|]. change (List.map (fun kv => (fst kv, f (snd kv))) (e :: m)) with (rm f (e :: m)).
    destruct (rm f (e :: m)) eqn:E; [discriminate|]. rewrite <- E. unfold rm at 1. rewrite removelast_map. reflexivity.
  - cbn [rm List.map fst snd]. f_equal. exact IH.
Qed.
Lemma rm_remove A B (f : A -> B) m n : nremove (rm f m) n = rm f (nremove m n).
Proof.
  unfold nremove. destruct m as [|e m]; [reflexivity|].
  assert (L : List.last (rm f (e :: m)) (fst e, f (snd e)) = (fst (List.last (e :: m) e), f (snd (List.last (e :: m) e)))).
  { unfold rm. exact (last_map _ _ (fun kv => (fst kv, f (snd kv))) (e :: m) e). }
  change (rm f (e :: m)) with ((fst e, f (snd e)) :: rm f m) at 1. cbv iota. rewrite L. apply rm_remove_at.
Qed.
Lemma rm_from A B (f : A -> B) l : nfrom (rm f l) = rm f (nfrom l).
Proof.
  unfold nfrom. assert (G : forall l acc, fold_left (fun m kv => ninsert m (fst kv) (snd kv)) (rm f l) (rm f acc)
    = rm f (fold_left (fun m kv => ninsert m (fst kv) (snd kv)) l acc)).
  { induction l0 as [|[k v] l0 IH]; intro acc; [reflexivity|]. cbn [rm List.map fold_left fst snd]. rewrite rm_insert. apply IH. }
  apply (G l []).
Qed.
Lemma rm_keys A B (f : A -> B) m : nkeys (rm f m) = nkeys m.
Proof. unfold nkeys, rm. rewrite map_map. reflexivity. Qed.
Lemma rm_values A B (f : A -> B) m : nvalues (rm f m) = List.map f (nvalues m).
Proof. unfold nvalues, rm. rewrite !map_map. reflexivity. Qed.
Lemma rm_length A B (f : A -> B) m : length (rm f m) = length m.
Proof. apply map_length. Qed.

Lemma rv_unit v : is_unit (rv v) = is_unit v.
Proof. destruct v as [| | | | |[]| |]; reflexivity. Qed.
Lemma rv_type v : get_type (rv v) = get_type v.
Proof.
  induction v using value_ind'; try reflexivity; cbn [rv get_type]; do 2 f_equal; rewrite map_map; apply map_ext_in.
  - intros x I. rewrite Forall_forall in H. now apply H.
  - intros x I. rewrite Forall_forall in H. now apply (H x).
Qed.
Lemma rf_name f : func_name (rf f) = func_name f.
Proof. induction f; cbn; auto. Qed.
Lemma rf_sig f : func_sig (rf f) = rs (func_sig f).
Proof. induction f; cbn; auto. Qed.
Lemma rf_partials f : get_partials (rf f) = rpp (get_partials f).
Proof. destruct f; reflexivity. Qed.
Lemma rv_compile v : compile_value (rv v) = compile_value v.
Proof.
  induction v using value_ind'; try reflexivity; cbn [rv compile_value].
  - now rewrite rf_name.
  - do 2 f_equal. rewrite map_map. apply map_ext_in. intros x I. rewrite Forall_forall in H. now rewrite H.
  - do 2 f_equal. rewrite map_map. apply map_ext_in. intros x I. rewrite Forall_forall in H. cbn. now rewrite (H x).
Qed.
Lemma rv_html v : to_html (rv v) = to_html v.
Proof. destruct v; reflexivity. Qed.
Lemma rv_of_html h : rv (of_html h) = of_html h.
Proof. destruct h; reflexivity. Qed.
Lemma rv_check t : forall v, check_value t (rv v) = check_value t v.
Proof.
  induction t; intro v; cbn [check_value]; rewrite rv_unit; destruct (is_unit v) eqn:U; try reflexivity; try (destruct v; reflexivity).
  - destruct v; try reflexivity. cbn [rv]. destruct (ty_eqb t TAny); [reflexivity|]. induction vs as [|x vs IH]; [reflexivity|]. cbn. rewrite IHt. f_equal. apply IH. reflexivity.
  - destruct v; try reflexivity. cbn [rv]. destruct (ty_eqb t TAny); [reflexivity|]. induction vs as [|x vs IH]; [reflexivity|]. cbn. rewrite IHt. f_equal. apply IH. reflexivity.
  - apply IHt.
Qed.
Definition rres (x : value + papyri_error) : value + papyri_error := match x with inl v => inl (rv v) | inr e => inr e end.
Lemma rv_coerce_all f g : (forall v, g (rv v) = rres (f v)) -> forall vs,
  coerce_all g (List.map rv vs) = match coerce_all f vs with inl l => inl (List.map rv l) | inr e => inr e end.
Proof.
  intros E vs. induction vs as [|v vs IH]; [reflexivity|]. cbn [List.map coerce_all]. rewrite E. destruct (f v); [|reflexivity]. cbn [rres].
  rewrite IH. destruct (coerce_all f vs); reflexivity.
Qed.
Lemma rm_combine (vs : nmap value) : forall l, combine (List.map fst (rm rv vs)) (List.map rv l) = rm rv (combine (List.map fst vs) l).
Proof.
  induction vs as [|[k v] vs IH]; intro l; [reflexivity|]. destruct l as [|x l]; [reflexivity|]. cbn. f_equal. apply IH.
Qed.
Lemma rv_coerce_bases t : (forall v, coerce_base t (rv v) = rres (coerce_base t v)) /\
  (forall t', t = TOptional t' -> forall v, coerce_base t' (rv v) = rres (coerce_base t' v)).
Proof.
  induction t; split; try (intros t' [=]; subst; exact (proj1 IHt)); try discriminate;
    intro v; pose proof (rv_type v) as T; pose proof (rv_compile v) as C; pose proof (rv_unit v) as U;
    try (destruct v; cbn [rv] in T, C, U; cbn [rv coerce_base]; rewrite ?T, ?C, ?U; cbn [rres];
         repeat (match goal with |- context [if ?b then _ else _] => destruct b end; cbn [rres]);
         rewrite ?rv_of_html; reflexivity).
  - destruct v; cbn [rv] in T, C, U; cbn [rv coerce_base]; rewrite ?T, ?C, ?U; try reflexivity.
    change (List.map (fun kv => (fst kv, rv (snd kv))) vs) with (rm rv vs). rewrite (rm_values _ _ rv vs : List.map snd (rm rv vs) = List.map rv (List.map snd vs)).
    rewrite (rv_coerce_all (fun v => match t with TOptional t => if is_unit v then inl UNIT else coerce_base t v | _ => coerce_base t v end)).
    + destruct (coerce_all _ _); cbn [rres rv]; [|reflexivity]. do 2 f_equal. apply rm_combine.
    + intro v. cbv beta. destruct t; try apply (proj1 IHt). rewrite rv_unit. destruct (is_unit v); [reflexivity|]. now apply (proj2 IHt).
  - destruct v; cbn [rv] in T, C, U; cbn [rv coerce_base]; rewrite ?T, ?C, ?U; try reflexivity.
    rewrite (rv_coerce_all (fun v => match t with TOptional t => if is_unit v then inl UNIT else coerce_base t v | _ => coerce_base t v end)).
    + destruct (coerce_all _ _); reflexivity.
    + intro v. cbv beta. destruct t; try apply (proj1 IHt). rewrite rv_unit. destruct (is_unit v); [reflexivity|]. now apply (proj2 IHt).
Qed.
Lemma rv_coerce t v : coerce t (rv v) = rres (coerce t v).
Proof.
  unfold coerce, coerce_opt. destruct t; try apply (proj1 (rv_coerce_bases _)). rewrite rv_unit. destruct (is_unit v); [reflexivity|].
  apply rv_coerce_bases.
Qed.
Lemma rv_eqb a : forall b, value_eqb (rv a) (rv b) = value_eqb a b.
Proof.
  induction a using value_ind'; intro w; destruct w; try reflexivity; cbn [rv value_eqb].
  - revert vs0. induction H as [|x vs Hx _ IH]; intros [|y ws]; try reflexivity. cbn [List.map]. rewrite Hx. f_equal. apply IH.
  - rewrite !map_length. f_equal. change (List.map (fun kv => (fst kv, rv (snd kv))) vs0) with (rm rv vs0).
    induction H as [|[k x] vs Hx _ IH]; [reflexivity|]. cbn [List.map fst snd] in *. rewrite IH. f_equal. rewrite rm_get.
    destruct (ngetm vs0 k); [|reflexivity]. cbn. apply Hx.
Qed.
Lemma rp_name p : p_name (rp p) = p_name p. Proof. now destruct p. Qed.
Lemma rp_implicit p : p_implicit (rp p) = p_implicit p. Proof. now destruct p. Qed.
Lemma rp_type p : p_type (rp p) = p_type p. Proof. now destruct p. Qed.
Lemma rp_default p : p_default (rp p) = option_map rv (p_default p). Proof. now destruct p as [? ? ? []]. Qed.
Lemma rs_positional s : s_positional (rs s) = List.map rp (s_positional s). Proof. now destruct s. Qed.
Lemma rs_spread s : s_spread (rs s) = option_map rp (s_spread s). Proof. now destruct s as [? [] ? ? ?]. Qed.
Lemma rs_named s : s_named (rs s) = rm rp (s_named s). Proof. now destruct s. Qed.
Lemma rs_spread_named s : s_spread_named (rs s) = option_map rp (s_spread_named s). Proof. now destruct s as [? ? ? [] ?]. Qed.
Lemma rs_content s : s_content (rs s) = rp (s_content s). Proof. now destruct s. Qed.
Lemma rpp_count p : pp_count (rpp p) = pp_count p. Proof. now destruct p. Qed.
Lemma rpp_map p : pp_map (rpp p) = rm rv (pp_map p). Proof. now destruct p. Qed.
Lemma rs_native g : rs (native_sig g) = native_sig g. Proof. destruct g; reflexivity. Qed.
Lemma rv_attr v : native_attr (rv v) = native_attr v. Proof. destruct v; reflexivity. Qed.
Lemma rv_str l : List.map rv (List.map VStr l) = List.map VStr l.
Proof. rewrite map_map. reflexivity. Qed.
Lemma rv_group g : rv (group_value g) = group_value g. Proof. now destruct g. Qed.
Lemma rv_groups gs : List.map rv (List.map group_value gs) = List.map group_value gs.
Proof. rewrite map_map. apply map_ext. apply rv_group. Qed.
Lemma rm_same (m : nmap value) : Forall (fun kv => rv (snd kv) = snd kv) m -> rm rv m = m.
Proof. induction 1 as [|[k v] m E _ IH]; [reflexivity|]. cbn in *. f_equal; [now rewrite E|exact IH]. Qed.
Lemma rv_captures k gs : rv (captures_to_value k gs) = captures_to_value k gs.
Proof.
  destruct k as [| |names]; cbn [captures_to_value].
  - destruct gs as [|g gs]; [reflexivity|apply rv_group].
  - cbn [rv]. now rewrite rv_groups.
  - rewrite rv_dict, <- rm_from. do 2 f_equal. apply rm_same, Forall_forall. intros [k v] I. apply in_combine_r in I.
    apply in_map_iff in I as (g & <- & _). apply rv_group.
Qed.
End Rename.
