(** Proofs about common types being the strongest possible (C20). *)
From Verif Require Import Base BaseFacts M_Names M_TagInfo M_Html S_Html M_Types M_Diag M_Value S_Types S_Least P_Types.

Definition cls (v : value) : nat :=
  match v with VBool _ => 0 | VInt _ => 1 | VStr _ => 2 | VHtml _ => 3 | VFunc _ => 4 | VRegex _ => 5 | VList _ => 6 | VDict _ => 7 end.
Lemma any_like c v w : check_value c v = true -> check_value c w = true -> v <> UNIT -> w <> UNIT -> cls v <> cls w ->
  ~ (cls v = 2 /\ cls w = 3) -> ~ (cls v = 3 /\ cls w = 2) -> forall x, check_value c x = true.
Proof.
  intros Hv Hw Uv Uw N N1 N2. induction c; intro x; try apply check_any.
  all: try (exfalso; apply check_value_spec in Hv, Hw; inversion Hv; subst; try congruence; inversion Hw; subst; try congruence; cbn in *; lia).
  rewrite check_option in *. apply is_unit_false in Uv, Uw. rewrite Uv in Hv. rewrite Uw in Hw. cbn [orb] in *. rewrite IHc by assumption. apply orb_true_r.
Qed.
(** A value of each type *)
Definition wit (t : ty) : value :=
  match t with
  | TUnit | TAny | TOptional _ => UNIT
  | THtml | TBlock => VHtml (HTag (lit "div") [] HEmpty)
  | TInline => VHtml (HTag (lit "b") [] HEmpty)
  | TBool => VBool true | TInt => VInt 0 | TStr => VStr [] | TList _ => VList [] | TDict _ => VDict []
  | TFunction => VFunc (FNative IntAdd [] (FSig [] None [] None (FParam [] false TUnit None)))
  | TRegex => VRegex (Regex [] RSimple)
  end.
Lemma wit_ok t : check_value t (wit t) = true.
Proof. destruct t; try reflexivity; cbn [wit]; [now rewrite check_dict|now rewrite check_list]. Qed.
Definition simple (t : ty) : bool := match t with TUnit | TAny | TOptional _ => false | _ => true end.
Lemma wit_unit t : simple t = true -> wit t <> UNIT.
Proof. destruct t; discriminate. Qed.

Definition Plain (a b : ty) : Prop :=
  (forall h, t_is_html h = true -> ~ Mentions h a /\ ~ Mentions h b) \/ (~ Mentions TStr a /\ ~ Mentions TStr b).
Lemma plain_sub a b a' b' : Plain a b -> (forall x, Mentions x a' -> Mentions x a) -> (forall x, Mentions x b' -> Mentions x b) -> Plain a' b'.
Proof. intros [H|[H1 H2]] A B; [left; intros h Hh; destruct (H h Hh); split; auto|right; split; auto]. Qed.
Lemma plain_not_mixed a b : Plain a b -> ~ (a = TStr /\ t_is_html b = true) /\ ~ (b = TStr /\ t_is_html a = true).
Proof.
  intros [H|[H1 H2]]; split; intros [-> E].
  - exact (proj2 (H b E) (mn_here b)).
  - exact (proj1 (H a E) (mn_here a)).
  - exact (H1 (mn_here _)).
  - exact (H2 (mn_here _)).
Qed.
Lemma list_inv c (P : value -> Prop) : check_value c (VList []) = true -> (forall v, P v -> check_value c (VList [v]) = true) ->
  (forall x, check_value c x = true) \/ exists c', (forall v, P v -> check_value c' v = true) /\
    forall l, (forall v, In v l -> check_value c' v = true) -> check_value c (VList l) = true.
Proof.
  induction c as [| | | | | | | | | |c _|c _|c IHc]; intros H0 H; try (left; intro; apply check_any); try discriminate H0.
  - right. exists c. split.
    + intros v E. specialize (H v E). rewrite !check_list in H. cbn [forallb snd] in H. now rewrite andb_true_r in H.
    + intros l F. rewrite check_list. now apply forallb_forall.
  - destruct IHc as [A|(c' & A & B)]; [exact H0|exact H| |].
    + left. intro x. rewrite check_option, A. apply orb_true_r.
    + right. exists c'. split; [exact A|]. intros l F. rewrite check_option. rewrite B by exact F. apply orb_true_r.
Qed.
Lemma dict_inv c (P : value -> Prop) : check_value c (VDict []) = true -> (forall v, P v -> check_value c (VDict [([], v)]) = true) ->
  (forall x, check_value c x = true) \/ exists c', (forall v, P v -> check_value c' v = true) /\
    forall l, (forall v, In v l -> check_value c' (snd v) = true) -> check_value c (VDict l) = true.
Proof.
  induction c as [| | | | | | | | | |c _|c _|c IHc]; intros H0 H; try (left; intro; apply check_any); try discriminate H0.
  - right. exists c. split.
    + intros v E. specialize (H v E). rewrite !check_dict in H. cbn [forallb snd] in H. now rewrite andb_true_r in H.
    + intros l F. rewrite check_dict. now apply forallb_forall.
  - destruct IHc as [A|(c' & A & B)]; [exact H0|exact H| |].
    + left. intro x. rewrite check_option, A. apply orb_true_r.
    + right. exists c'. split; [exact A|]. intros l F. rewrite check_option. rewrite B by exact F. apply orb_true_r.
Qed.
Lemma html_all c : check_value c (wit TBlock) = true -> check_value c (wit TInline) = true ->
  forall v, is_unit v = false -> check_value THtml v = true -> check_value c v = true.
Proof.
  induction c; intros HB HI v U Hv; try apply check_any; try exact Hv; try discriminate HB; try discriminate HI.
  rewrite check_option in *. rewrite U. cbn [orb]. now apply IHc.
Qed.

Lemma simple_any a b c : simple a = true -> simple b = true -> cls (wit a) <> cls (wit b) -> Plain a b ->
  (forall v, check_value a v = true \/ check_value b v = true -> check_value c v = true) -> forall v, check_value c v = true.
Proof.
  intros Sa Sb N P H. destruct (plain_not_mixed _ _ P) as [P1 P2].
  apply (any_like c (wit a) (wit b)); auto using wit_ok, wit_unit.
  - intros [A B]. apply P1. destruct a; try discriminate A; destruct b; try discriminate B; auto.
  - intros [A B]. apply P2. destruct a; try discriminate A; destruct b; try discriminate B; auto.
Qed.
Lemma lub_fuel_least n : forall a b c, ty_size a + ty_size b <= n -> Plain a b ->
  (forall v, check_value a v = true \/ check_value b v = true -> check_value c v = true) ->
  forall v, check_value (lub_fuel n a b) v = true -> check_value c v = true.
Proof.
  induction n as [|n IH]; intros a b c L P H v Hv; [destruct a; cbn in L; lia|].
  cbn [lub_fuel] in Hv. unfold lub_step in Hv.
  destruct (ty_eqb a b) eqn:E; [auto|].
  destruct (ty_eqb a TAny) eqn:E1; [auto|].
  destruct (ty_eqb b TAny) eqn:E2; [auto|].
  destruct (ty_eqb b TUnit) eqn:E3.
  { apply ty_eqb_eq in E3; subst. rewrite check_t_option in Hv. apply H. rewrite check_none. now apply orb_true_iff in Hv as [Hv|Hv]; auto. }
  destruct (ty_eqb a TUnit) eqn:E4.
  { apply ty_eqb_eq in E4; subst. rewrite check_t_option in Hv. apply H. rewrite check_none. now apply orb_true_iff in Hv as [Hv|Hv]; auto. }
  destruct (t_is_html a && t_is_html b) eqn:E5.
  { apply andb_true_iff in E5 as [Ha Hb]. destruct (is_unit v) eqn:U.
    - apply is_unit_spec in U. subst. apply H. left. destruct a; try discriminate Ha; reflexivity.
    - assert (D : a = THtml \/ b = THtml \/ (a = TBlock /\ b = TInline) \/ (a = TInline /\ b = TBlock))
        by (destruct a; try discriminate Ha; destruct b; try discriminate Hb; try discriminate E; tauto).
      destruct D as [-> | [-> | [[-> ->] | [-> ->]]]]; auto; apply html_all; auto. }
  destruct (simple a) eqn:Sa, (simple b) eqn:Sb.
  - destruct (Nat.eq_dec (cls (wit a)) (cls (wit b))) as [Ec|Ec]; [|now apply (simple_any a b)].
    destruct a; try discriminate Sa; destruct b; try discriminate Sb; try discriminate Ec; try discriminate E; try discriminate E5.
    + apply check_dict_inv in Hv as (vs & -> & F).
      destruct (dict_inv c (fun v => check_value a v = true \/ check_value b v = true)) as [X|(c' & X1 & X2)];
        [apply H; left; now rewrite check_dict|intros v D; apply H; rewrite !check_dict; cbn [forallb snd]; rewrite !andb_true_r; exact D|auto|].
      apply X2. intros v I. apply (IH a b c'); auto; [cbn in L; lia|eapply plain_sub; [exact P| |]; intros; now constructor|].
      rewrite forallb_forall in F. exact (F v I).
    + apply check_list_inv in Hv as (vs & -> & F).
      destruct (list_inv c (fun v => check_value a v = true \/ check_value b v = true)) as [X|(c' & X1 & X2)];
        [apply H; left; now rewrite check_list|intros v D; apply H; rewrite !check_list; cbn [forallb snd]; rewrite !andb_true_r; exact D|auto|].
      apply X2. intros v I. apply (IH a b c'); auto; [cbn in L; lia|eapply plain_sub; [exact P| |]; intros; now constructor|].
      rewrite forallb_forall in F. exact (F v I).
  - destruct b; try discriminate Sb; try discriminate E2; try discriminate E3.
    assert (Hv' : check_value (t_option (lub_fuel n a b)) v = true) by (destruct a; try discriminate Sa; (exact Hv || (rewrite lub_fuel_comm; exact Hv))).
    rewrite check_t_option in Hv'. apply orb_true_iff in Hv' as [U|Hv'].
    + apply H. right. rewrite check_option, U. reflexivity.
    + apply (IH a b c); auto; [cbn in L; lia|eapply plain_sub; [exact P| |]; intros; auto; now constructor|].
      intros w D. apply H. rewrite check_option, orb_true_iff. tauto.
  - destruct a; try discriminate Sa; try discriminate E1; try discriminate E4.
    assert (Hv' : check_value (t_option (lub_fuel n a b)) v = true) by (destruct b; try discriminate Sb; (exact Hv || (rewrite lub_fuel_comm; exact Hv))).
    rewrite check_t_option in Hv'. apply orb_true_iff in Hv' as [U|Hv'].
    + apply H. left. rewrite check_option, U. reflexivity.
    + apply (IH a b c); auto; [cbn in L; lia|eapply plain_sub; [exact P| |]; intros; auto; now constructor|].
      intros w D. apply H. rewrite check_option, orb_true_iff. tauto.
  - destruct a; try discriminate Sa; try discriminate E1; try discriminate E4.
    destruct b; try discriminate Sb; try discriminate E2; try discriminate E3.
    rewrite check_t_option in Hv. apply orb_true_iff in Hv as [U|Hv].
    + apply H. right. rewrite check_option, U. reflexivity.
    + apply (IH a b c); auto; [cbn in L; lia|eapply plain_sub; [exact P| |]; intros; auto; now constructor|].
      intros w D. apply H. rewrite !check_option, !orb_true_iff. tauto.
Qed.
Lemma lub_least a b c :
  ((forall h, In h [THtml; TBlock; TInline] -> ~ Mentions h a /\ ~ Mentions h b) \/ (~ Mentions TStr a /\ ~ Mentions TStr b)) ->
  (forall v, HasType a v \/ HasType b v -> HasType c v) -> forall v, HasType (lub a b) v -> HasType c v.
Proof.
  intros P H v Hv. apply check_value_spec. apply check_value_spec in Hv. revert v Hv. apply lub_fuel_least; auto.
  - destruct P as [P|P]; [left|now right]. intros h Hh. apply P. destruct h; try discriminate Hh; cbn; tauto.
  - intros v D. apply check_value_spec, H. now rewrite <- !check_value_spec.
Qed.
Lemma lub_str_html : (forall v, HasType TStr v \/ HasType THtml v -> HasType THtml v) /\
  HasType (lub TStr THtml) (VInt 0) /\ ~ HasType THtml (VInt 0).
Proof.
  split; [|split; [constructor|]].
  - intros v [H|H]; [|exact H]. inversion H; subst; [|constructor]. constructor. unfold AcceptsNone. tauto.
  - intro H. inversion H.
Qed.

(** ** Reported types *)
Definition NoneOf (S : list ty) (t : ty) : Prop := forall h, In h S -> ~ Mentions h t.
Definition htmls : list ty := [THtml; TBlock; TInline].
Lemma noneof_sub S t : NoneOf S t -> match t with TDict u | TList u | TOptional u => NoneOf S u | _ => True end.
Proof. intro N. destruct t; auto; intros h I M; apply (N h I); now constructor. Qed.
Lemma noneof_up S (f : ty -> ty) t : (f = TDict \/ f = TList \/ f = TOptional) -> S = htmls \/ S = [TStr] -> NoneOf S t -> NoneOf S (f t).
Proof.
  intros F D N h I M. apply (N h I). destruct F as [-> | [-> | ->]]; inversion M; subst; auto; exfalso; destruct D as [-> | ->]; cbn in I;
    repeat match goal with H : _ \/ _ |- _ => destruct H end; try discriminate; auto.
Qed.
Lemma noneof_base S t : S = htmls \/ S = [TStr] -> In t [TUnit; TAny; TBool; TInt; TFunction; TRegex] -> NoneOf S t.
Proof.
  intros D I h Ih M. assert (h = t) by (cbn in I; repeat match goal with H : _ \/ _ |- _ => destruct H end; subst; try contradiction; now inversion M).
  subst h. destruct D as [-> | ->]; cbn in *; repeat match goal with H : _ \/ _ |- _ => destruct H end; subst; try discriminate; contradiction.
Qed.
Lemma noneof_option S t : S = htmls \/ S = [TStr] -> NoneOf S t -> NoneOf S (t_option t).
Proof. intros D N. assert (NoneOf S (TOptional t)) by (apply (noneof_up S TOptional); auto). destruct t; cbn; auto. Qed.
Lemma noneof_lub S n : S = htmls \/ S = [TStr] -> forall a b, NoneOf S a -> NoneOf S b -> NoneOf S (lub_fuel n a b).
Proof.
  intros D. induction n as [|n IH]; intros a b A B; [apply noneof_base; [exact D|cbn; tauto]|].
  cbn [lub_fuel]. unfold lub_step. destruct (ty_eqb a b); [exact A|]. destruct (ty_eqb a TAny); [exact B|]. destruct (ty_eqb b TAny); [exact A|].
  destruct (ty_eqb b TUnit); [now apply noneof_option|]. destruct (ty_eqb a TUnit); [now apply noneof_option|].
  destruct (t_is_html a && t_is_html b) eqn:E.
  - apply andb_true_iff in E as [E _]. destruct D as [-> | ->].
    + exfalso. apply (A a); [|constructor]. destruct a; try discriminate E; cbn; tauto.
    + intros h [<-|[]] M. inversion M.
  - pose proof (noneof_sub _ _ A) as A'. pose proof (noneof_sub _ _ B) as B'.
    destruct a, b; try (apply noneof_base; [exact D|cbn; tauto]); try (apply noneof_option; [exact D|]; now apply IH).
    + apply (noneof_up S TDict); auto.
    + apply (noneof_up S TList); auto.
Qed.
Lemma noneof_common S ts : S = htmls \/ S = [TStr] -> Forall (NoneOf S) ts -> NoneOf S (common_type ts).
Proof.
  intros D [|t l Ht F]; cbn; [apply noneof_base; [exact D|cbn; tauto]|]. revert t Ht. induction F as [|u l Hu F IH]; intros t Ht; cbn; [exact Ht|].
  apply IH. unfold lub. now apply noneof_lub.
Qed.
Definition sub (a c : ty) : Prop := forall x, check_value a x = true -> check_value c x = true.
Lemma common_least S c ts : S = htmls \/ S = [TStr] -> ts <> [] -> Forall (NoneOf S) ts -> Forall (fun t => sub t c) ts -> sub (common_type ts) c.
Proof.
  intros D N F G. destruct ts as [|t l]; [congruence|]. clear N. cbn. inversion F as [|? ? Ft Fl]; subst. inversion G as [|? ? Gt Gl]; subst. clear F G.
  revert t Ft Gt. induction l as [|u l IH]; intros t Ft Gt; cbn; [exact Gt|]. inversion Fl; subst. inversion Gl; subst. apply IH; auto.
  - unfold lub. now apply noneof_lub.
  - unfold sub, lub. intros x. apply lub_fuel_least; [lia| |].
    + destruct D as [-> | ->]; [left|right].
      * intros h Hh. split; [apply Ft|apply H1]; destruct h; try discriminate Hh; cbn; tauto.
      * split; [apply Ft|apply H1]; now left.
    + intros v [K|K]; auto.
Qed.
Definition PartOf (S : list ty) (v : value) : Prop :=
  (S = htmls /\ NoContent v) \/ (S = [TStr] /\ NoText v).
Lemma partof_d S v : PartOf S v -> S = htmls \/ S = [TStr]. Proof. intros [[-> _]|[-> _]]; auto. Qed.
Lemma partof_list S vs : PartOf S (VList vs) -> Forall (PartOf S) vs.
Proof.
  intros [[-> N]|[-> N]]; inversion N as [? _ F|? ? _|? F _]; subst; try contradiction; eapply Forall_impl; try exact F; intros a Ha; [left|right]; auto.
Qed.
Lemma partof_dict S vs : PartOf S (VDict vs) -> Forall (fun kv => PartOf S (snd kv)) vs.
Proof.
  intros [[-> N]|[-> N]]; inversion N as [? ? _|? _ F|? F _]; subst; try contradiction; eapply Forall_impl; try exact F; intros a Ha; [left|right]; auto.
Qed.
Lemma noneof_type S v : PartOf S v -> NoneOf S (get_type v).
Proof.
  induction v as [b|i|s|f|r|h|vs IH|vs IH] using value_ind'; intro P; pose proof (partof_d _ _ P) as D; cbn [get_type]; try (apply noneof_base; [exact D|cbn; tauto]).
  - destruct P as [[-> N]|[-> N]].
    + intros h I M. cbn in I. repeat match goal with H : _ \/ _ |- _ => destruct H end; subst; try contradiction; inversion M.
    + inversion N; subst; contradiction.
  - destruct (html_is_empty h) eqn:E; [apply noneof_base; [exact D|cbn; tauto]|]. destruct P as [[-> N]|[-> N]].
    + inversion N as [| |? _ Q]; subst. discriminate E.
    + destruct (html_is_block h); intros x [<-|[]] M; inversion M.
  - apply (noneof_up S TList); auto. apply noneof_common; [exact D|]. apply partof_list in P. rewrite Forall_forall in *. intros t I.
    apply in_map_iff in I as (v & <- & I). auto.
  - apply (noneof_up S TDict); auto. apply noneof_common; [exact D|]. apply partof_dict in P. rewrite Forall_forall in *. intros t I.
    apply in_map_iff in I as (v & <- & I). apply (IH v I); auto.
Qed.
(** The values accepted by [g] are accepted by every type that accepts the value [v], if this is so for types other than options. *)
Lemma through_option v g c : is_unit v = false ->
  (forall c, (forall d, c <> TOptional d) -> check_value c v = true -> sub g c) -> check_value c v = true -> sub g c.
Proof.
  intros U H. induction c; try (apply H; discriminate). rewrite check_option, U. cbn [orb]. intros K x Hx. rewrite check_option, (IHc K x Hx). apply orb_true_r.
Qed.
Lemma filled_list vs : Filled (VList vs) -> vs <> [] /\ Forall Filled vs.
Proof. intro F. inversion F as [? [N _] G| |? B _]; subst; [|contradiction]. split; [congruence|exact G]. Qed.
Lemma filled_dict vs : Filled (VDict vs) -> vs <> [] /\ Forall (fun kv => Filled (snd kv)) vs.
Proof. intro F. inversion F as [|? [_ N] G|? B _]; subst; [|contradiction]. split; [congruence|exact G]. Qed.
Lemma unambiguous_list vs : Unambiguous (VList vs) -> Forall Unambiguous vs.
Proof. intro F. inversion F as [? _ G| |? B _]; subst; [exact G|contradiction]. Qed.
Lemma unambiguous_dict vs : Unambiguous (VDict vs) -> Forall (fun kv => Unambiguous (snd kv)) vs.
Proof. intro F. inversion F as [|? _ G|? B _]; subst; [exact G|contradiction]. Qed.
Lemma type_least S v : PartOf S v -> Filled v -> Unambiguous v -> forall c, check_value c v = true -> sub (get_type v) c.
Proof.
  induction v as [b|i|s|f|r|h|vs IH|vs IH] using value_ind'; intros P F A c H; cbn [get_type].
  1-5: revert H; apply through_option; [reflexivity|]; clear c; intros c Nc H x Hx; destruct c; try discriminate H; try (elim (Nc _ eq_refl)); try exact Hx; try apply check_any;
    (destruct (is_unit x) eqn:Ux; [apply is_unit_spec in Ux; subst; discriminate Hx || reflexivity|]); destruct x; try discriminate Hx; try reflexivity;
    cbn [check_value] in Hx; rewrite Ux in Hx; discriminate Hx.
  - (* content *)
    destruct (html_is_empty h) eqn:E.
    { destruct h; try discriminate E. intros x Hx. rewrite check_none in Hx. apply is_unit_spec in Hx. now subst. }
    assert (U : is_unit (VHtml h) = false) by (destruct h; try reflexivity; discriminate E).
    assert (NA : ~ (BlockLevel h /\ InlineLevel h)) by (inversion A; subst; auto).
    revert H. apply through_option; [exact U|]. clear c. intros c Nc H x Hx.
    destruct (is_unit x) eqn:Ux.
    { apply is_unit_spec in Ux. subst x. rewrite check_unit. destruct c; try reflexivity; try (elim (Nc _ eq_refl)); cbn [check_value] in H; rewrite U in H; discriminate H. }
    destruct c; try (elim (Nc _ eq_refl)); try apply check_any; cbn [check_value] in H; rewrite U in H; try discriminate H.
    + destruct (html_is_block h); [apply (check_html_types TBlock)|apply (check_html_types TInline)]; auto.
    + rewrite H in Hx. exact Hx.
    + destruct (html_is_block h) eqn:B; [|exact Hx]. elim NA. split; [now apply html_is_block_spec|now apply html_is_inline_spec].
  - (* lists *)
    apply filled_list in F as [N F]. revert H. apply through_option; [reflexivity|]. clear c. intros c Nc H x Hx.
    destruct c; try discriminate H; try (elim (Nc _ eq_refl)); try apply check_any.
    apply check_list_inv in Hx as (ws & -> & G). rewrite check_list in *. rewrite forallb_forall in *. intros w I. specialize (G w I).
    revert w G I. intros w G _. pose proof (partof_d _ _ P) as D.
    apply (common_least S c (List.map get_type vs)); auto.
    + destruct vs; [congruence|discriminate].
    + apply partof_list in P. rewrite Forall_forall in *. intros t I. apply in_map_iff in I as (v & <- & I). apply noneof_type. auto.
    + apply partof_list in P. apply unambiguous_list in A. rewrite Forall_forall in *. intros t I. apply in_map_iff in I as (v & <- & I). apply IH; auto.
  - (* dictionaries *)
    apply filled_dict in F as [N F]. revert H. apply through_option; [reflexivity|]. clear c. intros c Nc H x Hx.
    destruct c; try discriminate H; try (elim (Nc _ eq_refl)); try apply check_any.
    apply check_dict_inv in Hx as (ws & -> & G). rewrite check_dict in *. rewrite forallb_forall in *. intros w I. specialize (G w I).
    revert w G I. intros w G _. pose proof (partof_d _ _ P) as D.
    apply (common_least S c (List.map (fun kv => get_type (snd kv)) vs)); auto.
    + destruct vs; [congruence|discriminate].
    + apply partof_dict in P. rewrite Forall_forall in *. intros t I. apply in_map_iff in I as (v & <- & I). apply noneof_type. apply (P v I).
    + apply partof_dict in P. apply unambiguous_dict in A. rewrite Forall_forall in *. intros t I. apply in_map_iff in I as (v & <- & I).
      apply (IH v I); [apply (P v I)|apply (F v I)|apply (A v I)|exact (H v I)].
Qed.
Lemma reported_least v c w : NoText v \/ NoContent v -> Filled v -> Unambiguous v -> HasType c v -> HasType (get_type v) w -> HasType c w.
Proof.
  intros P F A H. rewrite <- !check_value_spec in *. destruct P as [P|P].
  - apply (type_least [TStr]); auto. now right.
  - apply (type_least htmls); auto. now left.
Qed.
Lemma reported_empty_list w : HasType (get_type (VList [])) w <-> exists n, w = VList (repeat UNIT n).
Proof.
  rewrite <- check_value_spec. cbn [get_type List.map common_type]. split.
  - intro H. apply check_list_inv in H as (vs & -> & F). exists (length vs). f_equal. induction vs as [|v vs IH]; [reflexivity|].
    cbn in F. apply andb_true_iff in F as [F1 F2]. fold (check_value TUnit v) in F1. cbn. f_equal; [|now apply IH].
    change (check_value TUnit v = true) in F1. rewrite check_none in F1. now apply is_unit_spec in F1.
  - intros [n ->]. rewrite check_list. induction n; [reflexivity|exact IHn].
Qed.
Lemma reported_empty_dict w : HasType (get_type (VDict [])) w <-> exists ks, w = VDict (List.map (fun k => (k, UNIT)) ks).
Proof.
  rewrite <- check_value_spec. cbn [get_type List.map common_type]. split.
  - intro H. apply check_dict_inv in H as (vs & -> & F). exists (List.map fst vs). f_equal. induction vs as [|[k v] vs IH]; [reflexivity|].
    cbn [forallb snd] in F. apply andb_true_iff in F as [F1 F2]. cbn. f_equal; [|now apply IH].
    rewrite check_none in F1. apply is_unit_spec in F1. now subst.
  - intros [ks ->]. rewrite check_dict. induction ks; [reflexivity|exact IHks].
Qed.
