(** What the functions of the standard library do (C61): calling a function with lists of arguments. *)
From Verif Require Import S_Html S_Sequence P_Html P_Sequence P_Stable S_Scope S_Match S_Call P_Built P_State P_Scope P_Std S_Std P_StdHeap.
From Verif Require Import Base BaseFacts M_Text M_Names M_TagInfo M_Html M_Sequence M_Path M_Types M_Diag M_Ast M_Value M_State M_Matcher M_Binder M_Native M_Eval M_Std P_StdRun P_Coerce P_Native P_NativeCalls P_StdLib P_StdLib2 P_StdLib3 S_Expr P_Expr.

Definition f_call := Eval vm_compute in std_in "function" "call".

(** the state in which the body of a function of the standard library runs *)
Lemma entered_get bs s n v : ngetm bs n = Some v -> get_var n (entered 1 bs s) = Ok v (entered 1 bs s).
Proof. exact (get_local s (st_heap s) (Frame (Some 1) bs []) (st_stack s) n v). Qed.

Lemma or_report_ok {A} (m : EM A) s a s' : or_report m s = Ok a s' <-> m s = Ok a s'.
Proof. unfold or_report. destruct (m s); split; intro H; try discriminate; inversion H; reflexivity. Qed.

Lemma bind_ok {A B} (m : EM A) (f : A -> EM B) s b s' : bind m f s = Ok b s' <-> exists a s1, m s = Ok a s1 /\ f a s1 = Ok b s'.
Proof.
  unfold bind. destruct (m s) as [a s1|e s1|c|]; split; try discriminate; eauto;
    intros (x & y & E & F); try discriminate; inversion E; subst; exact F.
Qed.

Lemma name_value X fuel n w t s : get_var n s = Ok w s ->
  e_node (evals_n X fuel) (EName (NSimple n)) t s =
  match fuel with
  | 0 => NoFuel
  | S _ => match coerce t w with inl v => Ok v s | inr e => Err AlreadyReported (set_sink (sink_add e (st_sink s)) s) end
  end.
Proof.
  intro G. destruct fuel as [|fuel]; [reflexivity|]. cbn [evals_n e_node step evaluate_node evaluate_name].
  unfold or_report, bind. rewrite G. unfold coerceM, lift. now destruct (coerce t w).
Qed.

Lemma add_nameds_eq sig vs b s : add_nameds sig vs b s = give_all sig (List.map (fun nv => GNamed (fst nv) (snd nv)) vs) b s.
Proof.
  revert b s. induction vs as [|[n v] vs IH]; intros b s; [reflexivity|]. cbn [add_nameds List.map give_all give fst snd]. unfold bind.
  destruct (add_named_arg sig n v b s); auto.
Qed.

Lemma dict_any kw : coerce (TDict TAny) (VDict kw) = inl (VDict kw).
Proof.
  rewrite coerce_non_option, coerce_base_dict by discriminate.
  assert (E : forall l, coerce_all (coerce TAny) l = inl l) by (induction l as [|v l IH]; [reflexivity|]; cbn [coerce_all]; rewrite coerce_any, IH; reflexivity).
  rewrite E. now rewrite combine_map_fst_snd.
Qed.

(** giving arguments does not change the state *)
Lemma coerceM_same v t s a s' : coerceM v t s = Ok a s' -> s' = s.
Proof. unfold coerceM, lift. destruct (coerce t v); intro H; inversion H; reflexivity. Qed.
Lemma give_same sig g b s b' s' : give sig g b s = Ok b' s' -> s' = s.
Proof.
  destruct b as [count sp sn m], g as [v|n v|v]; cbn [give]; unfold add_positional_arg, add_named_arg, add_content_arg.
  - destruct (nth_error _ _) as [p|]; [|destruct (s_spread sig) as [p|]]; intro H.
    + apply bind_ok in H as (w & s1 & C & H). apply coerceM_same in C. now inversion H; subst.
    + apply bind_ok in H as (w & s1 & C & H). apply coerceM_same in C. now inversion H; subst.
    + now inversion H.
  - destruct (ngetm _ _) as [p|]; [|destruct (s_spread_named sig) as [p|]]; intro H; [| |discriminate].
    + apply bind_ok in H as (w & s1 & C & H). apply coerceM_same in C. destruct (nhas m n); [discriminate|]. now inversion H; subst.
    + apply bind_ok in H as (w & s1 & C & H). apply coerceM_same in C. destruct (nhas sn n); [discriminate|]. now inversion H; subst.
  - destruct (nhas _ _); [destruct (is_unit v)|]; intro H; [now inversion H|discriminate|].
    apply bind_ok in H as (w & s1 & C & H). apply coerceM_same in C. now inversion H; subst.
Qed.
Lemma give_all_same sig gs b s b' s' : give_all sig gs b s = Ok b' s' -> s' = s.
Proof.
  revert b s. induction gs as [|g gs IH]; intros b s H; [now inversion H|]. cbn [give_all] in H. apply bind_ok in H as (b1 & s1 & G & H).
  apply give_same in G. subst. eauto.
Qed.
Lemma implicits_same ps b s b' s' : bind_implicits ps b s = Ok b' s' -> s' = s.
Proof.
  revert b s. induction ps as [|p ps IH]; intros b s H; [now inversion H|]. cbn [bind_implicits] in H.
  destruct (negb (p_implicit p) || nhas (pp_map b) (p_name p)); [eauto|]. apply bind_ok in H as (v & s1 & G & H).
  apply IH in H. subst s'. revert G. unfold get_implicit, frame_lookup, frame_id, gets, bind. destruct (st_stack s); [discriminate|].
  cbv beta iota. destruct (frame_get _ _ _ true); [now inversion 1|]. destruct (p_default p); [now inversion 1|]. destruct (st_stack s); discriminate.
Qed.
Lemma fill_positional_same sig count ps m s m' s' : fill_positional sig count ps m s = Ok m' s' -> s' = s.
Proof.
  revert m. induction ps as [|p ps IH]; intros m H; [now inversion H|]. cbn [fill_positional] in H. destruct (p_default p); [eauto|discriminate].
Qed.
Lemma fill_named_same ps m s m' s' : fill_named ps m s = Ok m' s' -> s' = s.
Proof.
  revert m. induction ps as [|p ps IH]; intros m H; [now inversion H|]. cbn [fill_named] in H. destruct (nhas m (p_name p)); [eauto|].
  destruct (p_default p); [eauto|discriminate].
Qed.
Lemma build_same sig b s m s' : build sig b s = Ok m s' -> s' = s.
Proof.
  unfold build. intro H. apply bind_ok in H as ([] & s1 & E & H). unfold check_pos_count in E. destruct (_ && _) in E; [discriminate|].
  inversion E; subst s1. destruct b as [count sp sn map]. apply bind_ok in H as (m1 & s1 & E1 & H).
  assert (s1 = s). { destruct (s_spread sig); [|now inversion E1]. apply bind_ok in E1 as (w & s2 & C & R). apply coerceM_same in C. now inversion R; subst. }
  subst s1. apply bind_ok in H as (m2 & s1 & E2 & H).
  assert (s1 = s). { destruct (s_spread_named sig); [|now inversion E2]. apply bind_ok in E2 as (w & s2 & C & R). apply coerceM_same in C. now inversion R; subst. }
  subst s1. destruct (negb _ && _); [discriminate|]. apply bind_ok in H as (m3 & s1 & E3 & H). apply fill_positional_same in E3. subst. now apply fill_named_same in H.
Qed.

Lemma binding_call X g vs kw c bs s m s' :
  ngetm bs (lit "_args") = Some (VList vs) -> ngetm bs (lit "kwargs") = Some (VDict kw) -> ngetm bs (lit "content") = Some c ->
  let args := [Arg n_anonymous PosSpread (EName (NSimple (lit "_args"))); Arg n_anonymous NamedSpread (EName (NSimple (lit "kwargs")))] in
  let gs := List.map GPos vs ++ List.map (fun nv => GNamed (fst nv) (snd nv)) kw in
  Binding X g args (EName (NSimple (lit "content"))) (entered 1 bs s) m s' <-> call_with g true gs c (entered 1 bs s) = Ok m s'.
Proof.
  intros Ha Hk Hc args gs. set (s0 := entered 1 bs s).
  assert (Ga : get_var (lit "_args") s0 = Ok (VList vs) s0) by now apply entered_get.
  assert (Gk : get_var (lit "kwargs") s0 = Ok (VDict kw) s0) by now apply entered_get.
  assert (Gc : get_var (lit "content") s0 = Ok c s0) by now apply entered_get.
  set (sig := func_sig g).
  assert (A1 : forall fuel b b' s1, compile_arg (e_node (evals_n X (S fuel))) sig (Arg n_anonymous PosSpread (EName (NSimple (lit "_args")))) b s0 = Ok b' s1
      <-> give_all sig (List.map GPos vs) b s0 = Ok b' s1).
  { intros. unfold compile_arg. rewrite or_report_ok. change (arg_is_positional n_anonymous PosSpread) with true. cbn [arg_is_spread compile_positional_arg].
    rewrite bind_ok, <- P_Call.add_positionals_eq, (name_value _ _ _ _ _ _ Ga), coerce_list_any. split.
    - intros (a & s2 & E & F). inversion E; subst. exact F.
    - intro F. do 2 eexists. split; [reflexivity|exact F]. }
  assert (A2 : forall fuel b b' s1, compile_arg (e_node (evals_n X (S fuel))) sig (Arg n_anonymous NamedSpread (EName (NSimple (lit "kwargs")))) b s0 = Ok b' s1
      <-> give_all sig (List.map (fun nv => GNamed (fst nv) (snd nv)) kw) b s0 = Ok b' s1).
  { intros. unfold compile_arg. rewrite or_report_ok. change (arg_is_positional n_anonymous NamedSpread) with false. cbn [arg_is_spread compile_named_arg].
    rewrite bind_ok, <- add_nameds_eq, (name_value _ _ _ _ _ _ Gk), dict_any. split.
    - intros (a & s2 & E & F). inversion E; subst. exact F.
    - intro F. do 2 eexists. split; [reflexivity|exact F]. }
  assert (A : forall fuel b b' s1, compile_args (e_node (evals_n X (S fuel))) sig args b s0 = Ok b' s1 <-> give_all sig gs b s0 = Ok b' s1).
  { intros fuel b b' s1. subst args gs. cbn [compile_args]. rewrite P_Call.give_all_app, !bind_ok. split.
    - intros (b1 & s2 & E & F). apply A1 in E. assert (s2 = s0) by now apply give_all_same in E. subst s2. exists b1, s0. split; [exact E|].
      apply bind_ok in F as (b2 & s3 & F & G). apply A2 in F. now inversion G; subst.
    - intros (b1 & s2 & E & F). assert (s2 = s0) by now apply give_all_same in E. subst s2. exists b1, s0. split; [now apply A1|].
      apply bind_ok. exists b', s1. split; [now apply A2|reflexivity]. }
  assert (C : forall fuel b b' s1, compile_content_arg (e_node (evals_n X (S fuel))) sig (EName (NSimple (lit "content"))) b s0 = Ok b' s1
      <-> add_content_arg sig c b s0 = Ok b' s1).
  { intros. unfold compile_content_arg. rewrite bind_ok, (name_value _ _ _ _ _ _ Gc).
    assert (R : forall a s2, or_report (add_content_arg sig a b) s2 = Ok b' s1 <-> add_content_arg sig a b s2 = Ok b' s1) by (intros; apply or_report_ok).
    destruct (nhas (pp_map b) (p_name (s_content sig))) eqn:N.
    - rewrite coerce_any. split.
      + intros (a & s2 & E & F). apply R in F. inversion E. congruence.
      + intro F. do 2 eexists. split; [reflexivity|]. now apply R.
    - assert (K : forall a w, coerce (p_type (s_content sig)) a = inl w ->
        add_content_arg sig a b s0 = Ok (if is_anonymous (p_name (s_content sig)) then b else pp_set_map (ninsert (pp_map b) (p_name (s_content sig)) w) b) s0).
      { intros a w Ec. unfold add_content_arg. rewrite N. unfold bind, coerceM, lift. rewrite Ec. reflexivity. }
      destruct (coerce (p_type (s_content sig)) c) as [w|e] eqn:Ec; split.
      + intros (a & s2 & E & F). apply R in F. assert (a = w /\ s2 = s0) as [-> ->] by (inversion E; auto).
        rewrite (K _ _ (coerce_idem _ _ _ Ec)) in F. now rewrite (K _ _ Ec).
      + intro F. exists w, s0. split; [reflexivity|]. apply R. rewrite (K _ _ (coerce_idem _ _ _ Ec)). now rewrite (K _ _ Ec) in F.
      + intros (a & s2 & E & F). discriminate.
      + unfold add_content_arg. rewrite N. unfold bind, coerceM, lift. rewrite Ec. discriminate. }
  assert (Q : forall fuel, bind_call (e_node (evals_n X (S fuel))) g args (EName (NSimple (lit "content"))) s0 = Ok m s' <-> call_with g true gs c s0 = Ok m s').
  { intro fuel. unfold bind_call, call_with. fold sig. cbv zeta. rewrite !bind_ok. split.
    - intros (b1 & s1 & E1 & H). apply A in E1. assert (s1 = s0) by now apply give_all_same in E1. subst s1.
      apply bind_ok in H as (b2 & s2 & E2 & H). assert (s2 = s0) by now apply implicits_same in E2. subst s2.
      apply bind_ok in H as (b3 & s3 & E3 & H). apply C in E3.
      exists b1, s0. split; [exact E1|]. apply bind_ok. exists b2, s0. split; [exact E2|]. apply bind_ok. eauto.
    - intros (b1 & s1 & E1 & H). assert (s1 = s0) by now apply give_all_same in E1. subst s1.
      apply bind_ok in H as (b2 & s2 & E2 & H). assert (s2 = s0) by now apply implicits_same in E2. subst s2.
      apply bind_ok in H as (b3 & s3 & E3 & H).
      exists b1, s0. split; [now apply A|]. apply bind_ok. exists b2, s0. split; [exact E2|]. apply bind_ok. exists b3, s3. split; [now apply C|exact H]. }
  split.
  - intros [[|fuel] H]; [|now apply (Q fuel)]. subst args. unfold bind_call in H. cbn [compile_args] in H. apply bind_ok in H as (? & ? & H & _).
    apply bind_ok in H as (? & ? & H & _). unfold compile_arg in H. apply or_report_ok in H.
    change (arg_is_positional n_anonymous PosSpread) with true in H. cbn in H. discriminate.
  - intro H. exists 1. now apply Q.
Qed.

Lemma names_simple s n v w : get_var n s = Ok v s -> (Names s (NSimple n) w <-> w = v).
Proof.
  intro G. split.
  - inversion 1; subst. congruence.
  - intros ->. now constructor.
Qed.

Lemma call_calls X bs g vs kw c t src s v s' :
  ngetm bs (lit "_f") = Some (VFunc g) -> ngetm bs (lit "_args") = Some (VList vs) -> ngetm bs (lit "kwargs") = Some (VDict kw) -> ngetm bs (lit "content") = Some c ->
  1 < length (st_heap s) ->
  let gs := List.map GPos vs ++ List.map (fun nv => GNamed (fst nv) (snd nv)) kw in
  Calls X f_call bs t src s v s' <->
  exists m s1, call_with g true gs c (entered 1 bs s) = Ok m (entered 1 bs s) /\ Calls X g m t (lit "<stdlib>") (entered 1 bs s) v s1 /\ s' = left_scope s1.
Proof.
  intros Hf Ha Hk Hc L gs. unfold f_call. rewrite calls_closure.
  assert (Gf : get_var (lit "_f") (entered 1 bs s) = Ok (VFunc g) (entered 1 bs s)) by now apply entered_get.
  pose proof (fun m s1 => binding_call X g vs kw c bs s m s1 Ha Hk Hc) as B. cbv zeta in B. fold gs in B.
  split.
  - intros (_ & s1 & Y & ->). apply yields_call in Y as [(g' & m & s2 & N & Bi & Ca)|(N & _)].
    + apply (names_simple _ _ _ _ Gf) in N. inversion N; subst g'. apply B in Bi. 
      assert (s2 = entered 1 bs s).
      { unfold call_with in Bi. cbv zeta in Bi. apply bind_ok in Bi as (b1 & s3 & E1 & H). apply give_all_same in E1. subst s3.
        apply bind_ok in H as (b2 & s3 & E2 & H). apply implicits_same in E2. subst s3.
        apply bind_ok in H as (b3 & s3 & E3 & H). apply (give_same (func_sig g) (GContent c)) in E3. subst s3. now apply build_same in H. }
      subst s2. exists m, s1. auto.
    + apply (names_simple _ _ _ _ Gf) in N. discriminate.
  - intros (m & s1 & Ca & K & ->). split; [exact L|]. exists s1. split; [|reflexivity]. apply yields_call. left.
    exists g, m, (entered 1 bs s). split; [now apply (names_simple _ _ _ _ Gf)|]. split; [now apply B|exact K].
Qed.

(** there are no implicit variables in the standard library *)
Lemma call_implicits bs s p v : Later s -> from_scope (entered 1 bs s) p v <-> p_default p = Some v.
Proof.
  intro Hl. destruct (later_heap s Hl) as [more Hm]. unfold from_scope, get_implicit, frame_lookup, frame_id, gets, bind.
  change (st_stack (entered 1 bs s)) with (length (st_heap s) :: st_stack s). cbv iota beta.
  change (st_heap (entered 1 bs s)) with (st_heap s ++ [Frame (Some 1) bs []]).
  assert (N : frame_get (st_heap s ++ [Frame (Some 1) bs []]) (length (st_heap s)) (p_name p) true = None).
  { unfold frame_get. rewrite Hm. set (h := std_heap ++ more). cbn [frame_get_fuel].
    rewrite nth_error_app2, Nat.sub_diag by lia. cbn [nth_error fr_locals fr_implicit fr_parent].
    assert (L : length h = S (S (length h - 2))) by (subst h; rewrite app_length; cbn; lia).
    assert (F0 : forall f, nth_error (h ++ [Frame (Some 1) bs []]) 0 = Some f -> fr_implicit f = [] /\ fr_parent f = None) by (cbn; intros f E; inversion E; auto).
    assert (F1 : forall f, nth_error (h ++ [Frame (Some 1) bs []]) 1 = Some f -> fr_implicit f = [] /\ fr_parent f = Some 0) by (cbn; intros f E; inversion E; auto).
    assert (R : forall k, frame_get_fuel (S (S k)) (h ++ [Frame (Some 1) bs []]) 1 (p_name p) true = None).
    { intro k. cbn [frame_get_fuel]. destruct (nth_error _ 1) as [f1|]; [|reflexivity]. destruct (F1 _ eq_refl) as [-> ->].
      destruct (ngetm (fr_locals f1) (p_name p)); cbn [existsb orb negb andb];
      (destruct (nth_error _ 0) as [f0|]; [|reflexivity]; destruct (F0 _ eq_refl) as [-> ->]; destruct (ngetm (fr_locals f0) (p_name p)); reflexivity). }
    rewrite L. destruct (ngetm bs (p_name p)); cbn [existsb orb negb andb]; apply R. }
  rewrite N. destruct (p_default p) as [w|].
  - split; [now inversion 1|]. now inversion 1.
  - split; intro H; [|discriminate]. change (st_stack (entered 1 bs s)) with (length (st_heap s) :: st_stack s) in H. cbv iota beta in H. discriminate H.
Qed.

(** ** Code blocks *)
Definition f_code_block := Eval vm_compute in std "code_block".
Definition f_code : func := FNative FCode (lit "code") (native_sig FCode).

Lemma entered_native bs s n v : Later s -> ngetm bs n = None -> ngetm (match nth_error std_heap 1 with Some f => fr_locals f | None => [] end) n = None ->
  ngetm (fr_locals native_frame) n = Some v -> get_var n (entered 1 bs s) = Ok v (entered 1 bs s).
Proof.
  intros Hl N N1 H. destruct (later_heap s Hl) as [more Hm]. rewrite (get_var_eq n _ (length (st_heap s)) (st_stack s)) by reflexivity.
  unfold frame_get. change (st_heap (entered 1 bs s)) with (st_heap s ++ [Frame (Some 1) bs []]).
  rewrite (fg_step _ _ _ (Frame (Some 1) bs [])) by apply nth_last. cbn [fr_locals fr_parent]. rewrite N, Hm.
  assert (L : length (std_heap ++ more) = S (S (length (std_heap ++ more) - 2))) by (rewrite app_length; cbn; lia). rewrite L.
  destruct (nth_error std_heap 1) as [f1|] eqn:E1; [|discriminate].
  rewrite (fg_step _ _ _ f1); [|rewrite !nth_error_app1 by (rewrite ?app_length; cbn; lia); exact E1]. rewrite N1.
  assert (P : fr_parent f1 = Some 0) by (cbn in E1; inversion E1; reflexivity). rewrite P.
  rewrite (fg_step _ _ _ native_frame) by reflexivity. now rewrite H.
Qed.

Lemma ev_call R f gf gs content bs t src s s1 v s2 :
  get_var f s = Ok (VFunc gf) s -> bind_call (e_node R) gf gs content s = Ok bs s1 -> e_call R gf bs t src s1 = Ok v s2 ->
  evaluate_func_call R src (NSimple f) gs content t s = Ok v s2.
Proof.
  intros G B C. unfold evaluate_func_call. apply bind_ok. exists (VFunc gf), s. split.
  { cbn [evaluate_name is_coalescing t_option_if]. unfold or_report, bind. now rewrite G. }
  apply bind_ok. exists (Some gf), s. split; [reflexivity|]. apply bind_ok. exists bs, s1. split; [now apply or_report_ok|exact C].
Qed.

(** [code] uses nothing of the state, and changes only what is reported *)
Definition SinkOnly {A} (m : EM A) : Prop := forall s a s1, m s = Ok a s1 ->
  s1 = set_sink (st_sink s1) s /\ forall s0, st_sink s0 = st_sink s -> m s0 = Ok a (set_sink (st_sink s1) s0).
Lemma sink_same s : set_sink (st_sink s) s = s.
Proof. destruct s; reflexivity. Qed.
Lemma so_ret {A} (a : A) : SinkOnly (ret a).
Proof. intros s b s1 H. inversion H; subst. split; [now rewrite sink_same|]. intros s0 E. rewrite <- E, sink_same. reflexivity. Qed.
Lemma so_pure {A} f (r : outcome A) : SinkOnly (pure f r).
Proof. destruct r; intros s b s1 H; try discriminate. revert H. apply so_ret. Qed.
Lemma so_report e : SinkOnly (report e).
Proof. intros s b s1 H. inversion H; subst. split; [reflexivity|]. intros s0 E. unfold report, modify. rewrite E. reflexivity. Qed.
Lemma so_bind {A B} (m : EM A) (f : A -> EM B) : SinkOnly m -> (forall a, SinkOnly (f a)) -> SinkOnly (bind m f).
Proof.
  intros Hm Hf s b s1 H. apply bind_ok in H as (a & s2 & E & F). destruct (Hm _ _ _ E) as [E1 E2]. destruct (Hf _ _ _ _ F) as [F1 F2]. split.
  - rewrite F1, E1. reflexivity.
  - intros s0 S. apply bind_ok. exists a. eexists. split; [now apply E2|]. rewrite F2; [|reflexivity]. reflexivity.
Qed.
Lemma native_code_state X lang is_block no text : SinkOnly (native_code X lang is_block no text).
Proof.
  unfold native_code. cbv zeta. destruct (if is_block then _ else _) as [l body]. apply so_bind; [apply so_pure|]. intro x.
  apply so_bind; [apply so_pure|]. intros [ls u]. apply so_bind; [destruct u; [apply so_report|apply so_ret]|]. intro.
  apply so_bind; [|intro; apply so_ret]. destruct is_block; [apply so_pure|].
  apply so_bind; [destruct (no =? 1)%Z; [apply so_ret|apply so_report]|]. intro. apply so_bind; [|intro; apply so_ret].
  destruct (1 <? length ls); [apply so_report|apply so_ret].
Qed.

Lemma native_code_eq X call load m lang is_block no text src s :
  ngetm m (lit "language") = Some match lang with None => UNIT | Some l => VStr l end ->
  ngetm m (lit "code_block") = Some (VBool is_block) -> ngetm m (lit "first_line_no") = Some (VInt no) ->
  ngetm m (lit "source") = Some (VStr text) ->
  evaluate_native_func X call load FCode m src s = (let* h := native_code X lang is_block no text in ret (VHtml h)) s.
Proof. intros Hl Hb Hn Hc. unfold evaluate_native_func. rewrite Hl, Hb, Hn, Hc. destruct lang; reflexivity. Qed.

Lemma code_block_gives X call load bs m lang no text s t src a c s1 w : Later s ->
  Bound bs [(lit "language", match lang with None => UNIT | Some l => VStr l end); (lit "first_line_no", VInt no); (lit "v", VStr text)] ->
  Bound m [(lit "language", match lang with None => UNIT | Some l => VStr l end); (lit "code_block", VBool true); (lit "first_line_no", VInt no); (lit "source", VStr text)] ->
  evaluate_native_func X call load FCode m src s = Ok (VHtml (HTag (lit "code") a c)) s1 ->
  coerce t (VHtml (HTag (lit "pre") [(lit "class", Some (lit "panel listing"))] (HTag (lit "code") a c))) = inl w ->
  exists new, forall fuel, 6 <= fuel -> e_call (evals_n X fuel) f_code_block bs t src s = Ok w (set_heap (st_heap s ++ new) s1).
Proof.
  intros Hl Hb Hm E C. exists [Frame (Some 1) bs []]. intros fuel L. replace fuel with (6 + (fuel - 6)) by lia. generalize (fuel - 6). clear fuel L. intro fuel.
  assert (G : forall n v, ngetm [(lit "language", match lang with None => UNIT | Some l => VStr l end); (lit "first_line_no", VInt no); (lit "v", VStr text)] n = Some v ->
      get_var n (entered 1 bs s) = Ok v (entered 1 bs s)) by (intros; apply entered_get; now rewrite Hb).
  rewrite native_code_eq with (lang := lang) (is_block := true) (no := no) (text := text) in E by (rewrite Hm; reflexivity).
  apply bind_ok in E as (h & s2 & E & R). inversion R; subst h s2. clear R.
  destruct (native_code_state _ _ _ _ _ _ _ _ E) as [E1 E2].
  set (s3 := set_sink (st_sink s1) (entered 1 bs s)).
  assert (Y : e_node (evals_n X (5 + fuel)) (match f_code_block with FClosure _ _ _ e => e | _ => EUnit end) t (entered 1 bs s) = Ok w s3).
  { cbn [plus f_code_block]. eapply ev_group with (h := HTag (lit "pre") [(lit "class", Some (lit "panel listing"))] (HTag (lit "code") a c)); [|exact C].
    eapply seq_pieces with (is := [Piece (HTag (lit "pre") [(lit "class", Some (lit "panel listing"))] (HTag (lit "code") a c))]); [|reflexivity].
    eapply pc_expr with (v := VHtml (HTag (lit "pre") [(lit "class", Some (lit "panel listing"))] (HTag (lit "code") a c))); [|reflexivity|constructor].
    apply ev_tag with (w := VHtml (HTag (lit "pre") [(lit "class", Some (lit "panel listing"))] (HTag (lit "code") a c))) (h := HTag (lit "pre") [(lit "class", Some (lit "panel listing"))] (HTag (lit "code") a c)); [|reflexivity].
    eapply tag_pieces with (is := [Piece (HTag (lit "code") a c)]); [|eapply pc_expr with (v := VHtml (HTag (lit "code") a c)); [|reflexivity|constructor]|reflexivity].
    { rewrite attrs_set with (x := lit "panel listing"); [reflexivity|eapply ev_template; reflexivity|reflexivity]. }
    set (R := evals_n X (S (S fuel))). change (evals_n X (S (S (S fuel)))) with (step X R). cbn [e_node step evaluate_node].
    set (m' := [(lit "language", match lang with None => UNIT | Some l => VStr l end); (lit "code_block", VBool true); (lit "first_line_no", VInt no); (lit "source", VStr text)]).
    eapply ev_call with (gf := f_code) (bs := m').
    - apply entered_native; [exact Hl|rewrite Hb; reflexivity|reflexivity|reflexivity].
    - unfold bind_call. cbn [compile_args].
      assert (N : forall n t v v', ngetm [(lit "language", match lang with None => UNIT | Some l => VStr l end); (lit "first_line_no", VInt no); (lit "v", VStr text)] n = Some v -> coerce t v = inl v' ->
        e_node R (EName (NSimple n)) t (entered 1 bs s) = Ok v' (entered 1 bs s)) by (intros ? ? ? ? Hn Ht; apply ev_name with (v := v); auto).
      assert (A : forall n e v t b, ngetm (s_named (native_sig FCode)) n = Some (FParam n (p_implicit t) (p_type t) (p_default t)) -> n <> n_anonymous ->
          e_node R e (p_type t) (entered 1 bs s) = Ok v (entered 1 bs s) -> coerce (p_type t) v = inl v -> nhas (pp_map b) n = false ->
          compile_arg (e_node R) (func_sig f_code) (Arg n NoSpread e) b (entered 1 bs s) = Ok (pp_set_map (ninsert (pp_map b) n v) b) (entered 1 bs s)).
      { intros n e v p b Hn Ha He Hc Hb'. unfold compile_arg. apply or_report_ok. unfold arg_is_positional.
        replace (is_anonymous n) with false by (symmetry; apply str_eqb_neq; exact Ha). cbn [andb arg_is_spread]. unfold compile_named_arg.
        change (func_sig f_code) with (native_sig FCode). rewrite Hn. cbn [p_type]. apply bind_ok. exists v, (entered 1 bs s). split; [exact He|].
        unfold add_named_arg. destruct b as [c0 sp sn mm]. rewrite Hn. cbn [p_type]. unfold bind, coerceM. rewrite Hc. cbn [lift]. cbn in Hb'. rewrite Hb'. reflexivity. }
      set (o := match lang with None => UNIT | Some l => VStr l end) in *.
      apply bind_ok. do 2 eexists. split.
      { apply bind_ok. do 2 eexists. split; [eapply A with (v := o) (t := FParam (lit "language") true (t_option TStr) (Some UNIT)); try reflexivity; [discriminate| |]|].
        - apply (N (lit "language") _ o); [reflexivity|]. subst o. now destruct lang.
        - subst o. now destruct lang.
        - apply bind_ok. do 2 eexists. split; [eapply A with (v := VBool true) (t := FParam (lit "code_block") false TBool (Some (VBool false))); try reflexivity; discriminate|].
          apply bind_ok. do 2 eexists. split; [eapply A with (v := VInt no) (t := FParam (lit "first_line_no") false TInt (Some (VInt 1))); try reflexivity; [discriminate|]|reflexivity].
          apply (N (lit "first_line_no") _ (VInt no)); reflexivity. }
      apply bind_ok. do 2 eexists. split; [reflexivity|]. apply bind_ok. do 2 eexists. split.
      { unfold compile_content_arg. apply bind_ok. exists (VStr text), (entered 1 bs s). split; [apply (N (lit "v") _ (VStr text)); reflexivity|reflexivity]. }
      reflexivity.
    - subst R. cbn [f_code e_call evals_n step evaluate_call]. apply or_report_ok. apply bind_ok. exists (VHtml (HTag (lit "code") a c)), s3. split; [|reflexivity].
      rewrite native_code_eq with (lang := lang) (is_block := true) (no := no) (text := text) by reflexivity.
      apply bind_ok. do 2 eexists. split; [now apply E2|reflexivity]. }
  change (6 + fuel) with (S (5 + fuel)). unfold f_code_block. generalize dependent (5 + fuel). intros n Y. cbn [evals_n e_call step evaluate_call].
  rewrite in_call_frame_eq. destruct (later_heap s Hl) as [more Hh]. replace (1 <? length (st_heap s)) with true by (symmetry; apply Nat.ltb_lt; rewrite Hh, app_length; cbn; lia).
  change (push_scope 1 bs s) with (entered 1 bs s). cbn [f_code_block] in Y. rewrite Y. 
  rewrite E1. reflexivity.
Qed.
