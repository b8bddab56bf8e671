(** What the functions of the standard library do (C61): functions that change tags. *)
From Verif Require Import S_Html S_Sequence P_Html P_Sequence P_Stable S_Scope S_Match P_Built P_State P_Scope P_Std S_Std P_StdHeap.
From Verif Require Import Base BaseFacts M_Text M_Names M_TagInfo M_Html M_Sequence M_Path M_Types M_Diag M_Ast M_Value M_State M_Matcher M_Binder M_Native M_Eval M_Std P_StdRun P_Coerce P_Native P_NativeCalls P_StdLib.

Lemma complains_body X n c sig body bs e : c < 3 ->
  (forall s more k t, exists j f' more', forall fuel,
     e_node (evals_n X (j + fuel)) body t (sc s (std_heap ++ more) (Frame (Some c) bs []) k)
     = Err AlreadyReported (set_sink (sink_add e (st_sink s)) (cur s (std_heap ++ more) f' more' k))) ->
  Complains X (FClosure n c sig body) bs e.
Proof.
  intros Hc H s t src Hl. destruct (later_heap s Hl) as [more Hm].
  destruct (H s more (st_stack s) t) as (j & f' & more' & Hj). exists (S j), (f' :: more'). intros fuel L.
  replace fuel with (S (j + (fuel - S j))) by lia. cbn [evals_n step e_call evaluate_call].
  rewrite in_call_frame_eq. replace (c <? length (st_heap s)) with true by (symmetry; apply Nat.ltb_lt; rewrite Hm, app_length; cbn; lia).
  change (push_scope c bs s) with (sc s (st_heap s) (Frame (Some c) bs []) (st_stack s)). rewrite Hm, Hj.
  reflexivity.
Qed.

(** ** Attributes *)
Lemma ninsert_new {A} (m : nmap A) n v : ngetm m n = None -> ninsert m n v = m ++ [(n, v)].
Proof.
  induction m as [|[k x] m IH]; intro H; [reflexivity|]. cbn in *. destruct (str_eqb n k) eqn:E; [discriminate|].
  now rewrite IH.
Qed.
Lemma coerce_all_id f vs : (forall v, In v vs -> f v = inl v) -> coerce_all (A := value) f vs = inl vs.
Proof. induction vs as [|v vs IH]; intro H; [reflexivity|]. cbn. rewrite H by now left. rewrite IH; [reflexivity|]. intros; apply H; now right. Qed.
Lemma coerce_attrs a : coerce (TDict (TOptional TStr)) (VDict (attr_values a)) = inl (VDict (attr_values a)).
Proof.
  change (coerce_base (TDict (TOptional TStr)) (VDict (attr_values a)) = inl (VDict (attr_values a))). rewrite coerce_base_dict.
  rewrite coerce_all_id; [now rewrite combine_map_fst_snd|]. intros v H. unfold attr_values in H. rewrite map_map in H.
  apply in_map_iff in H as ([n [x|]] & <- & _); reflexivity.
Qed.
Lemma each_attrs a s : to_each (to_opt to_str) (nvalues (attr_values a)) s = Ok (List.map snd a) s.
Proof.
  induction a as [|[n x] a IH]; [reflexivity|].
  change ((let* y := to_opt to_str (group_value x) in let* l := to_each (to_opt to_str) (nvalues (attr_values a)) in ret (y :: l)) s
    = Ok (x :: List.map snd a) s).
  unfold bind. replace (to_opt to_str (group_value x) s) with (Ok x s) by now destruct x. rewrite IH. reflexivity.
Qed.
Lemma keys_attrs a : combine (nkeys (attr_values a)) (List.map snd a) = a.
Proof. induction a as [|[n x] a IH]; [reflexivity|]. cbn. f_equal. exact IH. Qed.
Lemma add_all a : forall acc s, NoDup (nkeys (acc ++ a)) -> add_attrs acc a s = Ok (acc ++ a) s.
Proof.
  induction a as [|[n x] a IH]; intros acc s H; [now rewrite app_nil_r|]. cbn [add_attrs]. unfold add_attr, bind.
  assert (N : ngetm acc n = None).
  { apply ngetm_None. intro Hi. unfold nkeys in H. rewrite map_app in H. cbn in H. apply NoDup_remove_2 in H. apply H.
    apply in_or_app. now left. }
  unfold nhas. rewrite N, (ninsert_new _ _ _ N). cbn [ret]. rewrite IH; rewrite <- app_assoc; [reflexivity|exact H].
Qed.
Lemma attrs_spread X fuel x l acc a s : get_var x s = Ok (VDict (attr_values a)) s -> NoDup (nkeys (acc ++ a)) ->
  compile_attrs (evals_n X (S fuel)) (TSpread (EName (NSimple x)) :: l) acc s = compile_attrs (evals_n X (S fuel)) l (acc ++ a) s.
Proof.
  intros G D. cbn [compile_attrs]. change (t_option TStr) with (TOptional TStr). unfold bind at 1 2. rewrite (ev_name X fuel x _ s _ _ G (coerce_attrs a)).
  unfold bind at 1. cbn [to_dict ret]. unfold bind at 1. rewrite each_attrs, keys_attrs, add_all by exact D. reflexivity.
Qed.
Lemma attrs_set R n q e l acc s x : e_node R e (t_option_if TStr q) s = Ok (VStr x) s -> ngetm acc n = None ->
  compile_attrs R (TAttr n q (Some e) :: l) acc s = compile_attrs R l (acc ++ [(n, Some x)]) s.
Proof.
  intros E N. cbn [compile_attrs]. unfold bind at 1 2. rewrite E. unfold to_opt, bind. cbn [is_unit to_str ret].
  unfold add_attr, nhas. rewrite N, (ninsert_new _ _ _ N). reflexivity.
Qed.
Lemma attrs_unset R n e l acc s : e_node R e (t_option_if TStr true) s = Ok UNIT s ->
  compile_attrs R (TAttr n true (Some e) :: l) acc s = compile_attrs R l acc s.
Proof. intros E. cbn [compile_attrs]. unfold bind at 1 2. rewrite E. reflexivity. Qed.

(** ** Making a tag again *)
Lemma proper_normal n a c : ProperTag n a c -> to_html (of_html c) = Some c /\ coerce THtml (of_html c) = inl (of_html c).
Proof.
  intros [_ _ N _ _]. split; [now apply to_html_of_normal|]. destruct c; reflexivity.
Qed.
Lemma retag_name x s n : get_var x s = Ok (VStr n) s -> is_identifier n = true -> List.map to_ascii_lower n = n ->
  compile_tag_name (TNName (NSimple x)) s = Ok n s.
Proof.
  intros G I L. unfold compile_tag_name, bind. cbn [evaluate_name]. unfold or_report, bind. rewrite G.
  change (coerceM (VStr n) TStr s) with (Ok (VStr n) s). cbn [to_str ret]. unfold to_str, ret. rewrite I. unfold ret. now rewrite L.
Qed.
Lemma ev_retag X fuel x y l attrs n a c ty w s : get_var x s = Ok (VStr n) s -> get_var y s = Ok (of_html c) s -> ProperTag n a c ->
  compile_attrs (evals_n X (S fuel)) l [] s = Ok attrs s -> coerce ty (VHtml (HTag n attrs c)) = inl w ->
  e_node (evals_n X (S (S fuel))) (ETag (TNName (NSimple x)) l [AExpr (EName (NSimple y))]) ty s = Ok w s.
Proof.
  intros Gx Gy P A C. destruct (proper_normal n a c P) as [Th Ch]. destruct P as [[Pi Pl] _ Pn Pe Pc].
  apply ev_tag with (h := HTag n attrs c); [|exact C]. unfold compile_tag, bind.
  rewrite (retag_name x s n Gx Pi Pl), A.
  rewrite (seq_pieces _ _ s [Piece c] s _ _ c); [reflexivity| |now apply stable].
  eapply pc_expr; [apply ev_name with (v := of_html c); eassumption|exact Th|constructor].
Qed.
