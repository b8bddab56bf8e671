(** Proofs for C56: binding patterns and arguments does not see where the frames are. *)
From Verif Require Import Base BaseFacts M_Int M_Text M_Names M_Html M_Path M_SliceRef M_Types M_Token M_Diag M_Ast M_Value M_State M_Matcher
  M_Binder M_Native M_Eval S_Scope P_State P_Pattern P_Built S_Alone P_Shift1 P_Shift2.

Section Shift.
Variable base : nat.
Variable extra : list frame.
Variable old : nmap module_state.
Variable trace : list str.
Notation r := (r base extra).
Notation rv := (rv r). Notation rf := (rf r). Notation rp := (rp r). Notation rs := (rs r). Notation rpp := (rpp r).
Notation Eqv := (Eqv base extra old trace).

Lemma eqv_get_var n : Eqv rv (get_var n) (get_var n).
Proof. unfold get_var. eapply eqv_bind; [apply eqv_lookup|]. intros [v|]; cbn [option_map]; [now apply eqv_ret|apply eqv_fail]. Qed.
Lemma eqv_get_implicit n d : Eqv rv (get_implicit n d) (get_implicit n (option_map rv d)).
Proof.
  unfold get_implicit. eapply eqv_bind; [apply eqv_lookup|]. intros [v|]; cbn [option_map]; [now apply eqv_ret|].
  destruct d as [v|]; cbn [option_map]; [now apply eqv_ret|]. eapply eqv_bind; [apply eqv_lookup|]. intros [v|]; cbn [option_map]; apply eqv_fail.
Qed.
Lemma eqv_set_var n v b : Eqv idf (set_var n v b) (set_var n (rv v) b).
Proof. unfold set_var. eapply eqv_bind; [apply eqv_set|]. intros [|]; [apply eqv_report|now apply eqv_ret]. Qed.
Lemma eqv_reported A (ra : A -> A) e : Eqv ra (report e;;; fail AlreadyReported) (report e;;; fail AlreadyReported).
Proof. eapply eqv_bind; [apply eqv_report|]. intro. apply eqv_fail. Qed.

(** ** Patterns *)
Lemma eqv_bind_one n v : Eqv idf (bind_one n v) (bind_one n (rv v)).
Proof.
  unfold bind_one. eapply eqv_bind; [apply eqv_set|]. intros [|]; cbn [idf]; [|now apply eqv_ret].
  eapply eqv_bind; [apply eqv_report|]. intro. now apply eqv_ret.
Qed.
Lemma eqv_and_then a a' b b' : Eqv idf a a' -> Eqv idf b b' -> Eqv idf (and_then a b) (and_then a' b').
Proof. intros Ha Hb. unfold and_then. eapply eqv_bind; [exact Ha|]. intros [|]; [exact Hb|now apply eqv_ret]. Qed.
Lemma eqv_bind_groups gs : forall ns, Eqv idf (bind_groups gs ns) (bind_groups gs ns).
Proof.
  induction gs as [|g gs IH]; intros [|n ns]; cbn [bind_groups]; try now apply eqv_ret.
  eapply eqv_bind; [|intro; apply IH]. destruct g; [exact (eqv_bind_one n (VStr _))|exact (eqv_bind_one n UNIT)].
Qed.
Section Match.
  Variable eval : expr -> ty -> EM value.
  Variable captures : str -> str -> option (list (option str)).
  Hypothesis Heval : forall e t, Eqv rv (eval e t) (eval e t).
  Notation bp := (bind_pattern eval captures).
  Definition GP p := forall v, Eqv idf (bp p v) (bp p (rv v)).
  Lemma eqv_bind_all ps : Forall GP ps -> forall vs, Eqv idf (bind_all bp ps vs) (bind_all bp ps (List.map rv vs)).
  Proof.
    intro H. induction H as [|p ps Hp H IH]; intros [|v vs]; cbn [bind_all List.map]; try now apply eqv_ret.
    apply eqv_and_then; [apply Hp|apply IH].
  Qed.
  Lemma eqv_bind_spread A (ra : A -> A) one mk ps : (forall a, rv (one a) = one (ra a)) -> (forall l, rv (mk l) = mk (List.map ra l)) ->
    Forall GP ps -> forall i vs, Eqv idf (bind_spread bp A one mk ps i vs) (bind_spread bp A one mk ps i (List.map ra vs)).
  Proof.
    intros H1 H2 H. induction H as [|p ps Hp H IH]; intros i vs; cbn [bind_spread]; [apply eqv_crash|]. destruct i as [|i].
    - rewrite map_length. apply eqv_and_then.
      + rewrite firstn_map, <- H2. apply Hp.
      + rewrite skipn_map. rewrite map_map.
        replace (List.map (fun x => one (ra x)) (skipn (length vs - length ps) vs)) with (List.map rv (List.map one (skipn (length vs - length ps) vs)))
          by (rewrite map_map; apply map_ext; apply H1).
        now apply eqv_bind_all.
    - destruct vs as [|v vs]; cbn [List.map]; [apply eqv_crash|]. apply eqv_and_then; [rewrite <- H1; apply Hp|apply IH].
  Qed.
  Lemma map_of_html l : List.map rv (List.map of_html l) = List.map of_html l.
  Proof. rewrite map_map. apply map_ext. intro. apply rv_of_html. Qed.
  Lemma rm_filter (f : str -> bool) (vs : nmap value) :
    List.filter (fun kv => f (fst kv)) (rm rv vs) = rm rv (List.filter (fun kv => f (fst kv)) vs).
  Proof. induction vs as [|[k v] vs IH]; [reflexivity|]. cbn [rm List.map List.filter fst snd]. fold (rm rv vs). rewrite IH. destruct (f k); reflexivity. Qed.
  Lemma eqv_bind_pattern : forall p, GP p.
  Proof.
    induction p using pattern_ind'; intro v.
    1-10: cbn [bind_pattern].
    - now apply eqv_ret.
    - apply eqv_ret. rewrite rv_unit. reflexivity.
    - apply eqv_ret. now destruct v.
    - apply eqv_bind_one.
    - eapply eqv_bind; [apply eqv_catch, Heval|]. intros [o|]; cbn [rsum]; apply eqv_ret; [apply rv_eqb|reflexivity].
    - apply eqv_and_then; auto.
    - eapply eqv_bind; [apply IHp1|]. intro l. eapply (eqv_bind _ _ _ _ bool bool idf idf).
      + destruct l; cbn [idf]; [now apply eqv_ret|]. eapply eqv_bind; [|intro; apply IHp2].
        apply eqv_with_frame; [apply fr_unset_all_parent|apply rfr_unset_all].
      + intros [|]; cbn [idf]; [|now apply eqv_ret]. eapply eqv_bind; [|intro; now apply eqv_ret].
        apply eqv_with_frame; [apply fr_set_missing_parent|]. exact (rfr_set_missing _ _ ns UNIT).
    - destruct v; try now apply eqv_ret. cbn. destruct (captures re s) as [gs|]; [|now apply eqv_ret].
      destruct (length gs =? length ns + 1); [apply eqv_bind_groups|apply eqv_crash].
    - apply eqv_ret. rewrite rv_check. reflexivity.
    - rewrite rv_type. apply (eqv_bind_one n (VStr _)).
    - rewrite !bp_exact_list. destruct v; try now apply eqv_ret. cbn [S_Alone.rv]. rewrite map_length.
      destruct (length ps =? _); [now apply eqv_bind_all|now apply eqv_ret].
    - rewrite !bp_spread_list. destruct v; try now apply eqv_ret. cbn [S_Alone.rv]. rewrite map_length.
      destruct (_ <? _); [now apply eqv_ret|]. apply eqv_bind_spread; auto.
    - rewrite !bp_dict. destruct v; try now apply eqv_ret. rewrite rv_dict. rewrite rm_length.
      match goal with |- P_Shift2.Eqv _ _ _ _ _ (if ?x then _ else _) _ => destruct x end; [now apply eqv_ret|]. apply eqv_and_then.
      + clear H0. induction H as [|[n p] l Hp H IH]; cbn [bind_attrs]; [now apply eqv_ret|]. cbn [snd] in Hp. rewrite rm_get.
        match goal with |- context [ngetm ?vs n] => destruct (ngetm vs n) end; cbn [option_map]; [|now apply eqv_ret]. apply eqv_and_then; [apply Hp|exact IH].
      + destruct r as [p|]; [|now apply eqv_ret]. specialize (H0 p eq_refl).
        assert (Q : forall vs, P_Shift2.Eqv base extra old trace idf (bp p (VDict (List.filter (fun kv => negb (nhas attrs (fst kv))) vs)))
           (bp p (VDict (List.filter (fun kv => negb (nhas attrs (fst kv))) (rm rv vs))))).
        { intro ws. rewrite (rm_filter (fun k => negb (nhas attrs k))). apply (H0 (VDict _)). }
        destruct p; try apply Q. now apply eqv_ret.
    - cbn [bind_pattern]. destruct v; try now apply eqv_ret. cbn [S_Alone.rv]. destruct h; try now apply eqv_ret.
      apply eqv_and_then; [apply (IHp1 (VStr _))|]. apply eqv_and_then.
      + match goal with |- P_Shift2.Eqv _ _ _ _ _ (bp _ ?d) _ => replace (bp p2 d) with (bp p2 (rv d)) at 2; [apply IHp2|] end.
        f_equal. rewrite rv_dict. f_equal. apply rm_same. apply Forall_forall. intros [k w] Hin. apply in_map_iff in Hin as ([k' w'] & E & _).
        injection E as <- <-. cbn. now destruct w'.
      + rewrite <- rv_of_html at 2. apply IHp3.
    - rewrite !bp_exact_html. rewrite rv_html. destruct (to_html v) as [h|]; [|now apply eqv_ret]. destruct (_ =? _); [|now apply eqv_ret].
      rewrite <- map_of_html at 2. now apply eqv_bind_all.
    - rewrite !bp_spread_html. rewrite rv_html. destruct (to_html v) as [h|]; [|now apply eqv_ret]. destruct (_ <? _); [now apply eqv_ret|].
      assert (Q := fun H1 H2 => eqv_bind_spread html (fun h => h) of_html (fun hs => of_html (from_iter hs)) ps H1 H2 H i (html_nodes h)).
      rewrite map_id in Q. apply Q; intros; [apply rv_of_html|]. rewrite map_id. apply rv_of_html.
  Qed.
  Lemma eqv_match_branches bs : forall v t, Eqv rv (match_branches eval captures bs v t) (match_branches eval captures bs (rv v) t).
  Proof.
    induction bs as [|[p e] bs IH]; intros v t; cbn [match_branches]; [apply eqv_reported|].
    eapply (eqv_bind _ _ _ _ (option value) value (option_map rv)).
    - apply eqv_in_child_frame. eapply eqv_bind; [apply eqv_bind_pattern|]. intros [|]; cbn [idf]; [|now apply eqv_ret].
      eapply eqv_bind; [apply Heval|]. intro. now apply eqv_ret.
    - intros [w|]; cbn [option_map]; [now apply eqv_ret|apply IH].
  Qed.
  Lemma eqv_evaluate_match e bs t : Eqv rv (evaluate_match eval captures e bs t) (evaluate_match eval captures e bs t).
  Proof. unfold evaluate_match. eapply eqv_bind; [apply Heval|]. intro. apply eqv_match_branches. Qed.
End Match.

(** ** Arguments *)
Lemma eqv_if A (ra : A -> A) (b : bool) m m' n n' : Eqv ra m m' -> Eqv ra n n' -> Eqv ra (if b then m else n) (if b then m' else n').
Proof. now destruct b. Qed.
Lemma eqv_add_positional_arg s v b : Eqv rpp (add_positional_arg s v b) (add_positional_arg (rs s) (rv v) (rpp b)).
Proof.
  unfold add_positional_arg. destruct b as [c sp sn m]. rewrite rpp_eq, rs_positional, nth_error_map, rs_spread.
  destruct (nth_error (s_positional s) c) as [q|]; cbn [option_map].
  - rewrite rp_type, rp_name. eapply eqv_bind; [apply eqv_coerce|]. intro a. apply eqv_ret. rewrite rpp_eq, rm_insert. reflexivity.
  - destruct (s_spread s) as [q|]; cbn [option_map]; [|now apply eqv_ret].
    rewrite rp_type. eapply eqv_bind; [apply eqv_coerce|]. intro a. apply eqv_ret. rewrite rpp_eq, map_app. reflexivity.
Qed.
Lemma eqv_add_named_arg s n v b : Eqv rpp (add_named_arg s n v b) (add_named_arg (rs s) n (rv v) (rpp b)).
Proof.
  unfold add_named_arg. destruct b as [c sp sn m]. rewrite rpp_eq, rs_named, rm_get, rs_spread_named.
  destruct (ngetm (s_named s) n) as [q|]; cbn [option_map].
  - rewrite rp_type. eapply eqv_bind; [apply eqv_coerce|]. intro a. rewrite rm_has. apply eqv_if; [apply eqv_fail|]. apply eqv_ret.
    rewrite rpp_eq, rm_insert. reflexivity.
  - destruct (s_spread_named s) as [q|]; cbn [option_map]; [|apply eqv_fail].
    rewrite rp_type. eapply eqv_bind; [apply eqv_coerce|]. intro a. rewrite rm_has. apply eqv_if; [apply eqv_fail|]. apply eqv_ret.
    rewrite rpp_eq, rm_insert. reflexivity.
Qed.
Lemma rpp_set_map m b : pp_set_map (rm rv m) (rpp b) = rpp (pp_set_map m b).
Proof. destruct b. reflexivity. Qed.
Lemma eqv_add_content_arg s v b : Eqv rpp (add_content_arg s v b) (add_content_arg (rs s) (rv v) (rpp b)).
Proof.
  unfold add_content_arg. cbv zeta. rewrite rs_content, rp_name, rpp_map, rm_has, rv_unit, rp_type.
  apply eqv_if; [apply eqv_if; [now apply eqv_ret|apply eqv_fail]|].
  eapply eqv_bind; [apply eqv_coerce|]. intro a. apply eqv_ret. rewrite rm_insert, rpp_set_map. now destruct (is_anonymous _).
Qed.
Lemma eqv_check_pos_count s b : Eqv idf (check_pos_count s b) (check_pos_count (rs s) (rpp b)).
Proof.
  unfold check_pos_count. rewrite rs_spread, rs_positional, map_length, rpp_count.
  replace (match option_map rp (s_spread s) with Some _ => false | None => true end) with (match s_spread s with Some _ => false | None => true end)
    by now destruct (s_spread s).
  apply eqv_if; [apply eqv_fail|now apply eqv_ret].
Qed.
Lemma eqv_close_bound s b f : Eqv rf (close_bound s b f) (close_bound (rs s) (rpp b) (rf f)).
Proof. unfold close_bound. eapply eqv_bind; [apply eqv_check_pos_count|]. intro. now apply eqv_ret. Qed.
Lemma eqv_bind_implicits ps : forall b, Eqv rpp (bind_implicits ps b) (bind_implicits (List.map rp ps) (rpp b)).
Proof.
  induction ps as [|p ps IH]; intro b; cbn [bind_implicits List.map]; [now apply eqv_ret|].
  rewrite rp_implicit, rp_name, rpp_map, rm_has, rp_default. apply eqv_if; [apply IH|].
  eapply eqv_bind; [apply eqv_get_implicit|]. intro a. rewrite rm_insert, rpp_set_map. apply IH.
Qed.
Lemma eqv_bind_implicit_args s b : Eqv rpp (bind_implicit_args s b) (bind_implicit_args (rs s) (rpp b)).
Proof. unfold bind_implicit_args. rewrite rs_named, rm_values. apply eqv_bind_implicits. Qed.
Lemma eqv_fill_positional s c ps : forall m, Eqv (rm rv) (fill_positional s c ps m) (fill_positional (rs s) c (List.map rp ps) (rm rv m)).
Proof.
  induction ps as [|p ps IH]; intro m; cbn [fill_positional List.map]; [now apply eqv_ret|]. rewrite rp_default, rp_name.
  destruct (p_default p) as [v|]; cbn [option_map]; [rewrite rm_insert; apply IH|].
  rewrite rs_positional.
  replace (length (List.filter (fun p => match p_default p with None => true | Some _ => false end) (List.map rp (s_positional s))))
    with (length (List.filter (fun p => match p_default p with None => true | Some _ => false end) (s_positional s))); [apply eqv_fail|].
  induction (s_positional s) as [|q l IHl]; [reflexivity|]. cbn [List.map List.filter]. rewrite rp_default. destruct (p_default q); cbn; congruence.
Qed.
Lemma eqv_fill_named ps : forall m, Eqv (rm rv) (fill_named ps m) (fill_named (List.map rp ps) (rm rv m)).
Proof.
  induction ps as [|p ps IH]; intro m; cbn [fill_named List.map]; [now apply eqv_ret|]. rewrite rp_default, rp_name, rm_has.
  apply eqv_if; [apply IH|]. destruct (p_default p) as [v|]; cbn [option_map]; [rewrite rm_insert; apply IH|]. apply eqv_fail.
Qed.
Lemma eqv_build s b : Eqv (rm rv) (build s b) (build (rs s) (rpp b)).
Proof.
  unfold build. eapply eqv_bind; [apply eqv_check_pos_count|]. intros _. destruct b as [c sp sn m]. rewrite rpp_eq.
  eapply (eqv_bind _ _ _ _ (nmap value) (nmap value) (rm rv)).
  { rewrite rs_spread. destruct (s_spread s) as [q|]; cbn [option_map]; [|now apply eqv_ret]. rewrite rp_type, rp_name.
    eapply eqv_bind; [apply (eqv_coerce _ _ _ _ (VList sp))|]. intro a. apply eqv_ret. now rewrite rm_insert. }
  clear m. intro m. eapply (eqv_bind _ _ _ _ (nmap value) (nmap value) (rm rv)).
  { rewrite rs_spread_named. destruct (s_spread_named s) as [q|]; cbn [option_map]; [|now apply eqv_ret]. rewrite rp_type, rp_name.
    eapply eqv_bind; [apply (eqv_coerce _ _ _ _ (VDict sn))|]. intro a. apply eqv_ret. now rewrite rm_insert. }
  clear m. intro m. cbv zeta. rewrite rs_content, rp_name, rm_has. apply eqv_if; [apply eqv_crash|].
  rewrite rs_positional, skipn_map, rs_named, rm_values. eapply eqv_bind; [apply eqv_fill_positional|]. intro. apply eqv_fill_named.
Qed.
Lemma eqv_bind_content f v : Eqv rf (bind_content f v) (bind_content (rf f) (rv v)).
Proof. unfold bind_content. rewrite rf_sig, rf_partials. eapply eqv_bind; [apply eqv_add_content_arg|]. intro. apply eqv_close_bound. Qed.
Lemma eqv_bind_positional f v : Eqv rf (bind_positional f v) (bind_positional (rf f) (rv v)).
Proof. unfold bind_positional. rewrite rf_sig, rf_partials. eapply eqv_bind; [apply eqv_add_positional_arg|]. intro. apply eqv_close_bound. Qed.
Lemma eqv_add_positionals s vs : forall b, Eqv rpp (add_positionals s vs b) (add_positionals (rs s) (List.map rv vs) (rpp b)).
Proof.
  induction vs as [|v vs IH]; intro b; cbn [add_positionals List.map]; [now apply eqv_ret|].
  eapply eqv_bind; [apply eqv_add_positional_arg|]. intro. apply IH.
Qed.
Lemma eqv_add_nameds s vs : forall b, Eqv rpp (add_nameds s vs b) (add_nameds (rs s) (rm rv vs) (rpp b)).
Proof.
  induction vs as [|[n v] vs IH]; intro b; cbn [add_nameds rm List.map fst snd]; [now apply eqv_ret|].
  eapply eqv_bind; [apply eqv_add_named_arg|]. intro. apply IH.
Qed.
Lemma eqv_bind_partial f ps ns c : Eqv rf (bind_partial f ps ns c) (bind_partial (rf f) (List.map rv ps) (rm rv ns) (rv c)).
Proof.
  unfold bind_partial. cbv zeta. rewrite rf_sig, rf_partials, rv_unit. eapply eqv_bind; [apply eqv_add_positionals|]. intro b.
  eapply eqv_bind; [apply eqv_add_nameds|]. intro b'. eapply (eqv_bind _ _ _ _ partials func rpp);
    [apply eqv_if; [now apply eqv_ret|apply eqv_add_content_arg]|]. intro. apply eqv_close_bound.
Qed.
Lemma eqv_bind_synthetic_call f i c : Eqv (rm rv) (bind_synthetic_call f i c) (bind_synthetic_call (rf f) i (rv c)).
Proof.
  unfold bind_synthetic_call. cbv zeta. rewrite rf_sig, rf_partials.
  eapply (eqv_bind _ _ _ _ partials (nmap value) rpp); [apply eqv_if; [apply eqv_bind_implicit_args|now apply eqv_ret]|]. intro b.
  eapply eqv_bind; [apply eqv_add_content_arg|]. intro. apply eqv_build.
Qed.

Section Calls.
  Variable eval : expr -> ty -> EM value.
  Hypothesis Heval : forall e t, Eqv rv (eval e t) (eval e t).
  Lemma eqv_compile_positional_arg s sp e b : Eqv rpp (compile_positional_arg eval s sp e b) (compile_positional_arg eval (rs s) sp e (rpp b)).
  Proof.
    unfold compile_positional_arg. cbv zeta. apply eqv_if.
    - eapply eqv_bind; [apply Heval|]. intros v. destruct v; try apply eqv_crash. apply eqv_add_positionals.
    - rewrite rs_positional, nth_error_map, rpp_count, rs_spread.
      match goal with |- P_Shift2.Eqv _ _ _ _ _ (bind (eval e ?t) _) (bind (eval e ?t') _) => replace t' with t end.
      + eapply eqv_bind; [apply Heval|]. intro. apply eqv_add_positional_arg.
      + destruct (nth_error _ _); cbn [option_map]; [now rewrite rp_type|]. destruct (s_spread s); cbn [option_map]; now rewrite ?rp_type.
  Qed.
  Lemma eqv_compile_named_arg s sp n e b : Eqv rpp (compile_named_arg eval s sp n e b) (compile_named_arg eval (rs s) sp n e (rpp b)).
  Proof.
    unfold compile_named_arg. cbv zeta. apply eqv_if.
    - eapply eqv_bind; [apply Heval|]. intros v. destruct v; try apply eqv_crash. apply eqv_add_nameds.
    - rewrite rs_named, rm_get, rs_spread_named.
      match goal with |- P_Shift2.Eqv _ _ _ _ _ (bind (eval e ?t) _) (bind (eval e ?t') _) => replace t' with t end.
      + eapply eqv_bind; [apply Heval|]. intro. apply eqv_add_named_arg.
      + destruct (ngetm _ _); cbn [option_map]; [now rewrite rp_type|]. destruct (s_spread_named s); cbn [option_map]; now rewrite ?rp_type.
  Qed.
  Lemma eqv_compile_args s l : forall b, Eqv rpp (compile_args eval s l b) (compile_args eval (rs s) l (rpp b)).
  Proof.
    induction l as [|[n k e] l IH]; intro b; cbn [compile_args]; [now apply eqv_ret|]. eapply eqv_bind; [|intro; apply IH].
    unfold compile_arg. apply eqv_or_report. apply eqv_if; [apply eqv_compile_positional_arg|apply eqv_compile_named_arg].
  Qed.
  Lemma eqv_compile_content_arg s e b : Eqv rpp (compile_content_arg eval s e b) (compile_content_arg eval (rs s) e (rpp b)).
  Proof.
    unfold compile_content_arg. cbv zeta. rewrite rs_content, rp_name, rpp_map, rm_has, rp_type. eapply eqv_bind; [apply Heval|]. intro.
    apply eqv_or_report, eqv_add_content_arg.
  Qed.
  Lemma eqv_bind_call f l c : Eqv (rm rv) (bind_call eval f l c) (bind_call eval (rf f) l c).
  Proof.
    unfold bind_call. cbv zeta. rewrite rf_sig, rf_partials. eapply eqv_bind; [apply eqv_compile_args|]. intro b.
    eapply eqv_bind; [apply eqv_bind_implicit_args|]. intro b'. eapply eqv_bind; [apply eqv_compile_content_arg|]. intro. apply eqv_build.
  Qed.
  Lemma eqv_compile_param p : Eqv rp (compile_param eval p) (compile_param eval p).
  Proof.
    unfold compile_param. destruct p as [n q i t d]. eapply (eqv_bind _ _ _ _ (option value) fparam (option_map rv)).
    - destruct d as [e|]; [|now apply eqv_ret]. eapply eqv_bind; [apply eqv_catch, Heval|]. intros [v|]; now apply eqv_ret.
    - intros [v|]; apply eqv_ret; [reflexivity|]. now destruct q.
  Qed.
  Lemma eqv_compile_params ps : Eqv (List.map rp) (compile_params eval ps) (compile_params eval ps).
  Proof.
    induction ps as [|p ps IH]; cbn [compile_params]; [now apply eqv_ret|]. eapply eqv_bind; [apply eqv_compile_param|]. intro q.
    eapply eqv_bind; [apply IH|]. intro. now apply eqv_ret.
  Qed.
  Lemma hd_map A B (f : A -> B) l : hd_error (List.map f l) = option_map f (hd_error l). Proof. now destruct l. Qed.
  Lemma tl_map A B (f : A -> B) l : List.tl (List.map f l) = List.map f (List.tl l). Proof. now destruct l. Qed.
  Lemma eqv_compile_func_signature s : Eqv rs (compile_func_signature eval s) (compile_func_signature eval s).
  Proof.
    unfold compile_func_signature. destruct s as [ps np sp nn sn hc]. cbv zeta. eapply eqv_bind; [apply eqv_compile_params|]. intro l.
    rewrite map_length. apply eqv_if; [apply eqv_crash|]. apply eqv_ret.
    rewrite firstn_map, skipn_map, hd_map, tl_map.
    assert (N : forall l, List.map (fun p => (p_name p, p)) (List.map rp l) = rm rp (List.map (fun p => (p_name p, p)) l)).
    { intro l0. unfold rm. rewrite !map_map. apply map_ext. intro p. cbn. now rewrite rp_name. }
    set (l1 := skipn np l).
    replace (if sp then List.map rp (List.tl l1) else List.map rp l1) with (List.map rp (if sp then List.tl l1 else l1)) by now destruct sp.
    set (l2 := if sp then List.tl l1 else l1). rewrite firstn_map, skipn_map, N, rm_from, hd_map, tl_map.
    set (l3 := skipn nn l2).
    replace (if sn then List.map rp (List.tl l3) else List.map rp l3) with (List.map rp (if sn then List.tl l3 else l3)) by now destruct sn.
    set (l4 := if sn then List.tl l3 else l3). rewrite hd_map.
    cbn [S_Alone.rs]. f_equal.
    - destruct sp; [|reflexivity]. now destruct (hd_error l1).
    - destruct sn; [|reflexivity]. now destruct (hd_error l3).
    - destruct hc; [|reflexivity]. now destruct (hd_error l4).
  Qed.
  Lemma eqv_compile_func_def d : Eqv rf (compile_func_def eval d) (compile_func_def eval d).
  Proof.
    unfold compile_func_def. destruct d. eapply eqv_bind; [apply eqv_frame_id|]. intro c. eapply eqv_bind; [apply eqv_compile_func_signature|].
    intro. now apply eqv_ret.
  Qed.
End Calls.
End Shift.
