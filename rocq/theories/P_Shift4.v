(** Proofs for C56: the native functions do not see where the frames are. *)
From Verif Require Import Base BaseFacts M_Int M_Text M_Names M_Html M_Path M_SliceRef M_Types M_Token M_Diag M_Ast M_Value M_State M_Matcher
  M_Binder M_Native M_Eval S_Scope P_State P_Pattern P_Built S_Alone P_Shift1 P_Shift2 P_Shift3.

Lemma list_get_map A B (f : A -> B) vs i a : list_get (sr_from vs) i = Ret a -> list_get (sr_from (List.map f vs)) i = Ret (option_map f a).
Proof.
  unfold list_get, sr_from, sr_len, sr_get. cbn [original sr_a sr_b]. rewrite map_length. destruct (_ && _)%bool.
  - rewrite nth_error_map. destruct (nth_error vs _); cbn; intro H; now inversion H.
  - destruct (_ && _)%bool; [|cbn; intro H; now inversion H]. rewrite nth_error_map. destruct (nth_error vs _); cbn; intro H; now inversion H.
Qed.
Lemma slice_map A B (f : A -> B) vs x y l : obind (native_slice (sr_from vs) x y) sr_as_ref = Ret l ->
  obind (native_slice (sr_from (List.map f vs)) x y) sr_as_ref = Ret (List.map f l).
Proof.
  unfold native_slice, sr_from, sr_len, sr_slice. cbn [original sr_a sr_b]. rewrite map_length. destruct (_ || _)%bool; [discriminate|].
  cbn [obind]. unfold sr_as_ref. cbn [original sr_a sr_b]. rewrite map_length. destruct (_ && _)%bool; [|discriminate]. intro H. injection H as <-.
  now rewrite skipn_map, firstn_map.
Qed.
Lemma insert_by_map A B (f : A -> B) le le' x l : (forall a b, le' (f a) (f b) = le a b) ->
  insert_by le' (f x) (List.map f l) = List.map f (insert_by le x l).
Proof. intro H. induction l as [|y l IH]; [reflexivity|]. cbn. rewrite H. destruct (le x y); [reflexivity|]. cbn. now rewrite IH. Qed.
Lemma sort_by_map A B (f : A -> B) le le' l : (forall a b, le' (f a) (f b) = le a b) ->
  sort_by le' (List.map f l) = List.map f (sort_by le l).
Proof. intro H. induction l as [|y l IH]; [reflexivity|]. cbn. rewrite IH. now apply insert_by_map. Qed.

Section Shift.
Variable base : nat.
Variable extra : list frame.
Variable old : nmap module_state.
Variable trace : list str.
Notation r := (r base extra).
Notation rv := (rv r). Notation rf := (rf r). Notation rp := (rp r). Notation rs := (rs r). Notation rpp := (rpp r).
Notation Eqv := (Eqv base extra old trace).
Notation load := (rload base extra).

Lemma eqv_to_bool v : Eqv idf (to_bool v) (to_bool (rv v)).
Proof. destruct v; try apply eqv_crash. now apply eqv_ret. Qed.
Lemma eqv_to_int v : Eqv idf (to_int v) (to_int (rv v)).
Proof. destruct v; try apply eqv_crash. now apply eqv_ret. Qed.
Lemma eqv_to_str v : Eqv idf (to_str v) (to_str (rv v)).
Proof. destruct v; try apply eqv_crash. now apply eqv_ret. Qed.
Lemma eqv_to_htmlM v : Eqv idf (to_htmlM v) (to_htmlM (rv v)).
Proof. unfold to_htmlM. rewrite rv_html. destruct (to_html v); [now apply eqv_ret|apply eqv_crash]. Qed.
Lemma eqv_to_func v : Eqv rf (to_func v) (to_func (rv v)).
Proof. destruct v; try apply eqv_crash. now apply eqv_ret. Qed.
Lemma eqv_to_regex v : Eqv idf (to_regex v) (to_regex (rv v)).
Proof. destruct v; try apply eqv_crash. now apply eqv_ret. Qed.
Lemma eqv_to_list v : Eqv (List.map rv) (to_list v) (to_list (rv v)).
Proof. destruct v; try apply eqv_crash. now apply eqv_ret. Qed.
Lemma eqv_to_dict v : Eqv (rm rv) (to_dict v) (to_dict (rv v)).
Proof. destruct v; try apply eqv_crash. now apply eqv_ret. Qed.
Lemma eqv_to_opt A (ra : A -> A) (f : value -> EM A) v : (forall v, Eqv ra (f v) (f (rv v))) -> Eqv (option_map ra) (to_opt f v) (to_opt f (rv v)).
Proof. intro H. unfold to_opt. rewrite rv_unit. apply eqv_if; [now apply eqv_ret|]. eapply eqv_bind; [apply H|]. intro. now apply eqv_ret. Qed.
Lemma eqv_to_each A (ra : A -> A) (f : value -> EM A) vs : (forall v, Eqv ra (f v) (f (rv v))) ->
  Eqv (List.map ra) (to_each f vs) (to_each f (List.map rv vs)).
Proof.
  intro H. induction vs as [|v vs IH]; cbn [to_each List.map]; [now apply eqv_ret|]. eapply eqv_bind; [apply H|]. intro. eapply eqv_bind; [apply IH|].
  intro. now apply eqv_ret.
Qed.
Lemma map_idf A (l : list A) : List.map idf l = l. Proof. apply map_id. Qed.
Lemma option_idf A (l : option A) : option_map idf l = l. Proof. now destruct l. Qed.
Lemma eqv_to_opt_id A (f : value -> EM A) v : (forall v, Eqv idf (f v) (f (rv v))) -> Eqv idf (to_opt f v) (to_opt f (rv v)).
Proof. intro H. unfold to_opt. rewrite rv_unit. apply eqv_if; [now apply eqv_ret|]. eapply eqv_bind; [apply H|]. intro. now apply eqv_ret. Qed.
Lemma eqv_to_each_id A (f : value -> EM A) vs : (forall v, Eqv idf (f v) (f (rv v))) -> Eqv idf (to_each f vs) (to_each f (List.map rv vs)).
Proof.
  intro H. induction vs as [|v vs IH]; cbn [to_each List.map]; [now apply eqv_ret|]. eapply eqv_bind; [apply H|]. intro. eapply eqv_bind; [apply IH|].
  intro. now apply eqv_ret.
Qed.
Lemma eqv_pure_id A c (o : outcome A) : Eqv idf (pure c o) (pure c o).
Proof. apply eqv_pure. auto. Qed.

Lemma rf_native g n : rf (FNative g n (native_sig g)) = FNative g n (native_sig g).
Proof. change (FNative g n (rs (native_sig g)) = FNative g n (native_sig g)). now rewrite rs_native. Qed.
Lemma eqv_evaluate_native_attr v a : Eqv rf (evaluate_native_attr v a) (evaluate_native_attr (rv v) a).
Proof.
  unfold evaluate_native_attr. rewrite rv_attr, rv_type. destruct (ngetm (native_attr v) a) as [[g c]|]; [|apply eqv_fail]. cbv zeta.
  pose proof (eqv_bind_content base extra old trace (FNative g a (native_sig g)) v) as H1. pose proof (eqv_bind_positional base extra old trace (FNative g a (native_sig g)) v) as H2.
  rewrite rf_native in H1, H2. now apply eqv_if.
Qed.
Lemma eqv_listed_files p fs : Eqv idf (listed_files p fs) (listed_files p fs).
Proof.
  induction fs as [|f fs IH]; cbn [listed_files]; [now apply eqv_ret|]. destruct (strip_papyri _); [|apply eqv_crash].
  eapply eqv_bind; [apply IH|]. intro. now apply eqv_ret.
Qed.
Lemma eqv_report_all es : Eqv idf (report_all es) (report_all es).
Proof. induction es as [|e es IH]; cbn [report_all]; [now apply eqv_ret|]. eapply eqv_bind; [apply eqv_report|]. intro. apply IH. Qed.
Lemma eqv_set_vars vs : Eqv idf (set_vars vs) (set_vars (rm rv vs)).
Proof.
  induction vs as [|[n v] vs IH]; cbn [set_vars rm List.map fst snd]; [now apply eqv_ret|]. eapply eqv_bind; [apply eqv_set_var|]. intro. apply IH.
Qed.
Lemma rv_flatten vs : flatten (List.map rv vs) = List.map rv (flatten vs).
Proof. unfold flatten. induction vs as [|v vs IH]; [reflexivity|]. cbn [List.map flat_map]. rewrite map_app, IH. f_equal. now destruct v. Qed.

Section Natives.
  Variable X : externals.
  Variable call : func -> nmap value -> ty -> str -> EM value.
  Variable load_cached : str -> EM (html * nmap value).
  Hypothesis Hcall : forall f bs t src, Eqv rv (call f bs t src) (call (rf f) (rm rv bs) t src).
  Hypothesis Hload : forall p, Eqv load (load_cached p) (load_cached p).
  Lemma eqv_eval_callback A (ra : A -> A) t (conv : value -> EM A) f v src : (forall v, Eqv ra (conv v) (conv (rv v))) ->
    Eqv ra (eval_callback call t conv f v src) (eval_callback call t conv (rf f) (rv v) src).
  Proof. intro H. unfold eval_callback. eapply eqv_bind; [apply eqv_bind_synthetic_call|]. intro. eapply eqv_bind; [apply Hcall|]. intro. apply H. Qed.
  Lemma eqv_callback_bool f v src : Eqv idf (callback_bool call f v src) (callback_bool call (rf f) (rv v) src).
  Proof. apply eqv_eval_callback. apply eqv_to_bool. Qed.
  Lemma eqv_callback_any f v src : Eqv rv (callback_any call f v src) (callback_any call (rf f) (rv v) src).
  Proof. apply eqv_eval_callback. intro. now apply eqv_ret. Qed.
  Lemma eqv_find_first want f vs src : Eqv (option_map rv) (find_first call want f vs src) (find_first call want (rf f) (List.map rv vs) src).
  Proof.
    induction vs as [|v vs IH]; cbn [find_first List.map]; [now apply eqv_ret|]. eapply eqv_bind; [apply eqv_callback_bool|]. intro b.
    apply eqv_if; [now apply eqv_ret|apply IH].
  Qed.
  Lemma eqv_filter_list f vs src : Eqv (List.map rv) (filter_list call f vs src) (filter_list call (rf f) (List.map rv vs) src).
  Proof.
    induction vs as [|v vs IH]; cbn [filter_list List.map]; [now apply eqv_ret|]. eapply eqv_bind; [apply eqv_callback_bool|]. intro b.
    eapply eqv_bind; [apply IH|]. intro. apply eqv_ret. now destruct b.
  Qed.
  Lemma eqv_map_list f vs src : Eqv (List.map rv) (map_list call f vs src) (map_list call (rf f) (List.map rv vs) src).
  Proof.
    induction vs as [|v vs IH]; cbn [map_list List.map]; [now apply eqv_ret|]. eapply eqv_bind; [apply eqv_callback_any|]. intro b.
    eapply eqv_bind; [apply IH|]. intro. now apply eqv_ret.
  Qed.
  Lemma enumerate_map from vs : forall i l, enumerate_list X vs i from = Ret l -> enumerate_list X (List.map rv vs) i from = Ret (List.map rv l).
  Proof.
    induction vs as [|v vs IH]; intros i l; cbn [enumerate_list List.map]; [intro H; injection H as <-; reflexivity|].
    destruct (i64 _ _) as [n| |]; cbn [obind]; try discriminate. destruct (enumerate_list X vs (S i) from) as [out| |] eqn:E; cbn [obind]; try discriminate.
    rewrite (IH _ _ E). cbn [obind]. intro H. injection H as <-. reflexivity.
  Qed.
  Definition r2 (x : value * value) := (rv (fst x), rv (snd x)).
  Lemma eqv_decorate k vs src : forall t, Eqv (List.map r2) (decorate call k vs t src) (decorate call (option_map rf k) (List.map rv vs) t src).
  Proof.
    induction vs as [|v vs IH]; intro t; cbn [decorate List.map]; [now apply eqv_ret|].
    eapply (eqv_bind _ _ _ _ value _ rv); [destruct k; cbn [option_map]; [apply eqv_callback_any|now apply eqv_ret]|].
    intro a. rewrite rv_type. destruct a; cbn [S_Alone.rv]; try apply eqv_fail.
    all: apply eqv_if; [apply eqv_fail|]; eapply eqv_bind; [apply IH|]; intro; now apply eqv_ret.
  Qed.
  Lemma key_leb_r a b : key_leb (fst (r2 a)) (fst (r2 b)) = key_leb (fst a) (fst b).
  Proof. destruct a as [a ?], b as [b ?]. cbn. destruct a, b; reflexivity. Qed.
  Lemma eqv_native_sorted k rev vs src : Eqv (List.map rv) (native_sorted call k rev vs src) (native_sorted call (option_map rf k) rev (List.map rv vs) src).
  Proof.
    unfold native_sorted. destruct vs as [|v vs]; [now apply eqv_ret|]. cbv zeta. cbn [List.map].
    eapply eqv_bind; [apply (eqv_decorate k (v :: vs) src)|]. intro ds. apply eqv_ret.
    assert (Q : forall l, List.map snd (sort_by (fun a b => key_leb (fst a) (fst b)) (List.map r2 l)) = List.map rv (List.map snd (sort_by (fun a b => key_leb (fst a) (fst b)) l))).
    { intro l. rewrite (sort_by_map _ _ r2 (fun a b => key_leb (fst a) (fst b))) by apply key_leb_r. rewrite !map_map. reflexivity. }
    destruct rev.
    - cbv iota. rewrite <- (map_rev r2 ds), Q, map_rev. reflexivity.
    - apply Q.
  Qed.
  Lemma eqv_native_code l b n c : Eqv idf (native_code X l b n c) (native_code X l b n c).
  Proof.
    unfold native_code. cbv zeta. destruct (if b then _ else _) as [lang code]. eapply eqv_bind; [apply eqv_pure_id|]. intro a.
    eapply eqv_bind; [apply eqv_pure_id|]. intros [ls w]. cbn [idf]. eapply (eqv_bind _ _ _ _ unit _ idf).
    { destruct w; [apply eqv_report|now apply eqv_ret]. }
    intros _. eapply (eqv_bind _ _ _ _ html _ idf); [|intro; now apply eqv_ret]. apply eqv_if; [apply eqv_pure_id|].
    eapply (eqv_bind _ _ _ _ unit _ idf); [apply eqv_if; [now apply eqv_ret|apply eqv_report]|]. intros _.
    eapply (eqv_bind _ _ _ _ unit _ idf); [apply eqv_if; [apply eqv_report|now apply eqv_ret]|]. intros _. now apply eqv_ret.
  Qed.
  Lemma eqv_native_fetch p : Eqv idf (native_fetch X p) (native_fetch X p).
  Proof. unfold native_fetch. destruct (x_fetch X) as [f|]; [|apply eqv_fail]. destruct (f p); [now apply eqv_ret|apply eqv_fail]. Qed.
  Lemma eqv_parse_html p : Eqv rv (parse_html X p) (parse_html X p).
  Proof.
    unfold parse_html. match goal with |- context [match ?x with [] => _ | _ => _ end] => destruct x end; [|apply eqv_fail]. eapply eqv_bind; [apply eqv_pure_id|]. intro. apply eqv_ret. symmetry. apply rv_of_html.
  Qed.
  Lemma eqv_compile_regex p : Eqv rv (compile_regex X p) (compile_regex X p).
  Proof.
    unfold compile_regex. destruct (x_regex X p) as [gs|]; [|apply eqv_fail]. destruct gs; [now apply eqv_ret|].
    apply eqv_if; [now apply eqv_ret|]. apply eqv_if; [|apply eqv_fail]. cbv zeta. destruct (List.find _ _); [apply eqv_fail|now apply eqv_ret].
  Qed.
  Lemma map_vstr l : List.map VStr l = List.map rv (List.map VStr l). Proof. symmetry. apply rv_str. Qed.
  Ltac nat_args Ht := repeat lazymatch goal with
    | |- P_Shift2.Eqv _ _ _ _ _ (bind (bind _ ?f) _) _ =>
        eapply eqv_bind; [eapply eqv_bind; [apply Ht|intro; first [apply eqv_to_bool|apply eqv_to_int|apply eqv_to_str|apply eqv_to_htmlM|apply eqv_to_func|apply eqv_to_regex|apply eqv_to_list|apply eqv_to_dict
            |apply (eqv_to_opt_id _ to_int), eqv_to_int|apply (eqv_to_opt_id _ to_str), eqv_to_str|apply (eqv_to_opt _ rf to_func), eqv_to_func]]
          |let x := fresh "x" in intro x; unfold idf]
    end.
  Lemma eqv_evaluate_native_func f bs src : Eqv rv (evaluate_native_func X call load_cached f bs src) (evaluate_native_func X call load_cached f (rm rv bs) src).
  Proof.
    unfold evaluate_native_func.
    assert (Ht : forall n, Eqv rv (match ngetm bs (lit n) with Some v => ret v | None => crash FArgument end)
                                  (match ngetm (rm rv bs) (lit n) with Some v => ret v | None => crash FArgument end)).
    { intro n. rewrite rm_get. destruct (ngetm bs (lit n)); cbn [option_map]; [now apply eqv_ret|apply eqv_crash]. }
    cbv zeta.
    destruct f; nat_args Ht; try now apply eqv_ret.
    - eapply eqv_bind; [apply Ht|]. intro v. apply eqv_ret. destruct v; try reflexivity; now destruct vs.
    - eapply eqv_bind; [apply eqv_to_each_id, eqv_to_int|]. intro. eapply eqv_bind; [apply eqv_pure_id|]. intro. now apply eqv_ret.
    - eapply eqv_bind; [apply eqv_pure_id|]. intro. now apply eqv_ret.
    - destruct (parse_i64 _); [now apply eqv_ret|apply eqv_fail].
    - apply eqv_ret. rewrite map_vstr at 1. reflexivity.
    - apply eqv_if; [apply eqv_fail|]. eapply eqv_bind; [apply eqv_uid|]. intro. now apply eqv_ret.
    - apply eqv_compile_regex.
    - apply eqv_ret. destruct (x_captures _ _ _); [symmetry; apply rv_captures|reflexivity].
    - apply eqv_ret. cbn [S_Alone.rv]. f_equal. rewrite map_map. apply map_ext. intro. symmetry. apply rv_captures.
    - apply eqv_ret. rewrite map_vstr at 1. reflexivity.
    - eapply eqv_bind; [apply Ht|]. intro. eapply eqv_bind; [apply eqv_bind_partial|]. intro. now apply eqv_ret.
    - apply eqv_ret. rewrite rf_name. reflexivity.
    - apply eqv_parse_html.
    - eapply eqv_bind; [apply eqv_find_first|]. intros [|]; now apply eqv_ret.
    - eapply eqv_bind; [apply eqv_find_first|]. intros [|]; now apply eqv_ret.
    - eapply eqv_bind; [apply Ht|]. intro v. nat_args Ht. apply eqv_ret. cbn [S_Alone.rv]. f_equal.
      induction x as [|a x IH]; [reflexivity|]. cbn [List.map existsb]. now rewrite rv_eqb, IH.
    - eapply eqv_bind; [eapply eqv_pure; apply enumerate_map|]. intro. now apply eqv_ret.
    - destruct x as [g|]; cbn [option_map]; [eapply eqv_bind; [apply eqv_filter_list|]; intro; now apply eqv_ret|].
      apply eqv_ret. cbn [S_Alone.rv]. f_equal. induction x0 as [|a x IH]; [reflexivity|]. cbn [List.map List.filter]. rewrite rv_unit, IH.
      now destruct (negb _).
    - eapply eqv_bind; [apply eqv_find_first|]. intros [|]; now apply eqv_ret.
    - apply eqv_ret. cbn [S_Alone.rv]. f_equal. apply rv_flatten.
    - eapply eqv_bind; [eapply eqv_pure; apply list_get_map|]. rewrite map_length. intros [v|]; cbn [option_map]; [now apply eqv_ret|apply eqv_fail].
    - apply eqv_ret. cbn [S_Alone.rv]. f_equal. symmetry. apply map_of_html.
    - apply eqv_ret. now destruct x.
    - eapply eqv_bind; [apply eqv_to_each_id, eqv_to_htmlM|]. intro. apply eqv_ret. symmetry. apply rv_of_html.
    - apply eqv_ret. rewrite map_length. reflexivity.
    - eapply eqv_bind; [apply eqv_map_list|]. intro. now apply eqv_ret.
    - eapply eqv_bind; [eapply eqv_pure; apply slice_map|]. intro. now apply eqv_ret.
    - eapply eqv_bind; [apply eqv_native_sorted|]. intro. now apply eqv_ret.
    - apply eqv_ret. cbn [S_Alone.rv]. f_equal. now rewrite map_rev.
    - rewrite rm_get. destruct (ngetm x0 x); cbn [option_map]; [now apply eqv_ret|apply eqv_fail].
    - apply eqv_ret. now destruct x.
    - apply eqv_ret. cbn [S_Alone.rv]. f_equal. unfold rm. rewrite !map_map. reflexivity.
    - apply eqv_ret. rewrite rm_keys, map_vstr at 1. reflexivity.
    - apply eqv_ret. rewrite rm_length. reflexivity.
    - apply eqv_ret. rewrite rm_values. reflexivity.
    - match goal with |- context [x_list_dir X ?q] => destruct (x_list_dir X q) as [[errs files]|] end; [|apply eqv_reported].
      eapply eqv_bind; [apply eqv_report_all|]. intro. eapply eqv_bind; [apply eqv_listed_files|]. intro. apply eqv_ret. rewrite map_vstr at 1. reflexivity.
    - match goal with |- context [x_read X ?q] => destruct (x_read X q) end; [now apply eqv_ret|apply eqv_fail].
    - eapply eqv_bind; [apply eqv_out|]. intro. now apply eqv_ret.
    - eapply eqv_bind; [apply eqv_native_fetch|]. intro. now apply eqv_ret.
    - eapply eqv_bind; [apply eqv_native_fetch|]. intro. apply eqv_parse_html.
    - eapply eqv_bind; [apply eqv_native_code|]. intro. now apply eqv_ret.
    - eapply eqv_bind; [apply Hload|]. intro. now apply eqv_ret.
    - eapply eqv_bind; [apply Hload|]. intros [h e]. cbn [rload fst snd]. eapply eqv_bind; [apply eqv_set_vars|]. intro. apply eqv_ret. symmetry. apply rv_of_html.
    - apply eqv_fail.
  Qed.
End Natives.
End Shift.
