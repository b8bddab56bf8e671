(** Proofs for C56: computations that do not see where in the heap their frames are. *)
From Verif Require Import Base BaseFacts M_Int M_Text P_Text M_Names M_Html M_Path M_SliceRef M_Types M_Token M_Diag M_Ast M_Value M_State M_Matcher
  M_Binder M_Native M_Eval S_Scope P_State S_Alone P_Shift1.

Lemma nth_ext_eq A (a b : list A) : (forall i, nth_error a i = nth_error b i) -> a = b.
Proof.
  revert b. induction a as [|x a IH]; intros [|y b] H; [reflexivity|discriminate (H 0)|discriminate (H 0)|].
  f_equal; [injection (H 0); auto|]. apply IH. intro i. exact (H (S i)).
Qed.
Lemma nth_skipn A (l : list A) n i : nth_error (skipn n l) i = nth_error l (n + i).
Proof. revert l. induction n as [|n IH]; intro l; [reflexivity|]. destruct l; [now rewrite nth_error_nil || destruct i|]. apply IH. Qed.
Lemma nth_firstn A (l : list A) n i : i < n -> nth_error (firstn n l) i = nth_error l i.
Proof.
  revert l i. induction n as [|n IH]; intros l i H; [lia|]. destruct l as [|x l]; [reflexivity|]. destruct i as [|i]; [reflexivity|].
  cbn. apply IH. lia.
Qed.

Section Shift.
Variable base : nat.
Variable extra : list frame.
Variable old : nmap module_state.
Variable trace : list str.
Definition r (i : nat) : nat := if i <? base then i else i + length extra.
Notation rv := (rv r). Notation rf := (rf r). Notation rp := (rp r). Notation rs := (rs r). Notation rpp := (rpp r).
Definition rfr (f : frame) : frame := Frame (option_map r (fr_parent f)) (rm rv (fr_locals f)) (fr_implicit f).
Definition rmod (m : module_state) : module_state := match m with MLoaded h e => MLoaded h (rm rv e) | MBusy => MBusy | MError => MError end.
Definition sh_heap (h : list frame) : list frame := List.map rfr (firstn base h) ++ extra ++ List.map rfr (skipn base h).
Definition sh (s : st) : st :=
  St (sh_heap (st_heap s)) (List.map r (st_stack s)) (st_sink s) (rm rv (st_exports s)) (old ++ rm rmod (st_mods s)) (st_out s)
     (st_uids s) (r (st_root s)) (trace ++ st_trace s).
Definition wf (s : st) : Prop := base <= length (st_heap s) /\ WellScoped (st_heap s) /\ st_root s < length (st_heap s).
Definition ext (s s1 : st) : Prop := forall k, nhas (st_mods s) k = true -> nhas (st_mods s1) k = true.
Definition disj (s : st) : Prop := forall k, nhas (st_mods s) k = true -> nhas old k = false.

Lemma r_lt i j : i < j -> r i < r j.
Proof. unfold r. intro. destruct (Nat.ltb_spec i base), (Nat.ltb_spec j base); lia. Qed.
Lemma r_inj i j : r i = r j -> i = j.
Proof. unfold r. destruct (Nat.ltb_spec i base), (Nat.ltb_spec j base); lia. Qed.
Lemma sh_heap_length h : base <= length h -> length (sh_heap h) = r (length h).
Proof.
  intro H. unfold sh_heap, r. rewrite !app_length, !map_length, firstn_length, skipn_length.
  destruct (Nat.ltb_spec (length h) base); lia.
Qed.
Lemma sh_heap_nth h i : base <= length h -> nth_error (sh_heap h) (r i) = option_map rfr (nth_error h i).
Proof.
  intro H. unfold sh_heap, r. assert (L : length (List.map rfr (firstn base h)) = base) by (rewrite map_length, firstn_length; lia).
  destruct (Nat.ltb_spec i base).
  - rewrite nth_error_app1 by lia. rewrite nth_error_map, nth_firstn by lia. reflexivity.
  - rewrite nth_error_app2 by lia. rewrite nth_error_app2 by lia. rewrite nth_error_map, nth_skipn. do 2 f_equal. lia.
Qed.
Lemma sh_heap_extra h j : base <= length h -> (forall i, j <> r i) -> nth_error (sh_heap h) j = nth_error extra (j - base).
Proof.
  intros H N. unfold sh_heap. assert (L : length (List.map rfr (firstn base h)) = base) by (rewrite map_length, firstn_length; lia).
  destruct (Nat.lt_ge_cases j base) as [J|J].
  { exfalso. apply (N j). unfold r. destruct (Nat.ltb_spec j base); lia. }
  destruct (Nat.lt_ge_cases j (base + length extra)) as [K|K].
  - rewrite nth_error_app2 by lia. rewrite nth_error_app1 by lia. f_equal. lia.
  - exfalso. apply (N (j - length extra)). unfold r. destruct (Nat.ltb_spec (j - length extra) base); lia.
Qed.
Lemma r_dec j : (exists i, j = r i) \/ (forall i, j <> r i).
Proof.
  destruct (Nat.lt_ge_cases j base) as [J|J].
  { left. exists j. unfold r. destruct (Nat.ltb_spec j base); lia. }
  destruct (Nat.lt_ge_cases j (base + length extra)) as [K|K].
  - right. intros i ->. revert J K. unfold r. destruct (Nat.ltb_spec i base); lia.
  - left. exists (j - length extra). unfold r. destruct (Nat.ltb_spec (j - length extra) base); lia.
Qed.
Lemma sh_heap_snoc h f : base <= length h -> sh_heap (h ++ [f]) = sh_heap h ++ [rfr f].
Proof.
  intro H. unfold sh_heap. rewrite firstn_app, skipn_app. replace (base - length h) with 0 by lia. cbn [firstn skipn].
  rewrite app_nil_r, map_app, <- !app_assoc. reflexivity.
Qed.
Lemma sh_heap_update h i g g' : base <= length h -> (forall f, g' (rfr f) = rfr (g f)) -> update (sh_heap h) (r i) g' = sh_heap (update h i g).
Proof.
  intros H G. apply nth_ext_eq. intro j. assert (H' : base <= length (update h i g)) by (rewrite update_length; exact H).
  destruct (r_dec j) as [[j' ->]|N].
  - rewrite sh_heap_nth by exact H'. destruct (Nat.eq_dec j' i) as [->|E].
    + destruct (nth_error h i) as [f|] eqn:F.
      * rewrite (update_same _ _ _ _ _ F). rewrite (update_same _ _ _ _ (rfr f)); [cbn; now rewrite G|]. rewrite sh_heap_nth, F by exact H. reflexivity.
      * unfold update. rewrite F, sh_heap_nth, F by exact H. cbn [option_map]. rewrite sh_heap_nth, F by exact H. reflexivity.
    + rewrite !update_other by (try exact E; intro Q; apply r_inj in Q; congruence). apply sh_heap_nth, H.
  - rewrite update_other by auto. rewrite !sh_heap_extra by assumption. reflexivity.
Qed.
Lemma sh_get n imp h : base <= length h -> WellScoped h -> forall fuel fuel' i, i < fuel -> r i < fuel' ->
  frame_get_fuel fuel' (sh_heap h) (r i) n imp = option_map rv (frame_get_fuel fuel h i n imp).
Proof.
  intros H W fuel. induction fuel as [|fuel IH]; intros fuel' i L L'; [lia|]. destruct fuel' as [|fuel']; [lia|]. cbn [frame_get_fuel].
  rewrite sh_heap_nth by exact H. destruct (nth_error h i) as [f|] eqn:F; [|reflexivity]. cbn [option_map rfr fr_implicit fr_locals fr_parent].
  rewrite rm_get. destruct (negb imp || mem n (fr_implicit f)).
  - destruct (ngetm (fr_locals f) n); [reflexivity|]. cbn [option_map]. destruct (fr_parent f) as [p|] eqn:P; [|reflexivity].
    cbn [option_map]. assert (p < i) by (eapply W; eauto). pose proof (r_lt p i). apply IH; lia.
  - destruct (fr_parent f) as [p|] eqn:P; [|reflexivity]. cbn [option_map]. assert (p < i) by (eapply W; eauto). pose proof (r_lt p i). apply IH; lia.
Qed.

Definition Eqv {A} (ra : A -> A) (m m' : EM A) : Prop := forall s, wf s ->
  match m s with
  | Ok a s1 => wf s1 /\ ext s s1 /\ (disj s1 -> m' (sh s) = Ok (ra a) (sh s1))
  | Err e s1 => wf s1 /\ ext s s1 /\ (disj s1 -> m' (sh s) = Err e (sh s1))
  | _ => True
  end.
Definition idf {A} (a : A) : A := a.
Lemma ext_refl s : ext s s. Proof. intros k H. exact H. Qed.
Lemma ext_trans a b c : ext a b -> ext b c -> ext a c. Proof. intros H K k I. auto. Qed.
Lemma disj_ext s s1 : ext s s1 -> disj s1 -> disj s. Proof. intros E D k H. apply D. now apply E. Qed.
Hint Resolve ext_refl : core.

Lemma eqv_ret A (ra : A -> A) a a' : a' = ra a -> Eqv ra (ret a) (ret a').
Proof. intros -> s W. cbn. auto. Qed.
Lemma eqv_fail A (ra : A -> A) e : Eqv ra (fail e) (fail e).
Proof. intros s W. cbn. auto. Qed.
Lemma eqv_crash A (ra : A -> A) c m : Eqv ra (crash c) m.
Proof. intros s W. exact I. Qed.
Lemma eqv_nofuel A (ra : A -> A) m : Eqv ra (fun _ => NoFuel) m.
Proof. intros s W. exact I. Qed.
Lemma eqv_pure A (ra : A -> A) c (o o' : outcome A) : (forall a, o = Ret a -> o' = Ret (ra a)) -> Eqv ra (pure c o) (pure c o').
Proof. intros H s W. unfold pure. destruct o as [a| |]; [|exact I|exact I]. rewrite (H a eq_refl). auto. Qed.
Lemma eqv_bind A B (ra : A -> A) (rb : B -> B) m m' (f f' : A -> EM B) : Eqv ra m m' -> (forall a, Eqv rb (f a) (f' (ra a))) ->
  Eqv rb (bind m f) (bind m' f').
Proof.
  intros Hm Hf s W. unfold bind. specialize (Hm s W). destruct (m s) as [a s1|e s1| |]; [|destruct Hm as (W1 & E1 & Q1); split; [exact W1|split; [exact E1|intro D; now rewrite (Q1 D)]]|exact I|exact I].
  destruct Hm as (W1 & E1 & Q1). specialize (Hf a s1 W1). destruct (f a s1) as [b s2|e s2| |]; [| |exact I|exact I];
    destruct Hf as (W2 & E2 & Q2); (split; [exact W2|split; [eapply ext_trans; eauto|]]); intro D;
    rewrite (Q1 (disj_ext _ _ E2 D)); auto.
Qed.
Definition rsum {A} (ra : A -> A) (x : A + papyri_error) : A + papyri_error := match x with inl a => inl (ra a) | inr e => inr e end.
Lemma eqv_catch A (ra : A -> A) m m' : Eqv ra m m' -> Eqv (rsum ra) (catch m) (catch m').
Proof.
  intros H s W. unfold catch. specialize (H s W). destruct (m s) as [a s1|e s1| |]; try exact I;
    destruct H as (W1 & E1 & Q1); (split; [exact W1|split; [exact E1|]]); intro D; rewrite (Q1 D); reflexivity.
Qed.
Lemma eqv_or_report A (ra : A -> A) m m' : Eqv ra m m' -> Eqv ra (or_report m) (or_report m').
Proof.
  intros H s W. unfold or_report. specialize (H s W). destruct (m s) as [a s1|e s1| |]; try exact I;
    destruct H as (W1 & E1 & Q1); (split; [exact W1|split; [exact E1|]]); intro D; rewrite (Q1 D); reflexivity.
Qed.
Lemma eqv_report e : Eqv idf (report e) (report e).
Proof. intros s W. cbn. split; [exact W|]. split; [intros k H; exact H|reflexivity]. Qed.
Lemma eqv_lift A (ra : A -> A) x x' : x' = rsum ra x -> Eqv ra (lift x) (lift x').
Proof. intros ->. destruct x; [now apply eqv_ret|apply eqv_fail]. Qed.
Lemma eqv_coerce v t : Eqv rv (coerceM v t) (coerceM (rv v) t).
Proof. apply eqv_lift. rewrite rv_coerce. reflexivity. Qed.
Lemma eqv_frame_id : Eqv r frame_id frame_id.
Proof. intros s W. unfold frame_id. cbn [sh st_stack]. destruct (st_stack s); [exact I|]. auto. Qed.
Lemma eqv_lookup n imp : Eqv (option_map rv) (frame_lookup n imp) (frame_lookup n imp).
Proof.
  intros s W. unfold frame_lookup, bind, frame_id, gets. cbn [sh st_stack st_heap]. destruct (st_stack s) as [|i k] eqn:E; [exact I|].
  cbn [List.map]. split; [exact W|]. split; [auto|]. intros _. unfold frame_get. destruct W as (W1 & W2 & _).
  rewrite (sh_get n imp (st_heap s) W1 W2 (S i)) by lia. reflexivity.
Qed.
Lemma rfr_has n f : fr_has n (rfr f) = fr_has n f.
Proof. unfold fr_has. cbn. apply rm_has. Qed.
Lemma eqv_has n : Eqv idf (frame_has n) (frame_has n).
Proof.
  intros s W. unfold frame_has, bind, frame_id, gets. cbn [sh st_stack st_heap]. destruct (st_stack s) as [|i k] eqn:E; [exact I|].
  cbn [List.map]. split; [exact W|]. split; [auto|]. intros _. cbn [sh st_heap]. rewrite sh_heap_nth by apply W. destruct (nth_error (st_heap s) i); [|reflexivity].
  cbn [option_map]. now rewrite rfr_has.
Qed.
Lemma wf_update s i g : (forall f, fr_parent (g f) = fr_parent f) -> wf s -> wf (set_heap (update (st_heap s) i g) s).
Proof.
  intros G (A & B & C). unfold wf. cbn [st_heap set_heap st_root]. rewrite update_length. repeat split; auto.
  intros j f p Hj Hp. destruct (Nat.eq_dec j i) as [->|Hn].
  - destruct (nth_error (st_heap s) i) as [f0|] eqn:E0.
    + rewrite (update_same _ _ _ _ _ E0) in Hj. injection Hj as <-. rewrite G in Hp. eauto.
    + unfold update in Hj. rewrite E0 in Hj. congruence.
  - rewrite update_other in Hj by exact Hn. eauto.
Qed.
Lemma eqv_with_frame g g' : (forall f, fr_parent (g f) = fr_parent f) -> (forall f, g' (rfr f) = rfr (g f)) ->
  Eqv idf (with_frame g) (with_frame g').
Proof.
  intros P G s W. unfold with_frame, bind, frame_id, modify. cbn [sh st_stack st_heap]. destruct (st_stack s) as [|i k] eqn:E; [exact I|].
  cbn [List.map]. split; [now apply wf_update|]. split; [intros k0 H; exact H|]. intros _. destruct W as (W1 & _).
  cbn [sh st_heap]. rewrite (sh_heap_update _ _ g g') by assumption. unfold sh, set_heap. st_simpl. rewrite E. reflexivity.
Qed.
Lemma rfr_set n v b f : fr_set n (rv v) b (rfr f) = rfr (fr_set n v b f).
Proof. unfold fr_set, rfr. cbn. f_equal. apply rm_insert. Qed.
Lemma rfr_unset n f : fr_unset n (rfr f) = rfr (fr_unset n f).
Proof. unfold fr_unset, rfr. cbn. f_equal. apply rm_remove. Qed.
Lemma rfr_unset_all ns : forall f, fr_unset_all ns (rfr f) = rfr (fr_unset_all ns f).
Proof. unfold fr_unset_all. induction ns as [|n ns IH]; intro f; [reflexivity|]. cbn [fold_left]. rewrite rfr_unset. apply IH. Qed.
Lemma rfr_set_missing ns v : forall f, fr_set_missing ns (rv v) (rfr f) = rfr (fr_set_missing ns v f).
Proof.
  unfold fr_set_missing. induction ns as [|n ns IH]; intro f; [reflexivity|]. cbn [fold_left]. rewrite rfr_has.
  destruct (fr_has n f); [apply IH|]. rewrite rfr_set. apply IH.
Qed.
Lemma eqv_set n v b : Eqv idf (frame_set n v b) (frame_set n (rv v) b).
Proof.
  unfold frame_set. eapply eqv_bind; [apply eqv_has|]. intro had. eapply eqv_bind; [apply eqv_with_frame; [reflexivity|apply rfr_set]|].
  intro. now apply eqv_ret.
Qed.
Lemma wf_push s c bs : c < length (st_heap s) -> wf s -> wf (push_scope c bs s).
Proof.
  intros H (A & B & C). unfold wf, push_scope. st_simpl. rewrite app_length. cbn [length]. split; [lia|]. split; [|lia].
  now apply running_scoped_snoc.
Qed.
Lemma sh_push s c bs : wf s -> push_scope (r c) (rm rv bs) (sh s) = sh (push_scope c bs s).
Proof.
  intros (A & _). unfold push_scope, sh. st_simpl. rewrite sh_heap_snoc, sh_heap_length by exact A. reflexivity.
Qed.
Lemma wf_stack s k : wf s -> wf (set_stack k s). Proof. intro H; exact H. Qed.
Lemma eqv_in_call_frame A (ra : A -> A) c bs m m' : Eqv ra m m' -> Eqv ra (in_call_frame c bs m) (in_call_frame (r c) (rm rv bs) m').
Proof.
  intros H s W. rewrite !in_call_frame_eq. cbn [sh st_heap]. rewrite sh_heap_length by apply W.
  destruct (Nat.ltb_spec c (length (st_heap s))) as [L|L]; [|exact I].
  assert (L' : r c <? r (length (st_heap s)) = true) by (apply Nat.ltb_lt; now apply r_lt). rewrite L'.
  pose proof (H (push_scope c bs s) (wf_push s c bs L W)) as Q. fold (sh s). rewrite sh_push by exact W.
  destruct (m (push_scope c bs s)) as [a s1|e s1| |]; try exact I; destruct Q as (W1 & E1 & Q1); (split; [exact W1|split; [exact E1|]]);
    intro D; rewrite (Q1 D); unfold sh, set_stack; st_simpl; now destruct (st_stack s1).
Qed.
Lemma eqv_in_child_frame A (ra : A -> A) m m' : Eqv ra m m' -> Eqv ra (in_child_frame m) (in_child_frame m').
Proof. intro H. unfold in_child_frame. eapply eqv_bind; [apply eqv_frame_id|]. intro i. apply (eqv_in_call_frame _ _ _ []). exact H. Qed.
Lemma eqv_export n v : Eqv idf (M_State.export n v) (M_State.export n (rv v)).
Proof.
  intros s W. unfold M_State.export, bind, gets, modify. cbn [sh st_exports]. rewrite rm_has. fold (sh s).
  assert (E : set_exports (ninsert (rm rv (st_exports s)) n (rv v)) (sh s) = sh (set_exports (ninsert (st_exports s) n v) s)).
  { unfold sh, set_exports. st_simpl. rewrite rm_insert. reflexivity. }
  destruct (nhas (st_exports s) n).
  - cbn. split; [exact W|]. split; [intros k H; exact H|]. intros _. unfold sh, set_sink, set_exports. st_simpl. rewrite rm_insert. reflexivity.
  - cbn [ret]. unfold ret. split; [exact W|]. split; [intros k H; exact H|]. intros _. cbn [st_exports sh]. rewrite E. reflexivity.
Qed.
Lemma eqv_uid d b n : Eqv idf (new_unique_id d b n) (new_unique_id d b n).
Proof.
  intros s W. unfold new_unique_id. cbn [sh st_uids]. destruct (get_unique_id d (st_uids s) b n) as [[id used]| |]; try exact I.
  split; [exact W|]. split; [intros k H; exact H|]. reflexivity.
Qed.
Lemma eqv_out p h : Eqv idf (push_out_file p h) (push_out_file p h).
Proof.
  intros s W. unfold push_out_file. cbn [sh st_out]. destruct (st_out s) as [o|]; [|auto]. destruct (try_push o p h) as [[|] o']; [|auto].
  split; [exact W|]. split; [intros k H; exact H|]. reflexivity.
Qed.
Lemma wf_new_compiler s : wf s -> wf (new_compiler s).
Proof.
  intros (A & B & C). unfold wf, new_compiler. st_simpl. rewrite app_length. cbn [length]. split; [lia|]. split; [|lia].
  now apply running_scoped_snoc.
Qed.
Lemma sh_new_compiler s : wf s -> new_compiler (sh s) = sh (new_compiler s).
Proof.
  intros (A & _). unfold new_compiler, sh. st_simpl. rewrite sh_heap_snoc, sh_heap_length by exact A. reflexivity.
Qed.
Lemma with_compiler_eq A (m : EM A) s0 : with_compiler m s0 =
      match m (new_compiler s0) with
      | Ok a s1 => Ok (a, st_exports s1) (set_stack (st_stack s0) (set_exports (st_exports s0) s1))
      | Err e s1 => Err e (set_stack (st_stack s0) (set_exports (st_exports s0) s1))
      | Crash c => Crash c
      | NoFuel => NoFuel
      end.
Proof. reflexivity. Qed.
Lemma eqv_compiler A (ra : A -> A) m m' : Eqv ra m m' -> Eqv (fun x => (ra (fst x), rm rv (snd x))) (with_compiler m) (with_compiler m').
Proof.
  intros H s W. rewrite !with_compiler_eq. pose proof (H (new_compiler s) (wf_new_compiler s W)) as Q. rewrite sh_new_compiler by exact W.
  destruct (m (new_compiler s)) as [a s1|e s1| |]; try exact I; destruct Q as (W1 & E1 & Q1); (split; [exact W1|split; [exact E1|]]);
    intro D; rewrite (Q1 D); reflexivity.
Qed.
Lemma get_old (l : nmap module_state) k : nhas old k = false -> ngetm (old ++ l) k = ngetm l k.
Proof.
  unfold nhas. induction old as [|[k' v] o IH]; [reflexivity|]. cbn. destruct (str_eqb k k'); [discriminate|]. exact IH.
Qed.
Lemma insert_old (l : nmap module_state) k v : nhas old k = false -> ninsert (old ++ l) k v = old ++ ninsert l k v.
Proof.
  unfold nhas. induction old as [|[k' w] o IH]; [reflexivity|]. cbn. destruct (str_eqb k k'); [discriminate|]. intro H. f_equal. now apply IH.
Qed.
Lemma has_insert (l : nmap module_state) k v : nhas (ninsert l k v) k = true.
Proof.
  unfold nhas. induction l as [|[k' w] l IH]; cbn; [now rewrite str_eqb_refl|]. destruct (str_eqb k k') eqn:E; cbn; rewrite E; [reflexivity|exact IH].
Qed.
Lemma has_insert_other (l : nmap module_state) k v k' : nhas l k' = true -> nhas (ninsert l k v) k' = true.
Proof.
  unfold nhas. induction l as [|[k0 w] l IH]; cbn; [discriminate|]. destruct (str_eqb k k0) eqn:E; cbn; destruct (str_eqb k' k0); auto.
Qed.
Definition rload (x : html * nmap value) : html * nmap value := (fst x, rm rv (snd x)).
Lemma eqv_cached p k m m' : Eqv rload m m' -> Eqv rload (cached p k m) (cached p k m').
Proof.
  intros H s W. unfold cached, bind, module_state_of, gets. cbn [sh st_mods]. fold (sh s). destruct (ngetm (st_mods s) k) as [x|] eqn:E.
  - assert (Hk : nhas (st_mods s) k = true) by (unfold nhas; now rewrite E).
    destruct x as [h e| |]; (split; [exact W|split; [auto|]]); intro D;
      rewrite get_old by (now apply D); rewrite rm_get, E; reflexivity.
  - rewrite load_module_eq.
    assert (W0 : wf (start_module k s)) by exact W.
    pose proof (H (start_module k s) W0) as Q.
    assert (X0 : nhas old k = false -> forall x, load_module k x (sh s) =
      match x (sh (start_module k s)) with
      | Ok (out, exports) s' => Ok (out, exports) (set_mods (ninsert (st_mods s') k (MLoaded out exports)) (set_out (st_out s) s'))
      | Err e s' => Err e (set_mods (ninsert (st_mods s') k MError) (set_out (st_out s) s'))
      | Crash c => Crash c
      | NoFuel => NoFuel
      end).
    { intros O x. rewrite load_module_eq. replace (start_module k (sh s)) with (sh (start_module k s)); [reflexivity|].
      unfold sh, start_module. st_simpl. rewrite insert_old by exact O. rewrite <- (rm_insert _ _ rmod). rewrite <- app_assoc. reflexivity. }
    destruct (m (start_module k s)) as [[out e] s1|e s1| |]; try exact I; destruct Q as (W1 & E1 & Q1); (split; [exact W1|split]).
    + intros k' Hk'. apply has_insert_other. apply E1. now apply has_insert_other.
    + intro D. assert (O : nhas old k = false) by (apply D; apply has_insert).
      rewrite get_old by exact O. rewrite rm_get, E. cbn [option_map]. rewrite (X0 O).
      rewrite Q1; [|intros k' Hk'; apply D; cbn; now apply has_insert_other]. cbn [rload fst snd].
      unfold sh, set_mods, set_out. st_simpl. rewrite insert_old by exact O. rewrite <- (rm_insert _ _ rmod). reflexivity.
    + intros k' Hk'. apply has_insert_other. apply E1. now apply has_insert_other.
    + intro D. assert (O : nhas old k = false) by (apply D; apply has_insert).
      rewrite get_old by exact O. rewrite rm_get, E. cbn [option_map]. rewrite (X0 O).
      rewrite Q1; [|intros k' Hk'; apply D; cbn; now apply has_insert_other].
      unfold sh, set_mods, set_out. st_simpl. rewrite insert_old by exact O. rewrite <- (rm_insert _ _ rmod). reflexivity.
Qed.
End Shift.
