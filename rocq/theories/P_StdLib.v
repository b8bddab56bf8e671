(** What the functions of the standard library do (C61). *)
From Verif Require Import S_Html S_Sequence P_Html P_Sequence P_Stable S_Scope P_Built P_State P_Scope P_Std S_Std P_StdHeap.
From Verif Require Import Base BaseFacts M_Text M_Names M_TagInfo M_Html M_Sequence M_Path M_Types M_Diag M_Ast M_Value M_State M_Matcher M_Binder M_Native M_Eval M_Std P_StdRun P_Coerce P_Native.

Lemma predefined n f : ngetm (match nth_error std_heap 2 with Some f => fr_locals f | None => [] end) n = Some (VFunc f) -> Predefined n f.
Proof.
  intros H s S. destruct (starts_heap s S) as [-> ->]. destruct (nth_error std_heap 2) as [fr|] eqn:E; [|discriminate].
  exists fr. auto.
Qed.
Lemma predefined_in d n f : ngetm (match ngetm (match nth_error std_heap 2 with Some f => fr_locals f | None => [] end) d with Some (VDict vs) => vs | _ => [] end) n = Some (VFunc f) ->
  PredefinedIn d n f.
Proof.
  intros H s S. destruct (starts_heap s S) as [-> ->]. destruct (nth_error std_heap 2) as [fr|] eqn:E; [|discriminate].
  destruct (ngetm (fr_locals fr) d) as [[]|] eqn:Ed; try discriminate. exists vs. split; auto. exists fr. auto.
Qed.
Lemma later_heap s : Later s -> exists more, st_heap s = std_heap ++ more.
Proof. intros (s0 & more & S & E). destruct (starts_heap s0 S) as [H _]. exists more. now rewrite E, H. Qed.

Lemma gives_body X n c sig body bs v : c < 3 ->
  (forall s more k t w, coerce t v = inl w -> exists j f' more', forall fuel,
     e_node (evals_n X (j + fuel)) body t (sc s (std_heap ++ more) (Frame (Some c) bs []) k)
     = Ok w (set_stack (length (std_heap ++ more) :: k) (set_heap ((std_heap ++ more) ++ f' :: more') s))) ->
  Gives X (FClosure n c sig body) bs v.
Proof.
  intros Hc H s t w src Hl C. destruct (later_heap s Hl) as [more Hm].
  destruct (H s more (st_stack s) t w C) as (j & f' & more' & Hj). exists (S j), (f' :: more'). intros fuel L.
  replace fuel with (S (j + (fuel - S j))) by lia. cbn [evals_n step e_call evaluate_call].
  apply (in_call c bs _ s w f' more' (length (st_heap s) :: st_stack s)); [|rewrite Hm; apply Hj|reflexivity].
  rewrite Hm, app_length. cbn. lia.
Qed.

Lemma html_text_block s : block_kind (html_text s) = None.
Proof. unfold html_text. destruct s as [|c [|d s]]; try reflexivity. destruct (c =? 32)%N; [reflexivity|]. now destruct (c =? 10)%N. Qed.
Lemma of_html_block h : exists h', to_html (of_html h) = Some h' /\ block_kind h' = block_kind h.
Proof. destruct h; eexists; (split; [reflexivity|]); try reflexivity. apply html_text_block. Qed.
Lemma inline_html v w : coerce TInline v = inl w -> exists h, to_html w = Some h /\ block_kind h = None.
Proof.
  intro H. assert (G : forall h, (if html_is_block h then inr (TypeErr (ExpectedWas TInline (get_type v))) else inl (of_html h)) = inl w ->
    exists h, to_html w = Some h /\ block_kind h = None).
  { intros h E. unfold html_is_block in E. destruct (block_kind h) eqn:Eb; [discriminate|]. inversion E; subst.
    destruct (of_html_block h) as (h' & E1 & E2). exists h'. split; congruence. }
  change (coerce_base TInline v = inl w) in H. destruct v; cbn [coerce_base] in H; try discriminate; try (exact (G (compile_value _) H)).
  2: { apply (G (compile_value (VRegex r))). exact H. }
  inversion H; subst; eexists; split; [reflexivity|]; apply html_text_block.
Qed.
Lemma str_html v w : coerce TStr v = inl w -> exists s, w = VStr s.
Proof. intro H. destruct v; cbn in H; try discriminate; try (inversion H; subst; eauto). Qed.
Lemma html_coerce w h : to_html w = Some h -> coerce THtml w = inl w.
Proof. destruct w; try discriminate; reflexivity. Qed.

(** the parameters as they are bound *)
Lemma trimmed_one k p h : Normal h ->
  match k with
  | AllowBlock n => content_kind_for n = RequireInlineNoLineBreaks
  | RequireInline | RequireInlineNoLineBreaks => block_kind h = None
  | _ => False
  end -> exists h', Trimmed h h' /\ compile_items k p [Piece h] = Ret ([], h').
Proof.
  intros N K. destruct (html_is_whitespace h) eqn:W.
  - exists HEmpty. split; [|now apply one_white]. split; [reflexivity|]. intro A. destruct A. now apply is_whitespace_events.
  - exists h. split; [split; auto|].
    + intro A. apply (AllWhite_is_whitespace h N) in A. congruence.
    + apply one_in; auto. destruct k; try contradiction; auto.
Qed.
Lemma gives_wrap X n tag sig v w h attrs bs l :
  ngetm bs v = Some w -> to_html w = Some h -> Normal h ->
  (exists h', Trimmed h h' /\ compile_items (content_kind_for tag) (Some tag) [Piece h] = Ret ([], h')) ->
  (forall fuel s k h0, compile_attrs (evals_n X (S fuel)) l [] (sc s h0 (Frame (Some 1) bs []) k) = Ok attrs (sc s h0 (Frame (Some 1) bs []) k)) ->
  exists h', Trimmed h h' /\
    Gives X (FClosure n 1 sig (ETag (TNLit tag) l [AExpr (EName (NSimple v))])) bs (VHtml (HTag tag attrs h')).
Proof.
  intros Hv Hh N (h' & T & C) A. exists h'. split; [exact T|]. apply gives_body; [lia|]. intros s more k t x E.
  exists 2, (Frame (Some 1) bs []), []. intro fuel. cbn [plus]. apply ev_tag with (h := HTag tag attrs h'); [|exact E].
  eapply tag_pieces; [apply A| |exact C].
  eapply pc_expr with (v := w); [|exact Hh|constructor].
  apply ev_name with (v := w); [now apply get_local|eapply html_coerce; eauto].
Qed.

(** ** Matching *)
(** the current scope [f] is at position [length h], and the scopes [more] were made after it *)
Definition cur (s : st) (h : list frame) (f : frame) (more : list frame) (k : list nat) : st :=
  set_stack (length h :: k) (set_heap (h ++ f :: more) s).
Lemma cur_local s h f more k n v : ngetm (fr_locals f) n = Some v -> get_var n (cur s h f more k) = Ok v (cur s h f more k).
Proof.
  intro H. rewrite (get_var_eq n _ (length h) k) by reflexivity. unfold frame_get. change (st_heap (cur s h f more k)) with (h ++ f :: more).
  rewrite (fg_step _ _ _ f) by apply nth_last. now rewrite H.
Qed.
(** the current scope is a child of [f] *)
Definition child (s : st) (h : list frame) (f : frame) (more : list frame) (k : list nat) (locals : nmap value) : st :=
  sc s (h ++ f :: more) (Frame (Some (length h)) locals []) (length h :: k).
Lemma child_local s h f more k l n v : ngetm l n = Some v -> get_var n (child s h f more k l) = Ok v (child s h f more k l).
Proof. intro H. now apply get_local. Qed.
Lemma child_heap s h f more k l : st_heap (child s h f more k l) = h ++ f :: more ++ [Frame (Some (length h)) l []].
Proof. cbn. now rewrite <- app_assoc. Qed.
Lemma child_outer s h f more k l n v : ngetm l n = None -> ngetm (fr_locals f) n = Some v ->
  get_var n (child s h f more k l) = Ok v (child s h f more k l).
Proof.
  intros N H. rewrite (get_var_eq n _ (length (h ++ f :: more)) (length h :: k)) by reflexivity. unfold frame_get.
  rewrite (fg_step _ _ _ (Frame (Some (length h)) l [])) by apply nth_last. cbn [fr_locals fr_parent]. rewrite N.
  rewrite child_heap, app_length. cbn [length]. rewrite Nat.add_succ_r.
  rewrite (fg_step _ _ _ f); [now rewrite H|]. apply nth_last.
Qed.
Lemma child_native s rest f more k l n v : ngetm l n = None -> ngetm (fr_locals f) n = None -> fr_parent f = Some 1 ->
  ngetm (match nth_error std_heap 1 with Some f => fr_locals f | None => [] end) n = None ->
  ngetm (fr_locals native_frame) n = Some v ->
  get_var n (child s (std_heap ++ rest) f more k l) = Ok v (child s (std_heap ++ rest) f more k l).
Proof.
  intros N N' P Ns H. rewrite (get_var_eq n _ (length ((std_heap ++ rest) ++ f :: more)) (length (std_heap ++ rest) :: k)) by reflexivity.
  unfold frame_get.
  rewrite (fg_step _ _ _ (Frame (Some (length (std_heap ++ rest))) l [])) by apply nth_last. cbn [fr_locals fr_parent]. rewrite N.
  rewrite child_heap, app_length. cbn [length]. rewrite Nat.add_succ_r.
  rewrite (fg_step _ _ _ f) by apply nth_last. rewrite N', P.
  rewrite !app_length. change (length std_heap) with 3. cbn [plus].
  rewrite <- !app_assoc. rewrite (fg_step _ _ 1 (match nth_error std_heap 1 with Some f => f | None => native_frame end)) by reflexivity.
  destruct (nth_error std_heap 1) as [f1|] eqn:E1; [|discriminate]. rewrite Ns. injection E1 as <-. cbn [fr_parent].
  rewrite (fg_step _ _ 0 native_frame) by reflexivity. now rewrite H.
Qed.
Lemma bind_child s h f more k l n v : ngetm l n = None ->
  bind_one n v (child s h f more k l) = Ok true (child s h f more k (ninsert l n v)).
Proof. intro H. unfold child at 1. rewrite bind_one_fresh by exact H. reflexivity. Qed.

Section Branches.
  Variables (eval : expr -> ty -> EM value) (captures : str -> str -> option (list (option str))).
  Notation match_branches := (match_branches eval captures).
  Notation bind_pattern := (bind_pattern eval captures).
  Variables (s : st) (h : list frame) (f : frame) (k : list nat).

  Lemma in_child {A} (m : EM A) more :
    in_child_frame m (cur s h f more k) =
    match m (child s h f more k []) with
    | Ok a s => Ok a (set_stack (List.tl (st_stack s)) s)
    | Err e s => Err e (set_stack (List.tl (st_stack s)) s)
    | Crash c => Crash c
    | NoFuel => NoFuel
    end.
  Proof.
    unfold in_child_frame, bind at 1, frame_id. cbn [st_stack cur set_stack]. rewrite in_call_frame_eq.
    replace (length h <? length (st_heap (cur s h f more k))) with true; [reflexivity|].
    symmetry. apply Nat.ltb_lt. cbn. rewrite app_length. cbn. lia.
  Qed.
  Lemma branch_yes p handler brs v t more l w :
    bind_pattern p v (child s h f more k []) = Ok true (child s h f more k l) ->
    eval handler t (child s h f more k l) = Ok w (child s h f more k l) ->
    match_branches ((p, handler) :: brs) v t (cur s h f more k) = Ok w (cur s h f (more ++ [Frame (Some (length h)) l []]) k).
  Proof.
    intros B E. cbn [M_Matcher.match_branches]. unfold bind at 1. rewrite in_child. unfold bind. rewrite B, E. cbn [ret].
    unfold child, sc, cur. cbn. now rewrite <- app_assoc.
  Qed.
  Lemma branch_err p handler brs v t more l e d :
    bind_pattern p v (child s h f more k []) = Ok true (child s h f more k l) ->
    eval handler t (child s h f more k l) = Err e (set_sink d (child s h f more k l)) ->
    match_branches ((p, handler) :: brs) v t (cur s h f more k) = Err e (set_sink d (cur s h f (more ++ [Frame (Some (length h)) l []]) k)).
  Proof.
    intros B E. cbn [M_Matcher.match_branches]. unfold bind at 1. rewrite in_child. unfold bind. rewrite B, E. cbn [ret].
    unfold child, sc, cur. cbn. now rewrite <- app_assoc.
  Qed.
  Lemma branch_no p handler brs v t more l :
    bind_pattern p v (child s h f more k []) = Ok false (child s h f more k l) ->
    match_branches ((p, handler) :: brs) v t (cur s h f more k) = match_branches brs v t (cur s h f (more ++ [Frame (Some (length h)) l []]) k).
  Proof.
    intros B. cbn [M_Matcher.match_branches]. unfold bind at 1. rewrite in_child. unfold bind at 1. rewrite B. cbn [ret].
    f_equal. unfold child, sc, cur. cbn. now rewrite <- app_assoc.
  Qed.
End Branches.
Lemma ev_match X fuel subject brs t s v r : e_node (evals_n X fuel) subject TAny s = Ok v s ->
  match_branches (e_node (evals_n X fuel)) (x_captures X) brs v t s = r -> e_node (evals_n X (S fuel)) (EMatch subject brs) t s = r.
Proof. intros E H. cbn [evals_n e_node step evaluate_node]. unfold evaluate_match, bind. now rewrite E. Qed.
