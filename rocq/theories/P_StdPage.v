(** What the functions of the standard library do (C61): pages. *)
From Verif Require Import P_Match S_Html S_Sequence P_Html P_Sequence P_Stable S_Scope S_Match S_Call P_Built P_State P_Scope P_Std S_Std P_StdHeap S_Lib.
From Verif Require Import Base BaseFacts M_Text M_Names M_TagInfo M_Html M_Sequence M_Path M_Types M_Diag M_Ast M_Value M_State M_Matcher M_Binder M_Native M_Eval M_Std P_StdRun P_Coerce P_Native P_NativeCalls P_StdLib P_StdLib2 P_StdLib3 P_StdLib4 P_StdCall M_Token.

Definition f_page := Eval vm_compute in std "page".

(** ** A scope inside the scope of the function *)
Section Inner.
  Variables (s : st) (h : list frame) (f : frame) (k : list nat).
  Definition inner (l : nmap value) (more : list frame) : st := cur s (h ++ [f]) (Frame (Some (length h)) l []) more (length h :: k).
  Definition branch (l : nmap value) (more : list frame) (l' : nmap value) : st :=
    child s (h ++ [f]) (Frame (Some (length h)) l []) more (length h :: k) l'.

  Lemma inner_local l more n v : ngetm l n = Some v -> get_var n (inner l more) = Ok v (inner l more).
  Proof. intro H. now apply cur_local. Qed.
  Lemma inner_outer l more n v : ngetm l n = None -> ngetm (fr_locals f) n = Some v -> get_var n (inner l more) = Ok v (inner l more).
  Proof.
    intros N H. rewrite (get_var_eq n _ (length (h ++ [f])) (length h :: k)) by reflexivity. unfold frame_get.
    change (st_heap (inner l more)) with ((h ++ [f]) ++ Frame (Some (length h)) l [] :: more).
    rewrite (fg_step _ _ _ (Frame (Some (length h)) l [])) by apply nth_last. cbn [fr_locals fr_parent]. rewrite N.
    rewrite app_length. cbn [length]. rewrite Nat.add_1_r. rewrite (fg_step _ _ _ f); [now rewrite H|].
    rewrite <- app_assoc. apply nth_last.
  Qed.
  Lemma branch_outer l more l' n v : ngetm l' n = None -> ngetm l n = None -> ngetm (fr_locals f) n = Some v -> get_var n (branch l more l') = Ok v (branch l more l').
  Proof.
    intros N' N H. rewrite (get_var_eq n _ (length ((h ++ [f]) ++ Frame (Some (length h)) l [] :: more)) (length (h ++ [f]) :: length h :: k)) by reflexivity. unfold frame_get.
    unfold branch. rewrite child_heap.
    assert (L : length ((h ++ [f]) ++ Frame (Some (length h)) l [] :: more) = S (S (length h + length more))) by (rewrite !app_length; cbn; lia).
    rewrite (fg_step _ _ _ (Frame (Some (length (h ++ [f]))) l' [])).
    2: { change (Frame (Some (length h)) l [] :: more ++ [Frame (Some (length (h ++ [f]))) l' []]) with ((Frame (Some (length h)) l [] :: more) ++ [Frame (Some (length (h ++ [f]))) l' []]).
         rewrite app_assoc. apply nth_last. }
    cbn [fr_locals fr_parent]. rewrite N', L.
    rewrite (fg_step _ _ _ (Frame (Some (length h)) l [])) by apply nth_last. cbn [fr_locals fr_parent]. rewrite N.
    rewrite (fg_step _ _ _ f); [now rewrite H|]. rewrite <- app_assoc. apply nth_last.
  Qed.
  Lemma inner_set l more n v : ngetm l n = None -> set_var n v false (inner l more) = Ok tt (inner (ninsert l n v) more).
  Proof.
    intro N.
    assert (Hh : frame_has n (inner l more) = Ok false (inner l more)).
    { unfold frame_has, frame_id, bind, gets. change (st_stack (inner l more)) with (length (h ++ [f]) :: length h :: k). cbv iota beta.
      change (st_heap (inner l more)) with ((h ++ [f]) ++ Frame (Some (length h)) l [] :: more). rewrite nth_last. unfold fr_has, nhas. cbn [fr_locals]. now rewrite N. }
    unfold set_var, frame_set. unfold bind at 1 2. rewrite Hh. unfold with_frame, frame_id, bind, modify, ret.
    change (st_stack (inner l more)) with (length (h ++ [f]) :: length h :: k). cbv iota beta.
    change (st_heap (inner l more)) with ((h ++ [f]) ++ Frame (Some (length h)) l [] :: more).
    unfold update. rewrite nth_last. rewrite firstn_app, Nat.sub_diag, firstn_all, firstn_O, app_nil_r.
    replace (skipn (S (length (h ++ [f]))) ((h ++ [f]) ++ Frame (Some (length h)) l [] :: more)) with more; [reflexivity|].
    rewrite skipn_app, skipn_all2 by lia. now rewrite Nat.sub_succ_l, Nat.sub_diag by lia.
  Qed.
End Inner.

Lemma ev_verbatim X fuel x t s w : coerce t (VStr (get_verbatim_text x)) = inl w -> e_node (evals_n X (S fuel)) (EVerbatim x) t s = Ok w s.
Proof. intro C. cbn [evals_n e_node step evaluate_node]. unfold or_report, bind, ret, coerceM. now rewrite C. Qed.

(** the name without the slash *)
Lemma ev_slash X s h f k r : FindsSlash X std_regex r -> ngetm (fr_locals f) (lit "web_root") = Some (VStr r) ->
  exists more, forall fuel, e_node (evals_n X (S (S fuel)))
    (EMatch (EName (NSimple (lit "web_root"))) [(PRegex std_regex [lit "w"], EName (NSimple (lit "w"))); (PIgnore, EName (NSimple (lit "web_root")))]) TAny (inner s h f k [] [])
  = Ok (VStr (without_slash r)) (inner s h f k [] more).
Proof.
  intros F H. unfold FindsSlash in F.
  assert (N : forall fuel, e_node (evals_n X (S fuel)) (EName (NSimple (lit "web_root"))) TAny (inner s h f k [] []) = Ok (VStr r) (inner s h f k [] []))
    by (intro fuel; apply ev_name with (v := VStr r); [now apply inner_outer|reflexivity]).
  destruct (str_eqb (without_slash r) r) eqn:E.
  - apply str_eqb_eq in E. eexists. intro fuel. eapply ev_match; [apply N|].
    unfold inner. rewrite branch_no with (l := []).
    2: { cbn [bind_pattern]. rewrite F. reflexivity. }
    rewrite branch_yes with (l := []) (w := VStr r).
    + rewrite E. reflexivity.
    + reflexivity.
    + apply ev_name with (v := VStr r); [|reflexivity]. now apply branch_outer.
  - eexists. intro fuel. eapply ev_match; [apply N|].
    unfold inner. rewrite branch_yes with (l := [(lit "w", VStr (without_slash r))]) (w := VStr (without_slash r)).
    + reflexivity.
    + cbn [bind_pattern]. rewrite F. cbn [length Nat.eqb Nat.add List.tl bind_groups]. unfold and_then, bind. cbn [group_value].
      rewrite bind_child by reflexivity. reflexivity.
    + apply ev_name with (v := VStr (without_slash r)); [now apply child_local|reflexivity].
Qed.

(** a part that may be absent *)
Lemma ev_part X s h f k l more n v g : ngetm l (lit n) = None -> ngetm (fr_locals f) (lit n) = Some v -> Blocks v g -> content_kind_for (lit n) = REQUIRE_P ->
  exists more' w, (forall fuel, e_node (evals_n X (S (S (S fuel))))
    (EMatch (EName (NSimple (lit n))) [(PLiteralNone, EUnit); (PIgnore, ETag (TNLit (lit n)) [] [AExpr (EName (NSimple (lit n)))])]) THtml (inner s h f k l more)
  = Ok w (inner s h f k l more')) /\ to_html w = Some (from_iter (optional_tag n v g)).
Proof.
  intros Nl H (Hh & N & C & B) K. unfold optional_tag.
  assert (E : forall fuel, e_node (evals_n X (S (S fuel))) (EName (NSimple (lit n))) TAny (inner s h f k l more) = Ok v (inner s h f k l more))
    by (intro fuel; apply ev_name with (v := v); [now apply inner_outer|apply coerce_any]).
  destruct (is_unit v) eqn:U.
  - eexists. exists UNIT. split; [|reflexivity]. intro fuel. eapply ev_match; [apply E|]. unfold inner. rewrite branch_yes with (l := []) (w := UNIT).
    + reflexivity.
    + cbn [bind_pattern]. rewrite U. reflexivity.
    + reflexivity.
  - eexists. exists (VHtml (HTag (lit n) [] g)). split; [|reflexivity]. intro fuel. eapply ev_match; [apply E|]. unfold inner. rewrite branch_no with (l := []).
    2: { cbn [bind_pattern]. rewrite U. reflexivity. }
    rewrite branch_yes with (l := []) (w := VHtml (HTag (lit n) [] g)).
    + reflexivity.
    + reflexivity.
    + eapply ev_tag; [|reflexivity]. eapply tag_pieces with (is := [Piece g]); [reflexivity| |].
      * eapply pc_expr with (v := v); [|exact Hh|constructor]. apply ev_name with (v := v); [now apply branch_outer|eapply html_coerce; eauto].
      * apply stable; auto. rewrite K. exact B.
Qed.

Section Parts.
  Variables (t : str) (w : str).
  Notation head_tags := (head_tags w).
  Notation script_tag := (script_tag w).
  Lemma push_tags l b : Forall (TagAmong head_names) l -> sb_text b = [] ->
    (fix push_all l b := match l with [] => b | x :: l => push_all l (sb_push x b) end) l b = {| sb_children := sb_children b ++ l; sb_text := [] |}.
  Proof.
    revert b. induction l as [|x l IH]; intros [ch tx] A E; cbn in E; subst tx.
    - cbn. now rewrite app_nil_r.
    - inversion A as [|? ? (n & a & c & -> & _) A']; subst. cbn [sb_push]. rewrite IH by auto. cbn. now rewrite <- app_assoc.
  Qed.
  Lemma head_seq title g : Forall (TagAmong head_names) (nodes g) -> from_iter (head_tags title ++ [g]) = HSeq (head_tags title ++ nodes g).
  Proof.
    intro A. destruct g as [|n a c|l|x| |]; try reflexivity; try (inversion A as [|? ? (? & ? & ? & Hx & _) _]; discriminate).
    unfold from_iter. rewrite fold_left_app. set (b := fold_left _ (head_tags title) sb_new). cbn [fold_left sb_push].
    rewrite push_tags by auto. reflexivity.
  Qed.
  Lemma head_items title g : Normal g -> Forall (TagAmong head_names) (nodes g) ->
    compile_items (content_kind_for (lit "head")) (Some (lit "head")) (List.map Piece (head_tags title ++ [g])) = Ret ([], HSeq (head_tags title ++ nodes g)).
  Proof.
    intros N A. destruct (html_is_empty g) eqn:E.
    - destruct g; try discriminate. reflexivity.
    - assert (E' : g <> HEmpty) by (intros ->; discriminate). pose proof (among_all _ _ N E' A) as Al.
      assert (W : html_is_whitespace g = false) by (destruct g; try discriminate; reflexivity).
      assert (P : b_item (Piece g) (Builder (Some (lit "head")) (RequireOneOf head_names) (head_tags title) None)
        = Ret (None, Builder (Some (lit "head")) (RequireOneOf head_names) (head_tags title ++ [g]) None)).
      { unfold b_item, push_fuel. cbn [b_push require_inline]. rewrite E, Al. reflexivity. }
      assert (Q : b_items (List.map Piece (head_tags title ++ [g])) (b_new (content_kind_for (lit "head")) (Some (lit "head")))
        = Ret ([], Builder (Some (lit "head")) (RequireOneOf head_names) (head_tags title ++ [g]) None)).
      { change (b_items (List.map Piece (head_tags title ++ [g])) (b_new (content_kind_for (lit "head")) (Some (lit "head"))))
          with (obind (obind (obind (b_items [Piece g] (Builder (Some (lit "head")) (RequireOneOf head_names) (head_tags title) None))
             (fun r => let (es, b) := r in Ret (es, b))) (fun r => let (es, b) := r in Ret (es, b))) (fun r => let (es, b) := r in Ret (es, b))).
        cbn [b_items]. rewrite P. reflexivity. }
      unfold compile_items. rewrite Q. cbn [obind].
      assert (V : pop_white (head_tags title ++ [g]) = head_tags title ++ [g]) by (unfold pop_white; cbn; now rewrite W).
      change (b_into_html (Builder (Some (lit "head")) (RequireOneOf head_names) (head_tags title ++ [g]) None))
        with (@inl html seq_error (from_iter (pop_white (head_tags title ++ [g])))).
      now rewrite V, head_seq.
  Qed.
  Lemma body_items va ga vb gb c : 
    compile_items (content_kind_for (lit "body")) (Some (lit "body"))
      (List.map Piece [from_iter (optional_tag "header" va ga); HTag (lit "article") [] c; from_iter (optional_tag "footer" vb gb); script_tag])
    = Ret ([], HSeq (optional_tag "header" va ga ++ [HTag (lit "article") [] c] ++ optional_tag "footer" vb gb ++ [script_tag])).
  Proof. unfold optional_tag. destruct (is_unit va), (is_unit vb); reflexivity. Qed.
  Lemma html_items a b : compile_items (content_kind_for (lit "html")) (Some (lit "html")) [Piece (HTag (lit "head") [] a); Piece (HTag (lit "body") [] b)]
    = Ret ([], HSeq [HTag (lit "head") [] a; HTag (lit "body") [] b]).
  Proof. reflexivity. Qed.
  Lemma page_items a b : compile_items (AllowBlock n_p) None [Piece HWhitespace; Piece (HTag (lit "!DOCTYPE") [(lit "html", None)] a); Piece HWhitespace; Piece (HTag (lit "html") [] b); Piece HWhitespace]
    = Ret ([], HSeq [HTag (lit "!DOCTYPE") [(lit "html", None)] a; HTag (lit "html") [] b]).
  Proof. reflexivity. Qed.
  Lemma page_outer a b : compile_items (AllowBlock n_p) None [Piece (HSeq [HTag (lit "!DOCTYPE") [(lit "html", None)] a; HTag (lit "html") [] b])]
    = Ret ([], HSeq [HTag (lit "!DOCTYPE") [(lit "html", None)] a; HTag (lit "html") [] b]).
  Proof. reflexivity. Qed.
End Parts.

Lemma page_gives X bs t r vh va vb vc gh ga gb gc : FindsSlash X std_regex r ->
  ngetm bs (lit "title") = Some (VStr t) -> ngetm bs (lit "web_root") = Some (VStr r) -> ngetm bs (lit "head") = Some vh ->
  ngetm bs (lit "header") = Some va -> ngetm bs (lit "footer") = Some vb -> ngetm bs (lit "content") = Some vc ->
  to_html vh = Some gh -> Normal gh -> Forall (TagAmong head_names) (nodes gh) ->
  Blocks va ga -> Blocks vb gb -> Blocks vc gc ->
  exists title, Trimmed (html_text t) title /\ Gives X f_page bs (VHtml (page_html title (without_slash r) gh ga gc gb va vb)).
Proof.
  intros F Ht Hr Hh Ha Hb Hc Gh Nh Ah Ba Bb Bc.
  destruct (trimmed_one (content_kind_for (lit "title")) (Some (lit "title")) (html_text t)) as (title & T & Ct); [apply html_text_normal|apply html_text_block|].
  exists title. split; [exact T|]. apply gives_body; [lia|]. intros s more k ty w E.
  set (h := std_heap ++ more). set (f := Frame (Some 1) bs []).
  destruct (ev_slash X s h f k r F Hr) as (more1 & E1).
  set (l := [(lit "w", VStr (without_slash r))]).
  destruct (ev_part X s h f k l more1 "header" va ga eq_refl Ha Ba eq_refl) as (more2 & wa & Ea & Wa).
  destruct (ev_part X s h f k l more2 "footer" vb gb eq_refl Hb Bb eq_refl) as (more3 & wb & Eb & Wb).
  exists 9, f, (Frame (Some (length h)) l [] :: more3). intro fuel.
  set (P := page_html title (without_slash r) gh ga gc gb va vb).
  assert (G : forall m n v, ngetm l n = None -> ngetm bs n = Some v -> get_var n (inner s h f k l m) = Ok v (inner s h f k l m)) by (intros; now apply inner_outer).
  assert (Gw : forall m x, template_text [TPName (NSimple (lit "w")); TPLit x] (inner s h f k l m) = Ok (without_slash r ++ x) (inner s h f k l m)).
  { intros m x. rewrite text_name with (o := Some (without_slash r)) by now apply inner_local. rewrite text_lit. cbn [template_text text_of]. unfold ret. now rewrite app_nil_r. }
  assert (Y : e_node (evals_n X (7 + fuel)) (match f_page with FClosure _ _ _ (EGroup [AExpr (ELetIn (LetIn _ _ e))]) => e | _ => EUnit end) THtml (inner s h f k l more1)
    = Ok (VHtml P) (inner s h f k l more3)).
  { cbn [f_page plus]. eapply ev_group with (h := P); [|reflexivity]. eapply seq_pieces; [|apply page_items].
    apply pc_white. eapply pc_expr with (v := VHtml (HTag (lit "!DOCTYPE") [(lit "html", None)] HEmpty)); [|reflexivity|].
    { eapply ev_tag with (h := HTag (lit "!DOCTYPE") [(lit "html", None)] HEmpty); [|reflexivity]. eapply tag_pieces with (is := []); [reflexivity|constructor|reflexivity]. }
    apply pc_white.
    set (hd := HSeq (head_tags (without_slash r) title ++ nodes gh)).
    set (bd := HSeq (optional_tag "header" va ga ++ [HTag (lit "article") [] gc] ++ optional_tag "footer" vb gb ++ [script_tag (without_slash r)])).
    eapply pc_expr with (v := VHtml (HTag (lit "html") [] (HSeq [HTag (lit "head") [] hd; HTag (lit "body") [] bd]))); [|reflexivity|apply pc_white; constructor].
    eapply ev_tag with (h := HTag (lit "html") [] (HSeq [HTag (lit "head") [] hd; HTag (lit "body") [] bd])); [|reflexivity].
    eapply tag_pieces; [reflexivity| |apply html_items].
    eapply pc_expr with (v := VHtml (HTag (lit "head") [] hd)); [|reflexivity|].
    { eapply ev_tag with (h := HTag (lit "head") [] hd); [|reflexivity]. eapply tag_pieces; [reflexivity| |apply head_items; [exact Nh|exact Ah]].
      cbn [List.map head_tags app].
      eapply pc_expr with (v := VHtml (HTag (lit "title") [] title)); [|reflexivity|].
      { eapply ev_tag with (h := HTag (lit "title") [] title); [|reflexivity]. eapply tag_pieces; [reflexivity| |exact Ct].
        eapply pc_expr with (v := VStr t); [|reflexivity|constructor]. apply ev_name with (v := VStr t); [now apply G|reflexivity]. }
      eapply pc_expr with (v := VHtml (HTag (lit "meta") [(lit "charset", Some (lit "utf-8"))] HEmpty)); [|reflexivity|].
      { eapply ev_tag with (h := HTag (lit "meta") [(lit "charset", Some (lit "utf-8"))] HEmpty); [|reflexivity]. eapply tag_pieces with (is := []); [|constructor|reflexivity].
        rewrite attrs_set with (x := lit "utf-8"); [reflexivity|apply ev_verbatim; reflexivity|reflexivity]. }
      eapply pc_expr with (v := VHtml (HTag (lit "link") _ HEmpty)); [|reflexivity|].
      { eapply ev_tag; [|reflexivity]. eapply tag_pieces with (is := []); [|constructor|reflexivity].
        rewrite attrs_set with (x := lit "stylesheet"); [|apply ev_verbatim; reflexivity|reflexivity].
        rewrite attrs_set with (x := lit "text/css"); [|apply ev_verbatim; reflexivity|reflexivity].
        rewrite attrs_set with (x := without_slash r ++ lit "/papyri.css"); [reflexivity|eapply ev_template; [apply Gw|reflexivity]|reflexivity]. }
      eapply pc_expr with (v := vh); [|exact Gh|constructor]. apply ev_name with (v := vh); [now apply G|eapply html_coerce; eauto]. }
    eapply pc_expr with (v := VHtml (HTag (lit "body") [] bd)); [|reflexivity|constructor].
    eapply ev_tag with (h := HTag (lit "body") [] bd); [|reflexivity]. eapply tag_pieces; [reflexivity| |apply body_items].
    cbn [List.map].
    eapply pc_expr; [apply Ea|exact Wa|].
    eapply pc_expr with (v := VHtml (HTag (lit "article") [] gc)); [|reflexivity|].
    { destruct Bc as (Hgc & Nc & Cc & Bc). eapply ev_tag with (h := HTag (lit "article") [] gc); [|reflexivity]. eapply tag_pieces with (is := [Piece gc]); [reflexivity| |apply stable; auto].
      eapply pc_expr with (v := vc); [|exact Hgc|constructor]. apply ev_name with (v := vc); [now apply G|eapply html_coerce; eauto]. }
    eapply pc_expr; [apply Eb|exact Wb|].
    eapply pc_expr with (v := VHtml (script_tag (without_slash r))); [|reflexivity|constructor].
    eapply ev_tag; [|reflexivity]. eapply tag_pieces with (is := []); [|constructor|reflexivity].
    rewrite attrs_set with (x := lit "text/javascript"); [|apply ev_verbatim; reflexivity|reflexivity].
    rewrite attrs_set with (x := without_slash r ++ lit "/papyri.js"); [reflexivity|eapply ev_template; [apply Gw|reflexivity]|reflexivity]. }
  change (9 + fuel) with (S (8 + fuel)). eapply ev_group with (h := P); [|exact E].
  eapply seq_pieces; [|apply page_outer]. eapply pc_expr with (v := VHtml P); [|reflexivity|constructor].
  specialize (E1 (5 + fuel)). change (S (S (5 + fuel))) with (7 + fuel) in E1. change (8 + fuel) with (S (7 + fuel)). revert Y E1.
  generalize (7 + fuel). intros n Y E1. cbn [evals_n e_node step evaluate_node]. unfold evaluate_let_in.
  change (sc s h f k) with (cur s h f [] k). rewrite in_child.
  change (child s h f [] k []) with (inner s h f k [] []). cbn [let_vars]. unfold bind at 1 2.
  match type of E1 with e_node _ ?e _ _ = _ => match goal with |- context [e_node (evals_n X n) ?e' TAny (inner s h f k [] [])] => change e' with e end end.
  rewrite E1. unfold bind at 1. cbn [ret]. unfold bind at 1. unfold ret at 1.
  rewrite inner_set by reflexivity. change (ninsert [] [119%N] (VStr (without_slash r))) with l. cbv iota beta.
  cbn [f_page] in Y. rewrite Y. f_equal. unfold inner, cur. cbn. now rewrite <- app_assoc.
Qed.
