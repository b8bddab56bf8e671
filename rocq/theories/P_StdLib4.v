(** What the functions of the standard library do (C61): links, quotes, notes and pages. *)
From Verif Require Import S_Html S_Sequence P_Html P_Sequence P_Stable S_Scope S_Match P_Built P_State P_Scope P_Std S_Std P_StdHeap.
From Verif Require Import Base BaseFacts M_Text M_Names M_TagInfo M_Html M_Sequence M_Path M_Types M_Diag M_Ast M_Value M_State M_Matcher M_Binder M_Native M_Eval M_Std P_StdRun P_Coerce P_Native P_NativeCalls P_StdLib P_StdLib2 P_StdLib3.

Definition f_href := Eval vm_compute in std "href".
Lemma href_gives X bs u w h : ngetm bs (lit "_url") = Some (VStr u) -> ngetm bs (lit "v") = Some w -> to_html w = Some h -> Normal h -> block_kind h = None ->
  exists h', Trimmed h h' /\ Gives X f_href bs (VHtml (HTag (lit "a") [(lit "href", Some u)] h')).
Proof.
  intros Hu Hv Hh N B. unfold f_href. eapply gives_wrap; eauto.
  - apply trimmed_one; auto. reflexivity.
  - intros. rewrite attrs_set with (x := u); [reflexivity| |reflexivity]. apply ev_name with (v := VStr u); [now apply get_local|reflexivity].
Qed.
Definition f_blockquote := Eval vm_compute in std "blockquote".
Lemma blockquote_gives X bs u w h : ngetm bs (lit "cite") = Some (group_value u) -> ngetm bs (lit "v") = Some w -> to_html w = Some h ->
  Normal h -> CleanEdges (events h) -> Forall BlockLevel (nodes h) ->
  Gives X f_blockquote bs (VHtml (HTag (lit "blockquote") (match u with Some x => [(lit "cite", Some x)] | None => [] end) h)).
Proof.
  intros Hu Hv Hh N C B. apply gives_body; [lia|]. intros s more k t x E. exists 2, (Frame (Some 1) bs []), []. intro fuel.
  eapply ev_tag; [|exact E]. eapply tag_pieces with (is := [Piece h]).
  - destruct u as [y|].
    + rewrite attrs_set with (x := y); [|apply ev_name with (v := VStr y); [now apply get_local|reflexivity]|reflexivity]. reflexivity.
    + rewrite attrs_unset; [reflexivity|]. apply ev_name with (v := UNIT); [now apply get_local|reflexivity].
  - eapply pc_expr with (v := w); [|exact Hh|constructor]. apply ev_name with (v := w); [now apply get_local|eapply html_coerce; eauto].
  - apply stable; auto.
Qed.
Definition f_footnote := Eval vm_compute in std "footnote".
Definition note (h : html) : html :=
  HSeq [HText [8288]%N; HTag (lit "a") [(lit "class", Some (lit "footnote-ref"))] HEmpty; HTag (lit "span") [(lit "class", Some (lit "footnote panel"))] h].
Lemma ev_text X fuel ps t s x w : template_text ps s = Ok x s -> coerce t (VStr x) = inl w ->
  e_node (evals_n X (S fuel)) (ETemplate ps) t s = Ok w s.
Proof. apply ev_template. Qed.
Lemma footnote_gives X bs w h : ngetm bs (lit "v") = Some w -> to_html w = Some h -> Normal h -> block_kind h = None ->
  exists h', Trimmed h h' /\ Gives X f_footnote bs (VHtml (note h')).
Proof.
  intros Hv Hh N B. destruct (trimmed_one (content_kind_for (lit "span")) (Some (lit "span")) h N) as (h' & T & C); [exact B|].
  exists h'. split; [exact T|]. apply gives_body; [lia|]. intros s more k t x E. exists 3, (Frame (Some 1) bs []), []. intro fuel.
  cbn [plus]. eapply ev_group with (h := note h').
  - eapply seq_pieces.
    + apply pc_text. eapply pc_expr.
      { apply ev_tag with (w := VHtml (HTag (lit "a") [(lit "class", Some (lit "footnote-ref"))] HEmpty)) (h := HTag (lit "a") [(lit "class", Some (lit "footnote-ref"))] HEmpty); [|reflexivity].
        eapply tag_pieces with (is := []); [|constructor|reflexivity].
        rewrite attrs_set with (x := lit "footnote-ref"); [reflexivity|eapply ev_template; reflexivity|reflexivity]. }
      { reflexivity. }
      eapply pc_expr.
      { apply ev_tag with (w := VHtml (HTag (lit "span") [(lit "class", Some (lit "footnote panel"))] h')) (h := HTag (lit "span") [(lit "class", Some (lit "footnote panel"))] h'); [|reflexivity].
        eapply tag_pieces with (is := [Piece h]); [| |exact C].
        - rewrite attrs_set with (x := lit "footnote panel"); [reflexivity|eapply ev_template; reflexivity|reflexivity].
        - eapply pc_expr with (v := w); [|exact Hh|constructor]. apply ev_name with (v := w); [now apply get_local|eapply html_coerce; eauto]. }
      { reflexivity. }
      constructor.
    + reflexivity.
  - exact E.
Qed.
Definition f_tag_name := Eval vm_compute in std_in "html" "tag_name".
Lemma tag_name_gives X bs n a c : ngetm bs (lit "h") = Some (VHtml (HTag n a c)) -> Gives X f_tag_name bs (VStr n).
Proof.
  intros Hv. apply gives_body; [lia|]. intros s more k t w E. exists 1, (Frame (Some 1) bs []), []. intro fuel.
  cbn [plus evals_n e_node step evaluate_node evaluate_name]. unfold or_report, bind.
  change [104%N] with (lit "h"). rewrite (get_local s (std_heap ++ more) (Frame (Some 1) bs []) k (lit "h") _ Hv). cbn. unfold coerceM, ret. rewrite E. reflexivity.
Qed.

(** ** The functions that wrap their content *)
Definition wrapper (fn tag : string) (t : ty) : func :=
  FClosure (lit fn) 1 (takes [] (lit "v", t)) (ETag (TNLit (lit tag)) [] [AExpr (EName (NSimple (lit "v")))]).
Lemma wrapper_gives X fn tag t bs w h : ngetm bs (lit "v") = Some w -> to_html w = Some h -> Normal h -> block_kind h = None ->
  match content_kind_for (lit tag) with
  | AllowBlock n => content_kind_for n = RequireInlineNoLineBreaks
  | RequireInline | RequireInlineNoLineBreaks => True
  | _ => False
  end -> exists h', Trimmed h h' /\ Gives X (wrapper fn tag t) bs (VHtml (HTag (lit tag) [] h')).
Proof.
  intros Hv Hh N B K. apply gives_wrap with (w := w) (h := h); auto.
  apply trimmed_one; auto. destruct (content_kind_for (lit tag)); auto.
Qed.

(** ** The functions stay *)
Lemma later_kept s0 h more s s' : h = st_heap s0 -> st_heap s = h ++ more -> (forall i, hd_error (st_stack s) = Some i -> length h <= i) ->
  SameElsewhere s s' -> exists more', st_heap s' = h ++ more' /\ st_stack s' = st_stack s.
Proof.
  intros _ E Hi (S1 & _ & L & H). exists (skipn (length h) (st_heap s')). split; [|exact S1].
  rewrite <- (firstn_skipn (length h) (st_heap s')) at 1. f_equal. apply nth_error_ext. intro i.
  destruct (Nat.lt_ge_cases i (length h)) as [Hl|Hg].
  - destruct (nth_error h i) as [f|] eqn:Ef; [|apply nth_error_None in Ef; lia].
    destruct (H i f) as (f' & E' & _ & Hc); [rewrite E, nth_error_app1; auto|]. rewrite Hc in E'.
    + rewrite <- E'. rewrite <- (firstn_skipn (length h) (st_heap s')) at 2. rewrite nth_error_app1; [reflexivity|].
      rewrite firstn_length, E in *. rewrite app_length in L. lia.
    + intro C. apply Hi in C. lia.
  - rewrite (proj2 (nth_error_None h i)) by lia. apply nth_error_None. rewrite firstn_length. lia.
Qed.
