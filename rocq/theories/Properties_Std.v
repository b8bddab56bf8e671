(** Property theorems for the standard library (C24, C61). [X] are the externals. The values of the parameters of a function
    are those that binding a call gives (C32-C34). *)
From Verif Require Import S_Html S_Sequence P_Html P_Sequence P_Stable S_Scope S_Match P_State P_Scope P_Std S_Std P_StdHeap.
From Verif Require Import Base BaseFacts M_Text M_Names M_TagInfo M_Html M_Sequence M_Path M_Types M_Diag M_Ast M_Value M_State M_Matcher M_Binder M_Native M_Eval M_Std M_Lib
  P_Coerce P_StdRun P_StdLib P_StdLib2 P_StdLib3 P_StdLib4 S_Example.

(** C24. Content that is already as its tag requires, without white space at its ends, is left as it is. *)
Theorem C24_stable : forall name parent c,
  Normal c -> CleanEdges (events c) -> Conforms (content_kind_for name) (nodes c) ->
  compile_items (content_kind_for name) parent [Piece c] = Ret ([], c).
Proof. apply stable. Qed.
Print Assumptions C24_stable.
Example C24_nonvacuous_stable :
  let c := HSeq [HTag (lit "li") [] (HText (lit "one")); HTag (lit "li") [] (HText (lit "two"))] in
  Normal c /\ CleanEdges (events c) /\ Conforms (content_kind_for (lit "ul")) (nodes c).
Proof.
  intro c. split; [|split].
  - apply N_seq; [cbn; lia|repeat constructor|cbn; intuition|]. repeat (apply Forall_cons || apply Forall_nil); apply N_tag, N_text; discriminate.
  - right. split; [do 2 eexists; split; [reflexivity|exact I]|]. exists (EClose (lit "li")). eexists (removelast (events c)). split; [reflexivity|exact I].
  - repeat constructor; eexists; eexists; eexists; (split; [reflexivity|now left]).
Qed.

(** C61. The functions stay: the code of a source file starts in a state where they are defined, and whatever it evaluates, they
    are still defined after it. *)
Theorem C61_lasts : 
  (forall s, Starts s -> Inside (new_compiler s)) /\
  (forall X fuel e t s s', Inside s -> after (e_node (evals_n X fuel) e t s) = Some s' -> Inside s' /\ st_stack s' = st_stack s) /\
  (forall s, Inside s -> Later s).
Proof.
  split; [|split].
  - intros s S. exists s. eexists. split; [exact S|]. split; [reflexivity|]. cbn. intros i [= <-]. lia.
  - intros X fuel e t s s' (s0 & more & S & E & Hi) A. apply node_running in A as [A _].
    destruct (later_kept s0 _ more s s' eq_refl E Hi A) as (more' & E' & St). split; [|exact St].
    exists s0, more'. split; [exact S|]. split; [exact E'|]. now rewrite St.
  - intros s (s0 & more & S & E & _). exists s0, more. auto.
Qed.
Print Assumptions C61_lasts.

(** The functions that put inline content in a tag *)
Theorem C61_inline : forall fn tag, In (fn, tag) inline_functions -> exists f,
  Predefined (lit fn) f /\ func_sig f = takes [] (lit "v", TInline) /\
  forall X bs v w h, coerce TInline v = inl w -> to_html w = Some h -> Normal h -> Bound bs [(lit "v", w)] ->
  exists h', Trimmed h h' /\ Gives X f bs (VHtml (HTag (lit tag) [] h')).
Proof.
  intros fn tag H. exists (wrapper fn tag TInline).
  assert (G : match content_kind_for (lit tag) with
              | AllowBlock n => content_kind_for n = RequireInlineNoLineBreaks
              | RequireInline | RequireInlineNoLineBreaks => True
              | _ => False
              end /\ Predefined (lit fn) (wrapper fn tag TInline)).
  { cbn [In inline_functions] in H. repeat (destruct H as [[= <- <-] | H]; [split; [exact I || reflexivity|apply predefined; reflexivity]|]). destruct H. }
  destruct G as [K P]. split; [exact P|]. split; [reflexivity|]. intros X bs v w h C T N B.
  apply wrapper_gives with (w := w); auto.
  - now rewrite B.
  - destruct (inline_html v w C) as (h' & T' & Bk). congruence.
Qed.
Print Assumptions C61_inline.
(** ... and those that put a text in one *)
Theorem C61_text : forall fn tag, In (fn, tag) text_functions -> exists f,
  Predefined (lit fn) f /\ func_sig f = takes [] (lit "v", TStr) /\
  forall X bs x, Bound bs [(lit "v", VStr x)] ->
  exists h', Trimmed (html_text x) h' /\ Gives X f bs (VHtml (HTag (lit tag) [] h')).
Proof.
  intros fn tag H. exists (wrapper fn tag TStr).
  assert (G : match content_kind_for (lit tag) with
              | AllowBlock n => content_kind_for n = RequireInlineNoLineBreaks
              | RequireInline | RequireInlineNoLineBreaks => True
              | _ => False
              end /\ Predefined (lit fn) (wrapper fn tag TStr)).
  { cbn [In text_functions] in H. repeat (destruct H as [[= <- <-] | H]; [split; [exact I || reflexivity|apply predefined; reflexivity]|]). destruct H. }
  destruct G as [K P]. split; [exact P|]. split; [reflexivity|]. intros X bs x B.
  apply wrapper_gives with (w := VStr x); auto.
  - now rewrite B.
  - apply html_text_normal.
  - apply html_text_block.
Qed.
Print Assumptions C61_text.
(** Links *)
Theorem C61_href : exists f, Predefined (lit "href") f /\ func_sig f = takes [(lit "_url", TStr)] (lit "v", TInline) /\
  forall X bs u v w h, coerce TInline v = inl w -> to_html w = Some h -> Normal h -> Bound bs [(lit "_url", VStr u); (lit "v", w)] ->
  exists h', Trimmed h h' /\ Gives X f bs (VHtml (HTag (lit "a") [(lit "href", Some u)] h')).
Proof.
  exists f_href. split; [apply predefined; reflexivity|]. split; [reflexivity|]. intros X bs u v w h C T N B.
  apply href_gives with (w := w); try (rewrite B; reflexivity); auto. destruct (inline_html v w C) as (h' & T' & Bk). congruence.
Qed.
Print Assumptions C61_href.
(** Footnotes: a word joiner, a reference, and the note *)
Theorem C61_footnote : exists f, Predefined (lit "footnote") f /\ func_sig f = takes [] (lit "v", TInline) /\
  forall X bs v w h, coerce TInline v = inl w -> to_html w = Some h -> Normal h -> Bound bs [(lit "v", w)] ->
  exists h', Trimmed h h' /\
    Gives X f bs (VHtml (HSeq [HText [8288]%N; HTag (lit "a") [(lit "class", Some (lit "footnote-ref"))] HEmpty;
                               HTag (lit "span") [(lit "class", Some (lit "footnote panel"))] h'])).
Proof.
  exists f_footnote. split; [apply predefined; reflexivity|]. split; [reflexivity|]. intros X bs v w h C T N B.
  apply footnote_gives with (w := w); try (rewrite B; reflexivity); auto. destruct (inline_html v w C) as (h' & T' & Bk). congruence.
Qed.
Print Assumptions C61_footnote.
(** Quotes, of content that consists of blocks *)
Theorem C61_blockquote : exists f, Predefined (lit "blockquote") f /\
  func_sig f = FSig [] None [(lit "cite", FParam (lit "cite") false (TOptional TStr) (Some UNIT))] None (FParam (lit "v") false TBlock None) /\
  forall X bs u w h, to_html w = Some h -> Normal h -> CleanEdges (events h) -> Forall BlockLevel (nodes h) ->
  Bound bs [(lit "cite", group_value u); (lit "v", w)] ->
  Gives X f bs (VHtml (HTag (lit "blockquote") (match u with Some x => [(lit "cite", Some x)] | None => [] end) h)).
Proof.
  exists f_blockquote. split; [apply predefined; reflexivity|]. split; [reflexivity|]. intros X bs u w h T N C K B.
  apply blockquote_gives with (w := w); try (rewrite B; reflexivity); auto.
Qed.
Print Assumptions C61_blockquote.
(** Images *)
Theorem C61_image : exists f, Predefined (lit "image") f /\
  func_sig f = FSig [] None [(lit "alt", FParam (lit "alt") false (TOptional TStr) (Some UNIT))] None (FParam (lit "url") false TStr None) /\
  forall X bs u alt, Bound bs [(lit "alt", group_value alt); (lit "url", VStr u)] ->
  Gives X f bs (VHtml (HTag (lit "img") ((lit "src", Some u) :: match alt with Some x => [(lit "alt", Some x)] | None => [] end) HEmpty)).
Proof.
  exists f_image. split; [apply predefined; reflexivity|]. split; [reflexivity|]. intros X bs u alt B.
  apply image_gives; rewrite B; reflexivity.
Qed.
Print Assumptions C61_image.

(** Adding a class to a tag: after those it has, if it has any. *)
Theorem C61_class : exists f, Predefined (lit "class") f /\ func_sig f = takes [(lit "_c", TStr)] (lit "v", THtml) /\
  forall X bs x v, Bound bs [(lit "_c", VStr x); (lit "v", v)] ->
  (forall n a c, v = VHtml (HTag n a c) -> ProperTag n a c ->
     (forall o, ngetm a (lit "class") = Some o ->
        Gives X f bs (VHtml (HTag n ((lit "class", Some (text_of o ++ lit " " ++ x)) :: without (lit "class") a) c))) /\
     (ngetm a (lit "class") = None -> Gives X f bs (VHtml (HTag n ((lit "class", Some x) :: a) c)))) /\
  (NotTag v -> Complains X f bs (RuntimeErr (Raised (lit "expected tag, was " ++ t_display (get_type v))))).
Proof.
  exists f_class. split; [apply predefined; reflexivity|]. split; [reflexivity|]. intros X bs x v B. split.
  - intros n a c -> P. split.
    + intros o Ho. apply class_has; auto; rewrite B; reflexivity.
    + intros Ho. apply class_new; auto; rewrite B; reflexivity.
  - intro N. apply class_not; auto; rewrite B; reflexivity.
Qed.
Print Assumptions C61_class.
(** Adding a style to a tag *)
Theorem C61_style : exists f, Predefined (lit "style") f /\ func_sig f = takes [(lit "_s", TStr)] (lit "v", THtml) /\
  forall X bs x v, Bound bs [(lit "_s", VStr x); (lit "v", v)] ->
  (forall n a c, v = VHtml (HTag n a c) -> ProperTag n a c ->
     (forall o, ngetm a (lit "style") = Some o ->
        Gives X f bs (VHtml (HTag n ((lit "style", Some (text_of o ++ x)) :: without (lit "style") a) c))) /\
     (ngetm a (lit "style") = None -> Gives X f bs (VHtml (HTag n ((lit "style", Some x) :: a) c)))) /\
  (NotTag v -> Complains X f bs (RuntimeErr (Raised (lit "expected tag, was " ++ t_display (get_type v))))).
Proof.
  exists f_style. split; [apply predefined; reflexivity|]. split; [reflexivity|]. intros X bs x v B. split.
  - intros n a c -> P. split.
    + intros o Ho. apply style_has; auto; rewrite B; reflexivity.
    + intros Ho. apply style_new; auto; rewrite B; reflexivity.
  - intro N. apply style_not; auto; rewrite B; reflexivity.
Qed.
Print Assumptions C61_style.
(** Adding attributes the tag does not have yet *)
Theorem C61_attributes : exists f, Predefined (lit "attributes") f /\
  func_sig f = FSig [] None [] (Some (FParam (lit "d") false (TDict (TOptional TStr)) None)) (FParam (lit "v") false THtml None) /\
  forall X bs d v, Bound bs [(lit "d", VDict (attr_values d)); (lit "v", v)] ->
  (forall n a c, v = VHtml (HTag n a c) -> ProperTag n a c -> NoDup (nkeys (a ++ d)) -> Gives X f bs (VHtml (HTag n (a ++ d) c))) /\
  (NotTag v -> Complains X f bs (RuntimeErr (Raised (lit "expected tag, was " ++ t_display (get_type v))))).
Proof.
  exists f_attributes. split; [apply predefined; reflexivity|]. split; [reflexivity|]. intros X bs x v B. split.
  - intros n a c -> P D. apply attributes_add; auto; rewrite B; reflexivity.
  - intro N. apply attributes_not; auto; rewrite B; reflexivity.
Qed.
Print Assumptions C61_attributes.
(** Numbering a list *)
Theorem C61_numbered : exists f, Predefined (lit "numbered") f /\ func_sig f = takes [] (lit "v", THtml) /\
  forall X bs v, Bound bs [(lit "v", v)] ->
  (forall a c, v = VHtml (HTag (lit "ul") a c) -> ProperTag (lit "ul") a c -> Gives X f bs (VHtml (HTag (lit "ol") a c))) /\
  (forall n a c, v = VHtml (HTag n a c) -> n <> lit "ul" ->
     Complains X f bs (RuntimeErr (Raised (lit "expected <ul> tag, was <" ++ n ++ lit "> tag")))) /\
  (NotTag v -> Complains X f bs (RuntimeErr (Raised (lit "expected <ul> tag, was " ++ t_display (get_type v))))).
Proof.
  exists f_numbered. split; [apply predefined; reflexivity|]. split; [reflexivity|]. intros X bs v B. split; [|split].
  - intros a c -> P. apply numbered_ul; auto; rewrite B; reflexivity.
  - intros n a c -> P. apply numbered_tag with (a := a) (c := c); auto; rewrite B; reflexivity.
  - intro N. apply numbered_not; auto; rewrite B; reflexivity.
Qed.
Print Assumptions C61_numbered.
(** The name of the type of a value, the name of a tag, and content as inline or block content *)
Theorem C61_conversions :
  (exists f, Predefined (lit "typeof") f /\ func_sig f = takes [] (lit "v", TAny) /\
     forall X bs v, Bound bs [(lit "v", v)] -> Gives X f bs (VStr (t_display (get_type v)))) /\
  (exists f, PredefinedIn (lit "html") (lit "tag_name") f /\ func_sig f = takes [] (lit "h", THtml) /\
     forall X bs n a c, Bound bs [(lit "h", VHtml (HTag n a c))] -> Gives X f bs (VStr n)) /\
  (exists f, PredefinedIn (lit "inline") (lit "from") f /\ func_sig f = takes [] (lit "v", TInline) /\
     forall X bs v, Bound bs [(lit "v", v)] -> Gives X f bs v) /\
  (exists f, PredefinedIn (lit "block") (lit "from") f /\ func_sig f = takes [] (lit "v", TBlock) /\
     forall X bs v, Bound bs [(lit "v", v)] -> Gives X f bs v).
Proof.
  split; [|split; [|split]].
  - exists f_typeof. split; [apply predefined; reflexivity|]. split; [reflexivity|]. intros. apply typeof_gives. now rewrite H.
  - exists f_tag_name. split; [apply predefined_in; reflexivity|]. split; [reflexivity|]. intros. eapply tag_name_gives. now rewrite H.
  - exists f_inline. split; [apply predefined_in; reflexivity|]. split; [reflexivity|]. intros. apply from_gives. now rewrite H.
  - exists f_block. split; [apply predefined_in; reflexivity|]. split; [reflexivity|]. intros. apply from_gives. now rewrite H.
Qed.
Print Assumptions C61_conversions.
(** There is a state in which compiling starts. There is a tag that can be given a class, with and without a class of its own. The
    functions in documents: *)
Example C61_nonvacuous :
  (exists s, Starts s) /\
  ProperTag (lit "ul") [(lit "class", Some (lit "a")); (lit "id", Some (lit "x"))] (HTag (lit "li") [] (HText (lit "one"))) /\
  ngetm [(lit "class", Some (lit "a")); (lit "id", Some (lit "x"))] (lit "class") = Some (Some (lit "a")) /\
  compile_str (ex_files_X []) 60 (lit "@class(`c`) @numbered <ul id=`x`><li>one</></>@class(`d`) @href(`u`) @b { so }")
    = Ret (M_Lib.Document (lit "<ol class=""c"" id=""x""><li>one</li></ol><p><a class=""d"" href=""u""><b>so</b></a></p>")) /\
  compile_str (ex_files_X []) 60 (lit "@numbered <p>one</>") = Ret (Diagnostics [RuntimeErr (Raised (lit "expected <ul> tag, was <p> tag"))]).
Proof.
  split; [|split; [|split; [|split]]].
  - destruct (std_heap_plus (ex_files_X []) 0 LWarning None) as (s & E & _); [discriminate|].
    exists s, (ex_files_X []), (40 + 0), LWarning, None. split; [discriminate|]. split; [lia|exact E].
  - constructor.
    + split; reflexivity.
    + repeat constructor; cbn; intuition discriminate.
    + repeat constructor; discriminate.
    + right. split; [do 2 eexists; split; [reflexivity|exact I]|]. exists (EClose (lit "li")). eexists (removelast (events (HTag (lit "li") [] (HText (lit "one"))))). split; [reflexivity|exact I].
    + repeat constructor; eexists; eexists; eexists; (split; [reflexivity|now left]).
  - reflexivity.
  - vm_compute. reflexivity.
  - vm_compute. reflexivity.
Qed.
