(** Property theorems C76 and C77: elements whose content is raw text, and attributes written twice. *)
From Verif Require Import Base M_Text M_Names M_Html M_Render M_Path M_Types M_Diag S_Html M_Value M_State M_HtmlParse M_Native M_Eval M_Std M_Lib.
From Verif Require Import S_SafeExample S_Types S_Scope S_Safe S_Session S_Example P_Html P_SafeProps P_Lib S_Raw P_Raw.

(** C76. An element for which HTML defines the content to be raw text, such as a script, and which contains text: the start tag
    ends where it should, no text ends the element early, and what a browser takes as its content is the text in the document
    exactly if there is no less-than sign, greater-than sign or ampersand in it. *)
Theorem C76_content_partial : forall n a c t rest, PlainDoc (HTag n a c) -> In n raw_text_elements -> TextIs c t ->
  exists attrs content, render true (HTag n a c) = lit "<" ++ n ++ attrs ++ lit ">" ++ content ++ lit "</" ++ n ++ lit ">" /\
    (forall x, In x attrs -> x <> 60%N /\ x <> 62%N) /\
    RawContent n (content ++ lit "</" ++ n ++ lit ">" ++ rest) content rest /\
    (content = t <-> forall x, In x t -> ~ In x (lit "<>&")).
Proof. exact raw_contained. Qed.
Print Assumptions C76_content_partial.

(** Otherwise it is not: the script of this program is not the one in the document. *)
Definition C76_program : str := lit "@let(s=`if (a < b) f()`) <script>$s</script>".
Theorem C76_content_refuted : exists X text fuel out content rest,
  compile_str X fuel text = Ret (Document out) /\
  text = lit "@let(s=`if (a < b) f()`) <script>$s</script>" /\
  out = lit "<script>" ++ content ++ lit "</script>" ++ rest /\
  RawContent (lit "script") (content ++ lit "</script>" ++ rest) content rest /\ content = lit "if (a &lt; b) f()".
Proof.
  exists (ex_files_X []), C76_program, 60, (lit "<script>if (a &lt; b) f()</script>"), (lit "if (a &lt; b) f()"), [].
  split; [vm_compute; reflexivity|]. split; [reflexivity|]. split; [reflexivity|]. split; [|reflexivity].
  apply (raw_content (lit "script") (lit "if (a &lt; b) f()") []); [now left|].
  apply Forall_forall. repeat constructor; discriminate.
Qed.
Print Assumptions C76_content_refuted.
(** Nor is an element inside such an element one for a browser. *)
Theorem C76_elements_refuted : exists X text fuel,
  compile_str X fuel text = Ret (Document (lit "<style>a <b>c</b></style>")) /\
  RawContent (lit "style") (lit "a <b>c</b></style>") (lit "a <b>c</b>") [].
Proof.
  exists (ex_files_X []), (lit "<style>a <b>c</b></style>"), 60. split; [vm_compute; reflexivity|]. split; [reflexivity|].
  intros before t' E (n & c & more & -> & Hn & Hc).
  destruct (Nat.le_gt_cases 10 (length before)) as [H|H]; [exact H|exfalso]. cbn [length lit] in H.
  assert (E3 : forall k, nth_error (lit "a <b>c</b></style>") (length before + k) = nth_error (lit "</" ++ n ++ c :: more) k)
    by (intro k; rewrite E, nth_error_app2 by lia; f_equal; lia).
  pose proof (E3 0) as E4. pose proof (E3 1) as E5. pose proof (E3 2) as E6. cbn in E4, E5, E6.
  do 10 (destruct before as [|? before]; [first [discriminate E4|discriminate E5|destruct n as [|x n]; [discriminate Hn|]; injection E6 as <-; discriminate Hn]|]).
  cbn in H. lia.
Qed.
Print Assumptions C76_elements_refuted.

Example C76_nonvacuous :
  let h := HTag (lit "script") [(lit "type", Some (lit "a>b"))] (HSeq [HText (lit "f()"); HRawNewline; HText (lit "</script >")]) in
  PlainDoc h /\ In (lit "script") raw_text_elements /\ TextIs (HSeq [HText (lit "f()"); HRawNewline; HText (lit "</script >")]) (lit "f()" ++ [10%N] ++ lit "</script >").
Proof.
  cbv zeta. split; [|split; [now left|]].
  - constructor.
    + split; [discriminate|]. repeat constructor; cbn; intuition discriminate.
    + repeat constructor; cbn; try discriminate; intuition discriminate.
    + intro H. exfalso. cbn in H. intuition discriminate.
    + repeat constructor.
  - apply (ti_seq _ [lit "f()"; [10%N]; lit "</script >"]). repeat constructor.
Qed.

(** C77. In the text a document is rendered to, no element has an attribute twice, if no attribute name in the document has a
    dash (such names come only from HTML parsed at run time). *)
Theorem C77_once_partial : forall X fuel path text s h exports s', Session Plain s -> Environment Plain X ->
  compile X fuel path text s = Ok (h, exports) s' -> AttrsNoDash h ->
  exists d, read_html (render true h) = Some d /\ Forall Once d.
Proof.
  intros X fuel path text s h exports s' S E H Hd. exists (doc h).
  pose proof (document_plain _ _ _ _ _ _ _ _ S E H) as P. split; [now apply read_html_render|]. apply doc_once; [|exact Hd].
  now apply (document_distinct _ _ _ _ _ _ _ _ S E H).
Qed.
Print Assumptions C77_once_partial.

(** With HTML parsed at run time it can be: an underscore is rendered as a dash. *)
Definition C77_X : externals :=
  {| x_checks := true; x_deunicode := fun s => s; x_lower := List.map to_ascii_lower; x_upper := fun s => s;
     x_regex := fun _ => Some []; x_captures := fun _ _ => None; x_captures_iter := fun _ _ => []; x_is_match := fun _ _ => false;
     x_find_count := fun _ _ => 0; x_split := fun _ s => [s]; x_decode := fun _ => [];
     x_html_parse := fun _ => ([], DDocument [DElement (lit "i") [(lit "a-b", lit "1"); (lit "a_b", lit "2")] []]);
     x_syntect := fun _ _ => None; x_fetch := None; x_read := fun _ => None; x_canonicalize := fun _ => None; x_list_dir := fun _ => None |}.
Theorem C77_once_refuted : exists X text fuel out d,
  Environment Plain X /\ text = lit "@html::parse `<i a-b=1 a_b=2></i>`" /\
  compile_str X fuel text = Ret (Document out) /\ read_html out = Some d /\ ~ Forall Once d.
Proof.
  exists C77_X, (lit "@html::parse `<i a-b=1 a_b=2></i>`"), 60, (lit "<p><i a-b=""1"" a-b=""2""></i></p>"). eexists.
  split; [|split; [reflexivity|split; [vm_compute; reflexivity|split; [vm_compute; reflexivity|]]]].
  - intro s. constructor. constructor; [|constructor]. constructor.
    + split; [discriminate|]. repeat constructor; cbn; intuition discriminate.
    + repeat constructor; cbn; try discriminate; intuition discriminate.
    + intro H. exfalso. cbn in H. intuition discriminate.
    + constructor.
  - intro H. inversion H as [|? ? H1 _]; subst. inversion H1 as [|? ? ? _ H2]; subst. inversion H2 as [|? ? H3 _]; subst.
    inversion H3 as [|? ? ? H4 _]; subst. inversion H4 as [|? ? H5 _]; subst. apply H5. now left.
Qed.
Print Assumptions C77_once_refuted.
Example C77_nonvacuous : exists s ex s', Session Plain s /\ Environment Plain ex_library_X /\
  compile ex_library_X 60 (lit "<string>") ex_once s = Ok (ex_once_out, ex) s' /\ AttrsNoDash ex_once_out.
Proof. exact once_example. Qed.
