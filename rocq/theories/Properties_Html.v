(** Property theorems C21-C26 (HTML normal form, rendering, tag content). *)
From Verif Require Import Base M_Text M_Names M_TagInfo M_Html M_Render M_Sequence S_Html S_Sequence P_Html P_Sequence P_HtmlDec.

(** C21. Building from pieces in normal form gives normal form ... *)
Theorem C21_sequence_normal : forall pieces, Forall Normal pieces -> Normal (from_iter pieces).
Proof. exact from_iter_normal. Qed.
Print Assumptions C21_sequence_normal.
(** ... which denotes exactly the pieces one after the other ... *)
Theorem C21_sequence_content : forall pieces, events (from_iter pieces) = flat_map events pieces.
Proof. exact from_iter_events. Qed.
Print Assumptions C21_sequence_content.
(** ... rebuilding from its own nodes changes nothing ... *)
Theorem C21_rebuild : forall h, Normal h -> from_iter (html_nodes h) = h.
Proof. exact from_iter_nodes. Qed.
Print Assumptions C21_rebuild.
(** ... and normal form is canonical: documents with the same characters and tags are the same. *)
Theorem C21_normal_unique : forall h h', Normal h -> Normal h' -> events h = events h' -> h = h'.
Proof. exact events_unique. Qed.
Print Assumptions C21_normal_unique.

Example C21_nonvacuous :
  let pieces := [HText (lit "ab"); HEmpty; HWhitespace; HSeq [HTag (lit "b") [] HEmpty; HRawNewline]; HRawNewline] in
  Forall Normal pieces /\
  from_iter pieces = HSeq [HText (lit "ab "); HTag (lit "b") [] HEmpty; HText [10%N; 10%N]].
Proof. split; [|reflexivity]. repeat (apply Forall_cons; [apply normal_ok; reflexivity|]). constructor. Qed.

(** C22. In both output modes. *)
Theorem C22_render_compositional : forall as_html pieces,
  render as_html (from_iter pieces) = List.concat (List.map (render as_html) pieces).
Proof. intros. rewrite render_from_iter. apply flat_map_concat_map. Qed.
Print Assumptions C22_render_compositional.
Example C22_nonvacuous :
  let pieces := [HText (lit "a<"); HTag (lit "p") [] (HText (lit "x y")); HWhitespace] in
  render true (from_iter pieces) = lit "a&lt;<p>x y</p> " /\
  render false (from_iter pieces) = lit "a<x y" ++ [10; 10; 32]%N.
Proof. vm_compute. auto. Qed.

(** C23. Reading the rendered text with an independent reader (S_Html: tokenizer and tree builder) gives the document. *)
Theorem C23_render_read : forall h, PlainDoc h -> read_html (render true h) = Some (doc h).
Proof. exact read_html_render. Qed.
Print Assumptions C23_render_read.
(** Hence different documents never render to the same text. *)
Theorem C23_render_injective : forall h h', Normal h -> Normal h' -> PlainDoc h -> PlainDoc h' ->
  AttrsNoDash h -> AttrsNoDash h' -> render true h = render true h' -> h = h'.
Proof. exact render_injective. Qed.
Print Assumptions C23_render_injective.
Definition C23_sample : html :=
  HSeq [HTag (lit "!DOCTYPE") [(lit "html", None)] HEmpty;
        HTag (lit "p") [(lit "title", Some (lit """><script>&"))]
          (HSeq [HText (lit "a </p><br> b"); HTag (lit "br") [] HEmpty; HText (lit "&amp;")])].
Example C23_nonvacuous : PlainDoc C23_sample /\ Normal C23_sample /\ AttrsNoDash C23_sample /\
  read_html (render true C23_sample) = Some (doc C23_sample).
Proof.
  split; [now apply plain_ok|]. split; [now apply normal_ok|]. split; [|vm_compute; reflexivity].
  repeat (constructor; cbn); unfold NoDash; cbn; intuition discriminate.
Qed.

(** C24. Content of every tag, whatever the pieces and even if some pieces were rejected. Tags that require particular
    children, inline content or no content: no assumption but normal form. *)
Theorem C24_content_model : forall name parent items errors h,
  Forall (fun i => match i with Piece p => Normal p | ParagraphBreak => True end) items ->
  compile_items (content_kind_for name) parent items = Ret (errors, h) ->
  (forall w, content_kind_for name <> RequireBlock w /\ content_kind_for name <> AllowBlock w) ->
  Normal h /\ Conforms (content_kind_for name) (nodes h).
Proof. exact content_conforms'. Qed.
Print Assumptions C24_content_model.
(** All tags, for pieces that do not mix block-level and inline nodes; moreover every implicit wrapper, at any depth,
    obeys the rules for its own tag. *)
Theorem C24_content_model_deep_partial : forall name parent items errors h,
  Forall (fun i => match i with Piece p => Normal p /\ Valid p /\ Homogeneous p | ParagraphBreak => True end) items ->
  compile_items (content_kind_for name) parent items = Ret (errors, h) ->
  Normal h /\ Valid h /\ Conforms (content_kind_for name) (nodes h).
Proof. exact content_conforms. Qed.
Print Assumptions C24_content_model_deep_partial.
(** Without that assumption the claim is false for tags that require block content: a piece consisting of text and a
    block (for instance the result of [list::join]) is accepted as it is. *)
Theorem C24_block_content_refuted : exists p items h,
  items = [Piece p] /\ Normal p /\ Valid p /\
  compile_items (content_kind_for (lit "section")) None items = Ret ([], h) /\
  ~ Conforms (content_kind_for (lit "section")) (nodes h).
Proof. exact content_mixed. Qed.
Print Assumptions C24_block_content_refuted.
(** Processing always terminates, and tags that require or allow blocks accept everything. *)
Theorem C24_content_total : forall name parent items,
  exists errors h, compile_items (content_kind_for name) parent items = Ret (errors, h).
Proof. intros. apply compile_items_total, kind_for_good. Qed.
Print Assumptions C24_content_total.
Theorem C24_block_content_accepts : forall k parent items, k = REQUIRE_P \/ k = ALLOW_P ->
  exists h, compile_items k parent items = Ret ([], h).
Proof. exact block_content_total. Qed.
Print Assumptions C24_block_content_accepts.

Definition C24_items : list item :=
  [Piece HWhitespace; Piece (HText (lit "a")); Piece HWhitespace; ParagraphBreak; Piece (HText (lit "b"));
   Piece (HTag (lit "li") [] HEmpty); Piece (HTag (lit "div") [] HEmpty); Piece HWhitespace].
Example C24_nonvacuous :
  Forall (fun i => match i with Piece p => Normal p /\ Valid p /\ Homogeneous p | ParagraphBreak => True end) C24_items /\
  compile_items (content_kind_for (lit "ul")) (Some (lit "ul")) C24_items
  = Ret ([], HSeq [HTag (lit "li") [] (HText (lit "a")); HTag (lit "li") [] (HText (lit "b")); HTag (lit "li") [] HEmpty;
                   HTag (lit "li") [] (HTag (lit "div") [] HEmpty)]) /\
  compile_items (content_kind_for (lit "p")) (Some (lit "p")) C24_items
  = Ret ([ParagraphBreakNotAllowed; TagNotAllowedIn (lit "li") (lit "p"); TagNotAllowedIn (lit "div") (lit "p")],
         HText (lit "a b")).
Proof.
  split; [|split; vm_compute; reflexivity].
  repeat (apply Forall_cons || apply Forall_nil); try exact I;
    (split; [apply normal_ok; reflexivity|split; [|apply homogeneous_ok; reflexivity]]); repeat constructor.
Qed.

(** C25. Accepted content: everything is kept in order; only white space may be left out and only wrapper tags added. *)
Theorem C25_content_arranged : forall name parent items h,
  compile_items (content_kind_for name) parent items = Ret ([], h) ->
  Arranged (flat_map (fun i => match i with Piece p => events p | ParagraphBreak => [] end) items) (events h).
Proof. exact content_arranged. Qed.
Print Assumptions C25_content_arranged.
Theorem C25_content_text : forall name parent items h,
  compile_items (content_kind_for name) parent items = Ret ([], h) ->
  visible (events h) = visible (flat_map (fun i => match i with Piece p => events p | ParagraphBreak => [] end) items).
Proof. intros name parent items h E. apply Arranged_visible. now apply (content_arranged name parent items h). Qed.
Print Assumptions C25_content_text.
Example C25_nonvacuous : exists h,
  compile_items (content_kind_for (lit "ul")) (Some (lit "ul")) C24_items = Ret ([], h) /\ visible (events h) = lit "ab".
Proof. eexists. split; vm_compute; reflexivity. Qed.

(** C26. If every piece is all white space or starts and ends with something else (and the same holds inside the tags in
    it), then so does the content, and so does the content of every implicit wrapper. *)
Theorem C26_clean_edges : forall name parent items errors h,
  Forall (fun i => match i with
                   | Piece p => Normal p /\ DeepClean p /\ (AllWhite (events p) \/ CleanEdges (events p))
                   | ParagraphBreak => True
                   end) items ->
  compile_items (content_kind_for name) parent items = Ret (errors, h) ->
  CleanEdges (events h) /\ DeepClean h.
Proof. exact content_clean. Qed.
Print Assumptions C26_clean_edges.
Example C26_nonvacuous :
  Forall (fun i => match i with
                   | Piece p => Normal p /\ DeepClean p /\ (AllWhite (events p) \/ CleanEdges (events p))
                   | ParagraphBreak => True
                   end) C24_items.
Proof.
  repeat (apply Forall_cons || apply Forall_nil); try exact I;
    (split; [apply normal_ok; reflexivity|split; [apply deepclean_ok; reflexivity|]]);
    ((left; apply allwhite_ok; reflexivity) || (right; apply clean_ok; reflexivity)).
Qed.
