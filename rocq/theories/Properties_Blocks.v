(** Property theorems C24, continued: exactly what becomes of content where block content is required or allowed. *)
From Verif Require Import Base M_Text M_Names M_TagInfo M_Html M_Sequence S_Html S_Sequence S_Inline S_Blocks P_Sequence P_Blocks.

(** Where block content is required (the whole text, [<section>], ...): there are no errors; the content is the blocks, each where
    it was, and between them one [<p>] for every run of inline pieces that is not just white space. *)
Theorem C24_block_exact : forall parent items errors h,
  compile_items (RequireBlock (lit "p")) parent items = Ret (errors, h) ->
  errors = [] /\ exists closed last ps, Divided [] items closed last /\ Paragraph last ps /\ h = from_iter (closed ++ ps).
Proof. exact block_exact. Qed.
Print Assumptions C24_block_exact.
(** Where it is allowed (a group in braces, [<div>], [<li>], ...): the same, but a single run of inline pieces, with no block and no
    paragraph before it, is not put into a [<p>]. *)
Theorem C24_allow_exact : forall parent items errors h,
  compile_items (AllowBlock (lit "p")) parent items = Ret (errors, h) ->
  errors = [] /\ exists closed last, Divided [] items closed last /\
  (closed = [] /\ (exists ms, Trimmed last ms /\ h = from_iter ms) \/ closed <> [] /\ exists ps, Paragraph last ps /\ h = from_iter (closed ++ ps)).
Proof. exact allow_exact. Qed.
Print Assumptions C24_allow_exact.

Definition C24_block_items : list item :=
  [Piece HWhitespace; Piece (HText (lit "a")); Piece HWhitespace; Piece (HTag (lit "b") [] HEmpty); Piece HWhitespace; ParagraphBreak; Piece HWhitespace;
   Piece (HTag (lit "div") [] HEmpty); Piece HWhitespace; ParagraphBreak; Piece HEmpty; Piece (HText (lit "c"))].
Definition C24_block_result : html :=
  HSeq [HTag (lit "p") [] (HSeq [HText (lit "a "); HTag (lit "b") [] HEmpty]); HTag (lit "div") [] HEmpty; HTag (lit "p") [] (HText (lit "c"))].
Example C24_block_nonvacuous :
  content_kind_for (lit "section") = RequireBlock (lit "p") /\ content_kind_for (lit "li") = AllowBlock (lit "p") /\
  compile_items (RequireBlock (lit "p")) None C24_block_items = Ret ([], C24_block_result) /\
  compile_items (AllowBlock (lit "p")) None C24_block_items = Ret ([], C24_block_result) /\
  compile_items (AllowBlock (lit "p")) None [Piece HWhitespace; Piece (HText (lit "a")); Piece HWhitespace] = Ret ([], HText (lit "a")) /\
  compile_items (RequireBlock (lit "p")) None [Piece (HText (lit "a"))] = Ret ([], HTag (lit "p") [] (HText (lit "a"))).
Proof. repeat split; vm_compute; reflexivity. Qed.
