(** Property theorems C24, continued: exactly what becomes of content where only inline content, or none, is allowed. *)
From Verif Require Import Base M_Text M_Names M_TagInfo M_Html M_Sequence S_Html S_Sequence S_Inline P_Sequence P_Inline.

(** Which rule is for which tag. *)
Theorem C24_rules : forall n, Rule n (content_kind_for n).
Proof. exact rule_kind. Qed.
Print Assumptions C24_rules.
(** Where only inline content is allowed: every piece is taken or an error is reported about it, in order; the content is what
    is taken, without white space at both ends. A paragraph break is a line break or, where there may be none, an error. *)
Theorem C24_inline_exact : forall k breaks parent items errors h,
  k = RequireInline /\ breaks = true \/ k = RequireInlineNoLineBreaks /\ breaks = false ->
  compile_items k parent items = Ret (errors, h) ->
  exists hs ms, Taken breaks parent items hs errors /\ Trimmed hs ms /\ h = from_iter ms.
Proof. exact inline_exact. Qed.
Print Assumptions C24_inline_exact.
(** Where no content is allowed: there is an error exactly if there is something else than white space. *)
Theorem C24_empty_exact : forall parent items errors h,
  Forall (fun i => match i with Piece p => Normal p | ParagraphBreak => True end) items ->
  compile_items RequireEmpty parent items = Ret (errors, h) ->
  h = HEmpty /\ ((forall p, In (Piece p) items -> Blank p) /\ errors = [] \/ (exists p, In (Piece p) items /\ ~ Blank p) /\ errors = [NoContentAllowed]).
Proof. exact empty_exact. Qed.
Print Assumptions C24_empty_exact.

Definition C24_inline_items : list item :=
  [Piece HWhitespace; Piece (HText (lit "a")); ParagraphBreak; Piece (HSeq [HText (lit "b"); HTag (lit "a") [] (HTag (lit "div") [] HEmpty)]); Piece (HTag (lit "b") [] HEmpty); Piece HWhitespace].
Example C24_inline_nonvacuous :
  content_kind_for (lit "code") = RequireInline /\ content_kind_for (lit "p") = RequireInlineNoLineBreaks /\ content_kind_for (lit "br") = RequireEmpty /\
  compile_items RequireInline (Some (lit "code")) C24_inline_items = Ret ([TagNotAllowedIn (lit "div") (lit "code")], HSeq [HText (lit "a"); HTag (lit "br") [] HEmpty; HTag (lit "b") [] HEmpty]) /\
  compile_items RequireInlineNoLineBreaks None C24_inline_items = Ret ([ParagraphBreakNotAllowed; TagNotAllowed (lit "div")], HSeq [HText (lit "a"); HTag (lit "b") [] HEmpty]) /\
  compile_items RequireEmpty None C24_inline_items = Ret ([NoContentAllowed], HEmpty) /\ compile_items RequireEmpty None [Piece HWhitespace; ParagraphBreak] = Ret ([], HEmpty).
Proof. repeat split; vm_compute; reflexivity. Qed.
