(** Property theorems C24, continued: exactly what becomes of content where particular children are required. *)
From Verif Require Import Base M_Text M_Names M_TagInfo M_Html M_Sequence S_Html S_Sequence S_Inline S_Sorted P_Sequence P_Sorted.

(** In lists, tables and other elements whose children must have one of the names [w :: names]: the children are those pieces that
    have such a name, each where it was, and between them one element [w] for every run of other pieces, with the content and the
    errors of those pieces as the content of a [w]. ([head], whose [w] must be empty, is excepted: see below.) *)
Theorem C24_sorted_exact : forall n w names parent items errors h,
  content_kind_for n = RequireOneOf (w :: names) -> n <> lit "head" ->
  compile_items (content_kind_for n) parent items = Ret (errors, h) ->
  exists ps, Arrayed (w :: names) w [] items ps errors /\ h = from_iter ps.
Proof. exact sorted_exact. Qed.
Print Assumptions C24_sorted_exact.

Definition C24_sorted_items : list item :=
  [Piece HWhitespace; Piece (HText (lit "a")); Piece (HTag (lit "tr") [] HEmpty); Piece HWhitespace; Piece (HTag (lit "td") [] HEmpty); Piece (HTag (lit "div") [] HEmpty);
   ParagraphBreak; Piece (HText (lit "b"))].
Example C24_sorted_nonvacuous :
  content_kind_for (lit "ul") = RequireOneOf [lit "li"] /\ content_kind_for (lit "tbody") = RequireOneOf [lit "tr"] /\
  compile_items (content_kind_for (lit "tbody")) (Some (lit "tbody")) C24_sorted_items =
    Ret ([TagNotAllowedIn (lit "div") (lit "td")], HSeq [HTag (lit "tr") [] (HTag (lit "td") [] (HText (lit "a"))); HTag (lit "tr") [] HEmpty; HTag (lit "tr") [] (HTag (lit "td") [] HEmpty);
      HTag (lit "tr") [] (HTag (lit "td") [] (HText (lit "b")))]) /\
  compile_items (content_kind_for (lit "ul")) (Some (lit "ul")) [Piece (HText (lit "a")); Piece (HTag (lit "li") [] HEmpty); Piece (HText (lit "b"))] =
    Ret ([], HSeq [HTag (lit "li") [] (HText (lit "a")); HTag (lit "li") [] HEmpty; HTag (lit "li") [] (HText (lit "b"))]).
Proof. repeat split; vm_compute; reflexivity. Qed.
(** In [head] the child after a piece that is not allowed is lost as well. *)
Example C24_head_loses :
  compile_items (content_kind_for (lit "head")) (Some (lit "head")) [Piece (HText (lit "a")); Piece (HTag (lit "title") [] HEmpty); Piece (HTag (lit "meta") [] HEmpty)] =
    Ret ([NoContentAllowed], HTag (lit "meta") [] HEmpty).
Proof. vm_compute. reflexivity. Qed.
