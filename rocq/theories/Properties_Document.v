(** Property theorems C24, continued: the document a text gives, in full. *)
From Verif Require Import Base M_Text M_Names M_TagInfo M_Html M_Sequence M_Types M_Token M_Diag M_Ast M_Value M_State M_Matcher M_Binder M_Native M_Eval
  S_Html S_Expr S_Example S_Sequence S_Inline S_Blocks S_Document P_Document.

(** The document of every text that compiles consists of the blocks among its pieces, each where it was, and between them one
    paragraph for every run of inline pieces that is not just white space. *)
Theorem C24_document : forall X fuel path text s h ex s',
  compile X fuel path text s = Ok (h, ex) s' ->
  exists root errs items s1 closed last ps,
  parse_source X path text = Ret (root, errs) /\ Gives X root (begun (fold_left (fun s e => reported e s) errs s)) items s1 /\
  Divided [] items closed last /\ Paragraph last ps /\ h = from_iter (closed ++ ps) /\
  ex = st_exports s1 /\ s' = set_stack (st_stack s) (set_exports (st_exports s) s1).
Proof. exact document_exact. Qed.
Print Assumptions C24_document.

Example C24_document_nonvacuous : exists s', compile ex_X 10 (lit "m") (lit "a <b>c</b>" ++ [10; 10]%N ++ lit "@export(x=1). <div>$z d</div> e") ex_start =
  Ok (HSeq [HTag n_p [] (HSeq [HText (lit "a "); HTag (lit "b") [] (HText (lit "c"))]); HTag (lit "div") [] (HText (lit "d")); HTag n_p [] (HText (lit "e"))], [(lit "x", VInt 1)]) s'.
Proof. eexists. vm_compute. reflexivity. Qed.
