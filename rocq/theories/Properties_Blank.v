(** Property theorems C86: a blank line divides a document into parts that are compiled one after the other. *)
From Verif Require Import Base M_Text M_Names M_TagInfo M_Html M_Sequence M_Types M_Token M_Diag M_Ast M_Value M_State M_Matcher M_Binder M_Native M_Eval
  S_Html S_Expr S_Example S_Sequence P_Expr2 P_Blank.

(** Content with a blank line where block content is required ([Makes], S_Expr): the children are those of the part before followed
    by those of the part after, which is compiled as content of its own in the state the part before leaves. *)
Theorem C86_content : forall X parent a b s h s', Makes X (RequireBlock (lit "p")) parent (a ++ AParagraphBreak :: b) s h s' ->
  exists hs1 s1 hs2, Makes X (RequireBlock (lit "p")) parent a s (from_iter hs1) s1 /\ Makes X (RequireBlock (lit "p")) parent b s1 (from_iter hs2) s' /\
  h = from_iter (hs1 ++ hs2).
Proof. exact makes_break. Qed.
Print Assumptions C86_content.
(** The same of every text that compiles. *)
Theorem C86_document : forall X fuel path text s h ex s' a b errs,
  compile X fuel path text s = Ok (h, ex) s' -> parse_source X path text = Ret (a ++ AParagraphBreak :: b, errs) ->
  exists hs1 s1 hs2 s2,
  Makes X (RequireBlock (lit "p")) None a (begun (fold_left (fun s e => reported e s) errs s)) (from_iter hs1) s1 /\
  Makes X (RequireBlock (lit "p")) None b s1 (from_iter hs2) s2 /\ h = from_iter (hs1 ++ hs2) /\ ex = st_exports s2.
Proof.
  intros X fuel path text s h ex s' a b errs C P. assert (D : DocumentOf X path text s h ex s') by (apply document_spec; now exists fuel). clear C.
  destruct D as [root errs' h s2 P' M]. rewrite P in P'. clear P. injection P' as <- <-. destruct (makes_break _ _ _ _ _ _ _ M) as (hs1 & s1 & hs2 & M1 & M2 & H).
  exists hs1, s1, hs2, s2. auto.
Qed.
Print Assumptions C86_document.

Definition C86_text : str := lit "a <b>c</b>@let(x=2) $x" ++ [10; 10]%N ++ lit "@export(x=1). <div>$z d</div> e".
Example C86_nonvacuous :
  (exists s', compile ex_X 10 (lit "m") C86_text ex_start =
    Ok (HSeq [HTag n_p [] (HSeq [HText (lit "a "); HTag (lit "b") [] (HText (lit "c")); HText (lit "2")]); HTag (lit "div") [] (HText (lit "d")); HTag n_p [] (HText (lit "e"))], [(lit "x", VInt 1)]) s') /\
  exists a b, parse_source ex_X (lit "m") C86_text = Ret (a ++ AParagraphBreak :: b, []) /\ 3 <= length a /\ 4 <= length b.
Proof.
  split; [eexists; vm_compute; reflexivity|].
  set (r := parse_source ex_X (lit "m") C86_text). vm_compute in r.
  match goal with r := Ret (?l, []) |- _ =>
    exists (firstn 4 l), (skipn 5 l) end. split; [reflexivity|]. split; cbn; repeat constructor.
Qed.
