(** Proofs for C24_document. *)
From Verif Require Import Base BaseFacts M_Text M_Names M_TagInfo M_Html M_Sequence M_Types M_Token M_Diag M_Ast M_Value M_State M_Matcher M_Binder M_Native M_Eval
  S_Html P_Sequence S_Scope S_Match S_Util S_Expr P_Expr P_Expr2 S_Sequence S_Inline S_Blocks P_Blocks S_Document.

Lemma no_refusals parent k items : block_sort k -> refusals k parent items = [].
Proof.
  intro K. unfold refusals. destruct (divided_run k parent K items []) as (closed & last & _ & R). specialize (R []). change (st parent k [] []) with (b_new k parent) in R. now rewrite R.
Qed.
Lemma contents_gives X k parent ns before s items s' : block_sort k -> Contents X k parent ns before s items s' -> exists added, items = before ++ added /\ Gives X ns s added s'.
Proof.
  intros K. induction 1 as [before s|n ns before s i s1 items s' A C IH|n ns before s s1 items s' E C IH|n ns before s e s1 items s' B C IH].
  - exists []. split; [now rewrite app_nil_r|constructor].
  - destruct IH as (added & -> & G). unfold told in G. rewrite !no_refusals in G by exact K. cbn in G. exists (i :: added). split; [now rewrite <- app_assoc|]. exact (gv_adds X n ns s i s1 added s' A G).
  - destruct IH as (added & -> & G). exists added. split; [reflexivity|]. exact (gv_effects X n ns s s1 added s' E G).
  - destruct IH as (added & -> & G). exists added. split; [reflexivity|]. exact (gv_breaks X n ns s e s1 added s' B G).
Qed.
Lemma document_exact X fuel path text s h ex s' : compile X fuel path text s = Ok (h, ex) s' ->
  exists root errs items s1 closed last ps,
  parse_source X path text = Ret (root, errs) /\ Gives X root (begun (fold_left (fun s e => reported e s) errs s)) items s1 /\
  Divided [] items closed last /\ Paragraph last ps /\ h = from_iter (closed ++ ps) /\
  ex = st_exports s1 /\ s' = set_stack (st_stack s) (set_exports (st_exports s) s1).
Proof.
  intro E. assert (D : DocumentOf X path text s h ex s') by (apply document_spec; now exists fuel). clear E. destruct D as [root errs h s1 P M].
  exists root, errs. inversion M as [items s2 es h0 C I R|items s2 es e h0 C I R]; subst.
  - destruct (contents_gives X _ _ _ _ _ _ _ (or_introl eq_refl) C) as (added & -> & G). cbn [app] in *. destruct (block_exact _ _ _ _ I) as (_ & closed & last & ps & D & Q & H).
    exists added, s1, closed, last, ps. auto 10.
  - exfalso. destruct (block_exact _ _ _ _ I) as (Z & _). now apply app_eq_nil in Z as [_ Z].
Qed.
