(** Properties of the evaluation of expressions: C62. The rules are in S_Expr. *)
From Verif Require Import Base BaseFacts M_Text M_Names M_TagInfo M_Html M_Sequence M_Types M_Token M_Diag M_Ast M_Value M_State M_Matcher M_Binder M_Native M_Eval
  S_Html P_Sequence S_Scope S_Match S_Util S_Expr S_Example P_Expr P_Expr2.

(** An expression has at most one value, and does not both have a value and fail. *)
Theorem C62_determined : forall X e t s v s1 w s2, Yields X e t s v s1 -> Yields X e t s w s2 -> v = w /\ s1 = s2.
Proof.
  intros X e t s v s1 w s2 H H'. pose proof (at_fun X _ (fun R => e_node R e t) s _ _ (mono_node X e t) H H') as E.
  assert (E' : Ok v s1 = Ok w s2) by (apply E; discriminate). now inversion E'.
Qed.
Print Assumptions C62_determined.
Theorem C62_determined_failure : forall X e t s v s1 s2, Yields X e t s v s1 -> Fails X e t s s2 -> False.
Proof.
  intros X e t s v s1 s2 H H'. pose proof (at_fun X _ (fun R => e_node R e t) s _ _ (mono_node X e t) H H') as E.
  assert (E' : Ok v s1 = Err AlreadyReported s2) by (apply E; discriminate). discriminate.
Qed.
Print Assumptions C62_determined_failure.
(** An expression that fails has reported why: no error gets lost on the way up. *)
Theorem C62_failure : forall X e t fuel s err s', e_node (evals_n X fuel) e t s = Err err s' -> Fails X e t s s'.
Proof. intros X e t fuel s err s' H. exists fuel. now rewrite <- (fails_reported X e t fuel s err s' H). Qed.
Print Assumptions C62_failure.

(** What each form of expression gives. *)
Theorem C62_literals : forall X e w t s v s', Literal e w -> Yields X e t s v s' <-> s' = s /\ coerce t w = inl v.
Proof. intros X e w t s v s'. exact (yields_literal X e w t s v s'). Qed.
Print Assumptions C62_literals.
Theorem C62_names : forall X n t s v s', Yields X (EName n) t s v s' <-> s' = s /\ exists w, Names s n w /\ coerce t w = inl v.
Proof. exact yields_name. Qed.
Print Assumptions C62_names.
Theorem C62_templates : forall X ps t s v s', Yields X (ETemplate ps) t s v s' <-> s' = s /\ exists x, TextOf s ps x /\ coerce t (VStr x) = inl v.
Proof. exact yields_template. Qed.
Print Assumptions C62_templates.
Theorem C62_lists : forall X l t s v s',
  Yields X (EList l) t s v s' <-> exists u vs, ElementType t u /\ Items X u l s vs s' /\ coerce t (VList vs) = inl v.
Proof. exact yields_list. Qed.
Print Assumptions C62_lists.
Theorem C62_tags : forall X n l ns t s v s', Yields X (ETag n l ns) t s v s' <->
  exists x a s1 c, TagNamed s n x /\ Attributes X l [] s a s1 /\ Makes X (content_kind_for x) (Some x) ns s1 c s' /\
    coerce t (VHtml (HTag x a c)) = inl v.
Proof.
  intros X n l ns t s v s'. rewrite yields_tag.
  split; intros (x & a & s1 & c & H1 & H2 & H3 & H4); exists x, a, s1, c; repeat split; auto; apply sequence_spec; auto using kind_for_good.
Qed.
Print Assumptions C62_tags.
Theorem C62_groups : forall X ns t s v s',
  Yields X (EGroup ns) t s v s' <-> exists h, Makes X (AllowBlock n_p) None ns s h s' /\ coerce t (of_html h) = inl v.
Proof.
  intros X ns t s v s'. rewrite yields_group. assert (G : good_kind (AllowBlock n_p)) by (unfold good_kind; cbn; auto).
  split; intros (h & H & C); exists h; (split; [now apply (sequence_spec X _ _ G)|exact C]).
Qed.
Print Assumptions C62_groups.
Theorem C62_let : forall X l t s v s', Yields X (ELetIn l) t s v s' <-> LetYields X false l t s v s'.
Proof. exact yields_let. Qed.
Print Assumptions C62_let.
Theorem C62_match : forall X e l t s v s',
  Yields X (EMatch e l) t s v s' <-> exists u s1, Yields X e TAny s u s1 /\ Branches X u t l s1 v s'.
Proof. exact yields_match. Qed.
Print Assumptions C62_match.
Theorem C62_functions : forall X d t s v s',
  Yields X (EFuncDef d) t s v s' <-> exists f, Defines X d s f s' /\ t_is_html t = false /\ coerce t (VFunc f) = inl v.
Proof. exact yields_def. Qed.
Print Assumptions C62_functions.
Theorem C62_calls : forall X src f args content t s v s', Yields X (EFuncCall src f args content) t s v s' <->
  (exists g bs s1, Names s f (VFunc g) /\ Binding X g args content s bs s1 /\ Calls X g bs t src s1 v s') \/
  Names s f UNIT /\ is_coalescing f = true /\ v = UNIT /\ s' = s.
Proof. exact yields_call. Qed.
Print Assumptions C62_calls.
(** Calling a function evaluates its body in a new scope, inside the one where the function was defined, with its parameters. *)
Theorem C62_closures : forall X n c sig body bs t src s v s', Calls X (FClosure n c sig body) bs t src s v s' <->
  c < length (st_heap s) /\ exists s1, Yields X body t (entered c bs s) v s1 /\ s' = left_scope s1.
Proof. exact calls_closure. Qed.
Print Assumptions C62_closures.
Theorem C62_bound : forall X f ps bs t src s v s', Calls X (FBound f ps) bs t src s v s' <-> Calls X f bs t src s v s'.
Proof. exact calls_bound. Qed.
Print Assumptions C62_bound.

(** Content: the nodes give pieces from left to right; one that fails is left out. *)
Theorem C62_content : forall X ns k parent s h s', k = AllowBlock n_p \/ k = RequireBlock n_p \/ (exists n, k = content_kind_for n) ->
  (exists fuel, compile_sequence (evals_n X fuel) ns k parent s = Ok h s') <-> Makes X k parent ns s h s'.
Proof.
  intros X ns k parent s h s' Hk. apply (sequence_spec X k parent).
  destruct Hk as [->|[->|[n ->]]]; [unfold good_kind; cbn; auto|unfold good_kind; cbn; auto|apply kind_for_good].
Qed.
Print Assumptions C62_content.
(** A whole text. *)
Theorem C62_documents : forall X path text s h ex s',
  (exists fuel, compile X fuel path text s = Ok (h, ex) s') <-> DocumentOf X path text s h ex s'.
Proof. exact document_spec. Qed.
Print Assumptions C62_documents.

(** In the example's scope, [x] is 1: [@let(l=[2, *[$x, 3]]) @match $l { [$a, *_] => <p class=c title?=.>{hi{$nothing}}</p> }] *)
Definition ex_expr : expr :=
  ELetIn (LetIn false [(lit "l", EList [(EInt 2, false); (EList [(ex_var "x", false); (EInt 3, false)], true)])]
    (EMatch (ex_var "l")
      [(PExactList [PVarName (lit "a")], EUnit);
       (PSpreadList [PVarName (lit "a"); PIgnore] 1,
        ETag (TNLit (lit "p")) [TAttr (lit "class") false (Some (ETemplate [TPLit (lit "c"); TPChar 45%N])); TAttr (lit "title") true (Some EUnit)]
          [AText (lit "hi"); AExpr (ex_var "nothing"); AExport (ExNames [(lit "b", ex_var "a")]); AText (lit "!")])])).
Example C62_nonvacuous : exists s', Yields ex_X ex_expr THtml ex_scoped (VHtml (HTag (lit "p") [(lit "class", Some (lit "c-"))] (HText (lit "hi!")))) s' /\
  st_exports s' = [(lit "b", VInt 2)] /\ sk_errors (st_sink s') = 1%N /\ st_stack s' = st_stack ex_scoped.
Proof. eexists. split; [exists 10; vm_compute; reflexivity|]. repeat split. Qed.
Example C62_nonvacuous_call : exists s',
  Yields ex_X (ELetIn (LetIn false [(lit "f", EFuncDef (FuncDef (lit "f") (Signature [Param (lit "c") false false TAny None] 0 false 0 false true) (EList [(ex_var "c", false); (ex_var "x", false)])))]
    (EFuncCall (lit "m") (NSimple (lit "f")) [] (EInt 7)))) TAny ex_scoped (VList [VInt 7; VInt 1]) s'.
Proof. eexists. exists 10. vm_compute. reflexivity. Qed.
Example C62_nonvacuous_document : exists s', DocumentOf ex_X (lit "m") (lit "a @export(x=1). <b>$z</b> c") ex_start
  (HTag n_p [] (HSeq [HText (lit "a  "); HTag (lit "b") [] HEmpty; HText (lit " c")])) [(lit "x", VInt 1)] s'.
Proof. eexists. apply document_spec. exists 10. vm_compute. reflexivity. Qed.
