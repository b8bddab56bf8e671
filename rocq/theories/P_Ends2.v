(** Proofs for C67: evaluation ends if calls are not nested without bound (the evaluator). *)
From Verif Require Import Base BaseFacts M_Int M_Text M_Names M_TagInfo M_SliceRef M_Html M_Sequence S_Html P_Html P_Sequence M_Types M_Token M_Tokenizer M_Diag M_SourceFile M_Highlight M_HtmlParse M_Queue M_Ast M_Parser M_Value
  M_State M_Matcher M_Binder M_Native M_Eval P_Pattern P_Text P_Mono P_Ast P_ParserEnds P_Ends S_Ends.

Lemma Forall_firstn_ A (P : A -> Prop) l k : Forall P l -> Forall P (firstn k l).
Proof. intro H. revert k. induction H; intros [|k]; cbn; constructor; auto. Qed.
Section Calls.
  Variable eval : nat -> expr -> ty -> EM value.
  Definition GE (e : expr) : Prop := forall t, T (fun n => eval n e t).
  Definition GA (a : arg) : Prop := let '(Arg _ _ e) := a in GE e.
  Definition GP (p : param) : Prop := let '(Param _ _ _ _ d) := p in OptP GE d.
  Definition GS (s : signature) : Prop := let '(Signature ps _ _ _ _ _) := s in Forall GP ps.
  Definition GD (d : func_def) : Prop := let '(FuncDef _ s _) := d in GS s.
  Definition GL (l : let_in) : Prop := let '(LetIn _ vs e) := l in Forall (fun x => GE (snd x)) vs /\ GE e.
  Definition GT (a : tag_attr) : Prop := match a with TAttr _ _ v => OptP GE v | TSpread e => GE e end.
  Definition GX (x : M_Ast.export) : Prop :=
    match x with ExNames vs => Forall (fun x => GE (snd x)) vs | ExLetIn l => GL l | ExFuncDef d => GD d end.
  Hint Unfold GE : ends.
  Lemma ge_use e t : GE e -> T (fun n => eval n e t). Proof. intro H. apply H. Qed.
  Hint Resolve ge_use : ends.
  Lemma t_compile_positional_arg s sp e b : GE e -> T (fun n => compile_positional_arg (eval n) s sp e b).
  Proof. intro H. unfold compile_positional_arg. ends. Qed.
  Lemma t_compile_named_arg s sp n e b : GE e -> T (fun k => compile_named_arg (eval k) s sp n e b).
  Proof. intro H. unfold compile_named_arg. ends. Qed.
  Hint Resolve t_compile_positional_arg t_compile_named_arg : ends.
  Lemma t_compile_arg s a b : GA a -> T (fun n => compile_arg (eval n) s a b).
  Proof. intro H. destruct a. cbn [GA] in H. unfold compile_arg. ends. Qed.
  Hint Resolve t_compile_arg : ends.
  Lemma t_compile_args s l : Forall GA l -> forall b, T (fun n => compile_args (eval n) s l b).
  Proof. intro H. induction H; intro b; cbn [compile_args]; ends. Qed.
  Lemma t_compile_content_arg s e b : GE e -> T (fun n => compile_content_arg (eval n) s e b).
  Proof. intro H. unfold compile_content_arg. ends. Qed.
  Hint Resolve t_compile_args t_compile_content_arg : ends.
  Lemma t_bind_call f l c : Forall GA l -> GE c -> T (fun n => bind_call (eval n) f l c).
  Proof. intros. unfold bind_call. ends. Qed.
  Lemma t_compile_param p : GP p -> T (fun n => compile_param (eval n) p).
  Proof. intro H. destruct p as [n q i t [d|]]; cbn [GP OptP] in H; unfold compile_param; ends. Qed.
  Hint Resolve t_compile_param : ends.
  Lemma t_compile_params ps : Forall GP ps -> T (fun n => compile_params (eval n) ps).
  Proof. intro H. induction H; cbn [compile_params]; ends. Qed.
  Hint Resolve t_compile_params : ends.
  Lemma t_compile_func_signature s : GS s -> T (fun n => compile_func_signature (eval n) s).
  Proof. intro H. destruct s. cbn [GS] in H. unfold compile_func_signature. cbv zeta. ends1; [apply t_compile_params; now apply Forall_firstn_|]. ends1; ends. Qed.
  Hint Resolve t_compile_func_signature : ends.
  Lemma t_compile_func_def d : GD d -> T (fun n => compile_func_def (eval n) d).
  Proof. intro H. destruct d. cbn [GD] in H. unfold compile_func_def. ends. Qed.

  (** ** Patterns *)
  Variable captures : str -> str -> option (list (option str)).
  Definition GM (p : pattern) : Prop := forall v, T (fun n => bind_pattern (eval n) captures p v).
  Lemma gm_use p v : GM p -> T (fun n => bind_pattern (eval n) captures p v). Proof. intro H. apply H. Qed.
  Hint Resolve gm_use : ends.
  Notation bp n := (bind_pattern (eval n) captures).
  Lemma t_bind_all ps : Forall GM ps -> forall vs, T (fun n => bind_all (bp n) ps vs).
  Proof.
    intro H. induction H as [|p ps Hp H IH]; intros [|v vs]; cbn [bind_all]; try solve [ends].
    apply (t_and_then (fun n => bp n p v) (fun n => bind_all (bp n) ps vs)); auto.
  Qed.
  Lemma t_bind_spread A one mk ps : Forall GM ps -> forall i vs, T (fun n => bind_spread (bp n) A one mk ps i vs).
  Proof.
    intro H. induction H as [|p ps Hp H IH]; intros i vs; cbn [bind_spread]; [ends|]. destruct i as [|i].
    - apply (t_and_then (fun n => bp n p _) (fun n => bind_all (bp n) ps _)); [apply Hp|]. now apply t_bind_all.
    - destruct vs as [|v vs]; [ends|]. apply (t_and_then (fun n => bp n p _) (fun n => bind_spread (bp n) A one mk ps i vs)); auto.
  Qed.
  Lemma gm_equals e : GE e -> GM (PEquals e).
  Proof. intros H v. cbn [bind_pattern]. ends. Qed.
  Lemma gm_and p q : GM p -> GM q -> GM (PAnd p q).
  Proof. intros H1 H2 v. cbn [bind_pattern]. apply (t_and_then (fun n => bp n p v) (fun n => bp n q v)); auto. Qed.
  Lemma gm_or p q l : GM p -> GM q -> GM (POr p q l).
  Proof. intros H1 H2 v. cbn [bind_pattern]. ends. Qed.
  Lemma gm_list ps : Forall GM ps -> GM (PExactList ps).
  Proof. intros H v. pose proof (t_bind_all ps H) as K. assert (T (fun n => match v with VList vs => if length ps =? length vs then bind_all (bp n) ps vs else ret false | _ => ret false end)) as G by ends. exact G. Qed.
  Lemma gm_shtml ps i : Forall GM ps -> GM (PSpreadHtml ps i).
  Proof. intros H v. pose proof (t_bind_spread html of_html (fun hs => of_html (from_iter hs)) ps H) as K.
    assert (T (fun n => match to_html v with
      | Some h =>
        if length (html_nodes h) + 1 <? length ps then ret false
        else bind_spread (bp n) html of_html (fun hs => of_html (from_iter hs)) ps i (html_nodes h)
      | None => ret false
      end)) as G by ends. exact G. Qed.
  Lemma gm_slist ps i : Forall GM ps -> GM (PSpreadList ps i).
  Proof. intros H v. pose proof (t_bind_spread value (fun v => v) VList ps H) as K.
    assert (T (fun n => match v with
      | VList vs => if length vs + 1 <? length ps then ret false else bind_spread (bp n) value (fun v => v) VList ps i vs
      | _ => ret false
      end)) as G by ends. exact G. Qed.
  Lemma gm_html ps : Forall GM ps -> GM (PExactHtml ps).
  Proof. intros H v. pose proof (t_bind_all ps H) as K.
    assert (T (fun n => match to_html v with
      | Some h => if length (html_nodes h) =? length ps then bind_all (bp n) ps (List.map of_html (html_nodes h)) else ret false
      | None => ret false
      end)) as G by ends. exact G. Qed.
  Lemma gm_dict l r : Forall (fun x => GM (snd x)) l -> OptP GM r -> GM (PDict l r).
  Proof.
    intros H Hr v. destruct v as [| | |d| | | |]; try solve [cbn [bind_pattern]; ends].
    set (rest := List.filter (fun kv => negb (nhas l (fst kv))) d).
    assert (T (fun n => if match r with None => negb (length d =? length l) | Some _ => false end then ret false
      else and_then (bind_attrs (bp n) d l) match r with None | Some PIgnore => ret true | Some p => bp n p (VDict rest) end)) as G; [|exact G].
    destruct (match r with None => _ | _ => _ end); [ends|].
    apply (t_and_then (fun n => bind_attrs (bp n) d l) (fun n => match r with None | Some PIgnore => ret true | Some p => bp n p (VDict rest) end)).
    - clear Hr rest. induction H as [|[n p] l Hp H IH]; cbn [bind_attrs]; [ends|]. cbn [snd] in Hp. destruct (ngetm d n); [|ends].
      apply (t_and_then (fun k => bp k p v) (fun k => bind_attrs (bp k) d l)); auto.
    - destruct r as [p|]; [|ends]. cbn [OptP] in Hr. pose proof (Hr (VDict rest)). destruct p; ends.
  Qed.
  Lemma gm_tag p q r : GM p -> GM q -> GM r -> GM (PTag p q r).
  Proof.
    intros H1 H2 H3 v. cbn [bind_pattern]. destruct v as [| | | | |h| |]; try solve [ends]. destruct h as [|n0 a0 c0| | | |]; try solve [ends].
    match goal with |- T (fun n => and_then _ (and_then (bind_pattern _ _ q ?x) (bind_pattern _ _ r ?y))) =>
      apply (t_and_then (fun n => bp n p (VStr n0)) (fun n => and_then (bp n q x) (bp n r y))); [apply H1|];
      apply (t_and_then (fun n => bp n q x) (fun n => bp n r y)); auto end.
  Qed.
  Lemma t_match_branches bs : Forall (fun b => GM (fst b) /\ GE (snd b)) bs -> forall v t, T (fun n => match_branches (eval n) captures bs v t).
  Proof.
    intro H. induction H as [|[p e] bs [Hp He] H IH]; intros v t; cbn [match_branches]; [ends|]. cbn [fst snd] in *. ends.
  Qed.
  Hint Resolve t_match_branches : ends.
  Lemma t_evaluate_match e bs t : GE e -> Forall (fun b => GM (fst b) /\ GE (snd b)) bs -> T (fun n => evaluate_match (eval n) captures e bs t).
  Proof. intros. unfold evaluate_match. ends. Qed.
End Calls.
