(** Proof for C67: a program that does not end. *)
From Verif Require Import Base BaseFacts M_Names M_TagInfo M_Html M_Sequence M_Types M_Diag M_Ast M_Value M_State M_Binder M_Native M_Eval P_Mono P_Match.

Definition ex_loop : str := lit "@fn f $x -> @f $x @f 1".
Section Loop.
  Variable X : externals.
  Variable path : str.
  Notation nf := (lit "f").
  Notation nx := (lit "x").
  Definition loop_body : expr := EFuncCall path (NSimple nf) [] (EName (NSimple nx)).
  Definition loop_fn (i : nat) : func := FClosure nf i (FSig [] None [] None (FParam nx false TAny None)) loop_body.
  (** [f] is defined in the scope [i] *)
  Definition HasLoop (i : nat) (s : st) : Prop := exists fr, nth_error (st_heap s) i = Some fr /\ ngetm (fr_locals fr) nf = Some (VFunc (loop_fn i)).
  Lemma loop_bind R i v s : e_node R (EName (NSimple nx)) TAny s = Ok v s -> bind_call (e_node R) (loop_fn i) [] (EName (NSimple nx)) s = Ok [(nx, v)] s.
  Proof.
    intro E. unfold bind_call, loop_fn, compile_content_arg. cbn. unfold bind. cbn. cbn in E. rewrite E. unfold or_report. cbn.
    reflexivity.
  Qed.
  Lemma loop_call : forall n i v t src s, HasLoop i s -> e_call (evals_n X n) (loop_fn i) [(nx, v)] t src s = NoFuel.
  Proof.
    induction n as [n IH] using lt_wf_ind. intros i v t src s (fr & Hn & Hf). destruct n as [|n]; [reflexivity|].
    assert (Li : i < length (st_heap s)) by (apply nth_error_Some; congruence).
    cbn [evals_n step e_call]. unfold loop_fn at 1. cbn [evaluate_call]. unfold in_call_frame, bind, gets.
    destruct (Nat.ltb_spec i (length (st_heap s))); [|lia]. unfold new_frame, bind, gets, modify, ret, in_frame. cbn [st_heap set_heap st_stack].
    set (k := length (st_heap s)).
    set (s1 := set_stack _ _).
    assert (K : e_node (evals_n X n) loop_body t s1 = NoFuel); [|now rewrite K].
    assert (Hh : st_heap s1 = st_heap s ++ [Frame (Some i) [(nx, v)] []]) by reflexivity.
    assert (Hs : st_stack s1 = k :: st_stack s) by reflexivity. clearbody s1.
    assert (Gf : frame_get (st_heap s1) k nf false = Some (VFunc (loop_fn i))).
    { unfold frame_get. rewrite Hh. cbn [frame_get_fuel]. unfold k at 2. rewrite nth_error_app2, Nat.sub_diag by lia. cbn [nth_error fr_locals fr_parent].
      cbn [negb orb]. change (ngetm [(nx, v)] nf) with (@None value). cbv iota. destruct (length (st_heap s)) as [|k0] eqn:Ek; [lia|]. cbn [frame_get_fuel].
      rewrite nth_error_app1 by (rewrite Ek; lia). rewrite Hn. cbn [negb orb]. now rewrite Hf. }
    assert (Gx : frame_get (st_heap s1) k nx false = Some v).
    { unfold frame_get. rewrite Hh. cbn [frame_get_fuel]. unfold k. rewrite nth_error_app2, Nat.sub_diag by lia. reflexivity. }
    assert (Ev : forall n v, frame_get (st_heap s1) k n false = Some v -> forall t w, coerce t v = inl w -> evaluate_name (NSimple n) t s1 = Ok w s1).
    { intros x w G t' w' C. cbn [evaluate_name]. unfold or_report, get_var, frame_lookup, frame_id, gets, bind, coerceM, lift. rewrite Hs, G. unfold ret. now rewrite C. }
    clearbody k. destruct n as [|n]; [reflexivity|]. cbn [evals_n step e_node evaluate_node loop_body]. unfold evaluate_func_call.
    cbn [is_coalescing]. unfold bind at 1. rewrite (Ev _ _ Gf (t_option_if TFunction false) (VFunc (loop_fn i)) eq_refl).
    unfold bind at 1. change (to_opt to_func (VFunc (loop_fn i)) s1) with (@Ok (option func) (Some (loop_fn i)) s1). cbv iota beta.
    unfold bind at 1. unfold or_report at 1.
    destruct n as [|n].
    - unfold bind_call, loop_fn. reflexivity.
    - rewrite (loop_bind (evals_n X (S n)) i v s1).
      + apply IH; [lia|]. exists fr. split; [|exact Hf]. rewrite Hh, nth_error_app1 by exact Li. exact Hn.
      + cbn [evals_n step e_node evaluate_node]. apply (Ev _ _ Gx). apply P_Match.coerce_any.
  Qed.

  Definition loop_root : list node :=
    [AFuncDef (FuncDef nf (Signature [Param nx false false TAny None] 0 false 0 false true) loop_body); AWhitespace;
     AExpr (EFuncCall path (NSimple nf) [] (EInt 1))].
  Lemma loop_parse : parse_source X path ex_loop = Ret (loop_root, []).
  Proof. vm_compute. reflexivity. Qed.
  Lemma loop_seq n s h k : st_heap s = h ++ [Frame (Some k) [] []] -> st_stack s = [length h] -> compile_sequence (evals_n X n) loop_root (RequireBlock n_p) None s = NoFuel.
  Proof.
    intros Hh Hs. unfold compile_sequence, loop_root, bind at 1. 
    set (fn := loop_fn (length h)).
    set (s2 := set_heap (h ++ [Frame (Some k) [(nf, VFunc fn)] []]) s).
    assert (E : compile_node (evals_n X n) (AFuncDef (FuncDef nf (Signature [Param nx false false TAny None] 0 false 0 false true) loop_body)) (b_new (RequireBlock n_p) None) s = Ok (None, b_new (RequireBlock n_p) None) s2).
    { unfold compile_node, no_piece, bind at 1, catch. 
      assert (D : compile_func_def (e_node (evals_n X n)) (FuncDef nf (Signature [Param nx false false TAny None] 0 false 0 false true) loop_body) s = Ok fn s).
      { unfold compile_func_def. cbn. unfold bind, frame_id. rewrite Hs. reflexivity. }
      unfold bind at 1. rewrite D.
      assert (V : set_var nf (VFunc fn) false s = Ok tt s2).
      { unfold set_var, frame_set, frame_has, with_frame, frame_id, gets, modify, bind, ret. rewrite Hs, Hh. rewrite nth_error_app2, Nat.sub_diag by lia. cbn [nth_error].
        unfold s2, update. rewrite Hs, Hh. rewrite nth_error_app2, Nat.sub_diag by lia. cbn [nth_error].  change (fr_has nf _) with false. cbv iota. rewrite firstn_app, firstn_all, Nat.sub_diag, skipn_all2 by (rewrite app_length; cbn; lia).
        cbn [firstn]. rewrite app_nil_r. reflexivity. }
      rewrite V. reflexivity. }
    cbn [compile_nodes]. unfold bind at 1. rewrite E. cbn [fst snd]. unfold bind at 1, ret at 1.
    unfold bind at 1. change (compile_node (evals_n X n) AWhitespace (b_new (RequireBlock n_p) None) s2) with (@Ok (option papyri_error * builder) (None, b_new (RequireBlock n_p) None) s2).
    cbn [fst snd]. unfold bind at 1, ret at 1. unfold bind at 1, compile_node at 1, push_result, bind at 1, catch, bind at 1.
    assert (K : e_node (evals_n X n) (EFuncCall path (NSimple nf) [] (EInt 1)) THtml s2 = NoFuel); [|now rewrite K].
    destruct n as [|n]; [reflexivity|]. cbn [evals_n step e_node evaluate_node]. unfold evaluate_func_call. cbn [is_coalescing]. unfold bind at 1.
    assert (G : frame_get (st_heap s2) (length h) nf false = Some (VFunc fn)).
    { unfold frame_get, s2. cbn [st_heap set_heap frame_get_fuel]. rewrite nth_error_app2, Nat.sub_diag by lia. reflexivity. }
    assert (N : evaluate_name (NSimple nf) (t_option_if TFunction false) s2 = Ok (VFunc fn) s2).
    { cbn [evaluate_name]. unfold or_report, get_var, frame_lookup, frame_id, gets, bind, coerceM, lift. change (st_stack s2) with (st_stack s). rewrite Hs, G. reflexivity. }
    rewrite N. unfold bind at 1. change (to_opt to_func (VFunc fn) s2) with (@Ok (option func) (Some fn) s2). cbv iota beta.
    unfold bind at 1. unfold or_report at 1. destruct n as [|n]; [reflexivity|].
    assert (B : bind_call (e_node (evals_n X (S n))) fn [] (EInt 1) s2 = Ok [(nx, VInt 1)] s2) by reflexivity.
    rewrite B. apply loop_call. unfold fn. exists (Frame (Some k) [(nf, VFunc fn)] []). split; [|reflexivity].
    unfold s2. cbn [st_heap set_heap]. now rewrite nth_error_app2, Nat.sub_diag by lia.
  Qed.
  Lemma loop_forever n s : compile X n path ex_loop s = NoFuel.
  Proof.
    unfold compile, compile_source, bind at 1, pure. rewrite loop_parse. cbv iota beta. unfold bind, report_all, ret. unfold with_compiler.
    erewrite loop_seq; [reflexivity|reflexivity|reflexivity].
  Qed.
End Loop.
