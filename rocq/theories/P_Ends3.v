(** Proofs for C67: evaluation ends if calls are not nested without bound (natives and nodes). *)
From Verif Require Import Base BaseFacts M_Int M_Text M_Names M_TagInfo M_SliceRef M_Html M_Sequence S_Html P_Html P_Sequence M_Types M_Token M_Tokenizer M_Diag M_SourceFile M_Highlight M_HtmlParse M_Queue M_Ast M_Parser M_Value
  M_State M_Matcher M_Binder M_Native M_Eval P_Pattern P_Text P_Mono P_Ast P_ParserEnds P_Ends S_Ends P_Ends2.


Section Natives.
  Variable X : externals.
  Variable call : nat -> func -> nmap value -> ty -> str -> EM value.
  Variable load : nat -> str -> EM (html * nmap value).
  Hypothesis Hcall : forall f bs t src, T (fun n => call n f bs t src).
  Hypothesis Hload : forall p, T (fun n => load n p).
  Hint Resolve Hcall Hload : ends.
  Lemma t_eval_callback A t (conv : value -> EM A) f v src : (forall v, T (fun _ => conv v)) -> T (fun n => eval_callback (call n) t conv f v src).
  Proof. intro H. unfold eval_callback. ends. Qed.
  Lemma t_callback_bool f v src : T (fun n => callback_bool (call n) f v src).
  Proof. apply t_eval_callback. ends. Qed.
  Lemma t_callback_any f v src : T (fun n => callback_any (call n) f v src).
  Proof. apply t_eval_callback. ends. Qed.
  Hint Resolve t_callback_bool t_callback_any : ends.
  Lemma t_find_first want f vs src : T (fun n => find_first (call n) want f vs src).
  Proof. induction vs; cbn [find_first]; ends. Qed.
  Lemma t_filter_list f vs src : T (fun n => filter_list (call n) f vs src).
  Proof. induction vs; cbn [filter_list]; ends. Qed.
  Lemma t_map_list f vs src : T (fun n => map_list (call n) f vs src).
  Proof. induction vs; cbn [map_list]; ends. Qed.
  Lemma t_decorate k vs src : forall t, T (fun n => decorate (call n) k vs t src).
  Proof. induction vs; intro t; cbn [decorate]; ends. Qed.
  Hint Resolve t_find_first t_filter_list t_map_list t_decorate : ends.
  Lemma t_native_sorted k r vs src : T (fun n => native_sorted (call n) k r vs src).
  Proof. unfold native_sorted. destruct vs; [ends|]. cbv zeta. ends. Qed.
  Lemma t_native_code l b n c : T (fun _ => native_code X l b n c).
  Proof. unfold native_code. cbv zeta. destruct (if b then _ else _). ends. Qed.
  Lemma t_native_fetch p : T (fun _ => native_fetch X p).
  Proof. unfold native_fetch. ends. Qed.
  Lemma t_parse_html p : T (fun _ => parse_html X p).
  Proof. unfold parse_html. ends. Qed.
  Lemma t_compile_regex p : T (fun _ => compile_regex X p).
  Proof. unfold compile_regex. ends. Qed.
  Hint Resolve t_native_sorted t_native_code t_native_fetch t_parse_html t_compile_regex : ends.
  Lemma t_evaluate_native_func f bs src : T (fun n => evaluate_native_func X (call n) (load n) f bs src).
  Proof.
    unfold evaluate_native_func.
    set (take := fun n => match ngetm bs (lit n) with Some v => ret v | None => crash FArgument end).
    assert (Ht : forall n, T (fun _ => take n)) by (intro n; unfold take; ends).
    clearbody take. cbv zeta.
    destruct f; ends. apply tot_bind; [apply tot_native_slice|]. intro. apply tot_as_ref.
  Qed.
End Natives.

(** ** The evaluator *)
Lemma t_parse X p t : T (fun _ => pure FParser (parse_source X p t)).
Proof.
  apply t_pure. unfold Tot, parse_source, parse. destruct (tokenize t true) as [r| |] eqn:E; [|discriminate|now apply P_Tokenizer.tokenize_terminates in E].
  cbn [obind]. pose proof (parse_root_ends p (x_decode X) (fun s => match x_regex X s with Some _ => true | None => false end) (PState (fst r) (List.map (fun e => SyntaxErr (fst e)) (snd r)))) as H.
  destruct (parse_root _ _ _ _); congruence.
Qed.
#[global] Hint Resolve t_parse : ends.
Lemma t_push_piece h b : TInv b -> T (fun _ => push_piece h b).
Proof. intro H. unfold push_piece. destruct (b_push_total h b (TInv_kinds b H)) as [r E]. ends. rewrite E. apply tot_ret. Qed.
Lemma push_piece_inv h b s r s' : TInv b -> push_piece h b s = Ok r s' -> TInv (snd r).
Proof.
  intros H. unfold push_piece, bind, pure. destruct (b_push push_fuel h b) as [[e b']| |] eqn:E; try discriminate. intros [= <- <-]. cbn. eapply triv_push; eassumption.
Qed.
Section Step.
  Variable X : externals.
  Variable R : nat -> evals.
  Notation GE := (GE (fun n => e_node (R n))).
  Notation GA := (GA (fun n => e_node (R n))).
  Notation GD := (GD (fun n => e_node (R n))).
  Notation GL := (GL (fun n => e_node (R n))).
  Notation GT := (GT (fun n => e_node (R n))).
  Notation GX := (GX (fun n => e_node (R n))).
  Notation GM := (GM (fun n => e_node (R n)) (x_captures X)).
  Hypothesis Mono : forall n n', n <= n' -> (forall e t, Le (e_node (R n) e t) (e_node (R n') e t)) /\ (forall f bs t src, Le (e_call (R n) f bs t src) (e_call (R n') f bs t src)).
  Definition GCall : Prop := forall f bs t src, T (fun n => e_call (R n) f bs t src).
  Lemma ge_use' e t : GE e -> T (fun n => e_node (R n) e t). Proof. intro H. apply H. Qed.
  Lemma gc_use f bs t src : GCall -> T (fun n => e_call (R n) f bs t src). Proof. intro H. apply H. Qed.
  Hint Resolve ge_use' gc_use : ends.
  Lemma t_evaluate_func_call src f l c t : GCall -> Forall GA l -> GE c -> T (fun n => evaluate_func_call (R n) src f l c t).
  Proof.
    intros Hc Hl He. unfold evaluate_func_call. ends. apply (t_bind_call (fun n => e_node (R n))); auto.
  Qed.
  Lemma t_let_vars vs i d : Forall (fun x => GE (snd x)) vs -> T (fun n => let_vars (R n) vs i d).
  Proof. intro H. induction H as [|[n e] vs He H IH]; cbn [let_vars]; [ends|]. cbn [snd] in He. ends. Qed.
  Hint Resolve t_let_vars : ends.
  Lemma t_evaluate_let_in l t d : GL l -> T (fun n => evaluate_let_in (R n) l t d).
  Proof. intro H. destruct l. destruct H. unfold evaluate_let_in. ends. Qed.
  Lemma t_list_items l t : Forall (fun x => GE (fst x)) l -> T (fun n => list_items (R n) l t).
  Proof. intro H. induction H as [|[e b] l He H IH]; cbn [list_items]; [ends|]. cbn [fst] in He. ends. Qed.
  Hint Resolve t_list_items t_evaluate_let_in : ends.
  Lemma t_evaluate_list l t : Forall (fun x => GE (fst x)) l -> T (fun n => evaluate_list (R n) l t).
  Proof. intro H. unfold evaluate_list. ends. Qed.
  Lemma t_export_names vs : Forall (fun x => GE (snd x)) vs -> T (fun n => export_names (R n) vs).
  Proof. intro H. induction H as [|[n e] vs He H IH]; cbn [export_names]; [ends|]. cbn [snd] in He. ends. Qed.
  Hint Resolve t_export_names : ends.
  Lemma t_func_def d : GD d -> T (fun n => compile_func_def (e_node (R n)) d).
  Proof. apply (t_compile_func_def (fun n => e_node (R n))). Qed.
  Hint Resolve t_func_def : ends.
  Lemma t_compile_export e : GX e -> T (fun n => compile_export (R n) e).
  Proof. intro H. destruct e; cbn [P_Ends2.GX] in H; unfold compile_export; ends. Qed.
  Lemma t_compile_code_fence src t m : GCall -> T (fun n => compile_code_fence (R n) src t m).
  Proof. intro H. unfold compile_code_fence. ends. Qed.
  Hint Resolve t_compile_export t_compile_code_fence : ends.
  Definition GN (x : node) : Prop := forall b, TInv b -> T (fun n => compile_node (R n) x b).
  Lemma t_push_result m b : TInv b -> T m -> T (fun n => push_result (m n) b).
  Proof.
    intros Hb Hm. unfold push_result. ends. now apply t_push_piece.
  Qed.
  Lemma t_no_piece m b : T m -> T (fun n => no_piece (m n) b).
  Proof. intro. unfold no_piece. ends. Qed.
  Lemma push_result_inv m b s r s' : TInv b -> push_result m b s = Ok r s' -> TInv (snd r).
  Proof.
    intros H. unfold push_result, bind. destruct (catch m s) as [[h|e] s1|e s1|c|]; try discriminate; [now apply push_piece_inv|]. intros [= <- <-]. exact H.
  Qed.
  Lemma no_piece_inv m b s r s' : TInv b -> no_piece m b s = Ok r s' -> TInv (snd r).
  Proof.
    intros H. unfold no_piece, bind. destruct (catch m s) as [[h|e] s1|e s1|c|]; try discriminate; intros [= <- <-]; exact H.
  Qed.
  Lemma compile_node_inv S x b s r s' : TInv b -> compile_node S x b s = Ok r s' -> TInv (snd r).
  Proof.
    intros H. destruct x; cbn [compile_node]; try (now apply push_result_inv); try (now apply no_piece_inv); try (now apply push_piece_inv).
    destruct (b_newline b) as [e b'] eqn:E. intros [= <- <-]. cbn. eapply triv_newline; eassumption.
  Qed.
  Lemma gn_export e : GX e -> GN (AExport e).
  Proof. intros H b Hb. apply (t_no_piece (fun n => compile_export (R n) e)). ends. Qed.
  Lemma gn_expr e : GE e -> GN (AExpr e).
  Proof. intros H b Hb. apply (t_push_result (fun n => let* v := e_node (R n) e THtml in to_htmlM v)); [exact Hb|]. ends. Qed.
  Lemma gn_def d : GD d -> GN (AFuncDef d).
  Proof. intros H b Hb. apply (t_no_piece (fun n => let* f := compile_func_def (e_node (R n)) d in set_var (let '(FuncDef n _ _) := d in n) (VFunc f) false)). ends. Qed.
  Lemma gn_fence src t m : GCall -> GN (ACodeFence src t m).
  Proof. intros H b Hb. apply (t_push_result (fun n => compile_code_fence (R n) src t m)); [exact Hb|]. ends. Qed.
  Lemma gn_text s : GN (AText s). Proof. intros b Hb. now apply t_push_piece. Qed.
  Lemma gn_char c : GN (AChar c). Proof. intros b Hb. now apply t_push_piece. Qed.
  Lemma gn_ws : GN AWhitespace. Proof. intros b Hb. now apply t_push_piece. Qed.
  Lemma gn_break : GN AParagraphBreak. Proof. intros b Hb. unfold compile_node. cbv zeta. ends. Qed.
  Lemma t_compile_nodes ns : Forall GN ns -> forall b, TInv b -> T (fun n => compile_nodes (R n) ns b).
  Proof.
    intros H. induction H as [|x ns Hx H IH]; intros b Hb; cbn [compile_nodes]; [ends|].
    apply (t_bind_post _ _ (fun r => TInv (snd r)) (fun n => compile_node (R n) x b) (fun n r => match fst r with Some e => report e | None => ret tt end;;; compile_nodes (R n) ns (snd r))).
    - now apply Hx.
    - intros n s a s' E. eapply compile_node_inv; eassumption.
    - intros n n' a L. apply le_bind; [apply le_refl|]. intro. destruct (Mono _ _ L). now apply le_compile_nodes.
    - intros a Ha. ends1; [ends|]. now apply IH.
  Qed.
  Hint Resolve t_compile_nodes : ends.
  Lemma t_compile_sequence ns k p : good_kind k -> Forall GN ns -> T (fun n => compile_sequence (R n) ns k p).
  Proof. intros Hk H. unfold compile_sequence. ends1; [apply t_compile_nodes; [exact H|now apply new_ok]|]. ends. Qed.
  Lemma t_compile_attrs l : Forall GT l -> forall a, T (fun n => compile_attrs (R n) l a).
  Proof.
    intro H. induction H as [|x l Hx H IH]; intro a; cbn [compile_attrs]; [ends|]. ends1; [|apply IH]. destruct x as [n q [e|]|e]; cbn in Hx; ends.
  Qed.
  Lemma t_compile_tag n l c : Forall GT l -> Forall GN c -> T (fun k => compile_tag (R k) n l c).
  Proof.
    intros Hl Hc. unfold compile_tag. ends1; [ends|]. ends1; [now apply t_compile_attrs|]. ends1; [|ends]. apply t_compile_sequence; [apply kind_for_good|exact Hc].
  Qed.
  Lemma t_compile_source p t k : good_kind k -> (forall root errs, parse_source X p t = Ret (root, errs) -> Forall GN root) -> T (fun n => compile_source X (R n) p t k).
  Proof.
    intros Hk H. unfold compile_source. apply (t_bind_post _ _ (fun r => Forall GN (fst r)) (fun _ => pure FParser (parse_source X p t))
      (fun n r => let '(root, errs) := r in report_all errs;;; with_compiler (compile_sequence (R n) root k None))).
    - ends.
    - intros n s [root errs] s'. unfold pure. destruct (parse_source X p t) as [[r1 e1]| |] eqn:E; try discriminate. intros [= <- <- <-]. now apply (H r1 e1).
    - intros n n' [root errs] L. apply le_bind; [apply le_refl|]. intro. apply le_compiler. destruct (Mono _ _ L). now apply le_compile_sequence.
    - intros [root errs] Hr. ends1; [ends|]. apply (t_compiler _ (fun n => compile_sequence (R n) root k None)). now apply t_compile_sequence.
  Qed.
  Hypothesis All : (forall e, GE e) /\ (forall ns, Forall GN ns).
  Hypothesis Hcall : GCall.
  Lemma good_block : good_kind (RequireBlock n_p).
  Proof. exact (kind_for_good (lit "blockquote")). Qed.
  Lemma t_load_uncached p : T (fun n => load_uncached X (R n) p).
  Proof. unfold load_uncached. destruct (x_read X p); [|ends]. apply t_compile_source; [apply good_block|]. intros. apply All. Qed.
  Lemma t_load_cached p : T (fun n => load_cached X (R n) p).
  Proof. unfold load_cached. destruct (x_canonicalize X p) as [k|]; [|ends]. apply (t_cached p k (fun n => load_uncached X (R n) p)). apply t_load_uncached. Qed.
  Lemma t_evaluate_call f : forall bs t src, T (fun n => evaluate_call X (R n) f bs t src).
  Proof.
    induction f; intros; cbn [evaluate_call].
    - apply (t_in_call_frame _ _ _ (fun n => e_node (R n) body t)). apply All.
    - ends. apply (t_evaluate_native_func X (fun n => e_call (R n)) (fun n => load_cached X (R n))); [exact Hcall|exact t_load_cached].
    - apply IHf.
  Qed.
End Step.
