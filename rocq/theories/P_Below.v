(** A limit on the nesting of calls only replaces some results by the crash that reports it. *)
From Verif Require Import Base M_Text M_Names M_TagInfo M_SliceRef M_Html M_Sequence M_Types M_Token M_Diag M_Ast M_Value
  M_State M_Matcher M_Binder M_Native M_Eval P_Pattern.

Definition Below {A} (m m' : EM A) : Prop := forall s, m s = NoFuel \/ m s = Crash FStdlib \/ m s = m' s.
Lemma bl_refl A (m : EM A) : Below m m. Proof. intro; right; now right. Qed.
Lemma bl_nofuel A (m : EM A) : Below (fun _ => NoFuel) m. Proof. intro; now left. Qed.
Lemma bl_bind A B (m m' : EM A) (f f' : A -> EM B) : Below m m' -> (forall a, Below (f a) (f' a)) -> Below (bind m f) (bind m' f').
Proof. intros H Hf s. unfold bind. destruct (H s) as [->|[->|<-]]; auto. destruct (m s); auto. apply Hf. Qed.
Lemma bl_catch A (m m' : EM A) : Below m m' -> Below (catch m) (catch m').
Proof. intros H s. unfold catch. destruct (H s) as [->|[->|<-]]; auto. Qed.
Lemma bl_or_report A (m m' : EM A) : Below m m' -> Below (or_report m) (or_report m').
Proof. intros H s. unfold or_report. destruct (H s) as [->|[->|<-]]; auto. Qed.
Lemma bl_in_frame A i (m m' : EM A) : Below m m' -> Below (in_frame i m) (in_frame i m').
Proof. intros H s. unfold in_frame. destruct (H (set_stack (i :: st_stack s) s)) as [->|[->|<-]]; auto. Qed.
Lemma bl_in_call_frame A i bs (m m' : EM A) : Below m m' -> Below (in_call_frame i bs m) (in_call_frame i bs m').
Proof.
  intros H. unfold in_call_frame. apply bl_bind; [apply bl_refl|]. intro n. destruct (i <? n); [|apply bl_refl].
  apply bl_bind; [apply bl_refl|]. intro. now apply bl_in_frame.
Qed.
Lemma bl_child A (m m' : EM A) : Below m m' -> Below (in_child_frame m) (in_child_frame m').
Proof. intros H. unfold in_child_frame. apply bl_bind; [apply bl_refl|]. intro. now apply bl_in_call_frame. Qed.
Lemma bl_compiler A (m m' : EM A) : Below m m' -> Below (with_compiler m) (with_compiler m').
Proof.
  intros H s. unfold with_compiler. cbv zeta.
  destruct (H (set_stack [length (st_heap s)] (set_exports [] (set_heap (st_heap s ++ [Frame (Some (st_root s)) [] []]) s)))) as [->|[->|<-]]; auto 6.
Qed.
Lemma bl_cached p k m m' : Below m m' -> Below (cached p k m) (cached p k m').
Proof.
  intros H. unfold cached. apply bl_bind; [apply bl_refl|]. intros [[o x| |]|]; try apply bl_refl. intro s. unfold load_module. cbv zeta.
  destruct (H (set_out None (set_trace (st_trace s ++ [k]) (set_mods (ninsert (st_mods s) k MBusy) s)))) as [->|[->|<-]]; auto 6.
Qed.
(** Follow the structure of the two computations. *)
Create HintDb below.
Ltac below1 :=
  match goal with
  | |- Below ?m ?m => exact (bl_refl _ m)
  | |- Below (bind _ _) (bind _ _) => apply bl_bind; [|intro]
  | |- Below (catch _) (catch _) => apply bl_catch
  | |- Below (or_report _) (or_report _) => apply bl_or_report
  | |- Below (in_call_frame _ _ _) (in_call_frame _ _ _) => apply bl_in_call_frame
  | |- Below (in_child_frame _) (in_child_frame _) => apply bl_child
  | |- Below (with_compiler _) (with_compiler _) => apply bl_compiler
  | |- Below (cached _ _ _) (cached _ _ _) => apply bl_cached
  | |- Below (match ?x with _ => _ end) (match ?x with _ => _ end) => destruct x
  end.
Ltac below := repeat first [solve [eauto with below] | below1].

Section Calls.
  Variables eval eval' : expr -> ty -> EM value.
  Hypothesis Heval : forall e t, Below (eval e t) (eval' e t).
  Hint Resolve Heval : below.
  Lemma bl_compile_positional_arg s sp e b : Below (compile_positional_arg eval s sp e b) (compile_positional_arg eval' s sp e b).
  Proof. unfold compile_positional_arg. below. Qed.
  Lemma bl_compile_named_arg s sp n e b : Below (compile_named_arg eval s sp n e b) (compile_named_arg eval' s sp n e b).
  Proof. unfold compile_named_arg. below. Qed.
  Hint Resolve bl_compile_positional_arg bl_compile_named_arg : below.
  Lemma bl_compile_arg s a b : Below (compile_arg eval s a b) (compile_arg eval' s a b).
  Proof. unfold compile_arg. below. Qed.
  Hint Resolve bl_compile_arg : below.
  Lemma bl_compile_args s l : forall b, Below (compile_args eval s l b) (compile_args eval' s l b).
  Proof. induction l; intro b; cbn [compile_args]; below. Qed.
  Lemma bl_compile_content_arg s e b : Below (compile_content_arg eval s e b) (compile_content_arg eval' s e b).
  Proof. unfold compile_content_arg. below. Qed.
  Hint Resolve bl_compile_args bl_compile_content_arg : below.
  Lemma bl_bind_call f l c : Below (bind_call eval f l c) (bind_call eval' f l c).
  Proof. unfold bind_call. below. Qed.
  Lemma bl_compile_param p : Below (compile_param eval p) (compile_param eval' p).
  Proof. unfold compile_param. below. Qed.
  Hint Resolve bl_compile_param : below.
  Lemma bl_compile_params ps : Below (compile_params eval ps) (compile_params eval' ps).
  Proof. induction ps; cbn [compile_params]; below. Qed.
  Hint Resolve bl_compile_params : below.
  Lemma bl_compile_func_signature s : Below (compile_func_signature eval s) (compile_func_signature eval' s).
  Proof. unfold compile_func_signature. destruct s. below. Qed.
  Hint Resolve bl_compile_func_signature : below.
  Lemma bl_compile_func_def d : Below (compile_func_def eval d) (compile_func_def eval' d).
  Proof. unfold compile_func_def. below. Qed.
End Calls.

Lemma bl_and_then a a' b b' : Below a a' -> Below b b' -> Below (and_then a b) (and_then a' b').
Proof. intros. unfold and_then. below. Qed.
#[global] Hint Resolve bl_and_then : below.
Section Match.
  Variables eval eval' : expr -> ty -> EM value.
  Variable captures : str -> str -> option (list (option str)).
  Hypothesis Heval : forall e t, Below (eval e t) (eval' e t).
  Hint Resolve Heval : below.
  Notation bp := (bind_pattern eval captures).
  Notation bp' := (bind_pattern eval' captures).
  Lemma bl_bind_all ps : Forall (fun p => forall v, Below (bp p v) (bp' p v)) ps -> forall vs, Below (bind_all bp ps vs) (bind_all bp' ps vs).
  Proof. intro H. induction H; intros [|v vs]; cbn [bind_all]; below. Qed.
  Lemma bl_bind_spread A one mk ps : Forall (fun p => forall v, Below (bp p v) (bp' p v)) ps ->
    forall i vs, Below (bind_spread bp A one mk ps i vs) (bind_spread bp' A one mk ps i vs).
  Proof.
    intro H. induction H as [|p ps Hp H IH]; intros i vs; cbn [bind_spread]; [below|]. destruct i as [|i].
    - apply bl_and_then; [apply Hp|]. now apply bl_bind_all.
    - below.
  Qed.
  Lemma bl_bind_pattern : forall p v, Below (bp p v) (bp' p v).
  Proof.
    induction p using pattern_ind'; intro v.
    1-10: cbn [bind_pattern]; below.
    - rewrite !bp_exact_list. pose proof (bl_bind_all ps H). below.
    - rewrite !bp_spread_list. pose proof (bl_bind_spread value (fun v => v) VList ps H). below.
    - rewrite !bp_dict. destruct v; try solve [below]. destruct (match r with None => _ | _ => _ end); [below|].
      apply bl_and_then.
      + clear H0. induction H as [|[n p] l Hp H IH]; cbn [bind_attrs]; [below|]. cbn [snd] in Hp. below.
      + destruct r as [p|]; [|below]. specialize (H0 p eq_refl). destruct p; below.
    - cbn [bind_pattern]. below.
    - rewrite !bp_exact_html. pose proof (bl_bind_all ps H). below.
    - rewrite !bp_spread_html. pose proof (fun A one mk => bl_bind_spread A one mk ps H). below.
  Qed.
  Hint Resolve bl_bind_pattern : below.
  Lemma bl_match_branches bs : forall v t, Below (match_branches eval captures bs v t) (match_branches eval' captures bs v t).
  Proof. induction bs as [|[p e] bs IH]; intros v t; cbn [match_branches]; below. Qed.
  Hint Resolve bl_match_branches : below.
  Lemma bl_evaluate_match e bs t : Below (evaluate_match eval captures e bs t) (evaluate_match eval' captures e bs t).
  Proof. unfold evaluate_match. below. Qed.
End Match.

Section Natives.
  Variable X : externals.
  Variables call call' : func -> nmap value -> ty -> str -> EM value.
  Variables load load' : str -> EM (html * nmap value).
  Hypothesis Hcall : forall f bs t src, Below (call f bs t src) (call' f bs t src).
  Hypothesis Hload : forall p, Below (load p) (load' p).
  Hint Resolve Hcall Hload : below.
  Lemma bl_eval_callback A t (conv : value -> EM A) f v src : Below (eval_callback call t conv f v src) (eval_callback call' t conv f v src).
  Proof. unfold eval_callback. below. Qed.
  Lemma bl_callback_bool f v src : Below (callback_bool call f v src) (callback_bool call' f v src).
  Proof. apply bl_eval_callback. Qed.
  Lemma bl_callback_any f v src : Below (callback_any call f v src) (callback_any call' f v src).
  Proof. apply bl_eval_callback. Qed.
  Hint Resolve bl_callback_bool bl_callback_any : below.
  Lemma bl_find_first want f vs src : Below (find_first call want f vs src) (find_first call' want f vs src).
  Proof. induction vs; cbn [find_first]; below. Qed.
  Lemma bl_filter_list f vs src : Below (filter_list call f vs src) (filter_list call' f vs src).
  Proof. induction vs; cbn [filter_list]; below. Qed.
  Lemma bl_map_list f vs src : Below (map_list call f vs src) (map_list call' f vs src).
  Proof. induction vs; cbn [map_list]; below. Qed.
  Lemma bl_decorate k vs src : forall t, Below (decorate call k vs t src) (decorate call' k vs t src).
  Proof. induction vs; intro t; cbn [decorate]; below. Qed.
  Hint Resolve bl_find_first bl_filter_list bl_map_list bl_decorate : below.
  Lemma bl_native_sorted k r vs src : Below (native_sorted call k r vs src) (native_sorted call' k r vs src).
  Proof. unfold native_sorted. destruct vs; [below|]. cbv zeta. below. Qed.
  Hint Resolve bl_native_sorted : below.
  Lemma bl_evaluate_native_func f bs src : Below (evaluate_native_func X call load f bs src) (evaluate_native_func X call' load' f bs src).
  Proof.
    unfold evaluate_native_func.
    set (take := fun n => match ngetm bs (lit n) with Some v => ret v | None => crash FArgument end). clearbody take. cbv zeta.
    destruct f; below.
  Qed.
End Natives.

Section Step.
  Variable X : externals.
  Variables R R' : evals.
  Hypothesis Hnode : forall e t, Below (e_node R e t) (e_node R' e t).
  Hypothesis Hcall : forall f bs t src, Below (e_call R f bs t src) (e_call R' f bs t src).
  Hint Resolve Hnode Hcall : below.
  Hint Resolve bl_bind_call bl_compile_func_def bl_evaluate_match : below.
  Lemma bl_evaluate_func_call src f l c t : Below (evaluate_func_call R src f l c t) (evaluate_func_call R' src f l c t).
  Proof. unfold evaluate_func_call. below. Qed.
  Lemma bl_let_vars vs i d : Below (let_vars R vs i d) (let_vars R' vs i d).
  Proof. induction vs as [|[n e] vs IH]; cbn [let_vars]; below. Qed.
  Hint Resolve bl_let_vars bl_evaluate_func_call : below.
  Lemma bl_evaluate_let_in l t d : Below (evaluate_let_in R l t d) (evaluate_let_in R' l t d).
  Proof. destruct l. unfold evaluate_let_in. below. Qed.
  Lemma bl_list_items l t : Below (list_items R l t) (list_items R' l t).
  Proof. induction l as [|[e b] l IH]; cbn [list_items]; below. Qed.
  Hint Resolve bl_list_items bl_evaluate_let_in : below.
  Lemma bl_evaluate_list l t : Below (evaluate_list R l t) (evaluate_list R' l t).
  Proof. unfold evaluate_list. below. Qed.
  Lemma bl_export_names vs : Below (export_names R vs) (export_names R' vs).
  Proof. induction vs as [|[n e] vs IH]; cbn [export_names]; below. Qed.
  Hint Resolve bl_export_names : below.
  Lemma bl_compile_export e : Below (compile_export R e) (compile_export R' e).
  Proof. unfold compile_export. below. Qed.
  Lemma bl_compile_code_fence src t m : Below (compile_code_fence R src t m) (compile_code_fence R' src t m).
  Proof. unfold compile_code_fence. below. Qed.
  Hint Resolve bl_compile_export bl_compile_code_fence : below.
  Lemma bl_push_result m m' b : Below m m' -> Below (push_result m b) (push_result m' b).
  Proof. intro. unfold push_result. below. Qed.
  Lemma bl_no_piece m m' b : Below m m' -> Below (no_piece m b) (no_piece m' b).
  Proof. intro. unfold no_piece. below. Qed.
  Lemma bl_compile_node n b : Below (compile_node R n b) (compile_node R' n b).
  Proof. unfold compile_node. destruct n; first [apply bl_push_result | apply bl_no_piece | idtac]; below. Qed.
  Hint Resolve bl_compile_node : below.
  Lemma bl_compile_nodes ns : forall b, Below (compile_nodes R ns b) (compile_nodes R' ns b).
  Proof. induction ns; intro b; cbn [compile_nodes]; below. Qed.
  Hint Resolve bl_compile_nodes : below.
  Lemma bl_compile_sequence ns k p : Below (compile_sequence R ns k p) (compile_sequence R' ns k p).
  Proof. unfold compile_sequence. below. Qed.
  Hint Resolve bl_compile_sequence : below.
  Lemma bl_compile_attrs l : forall a, Below (compile_attrs R l a) (compile_attrs R' l a).
  Proof.
    induction l as [|x l IH]; intro a; cbn [compile_attrs]; [below|]. apply bl_bind; [|intro; below]. destruct x as [n q [e|]|e]; below.
  Qed.
  Hint Resolve bl_compile_attrs : below.
  Lemma bl_compile_tag n l c : Below (compile_tag R n l c) (compile_tag R' n l c).
  Proof. unfold compile_tag. below. Qed.
  Hint Resolve bl_compile_tag bl_evaluate_list : below.
  Lemma bl_evaluate_node e t : Below (evaluate_node X R e t) (evaluate_node X R' e t).
  Proof. unfold evaluate_node. cbv zeta. destruct e; below. Qed.
  Lemma bl_compile_source p t k : Below (compile_source X R p t k) (compile_source X R' p t k).
  Proof. unfold compile_source. below. Qed.
  Hint Resolve bl_compile_source : below.
  Lemma bl_load_uncached p : Below (load_uncached X R p) (load_uncached X R' p).
  Proof. unfold load_uncached. below. Qed.
  Hint Resolve bl_load_uncached : below.
  Lemma bl_load_cached p : Below (load_cached X R p) (load_cached X R' p).
  Proof. unfold load_cached. below. Qed.
  Hint Resolve bl_load_cached bl_evaluate_native_func : below.
  Lemma bl_evaluate_call f : forall bs t src, Below (evaluate_call X R f bs t src) (evaluate_call X R' f bs t src).
  Proof. induction f; intros; cbn [evaluate_call]; below. Qed.
End Step.

