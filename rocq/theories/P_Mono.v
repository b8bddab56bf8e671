(** More fuel gives the same result: the fuel of the evaluator decides only whether there is one. *)
From Verif Require Import Base M_Text M_Names M_TagInfo M_SliceRef M_Html M_Sequence M_Types M_Token M_Diag M_Ast M_Value
  M_State M_Matcher M_Binder M_Native M_Eval P_Pattern.

Definition Le {A} (m m' : EM A) : Prop := forall s, m s = NoFuel \/ m s = m' s.
Lemma le_refl A (m : EM A) : Le m m. Proof. intro; now right. Qed.
Lemma le_nofuel A (m : EM A) : Le (fun _ => NoFuel) m. Proof. intro; now left. Qed.
Lemma le_bind A B (m m' : EM A) (f f' : A -> EM B) : Le m m' -> (forall a, Le (f a) (f' a)) -> Le (bind m f) (bind m' f').
Proof. intros H Hf s. unfold bind. destruct (H s) as [->|<-]; [now left|]. destruct (m s); auto. apply Hf. Qed.
Lemma le_catch A (m m' : EM A) : Le m m' -> Le (catch m) (catch m').
Proof. intros H s. unfold catch. destruct (H s) as [->|<-]; auto. Qed.
Lemma le_or_report A (m m' : EM A) : Le m m' -> Le (or_report m) (or_report m').
Proof. intros H s. unfold or_report. destruct (H s) as [->|<-]; auto. Qed.
Lemma le_in_frame A i (m m' : EM A) : Le m m' -> Le (in_frame i m) (in_frame i m').
Proof. intros H s. unfold in_frame. destruct (H (set_stack (i :: st_stack s) s)) as [->|<-]; auto. Qed.
Lemma le_in_call_frame A i bs (m m' : EM A) : Le m m' -> Le (in_call_frame i bs m) (in_call_frame i bs m').
Proof.
  intros H. unfold in_call_frame. apply le_bind; [apply le_refl|]. intro n. destruct (i <? n); [|apply le_refl].
  apply le_bind; [apply le_refl|]. intro. now apply le_in_frame.
Qed.
Lemma le_child A (m m' : EM A) : Le m m' -> Le (in_child_frame m) (in_child_frame m').
Proof. intros H. unfold in_child_frame. apply le_bind; [apply le_refl|]. intro. now apply le_in_call_frame. Qed.
Lemma le_compiler A (m m' : EM A) : Le m m' -> Le (with_compiler m) (with_compiler m').
Proof.
  intros H s. unfold with_compiler. cbv zeta.
  destruct (H (set_stack [length (st_heap s)] (set_exports [] (set_heap (st_heap s ++ [Frame (Some (st_root s)) [] []]) s)))) as [->|<-]; auto.
Qed.
Lemma le_cached p k m m' : Le m m' -> Le (cached p k m) (cached p k m').
Proof.
  intros H. unfold cached. apply le_bind; [apply le_refl|]. intros [[o x| |]|]; try apply le_refl. intro s. unfold load_module. cbv zeta.
  destruct (H (set_out None (set_trace (st_trace s ++ [k]) (set_mods (ninsert (st_mods s) k MBusy) s)))) as [->|<-]; auto.
Qed.
(** Follow the structure of the two computations. *)
Create HintDb mono.
Ltac mono1 :=
  match goal with
  | |- Le ?m ?m => exact (le_refl _ m)
  | |- Le (bind _ _) (bind _ _) => apply le_bind; [|intro]
  | |- Le (catch _) (catch _) => apply le_catch
  | |- Le (or_report _) (or_report _) => apply le_or_report
  | |- Le (in_call_frame _ _ _) (in_call_frame _ _ _) => apply le_in_call_frame
  | |- Le (in_child_frame _) (in_child_frame _) => apply le_child
  | |- Le (with_compiler _) (with_compiler _) => apply le_compiler
  | |- Le (cached _ _ _) (cached _ _ _) => apply le_cached
  | |- Le (match ?x with _ => _ end) (match ?x with _ => _ end) => destruct x
  end.
Ltac mono := repeat first [solve [eauto with mono] | mono1].

Section Calls.
  Variables eval eval' : expr -> ty -> EM value.
  Hypothesis Heval : forall e t, Le (eval e t) (eval' e t).
  Hint Resolve Heval : mono.
  Lemma le_compile_positional_arg s sp e b : Le (compile_positional_arg eval s sp e b) (compile_positional_arg eval' s sp e b).
  Proof. unfold compile_positional_arg. mono. Qed.
  Lemma le_compile_named_arg s sp n e b : Le (compile_named_arg eval s sp n e b) (compile_named_arg eval' s sp n e b).
  Proof. unfold compile_named_arg. mono. Qed.
  Hint Resolve le_compile_positional_arg le_compile_named_arg : mono.
  Lemma le_compile_arg s a b : Le (compile_arg eval s a b) (compile_arg eval' s a b).
  Proof. unfold compile_arg. mono. Qed.
  Hint Resolve le_compile_arg : mono.
  Lemma le_compile_args s l : forall b, Le (compile_args eval s l b) (compile_args eval' s l b).
  Proof. induction l; intro b; cbn [compile_args]; mono. Qed.
  Lemma le_compile_content_arg s e b : Le (compile_content_arg eval s e b) (compile_content_arg eval' s e b).
  Proof. unfold compile_content_arg. mono. Qed.
  Hint Resolve le_compile_args le_compile_content_arg : mono.
  Lemma le_bind_call f l c : Le (bind_call eval f l c) (bind_call eval' f l c).
  Proof. unfold bind_call. mono. Qed.
  Lemma le_compile_param p : Le (compile_param eval p) (compile_param eval' p).
  Proof. unfold compile_param. mono. Qed.
  Hint Resolve le_compile_param : mono.
  Lemma le_compile_params ps : Le (compile_params eval ps) (compile_params eval' ps).
  Proof. induction ps; cbn [compile_params]; mono. Qed.
  Hint Resolve le_compile_params : mono.
  Lemma le_compile_func_signature s : Le (compile_func_signature eval s) (compile_func_signature eval' s).
  Proof. unfold compile_func_signature. destruct s. mono. Qed.
  Hint Resolve le_compile_func_signature : mono.
  Lemma le_compile_func_def d : Le (compile_func_def eval d) (compile_func_def eval' d).
  Proof. unfold compile_func_def. mono. Qed.
End Calls.

Lemma le_and_then a a' b b' : Le a a' -> Le b b' -> Le (and_then a b) (and_then a' b').
Proof. intros. unfold and_then. mono. Qed.
#[global] Hint Resolve le_and_then : mono.
Section Match.
  Variables eval eval' : expr -> ty -> EM value.
  Variable captures : str -> str -> option (list (option str)).
  Hypothesis Heval : forall e t, Le (eval e t) (eval' e t).
  Hint Resolve Heval : mono.
  Notation bp := (bind_pattern eval captures).
  Notation bp' := (bind_pattern eval' captures).
  Lemma le_bind_all ps : Forall (fun p => forall v, Le (bp p v) (bp' p v)) ps -> forall vs, Le (bind_all bp ps vs) (bind_all bp' ps vs).
  Proof. intro H. induction H; intros [|v vs]; cbn [bind_all]; mono. Qed.
  Lemma le_bind_spread A one mk ps : Forall (fun p => forall v, Le (bp p v) (bp' p v)) ps ->
    forall i vs, Le (bind_spread bp A one mk ps i vs) (bind_spread bp' A one mk ps i vs).
  Proof.
    intro H. induction H as [|p ps Hp H IH]; intros i vs; cbn [bind_spread]; [mono|]. destruct i as [|i].
    - apply le_and_then; [apply Hp|]. now apply le_bind_all.
    - mono.
  Qed.
  Lemma le_bind_pattern : forall p v, Le (bp p v) (bp' p v).
  Proof.
    induction p using pattern_ind'; intro v.
    1-10: cbn [bind_pattern]; mono.
    - rewrite !bp_exact_list. pose proof (le_bind_all ps H). mono.
    - rewrite !bp_spread_list. pose proof (le_bind_spread value (fun v => v) VList ps H). mono.
    - rewrite !bp_dict. destruct v; try solve [mono]. destruct (match r with None => _ | _ => _ end); [mono|].
      apply le_and_then.
      + clear H0. induction H as [|[n p] l Hp H IH]; cbn [bind_attrs]; [mono|]. cbn [snd] in Hp. mono.
      + destruct r as [p|]; [|mono]. specialize (H0 p eq_refl). destruct p; mono.
    - cbn [bind_pattern]. mono.
    - rewrite !bp_exact_html. pose proof (le_bind_all ps H). mono.
    - rewrite !bp_spread_html. pose proof (fun A one mk => le_bind_spread A one mk ps H). mono.
  Qed.
  Hint Resolve le_bind_pattern : mono.
  Lemma le_match_branches bs : forall v t, Le (match_branches eval captures bs v t) (match_branches eval' captures bs v t).
  Proof. induction bs as [|[p e] bs IH]; intros v t; cbn [match_branches]; mono. Qed.
  Hint Resolve le_match_branches : mono.
  Lemma le_evaluate_match e bs t : Le (evaluate_match eval captures e bs t) (evaluate_match eval' captures e bs t).
  Proof. unfold evaluate_match. mono. Qed.
End Match.

Section Natives.
  Variable X : externals.
  Variables call call' : func -> nmap value -> ty -> str -> EM value.
  Variables load load' : str -> EM (html * nmap value).
  Hypothesis Hcall : forall f bs t src, Le (call f bs t src) (call' f bs t src).
  Hypothesis Hload : forall p, Le (load p) (load' p).
  Hint Resolve Hcall Hload : mono.
  Lemma le_eval_callback A t (conv : value -> EM A) f v src : Le (eval_callback call t conv f v src) (eval_callback call' t conv f v src).
  Proof. unfold eval_callback. mono. Qed.
  Lemma le_callback_bool f v src : Le (callback_bool call f v src) (callback_bool call' f v src).
  Proof. apply le_eval_callback. Qed.
  Lemma le_callback_any f v src : Le (callback_any call f v src) (callback_any call' f v src).
  Proof. apply le_eval_callback. Qed.
  Hint Resolve le_callback_bool le_callback_any : mono.
  Lemma le_find_first want f vs src : Le (find_first call want f vs src) (find_first call' want f vs src).
  Proof. induction vs; cbn [find_first]; mono. Qed.
  Lemma le_filter_list f vs src : Le (filter_list call f vs src) (filter_list call' f vs src).
  Proof. induction vs; cbn [filter_list]; mono. Qed.
  Lemma le_map_list f vs src : Le (map_list call f vs src) (map_list call' f vs src).
  Proof. induction vs; cbn [map_list]; mono. Qed.
  Lemma le_decorate k vs src : forall t, Le (decorate call k vs t src) (decorate call' k vs t src).
  Proof. induction vs; intro t; cbn [decorate]; mono. Qed.
  Hint Resolve le_find_first le_filter_list le_map_list le_decorate : mono.
  Lemma le_native_sorted k r vs src : Le (native_sorted call k r vs src) (native_sorted call' k r vs src).
  Proof. unfold native_sorted. destruct vs; [mono|]. cbv zeta. mono. Qed.
  Hint Resolve le_native_sorted : mono.
  Lemma le_evaluate_native_func f bs src : Le (evaluate_native_func X call load f bs src) (evaluate_native_func X call' load' f bs src).
  Proof.
    unfold evaluate_native_func.
    set (take := fun n => match ngetm bs (lit n) with Some v => ret v | None => crash FArgument end). clearbody take. cbv zeta.
    destruct f; mono.
  Qed.
End Natives.

Section Step.
  Variable X : externals.
  Variables R R' : evals.
  Hypothesis Hnode : forall e t, Le (e_node R e t) (e_node R' e t).
  Hypothesis Hcall : forall f bs t src, Le (e_call R f bs t src) (e_call R' f bs t src).
  Hint Resolve Hnode Hcall : mono.
  Hint Resolve le_bind_call le_compile_func_def le_evaluate_match : mono.
  Lemma le_evaluate_func_call src f l c t : Le (evaluate_func_call R src f l c t) (evaluate_func_call R' src f l c t).
  Proof. unfold evaluate_func_call. mono. Qed.
  Lemma le_let_vars vs i d : Le (let_vars R vs i d) (let_vars R' vs i d).
  Proof. induction vs as [|[n e] vs IH]; cbn [let_vars]; mono. Qed.
  Hint Resolve le_let_vars le_evaluate_func_call : mono.
  Lemma le_evaluate_let_in l t d : Le (evaluate_let_in R l t d) (evaluate_let_in R' l t d).
  Proof. destruct l. unfold evaluate_let_in. mono. Qed.
  Lemma le_list_items l t : Le (list_items R l t) (list_items R' l t).
  Proof. induction l as [|[e b] l IH]; cbn [list_items]; mono. Qed.
  Hint Resolve le_list_items le_evaluate_let_in : mono.
  Lemma le_evaluate_list l t : Le (evaluate_list R l t) (evaluate_list R' l t).
  Proof. unfold evaluate_list. mono. Qed.
  Lemma le_export_names vs : Le (export_names R vs) (export_names R' vs).
  Proof. induction vs as [|[n e] vs IH]; cbn [export_names]; mono. Qed.
  Hint Resolve le_export_names : mono.
  Lemma le_compile_export e : Le (compile_export R e) (compile_export R' e).
  Proof. unfold compile_export. mono. Qed.
  Lemma le_compile_code_fence src t m : Le (compile_code_fence R src t m) (compile_code_fence R' src t m).
  Proof. unfold compile_code_fence. mono. Qed.
  Hint Resolve le_compile_export le_compile_code_fence : mono.
  Lemma le_push_result m m' b : Le m m' -> Le (push_result m b) (push_result m' b).
  Proof. intro. unfold push_result. mono. Qed.
  Lemma le_no_piece m m' b : Le m m' -> Le (no_piece m b) (no_piece m' b).
  Proof. intro. unfold no_piece. mono. Qed.
  Lemma le_compile_node n b : Le (compile_node R n b) (compile_node R' n b).
  Proof. unfold compile_node. destruct n; first [apply le_push_result | apply le_no_piece | idtac]; mono. Qed.
  Hint Resolve le_compile_node : mono.
  Lemma le_compile_nodes ns : forall b, Le (compile_nodes R ns b) (compile_nodes R' ns b).
  Proof. induction ns; intro b; cbn [compile_nodes]; mono. Qed.
  Hint Resolve le_compile_nodes : mono.
  Lemma le_compile_sequence ns k p : Le (compile_sequence R ns k p) (compile_sequence R' ns k p).
  Proof. unfold compile_sequence. mono. Qed.
  Hint Resolve le_compile_sequence : mono.
  Lemma le_compile_attrs l : forall a, Le (compile_attrs R l a) (compile_attrs R' l a).
  Proof.
    induction l as [|x l IH]; intro a; cbn [compile_attrs]; [mono|]. apply le_bind; [|intro; mono]. destruct x as [n q [e|]|e]; mono.
  Qed.
  Hint Resolve le_compile_attrs : mono.
  Lemma le_compile_tag n l c : Le (compile_tag R n l c) (compile_tag R' n l c).
  Proof. unfold compile_tag. mono. Qed.
  Hint Resolve le_compile_tag le_evaluate_list : mono.
  Lemma le_evaluate_node e t : Le (evaluate_node X R e t) (evaluate_node X R' e t).
  Proof. unfold evaluate_node. cbv zeta. destruct e; mono. Qed.
  Lemma le_compile_source p t k : Le (compile_source X R p t k) (compile_source X R' p t k).
  Proof. unfold compile_source. mono. Qed.
  Hint Resolve le_compile_source : mono.
  Lemma le_load_uncached p : Le (load_uncached X R p) (load_uncached X R' p).
  Proof. unfold load_uncached. mono. Qed.
  Hint Resolve le_load_uncached : mono.
  Lemma le_load_cached p : Le (load_cached X R p) (load_cached X R' p).
  Proof. unfold load_cached. mono. Qed.
  Hint Resolve le_load_cached le_evaluate_native_func : mono.
  Lemma le_evaluate_call f : forall bs t src, Le (evaluate_call X R f bs t src) (evaluate_call X R' f bs t src).
  Proof. induction f; intros; cbn [evaluate_call]; mono. Qed.
End Step.

Lemma le_evals X fuel : forall fuel', fuel <= fuel' ->
  (forall e t, Le (e_node (evals_n X fuel) e t) (e_node (evals_n X fuel') e t)) /\
  (forall f bs t src, Le (e_call (evals_n X fuel) f bs t src) (e_call (evals_n X fuel') f bs t src)).
Proof.
  induction fuel as [|fuel IH]; intros [|fuel'] L; try (split; intros; first [apply le_refl|apply le_nofuel]); [inversion L|].
  apply le_S_n, IH in L as [H1 H2]. split; intros; cbn [evals_n step e_node e_call]; [now apply le_evaluate_node|now apply le_evaluate_call].
Qed.
Lemma le_compile X fuel fuel' p t : fuel <= fuel' -> Le (compile X fuel p t) (compile X fuel' p t).
Proof. intros L. apply le_evals with (X := X) in L as [H1 H2]. now apply le_compile_source. Qed.
Lemma le_context X std fuel fuel' l o : fuel <= fuel' ->
  context_new X std fuel l o = NoFuel \/ context_new X std fuel l o = context_new X std fuel' l o.
Proof.
  intros L. apply le_evals with (X := X) in L as [H1 H2]. unfold context_new, compile_stdlib.
  apply (le_bind _ _ _ _ _ _ (le_compile_source X _ _ H1 H2 _ _ _)). intro. apply le_refl.
Qed.
