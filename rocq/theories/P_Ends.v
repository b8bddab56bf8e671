(** Proofs for C67: evaluation ends if calls are not nested without bound. *)
From Verif Require Import Base M_Int M_Text M_Names M_TagInfo M_SliceRef M_Html M_Sequence S_Html P_Html P_Sequence M_Types M_Token M_Tokenizer M_Diag M_SourceFile M_Highlight M_HtmlParse M_Ast M_Parser M_Value
  M_State M_Matcher M_Binder M_Native M_Eval P_Pattern P_Text P_Mono P_Ast P_ParserEnds P_HtmlParse P_Tokenizer.

(** ** Functions on plain data *)
Definition Tot {A} (o : outcome A) : Prop := o <> OutOfFuel.
Lemma tot_ret A (a : A) : Tot (Ret a). Proof. discriminate. Qed.
Lemma tot_panic A : Tot (@Panic A). Proof. discriminate. Qed.
Lemma tot_bind A B (o : outcome A) (f : A -> outcome B) : Tot o -> (forall a, Tot (f a)) -> Tot (obind o f).
Proof. intros H Hf. destruct o; cbn; [apply Hf|discriminate|contradiction]. Qed.
Create HintDb tot.
Ltac tot1 :=
  match goal with
  | |- Tot (Ret _) => apply tot_ret
  | |- Tot Panic => apply tot_panic
  | |- Tot (obind _ _) => apply tot_bind; [|intro]
  | |- Tot (match ?x with _ => _ end) => destruct x
  | |- Tot (let '(_, _) := ?x in _) => destruct x
  end.
Ltac tot := repeat first [solve [eauto with tot] | tot1].
#[global] Hint Resolve tot_ret tot_panic : tot.

(** ** Families of computations, by fuel *)
Definition T {A} (m : nat -> EM A) : Prop :=
  (forall n n', n <= n' -> Le (m n) (m n')) /\ (forall s, exists n, m n s <> NoFuel).
Lemma t_const A (m : EM A) : (forall s, m s <> NoFuel) -> T (fun _ => m).
Proof. intro H. split; [intros; apply le_refl|]. intro s. exists 0. apply H. Qed.
Lemma t_up A (m : nat -> EM A) s n : T m -> m n s <> NoFuel -> forall n', n <= n' -> m n' s = m n s.
Proof. intros [U _] H n' L. destruct (U _ _ L s) as [E|E]; congruence. Qed.
(** with a property of the results *)
Lemma t_bind_post A B (Q : A -> Prop) (m : nat -> EM A) (f : nat -> A -> EM B) :
  T m -> (forall n s a s', m n s = Ok a s' -> Q a) -> (forall n n' a, n <= n' -> Le (f n a) (f n' a)) -> (forall a, Q a -> T (fun n => f n a)) ->
  T (fun n => bind (m n) (f n)).
Proof.
  intros Hm HQ Uf Hf. split.
  - intros n n' L. apply le_bind; [now apply Hm|]. intro a. now apply Uf.
  - intro s. destruct Hm as [U E]. destruct (E s) as [n1 H1]. destruct (m n1 s) as [a s1|e s1|c|] eqn:E1.
    + destruct (Hf a (HQ _ _ _ _ E1)) as [U2 E2]. destruct (E2 s1) as [n2 H2]. exists (max n1 n2). unfold bind.
      destruct (U n1 (max n1 n2) (Nat.le_max_l _ _) s) as [K|K]; [congruence|]. rewrite <- K, E1.
      destruct (U2 n2 (max n1 n2) (Nat.le_max_r _ _) s1) as [K2|K2]; [congruence|]. now rewrite <- K2.
    + exists n1. unfold bind. rewrite E1. discriminate.
    + exists n1. unfold bind. rewrite E1. discriminate.
    + congruence.
Qed.
Lemma t_bind A B (m : nat -> EM A) (f : nat -> A -> EM B) : T m -> (forall a, T (fun n => f n a)) -> T (fun n => bind (m n) (f n)).
Proof. intros Hm Hf. apply (t_bind_post _ _ (fun _ => True)); auto. intros n n' a L. now apply Hf. Qed.
Lemma t_catch A (m : nat -> EM A) : T m -> T (fun n => catch (m n)).
Proof.
  intros [U E]. split; [intros; apply le_catch; auto|]. intro s. destruct (E s) as [n H]. exists n. unfold catch. destruct (m n s); congruence.
Qed.
Lemma t_or_report A (m : nat -> EM A) : T m -> T (fun n => or_report (m n)).
Proof.
  intros [U E]. split; [intros; apply le_or_report; auto|]. intro s. destruct (E s) as [n H]. exists n. unfold or_report. destruct (m n s); congruence.
Qed.
Lemma t_in_frame A i (m : nat -> EM A) : T m -> T (fun n => in_frame i (m n)).
Proof.
  intros [U E]. split; [intros; apply le_in_frame; auto|]. intro s. destruct (E (set_stack (i :: st_stack s) s)) as [n H]. exists n.
  unfold in_frame. destruct (m n _); congruence.
Qed.
Lemma t_frame_id : T (fun _ => frame_id).
Proof. apply t_const. intro s. unfold frame_id. destruct (st_stack s); discriminate. Qed.
Lemma t_gets A (f : st -> A) : T (fun _ => gets f).
Proof. apply t_const. discriminate. Qed.
Lemma t_modify f : T (fun _ => modify f).
Proof. apply t_const. discriminate. Qed.
Lemma t_ret A (a : A) : T (fun _ => ret a).
Proof. apply t_const. discriminate. Qed.
Lemma t_fail A e : T (fun _ => @fail A e).
Proof. apply t_const. discriminate. Qed.
Lemma t_crash A c : T (fun _ => @crash A c).
Proof. apply t_const. discriminate. Qed.
Lemma t_pure A c (o : outcome A) : Tot o -> T (fun _ => pure c o).
Proof. intro H. apply t_const. intro s. unfold pure. destruct o; congruence. Qed.
Lemma t_lift A (r : A + papyri_error) : T (fun _ => lift r).
Proof. destruct r; [apply t_ret|apply t_fail]. Qed.
Lemma t_report e : T (fun _ => report e).
Proof. apply t_modify. Qed.
Create HintDb ends.
#[global] Hint Resolve t_frame_id t_gets t_modify t_ret t_fail t_crash t_pure t_lift t_report : ends.
Ltac ends1 :=
  cbv beta;
  match goal with
  | |- T (fun n => bind (@?m n) (@?f n)) => apply (t_bind _ _ m f); [|intro]
  | |- T (fun n => catch (@?m n)) => apply (t_catch _ m)
  | |- T (fun n => or_report (@?m n)) => apply (t_or_report _ m)
  | |- T (fun n => match ?x with _ => _ end) => destruct x
  | |- T (fun n => pure _ _) => apply t_pure
  end.
Ltac ends := repeat first [solve [cbv beta; eauto with ends tot] | ends1].
Lemma t_new_frame p bs : T (fun _ => new_frame p bs).
Proof. apply t_const. discriminate. Qed.
#[global] Hint Resolve t_new_frame : ends.
Lemma t_in_call_frame A i bs (m : nat -> EM A) : T m -> T (fun n => in_call_frame i bs (m n)).
Proof. intro H. unfold in_call_frame. ends. apply (t_in_frame _ _ m H). Qed.
Lemma t_child A (m : nat -> EM A) : T m -> T (fun n => in_child_frame (m n)).
Proof. intro H. unfold in_child_frame. ends. apply (t_in_call_frame _ _ _ m H). Qed.
Lemma t_compiler A (m : nat -> EM A) : T m -> T (fun n => with_compiler (m n)).
Proof.
  intros [U E]. split; [intros; apply le_compiler; auto|]. intro s.
  destruct (E (set_stack [length (st_heap s)] (set_exports [] (set_heap (st_heap s ++ [Frame (Some (st_root s)) [] []]) s)))) as [n H]. exists n.
  unfold with_compiler. cbv zeta. destruct (m n _); congruence.
Qed.
Lemma t_load_module k m : T m -> T (fun n => load_module k (m n)).
Proof.
  intros [U E]. split.
  - intros n n' L s. unfold load_module. cbv zeta.
    destruct (U n n' L (set_out None (set_trace (st_trace s ++ [k]) (set_mods (ninsert (st_mods s) k MBusy) s)))) as [-> | <-]; auto.
  - intro s. destruct (E (set_out None (set_trace (st_trace s ++ [k]) (set_mods (ninsert (st_mods s) k MBusy) s)))) as [n H]. exists n.
    unfold load_module. cbv zeta. destruct (m n _) as [[out ex] s1| | |]; congruence.
Qed.
Lemma t_cached p k m : T m -> T (fun n => cached p k (m n)).
Proof.
  intro H. unfold cached. ends1; [apply t_gets|]. destruct a as [[o x| |]|]; try solve [ends]. apply (t_load_module k m H).
Qed.
Ltac ends2 :=
  first [ends1 |
  match goal with
  | |- T (fun n => in_call_frame ?i ?bs (@?m n)) => apply (t_in_call_frame _ i bs m)
  | |- T (fun n => in_child_frame (@?m n)) => apply (t_child _ m)
  | |- T (fun n => with_compiler (@?m n)) => apply (t_compiler _ m)
  | |- T (fun n => cached ?p ?k (@?m n)) => apply (t_cached p k m)
  end].
Ltac ends ::= repeat first [solve [cbv beta; eauto with ends tot] | ends2].

(** ** Operations without recursion *)
Lemma t_coerce v t : T (fun _ => coerceM v t).
Proof. unfold coerceM. ends. Qed.
Lemma t_frame_lookup n imp : T (fun _ => frame_lookup n imp).
Proof. apply t_const. intro s. unfold frame_lookup, bind, frame_id. destruct (st_stack s); discriminate. Qed.
Lemma t_frame_has n : T (fun _ => frame_has n).
Proof. unfold frame_has. ends. Qed.
Lemma t_with_frame g : T (fun _ => with_frame g).
Proof. unfold with_frame. ends. Qed.
#[global] Hint Resolve t_coerce t_frame_lookup t_frame_has t_with_frame : ends.
Lemma t_get_var n : T (fun _ => get_var n).
Proof. unfold get_var. ends. Qed.
Lemma t_get_implicit n d : T (fun _ => get_implicit n d).
Proof. unfold get_implicit. ends. Qed.
Lemma t_frame_set n v b : T (fun _ => frame_set n v b).
Proof. unfold frame_set. ends. Qed.
#[global] Hint Resolve t_get_var t_get_implicit t_frame_set : ends.
Lemma t_set_var n v b : T (fun _ => set_var n v b).
Proof. unfold set_var. ends. Qed.
Lemma t_export n v : T (fun _ => M_State.export n v).
Proof. unfold M_State.export. ends. Qed.
Lemma t_uid d b k : T (fun _ => new_unique_id d b k).
Proof.
  apply t_const. intro s. unfold new_unique_id. pose proof (get_unique_id_total d (st_uids s) b k).
  destruct (get_unique_id d (st_uids s) b k) as [[id used]| |]; congruence.
Qed.
Lemma t_out p h : T (fun _ => push_out_file p h).
Proof. apply t_const. intro s. unfold push_out_file. destruct (st_out s); [|discriminate]. destruct (M_Path.try_push _ _ _) as [[] ?]; discriminate. Qed.
#[global] Hint Resolve t_set_var t_export t_uid t_out : ends.

(** ** Binding of arguments *)
Lemma t_add_positional_arg s v b : T (fun _ => add_positional_arg s v b).
Proof. unfold add_positional_arg. ends. Qed.
Lemma t_add_named_arg s n v b : T (fun _ => add_named_arg s n v b).
Proof. unfold add_named_arg. ends. Qed.
Lemma t_add_content_arg s v b : T (fun _ => add_content_arg s v b).
Proof. unfold add_content_arg. ends. Qed.
Lemma t_check_pos_count s b : T (fun _ => check_pos_count s b).
Proof. unfold check_pos_count. ends. Qed.
#[global] Hint Resolve t_add_positional_arg t_add_named_arg t_add_content_arg t_check_pos_count : ends.
Lemma t_close_bound s b f : T (fun _ => close_bound s b f).
Proof. unfold close_bound. ends. Qed.
Lemma t_bind_implicits ps : forall b, T (fun _ => bind_implicits ps b).
Proof. induction ps; intro b; cbn [bind_implicits]; ends. Qed.
Lemma t_fill_positional s c ps : forall m, T (fun _ => fill_positional s c ps m).
Proof. induction ps; intro m; cbn [fill_positional]; ends. Qed.
Lemma t_fill_named ps : forall m, T (fun _ => fill_named ps m).
Proof. induction ps; intro m; cbn [fill_named]; ends. Qed.
#[global] Hint Resolve t_close_bound t_bind_implicits t_fill_positional t_fill_named : ends.
Lemma t_build s b : T (fun _ => build s b).
Proof. unfold build. ends. Qed.
Lemma t_add_positionals s vs : forall b, T (fun _ => add_positionals s vs b).
Proof. induction vs; intro b; cbn [add_positionals]; ends. Qed.
Lemma t_add_nameds s vs : forall b, T (fun _ => add_nameds s vs b).
Proof. induction vs as [|[n v] vs IH]; intro b; cbn [add_nameds]; ends. Qed.
#[global] Hint Resolve t_build t_add_positionals t_add_nameds : ends.
Lemma t_bind_content f v : T (fun _ => bind_content f v).
Proof. unfold bind_content. ends. Qed.
Lemma t_bind_positional f v : T (fun _ => bind_positional f v).
Proof. unfold bind_positional. ends. Qed.
Lemma t_bind_partial f p n c : T (fun _ => bind_partial f p n c).
Proof. unfold bind_partial. ends. Qed.
Lemma t_bind_implicit_args s b : T (fun _ => bind_implicit_args s b).
Proof. unfold bind_implicit_args. ends. Qed.
#[global] Hint Resolve t_bind_content t_bind_positional t_bind_partial t_bind_implicit_args : ends.
Lemma t_bind_synthetic_call f i c : T (fun _ => bind_synthetic_call f i c).
Proof. unfold bind_synthetic_call. ends. Qed.
#[global] Hint Resolve t_bind_synthetic_call : ends.
Lemma t_bind_one n v : T (fun _ => bind_one n v).
Proof. unfold bind_one. ends. Qed.
#[global] Hint Resolve t_bind_one : ends.
Lemma t_and_then a b : T a -> T b -> T (fun n => and_then (a n) (b n)).
Proof. intros. unfold and_then. ends. Qed.
Lemma t_bind_groups gs : forall ns, T (fun _ => bind_groups gs ns).
Proof.
  induction gs as [|g gs IH]; intros [|n ns]; cbn [bind_groups]; try solve [ends].
Qed.
#[global] Hint Resolve t_bind_groups : ends.
Lemma t_to_bool v : T (fun _ => to_bool v). Proof. unfold to_bool. ends. Qed.
Lemma t_to_int v : T (fun _ => to_int v). Proof. unfold to_int. ends. Qed.
Lemma t_to_str v : T (fun _ => to_str v). Proof. unfold to_str. ends. Qed.
Lemma t_to_htmlM v : T (fun _ => to_htmlM v). Proof. unfold to_htmlM. ends. Qed.
Lemma t_to_func v : T (fun _ => to_func v). Proof. unfold to_func. ends. Qed.
Lemma t_to_regex v : T (fun _ => to_regex v). Proof. unfold to_regex. ends. Qed.
Lemma t_to_list v : T (fun _ => to_list v). Proof. unfold to_list. ends. Qed.
Lemma t_to_dict v : T (fun _ => to_dict v). Proof. unfold to_dict. ends. Qed.
#[global] Hint Resolve t_to_bool t_to_int t_to_str t_to_htmlM t_to_func t_to_regex t_to_list t_to_dict : ends.
Lemma t_to_opt A (f : value -> EM A) v : (forall v, T (fun _ => f v)) -> T (fun _ => to_opt f v).
Proof. intro H. unfold to_opt. ends. Qed.
#[global] Hint Resolve t_to_opt : ends.
Lemma t_to_each A (f : value -> EM A) vs : (forall v, T (fun _ => f v)) -> T (fun _ => to_each f vs).
Proof. intro H. induction vs; cbn [to_each]; ends. Qed.
#[global] Hint Resolve t_to_each : ends.
Lemma t_evaluate_native_attr v a : T (fun _ => evaluate_native_attr v a).
Proof. unfold evaluate_native_attr. cbv zeta. ends. Qed.
Lemma t_listed_files p fs : T (fun _ => listed_files p fs).
Proof. induction fs; cbn [listed_files]; ends. Qed.
Lemma t_report_all es : T (fun _ => report_all es).
Proof. induction es; cbn [report_all]; ends. Qed.
Lemma t_set_vars vs : T (fun _ => set_vars vs).
Proof. induction vs as [|[n v] vs IH]; cbn [set_vars]; ends. Qed.
#[global] Hint Resolve t_evaluate_native_attr t_listed_files t_report_all t_set_vars : ends.
Lemma tot_sr_get A (r : slice_ref A) i : Tot (sr_get r i).
Proof. unfold sr_get. tot. Qed.
Lemma tot_as_ref A (r : slice_ref A) : Tot (sr_as_ref r).
Proof. unfold sr_as_ref. tot. Qed.
Lemma tot_sr_slice A (r : slice_ref A) a b : Tot (sr_slice r a b).
Proof. unfold sr_slice. tot. Qed.
#[global] Hint Resolve tot_sr_get tot_as_ref tot_sr_slice : tot.
Lemma tot_native_slice A (r : slice_ref A) a b : Tot (native_slice r a b).
Proof. unfold native_slice. cbv zeta. tot. Qed.
Lemma tot_i64 c z : Tot (i64 c z).
Proof. unfold i64. tot. Qed.
Lemma tot_span s a b : Tot (get_span s a b).
Proof. unfold get_span. tot. Qed.
Lemma tot_matching_paren s : Tot (matching_paren s).
Proof. unfold matching_paren. tot. Qed.
Lemma tot_tokenize s b : Tot (tokenize s b).
Proof. apply tokenize_terminates. Qed.
Lemma tot_dom lower d : Tot (node_to_html lower d).
Proof. apply node_no_fuel. Qed.
#[global] Hint Resolve tot_native_slice tot_i64 tot_span tot_matching_paren tot_tokenize tot_dom : tot.
Lemma tot_close_part l : Tot (close_part l).
Proof. unfold close_part. tot. Qed.
#[global] Hint Resolve tot_close_part : tot.
Lemma tot_push_other a b k l : Tot (push_other a b k l).
Proof. unfold push_other. tot. Qed.
Lemma tot_push_paren a b k n l : Tot (push_with_paren_no a b k n l).
Proof. unfold push_with_paren_no. tot. Qed.
Lemma tot_take_line l : Tot (take_line l).
Proof. unfold take_line. tot. Qed.
#[global] Hint Resolve tot_push_other tot_push_paren tot_take_line : tot.
Lemma tot_push_urls us : forall start cur b k u l, Tot (push_urls us start cur b k u l).
Proof. induction us as [|[ma mb] us IH]; intros; cbn [push_urls]; tot. Qed.
#[global] Hint Resolve tot_push_urls : tot.
Lemma tot_lh_push a b k l : Tot (lh_push a b k l).
Proof. unfold lh_push. apply tot_bind; [tot|]. intro s. destruct k; tot. Qed.
#[global] Hint Resolve tot_lh_push : tot.
Lemma tot_push_parts ps : forall cur c k l out, Tot (push_parts ps cur c k l out).
Proof. induction ps as [|p ps IH]; intros; cbn [push_parts]; tot. Qed.
#[global] Hint Resolve tot_push_parts : tot.
Lemma tot_highlight_tokens ts : forall d g l out, Tot (highlight_tokens ts d g l out).
Proof. induction ts as [|t ts IH]; intros; cbn [highlight_tokens]; [tot|]. destruct (papyri_kind _ _ _). tot. Qed.
#[global] Hint Resolve tot_highlight_tokens : tot.
Lemma tot_highlight_papyri s : Tot (syntax_highlight_papyri s).
Proof. unfold syntax_highlight_papyri. cbv zeta. tot. Qed.
Lemma tot_push_ranges rs : forall l, Tot (push_ranges rs l).
Proof. induction rs as [|[[a b] k] rs IH]; intros; cbn [push_ranges]; [tot|]. destruct (b <=? a); [apply IH|]. apply tot_bind; [tot|]. exact IH. Qed.
#[global] Hint Resolve tot_highlight_papyri tot_push_ranges : tot.
Lemma tot_highlight_lines ls : forall l, Tot (highlight_lines ls l).
Proof. induction ls as [|[x r] ls IH]; intros; cbn [highlight_lines]; cbv zeta; tot. Qed.
#[global] Hint Resolve tot_highlight_lines : tot.
Lemma tot_syntax_highlight f s g : Tot (syntax_highlight f s g).
Proof. unfold syntax_highlight. tot. Qed.
Lemma tot_enumerate_loop c ls : forall i z, Tot (enumerate_loop c ls i z).
Proof. induction ls; intros; cbn [enumerate_loop]; tot. Qed.
#[global] Hint Resolve tot_syntax_highlight tot_enumerate_loop : tot.
Lemma tot_enumerate_lines c ls z : Tot (enumerate_lines c ls z).
Proof. unfold enumerate_lines. tot. Qed.
Lemma tot_fix_loop w ls : forall ind out, Tot (fix_indentation_loop w ls ind out).
Proof. induction ls as [|x ls IH]; intros; cbn [fix_indentation_loop]; cbv zeta; tot. Qed.
#[global] Hint Resolve tot_enumerate_lines tot_fix_loop : tot.
Lemma tot_fix_indentation s : Tot (fix_indentation s).
Proof. unfold fix_indentation. tot. Qed.
Lemma tot_enumerate_list X vs : forall i z, Tot (enumerate_list X vs i z).
Proof. induction vs; intros; cbn [enumerate_list]; tot. Qed.
Lemma tot_sum_ints X l : forall z, Tot (sum_ints X l z).
Proof. induction l as [|x l IH]; intros; cbn [sum_ints]; [tot|]. apply tot_bind; [tot|]. exact IH. Qed.
#[global] Hint Resolve tot_fix_indentation tot_enumerate_list tot_sum_ints : tot.
Lemma tot_list_get A (r : slice_ref A) i : Tot (list_get r i).
Proof. unfold list_get. cbv zeta. tot. Qed.
#[global] Hint Resolve tot_list_get : tot.
Lemma t_evaluate_name n : forall t, T (fun _ => evaluate_name n t).
Proof. induction n; intro t; cbn [evaluate_name]; ends. Qed.
#[global] Hint Resolve t_evaluate_name : ends.
Lemma t_template_text ps : T (fun _ => template_text ps).
Proof. induction ps as [|p ps IH]; cbn [template_text]; ends. Qed.
Lemma t_compile_tag_name n : T (fun _ => compile_tag_name n).
Proof. unfold compile_tag_name. ends. Qed.
Lemma t_add_attr l n v : T (fun _ => add_attr l n v).
Proof. unfold add_attr. ends. Qed.
#[global] Hint Resolve t_template_text t_compile_tag_name t_add_attr : ends.
Lemma t_add_attrs vs : forall l, T (fun _ => add_attrs l vs).
Proof. induction vs as [|[n v] vs IH]; intro l; cbn [add_attrs]; ends. Qed.
#[global] Hint Resolve t_add_attrs : ends.
