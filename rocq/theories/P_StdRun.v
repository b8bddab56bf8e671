(** Running the functions of the standard library (C61). *)
From Verif Require Import S_Html S_Sequence P_Html P_Sequence P_Stable S_Scope P_Built P_State P_Scope P_Std S_Std P_StdHeap.
From Verif Require Import Base BaseFacts M_Text M_Names M_TagInfo M_Html M_Sequence M_Path M_Types M_Diag M_Ast M_Value M_State M_Matcher M_Binder M_Native M_Eval M_Std.

(** ** Scopes *)
(** the state [s] with heap [h], another scope [f] that is the current one, and call stack [k] below it *)
Definition sc (s : st) (h : list frame) (f : frame) (k : list nat) : st := set_stack (length h :: k) (set_heap (h ++ [f]) s).
Definition left_sc (s : st) (h : list frame) (k : list nat) : st := set_stack k (set_heap h s).
Lemma sc_heap s h f k : st_heap (sc s h f k) = h ++ [f]. Proof. reflexivity. Qed.

Lemma nth_last {A} (h : list A) f l : nth_error (h ++ f :: l) (length h) = Some f.
Proof. rewrite nth_error_app2 by lia. now rewrite Nat.sub_diag. Qed.
Lemma fg_step fuel h i f n : nth_error h i = Some f ->
  frame_get_fuel (S fuel) h i n false =
  match ngetm (fr_locals f) n with
  | Some v => Some v
  | None => match fr_parent f with Some p => frame_get_fuel fuel h p n false | None => None end
  end.
Proof. intro H. cbn [frame_get_fuel]. rewrite H. reflexivity. Qed.
Lemma get_local s h f k n v : ngetm (fr_locals f) n = Some v -> get_var n (sc s h f k) = Ok v (sc s h f k).
Proof.
  intro H. rewrite (get_var_eq n _ (length h) k) by reflexivity. unfold frame_get. rewrite sc_heap.
  rewrite (fg_step _ _ _ f) by apply nth_last. now rewrite H.
Qed.
Lemma get_outer s h f f' k' n v : fr_parent f' = Some (length h) -> ngetm (fr_locals f') n = None -> ngetm (fr_locals f) n = Some v ->
  get_var n (sc s (h ++ [f]) f' k') = Ok v (sc s (h ++ [f]) f' k').
Proof.
  intros P N H. rewrite (get_var_eq n _ (length (h ++ [f])) k') by reflexivity. unfold frame_get. rewrite sc_heap.
  rewrite (fg_step _ _ _ f') by apply nth_last. rewrite N, P, app_length, Nat.add_comm.
  rewrite (fg_step _ _ _ f); [now rewrite H|]. rewrite <- app_assoc. apply nth_last.
Qed.
Lemma update_last {A} (h : list A) f g : update (h ++ [f]) (length h) g = h ++ [g f].
Proof.
  unfold update. rewrite nth_last, firstn_app, Nat.sub_diag, firstn_all, firstn_O, app_nil_r. f_equal.
  replace (S (length h)) with (length (h ++ [f])) by (rewrite app_length; cbn; lia). now rewrite skipn_all.
Qed.
Lemma bind_one_fresh s h f k n v : ngetm (fr_locals f) n = None ->
  bind_one n v (sc s h f k) = Ok true (sc s h (fr_set n v false f) k).
Proof.
  intro H. unfold bind_one, frame_set, frame_has, with_frame, frame_id, bind, gets, modify, ret, sc.
  cbn [st_stack set_stack set_heap st_heap]. rewrite nth_last. unfold fr_has, nhas. rewrite H. cbn [st_stack set_stack set_heap st_heap].
  rewrite update_last. reflexivity.
Qed.
(** a computation in a new scope *)
Lemma in_call {A} c bs (m : EM A) s a f' more k' :
  c < length (st_heap s) ->
  m (sc s (st_heap s) (Frame (Some c) bs []) (st_stack s)) = Ok a (set_stack k' (set_heap (st_heap s ++ f' :: more) s)) ->
  List.tl k' = st_stack s ->
  in_call_frame c bs m s = Ok a (set_heap (st_heap s ++ f' :: more) s).
Proof.
  intros L E T. rewrite in_call_frame_eq. apply Nat.ltb_lt in L. rewrite L. change (push_scope c bs s) with (sc s (st_heap s) (Frame (Some c) bs []) (st_stack s)).
  rewrite E. f_equal. destruct s. unfold set_stack, set_heap in *. cbn in *. now rewrite T.
Qed.

(** ** Expressions *)
Lemma ev_name X fuel n t s v w : get_var n s = Ok v s -> coerce t v = inl w ->
  e_node (evals_n X (S fuel)) (EName (NSimple n)) t s = Ok w s.
Proof.
  intros G C. cbn [evals_n e_node step evaluate_node evaluate_name]. unfold or_report, bind. rewrite G. unfold coerceM. rewrite C. reflexivity.
Qed.
Lemma ev_tag X fuel n l ns t s s' h w : compile_tag (evals_n X fuel) n l ns s = Ok h s' -> coerce t (VHtml h) = inl w ->
  e_node (evals_n X (S fuel)) (ETag n l ns) t s = Ok w s'.
Proof.
  intros G C. cbn [evals_n e_node step evaluate_node]. unfold or_report, bind, ret. rewrite G. unfold coerceM. rewrite C. reflexivity.
Qed.
Lemma ev_template X fuel ps t s s' x w : template_text ps s = Ok x s' -> coerce t (VStr x) = inl w ->
  e_node (evals_n X (S fuel)) (ETemplate ps) t s = Ok w s'.
Proof.
  intros G C. cbn [evals_n e_node step evaluate_node]. unfold or_report, bind, ret. rewrite G. unfold coerceM. rewrite C. reflexivity.
Qed.
Lemma ev_group X fuel ns t s s' h w : compile_sequence (evals_n X fuel) ns (AllowBlock n_p) None s = Ok h s' -> coerce t (of_html h) = inl w ->
  e_node (evals_n X (S fuel)) (EGroup ns) t s = Ok w s'.
Proof.
  intros G C. cbn [evals_n e_node step evaluate_node]. unfold or_report, bind, ret. rewrite G. unfold coerceM. rewrite C. reflexivity.
Qed.

(** ** Content *)
(** the nodes evaluate to the pieces *)
Inductive Pieces (R : evals) : list node -> st -> list item -> st -> Prop :=
| pc_nil s : Pieces R [] s [] s
| pc_expr e ns s v h s1 is s2 : e_node R e THtml s = Ok v s1 -> to_html v = Some h -> Pieces R ns s1 is s2 ->
    Pieces R (AExpr e :: ns) s (Piece h :: is) s2
| pc_text x ns s is s2 : Pieces R ns s is s2 -> Pieces R (AText x :: ns) s (Piece (html_text x) :: is) s2
| pc_char c ns s is s2 : Pieces R ns s is s2 -> Pieces R (AChar c :: ns) s (Piece (html_text [c]) :: is) s2
| pc_white ns s is s2 : Pieces R ns s is s2 -> Pieces R (AWhitespace :: ns) s (Piece HWhitespace :: is) s2
| pc_break ns s is s2 : Pieces R ns s is s2 -> Pieces R (AParagraphBreak :: ns) s (ParagraphBreak :: is) s2.
Lemma push_ret h b b' s : b_push push_fuel h b = Ret (None, b') -> push_piece h b s = Ok (None, b') s.
Proof. intro E. unfold push_piece, pure, bind. rewrite E. reflexivity. Qed.
Lemma compile_pieces R ns s is s' : Pieces R ns s is s' -> forall b b', b_items is b = Ret ([], b') -> compile_nodes R ns b s = Ok b' s'.
Proof.
  induction 1 as [s|e ns s v h s1 is s2 E T H IH|x ns s is s2 H IH|c ns s is s2 H IH|ns s is s2 H IH|ns s is s2 H IH]; intros b b' B.
  - cbn in B. inversion B; subst. reflexivity.
  - cbn [b_items b_item] in B. destruct (b_push push_fuel h b) as [[er b1]| |] eqn:Eb; try discriminate. cbn [obind] in B.
    destruct (b_items is b1) as [[es b2]| |] eqn:Ei; try discriminate. cbn [obind] in B. destruct er; [discriminate|]. inversion B; subst.
    cbn [compile_nodes compile_node]. unfold push_result, catch, bind. rewrite E. unfold to_htmlM. rewrite T. cbn [ret].
    rewrite (push_ret _ _ _ _ Eb). cbn [fst snd ret]. now apply IH.
  - cbn [b_items b_item] in B. destruct (b_push push_fuel (html_text x) b) as [[er b1]| |] eqn:Eb; try discriminate. cbn [obind] in B.
    destruct (b_items is b1) as [[es b2]| |] eqn:Ei; try discriminate. cbn [obind] in B. destruct er; [discriminate|]. inversion B; subst.
    cbn [compile_nodes compile_node]. unfold bind. rewrite (push_ret _ _ _ _ Eb). cbn [fst snd ret]. now apply IH.
  - cbn [b_items b_item] in B. destruct (b_push push_fuel (html_text [c]) b) as [[er b1]| |] eqn:Eb; try discriminate. cbn [obind] in B.
    destruct (b_items is b1) as [[es b2]| |] eqn:Ei; try discriminate. cbn [obind] in B. destruct er; [discriminate|]. inversion B; subst.
    cbn [compile_nodes compile_node]. unfold bind. rewrite (push_ret _ _ _ _ Eb). cbn [fst snd ret]. now apply IH.
  - cbn [b_items b_item] in B. destruct (b_push push_fuel HWhitespace b) as [[er b1]| |] eqn:Eb; try discriminate. cbn [obind] in B.
    destruct (b_items is b1) as [[es b2]| |] eqn:Ei; try discriminate. cbn [obind] in B. destruct er; [discriminate|]. inversion B; subst.
    cbn [compile_nodes compile_node]. unfold bind. rewrite (push_ret _ _ _ _ Eb). cbn [fst snd ret]. now apply IH.
  - cbn [b_items b_item] in B. destruct (b_newline b) as [er b1] eqn:Eb. cbn [obind] in B.
    destruct (b_items is b1) as [[es b2]| |] eqn:Ei; try discriminate. cbn [obind] in B. destruct er; [discriminate|]. inversion B; subst.
    cbn [compile_nodes compile_node]. unfold bind. rewrite Eb. cbn [fst snd ret]. now apply IH.
Qed.
Lemma seq_pieces R ns s is s' kind parent h : Pieces R ns s is s' -> compile_items kind parent is = Ret ([], h) ->
  compile_sequence R ns kind parent s = Ok h s'.
Proof.
  intros P C. unfold compile_items in C. destruct (b_items is (b_new kind parent)) as [[es b]| |] eqn:E; try discriminate.
  cbn [obind] in C. unfold compile_sequence, bind. destruct (b_into_html b) as [h'|e] eqn:Eb; inversion C; subst.
  - rewrite (compile_pieces _ _ _ _ _ P _ _ E). rewrite Eb. reflexivity.
  - destruct es; discriminate.
Qed.
Lemma tag_pieces R n l attrs ns is h s s1 s' : compile_attrs R l [] s = Ok attrs s1 -> Pieces R ns s1 is s' ->
  compile_items (content_kind_for n) (Some n) is = Ret ([], h) -> compile_tag R (TNLit n) l ns s = Ok (HTag n attrs h) s'.
Proof.
  intros A P C. unfold compile_tag, compile_tag_name, bind, ret. rewrite A. rewrite (seq_pieces _ _ _ _ _ _ _ _ P C). reflexivity.
Qed.
