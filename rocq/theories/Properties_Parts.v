(** Property theorems C86 for any number of texts with blank lines between them. *)
From Verif Require Import Base M_Text M_Names M_TagInfo M_Html M_Sequence M_Types M_Token M_Tokenizer M_Diag M_Ast M_Value M_State M_Matcher M_Binder M_Native M_Parser M_Eval
  S_Html S_Text S_Parser S_Lex S_Refill S_Trail S_Join S_Expr S_Example S_Sequence S_Parts P_Expr2 P_Blank P_Lex P_JoinText P_Parts Properties_Blank Properties_Join.

(** A document made of any number of texts, each parsed without errors by itself, with a blank line between any two: its syntax tree
    is that of the texts in order, with a paragraph break between any two, and the warnings are those of the texts in order. *)
Theorem C86_parts : forall decode regex_ok path lines texts doc results,
  Parted lines texts doc -> Forall (Stands lines) texts ->
  Forall2 (fun text r => parse decode regex_ok path text = Ret r /\ fst r <> [] /\ NoErrors (snd r)) texts results ->
  parse decode regex_ok path doc = Ret (broken (map fst results), concat (map snd results)).
Proof.
  intros decode regex_ok path lines texts doc results D S P.
  assert (C : combine (map fst results) (map snd results) = results) by (clear; induction results as [|[a b] l IH]; [reflexivity|]; cbn; now rewrite IH).
  refine (proj1 (parts_parse decode regex_ok path lines texts doc D (map fst results) (map snd results) S _ _)); [now rewrite C|now rewrite !map_length].
Qed.
Print Assumptions C86_parts.

(** So if it compiles, then its parts are compiled one after the other, and the document is what they make, in order. *)
Theorem C86_parts_compile : forall X fuel path lines texts doc trees s h ex s',
  Parted lines texts doc -> Forall (Stands lines) texts ->
  Forall2 (fun text tree => parse_source X path text = Ret (tree, []) /\ tree <> []) texts trees ->
  compile X fuel path doc s = Ok (h, ex) s' ->
  exists s2, Made X trees (begun s) h s2 /\ ex = st_exports s2.
Proof.
  intros X fuel path lines texts doc trees s h ex s' D S P C.
  assert (P' : parse_source X path doc = Ret (broken trees, [])).
  { unfold parse_source in *. pose (f := fun t : list M_Ast.node => (t, @nil papyri_error)).
    assert (E1 : map fst (map f trees) = trees) by (clear; induction trees as [|t l E]; [reflexivity|]; cbn; now rewrite E).
    assert (E2 : concat (map snd (map f trees)) = []) by (clear; induction trees as [|t l E]; [reflexivity|]; cbn; exact E).
    rewrite <- E1, <- E2. refine (C86_parts _ _ path lines texts doc (map f trees) D S _). clear -P. induction P as [|x t l l' (E & N) P IH]; constructor; [|exact IH].
    split; [exact E|]. split; [exact N|constructor]. }
  assert (N : trees <> []) by (destruct D; inversion P; discriminate).
  assert (O : DocumentOf X path doc s h ex s') by (apply document_spec; now exists fuel). destruct O as [root errs h s2 R M]. rewrite P' in R. injection R as <- <-. exists s2. split; [|reflexivity].
  cbn [fold_left] in M. clear -M N. revert h M. generalize (begun s) as u. induction trees as [|t trees IH]; intros u h M; [contradiction|].
  destruct trees as [|t' trees]; [now constructor|]. rewrite broken_more in M by discriminate. destruct (makes_break _ _ _ _ _ _ _ M) as (hs1 & s1 & hs2 & M1 & M2 & ->).
  econstructor; [exact M1|]. apply IH; [discriminate|exact M2].
Qed.
Print Assumptions C86_parts_compile.

Definition C86_third : str := lit "g <i>h</i>".
Definition C86_break : str := [10; 10]%N.
Definition C86_three : str := C86_first ++ C86_gap ++ C86_second ++ C86_break ++ C86_third.
Lemma stands_b text t toks : tokenize text false = Ret (t :: toks, []) -> negb (kind_eqb (tk_kind t) Comment || kind_eqb (tk_kind t) Whitespace || kind_eqb (tk_kind t) Newline) = true ->
  forallb (fun t => negb (kind_eqb (tk_kind t) Comment || kind_eqb (tk_kind t) Whitespace || kind_eqb (tk_kind t) Newline || kind_eqb (tk_kind t) Escape || kind_eqb (tk_kind t) Entity)) (skipn (pred (length (t :: toks))) (t :: toks)) = true ->
  forallb (fun t => negb (kind_eqb (tk_kind t) Ellipsis)) (t :: toks) = true -> Not S_Lex.White text -> Stands false text.
Proof.
  intros T A B D W. exists (t :: toks). destruct (solid_b _ B) as (B1 & B2). split; [exact (P_Lex.tokenize_sound _ _ _ T)|]. split; [|split; [exact B1|split; [exact B2|split; [exact (no_dots_b _ D)|split; [exact W|discriminate]]]]].
  intros u after E. injection E as <- _. clear -A. destruct (tk_kind t); try discriminate A; repeat split; discriminate.
Qed.
Lemma C86_first_stands : Stands false C86_first.
Proof. eapply stands_b; [vm_compute; reflexivity|reflexivity|reflexivity|reflexivity|]. intros c r E. injection E as <- _. unfold S_Lex.White. intuition discriminate. Qed.
Lemma C86_second_stands : Stands false C86_second.
Proof. eapply stands_b; [vm_compute; reflexivity|reflexivity|reflexivity|reflexivity|]. intros c r E. injection E as <- _. unfold S_Lex.White. intuition discriminate. Qed.
Lemma C86_third_stands : Stands false C86_third.
Proof. eapply stands_b; [vm_compute; reflexivity|reflexivity|reflexivity|reflexivity|]. intros c r E. injection E as <- _. unfold S_Lex.White. intuition discriminate. Qed.
Lemma C86_gap_filled : Filled false true C86_gap.
Proof. destruct C86_texts_nonvacuous as (? & ? & ? & ? & ? & ? & ? & _ & _ & _ & _ & _ & _ & _ & F & _). exact F. Qed.
(** Three texts, the first of which sets a variable *)
Example C86_parts_nonvacuous : exists trees h ex s',
  Parted false [C86_first; C86_second; C86_third] C86_three /\ Forall (Stands false) [C86_first; C86_second; C86_third] /\
  Forall2 (fun text tree => parse_source ex_X (lit "m") text = Ret (tree, []) /\ tree <> []) [C86_first; C86_second; C86_third] trees /\
  compile ex_X 10 (lit "m") C86_three ex_start = Ok (h, ex) s'.
Proof.
  assert (exists h ex s', compile ex_X 10 (lit "m") C86_three ex_start = Ok (h, ex) s') as (h & ex & s' & C) by (eexists _, _, _; vm_compute; reflexivity).
  assert (exists trees, Forall2 (fun text tree => parse_source ex_X (lit "m") text = Ret (tree, []) /\ tree <> []) [C86_first; C86_second; C86_third] trees) as (trees & P).
  { clear. eexists [_; _; _]. repeat (apply Forall2_cons; [split; [vm_compute; reflexivity|discriminate]|]). constructor. }
  exists trees, h, ex, s'. split; [|split; [|exact (conj P C)]].
  - clear. unfold C86_three. apply parted_more; [exact C86_gap_filled|]. apply parted_more; [|constructor].
    apply filled_white; [discriminate|repeat (constructor; [unfold S_Lex.White; tauto|]); constructor|]. split; [intros _; now exists [], [], []|reflexivity].
  - clear. repeat (apply Forall_cons; [first [exact C86_first_stands|exact C86_second_stands|exact C86_third_stands]|]). constructor.
Qed.
