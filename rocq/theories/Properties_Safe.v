(** Property theorems C47 (evaluation respects expected types), C57 (no internal errors) and C58 (documents are in normal
    form). See S_Session.v for sessions, and S_Safe.v for the discipline and the panics that remain. *)
From Verif Require Import Base M_Names M_Html M_Render M_Path M_Types M_Diag S_Html M_Ast M_Parser M_Value M_State M_Native M_Eval M_Std M_Lib.
From Verif Require Import S_Front S_Escapes S_Grammar S_Types S_Scope S_Call S_Safe S_Session S_Example S_SafeExample P_ParserWf P_SafeRun P_Std P_Session P_SafeProps Properties_Parser.

(** C47. Whatever the program, an expression evaluated where a type is expected gives a value of that type or none. (Missing:
    none is of that type. That is refuted below.) *)
Theorem C47_any_program_partial : forall X fuel e t s v s', Sound Lax s -> st_stack s <> [] ->
  e_node (evals_n X fuel) e t s = Ok v s' -> HasType t v \/ v = UNIT.
Proof. exact eval_lax. Qed.
Print Assumptions C47_any_program_partial.
(** If the program follows the discipline, in particular calls no function by way of [?::], the value has that type. *)
Theorem C47_disciplined_partial : forall X groups T fuel e t s v s', Environment (Strict groups T) X -> Sound (Strict groups T) s ->
  st_stack s <> [] -> every_expr (well_formed groups) e = true -> every_expr (discipline T) e = true ->
  e_node (evals_n X fuel) e t s = Ok v s' -> HasType t v.
Proof. exact eval_strict. Qed.
Print Assumptions C47_disciplined_partial.
(** The states in question are those of a session, and all states reached from them by evaluation: *)
Theorem C47_sessions : forall m s, Session m s -> Sound m s.
Proof. exact session_sound. Qed.
Print Assumptions C47_sessions.
Theorem C47_running : forall m X fuel e t s s', Environment m X -> Sound m s -> st_stack s <> [] -> GoodExpr m e ->
  after (e_node (evals_n X fuel) e t s) = Some s' -> Sound m s' /\ st_stack s' = st_stack s.
Proof. exact eval_keeps. Qed.
Print Assumptions C47_running.
Theorem C47_entering : forall m s parent, Sound m s -> parent < length (st_heap s) ->
  Sound m (set_stack (length (st_heap s) :: st_stack s) (set_heap (st_heap s ++ [Frame (Some parent) [] []]) s)).
Proof. exact enter_sound. Qed.
Print Assumptions C47_entering.

(** A callback that gives none, by way of [?::], where a Boolean is expected: the program is accepted without a diagnostic,
    and the compiler panics when the native function converts the value. *)
Theorem C47_coalescing_refuted : exists X fuel s root, context_new X std_papyri fuel LWarning None = Ok tt s /\ Session Lax s /\
  parse_source X (lit "<string>") ex_coalescing = Ret (root, []) /\ compile X fuel (lit "<string>") ex_coalescing s = Crash FConvert.
Proof. exact coalescing_crash. Qed.
Print Assumptions C47_coalescing_refuted.

(** ** C57. No disciplined program makes the compiler panic, but for the causes in [Remaining]: no conversion of a value
    fails, no argument of a native function is missing, no variable scope is missing, ... *)
Theorem C57_text : forall X groups T fuel path text s c, Session (Strict groups T) s -> Environment (Strict groups T) X ->
  Disciplined X T path text -> compile X fuel path text s = Crash c -> Remaining X c \/ c = FParser /\ parse_source X path text = Panic.
Proof. exact text_safe. Qed.
Print Assumptions C57_text.
Theorem C57_file : forall X groups T fuel path s c, Session (Strict groups T) s -> Environment (Strict groups T) X ->
  load_uncached X (evals_n X fuel) path s = Crash c -> Remaining X c.
Proof. exact file_safe. Qed.
Print Assumptions C57_file.
(** The parser does not panic on a text without malformed escapes (C15, C43). *)
Theorem C57_parser : forall X path text, (forall ps, x_regex X (regex_text regex_escape ps) <> None) -> EscapesRead text ->
  parse_source X path text <> Panic.
Proof.
  intros X path text R G. unfold parse_source. destruct (C43_terminates (x_decode X) (fun s => match x_regex X s with Some _ => true | None => false end) path text) as (ns & ds & E); [|exact G|rewrite E; discriminate].
  intros ps. specialize (R ps). destruct (x_regex X _); [reflexivity|now elim R].
Qed.
Print Assumptions C57_parser.
(** The parser makes syntax trees the evaluator can rely on, for every text, also with syntax errors: each signature has as
    many parameters as it counts, none without a name; a spread pattern has its spread; a regular expression has as many
    groups as variables. *)
Theorem C57_syntax_trees : forall X groups path text root errs, RegexLibrary X groups ->
  parse_source X path text = Ret (root, errs) -> forallb (every_node (well_formed groups)) root = true.
Proof. exact trees_wf. Qed.
Print Assumptions C57_syntax_trees.
(** Without the discipline there are such panics: an implicit variable is not converted to the type of the parameter it is
    bound to. *)
Theorem C57_implicit_refuted : exists X fuel s root, context_new X std_papyri fuel LWarning None = Ok tt s /\ Session Lax s /\
  parse_source X (lit "<string>") ex_implicit = Ret (root, []) /\ compile X fuel (lit "<string>") ex_implicit s = Crash FConvert.
Proof. exact implicit_crash. Qed.
Print Assumptions C57_implicit_refuted.
(** C32. A content parameter with the name of another parameter is accepted, and its value passes for that of the other:
    here [$x] is declared to be an integer, and is a text. *)
Theorem C32_same_name_refuted : exists X fuel, compile_str X fuel ex_same_name = Ret (M_Lib.Document (lit "<p>hello</p>")).
Proof. exact same_name. Qed.
Print Assumptions C32_same_name_refuted.

(** ** C58. Whatever the program, the document it compiles to is in normal form, and no element in it has two attributes of
    the same name; so are the files collected. *)
Theorem C58_document : forall X fuel path text s h exports s', Session Lax s -> compile X fuel path text s = Ok (h, exports) s' ->
  Normal h /\ DistinctAttrs h.
Proof. exact document_normal. Qed.
Print Assumptions C58_document.
Theorem C58_file : forall X fuel path s h exports s', Session Lax s -> load_uncached X (evals_n X fuel) path s = Ok (h, exports) s' ->
  Normal h /\ DistinctAttrs h.
Proof. exact file_normal. Qed.
Print Assumptions C58_file.
Theorem C58_collected : forall s o path h, Session Lax s -> st_out s = Some o -> In (path, h) (out_v o) -> Normal h /\ DistinctAttrs h.
Proof. exact collected_normal. Qed.
Print Assumptions C58_collected.

(** ** The hypotheses are met *)
Example C57_nonvacuous : Environment (Strict groups_in ex_table_y) ex_library_X /\
  (exists s, context_new ex_library_X std_papyri 60 LWarning None = Ok tt s /\ Session (Strict groups_in ex_table_y) s /\
    (exists h ex s', compile ex_library_X 60 (lit "<string>") ex_program s = Ok (h, ex) s' /\ h <> HEmpty) /\
    compile ex_library_X 60 (lit "<string>") ex_remaining s = Crash FIndent) /\
  Disciplined ex_library_X ex_table_y (lit "<string>") ex_program /\ Disciplined ex_library_X ex_table_y (lit "<string>") ex_remaining /\
  ~ Disciplined ex_library_X ex_table_y (lit "<string>") ex_coalescing /\ ~ Disciplined ex_library_X ex_table_y (lit "<string>") ex_implicit /\
  ~ Disciplined ex_library_X ex_table_y (lit "<string>") ex_same_name.
Proof. exact nonvacuous. Qed.
(** [x] is 5 there, and the expression [$x] is evaluated where an integer is expected. *)
Example C47_nonvacuous : Sound (Strict groups_in ex_table_y) ex_running /\ st_stack ex_running <> [] /\
  e_node (evals_n ex_library_X 9) (EName (NSimple (lit "x"))) TInt ex_running = Ok (VInt 5) ex_running.
Proof. exact running_sound. Qed.
Example C58_nonvacuous : exists s ex s', context_new ex_library_X std_papyri 60 LWarning None = Ok tt s /\ Session Lax s /\
  compile ex_library_X 60 (lit "<string>") (lit "<b id=`x`>a{b} c</b>d") s =
    Ok (HTag (lit "p") [] (HSeq [HTag (lit "b") [(lit "id", Some (lit "x"))] (HText (lit "ab c")); HText (lit "d")]), ex) s'.
Proof. exact normal_example. Qed.
