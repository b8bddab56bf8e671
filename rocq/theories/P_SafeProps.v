(** Proofs for C47, C57 and C58. *)
From Verif Require Import Base BaseFacts M_Text M_Token M_Tokenizer M_Names M_TagInfo M_SliceRef M_Html M_Render M_Sequence S_Html P_Html P_Sequence M_Path M_Types M_Diag M_Queue M_Ast M_Parser M_Value M_State M_Matcher M_Binder M_Native M_Eval M_Std M_Lib
  S_Grammar S_Util P_Util S_Types P_Types P_Coerce S_Scope P_State P_Scope S_Call P_Call P_Match S_Safe S_Session P_SafeBase P_SafeMonad P_SafeBind P_SafeMatch P_SafeHtml P_SafeNative P_SafeEval P_SafeRun
  P_ParserWf S_Lib P_Std P_Session P_Lib S_Example S_SafeExample P_Html.

Lemma eval_post m X fuel e t s : Environment m X -> Sound m s -> st_stack s <> [] -> GoodExpr m e ->
  Post m X (fun k v => Good m k v /\ Fits m t v) s (e_node (evals_n X fuel) e t s).
Proof.
  intros E S K G. destruct (use_evals m X E fuel) as [A _]. specialize (A (length (st_heap s)) e t G s S (le_n _) K).
  destruct (e_node _ e t s) as [v s'|er s'|c|]; cbn in *; auto. tauto.
Qed.
Lemma eval_lax X fuel e t s v s' : Sound Lax s -> st_stack s <> [] -> e_node (evals_n X fuel) e t s = Ok v s' -> HasType t v \/ v = UNIT.
Proof.
  intros S K H. pose proof (eval_post Lax X fuel e t s I S K I) as P. rewrite H in P. destruct P as (_ & _ & _ & [P|[_ P]]); auto.
Qed.
Lemma eval_strict X groups T fuel e t s v s' : Environment (Strict groups T) X -> Sound (Strict groups T) s ->
  st_stack s <> [] -> every_expr (well_formed groups) e = true -> every_expr (discipline T) e = true ->
  e_node (evals_n X fuel) e t s = Ok v s' -> HasType t v.
Proof.
  intros E S K W D H. pose proof (eval_post _ X fuel e t s E S K (conj W D)) as P. rewrite H in P. destruct P as (_ & _ & _ & [P|[P _]]); [exact P|destruct P].
Qed.
Lemma eval_keeps m X fuel e t s s' : Environment m X -> Sound m s -> st_stack s <> [] -> GoodExpr m e ->
  after (e_node (evals_n X fuel) e t s) = Some s' -> Sound m s' /\ st_stack s' = st_stack s.
Proof.
  intros E S K G H. pose proof (eval_post m X fuel e t s E S K G) as P. destruct (e_node _ e t s); try discriminate H; injection H as <-; destruct P as [P1 P2].
  - destruct P2 as ((_ & P2 & _) & _). auto.
  - destruct P2 as (_ & P2 & _). auto.
Qed.
Lemma enter_sound m s parent : Sound m s -> parent < length (st_heap s) ->
  Sound m (set_stack (length (st_heap s) :: st_stack s) (set_heap (st_heap s ++ [Frame (Some parent) [] []]) s)).
Proof.
  intros S L.
  assert (S2 : Sound m (set_heap (st_heap s ++ [Frame (Some parent) [] []]) s)).
  { apply sound_heap; [exact S|cbn; intros p [= <-]; exact L|]. apply goodframe_new, map_nil. }
  destruct S2 as [(W & R & St) F Ex M O]. constructor; auto. split; [exact W|]. split; [exact R|]. constructor; [cbn; rewrite app_length; cbn; lia|exact St].
Qed.
Lemma text_safe X groups T fuel path text s c : Session (Strict groups T) s -> Environment (Strict groups T) X ->
  Disciplined X T path text -> compile X fuel path text s = Crash c -> Remaining X c \/ c = FParser /\ parse_source X path text = Panic.
Proof.
  intros S E D H. destruct (parse_panics X path text) as [N|N]; [right; rewrite (compile_panics _ _ _ _ _ N) in H; now injection H as <-|left].
  pose proof (use_compile _ X E fuel path text s (session_sound _ _ S) D (or_intror N)) as P. rewrite H in P. destruct P as [P|P]; [destruct P|exact P].
Qed.
Lemma file_safe X groups T fuel path s c : Session (Strict groups T) s -> Environment (Strict groups T) X ->
  load_uncached X (evals_n X fuel) path s = Crash c -> Remaining X c.
Proof.
  intros S E H. pose proof (use_load _ X E fuel path s (session_sound _ _ S)) as P. rewrite H in P. destruct P as [P|P]; [destruct P|exact P].
Qed.
Lemma trees_wf X groups path text root errs : RegexLibrary X groups -> parse_source X path text = Ret (root, errs) ->
  forallb (every_node (well_formed groups)) root = true.
Proof.
  intros [_ L] H. eapply parse_wf; [|exact H]. intros ps S Ho. apply L; auto. intro K. cbv beta in Ho. rewrite K in Ho. discriminate.
Qed.
Lemma document_normal X fuel path text s h exports s' : Session Lax s -> compile X fuel path text s = Ok (h, exports) s' -> Normal h /\ DistinctAttrs h.
Proof.
  intros S H. pose proof (use_compile Lax X I fuel path text s (session_sound _ _ S) I (or_introl I)) as P. rewrite H in P. apply P.
Qed.
Lemma file_normal X fuel path s h exports s' : Session Lax s -> load_uncached X (evals_n X fuel) path s = Ok (h, exports) s' -> Normal h /\ DistinctAttrs h.
Proof.
  intros S H. pose proof (use_load Lax X I fuel path s (session_sound _ _ S)) as P. rewrite H in P. apply P.
Qed.
Lemma collected_normal s o path h : Session Lax s -> st_out s = Some o -> In (path, h) (M_Path.out_v o) -> Normal h /\ DistinctAttrs h.
Proof.
  intros S H I0. apply session_sound in S. destruct S as [_ _ _ _ O]. specialize (O _ H). rewrite Forall_forall in O. exact (proj1 (O _ I0)).
Qed.

Lemma document_plain X fuel path text s h exports s' : Session Plain s -> Environment Plain X -> compile X fuel path text s = Ok (h, exports) s' -> PlainDoc h.
Proof.
  intros S E H. pose proof (use_compile Plain X E fuel path text s (session_sound _ _ S) I (or_introl I)) as P. rewrite H in P.
  destruct P as (_ & _ & [_ P] & _). exact (P eq_refl).
Qed.
Lemma file_plain X fuel path s h exports s' : Session Plain s -> Environment Plain X -> load_uncached X (evals_n X fuel) path s = Ok (h, exports) s' -> PlainDoc h.
Proof.
  intros S E H. pose proof (use_load Plain X E fuel path s (session_sound _ _ S)) as P. rewrite H in P. destruct P as (_ & _ & [_ P] & _). exact (P eq_refl).
Qed.
Lemma collected_plain s o path h : Session Plain s -> st_out s = Some o -> In (path, h) (M_Path.out_v o) -> PlainDoc h.
Proof.
  intros S H I0. apply session_sound in S. destruct S as [_ _ _ _ O]. specialize (O _ H). rewrite Forall_forall in O. exact (proj2 (O _ I0) eq_refl).
Qed.

Lemma compile_str_plain X fuel text out : Environment Plain X -> x_regex X (lit "^(?s:(.+?)/)$") <> None ->
  compile_str X fuel text = Ret (M_Lib.Document out) -> exists h, PlainDoc h /\ out = render true h /\ read_html out = Some (doc h).
Proof.
  intros E R H. unfold compile_str in H. cbv zeta in H. assert (E' : Environment Plain (no_network X)) by exact E.
  destruct (context_new (no_network X) std_papyri fuel LWarning None) as [[] s|e s|c|] eqn:N; try discriminate H.
  assert (S : Session Plain s) by (apply (ses_new Plain (no_network X) fuel LWarning None s E' R I N)).
  destruct (compile (no_network X) fuel (lit "<string>") text s) as [[h ex] s'|e s'|c|] eqn:K; try discriminate H.
  destruct (sink_is_empty (st_sink s')); [|discriminate H]. injection H as <-. exists h.
  pose proof (document_plain _ _ _ _ _ _ _ _ S E' K) as P. split; [exact P|]. split; [reflexivity|now apply read_html_render].
Qed.

(** ** Examples *)
Definition ast_of (X : externals) (text : str) : list node := match parse_source X (lit "<string>") text with Ret (ns, _) => ns | _ => [] end.
Definition ex_library_ast : list node := Eval vm_compute in match parse_source ex_library_X (lit "a.papyri") ex_library_text with Ret (ns, _) => ns | _ => [] end.
Definition ex_program_ast : list node := Eval vm_compute in ast_of ex_library_X ex_program.
Definition ex_remaining_ast : list node := Eval vm_compute in ast_of ex_library_X ex_remaining.
Definition ex_coalescing_ast : list node := Eval vm_compute in ast_of ex_library_X ex_coalescing.
Definition ex_implicit_ast : list node := Eval vm_compute in ast_of ex_library_X ex_implicit.
Definition ex_same_name_ast : list node := Eval vm_compute in ast_of ex_library_X ex_same_name.
Lemma ex_environment : Environment (Strict groups_in ex_table_y) ex_library_X.
Proof.
  split; [split|split].
  - intros re s gs [=].
  - intros ps S _. now apply groups_template.
  - reflexivity.
  - intros path text H. cbn [ex_library_X ex_files_X x_read ngetm] in H. destruct (str_eqb path (lit "a.papyri")) eqn:E; [|discriminate H]. injection H as <-.
    apply str_eqb_eq in E. subst path. apply (disciplined_of _ _ _ _ ex_library_ast []); vm_compute; reflexivity.
Qed.

Lemma std_program_y X : x_regex X std_regex <> None -> Disciplined X ex_table_y (lit "<stdlib>") std_papyri.
Proof. intro H. apply (disciplined_of X ex_table_y _ _ std_ast [] (std_source X H)). vm_compute. reflexivity. Qed.
(** What a run in a new context gives, by computation *)
Definition run_on (text : str) (r : res unit) : option (res (html * nmap value)) :=
  match r with Ok _ s => Some (compile ex_library_X 60 (lit "<string>") text s) | _ => None end.
Definition run (text : str) : option (res (html * nmap value)) := run_on text (context_new ex_library_X std_papyri 60 LWarning None).
Lemma run_in text s : context_new ex_library_X std_papyri 60 LWarning None = Ok tt s -> run text = Some (compile ex_library_X 60 (lit "<string>") text s).
Proof. intro H. unfold run. rewrite H. reflexivity. Qed.
Definition crash_of (r : option (res (html * nmap value))) : option fault := match r with Some (Crash c) => Some c | _ => None end.
Definition out_of (r : option (res (html * nmap value))) : option html := match r with Some (Ok (h, _) _) => Some h | _ => None end.
Lemma crash_of_some r c : crash_of (Some r) = Some c -> r = Crash c.
Proof. destruct r; cbn; intro H; try discriminate H. now injection H as ->. Qed.
Lemma out_of_some r h : out_of (Some r) = Some h -> exists ex s, r = Ok (h, ex) s.
Proof. destruct r as [[h' ex] s| | |]; cbn; intro H; try discriminate H. injection H as ->. eauto. Qed.
Lemma ex_context : exists s, context_new ex_library_X std_papyri 60 LWarning None = Ok tt s.
Proof. destruct (std_compiles ex_library_X 60 LWarning None) as (s & H & _); [discriminate|lia|]. eauto. Qed.
Lemma ex_session m s : Environment m ex_library_X -> Program m ex_library_X (lit "<stdlib>") std_papyri ->
  context_new ex_library_X std_papyri 60 LWarning None = Ok tt s -> Session m s.
Proof. intros E P H. eapply (ses_new m ex_library_X 60 LWarning None); auto. discriminate. Qed.
Definition ex_out : html := Eval vm_compute in match out_of (run ex_program) with Some h => h | None => HEmpty end.
Lemma run_program : out_of (run ex_program) = Some ex_out. Proof. vm_compute. reflexivity. Qed.
Lemma run_remaining : crash_of (run ex_remaining) = Some FIndent. Proof. vm_compute. reflexivity. Qed.
Lemma run_coalescing : crash_of (run ex_coalescing) = Some FConvert. Proof. vm_compute. reflexivity. Qed.
Lemma run_implicit : crash_of (run ex_implicit) = Some FConvert. Proof. vm_compute. reflexivity. Qed.
Lemma coalescing_crash : exists X fuel s root, context_new X std_papyri fuel LWarning None = Ok tt s /\ Session Lax s /\
  parse_source X (lit "<string>") ex_coalescing = Ret (root, []) /\ compile X fuel (lit "<string>") ex_coalescing s = Crash FConvert.
Proof.
  destruct ex_context as [s H]. exists ex_library_X, 60, s, ex_coalescing_ast. split; [exact H|]. split; [now apply ex_session|]. split; [vm_compute; reflexivity|].
  apply crash_of_some. rewrite <- (run_in _ _ H). exact run_coalescing.
Qed.
Lemma implicit_crash : exists X fuel s root, context_new X std_papyri fuel LWarning None = Ok tt s /\ Session Lax s /\
  parse_source X (lit "<string>") ex_implicit = Ret (root, []) /\ compile X fuel (lit "<string>") ex_implicit s = Crash FConvert.
Proof.
  destruct ex_context as [s H]. exists ex_library_X, 60, s, ex_implicit_ast. split; [exact H|]. split; [now apply ex_session|]. split; [vm_compute; reflexivity|].
  apply crash_of_some. rewrite <- (run_in _ _ H). exact run_implicit.
Qed.
Lemma same_name : exists X fuel, compile_str X fuel ex_same_name = Ret (M_Lib.Document (lit "<p>hello</p>")).
Proof. exists (ex_files_X []), 60. vm_compute. reflexivity. Qed.
Lemma not_disciplined X T path text ast es : parse_source X path text = Ret (ast, es) -> forallb (every_node (discipline T)) ast = false -> ~ Disciplined X T path text.
Proof. intros E H D. specialize (D _ _ E). congruence. Qed.
Lemma nonvacuous : Environment (Strict groups_in ex_table_y) ex_library_X /\
  (exists s, context_new ex_library_X std_papyri 60 LWarning None = Ok tt s /\ Session (Strict groups_in ex_table_y) s /\
    (exists h ex s', compile ex_library_X 60 (lit "<string>") ex_program s = Ok (h, ex) s' /\ h <> HEmpty) /\
    compile ex_library_X 60 (lit "<string>") ex_remaining s = Crash FIndent) /\
  Disciplined ex_library_X ex_table_y (lit "<string>") ex_program /\ Disciplined ex_library_X ex_table_y (lit "<string>") ex_remaining /\
  ~ Disciplined ex_library_X ex_table_y (lit "<string>") ex_coalescing /\ ~ Disciplined ex_library_X ex_table_y (lit "<string>") ex_implicit /\
  ~ Disciplined ex_library_X ex_table_y (lit "<string>") ex_same_name.
Proof.
  split; [exact ex_environment|]. split; [|split; [|split; [|split; [|split]]]].
  - destruct ex_context as [s H]. exists s. split; [exact H|]. split; [|split].
    + apply ex_session; [exact ex_environment| |exact H]. apply std_program_y. discriminate.
    + destruct (out_of_some _ _ (eq_trans (eq_sym (f_equal out_of (run_in _ _ H))) run_program)) as (ex & s' & E). exists ex_out, ex, s'. split; [exact E|discriminate].
    + apply crash_of_some. rewrite <- (run_in _ _ H). exact run_remaining.
  - apply (disciplined_of _ _ _ _ ex_program_ast []); vm_compute; reflexivity.
  - apply (disciplined_of _ _ _ _ ex_remaining_ast []); vm_compute; reflexivity.
  - apply (not_disciplined _ _ _ _ ex_coalescing_ast []); vm_compute; reflexivity.
  - apply (not_disciplined _ _ _ _ ex_implicit_ast []); vm_compute; reflexivity.
  - apply (not_disciplined _ _ _ _ ex_same_name_ast []); vm_compute; reflexivity.
Qed.
Lemma running_sound : Sound (Strict groups_in ex_table_y) ex_running /\ st_stack ex_running <> [] /\
  e_node (evals_n ex_library_X 9) (EName (NSimple (lit "x"))) TInt ex_running = Ok (VInt 5) ex_running.
Proof.
  split; [|split; [discriminate|vm_compute; reflexivity]].
  pose proof (sound_start (Strict groups_in ex_table_y) LWarning None) as S0.
  assert (S1 : Sound (Strict groups_in ex_table_y) (set_heap [native_frame; Frame (Some 0) [(lit "x", VInt 5)] []] (context_start LWarning None))).
  { apply (sound_heap _ (context_start LWarning None)); [exact S0|cbn; intros p [= <-]; lia|]. apply goodframe_new. split.
    - constructor; [intros []|constructor].
    - constructor; [|constructor]. intros w Hw. inversion Hw. exact I. }
  destruct S1 as [(W & R & St) F Ex M O]. constructor; auto. split; [exact W|]. split; [exact R|]. constructor; [cbn; lia|constructor].
Qed.
Definition normal_html : html :=
  HTag (lit "p") [] (HSeq [HTag (lit "b") [(lit "id", Some (lit "x"))] (HText (lit "ab c")); HText (lit "d")]).
Lemma run_normal : out_of (run (lit "<b id=`x`>a{b} c</b>d")) = Some normal_html. Proof. vm_compute. reflexivity. Qed.
Lemma normal_example : exists s ex s', context_new ex_library_X std_papyri 60 LWarning None = Ok tt s /\ Session Lax s /\
  compile ex_library_X 60 (lit "<string>") (lit "<b id=`x`>a{b} c</b>d") s = Ok (normal_html, ex) s'.
Proof.
  destruct ex_context as [s H]. exists s. destruct (out_of_some _ _ (eq_trans (eq_sym (f_equal out_of (run_in _ _ H))) run_normal)) as (ex & s' & E).
  exists ex, s'. split; [exact H|]. split; [now apply ex_session|exact E].
Qed.
