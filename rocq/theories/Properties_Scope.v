(** Property theorems C27, C28, C50 (scopes and effects of evaluation). *)
From Verif Require Import Base M_Names M_Html M_Path M_Types M_Diag M_Ast M_Value M_State M_Binder M_Native M_Eval S_Scope P_State P_Built
  P_Scope S_Example.

(** C27. A name means the value it has in the innermost enclosing scope that binds it; if none does it is an error. *)
Theorem C27_lookup : forall s i k n, Running s -> st_stack s = i :: k ->
  (forall v, get_var n s = Ok v s <-> Means (st_heap s) i n v) /\
  (get_var n s = Err (NameErr (NoSuchVariable n)) s <-> MeansNothing (st_heap s) i n) /\
  ((exists v, Means (st_heap s) i n v) \/ MeansNothing (st_heap s) i n).
Proof. exact get_var_spec. Qed.
Print Assumptions C27_lookup.

(** Declaring a name in a scope gives it that meaning there and in the scopes nested in it that do not redeclare it (up to
    it). It changes the meaning of no other name anywhere, and of no name in a scope not nested in it. *)
Theorem C27_declare : forall s i k n v imp, Running s -> st_stack s = i :: k ->
  exists s', set_var n v imp s = Ok tt s' /\
    Means (st_heap s') i n v /\
    (forall j m w, j < length (st_heap s) -> m <> n -> (Means (st_heap s) j m w <-> Means (st_heap s') j m w)) /\
    (forall j is w, Enclosing (st_heap s) j is -> ~ In i is -> (Means (st_heap s) j n w <-> Means (st_heap s') j n w)) /\
    (forall j inner outer, Enclosing (st_heap s) j (inner ++ i :: outer) ->
       (forall c w, In c inner -> ~ BindsAt (st_heap s) c n w) -> ~ In i inner -> Means (st_heap s') j n v).
Proof. exact set_var_spec. Qed.
Print Assumptions C27_declare.

(** Evaluating any expression, whether it succeeds or not, keeps the scopes well-formed and leaves the call stack as it
    was; it changes the meaning of a name at most in the current scope and scopes nested in it. *)
Theorem C27_evaluation : forall X fuel e t s s', Running s ->
  after (e_node (evals_n X fuel) e t s) = Some s' ->
  Running s' /\ st_stack s' = st_stack s /\
  forall j is n v, Enclosing (st_heap s) j is -> (forall c, hd_error (st_stack s) = Some c -> ~ In c is) ->
    (Means (st_heap s) j n v <-> Means (st_heap s') j n v).
Proof.
  intros X fuel e t s s' Hr H. destruct (node_running X fuel e t s s' H) as [H1 H2]. split; [auto|]. split; [apply H1|].
  intros j is n v Hj Hc. exact (same_elsewhere_means s s' j is n v H1 Hj Hc).
Qed.
Print Assumptions C27_evaluation.

(** Calling a function written in the language, evaluating a let, or compiling another source file changes no existing
    scope at all. *)
Theorem C27_local : forall X fuel s s',
  (exists f bs t src, IsClosure f /\ after (e_call (evals_n X fuel) f bs t src s) = Some s') \/
  (exists l t, after (e_node (evals_n X fuel) (ELetIn l) t s) = Some s') \/
  (exists path text, after (compile X fuel path text s) = Some s') ->
  Running s -> SameScopes s s' /\
  forall j n v, j < length (st_heap s) -> (Means (st_heap s) j n v <-> Means (st_heap s') j n v).
Proof.
  intros X fuel s s' H Hr.
  assert (HS : SameScopes s s').
  { destruct H as [(f & bs & t & src & Hf & H)|[(l & t & H)|(p & t & H)]].
    - eapply closure_call_same; eauto.
    - eapply let_same; eauto.
    - eapply import_same; eauto. }
  split; [exact HS|]. intros j n v Hj. apply same_scopes_means; auto. apply Hr.
Qed.
Print Assumptions C27_local.

(** Scoping is lexical, not dynamic: what a call of a function written in the language does depends in no way on who called
    it (the call stack), and what an expression does depends only on its own scope, not on the callers'. *)
Theorem C27_lexical : forall X fuel,
  (forall f bs t src s k, IsClosure f ->
     e_call (evals_n X fuel) f bs t src (set_stack k s) = restack k (e_call (evals_n X fuel) f bs t src s)) /\
  (forall e t s i k k', st_stack s = i :: k ->
     e_node (evals_n X fuel) e t (set_stack (i :: k') s) = restack (i :: k') (e_node (evals_n X fuel) e t s)).
Proof.
  intros X fuel. split.
  - intros. now apply closure_call_stack.
  - intros e t s i k k' E. exact (node_stack_tail X fuel e t s i k k' E).
Qed.
Print Assumptions C27_lexical.

Example C27_nonvacuous :
  Running ex_scoped /\ Means (st_heap ex_scoped) 2 (lit "x") (VInt 1) /\ Means (st_heap ex_scoped) 2 (lit "y") (VInt 2) /\
  MeansNothing (st_heap ex_scoped) 2 (lit "z") /\
  (exists s', set_var (lit "x") (VInt 7) false ex_scoped = Ok tt s' /\ Means (st_heap s') 2 (lit "x") (VInt 7) /\
     Means (st_heap s') 1 (lit "x") (VInt 5)) /\
  (exists s', e_node (evals_n ex_X 9) (ex_let "x" (EInt 3) (ex_var "x")) TAny ex_scoped = Ok (VInt 3) s' /\
     SameScopes ex_scoped s').
Proof.
  assert (Hr : Running ex_scoped).
  { split; [|split; [cbn; lia|repeat constructor]].
    intros i f p Hi Hp. destruct i as [|[|[|i]]]; cbn in Hi; [| | |destruct i; discriminate]; injection Hi as <-; cbn in Hp; try discriminate; injection Hp as <-; lia. }
  destruct (get_var_spec ex_scoped 2 [] (lit "x") Hr eq_refl) as (Hx & _).
  destruct (get_var_spec ex_scoped 2 [] (lit "y") Hr eq_refl) as (Hy & _).
  destruct (get_var_spec ex_scoped 2 [] (lit "z") Hr eq_refl) as (_ & Hz & _).
  split; [exact Hr|]. split; [apply Hx; vm_compute; reflexivity|]. split; [apply Hy; vm_compute; reflexivity|].
  split; [apply Hz; vm_compute; reflexivity|]. split.
  - destruct (set_var_spec ex_scoped 2 [] (lit "x") (VInt 7) false Hr eq_refl) as (s' & E & H1 & _ & H3 & _).
    exists s'. split; [exact E|]. split; [exact H1|].
    apply (H3 1 [1; 0] (VInt 5)).
    + eapply enc_in; [reflexivity|reflexivity|]. eapply enc_top; reflexivity.
    + cbn. intros [H|[H|[]]]; lia.
    + exists [1; 0]. split; [eapply enc_in; [reflexivity|reflexivity|]; eapply enc_top; reflexivity|].
      exists [], 1, [0]. split; [reflexivity|]. split; [|intros ? []].
      exists (Frame (Some 0) [(lit "x", VInt 5); (lit "y", VInt 2)] [lit "y"]). split; reflexivity.
  - destruct (e_node (evals_n ex_X 9) (ex_let "x" (EInt 3) (ex_var "x")) TAny ex_scoped) as [a s'|e s'| |] eqn:E;
      [|exfalso; vm_compute in E; discriminate..].
    exists s'. split; [vm_compute in E; injection E as <- _; reflexivity|].
    eapply let_same with (fuel := 9). unfold ex_let in E. rewrite E. reflexivity.
Qed.

(** C28. An implicit argument is the value of the nearest enclosing binding of the name that was declared implicit; the
    default is used only if there is none; if there is neither, it is an error, which tells whether the name is bound. *)
Theorem C28_lookup : forall s i k n d, Running s -> st_stack s = i :: k ->
  (forall v, MeansImplicitly (st_heap s) i n v -> get_implicit n d s = Ok v s) /\
  (MeansNothingImplicitly (st_heap s) i n ->
     (forall v, d = Some v -> get_implicit n d s = Ok v s) /\
     (forall v, d = None -> Means (st_heap s) i n v -> get_implicit n d s = Err (RuntimeErr (ParamExistsButNotImplicit n)) s) /\
     (d = None -> MeansNothing (st_heap s) i n -> get_implicit n d s = Err (RuntimeErr (ParamMissingImplicit n)) s)) /\
  ((exists v, MeansImplicitly (st_heap s) i n v) \/ MeansNothingImplicitly (st_heap s) i n).
Proof. exact get_implicit_spec. Qed.
Print Assumptions C28_lookup.

(** Declaring a name: the binding is implicit exactly if the name is declared implicit or already was in that very scope
    (a second declaration of a name in the same scope, which is warned about, cannot make it explicit). No other implicit
    binding changes. *)
Theorem C28_declare : forall s i k n v imp, Running s -> st_stack s = i :: k ->
  exists s', set_var n v imp s = Ok tt s' /\
    (forall j m w, j <> i \/ m <> n -> (BindsImplicitlyAt (st_heap s') j m w <-> BindsImplicitlyAt (st_heap s) j m w)) /\
    (forall w, BindsImplicitlyAt (st_heap s') i n w <->
       w = v /\ (imp = true \/ exists f, nth_error (st_heap s) i = Some f /\ In n (fr_implicit f))).
Proof. exact declare_implicit. Qed.
Print Assumptions C28_declare.

(** Filling in the implicit arguments of a call: every implicit parameter that was not given gets that value, and nothing
    else changes; an error is reported exactly for an implicit parameter that has neither an implicit binding nor a default. *)
Theorem C28_arguments : forall s i k sig b, Running s -> st_stack s = i :: k ->
  NoDup (List.map p_name (nvalues (s_named sig))) ->
  (forall b' s', bind_implicit_args sig b s = Ok b' s' ->
     s' = s /\ pp_set_map (pp_map b) b' = b /\
     (forall n, (forall p, In p (nvalues (s_named sig)) -> p_implicit p = true -> p_name p <> n) ->
        ngetm (pp_map b') n = ngetm (pp_map b) n) /\
     (forall n v, ngetm (pp_map b) n = Some v -> ngetm (pp_map b') n = Some v) /\
     (forall p, In p (nvalues (s_named sig)) -> p_implicit p = true -> ngetm (pp_map b) (p_name p) = None ->
       exists v, ngetm (pp_map b') (p_name p) = Some v /\
         (MeansImplicitly (st_heap s) i (p_name p) v \/
          MeansNothingImplicitly (st_heap s) i (p_name p) /\ p_default p = Some v))) /\
  (forall e s', bind_implicit_args sig b s = Err e s' ->
     s' = s /\ exists p, In p (nvalues (s_named sig)) /\ p_implicit p = true /\ ngetm (pp_map b) (p_name p) = None /\
       p_default p = None /\ MeansNothingImplicitly (st_heap s) i (p_name p) /\
       (e = RuntimeErr (ParamExistsButNotImplicit (p_name p)) \/ e = RuntimeErr (ParamMissingImplicit (p_name p)))) /\
  after (bind_implicit_args sig b s) = Some s.
Proof.
  intros s i k sig b Hr E Hn. pose proof (bind_implicits_spec s i k Hr E (nvalues (s_named sig)) b) as H.
  unfold bind_implicit_args in *. destruct (bind_implicits _ _ _) as [b1 s1|e1 s1| |]; try contradiction.
  - destruct H as (-> & H2 & H3 & H4 & H5). split; [|split; [discriminate|reflexivity]].
    intros b' s' [= <- <-]. repeat split; auto.
  - destruct H as (-> & H2). split; [discriminate|]. split; [|reflexivity]. intros e s' [= <- <-]. auto.
Qed.
Print Assumptions C28_arguments.

Example C28_nonvacuous :
  let p n d := FParam (lit n) true TAny d in
  let sig := FSig [] None [(lit "y", p "y"%string None); (lit "x", p "x"%string (Some (VInt 9)))] None no_content in
  bind_implicit_args sig partials_new ex_scoped = Ok (pp_set_map [(lit "y", VInt 2); (lit "x", VInt 9)] partials_new) ex_scoped /\
  bind_implicit_args (FSig [] None [(lit "x", p "x"%string None)] None no_content) partials_new ex_scoped
    = Err (RuntimeErr (ParamExistsButNotImplicit (lit "x"))) ex_scoped.
Proof. split; vm_compute; reflexivity. Qed.

(** C50. Failing is never silent: if evaluating an expression, calling a function or loading a module fails, then either the
    error is returned, to be reported by the caller, or an error has been recorded already; no recorded error is ever
    forgotten. *)
Theorem C50_errors_recorded : forall X fuel s,
  let Recorded (A : Type) (m : EM A) :=
    (forall s', after (m s) = Some s' -> (sk_errors (st_sink s) <= sk_errors (st_sink s'))%N) /\
    (forall e s', m s = Err e s' -> severity_of e = SError \/ e = AlreadyReported /\ HasError s') in
  (forall e t, Recorded value (e_node (evals_n X fuel) e t)) /\
  (forall f bs t src, Recorded value (e_call (evals_n X fuel) f bs t src)) /\
  (forall path, Recorded (html * nmap value)%type (load_cached X (evals_n X fuel) path)) /\
  (forall path text, Recorded (html * nmap value)%type (compile X fuel path text)).
Proof.
  intros X fuel s. repeat split; intros.
  - eapply built_errors; [apply (built_node X fuel e t true)|eassumption].
  - eapply built_errors; [apply (built_node X fuel e t true)|eassumption].
  - eapply built_errors; [apply (built_call X fuel f bs t src true)|eassumption].
  - eapply built_errors; [apply (built_call X fuel f bs t src true)|eassumption].
  - eapply built_errors; [apply (built_load X fuel path true)|eassumption].
  - eapply built_errors; [apply (built_load X fuel path true)|eassumption].
  - eapply built_errors; [apply (built_compile X fuel path text true)|eassumption].
  - eapply built_errors; [apply (built_compile X fuel path text true)|eassumption].
Qed.
Print Assumptions C50_errors_recorded.

Example C50_nonvacuous : exists s',
  e_node (evals_n ex_X 9) (ex_var "nope") TAny ex_scoped = Err AlreadyReported s' /\ HasError s'.
Proof. eexists. split; [vm_compute; reflexivity|]. vm_compute. reflexivity. Qed.
