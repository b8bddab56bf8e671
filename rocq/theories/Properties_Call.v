(** Property theorems C32, C33, C34 (calls and partial application). *)
From Verif Require Import Base M_Names M_Types M_Diag M_Ast M_Value M_State M_Binder M_Native M_Eval S_Types S_Scope S_Call P_Call S_Example.

(** C32. When a call is accepted, the variables of the function's body are exactly its parameters, each bound once, to the
    value the call gives it: the argument given for it (converted to its type), the collected arguments for a spread
    parameter, what the scope of the call provides for an implicit parameter, or the default. [f] may have been given
    arguments [gs0] beforehand. *)
Theorem C32_binds : forall f implicits gs0 gs c s m s', WfSig (func_sig f) -> HasBeenGiven f gs0 -> st_stack s <> [] ->
  call_with f implicits gs c s = Ok m s' ->
  s' = s /\ Binds (func_sig f) (gs0 ++ gs ++ [GContent c]) (from_scope s) implicits m.
Proof.
  intros f i gs0 gs c s m s' W H Hs E. pose proof (call_spec f i gs0 gs c s W H (fun _ => Hs)) as P. cbn zeta in P. rewrite E in P. tauto.
Qed.
Print Assumptions C32_binds.

(** That value is determined by the arguments. *)
Theorem C32_unique : forall sig gs s implicits p v w, WfSig sig -> NoDup (List.map fst (nameds gs)) -> In p (params sig) ->
  ValueOf sig gs (from_scope s) implicits p v -> ValueOf sig gs (from_scope s) implicits p w -> v = w.
Proof. intros sig gs s i p v w W D. exact (value_unique sig W gs (from_scope s) i p v w D (from_scope_fun s)). Qed.
Print Assumptions C32_unique.

(** The value of a parameter has the parameter's type, unless it is an implicit parameter that was not given. *)
Theorem C32_typed_partial : forall f implicits gs0 gs c s m s', WfSig (func_sig f) -> DefaultsTyped (func_sig f) ->
  HasBeenGiven f gs0 -> st_stack s <> [] -> Forall WfValue (List.map given_value (gs0 ++ gs ++ [GContent c])) ->
  call_with f implicits gs c s = Ok m s' ->
  forall p, In p (params (func_sig f)) ->
  ~ (In p (nvalues (s_named (func_sig f))) /\ p_implicit p = true /\ ~ In (p_name p) (List.map fst (nameds (gs0 ++ gs)))) ->
  exists v, ngetm m (p_name p) = Some v /\ HasType (p_type p) v.
Proof.
  intros f i gs0 gs c s m s' W Dt H Hs Wv E p Hp Hi. pose proof (call_spec f i gs0 gs c s W H (fun _ => Hs)) as P. cbn zeta in P. rewrite E in P.
  destruct P as (_ & (_ & _ & V) & A). destruct (V p Hp) as (v & Hv & Hval). exists v. split; [exact Hv|].
  destruct (value_typed _ _ _ _ _ _ W Dt Wv (acc_once _ _ _ _ A) Hp Hval) as [T|(T1 & T2 & T3 & _)]; [exact T|]. exfalso. apply Hi.
  rewrite !nameds_app, app_nil_r in T2. rewrite nameds_app. apply andb_prop in T3. tauto.
Qed.
Print Assumptions C32_typed_partial.

(** An implicit parameter gets the value of the implicit variable as it is, whatever its type. *)
Definition strict_implicit : fsig := FSig [] None [(lit "y", FParam (lit "y") true TStr None)] None no_content.
Theorem C32_typed_refuted : exists f s m v, WfSig (func_sig f) /\ DefaultsTyped (func_sig f) /\ HasBeenGiven f [] /\ Running s /\
  call_with f true [] UNIT s = Ok m s /\ ngetm m (lit "y") = Some v /\
  exists p, In p (params (func_sig f)) /\ p_name p = lit "y" /\ ~ HasType (p_type p) v.
Proof.
  exists (FClosure (lit "f") 0 strict_implicit (EGroup [])), ex_scoped, [(lit "y", VInt 2)], (VInt 2).
  split; [constructor|].
  - repeat constructor. intros [].
  - reflexivity.
  - cbn. intros [H|[]]. discriminate.
  - reflexivity.
  - split; [intros p v [<-|[]]; discriminate|]. split; [intro; reflexivity|]. split; [|].
    { split; [|split; [cbn; lia|repeat constructor]].
      intros i f p Hi Hp. destruct i as [|[|[|i]]]; cbn in Hi; [| | |destruct i; discriminate]; injection Hi as <-; cbn in Hp; try discriminate; injection Hp as <-; lia. }
    split; [vm_compute; reflexivity|]. split; [reflexivity|]. exists (FParam (lit "y") true TStr None). split; [now left|]. split; [reflexivity|].
    intro H. inversion H.
Qed.
Print Assumptions C32_typed_refuted.

(** Calls written in the source: the arguments are evaluated from left to right, then the implicit parameters are looked
    up, then the content is evaluated, and the result is as above. *)
Theorem C32_source_call : forall eval f gs0 args content s m s', WfSig (func_sig f) -> HasBeenGiven f gs0 ->
  Forall ProperArg args -> bind_call eval f args content s = Ok m s' ->
  exists gs s1 hint c, Evaluates eval args s gs s1 /\ eval content hint s1 = Ok c s' /\
    (st_stack s1 <> [] -> Binds (func_sig f) (gs0 ++ gs ++ [GContent c]) (from_scope s1) true m).
Proof. exact bind_call_spec. Qed.
Print Assumptions C32_source_call.

(** Calls made by the compiler itself: callbacks of native functions, which get the content and no implicit parameters
    ([implicits] is false), and code fences, which get the content and the implicit parameters in scope. *)
Theorem C32_internal_call : forall f implicits gs0 c s m s', WfSig (func_sig f) -> HasBeenGiven f gs0 -> st_stack s <> [] ->
  bind_synthetic_call f implicits c s = Ok m s' ->
  s' = s /\ Binds (func_sig f) (gs0 ++ [GContent c]) (from_scope s) implicits m.
Proof. intros f i gs0 c s m s' W H Hs E. exact (C32_binds f i gs0 [] c s m s' W H Hs E). Qed.
Print Assumptions C32_internal_call.
Theorem C33_internal_call : forall f implicits gs0 c s, WfSig (func_sig f) -> HasBeenGiven f gs0 -> st_stack s <> [] ->
  (exists m, bind_synthetic_call f implicits c s = Ok m s) <-> Acceptable (func_sig f) (gs0 ++ [GContent c]) (from_scope s) implicits.
Proof. intros f i gs0 c s W H Hs. exact (call_exact f i gs0 [] c s W H (fun _ => Hs)). Qed.
Print Assumptions C33_internal_call.

(** The hypotheses hold of the functions there are: native functions, and functions defined in the source whose parameters
    (with the content parameter) have distinct names. *)
Theorem C32_native_functions : forall f, WfSig (native_sig f) /\ DefaultsTyped (native_sig f).
Proof. exact native_wf. Qed.
Print Assumptions C32_native_functions.
Theorem C32_defined_functions : forall eval sg s sig s', ProperSignature sg -> compile_func_signature eval sg s = Ok sig s' ->
  WfSig sig /\ List.map p_name (params sig) = signature_names sg /\ SignatureOf eval sg s sig s'.
Proof. exact signature_wf. Qed.
Print Assumptions C32_defined_functions.

(** C33. A call is accepted exactly when every argument has a place and every parameter has a value. *)
Theorem C33_accepted : forall f implicits gs0 gs c s, WfSig (func_sig f) -> HasBeenGiven f gs0 -> st_stack s <> [] ->
  (exists m, call_with f implicits gs c s = Ok m s) <-> Acceptable (func_sig f) (gs0 ++ gs ++ [GContent c]) (from_scope s) implicits.
Proof. intros f i gs0 gs c s W H Hs. exact (call_exact f i gs0 gs c s W H (fun _ => Hs)). Qed.
Print Assumptions C33_accepted.
(** Otherwise it is an error, which says what is wrong with the call; the compiler never crashes. *)
Theorem C33_rejected : forall f implicits gs0 gs c s, WfSig (func_sig f) -> HasBeenGiven f gs0 -> st_stack s <> [] ->
  ~ Acceptable (func_sig f) (gs0 ++ gs ++ [GContent c]) (from_scope s) implicits ->
  exists e, call_with f implicits gs c s = Err e s /\ Complaint (func_sig f) (gs0 ++ gs ++ [GContent c]) (from_scope s) implicits e.
Proof.
  intros f i gs0 gs c s W H Hs N. pose proof (call_spec f i gs0 gs c s W H (fun _ => Hs)) as P. cbn zeta in P.
  destruct (call_with f i gs c s) as [m s'|e s'| |]; [tauto| |destruct P|destruct P]. destruct P as [-> C]. eauto.
Qed.
Print Assumptions C33_rejected.
(** What the error says is never true of a call that is acceptable. *)
Theorem C33_complaint_true : forall sig gs scope implicits e, WfSig sig ->
  Complaint sig gs scope implicits e -> ~ Acceptable sig gs scope implicits.
Proof. intros sig gs scope i e W. exact (complaint_unacceptable sig W gs scope i e). Qed.
Print Assumptions C33_complaint_true.

(** C34. Binding arguments in any number of steps and then calling the function is the same as calling it with all of the
    arguments: both fail, or both bind every variable to the same value. Named and positional arguments may be mixed in any
    way in the direct call, as long as each kind is in the same order; content is given once, in a step or in the call. *)
Theorem C34_stages : forall f implicits gs0 stages gs c direct d s,
  WfSig (func_sig f) -> HasBeenGiven f gs0 -> st_stack s <> [] ->
  contents gs = [] -> contents direct = [] ->
  positionals direct = flat_map (fun st => fst (fst st)) stages ++ positionals gs ->
  nameds direct = flat_map (fun st => snd (fst st)) stages ++ nameds gs ->
  (stage_contents stages = [] /\ d = c \/ stage_contents stages = [d] /\ c = UNIT) ->
  match (let* f' := bind_stages f stages in call_with f' implicits gs c) s, call_with f implicits direct d s with
  | Ok m s1, Ok m' s2 => s1 = s /\ s2 = s /\ forall n, ngetm m n = ngetm m' n
  | Err _ s1, Err _ s2 => s1 = s /\ s2 = s
  | _, _ => False
  end.
Proof. intros f i gs0 stages gs c direct d s W H Hs. exact (partial_application f i gs0 stages gs c direct d s W H (fun _ => Hs)). Qed.
Print Assumptions C34_stages.

(** Functions that come from binding: [function::bind], and methods, whose subject is bound as content or as the first
    argument. *)
Theorem C34_bind : forall f gs0 pos named c s f' s', WfSig (func_sig f) -> HasBeenGiven f gs0 -> bind_partial f pos named c s = Ok f' s' ->
  func_sig f' = func_sig f /\ HasBeenGiven f' (gs0 ++ stage_given (pos, named, c)).
Proof.
  intros f gs0 pos named c s f' s' W H E. rewrite bind_partial_eq in E. pose proof (bind_spec f gs0 (stage_given (pos, named, c)) s W H) as P.
  rewrite E in P. tauto.
Qed.
Print Assumptions C34_bind.
Theorem C34_methods : forall subject name s f s', evaluate_native_attr subject name s = Ok f s' ->
  exists n, func_sig f = native_sig n /\ (HasBeenGiven f [GContent subject] \/ HasBeenGiven f [GPos subject]).
Proof. exact methods_given. Qed.
Print Assumptions C34_methods.

(** A function [f(_a: int, _b: str = "d", *_rest: int list, k: bool, **_kw: int dict) _body: html]. *)
Definition ex_sig : fsig :=
  FSig [FParam (lit "a") false TInt None; FParam (lit "b") false TStr (Some (VStr (lit "d")))]
       (Some (FParam (lit "rest") false (TList TInt) None))
       [(lit "k", FParam (lit "k") false TBool None); (lit "y", FParam (lit "y") true TInt None)]
       (Some (FParam (lit "kw") false (TDict TInt) None))
       (FParam (lit "body") false THtml None).
Definition ex_func : func := FClosure (lit "f") 0 ex_sig (EGroup []).
Example C32_nonvacuous : WfSig ex_sig /\ DefaultsTyped ex_sig /\ HasBeenGiven ex_func [] /\ st_stack ex_scoped <> [] /\
  call_with ex_func true [GPos (VInt 1); GNamed (lit "z") (VInt 5); GPos (VInt 2); GNamed (lit "k") (VBool true); GPos (VInt 3)]
    (VStr (lit "hi")) ex_scoped =
  Ok [(lit "a", VInt 1); (lit "b", VStr (lit "2")); (lit "k", VBool true); (lit "y", VInt 2); (lit "body", VStr (lit "hi"));
      (lit "rest", VList [VInt 3]); (lit "kw", VDict [(lit "z", VInt 5)])] ex_scoped.
Proof.
  split; [constructor|].
  - apply nodupb_spec. reflexivity.
  - reflexivity.
  - cbn. intuition discriminate.
  - discriminate.
  - split; [|split; [intro; reflexivity|split; [discriminate|vm_compute; reflexivity]]].
    intros p v H. cbn in H. repeat (destruct H as [<-|H]; [cbn; try discriminate; injection 1 as <-; apply HT_str|]). destruct H.
Qed.
Example C33_nonvacuous :
  let call gs c := call_with (FClosure (lit "g") 0 (FSig [FParam (lit "a") false TInt None] None
    [(lit "k", FParam (lit "k") false TBool None)] None no_content) (EGroup [])) true gs c ex_scoped in
  call [GPos (VInt 1); GPos (VInt 2); GNamed (lit "k") (VBool true)] UNIT = Err (TypeErr (TooManyPositionalArgs 1 2)) ex_scoped /\
  call [GNamed (lit "k") (VBool true)] UNIT = Err (TypeErr (NotEnoughPositionalArgs 1 0)) ex_scoped /\
  call [GPos (VInt 1)] UNIT = Err (RuntimeErr (ParamMissing (lit "k"))) ex_scoped /\
  call [GPos (VInt 1); GNamed (lit "j") (VInt 1)] UNIT = Err (NameErr (NoSuchParameter (lit "j"))) ex_scoped /\
  call [GNamed (lit "k") (VBool true); GNamed (lit "k") (VBool true)] UNIT = Err (RuntimeErr (ParamMultipleValues (lit "k"))) ex_scoped /\
  call [GPos (VStr []); GNamed (lit "k") (VBool true)] UNIT = Err (TypeErr (ExpectedWas TInt TStr)) ex_scoped /\
  call [GPos (VInt 1); GNamed (lit "k") (VBool true)] UNIT = Ok [(lit "a", VInt 1); (lit "k", VBool true)] ex_scoped.
Proof. repeat split; vm_compute; reflexivity. Qed.
Example C34_nonvacuous :
  let stages := [([VInt 1], [(lit "z", VInt 5)], UNIT); ([VInt 2; VInt 3], [(lit "k", VBool true)], VStr (lit "hi"))] in
  (exists m, (let* f' := bind_stages ex_func stages in call_with f' true [GPos (VInt 4)] UNIT) ex_scoped = Ok m ex_scoped /\
     ngetm m (lit "rest") = Some (VList [VInt 3; VInt 4]) /\ ngetm m (lit "body") = Some (VStr (lit "hi"))) /\
  (exists m, call_with ex_func true [GPos (VInt 1); GPos (VInt 2); GPos (VInt 3); GPos (VInt 4); GNamed (lit "z") (VInt 5); GNamed (lit "k") (VBool true)]
     (VStr (lit "hi")) ex_scoped = Ok m ex_scoped /\ ngetm m (lit "rest") = Some (VList [VInt 3; VInt 4])) /\
  stage_contents stages = [VStr (lit "hi")].
Proof.
  cbn zeta. split; [|split; [|reflexivity]].
  - eexists. split; [vm_compute; reflexivity|]. split; vm_compute; reflexivity.
  - eexists. split; [vm_compute; reflexivity|]. vm_compute; reflexivity.
Qed.
