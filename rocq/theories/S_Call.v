(** Specification vocabulary for calls (C32-C34): what the arguments given in a call mean for the parameters of the called
    function, without reference to how they are bound. *)
From Verif Require Import Base M_Names M_Types M_Diag M_Ast M_Value M_State M_Binder S_Types.

(** ** Arguments *)

(** What a caller gives: positional arguments, named arguments and content, in the order in which they are given. *)
Inductive given := GPos (v : value) | GNamed (n : str) (v : value) | GContent (v : value).

Definition positionals (gs : list given) : list value := flat_map (fun g => match g with GPos v => [v] | _ => [] end) gs.
Definition nameds (gs : list given) : list (str * value) :=
  flat_map (fun g => match g with GNamed n v => [(n, v)] | _ => [] end) gs.
Definition contents (gs : list given) : list value := flat_map (fun g => match g with GContent v => [v] | _ => [] end) gs.

(** ** Parameters *)

Definition has_content (sig : fsig) : bool := negb (is_anonymous (p_name (s_content sig))).

(** All parameters of a function. *)
Definition params (sig : fsig) : list fparam :=
  s_positional sig ++ match s_spread sig with Some p => [p] | None => [] end
  ++ nvalues (s_named sig) ++ match s_spread_named sig with Some p => [p] | None => [] end
  ++ if has_content sig then [s_content sig] else [].

(** Parameters have distinct, proper names; a function that takes no content takes only the unit value as content. *)
Record WfSig (sig : fsig) : Prop := {
  ws_distinct : NoDup (List.map p_name (params sig));
  ws_keys : nkeys (s_named sig) = List.map p_name (nvalues (s_named sig));
  ws_proper : ~ In n_anonymous (List.map p_name (params sig));
  ws_no_content : has_content sig = false -> p_type (s_content sig) = TUnit
}.

(** ** The values of the parameters *)

(** A named argument that is not a named parameter of its own. *)
Definition is_extra (sig : fsig) (a : str * value) : bool := negb (nhas (s_named sig) (fst a)).

Section Values.
  Variable sig : fsig.
  Variable gs : list given.

  (** A parameter whose value was given. *)
  Inductive GivenTo : fparam -> value -> Prop :=
  | Given_positional i p a v : nth_error (s_positional sig) i = Some p -> nth_error (positionals gs) i = Some a ->
      coerce (p_type p) a = inl v -> GivenTo p v
  | Given_named p a v : In p (nvalues (s_named sig)) -> In (p_name p, a) (nameds gs) ->
      coerce (p_type p) a = inl v -> GivenTo p v
  | Given_content a v : has_content sig = true -> hd_error (contents gs) = Some a ->
      coerce (p_type (s_content sig)) a = inl v -> GivenTo (s_content sig) v.

  (** A spread parameter collects all further arguments, in order. *)
  Inductive Collects : fparam -> value -> Prop :=
  | Collects_positional p vs v : s_spread sig = Some p ->
      Forall2 (fun a w => coerce (component_type (p_type p)) a = inl w) (skipn (length (s_positional sig)) (positionals gs)) vs ->
      coerce (p_type p) (VList vs) = inl v -> Collects p v
  | Collects_named p vs v : s_spread_named sig = Some p ->
      Forall2 (fun a w => fst a = fst w /\ coerce (component_type (p_type p)) (snd a) = inl (snd w))
        (List.filter (is_extra sig) (nameds gs)) vs ->
      coerce (p_type p) (VDict vs) = inl v -> Collects p v.

  (** [implicit p v]: the implicit parameter [p] gets [v] from the scope of the call (C28). In a call from within the
      compiler no parameter does. *)
  Variable implicit : fparam -> value -> Prop.
  (** Whether this call fills in implicit parameters. *)
  Variable implicits : bool.

  (** A parameter whose value was not given. *)
  Inductive Omitted : fparam -> value -> Prop :=
  | Omitted_positional i p v : nth_error (s_positional sig) i = Some p -> length (positionals gs) <= i ->
      p_default p = Some v -> Omitted p v
  | Omitted_implicit p v : In p (nvalues (s_named sig)) -> ~ In (p_name p) (List.map fst (nameds gs)) ->
      implicits && p_implicit p = true -> implicit p v -> Omitted p v
  | Omitted_named p v : In p (nvalues (s_named sig)) -> ~ In (p_name p) (List.map fst (nameds gs)) ->
      implicits && p_implicit p = false -> p_default p = Some v -> Omitted p v.

  Definition ValueOf (p : fparam) (v : value) : Prop := GivenTo p v \/ Collects p v \/ Omitted p v.

  (** A call is acceptable: every argument has a place and every parameter has a value. *)
  Record Acceptable : Prop := {
    acc_count : s_spread sig = None -> length (positionals gs) <= length (s_positional sig);
    acc_once : NoDup (List.map fst (nameds gs));
    acc_known : s_spread_named sig = None -> forall n, In n (List.map fst (nameds gs)) -> In n (nkeys (s_named sig));
    acc_content : Forall (fun v => v = UNIT) (if has_content sig then List.tl (contents gs) else contents gs);
    acc_values : forall p, In p (params sig) -> exists v, ValueOf p v
  }.

  (** The variables of the function's body: exactly the parameters, each with its value. *)
  Definition Binds (m : nmap value) : Prop :=
    NoDup (nkeys m) /\ (forall n, In n (nkeys m) -> In n (List.map p_name (params sig))) /\
    (forall p, In p (params sig) -> exists v, ngetm m (p_name p) = Some v /\ ValueOf p v).

  (** What an error message about the arguments of a call says. *)
  Definition Complaint (e : papyri_error) : Prop :=
    match e with
    | TypeErr (TooManyPositionalArgs expected was) =>
      s_spread sig = None /\ expected = length (s_positional sig) /\ was = length (positionals gs) /\ expected < was
    | TypeErr (NotEnoughPositionalArgs expected was) =>
      was = length (positionals gs) /\
      expected = length (List.filter (fun p => match p_default p with None => true | _ => false end) (s_positional sig)) /\
      exists i p, nth_error (s_positional sig) i = Some p /\ was <= i /\ p_default p = None
    | TypeErr ContentAlreadyBound => has_content sig = true /\ exists v, In v (List.tl (contents gs)) /\ v <> UNIT
    | NameErr (NoSuchParameter n) =>
      In n (List.map fst (nameds gs)) /\ ~ In n (nkeys (s_named sig)) /\ s_spread_named sig = None
    | RuntimeErr (ParamMultipleValues n) =>
      exists a b l1 l2 l3, nameds gs = l1 ++ (n, a) :: l2 ++ (n, b) :: l3
    | RuntimeErr (ParamMissing n) =>
      exists p, In p (nvalues (s_named sig)) /\ p_name p = n /\ ~ In n (List.map fst (nameds gs)) /\
        implicits && p_implicit p = false /\ p_default p = None
    | RuntimeErr (ParamMissingImplicit n) | RuntimeErr (ParamExistsButNotImplicit n) =>
      exists p, In p (nvalues (s_named sig)) /\ p_name p = n /\ ~ In n (List.map fst (nameds gs)) /\
        implicits && p_implicit p = true /\ p_default p = None /\ forall v, ~ implicit p v
    | e => (* a value that does not have the type of its parameter *)
      (exists i p a, nth_error (s_positional sig) i = Some p /\ nth_error (positionals gs) i = Some a /\
         coerce (p_type p) a = inr e) \/
      (exists p a, s_spread sig = Some p /\ In a (skipn (length (s_positional sig)) (positionals gs)) /\
         coerce (component_type (p_type p)) a = inr e) \/
      (exists p vs, s_spread sig = Some p /\
         Forall2 (fun a w => coerce (component_type (p_type p)) a = inl w) (skipn (length (s_positional sig)) (positionals gs)) vs /\
         coerce (p_type p) (VList vs) = inr e) \/
      (exists p a, In p (nvalues (s_named sig)) /\ In (p_name p, a) (nameds gs) /\ coerce (p_type p) a = inr e) \/
      (exists p n a, s_spread_named sig = Some p /\ In (n, a) (nameds gs) /\ ~ In n (nkeys (s_named sig)) /\
         coerce (component_type (p_type p)) a = inr e) \/
      (exists p vs, s_spread_named sig = Some p /\
         Forall2 (fun a w => fst a = fst w /\ coerce (component_type (p_type p)) (snd a) = inl (snd w))
           (List.filter (is_extra sig) (nameds gs)) vs /\
         coerce (p_type p) (VDict vs) = inr e) \/
      (exists a, In a (if has_content sig then firstn 1 (contents gs) else contents gs) /\ coerce (p_type (s_content sig)) a = inr e)
    end.
End Values.

(** ** Making a call with given arguments *)

(** Bind the arguments in the order given, with the operations of signature.rs:231-285. *)
Definition give (sig : fsig) (g : given) (b : partials) : EM partials :=
  match g with
  | GPos v => add_positional_arg sig v b
  | GNamed n v => add_named_arg sig n v b
  | GContent v => add_content_arg sig v b
  end.
Fixpoint give_all (sig : fsig) (gs : list given) (b : partials) : EM partials :=
  match gs with
  | [] => ret b
  | g :: gs => let* b := give sig g b in give_all sig gs b
  end.
(** func.rs:87-97 for arguments that have been evaluated. *)
Definition call_with (f : func) (implicits : bool) (gs : list given) (content : value) : EM (nmap value) :=
  let sig := func_sig f in
  let* b := give_all sig gs (get_partials f) in
  let* b := if implicits then bind_implicit_args sig b else ret b in
  let* b := add_content_arg sig content b in
  build sig b.

(** The value an implicit parameter has in the scope of a call. *)
Definition from_scope (s : st) (p : fparam) (v : value) : Prop := get_implicit (p_name p) (p_default p) s = Ok v s.

(** A function that has been given [gs] beforehand (with [bind], bind.rs; possibly in several steps). *)
Definition HasBeenGiven (f : func) (gs : list given) : Prop :=
  forall s, give_all (func_sig f) gs partials_new s = Ok (get_partials f) s.

(** Defaults have the types of their parameters. *)
Definition DefaultsTyped (sig : fsig) : Prop :=
  forall p v, In p (params sig) -> p_default p = Some v -> HasType (p_type p) v.
Definition given_value (g : given) : value := match g with GPos v => v | GNamed _ v => v | GContent v => v end.

(** ** Evaluating the arguments of a call written in the source *)

(** [Evaluates eval args s gs s']: evaluating the arguments from left to right, starting in state [s], gives [gs] and state
    [s']; a spread argument gives all the elements of its list or all the entries of its dictionary. *)
Inductive Evaluates (eval : expr -> ty -> EM value) : list arg -> st -> list given -> st -> Prop :=
| Ev_none s : Evaluates eval [] s [] s
| Ev_positional e hint v s1 l s2 gs s3 : eval e hint s1 = Ok v s2 -> Evaluates eval l s2 gs s3 ->
    Evaluates eval (Arg n_anonymous NoSpread e :: l) s1 (GPos v :: gs) s3
| Ev_spread e vs s1 l s2 gs s3 : eval e (TList TAny) s1 = Ok (VList vs) s2 -> Evaluates eval l s2 gs s3 ->
    Evaluates eval (Arg n_anonymous PosSpread e :: l) s1 (List.map GPos vs ++ gs) s3
| Ev_named n e hint v s1 l s2 gs s3 : n <> n_anonymous -> eval e hint s1 = Ok v s2 -> Evaluates eval l s2 gs s3 ->
    Evaluates eval (Arg n NoSpread e :: l) s1 (GNamed n v :: gs) s3
| Ev_named_spread e vs s1 l s2 gs s3 : eval e (TDict TAny) s1 = Ok (VDict vs) s2 -> Evaluates eval l s2 gs s3 ->
    Evaluates eval (Arg n_anonymous NamedSpread e :: l) s1 (List.map (fun nv => GNamed (fst nv) (snd nv)) vs ++ gs) s3.

(** ** Partial application *)

(** One use of [function::bind]: positional arguments, named arguments, and content (the unit value if none is given). *)
Definition stage := (list value * nmap value * value)%type.
(** Bind arguments in several steps. *)
Fixpoint bind_stages (f : func) (stages : list stage) : EM func :=
  match stages with
  | [] => ret f
  | (pos, named, content) :: stages => let* f := bind_partial f pos named content in bind_stages f stages
  end.
Definition stage_contents (stages : list stage) : list value :=
  List.filter (fun v => negb (is_unit v)) (List.map snd stages).

(** ** Signatures in the source *)
Definition param_name (p : param) : str := let '(Param n _ _ _ _) := p in n.
(** What the parser makes of a signature in which no two parameters, and not the content parameter, have the same name. *)
Definition ProperSignature (s : signature) : Prop :=
  let '(Signature ps np sp nn sn hc) := s in
  NoDup (List.map param_name ps) /\ ~ In n_anonymous (List.map param_name ps) /\
  length ps = np + (if sp then 1 else 0) + nn + (if sn then 1 else 0) + (if hc then 1 else 0).
Definition signature_names (s : signature) : list str := let '(Signature ps _ _ _ _ _) := s in List.map param_name ps.

(** ** Function definitions *)
Section Declares.
  (** how expressions are evaluated where a type is expected *)
  Variable eval : expr -> ty -> EM value.
  (** The parameter a declaration stands for: its name and whether it is implicit; its type, which a question mark makes
      optional; and its default, which is the value of the default expression, evaluated where that type is expected. If
      there is no default expression, or evaluating it fails, the default is none if there is a question mark, and there is
      no default otherwise. *)
  Inductive Declares : param -> st -> fparam -> st -> Prop :=
  | De_default n (q : bool) i t e v s s' : eval e (if q then t_option t else t) s = Ok v s' ->
      Declares (Param n q i t (Some e)) s (FParam n i (if q then t_option t else t) (Some v)) s'
  | De_failed n (q : bool) i t e err s s' : eval e (if q then t_option t else t) s = Err err s' ->
      Declares (Param n q i t (Some e)) s (FParam n i (if q then t_option t else t) (if q then Some UNIT else None)) s'
  | De_no_default n (q : bool) i t s :
      Declares (Param n q i t None) s (FParam n i (if q then t_option t else t) (if q then Some UNIT else None)) s.
  Inductive DeclareAll : list param -> st -> list fparam -> st -> Prop :=
  | DA_nil s : DeclareAll [] s [] s
  | DA_cons p ps s q s1 qs s2 : Declares p s q s1 -> DeclareAll ps s1 qs s2 -> DeclareAll (p :: ps) s (q :: qs) s2.
End Declares.
Definition present {A} (o : option A) : bool := match o with Some _ => true | None => false end.
(** The signature of a definition: its parameters in order, positional ones first, then the spread one, the named ones, the
    named spread one and the content. *)
Definition SignatureOf (eval : expr -> ty -> EM value) (s : signature) (st1 : st) (sig : fsig) (st2 : st) : Prop :=
  let '(Signature ps np sp nn sn hc) := s in
  DeclareAll eval ps st1 (params sig) st2 /\ length (s_positional sig) = np /\ present (s_spread sig) = sp /\
  length (s_named sig) = nn /\ present (s_spread_named sig) = sn /\ has_content sig = hc.

(** As the parser makes them: an argument that is spread has no name. *)
Definition ProperArg (a : arg) : Prop := match a with Arg n NoSpread _ => True | Arg n _ _ => n = n_anonymous end.

(** What is given in one step: positional arguments, named arguments, and content unless it is none *)
Definition stage_given (st : stage) : list given :=
  let '(pos, named, content) := st in
  List.map GPos pos ++ List.map (fun nv => GNamed (fst nv) (snd nv)) named ++ (if is_unit content then [] else [GContent content]).
