(** Property theorems C29, C30 and C31 (pattern matching). *)
From Verif Require Import Base M_Names M_Html M_Path M_Types M_Diag M_Ast M_Value M_State M_Matcher M_Native M_Eval S_Scope S_Match
  P_State P_Scope P_Match P_Built P_MatchBound S_Example.

(** In the theorems, [groups_of captures] gives the groups of a regular expression without the whole match (which the regex
    library always includes: first hypothesis), and the expressions inside the patterns have the values given by [value_of]
    (second hypothesis); for literals and variables that is proved in [C29_plain]. *)

(** C29. The outcome of matching is the specified one: the value matches exactly if it does according to [Try], and the
    local variables afterwards are those given by [Try]. No other scope changes. *)
Theorem C29_outcome : forall eval captures value_of (allowed : expr -> Prop) outer,
  (forall re s, captures re s <> Some []) -> (forall e, allowed e -> Describes eval value_of outer e) ->
  forall p v s i f E, WfPattern (groups_of captures) allowed p -> InScope outer s i f E ->
  exists b s' f', bind_pattern eval captures p v s = Ok b s' /\ SameElsewhere s s' /\
    if b then exists E', Try (groups_of captures) value_of E p v (Some E') /\ InScope outer s' i f' E'
    else Try (groups_of captures) value_of E p v None /\
         exists E', InScope outer s' i f' E' /\ forall n, ~ PatVar p n -> E' n = E n.
Proof. exact match_outcome. Qed.
Print Assumptions C29_outcome.
(** ... and by [Try] a value matches in at most one way. *)
Theorem C29_deterministic : forall groups value_of E p v o o',
  Try groups value_of E p v o -> Try groups value_of E p v o' -> o = o'.
Proof. intros g f E p v o o' H H'. exact (try_fun g f E p v o H o' H'). Qed.
Print Assumptions C29_deterministic.

(** When a pattern matches, every variable of the pattern is bound in the current scope; whether or not it matches, every
    other name means the same as before, in every scope. *)
Theorem C29_variables : forall eval captures value_of (allowed : expr -> Prop) outer,
  (forall re s, captures re s <> Some []) -> (forall e, allowed e -> Describes eval value_of outer e) ->
  forall p v s i f E b s', WfPattern (groups_of captures) allowed p -> InScope outer s i f E ->
  bind_pattern eval captures p v s = Ok b s' ->
  (b = true -> forall n, PatVar p n -> exists w, BindsAt (st_heap s') i n w) /\
  (forall n j w, ~ PatVar p n -> j < length (st_heap s) -> (Means (st_heap s') j n w <-> Means (st_heap s) j n w)).
Proof. exact match_vars. Qed.
Print Assumptions C29_variables.

(** Whatever expressions there are inside the pattern, and whatever evaluating them does (calls, declarations, modules), when
    the pattern matches every variable of the pattern is bound in the current scope, and so are the names that were. *)
Theorem C29_bound : forall X fuel p v s i k s', WfPattern (groups_of (x_captures X)) (fun _ => True) p ->
  st_stack s = i :: k -> i < length (st_heap s) ->
  bind_pattern (e_node (evals_n X fuel)) (x_captures X) p v s = Ok true s' ->
  st_stack s' = i :: k /\
  forall n, PatVar p n \/ (exists w, BindsAt (st_heap s) i n w) -> exists w, BindsAt (st_heap s') i n w.
Proof. exact match_bound. Qed.
Print Assumptions C29_bound.

(** Literals and variables have the values described, by the evaluator. *)
Theorem C29_plain : forall X fuel outer e, Plain e ->
  Describes (e_node (evals_n X (S fuel))) (plain_value outer) outer e.
Proof. exact plain_describes. Qed.
Print Assumptions C29_plain.

(** Alternatives are well-formed when their list of names is the one computed by the parser. *)
Theorem C29_alternatives : forall groups allowed p q, WfPattern groups allowed p -> WfPattern groups allowed q ->
  WfPattern groups allowed (POr p q (get_name_ids q (get_name_ids p []))).
Proof. exact parsed_or_wf. Qed.
Print Assumptions C29_alternatives.

(** The pattern [[$a, *($r | _), =$x]] where x is 1: 1 in the example's scope, so the list [[5, 6, 7, 1]] matches *)
Definition ex_or : pattern := let p := PVarName (lit "r") in POr p PIgnore (get_name_ids PIgnore (get_name_ids p [])).
Definition ex_pattern : pattern := PSpreadList ([PVarName (lit "a")] ++ ex_or :: [PEquals (ex_var "x")]) (length [PVarName (lit "a")]).
Definition ex_outer : env := outside (st_heap ex_scoped) (Frame (Some 1) [(lit "x", VInt 1)] []).
Definition ex_env : env := ngetm [(lit "x", VInt 1)].
Example C29_nonvacuous :
  WfPattern (groups_of (x_captures ex_X)) Plain ex_pattern /\
  InScope ex_outer ex_scoped 2 (Frame (Some 1) [(lit "x", VInt 1)] []) ex_env /\
  (forall re s, x_captures ex_X re s <> Some []) /\
  (exists s', bind_pattern (e_node (evals_n ex_X 5)) (x_captures ex_X) ex_pattern
     (VList [VInt 5; VInt 6; VInt 7; VInt 1]) ex_scoped = Ok true s' /\
     frame_get (st_heap s') 2 (lit "r") false = Some (VList [VInt 6; VInt 7])) /\
  (exists s', bind_pattern (e_node (evals_n ex_X 5)) (x_captures ex_X) ex_pattern
     (VList [VInt 5; VInt 2]) ex_scoped = Ok false s').
Proof.
  split; [|split; [|split; [|split]]].
  - constructor; [|cbn; lia]. constructor; [constructor|]. constructor; [apply C29_alternatives; constructor|].
    constructor; [constructor; constructor|constructor].
  - constructor; try reflexivity.
    + repeat split.
      * intros [|[|[|i]]] f p H; cbn in H; [injection H as <-; cbn; discriminate|injection H as <-; cbn; intros [= <-]; lia|
          injection H as <-; cbn; intros [= <-]; lia|destruct i; discriminate].
      * cbn. lia.
      * repeat constructor.
    + repeat constructor. intros [].
  - discriminate.
  - eexists. split; vm_compute; reflexivity.
  - eexists. vm_compute. reflexivity.
Qed.

(** [=[$x] | $b]: an expression that is neither a literal nor a variable, in an alternative *)
Example C29_bound_nonvacuous :
  let p := POr (PEquals (EList [(ex_var "x", false)])) (PVarName (lit "b")) [lit "b"] in
  WfPattern (groups_of (x_captures ex_X)) (fun _ => True) p /\
  exists s', bind_pattern (e_node (evals_n ex_X 9)) (x_captures ex_X) p (VInt 5) ex_scoped = Ok true s' /\
    frame_get (st_heap s') 2 (lit "b") false = Some (VInt 5).
Proof.
  split; [|eexists; split; vm_compute; reflexivity].
  apply wf_or; [now apply wf_equals|apply wf_var|]. intro n. split; [intros [<- | []]; right; constructor|].
  intros [H|H]; inversion H. now left.
Qed.

(** C30. A list pattern with patterns [pre] before the spread pattern and [post] after it matches exactly the lists that
    split into a part as long as [pre], a middle, and a part as long as [post], matched (from left to right) by [pre], the
    spread pattern and [post]. *)
Theorem C30_spread : forall eval captures value_of (allowed : expr -> Prop) outer,
  (forall re s, captures re s <> Some []) -> (forall e, allowed e -> Describes eval value_of outer e) ->
  forall pre p post vs s i f E, WfPattern (groups_of captures) allowed (PSpreadList (pre ++ p :: post) (length pre)) ->
  InScope outer s i f E ->
  ((exists s', bind_pattern eval captures (PSpreadList (pre ++ p :: post) (length pre)) (VList vs) s = Ok true s') <->
   exists us mid ws E', vs = us ++ mid ++ ws /\ length us = length pre /\ length ws = length post /\
     TryAll (groups_of captures) value_of E (combine pre us ++ (p, VList mid) :: combine post ws) (Some E')).
Proof. exact spread_matches. Qed.
Print Assumptions C30_spread.
(** A variable in the spread is then bound to exactly the middle (unless a pattern after it has the same variable). *)
Theorem C30_middle : forall captures value_of (allowed : expr -> Prop) pre n post us mid ws E E',
  Forall (WfPattern (groups_of captures) allowed) post -> length us = length pre -> length ws = length post ->
  (forall q, In q post -> ~ PatVar q n) ->
  TryAll (groups_of captures) value_of E (combine pre us ++ (PVarName n, VList mid) :: combine post ws) (Some E') ->
  E' n = Some (VList mid).
Proof. exact spread_var. Qed.
Print Assumptions C30_middle.
(** A list too short for the patterns around the spread does not match, and nothing is bound. *)
Theorem C30_short : forall eval captures pre p post vs s, length vs < length pre + length post ->
  bind_pattern eval captures (PSpreadList (pre ++ p :: post) (length pre)) (VList vs) s = Ok false s.
Proof.
  intros eval captures pre p post vs s H. rewrite P_Pattern.bp_spread_list. rewrite app_length. cbn [length].
  replace (length vs + 1 <? length pre + S (length post)) with true by (symmetry; apply Nat.ltb_lt; lia). reflexivity.
Qed.
Print Assumptions C30_short.
(** see [C29_nonvacuous] *)
Example C30_nonvacuous : exists us mid ws E', [VInt 5; VInt 6; VInt 7; VInt 1] = us ++ mid ++ ws /\ length us = 1 /\ length ws = 1 /\
  TryAll (groups_of (x_captures ex_X)) (plain_value ex_outer) ex_env
    (combine [PVarName (lit "a")] us ++ (ex_or, VList mid) :: combine [PEquals (ex_var "x")] ws) (Some E').
Proof.
  destruct C29_nonvacuous as (H1 & H2 & H3 & (s' & H4 & _) & _).
  refine (proj1 (C30_spread (e_node (evals_n ex_X 5)) (x_captures ex_X) (plain_value ex_outer) Plain ex_outer H3 _ _ _ _ _ _ _ _ _ H1 H2) _).
  - apply C29_plain.
  - exists s'. exact H4.
Qed.

(** C31. A match evaluates exactly the handler of the first branch whose pattern matches, in a new scope inside the current
    one whose local variables are those of the match; if no pattern matches, [NoMatchingBranch] is reported and no handler
    is evaluated. *)
Theorem C31_first_branch : forall X fuel value_of (allowed : expr -> Prop) outer,
  let eval := e_node (evals_n X fuel) in
  let Try := Try (groups_of (x_captures X)) value_of in
  (forall re s, x_captures X re s <> Some []) -> (forall e, allowed e -> Describes eval value_of outer e) ->
  forall branches v t s i k, Forall (fun b => WfPattern (groups_of (x_captures X)) allowed (fst b)) branches ->
  Running s -> st_stack s = i :: k -> (forall n, frame_get (st_heap s) i n false = outer n) ->
  (exists before p handler after E s1 j f, branches = before ++ (p, handler) :: after /\
     Forall (fun b => Try no_vars (fst b) v None) before /\ Try no_vars p v (Some E) /\
     st_stack s1 = j :: st_stack s /\ InScope outer s1 j f E /\ fr_parent f = Some i /\
     (exists new, st_heap s1 = st_heap s ++ new) /\
     match_branches eval (x_captures X) branches v t s = restack (st_stack s) (eval handler t s1)) \/
  (Forall (fun b => Try no_vars (fst b) v None) branches /\ exists s1, SameScopes s s1 /\
     match_branches eval (x_captures X) branches v t s
     = Err AlreadyReported (set_sink (sink_add (RuntimeErr NoMatchingBranch) (st_sink s1)) s1)).
Proof.
  intros X fuel value_of allowed outer eval Try Hc He branches v t s i k HW HR Es Ho.
  apply (branches_spec eval (x_captures X) value_of allowed outer Hc He) with (i := i) (k := k); auto.
  intros e t' s0 s1 H. now destruct (frame_rule _ _ _ _ (built_node X fuel e t' true) _ _ H) as (A & _).
Qed.
Print Assumptions C31_first_branch.

(** [@match 5 { =4 -> 0, $y -> $y, _ -> 1 }] evaluates its second branch; [@match 5 { =4 -> 0 }] none *)
Example C31_nonvacuous :
  (exists s', match_branches (e_node (evals_n ex_X 9)) (x_captures ex_X)
    [(PEquals (EInt 4), EInt 0); (PVarName (lit "y"), ex_var "y"); (PIgnore, EInt 1)] (VInt 5) TAny ex_scoped = Ok (VInt 5) s') /\
  (exists s', match_branches (e_node (evals_n ex_X 9)) (x_captures ex_X)
    [(PEquals (EInt 4), EInt 0)] (VInt 5) TAny ex_scoped = Err AlreadyReported s' /\
    sk_v (st_sink s') = [RuntimeErr NoMatchingBranch]) /\
  Running ex_scoped /\ st_stack ex_scoped = [2] /\ Plain (EInt 4).
Proof.
  split; [eexists; vm_compute; reflexivity|]. split; [eexists; split; vm_compute; reflexivity|].
  split; [|split; [reflexivity|constructor]]. destruct C29_nonvacuous as (_ & H & _). apply H.
Qed.
