(** What it means to match a value against a pattern. *)
From Verif Require Import Base M_Names M_Html M_Types M_Token M_Diag M_Ast M_Value M_State S_Scope.

(** The variables of a pattern *)
Inductive PatVar : pattern -> str -> Prop :=
| pv_var n : PatVar (PVarName n) n
| pv_typeof n : PatVar (PTypeOf n) n
| pv_and_l p q n : PatVar p n -> PatVar (PAnd p q) n
| pv_and_r p q n : PatVar q n -> PatVar (PAnd p q) n
| pv_or_l p q ns n : PatVar p n -> PatVar (POr p q ns) n
| pv_or_r p q ns n : PatVar q n -> PatVar (POr p q ns) n
| pv_regex re ns n : In n ns -> PatVar (PRegex re ns) n
| pv_list ps p n : In p ps -> PatVar p n -> PatVar (PExactList ps) n
| pv_spread ps i p n : In p ps -> PatVar p n -> PatVar (PSpreadList ps i) n
| pv_html ps p n : In p ps -> PatVar p n -> PatVar (PExactHtml ps) n
| pv_spread_html ps i p n : In p ps -> PatVar p n -> PatVar (PSpreadHtml ps i) n
| pv_dict attrs r k p n : In (k, p) attrs -> PatVar p n -> PatVar (PDict attrs r) n
| pv_rest attrs p n : PatVar p n -> PatVar (PDict attrs (Some p)) n
| pv_tag_name a b c n : PatVar a n -> PatVar (PTag a b c) n
| pv_tag_attrs a b c n : PatVar b n -> PatVar (PTag a b c) n
| pv_tag_content a b c n : PatVar c n -> PatVar (PTag a b c) n.

(** The local variables of a scope *)
Definition env := str -> option value.
Definition bound_to (E : env) (n : str) (v : value) : env := fun m => if str_eqb m n then Some v else E m.
Definition forget (ns : list str) (E : env) : env := fun m => if mem m ns then None else E m.
(** Variables of the other alternative are given the unit value. *)
Definition fill (ns : list str) (E : env) : env :=
  fun m => match E m with None => if mem m ns then Some UNIT else None | x => x end.

Section Match.
  (** The groups of the first match of a regular expression, without the whole match *)
  Variable groups : str -> str -> option (list (option str)).
  (** The value of an expression in a pattern, if it has one, where the local variables are the given ones *)
  Variable value_of : env -> expr -> option value.
  (** The expressions allowed in patterns *)
  Variable allowed : expr -> Prop.

  (** A well-formed pattern, as made by the parser: each alternative lists the variables of both sides, spread patterns have
      a spread, and regular expressions have as many groups as names. *)
  Inductive WfPattern : pattern -> Prop :=
  | wf_ignore : WfPattern PIgnore
  | wf_none : WfPattern PLiteralNone
  | wf_name n : WfPattern (PLiteralName n)
  | wf_var n : WfPattern (PVarName n)
  | wf_equals e : allowed e -> WfPattern (PEquals e)
  | wf_and p q : WfPattern p -> WfPattern q -> WfPattern (PAnd p q)
  | wf_or p q ns : WfPattern p -> WfPattern q -> (forall n, In n ns <-> PatVar p n \/ PatVar q n) -> WfPattern (POr p q ns)
  | wf_regex re ns : (forall s gs, groups re s = Some gs -> length gs = length ns) -> WfPattern (PRegex re ns)
  | wf_typed t : WfPattern (PTyped t)
  | wf_typeof n : WfPattern (PTypeOf n)
  | wf_list ps : Forall WfPattern ps -> WfPattern (PExactList ps)
  | wf_spread ps i : Forall WfPattern ps -> i < length ps -> WfPattern (PSpreadList ps i)
  | wf_dict attrs r : Forall (fun kp => WfPattern (snd kp)) attrs -> (forall p, r = Some p -> WfPattern p) -> WfPattern (PDict attrs r)
  | wf_tag a b c : WfPattern a -> WfPattern b -> WfPattern c -> WfPattern (PTag a b c)
  | wf_html ps : Forall WfPattern ps -> WfPattern (PExactHtml ps)
  | wf_spread_html ps i : Forall WfPattern ps -> i < length ps -> WfPattern (PSpreadHtml ps i).

  Definition group_value (g : option str) : value := match g with Some s => VStr s | None => UNIT end.
  Definition attr_values (a : nmap (option str)) : nmap value := List.map (fun kv => (fst kv, group_value (snd kv))) a.

  (** [Try E p v (Some E')]: where the local variables are [E], the value [v] matches the pattern [p], and the local variables
      are [E'] then. [Try E p v None]: it does not match. [TryAll]: for several patterns and values, from left to right. *)
  Inductive Try : env -> pattern -> value -> option env -> Prop :=
  | try_ignore E v : Try E PIgnore v (Some E)
  | try_none E v : Try E PLiteralNone v (if is_unit v then Some E else None)
  | try_name E n : Try E (PLiteralName n) (VStr n) (Some E)
  | try_name_not E n v : v <> VStr n -> Try E (PLiteralName n) v None
  | try_var E n v : Try E (PVarName n) v (Some (bound_to E n v))
  | try_typeof E n v : Try E (PTypeOf n) v (Some (bound_to E n (VStr (t_display (get_type v)))))
  | try_typed E t v : Try E (PTyped t) v (if check_value t v then Some E else None)
  | try_equals E e v w : value_of E e = Some w -> Try E (PEquals e) v (if value_eqb v w then Some E else None)
  | try_equals_fail E e v : value_of E e = None -> Try E (PEquals e) v None
  | try_and E p q v r : TryAll E [(p, v); (q, v)] r -> Try E (PAnd p q) v r
  | try_or_left E p q ns v E' : Try E p v (Some E') -> Try E (POr p q ns) v (Some (fill ns E'))
  | try_or_right E p q ns v r : Try E p v None -> Try (forget ns E) q v r -> Try E (POr p q ns) v (option_map (fill ns) r)
  (** lists *)
  | try_list E ps vs r : length vs = length ps -> TryAll E (combine ps vs) r -> Try E (PExactList ps) (VList vs) r
  | try_list_length E ps vs : length vs <> length ps -> Try E (PExactList ps) (VList vs) None
  | try_list_not E ps v : (forall vs, v <> VList vs) -> Try E (PExactList ps) v None
  | try_spread E pre p post us mid ws r : length us = length pre -> length ws = length post ->
      TryAll E (combine pre us ++ (p, VList mid) :: combine post ws) r ->
      Try E (PSpreadList (pre ++ p :: post) (length pre)) (VList (us ++ mid ++ ws)) r
  | try_spread_short E ps i vs : length vs + 1 < length ps -> Try E (PSpreadList ps i) (VList vs) None
  | try_spread_not E ps i v : (forall vs, v <> VList vs) -> Try E (PSpreadList ps i) v None
  (** sequences of HTML *)
  | try_html E ps v h r : to_html v = Some h -> length (html_nodes h) = length ps ->
      TryAll E (combine ps (List.map of_html (html_nodes h))) r -> Try E (PExactHtml ps) v r
  | try_html_length E ps v h : to_html v = Some h -> length (html_nodes h) <> length ps -> Try E (PExactHtml ps) v None
  | try_html_not E ps v : to_html v = None -> Try E (PExactHtml ps) v None
  | try_spread_html E pre p post v h us mid ws r : to_html v = Some h -> html_nodes h = us ++ mid ++ ws ->
      length us = length pre -> length ws = length post ->
      TryAll E (combine pre (List.map of_html us) ++ (p, of_html (from_iter mid)) :: combine post (List.map of_html ws)) r ->
      Try E (PSpreadHtml (pre ++ p :: post) (length pre)) v r
  | try_spread_html_short E ps i v h : to_html v = Some h -> length (html_nodes h) + 1 < length ps -> Try E (PSpreadHtml ps i) v None
  | try_spread_html_not E ps i v : to_html v = None -> Try E (PSpreadHtml ps i) v None
  (** dictionaries *)
  | try_dict E attrs vs ws r : length vs = length attrs ->
      Forall2 (fun kp w => ngetm vs (fst kp) = Some w) attrs ws ->
      TryAll E (combine (List.map snd attrs) ws) r -> Try E (PDict attrs None) (VDict vs) r
  | try_dict_rest E attrs p vs ws r :
      Forall2 (fun kp w => ngetm vs (fst kp) = Some w) attrs ws ->
      TryAll E (combine (List.map snd attrs) ws ++ [(p, VDict (List.filter (fun kv => negb (nhas attrs (fst kv))) vs))]) r ->
      Try E (PDict attrs (Some p)) (VDict vs) r
  | try_dict_missing E attrs rest vs k p : In (k, p) attrs -> ngetm vs k = None -> Try E (PDict attrs rest) (VDict vs) None
  | try_dict_size E attrs vs : length vs <> length attrs -> Try E (PDict attrs None) (VDict vs) None
  | try_dict_not E attrs rest v : (forall vs, v <> VDict vs) -> Try E (PDict attrs rest) v None
  (** tags *)
  | try_tag E pn pa pc n a c r :
      TryAll E [(pn, VStr n); (pa, VDict (attr_values a)); (pc, of_html c)] r -> Try E (PTag pn pa pc) (VHtml (HTag n a c)) r
  | try_tag_not E pn pa pc v : (forall n a c, v <> VHtml (HTag n a c)) -> Try E (PTag pn pa pc) v None
  (** regular expressions *)
  | try_regex E re ns s gs : groups re s = Some gs ->
      Try E (PRegex re ns) (VStr s) (Some (fold_left (fun E ng => bound_to E (fst ng) (group_value (snd ng))) (combine ns gs) E))
  | try_regex_none E re ns s : groups re s = None -> Try E (PRegex re ns) (VStr s) None
  | try_regex_not E re ns v : (forall s, v <> VStr s) -> Try E (PRegex re ns) v None
  with TryAll : env -> list (pattern * value) -> option env -> Prop :=
  | tryall_nil E : TryAll E [] (Some E)
  | tryall_fail E p v l : Try E p v None -> TryAll E ((p, v) :: l) None
  | tryall_next E p v l E' r : Try E p v (Some E') -> TryAll E' l r -> TryAll E ((p, v) :: l) r.
End Match.
(** The current scope has local variables [E], distinct and in frame [f]; what names mean around it is [outer]. *)
Definition outside (h : list frame) (f : frame) (n : str) : option value :=
  match fr_parent f with Some p => frame_get h p n false | None => None end.
Record InScope (outer : env) (s : st) (i : nat) (f : frame) (E : env) : Prop := {
  in_running : Running s;
  in_current : hd_error (st_stack s) = Some i;
  in_frame_i : nth_error (st_heap s) i = Some f;
  in_distinct : NoDup (nkeys (fr_locals f));
  in_locals : forall n, ngetm (fr_locals f) n = E n;
  in_outside : forall n, outside (st_heap s) f n = outer n
}.
(** Evaluating [e], where names outside mean [outer], gives the value described by [value_of], and changes no scope. *)
Definition Describes (eval : expr -> ty -> EM value) (value_of : env -> expr -> option value) (outer : env) (e : expr) : Prop :=
  forall s i f E, InScope outer s i f E ->
  match value_of E e with
  | Some w => exists s', eval e TAny s = Ok w s' /\ SameScopes s s' /\ Running s'
  | None => exists err s', eval e TAny s = Err err s' /\ SameScopes s s' /\ Running s'
  end.
Scheme Try_mut := Induction for Try Sort Prop
  with TryAll_mut := Induction for TryAll Sort Prop.

(** Literals and variables, and their values *)
Inductive Plain : expr -> Prop :=
| plain_unit : Plain EUnit
| plain_bool b : Plain (EBool b)
| plain_int i : Plain (EInt i)
| plain_str s : Plain (EBareString s)
| plain_var n : Plain (EName (NSimple n)).
Definition plain_value (outer : env) (E : env) (e : expr) : option value :=
  match e with
  | EUnit => Some UNIT
  | EBool b => Some (VBool b)
  | EInt i => Some (VInt i)
  | EBareString s => Some (VStr s)
  | EName (NSimple n) => match E n with Some v => Some v | None => outer n end
  | _ => None
  end.

(** The groups of a match, without the whole match, which the regex library gives first *)
Definition groups_of (captures : str -> str -> option (list (option str))) (re s : str) : option (list (option str)) :=
  option_map (@List.tl _) (captures re s).

Definition no_vars : env := fun _ => None.
