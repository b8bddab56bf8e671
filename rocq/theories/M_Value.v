(** Model of /repo/src/compiler/value.rs (values, their types, equality and conversion to HTML), value_convert.rs, the
    data types of func.rs, signature.rs, native_gen.rs and regex_value.rs, and the part of compiler/types.rs that checks
    and coerces values. *)
From Verif Require Import Base M_Names M_Html M_TextSubs M_Token M_Types M_Ast M_Diag.

(** regex_value.rs:9-13, 43-45: a regular expression is its source; what it matches is left to the externals of
    M_Native. *)
Inductive regex_kind := RSimple | RNumbered | RNamed (names : list str).
(** regex_value.rs:43-47 *)
Record regex_value := Regex { rx_source : str; rx_kind : regex_kind }.

(** native.rs:16-450: the native functions (the enum [NativeFunc] of native_gen.rs). *)
Inductive native_func :=
| BoolAnd | BoolFrom | BoolOr | BoolNegate
| IntAdd | IntNegate | IntParse
| StrEndsWith | StrEscapeHtml | StrFrom | StrIsEmpty | StrIsWhitespace | StrLen | StrLower | StrSplit | StrStartsWith
| StrTrim | StrUniqueId | StrUpper
| RegexCompile | RegexCount | RegexFind | RegexFindAll | RegexSplit | RegexTest
| FunctionBind | FunctionName
| HtmlEscapeHtml | HtmlIsEmpty | HtmlIsWhitespace | HtmlParse
| ListAll | ListAny | ListContains | ListEnumerate | ListFilter | ListFind | ListFlat | ListGet | ListHtmlNodes
| ListIsEmpty | ListJoin | ListLen | ListMap | ListSlice | ListSorted | ListReversed
| DictGet | DictIsEmpty | DictItems | DictKeys | DictLen | DictNew | DictValues
| FileList | FileRead | FileWrite
| NetFetchRaw | NetFetchHtml
| FCode | FImport | FInclude | FRaise.

(** value.rs:19-46, func.rs:13-18 and 100-106, signature.rs:10-16, 34-41 and 99-105. A list value is the list of its
    elements (SliceRef: C11). A closure's captured frame is an index into the heap of frames (M_State). *)
Inductive value :=
| VBool (b : bool)
| VInt (i : Z)
| VStr (s : str)
| VDict (vs : list (str * value))
| VList (vs : list value)
| VHtml (h : html)
| VFunc (f : func)
| VRegex (r : regex_value)
(** func.rs:13-18 and 100-106 *)
with func :=
| FClosure (name : str) (closure : nat) (sig : fsig) (body : expr)
| FNative (f : native_func) (name : str) (sig : fsig)
| FBound (f : func) (p : partials)
(** signature.rs:10-16 *)
with fparam :=
| FParam (name : str) (is_implicit : bool) (t : ty) (default : option value)
(** signature.rs:34-41 *)
with fsig :=
| FSig (positional : list fparam) (spread : option fparam) (named : list (str * fparam)) (spread_named : option fparam)
       (content : fparam)
(** signature.rs:99-105 *)
with partials :=
| Partials (count : nat) (spread_pos : list value) (spread_named map : list (str * value)).

(** value.rs:53-58 *)
Definition UNIT : value := VHtml HEmpty.
(** value.rs:56-58 *)
Definition is_unit (v : value) : bool := match v with VHtml HEmpty => true | _ => false end.

(** [Iterator::reduce] and value.rs:77-81, on the types of the elements *)
Definition common_type (ts : list ty) : ty :=
  match ts with [] => TUnit | t :: ts => fold_left lub ts t end.
(** value.rs:62-73 *)
Fixpoint get_type (v : value) : ty :=
  match v with
  | VBool _ => TBool
  | VInt _ => TInt
  | VStr _ => TStr
  | VDict vs => TDict (common_type (List.map (fun kv => get_type (snd kv)) vs))
  | VList vs => TList (common_type (List.map get_type vs))
  | VHtml h => if html_is_empty h then TUnit else if html_is_block h then TBlock else TInline
  | VFunc _ => TFunction
  | VRegex _ => TRegex
  end.

(** value.rs:84-100; lists are equal if they have equal elements (sliceref.rs:57-61), dicts regardless of order
    ([IndexMap == IndexMap]). *)
Fixpoint value_eqb (a b : value) : bool :=
  match a, b with
  | VBool x, VBool y => Bool.eqb x y
  | VInt x, VInt y => (x =? y)%Z
  | VStr x, VStr y => str_eqb x y
  | VHtml x, VHtml y => html_eqb x y
  | VRegex x, VRegex y => str_eqb (rx_source x) (rx_source y)
  | VList x, VList y =>
    (fix go l m := match l, m with
                   | [], [] => true
                   | a :: l, b :: m => value_eqb a b && go l m
                   | _, _ => false
                   end) x y
  | VDict x, VDict y =>
    (List.length x =? List.length y)
    && (fix go l := match l with
                    | [] => true
                    | (k, a) :: l => match ngetm y k with Some b => value_eqb a b | None => false end && go l
                    end) x
  | _, _ => false
  end.

(** func.rs:21-27 *)
Fixpoint func_name (f : func) : str :=
  match f with FClosure n _ _ _ => n | FNative _ n _ => n | FBound f _ => func_name f end.

(** value.rs:113-150. The [class] attribute of a fresh [<table>] cannot be a duplicate, so [str_attr] cannot fail. *)
Fixpoint compile_value (v : value) : html :=
  match v with
  | VBool b => html_text (bool_to_string b)
  | VInt i => html_text (substitutions (zdec i))
  | VStr s => html_text s
  | VDict vs =>
    HTag n_table [(n_class, Some (lit "tabular-data"))]
      (from_iter (List.map (fun kv =>
         in_tag (from_iter [html_tag n_th (html_text (fst kv)); html_tag n_td (compile_value (snd kv))]) n_tr) vs))
  | VList vs => in_tag (from_iter (List.map (fun v => in_tag (compile_value v) n_li) vs)) n_ul
  | VHtml h => h
  | VFunc f => html_tag n_code (html_text (lit "(@fn " ++ func_name f ++ lit ")"))
  | VRegex r => html_tag n_code (html_text (lit "(@regex " ++ rx_source r ++ lit ")"))
  end.

(** value_convert.rs:102-111 *)
Definition of_html (h : html) : value :=
  match h with
  | HText s => VStr s
  | HWhitespace => VStr (lit " ")
  | HRawNewline => VStr [10%N]
  | h => VHtml h
  end.
(** value_convert.rs:121-127 *)
Definition to_html (v : value) : option html :=
  match v with VStr s => Some (html_text s) | VHtml h => Some h | _ => None end.

(** compiler/types.rs:43-72. The shortcut of [check_all] for [any] is included; recursion is on the type. *)
Fixpoint check_value (t : ty) (v : value) : bool :=
  if is_unit v then unit_is_assignable t
  else match t, v with
       | TAny, _ | TBool, VBool _ | TInt, VInt _ | TStr, VStr _ | TFunction, VFunc _ | TRegex, VRegex _
       | THtml, VHtml _ | THtml, VStr _ | TInline, VStr _ => true
       | TBlock, VHtml h => html_is_block h
       | TInline, VHtml h => html_is_inline h
       | TDict t, VDict vs => if ty_eqb t TAny then true else forallb (fun kv => check_value t (snd kv)) vs
       | TList t, VList vs => if ty_eqb t TAny then true else forallb (check_value t) vs
       | TOptional t, v => check_value t v
       | _, _ => false
       end.

(** compiler/types.rs:135-141: coerce one after the other, stop at the first error. *)
Fixpoint coerce_all {A} (f : value -> A + papyri_error) (vs : list value) : list A + papyri_error :=
  match vs with
  | [] => inl []
  | v :: vs => match f v with
               | inr e => inr e
               | inl v => match coerce_all f vs with inr e => inr e | inl vs => inl (v :: vs) end
               end
  end.
(** compiler/types.rs:74-80: an outermost [Optional] accepts the unit value and is otherwise ignored. *)
Definition coerce_opt (base : ty -> value -> value + papyri_error) (t : ty) (v : value) : value + papyri_error :=
  match t with
  | TOptional t => if is_unit v then inl UNIT else base t v
  | _ => base t v
  end.
(** compiler/types.rs:83-133 *)
Fixpoint coerce_base (t : ty) (v : value) {struct t} : value + papyri_error :=
  let fail := inr (TypeErr (ExpectedWas t (get_type v))) in
  match t, v with
  | TAny, _ | TBool, VBool _ | TInt, VInt _ | TStr, VStr _ | THtml, VStr _ | TInline, VStr _ | THtml, VHtml _
  | TFunction, VFunc _ | TRegex, VRegex _ => inl v
  | TUnit, _ => if is_unit v then inl UNIT else fail
  | TStr, VBool b => inl (VStr (bool_to_string b))
  | TStr, VInt i => inl (VStr (zdec i))
  | TDict t, VDict vs =>
    match coerce_all (fun v => match t with
                               | TOptional t => if is_unit v then inl UNIT else coerce_base t v
                               | _ => coerce_base t v
                               end) (List.map snd vs) with
    | inl vs' => inl (VDict (combine (List.map fst vs) vs'))
    | inr e => inr e
    end
  | TList t, VList vs =>
    match coerce_all (fun v => match t with
                               | TOptional t => if is_unit v then inl UNIT else coerce_base t v
                               | _ => coerce_base t v
                               end) vs with
    | inl vs => inl (VList vs)
    | inr e => inr e
    end
  | _, VFunc _ => fail
  | TInline, VDict _ | TInline, VList _ => fail
  | THtml, _ => inl (of_html (compile_value v))
  | TBlock, _ =>
    let r := compile_value v in
    inl (of_html (if html_is_inline r then in_tag r n_p else r))
  | TInline, _ => let r := compile_value v in if html_is_block r then fail else inl (of_html r)
  | _, _ => fail
  end.
(** compiler/types.rs:74-133, 145-148 *)
Definition coerce : ty -> value -> value + papyri_error := coerce_opt coerce_base.

(** Accessors for the types of func.rs and signature.rs. signature.rs:10-16: a field. *)
Definition p_name (p : fparam) : str := let '(FParam n _ _ _) := p in n.
(** signature.rs:10-16: a field *)
Definition p_implicit (p : fparam) : bool := let '(FParam _ i _ _) := p in i.
(** signature.rs:10-16: a field *)
Definition p_type (p : fparam) : ty := let '(FParam _ _ t _) := p in t.
(** signature.rs:10-16: a field *)
Definition p_default (p : fparam) : option value := let '(FParam _ _ _ d) := p in d.
(** signature.rs:34-41: a field *)
Definition s_positional (s : fsig) : list fparam := let '(FSig p _ _ _ _) := s in p.
(** signature.rs:34-41: a field *)
Definition s_spread (s : fsig) : option fparam := let '(FSig _ p _ _ _) := s in p.
(** signature.rs:34-41: a field *)
Definition s_named (s : fsig) : nmap fparam := let '(FSig _ _ p _ _) := s in p.
(** signature.rs:34-41: a field *)
Definition s_spread_named (s : fsig) : option fparam := let '(FSig _ _ _ p _) := s in p.
(** signature.rs:34-41: a field *)
Definition s_content (s : fsig) : fparam := let '(FSig _ _ _ _ p) := s in p.
(** signature.rs:99-105: a field *)
Definition pp_count (p : partials) : nat := let '(Partials c _ _ _) := p in c.
(** signature.rs:99-105: a field *)
Definition pp_spread_pos (p : partials) : list value := let '(Partials _ s _ _) := p in s.
(** signature.rs:99-105: a field *)
Definition pp_spread_named (p : partials) : nmap value := let '(Partials _ _ s _) := p in s.
(** signature.rs:99-105: a field *)
Definition pp_map (p : partials) : nmap value := let '(Partials _ _ _ m) := p in m.
(** func.rs:29-42 *)
Fixpoint func_sig (f : func) : fsig :=
  match f with FClosure _ _ s _ => s | FNative _ _ s => s | FBound f _ => func_sig f end.
(** signature.rs:113-121 *)
Definition partials_new : partials := Partials 0 [] [] [].
(** func.rs:37-42 *)
Definition get_partials (f : func) : partials := match f with FBound _ p => p | _ => partials_new end.
