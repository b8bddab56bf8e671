(** Model of /repo/src/compiler/native.rs, native_gen.rs and regex_value.rs. *)
From Verif Require Import Base M_Int M_Text M_Names M_SliceRef M_Path M_Html M_HtmlParse M_Render M_Highlight M_Types M_Token M_Tokenizer
  M_Diag M_Ast M_Value M_State M_Binder.

(** What the compiler gets from outside: other crates, the file system (assumed not to change during a compilation) and
    the network. regex_value.rs:86-111, html_parse.rs:12-30, highlight.rs:201-218, native.rs:387-424 and 534-544. *)
Record externals := Ext {
  x_checks : bool;                                       (* overflow checks are compiled in, see M_Int *)
  x_deunicode : str -> str;                              (* deunicode::deunicode *)
  x_lower : str -> str;                                  (* str::to_lowercase *)
  x_upper : str -> str;                                  (* str::to_uppercase *)
  x_regex : str -> option (list (option str));           (* Regex::new, capture_names without group 0 *)
  x_captures : str -> str -> option (list (option str)); (* Regex::captures *)
  x_captures_iter : str -> str -> list (list (option str)); (* Regex::captures_iter *)
  x_is_match : str -> str -> bool;                       (* Regex::is_match *)
  x_find_count : str -> str -> nat;                      (* Regex::find_iter().count() *)
  x_split : str -> str -> list str;                      (* Regex::split *)
  x_decode : str -> str;                                 (* html_escape::decode_html_entities *)
  x_html_parse : str -> list str * dom;                  (* html5ever::parse_document: the errors and the document *)
  x_syntect : str -> list str -> option (list (option (list (nat * nat * hkind)))); (* see M_Highlight *)
  x_fetch : option (str -> option str);                  (* the HTTP client, if enabled *)
  x_read : str -> option str;                            (* fs::read_to_string *)
  x_canonicalize : str -> option str;                    (* fs::canonicalize *)
  x_list_dir : str -> option (list str * list str)       (* relpath.rs:25-61: unless the directory cannot be resolved, the
                                                            paths of the errors met, and the source files in it *)
}.

(** native_gen.rs:50-104 with signature.rs:10-97 and native.rs: the signatures *)
Definition fp (n : string) (t : ty) : fparam := FParam (lit n) false t None.
(** [FuncParam::new] and [with_default], signature.rs:19-31 *)
Definition fpd (n : string) (t : ty) (d : value) : fparam := FParam (lit n) false t (Some d).
(** [named_params] built by signature.rs:69-72 *)
Definition named (l : list fparam) : nmap fparam := nfrom (List.map (fun p => (p_name p, p)) l).
(** the content parameter of [FuncSignature::builder], signature.rs:54-62 *)
Definition no_content : fparam := FParam n_anonymous false TUnit None.
(** [FuncSignature::builder] and [content], signature.rs:54-62 and 89-92 *)
Definition sig_content (n : string) (t : ty) : fsig := FSig [] None [] None (fp n t).
(** [FuncSignature::builder], [positional] and [content], signature.rs:54-67 and 89-92 *)
Definition sig_pos (l : list fparam) (c : fparam) : fsig := FSig l None [] None c.
(** [FuncSignature::builder], [named] and [content], signature.rs:54-72 and 89-92 *)
Definition sig_named (l : list fparam) (c : fparam) : fsig := FSig [] None (named l) None c.
(** the parameters of native.rs:14-450, by native_gen.rs:57-85 *)
Definition native_sig (f : native_func) : fsig :=
  match f with
  | BoolAnd | BoolOr => sig_pos [fp "a" TBool; fp "b" TBool] no_content
  | BoolFrom => sig_content "param" TAny
  | BoolNegate => sig_content "param" TBool
  | IntAdd => FSig [] (Some (fp "args" (TList TInt))) [] None no_content
  | IntNegate => sig_content "param" TInt
  | IntParse => sig_content "param" TStr
  | StrEndsWith | StrStartsWith => sig_pos [fp "a" TStr; fp "b" TStr] no_content
  | StrEscapeHtml | StrIsEmpty | StrIsWhitespace | StrLen | StrLower | StrTrim | StrUpper => sig_content "str" TStr
  | StrFrom => sig_content "param" TStr
  | StrSplit => sig_pos [fp "sep" TStr] (fp "str" TStr)
  | StrUniqueId => sig_named [fpd "max_length" TInt (VInt 128)] (fp "base" TStr)
  | RegexCompile => sig_content "source" TStr
  | RegexCount | RegexFind | RegexFindAll | RegexSplit | RegexTest => sig_pos [fp "regex" TRegex] (fp "str" TStr)
  | FunctionBind =>
    FSig [fp "function" TFunction] (Some (fp "args" (TList TAny))) [] (Some (fp "kwargs" (TDict TAny))) (fp "param" TAny)
  | FunctionName => sig_content "function" TFunction
  | HtmlEscapeHtml | HtmlIsEmpty | HtmlIsWhitespace => sig_content "html" THtml
  | HtmlParse => sig_content "param" TStr
  | ListAll | ListAny | ListFind | ListMap => sig_pos [fp "function" TFunction] (fp "list" (TList TAny))
  | ListContains => sig_pos [fp "param" TAny] (fp "list" (TList TAny))
  | ListEnumerate => sig_named [fpd "from" TInt (VInt 0)] (fp "list" (TList TAny))
  | ListFilter => sig_pos [fpd "function" (t_option TFunction) UNIT] (fp "list" (TList TAny))
  | ListFlat | ListIsEmpty | ListLen | ListReversed => sig_content "list" (TList TAny)
  | ListGet => sig_pos [fp "i" TInt] (fp "list" (TList TAny))
  | ListHtmlNodes => sig_content "html" THtml
  | ListJoin => sig_pos [fpd "sep" THtml UNIT] (fp "list" (TList THtml))
  | ListSlice => sig_pos [fp "a" TInt; fpd "b" (t_option TInt) UNIT] (fp "list" (TList TAny))
  | ListSorted => sig_named [fpd "key" (t_option TFunction) UNIT; fpd "reversed" TBool (VBool false)] (fp "list" (TList TAny))
  | DictGet => sig_pos [fp "key" TStr] (fp "dict" (TDict TAny))
  | DictIsEmpty | DictItems | DictKeys | DictLen | DictValues => sig_content "dict" (TDict TAny)
  | DictNew => FSig [] None [] (Some (fp "kwargs" (TDict TAny))) no_content
  | FileList | FileRead => sig_content "path" TStr
  | FileWrite => sig_pos [fp "path" TStr] (fp "html" THtml)
  | NetFetchRaw | NetFetchHtml => sig_content "path" TStr
  | FCode =>
    sig_named [FParam (lit "language") true (t_option TStr) (Some UNIT); fpd "code_block" TBool (VBool false);
               fpd "first_line_no" TInt (VInt 1)] (fp "source" TStr)
  | FImport | FInclude => sig_content "path" TStr
  | FRaise => sig_content "str" TStr
  end.
(** native.rs and native_gen.rs:60-104: the groups of native functions, with the names of their members *)
Definition native_groups : list (str * list (str * native_func)) :=
  [ (lit "bool", [(lit "and", BoolAnd); (lit "from", BoolFrom); (lit "or", BoolOr); (lit "negate", BoolNegate)]);
    (lit "int", [(lit "add", IntAdd); (lit "negate", IntNegate); (lit "parse", IntParse)]);
    (lit "str", [(lit "ends_with", StrEndsWith); (lit "escape_html", StrEscapeHtml); (lit "from", StrFrom);
                 (lit "is_empty", StrIsEmpty); (lit "is_whitespace", StrIsWhitespace); (lit "len", StrLen);
                 (lit "lower", StrLower); (lit "split", StrSplit); (lit "starts_with", StrStartsWith);
                 (lit "trim", StrTrim); (lit "unique_id", StrUniqueId); (lit "upper", StrUpper)]);
    (lit "regex", [(lit "compile", RegexCompile); (lit "count", RegexCount); (lit "find", RegexFind);
                   (lit "find_all", RegexFindAll); (lit "split", RegexSplit); (lit "test", RegexTest)]);
    (lit "function", [(lit "bind", FunctionBind); (lit "name", FunctionName)]);
    (lit "html", [(lit "escape_html", HtmlEscapeHtml); (lit "is_empty", HtmlIsEmpty);
                  (lit "is_whitespace", HtmlIsWhitespace); (lit "parse", HtmlParse)]);
    (lit "list", [(lit "all", ListAll); (lit "any", ListAny); (lit "contains", ListContains);
                  (lit "enumerate", ListEnumerate); (lit "filter", ListFilter); (lit "find", ListFind);
                  (lit "flat", ListFlat); (lit "get", ListGet); (lit "html_nodes", ListHtmlNodes);
                  (lit "is_empty", ListIsEmpty); (lit "join", ListJoin); (lit "len", ListLen); (lit "map", ListMap);
                  (lit "slice", ListSlice); (lit "sorted", ListSorted); (lit "reversed", ListReversed)]);
    (lit "dict", [(lit "get", DictGet); (lit "is_empty", DictIsEmpty); (lit "items", DictItems); (lit "keys", DictKeys);
                  (lit "len", DictLen); (lit "new", DictNew); (lit "values", DictValues)]);
    (lit "file", [(lit "list", FileList); (lit "read", FileRead); (lit "write", FileWrite)]);
    (lit "net", [(lit "fetch_raw", NetFetchRaw); (lit "fetch_html", NetFetchHtml)]) ].
(** native.rs:426-450, by native_gen.rs:88-106 *)
Definition native_globals : list (str * native_func) :=
  [(lit "code", FCode); (lit "import", FImport); (lit "include", FInclude); (lit "raise", FRaise)].
(** [Func::Native] as a value, native_gen.rs:57-85 *)
Definition native_value (nf : str * native_func) : value := VFunc (FNative (snd nf) (fst nf) (native_sig (snd nf))).
(** native_gen.rs:87-104 *)
Definition native_frame : frame :=
  Frame None
    (nfrom (List.map (fun g => (fst g, VDict (nfrom (List.map (fun nf => (fst nf, native_value nf)) (snd g))))) native_groups
            ++ List.map (fun nf => (fst nf, native_value nf)) native_globals))
    [].

(** native_gen.rs:133-145 and the [@bind_..] marks of native.rs: which native functions are attributes of a value, and
    whether the value becomes the content ([true]) or the first positional argument *)
Definition native_attr (v : value) : list (str * (native_func * bool)) :=
  match v with
  | VBool _ => [(lit "and", (BoolAnd, false)); (lit "or", (BoolOr, false)); (lit "negate", (BoolNegate, true))]
  | VInt _ => [(lit "add", (IntAdd, false)); (lit "negate", (IntNegate, true))]
  | VStr _ =>
    [(lit "ends_with", (StrEndsWith, false)); (lit "escape_html", (StrEscapeHtml, true)); (lit "is_empty", (StrIsEmpty, true));
     (lit "is_whitespace", (StrIsWhitespace, true)); (lit "len", (StrLen, true)); (lit "lower", (StrLower, true));
     (lit "split", (StrSplit, true)); (lit "starts_with", (StrStartsWith, false)); (lit "trim", (StrTrim, true));
     (lit "unique_id", (StrUniqueId, true)); (lit "upper", (StrUpper, true))]
  | VRegex _ =>
    [(lit "count", (RegexCount, false)); (lit "find", (RegexFind, false)); (lit "find_all", (RegexFindAll, false));
     (lit "split", (RegexSplit, false)); (lit "test", (RegexTest, false))]
  | VFunc _ => [(lit "bind", (FunctionBind, false)); (lit "name", (FunctionName, true))]
  | VHtml _ =>
    [(lit "escape_html", (HtmlEscapeHtml, true)); (lit "is_empty", (HtmlIsEmpty, true));
     (lit "is_whitespace", (HtmlIsWhitespace, true))]
  | VList _ =>
    [(lit "all", (ListAll, true)); (lit "any", (ListAny, true)); (lit "contains", (ListContains, true));
     (lit "enumerate", (ListEnumerate, true)); (lit "filter", (ListFilter, true)); (lit "find", (ListFind, true));
     (lit "flat", (ListFlat, true)); (lit "get", (ListGet, true)); (lit "is_empty", (ListIsEmpty, true));
     (lit "join", (ListJoin, true)); (lit "len", (ListLen, true)); (lit "map", (ListMap, true));
     (lit "slice", (ListSlice, true)); (lit "sorted", (ListSorted, true))]
  | VDict _ => []
  end.
(** native_gen.rs:133-145 *)
Definition evaluate_native_attr (subject : value) (attr : str) : EM func :=
  match ngetm (native_attr subject) attr with
  | Some (f, as_content) =>
    let f := FNative f attr (native_sig f) in
    if as_content then bind_content f subject else bind_positional f subject
  | None => fail (NameErr (NoSuchAttribute (get_type subject) attr))
  end.

(** [expect_convert] (value_convert.rs:20-23): a panic when the value does not have the type *)
Definition to_bool (v : value) : EM bool := match v with VBool b => ret b | _ => crash FConvert end.
(** [expect_convert], value_convert.rs:20-23 and 63-73 *)
Definition to_int (v : value) : EM Z := match v with VInt i => ret i | _ => crash FConvert end.
(** [expect_convert], value_convert.rs:20-23 and 90-100 *)
Definition to_str (v : value) : EM str := match v with VStr s => ret s | _ => crash FConvert end.
(** [expect_convert], value_convert.rs:20-23 and 117-128 *)
Definition to_htmlM (v : value) : EM html := match to_html v with Some h => ret h | None => crash FConvert end.
(** [expect_convert], value_convert.rs:20-23 and 135-145 *)
Definition to_func (v : value) : EM func := match v with VFunc f => ret f | _ => crash FConvert end.
(** [expect_convert], value_convert.rs:20-23 and 152-162 *)
Definition to_regex (v : value) : EM regex_value := match v with VRegex r => ret r | _ => crash FConvert end.
(** [expect_convert], value_convert.rs:20-23 and 179-189 *)
Definition to_list (v : value) : EM (list value) := match v with VList vs => ret vs | _ => crash FConvert end.
(** [expect_convert], value_convert.rs:20-23 and 201-211 *)
Definition to_dict (v : value) : EM (nmap value) := match v with VDict vs => ret vs | _ => crash FConvert end.
(** value_convert.rs:240-251 *)
Definition to_opt {A} (f : value -> EM A) (v : value) : EM (option A) :=
  if is_unit v then ret None else let* a := f v in ret (Some a).
(** value_convert.rs:213-224 *)
Fixpoint to_each {A} (f : value -> EM A) (vs : list value) : EM (list A) :=
  match vs with [] => ret [] | v :: vs => let* a := f v in let* l := to_each f vs in ret (a :: l) end.

(** [str::ends_with]. Used in native.rs:64-66. *)
Definition ends_with (pat s : str) : bool := starts_with (rev pat) (rev s).
(** [str::split] with a string: around the leftmost non-overlapping occurrences; an empty separator occurs between any two
    characters, at the start and at the end. Used in native.rs:98-103. *)
Fixpoint split_on (pat : str) (skip : nat) (s : str) : list str :=
  match s with
  | [] => [[]]
  | c :: t =>
    match skip with
    | S skip => split_on pat skip t
    | 0 =>
      if starts_with pat s then [] :: split_on pat (length pat - 1) t
      else match split_on pat 0 t with x :: xs => (c :: x) :: xs | [] => [[c]] end
    end
  end.
(** [str::split] (std), used in native.rs:98-103 *)
Definition str_split (pat s : str) : list str :=
  match pat with
  | [] => [] :: List.map (fun c => [c]) s ++ [[]]
  | _ => split_on pat 0 s
  end.
(** [str::parse::<i64>]: an optional sign and at least one digit, in range. Used in native.rs:56-59. *)
Fixpoint digits_value (s : str) (acc : Z) : option Z :=
  match s with
  | [] => Some acc
  | c :: t => if is_ascii_digit c then digits_value t (acc * 10 + (Z.of_N c - 48))%Z else None
  end.
(** [str::parse::<i64>] (std), used in native.rs:56-59 *)
Definition parse_i64 (s : str) : option Z :=
  let '(neg, ds) := match s with
                    | c :: t => if (c =? 45)%N then (true, t) else if (c =? 43)%N then (false, t) else (false, s)
                    | [] => (false, s)
                    end in
  match ds with
  | [] => None
  | _ => match digits_value ds 0 with
         | Some n => let n := if neg then (- n)%Z else n in if i64_ok n then Some n else None
         | None => None
         end
  end.
(** [Ord] of strings: by UTF-8 bytes, which is by characters. Used in native.rs:453-495. *)
Fixpoint str_leb (a b : str) : bool :=
  match a, b with
  | [], _ => true
  | _ :: _, [] => false
  | x :: a, y :: b => if (x <? y)%N then true else if (y <? x)%N then false else str_leb a b
  end.
(** the order of the keys in native.rs:453-495 *)
Definition key_leb (a b : value) : bool :=
  match a, b with
  | VInt x, VInt y => (x <=? y)%Z
  | VStr x, VStr y => str_leb x y
  | _, _ => false
  end.
(** [slice::sort_by_key]: a stable sort. Used in native.rs:453-495. *)
Fixpoint insert_by {A} (leb : A -> A -> bool) (x : A) (l : list A) : list A :=
  match l with
  | [] => [x]
  | y :: l' => if leb x y then x :: l else y :: insert_by leb x l'
  end.
(** [slice::sort_by_key] (std): a stable sort, used in native.rs:453-495 *)
Fixpoint sort_by {A} (leb : A -> A -> bool) (l : list A) : list A :=
  match l with [] => [] | x :: l => insert_by leb x (sort_by leb l) end.

(** regex_value.rs:18-41 *)
Definition group_value (g : option str) : value := match g with Some s => VStr s | None => UNIT end.
(** regex_value.rs:18-40 *)
Definition captures_to_value (k : regex_kind) (gs : list (option str)) : value :=
  match k with
  | RSimple => match gs with g :: _ => group_value g | [] => UNIT end
  | RNumbered => VList (List.map group_value gs)
  | RNamed names => VDict (nfrom (combine names (List.map group_value (List.tl gs))))
  end.

(** native.rs:552-565. Simplification: the directory of the source file is written without redundant separators and dots. *)
Definition resolve_relative_path (src path : str) (add_suffix : bool) : str :=
  join (join_names (pop (components src)))
    (if add_suffix && negb (ends_with (lit ".papyri") path) then path ++ lit ".papyri" else path).

(** [str::trim_end_matches('/')] and [strip_suffix(".papyri")]. native.rs:390 and 397. *)
Definition trim_slashes (s : str) : str := trim_end_by (fun c => (c =? 47)%N) s.
(** native.rs:397 *)
Definition strip_papyri (s : str) : option str :=
  match strip_prefix (rev (lit ".papyri")) (rev s) with Some t => Some (rev t) | None => None end.

(** native.rs:287-305 *)
Fixpoint intersperse (sep : html) (l : list html) : list html :=
  match l with
  | [] => []
  | [x] => [x]
  | x :: l => x :: sep :: intersperse sep l
  end.
(** native.rs:292-305 *)
Definition join_html (sep : html) (l : list html) : html :=
  match l with
  | [] => HEmpty
  | _ => if html_is_empty sep then from_iter l else from_iter (intersperse sep l)
  end.
(** native.rs:262-272 *)
Definition flatten (vs : list value) : list value :=
  flat_map (fun v => match v with VList l => l | v => [v] end) vs.

(** native.rs:391-399 *)
Fixpoint listed_files (path : str) (files : list str) : EM (list str) :=
  match files with
  | [] => ret []
  | f :: files =>
    match strip_papyri (trim_slashes path ++ lit "/" ++ f) with
    | None => crash FListing
    | Some s => let* l := listed_files path files in ret (s :: l)
    end
  end.
(** context.rs:67-78 *)
Definition push_out_file (path : str) (h : html) : EM unit :=
  fun s =>
    match st_out s with
    | None => Err (RuntimeErr WriteFileNotAllowed) s
    | Some o =>
      let '(ok, o) := try_push o path h in
      if ok then Ok tt (set_out (Some o) s) else Err (RuntimeErr (PathNotInOutDir path)) s
    end.
(** [ctx.unique_ids.get_unique_id], native.rs:119 *)
Definition new_unique_id (deunicode : str -> str) (base : str) (max_len : nat) : EM str :=
  fun s =>
    match get_unique_id deunicode (st_uids s) base max_len with
    | Ret (id, used) => Ok id (set_uids used s)
    | Panic => Crash FUniqueId
    | OutOfFuel => NoFuel
    end.

Section Native.
  Variable X : externals.
  (** [evaluate_func_call_with_bindings]; the last argument is the path of the source file of the call *)
  Variable call : func -> nmap value -> ty -> str -> EM value.
  (** [Context::load_cached] *)
  Variable load_cached : str -> EM (html * nmap value).

  (** native.rs:567-576 *)
  Definition eval_callback {A} (t : ty) (conv : value -> EM A) (f : func) (arg : value) (src : str) : EM A :=
    let* bs := bind_synthetic_call f false arg in
    let* v := call f bs t src in
    conv v.
  (** native.rs:567 with [T = bool] *)
  Definition callback_bool := eval_callback TBool to_bool.
  (** native.rs:567 with [T = Value] *)
  Definition callback_any := eval_callback TAny ret.

  (** native.rs:197-205 and 208-217 and 255-261: the first element on which the function answers [want] *)
  Fixpoint find_first (want : bool) (f : func) (vs : list value) (src : str) : EM (option value) :=
    match vs with
    | [] => ret None
    | v :: vs =>
      let* b := callback_bool f v src in
      if Bool.eqb b want then ret (Some v) else find_first want f vs src
    end.
  (** native.rs:236-243 *)
  Fixpoint filter_list (f : func) (vs : list value) (src : str) : EM (list value) :=
    match vs with
    | [] => ret []
    | v :: vs =>
      let* b := callback_bool f v src in
      let* out := filter_list f vs src in
      ret (if b then v :: out else out)
    end.
  (** native.rs:312-320 *)
  Fixpoint map_list (f : func) (vs : list value) (src : str) : EM (list value) :=
    match vs with
    | [] => ret []
    | v :: vs => let* r := callback_any f v src in let* out := map_list f vs src in ret (r :: out)
    end.
  (** native.rs:223-231 *)
  Fixpoint enumerate_list (vs : list value) (i : nat) (from : Z) : outcome (list value) :=
    match vs with
    | [] => Ret []
    | v :: vs =>
      obind (i64 (x_checks X) (Z.of_nat i + from)) (fun n =>
      obind (enumerate_list vs (S i) from) (fun out => Ret (VList [VInt n; v] :: out)))
    end.
  (** [Iterator::sum] of [i64]. native.rs:47-49 *)
  Fixpoint sum_ints (l : list Z) (acc : Z) : outcome Z :=
    match l with [] => Ret acc | x :: l => obind (i64 (x_checks X) (acc + x)) (sum_ints l) end.

  (** native.rs:458-478; [key_type] is the type of the keys so far *)
  Fixpoint decorate (key : option func) (vs : list value) (key_type : ty) (src : str) : EM (list (value * value)) :=
    match vs with
    | [] => ret []
    | v :: vs =>
      let* k := match key with None => ret v | Some f => callback_any f v src end in
      match k with
      | VInt _ | VStr _ =>
        if (ty_eqb key_type TInt && ty_eqb (get_type k) TStr) || (ty_eqb key_type TStr && ty_eqb (get_type k) TInt)
        then fail (TypeErr SortKeyHeterogeneous)
        else
          let* out := decorate key vs (if ty_eqb key_type TUnit then get_type k else key_type) src in
          ret ((k, v) :: out)
      | _ => fail (TypeErr (SortKeyInvalid (get_type k)))
      end
    end.
  (** native.rs:453-495. The keys are all integers or all strings, so the sort cannot fail to convert one. *)
  Definition native_sorted (key : option func) (reversed : bool) (vs : list value) (src : str) : EM (list value) :=
    match vs with
    | [] => ret []
    | _ =>
      let* ds := decorate key vs TUnit src in
      let ds := if reversed then rev ds else ds in
      let out := List.map snd (sort_by (fun a b => key_leb (fst a) (fst b)) ds) in
      ret (if reversed then rev out else out)
    end.

  (** native.rs:497-532 *)
  Definition native_code (language : option str) (is_block : bool) (first_line_no : Z) (code : str) : EM html :=
    let default := match language with Some l => l | None => lit "none" end in
    let '(language, code) := if is_block then get_source_language_hint code default else (default, code) in
    let* code := pure FIndent (fix_indentation code) in
    let* r := pure FHighlight (syntax_highlight (x_syntect X) code language) in
    let '(ls, warning) := r in
    match warning with Some w => report (Warn w) | None => ret tt end;;;
    let attrs := match warning with
                 | Some _ => []
                 | None => if str_eqb language (lit "none") then []
                           else [(n_class, Some (lit "syntax-highlight lang-" ++ language))]
                 end in
    let* content :=
      if is_block then pure FOverflow (enumerate_lines (x_checks X) ls first_line_no)
      else
        (if (first_line_no =? 1)%Z then ret tt else report (Warn InlineHighlightEnumerate));;;
        (if 1 <? length ls then report (Warn InlineHighlightMultiline) else ret tt);;;
        ret (from_iter ls) in
    ret (HTag n_code attrs content).

  (** native.rs:534-544 *)
  Definition native_fetch (path : str) : EM str :=
    match x_fetch X with
    | None => fail (RuntimeErr NetworkDisabled)
    | Some fetch => match fetch path with Some t => ret t | None => fail (RuntimeErr NetworkError) end
    end.
  (** html_parse.rs:12-31 *)
  Definition parse_html (s : str) : EM value :=
    match html_errors (fst (x_html_parse X s)) with
    | [] => let* h := pure FHtmlNode (node_to_html (x_lower X) (snd (x_html_parse X s))) in ret (of_html h)
    | e :: _ => fail (RuntimeErr (ParseHtmlError e))
    end.
  (** regex_value.rs:86-111 *)
  Definition compile_regex (s : str) : EM value :=
    match x_regex X s with
    | None => fail (RuntimeErr RegexSyntaxError)
    | Some groups =>
      match groups with
      | [] => ret (VRegex (Regex s RSimple))
      | _ =>
        if forallb (fun g => match g with None => true | Some _ => false end) groups then ret (VRegex (Regex s RNumbered))
        else if forallb (fun g => match g with Some _ => true | None => false end) groups then
          let names := flat_map (fun g => match g with Some n => [n] | None => [] end) groups in
          match List.find (fun n => negb (is_identifier n)) names with
          | Some n => fail (RuntimeErr (RegexInvalidGroupName n))
          | None => ret (VRegex (Regex s (RNamed names)))
          end
        else fail (RuntimeErr RegexMixedGroupKinds)
      end
    end.
  (** the errors of listing a directory, native.rs:388-402 *)
  Fixpoint report_all (es : list papyri_error) : EM unit :=
    match es with [] => ret tt | e :: es => report e;;; report_all es end.
  (** native.rs:436-444: declaring the exports *)
  Fixpoint set_vars (vs : list (str * value)) : EM unit :=
    match vs with [] => ret tt | (n, v) :: vs => set_var n v false;;; set_vars vs end.

  (** native.rs:16-450 and native_gen.rs:111-131. [src] is the path of the source file of the call. *)
  Definition evaluate_native_func (f : native_func) (bindings : nmap value) (src : str) : EM value :=
    let take n : EM value := match ngetm bindings (lit n) with Some v => ret v | None => crash FArgument end in
    let arg {A} (conv : value -> EM A) n : EM A := let* v := take n in conv v in
    match f with
    | BoolAnd => let* a := arg to_bool "a"%string in let* b := arg to_bool "b"%string in ret (VBool (a && b))
    | BoolFrom =>
      let* v := take "param"%string in
      ret (VBool match v with
                 | VBool b => b
                 | VInt i => negb (i =? 0)%Z
                 | VStr s => match s with [] => false | _ => true end
                 | VHtml h => negb (html_is_empty h)
                 | VList vs => match vs with [] => false | _ => true end
                 | VDict vs => match vs with [] => false | _ => true end
                 | _ => true
                 end)
    | BoolOr => let* a := arg to_bool "a"%string in let* b := arg to_bool "b"%string in ret (VBool (a || b))
    | BoolNegate => let* b := arg to_bool "param"%string in ret (VBool (negb b))
    | IntAdd =>
      let* vs := arg to_list "args"%string in
      let* is := to_each to_int vs in
      let* n := pure FOverflow (sum_ints is 0) in ret (VInt n)
    | IntNegate =>
      let* i := arg to_int "param"%string in let* n := pure FOverflow (i64 (x_checks X) (- i)) in ret (VInt n)
    | IntParse =>
      let* s := arg to_str "param"%string in
      match parse_i64 s with Some i => ret (VInt i) | None => fail (RuntimeErr ParseIntError) end
    | StrEndsWith => let* a := arg to_str "a"%string in let* b := arg to_str "b"%string in ret (VBool (ends_with b a))
    | StrEscapeHtml => let* s := arg to_str "str"%string in ret (VStr (render true (html_text s)))
    | StrFrom => let* s := arg to_str "param"%string in ret (VStr s)
    | StrIsEmpty => let* s := arg to_str "str"%string in ret (VBool match s with [] => true | _ => false end)
    | StrIsWhitespace => let* s := arg to_str "str"%string in ret (VBool (is_whitespace s))
    | StrLen => let* s := arg to_str "str"%string in ret (VInt (Z.of_nat (blen s)))
    | StrLower => let* s := arg to_str "str"%string in ret (VStr (x_lower X s))
    | StrSplit =>
      let* sep := arg to_str "sep"%string in let* s := arg to_str "str"%string in
      ret (VList (List.map VStr (str_split sep s)))
    | StrStartsWith => let* a := arg to_str "a"%string in let* b := arg to_str "b"%string in ret (VBool (starts_with b a))
    | StrTrim => let* s := arg to_str "str"%string in ret (VStr (trim s))
    | StrUniqueId =>
      let* n := arg to_int "max_length"%string in
      let* base := arg to_str "base"%string in
      if (n <=? 0)%Z then fail (RuntimeErr (ParamMustBePositive (lit "max_length") n))
      else
        let* id := new_unique_id (x_deunicode X) base (Z.to_nat n) in ret (VStr id)
    | StrUpper => let* s := arg to_str "str"%string in ret (VStr (x_upper X s))
    | RegexCompile => let* s := arg to_str "source"%string in compile_regex s
    | RegexCount =>
      let* r := arg to_regex "regex"%string in let* s := arg to_str "str"%string in
      ret (VInt (Z.of_nat (x_find_count X (rx_source r) s)))
    | RegexFind =>
      let* r := arg to_regex "regex"%string in let* s := arg to_str "str"%string in
      ret match x_captures X (rx_source r) s with Some gs => captures_to_value (rx_kind r) gs | None => UNIT end
    | RegexFindAll =>
      let* r := arg to_regex "regex"%string in let* s := arg to_str "str"%string in
      ret (VList (List.map (captures_to_value (rx_kind r)) (x_captures_iter X (rx_source r) s)))
    | RegexSplit =>
      let* r := arg to_regex "regex"%string in let* s := arg to_str "str"%string in
      ret (VList (List.map VStr (x_split X (rx_source r) s)))
    | RegexTest =>
      let* r := arg to_regex "regex"%string in let* s := arg to_str "str"%string in
      ret (VBool (x_is_match X (rx_source r) s))
    | FunctionBind =>
      let* g := arg to_func "function"%string in
      let* pos := arg to_list "args"%string in
      let* kw := arg to_dict "kwargs"%string in
      let* c := take "param"%string in
      let* r := bind_partial g pos kw c in ret (VFunc r)
    | FunctionName => let* g := arg to_func "function"%string in ret (VStr (func_name g))
    | HtmlEscapeHtml => let* h := arg to_htmlM "html"%string in ret (VStr (render true h))
    | HtmlIsEmpty => let* h := arg to_htmlM "html"%string in ret (VBool (html_is_empty h))
    | HtmlIsWhitespace => let* h := arg to_htmlM "html"%string in ret (VBool (html_is_whitespace h))
    | HtmlParse => let* s := arg to_str "param"%string in parse_html s
    | ListAll =>
      let* g := arg to_func "function"%string in let* vs := arg to_list "list"%string in
      let* r := find_first false g vs src in ret (VBool match r with Some _ => false | None => true end)
    | ListAny =>
      let* g := arg to_func "function"%string in let* vs := arg to_list "list"%string in
      let* r := find_first true g vs src in ret (VBool match r with Some _ => true | None => false end)
    | ListContains =>
      let* v := take "param"%string in let* vs := arg to_list "list"%string in
      ret (VBool (existsb (fun x => value_eqb x v) vs))
    | ListEnumerate =>
      let* from := arg to_int "from"%string in let* vs := arg to_list "list"%string in
      let* out := pure FOverflow (enumerate_list vs 0 from) in ret (VList out)
    | ListFilter =>
      let* g := arg (to_opt to_func) "function"%string in let* vs := arg to_list "list"%string in
      match g with
      | Some g => let* out := filter_list g vs src in ret (VList out)
      | None => ret (VList (List.filter (fun v => negb (is_unit v)) vs))
      end
    | ListFind =>
      let* g := arg to_func "function"%string in let* vs := arg to_list "list"%string in
      let* r := find_first true g vs src in ret match r with Some v => v | None => UNIT end
    | ListFlat => let* vs := arg to_list "list"%string in ret (VList (flatten vs))
    | ListGet =>
      let* i := arg to_int "i"%string in let* vs := arg to_list "list"%string in
      let* r := pure FIndex (list_get (sr_from vs) i) in
      match r with Some v => ret v | None => fail (RuntimeErr (IndexOutOfRange i (length vs))) end
    | ListHtmlNodes => let* h := arg to_htmlM "html"%string in ret (VList (List.map of_html (html_nodes h)))
    | ListIsEmpty => let* vs := arg to_list "list"%string in ret (VBool match vs with [] => true | _ => false end)
    | ListJoin =>
      let* sep := arg to_htmlM "sep"%string in let* vs := arg to_list "list"%string in
      let* hs := to_each to_htmlM vs in ret (of_html (join_html sep hs))
    | ListLen => let* vs := arg to_list "list"%string in ret (VInt (Z.of_nat (length vs)))
    | ListMap =>
      let* g := arg to_func "function"%string in let* vs := arg to_list "list"%string in
      let* out := map_list g vs src in ret (VList out)
    | ListSlice =>
      let* a := arg to_int "a"%string in let* b := arg (to_opt to_int) "b"%string in let* vs := arg to_list "list"%string in
      let* r := pure FIndex (obind (native_slice (sr_from vs) a b) sr_as_ref) in ret (VList r)
    | ListSorted =>
      let* key := arg (to_opt to_func) "key"%string in let* reversed := arg to_bool "reversed"%string in
      let* vs := arg to_list "list"%string in
      let* out := native_sorted key reversed vs src in ret (VList out)
    | ListReversed => let* vs := arg to_list "list"%string in ret (VList (rev vs))
    | DictGet =>
      let* k := arg to_str "key"%string in let* vs := arg to_dict "dict"%string in
      match ngetm vs k with Some v => ret v | None => fail (NameErr (NoSuchAttribute (TDict TAny) k)) end
    | DictIsEmpty => let* vs := arg to_dict "dict"%string in ret (VBool match vs with [] => true | _ => false end)
    | DictItems => let* vs := arg to_dict "dict"%string in ret (VList (List.map (fun kv => VList [VStr (fst kv); snd kv]) vs))
    | DictKeys => let* vs := arg to_dict "dict"%string in ret (VList (List.map VStr (nkeys vs)))
    | DictLen => let* vs := arg to_dict "dict"%string in ret (VInt (Z.of_nat (length vs)))
    | DictNew => let* vs := arg to_dict "kwargs"%string in ret (VDict vs)
    | DictValues => let* vs := arg to_dict "dict"%string in ret (VList (nvalues vs))
    | FileList =>
      let* p := arg to_str "path"%string in
      match x_list_dir X (resolve_relative_path src p false) with
      | None => report (ModuleErr (IOError (resolve_relative_path src p false)));;; fail AlreadyReported
      | Some (errs, files) =>
        report_all (List.map (fun p => ModuleErr (IOError p)) errs);;;
        let* out := listed_files p files in
        ret (VList (List.map VStr out))
      end
    | FileRead =>
      let* p := arg to_str "path"%string in
      match x_read X (resolve_relative_path src p false) with
      | Some t => ret (VStr t)
      | None => fail (RuntimeErr (FileReadError p))
      end
    | FileWrite =>
      let* p := arg to_str "path"%string in let* h := arg to_htmlM "html"%string in
      push_out_file p h;;; ret UNIT
    | NetFetchRaw => let* p := arg to_str "path"%string in let* t := native_fetch p in ret (VStr t)
    | NetFetchHtml => let* p := arg to_str "path"%string in let* t := native_fetch p in parse_html t
    | FCode =>
      let* language := arg (to_opt to_str) "language"%string in let* is_block := arg to_bool "code_block"%string in
      let* no := arg to_int "first_line_no"%string in let* code := arg to_str "source"%string in
      let* h := native_code language is_block no code in ret (VHtml h)
    | FImport =>
      let* p := arg to_str "path"%string in
      let* r := load_cached (resolve_relative_path src p true) in ret (VDict (snd r))
    | FInclude =>
      let* p := arg to_str "path"%string in
      let* r := load_cached (resolve_relative_path src p true) in
      set_vars (snd r);;; ret (of_html (fst r))
    | FRaise => let* s := arg to_str "str"%string in fail (RuntimeErr (Raised s))
    end.
End Native.
