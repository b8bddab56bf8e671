(** Model of the evaluator: /repo/src/compiler/value.rs, names.rs, tag.rs, sequence.rs, exports.rs, func.rs and
    module_loader.rs, tying together M_Matcher, M_Binder, M_Native and M_Sequence. *)
From Verif Require Import Base M_Text M_Names M_TagInfo M_SliceRef M_Html M_Sequence M_Types M_Token M_Diag M_Queue M_Ast M_Parser M_Value
  M_State M_Matcher M_Binder M_Native.

(** The recursive methods of the compiler: [evaluate_node] and [evaluate_func_call_with_bindings]. value.rs:154-181 and func.rs:131-147. *)
Record evals := Evals {
  e_node : expr -> ty -> EM value;
  e_call : func -> nmap value -> ty -> str -> EM value
}.

(** The errors of M_Sequence as they are reported (sequence.rs:98-183) *)
Definition seq_err (e : seq_error) : papyri_error :=
  TypeErr match e with
          | TagNotAllowedIn t p => ETagNotAllowedIn t p
          | TagNotAllowed t => ETagNotAllowed t
          | NoContentAllowed => ENoContentAllowed
          | ParagraphBreakNotAllowed => EParagraphBreakNotAllowed
          end.

(** base.rs:25-34: run with a new compiler, which has its own call stack and exports, in the same context; also return the
    exports. *)
Definition with_compiler {A} (m : EM A) : EM (A * nmap value) :=
  fun s =>
    let i := length (st_heap s) in
    let back s' := set_stack (st_stack s) (set_exports (st_exports s) s') in
    match m (set_stack [i] (set_exports [] (set_heap (st_heap s ++ [Frame (Some (st_root s)) [] []]) s))) with
    | Ok a s' => Ok (a, st_exports s') (back s')
    | Err e s' => Err e (back s')
    | Crash f => Crash f
    | NoFuel => NoFuel
    end.
(** module_loader.rs:53-56 *)
Definition module_state_of (k : str) : EM (option module_state) := gets (fun s => ngetm (st_mods s) k).
(** module_loader.rs:58-66 and 119-136: compile the module [k] by [m], with no output collector *)
Definition load_module (k : str) (m : EM (html * nmap value)) : EM (html * nmap value) :=
  fun s =>
    let s1 := set_out None (set_trace (st_trace s ++ [k]) (set_mods (ninsert (st_mods s) k MBusy) s)) in
    let back r s' := set_mods (ninsert (st_mods s') k r) (set_out (st_out s) s') in
    match m s1 with
    | Ok (out, exports) s' => Ok (out, exports) (back (MLoaded out exports) s')
    | Err e s' => Err e (back MError s')
    | Crash f => Crash f
    | NoFuel => NoFuel
    end.

(** module_loader.rs:119-140 *)
Definition cached (path k : str) (m : EM (html * nmap value)) : EM (html * nmap value) :=
  let* state := module_state_of k in
  match state with
  | None => load_module k m
  | Some (MLoaded out exports) => ret (out, exports)
  | Some MBusy => fail (ModuleErr (CircularImport path))
  | Some MError => fail (ModuleErr (PreviousError path))
  end.

(** names.rs:10-49. It calls no user-defined function, so it recurs on the name only. *)
Fixpoint evaluate_name (n : name_expr) (hint : ty) : EM value :=
  or_report
    (let* v :=
       match n with
       | NSimple n => get_var n
       | NAttr subject coalescing attr =>
         let* v := evaluate_name subject TAny in
         let native := let* f := evaluate_native_attr v attr in ret (VFunc f) in
         if is_unit v && coalescing then ret UNIT
         else match v with
              | VDict vs => match ngetm vs attr with Some v => ret v | None => native end
              | VHtml (HTag t _ _) => if str_eqb attr n_tag_name then ret (VStr t) else native
              | _ => native
              end
       | NIndex subject coalescing i =>
         let* v := evaluate_name subject (t_option_if (TList TAny) coalescing) in
         let* l := to_opt to_list v in
         match l with
         | None => ret UNIT
         | Some vs =>
           let* r := pure FIndex (list_get (sr_from vs) i) in
           match r with Some v => ret v | None => fail (RuntimeErr (IndexOutOfRange i (length vs))) end
         end
       end in
     coerceM v hint).

(** module_loader.rs:164: [parser::parse], with the entities and regular expressions of the libraries *)
Definition parse_source (X : externals) (path text : str) : outcome (list node * list papyri_error) :=
  parse (x_decode X) (fun s => match x_regex X s with Some _ => true | None => false end) path text.

Section Step.
  Variable X : externals.
  Variable R : evals.

  (** func.rs:118-129 *)
  Definition evaluate_func_call (src : str) (f : name_expr) (l : list arg) (content : expr) (hint : ty) : EM value :=
    let* v := evaluate_name f (t_option_if TFunction (is_coalescing f)) in
    let* f := to_opt to_func v in
    match f with
    | None => ret UNIT
    | Some f =>
      let* bs := or_report (bind_call (e_node R) f l content) in
      e_call R f bs hint src
    end.

  (** value.rs:226-239 *)
  Fixpoint let_vars (vars : list (str * expr)) (is_implicit do_export : bool) : EM unit :=
    match vars with
    | [] => ret tt
    | (n, e) :: vars =>
      let* v := e_node R e TAny in
      (if do_export then export n v else ret tt);;;
      set_var n v is_implicit;;;
      let_vars vars is_implicit do_export
    end.
  (** value.rs:226-239 *)
  Definition evaluate_let_in (l : let_in) (hint : ty) (do_export : bool) : EM value :=
    let '(LetIn is_implicit vars child) := l in
    in_child_frame (let_vars vars is_implicit do_export;;; e_node R child hint).

  (** value.rs:183-199 *)
  Fixpoint list_items (l : list (expr * bool)) (hint : ty) : EM (list value) :=
    match l with
    | [] => ret []
    | (e, is_spread) :: l =>
      let* vs := if is_spread then let* v := e_node R e (TList hint) in to_list v
                 else let* v := e_node R e hint in ret [v] in
      let* rest := list_items l hint in ret (vs ++ rest)
    end.
  (** value.rs:183-199 *)
  Definition evaluate_list (l : list (expr * bool)) (hint : ty) : EM value :=
    let* vs := list_items l (component_type hint) in
    or_report (coerceM (VList vs) hint).

  (** value.rs:201-224 *)
  Fixpoint template_text (ps : list template_part) : EM str :=
    match ps with
    | [] => ret []
    | p :: ps =>
      let* s := match p with
                | TPLit s => ret s
                | TPChar c => ret [c]
                | TPName n =>
                  let* v := evaluate_name n (t_option TStr) in
                  let* s := to_opt to_str v in
                  ret match s with Some s => s | None => [] end
                | TPWhitespace => ret (lit " ")
                end in
      let* rest := template_text ps in ret (s ++ rest)
    end.

  (** exports.rs:16-37 *)
  Fixpoint export_names (vars : list (str * expr)) : EM unit :=
    match vars with
    | [] => ret tt
    | (n, e) :: vars => let* v := e_node R e TAny in export n v;;; export_names vars
    end.
  (** exports.rs:16-37 *)
  Definition compile_export (e : M_Ast.export) : EM unit :=
    match e with
    | ExNames vars => export_names vars
    | ExLetIn l => evaluate_let_in l TUnit true;;; ret tt
    | ExFuncDef d =>
      let* f := compile_func_def (e_node R) d in
      export (func_name f) (VFunc f);;; set_var (func_name f) (VFunc f) false
    end.

  (** value.rs:246-258 *)
  Definition compile_code_fence (src text : str) (is_multiline : bool) : EM html :=
    let* v := get_var (if is_multiline then n_code_block else n_code) in
    let* v := coerceM v TFunction in
    let* f := to_func v in
    let* bs := bind_synthetic_call f true (VStr (get_verbatim_text text)) in
    let* v := e_call R f bs (if is_multiline then TBlock else TInline) src in
    to_htmlM v.

  (** sequence.rs:42-65: the error, if any, and the builder afterwards *)
  Definition push_piece (h : html) (b : builder) : EM (option papyri_error * builder) :=
    let* r := pure FSequence (b_push push_fuel h b) in
    ret (match fst r with Some e => Some (seq_err e) | None => None end, snd r).
  (** evaluate a piece of HTML and push it; an error while evaluating leaves the builder alone. sequence.rs:42-65 *)
  Definition push_result (m : EM html) (b : builder) : EM (option papyri_error * builder) :=
    let* r := catch m in
    match r with inl h => push_piece h b | inr e => ret (Some e, b) end.
  (** sequence.rs:42-65, for nodes that are not content *)
  Definition no_piece (m : EM unit) (b : builder) : EM (option papyri_error * builder) :=
    let* r := catch m in
    ret (match r with inl _ => None | inr e => Some e end, b).
  (** sequence.rs:42-65 *)
  Definition compile_node (n : node) (b : builder) : EM (option papyri_error * builder) :=
    match n with
    | AExport e => no_piece (compile_export e) b
    | AExpr e => push_result (let* v := e_node R e THtml in to_htmlM v) b
    | AFuncDef d =>
      no_piece (let* f := compile_func_def (e_node R) d in
                set_var (let '(FuncDef n _ _) := d in n) (VFunc f) false) b
    | ACodeFence src text is_multiline => push_result (compile_code_fence src text is_multiline) b
    | AText s => push_piece (html_text s) b
    | AChar c => push_piece (html_text [c]) b
    | AWhitespace => push_piece HWhitespace b
    | AParagraphBreak =>
      let r := b_newline b in
      ret (match fst r with Some e => Some (seq_err e) | None => None end, snd r)
    end.
  (** sequence.rs:27-40 *)
  Fixpoint compile_nodes (ns : list node) (b : builder) : EM builder :=
    match ns with
    | [] => ret b
    | n :: ns =>
      let* r := compile_node n b in
      match fst r with Some e => report e | None => ret tt end;;;
      compile_nodes ns (snd r)
    end.
  (** sequence.rs:19-40 *)
  Definition compile_sequence (ns : list node) (kind : content_kind) (parent : option str) : EM html :=
    let* b := compile_nodes ns (b_new kind parent) in
    match b_into_html b with
    | inl h => ret h
    | inr e => report (seq_err e);;; ret HEmpty
    end.

  (** tag.rs:95-112; the names of the predefined [!DOCTYPE] tag are recognised whatever their case *)
  Definition compile_tag_name (n : tag_name) : EM str :=
    match n with
    | TNLit n => ret n
    | TNName n =>
      let* v := evaluate_name n TStr in
      let* s := to_str v in
      if is_identifier s then ret (List.map to_ascii_lower s)
      else if str_eqb (List.map to_ascii_lower s) (lit "!doctype") then ret n_doctype
      else report (NameErr (InvalidTag s));;; fail AlreadyReported
    end.
  (** tag.rs:114-120 *)
  Definition add_attr (attrs : nmap (option str)) (n : str) (v : option str) : EM (nmap (option str)) :=
    if nhas attrs n then report (RuntimeErr (AttrMultipleValues n));;; fail AlreadyReported
    else ret (ninsert attrs n v).
  (** the loop over spread attributes, tag.rs:62-93 *)
  Fixpoint add_attrs (attrs : nmap (option str)) (l : list (str * option str)) : EM (nmap (option str)) :=
    match l with
    | [] => ret attrs
    | (n, v) :: l => let* attrs := add_attr attrs n v in add_attrs attrs l
    end.
  (** tag.rs:66-88 *)
  Fixpoint compile_attrs (l : list tag_attr) (attrs : nmap (option str)) : EM (nmap (option str)) :=
    match l with
    | [] => ret attrs
    | a :: l =>
      let* attrs :=
        match a with
        | TAttr n question_mark (Some e) =>
          let* v := e_node R e (t_option_if TStr question_mark) in
          let* s := to_opt to_str v in
          match s with Some s => add_attr attrs n (Some s) | None => ret attrs end
        | TAttr n _ None => add_attr attrs n None
        | TSpread e =>
          let* v := e_node R e (TDict (t_option TStr)) in
          let* vs := to_dict v in
          let* l := to_each (fun v => to_opt to_str v) (nvalues vs) in
          add_attrs attrs (combine (nkeys vs) l)
        end in
      compile_attrs l attrs
    end.
  (** tag.rs:62-93 *)
  Definition compile_tag (n : tag_name) (l : list tag_attr) (children : list node) : EM html :=
    let* n := compile_tag_name n in
    let* attrs := compile_attrs l [] in
    let* c := compile_sequence children (content_kind_for n) (Some n) in
    ret (HTag n attrs c).

  (** value.rs:154-181 *)
  Definition evaluate_node (e : expr) (hint : ty) : EM value :=
    let coerced (m : EM value) : EM value := let* v := m in or_report (coerceM v hint) in
    match e with
    | EUnit => coerced (ret UNIT)
    | EBool b => coerced (ret (VBool b))
    | EInt i => coerced (ret (VInt i))
    | EBareString s => coerced (ret (VStr s))
    | EVerbatim s => coerced (ret (VStr (get_verbatim_text s)))
    | EFuncCall src f l content => evaluate_func_call src f l content hint
    | EFuncDef d =>
      let* f := compile_func_def (e_node R) d in
      if t_is_html hint then report (TypeErr (ExpectedWas hint TFunction));;; fail AlreadyReported
      else coerced (ret (VFunc f))
    | ELetIn l => evaluate_let_in l hint false
    | EMatch subject branches => evaluate_match (e_node R) (x_captures X) subject branches hint
    | EName n => evaluate_name n hint
    | ETemplate ps => coerced (let* s := template_text ps in ret (VStr s))
    | EGroup ns => coerced (let* h := compile_sequence ns (AllowBlock n_p) None in ret (of_html h))
    | ETag n l children => coerced (let* h := compile_tag n l children in ret (VHtml h))
    | EList l => evaluate_list l hint
    end.

  (** module_loader.rs:163-171 *)
  Definition compile_source (path text : str) (kind : content_kind) : EM (html * nmap value) :=
    let* r := pure FParser (parse_source X path text) in let '(root, errs) := r in
    report_all errs;;; with_compiler (compile_sequence root kind None).
  (** module_loader.rs:94-98 *)
  Definition load_uncached (path : str) : EM (html * nmap value) :=
    match x_read X path with
    | Some text => compile_source path text (RequireBlock n_p)
    | None => fail (ModuleErr (IOError path))
    end.
  (** module_loader.rs:109-141 *)
  Definition load_cached (path : str) : EM (html * nmap value) :=
    match x_canonicalize X path with
    | None => fail (ModuleErr (IOError path))
    | Some k =>
      cached path k (load_uncached path)
    end.

  (** func.rs:131-146 *)
  Fixpoint evaluate_call (f : func) (bs : nmap value) (hint : ty) (src : str) : EM value :=
    match f with
    | FClosure _ closure _ body =>
      in_call_frame closure bs (e_node R body hint)
    | FNative g _ _ =>
      or_report (let* v := evaluate_native_func X (e_call R) load_cached g bs src in coerceM v hint)
    | FBound f _ => evaluate_call f bs hint src
    end.

  (** value.rs:154-181 and func.rs:131-147 *)
  Definition step : evals := Evals evaluate_node evaluate_call.
End Step.

(** The evaluator with recursion bounded by [fuel] (the code recurses on the machine stack, without a bound of its own). value.rs:154-181 and func.rs:131-147, calling each other. *)
Fixpoint evals_n (X : externals) (fuel : nat) : evals :=
  match fuel with
  | 0 => Evals (fun _ _ _ => NoFuel) (fun _ _ _ _ _ => NoFuel)
  | S fuel => step X (evals_n X fuel)
  end.

(** context.rs:46-62 before the standard library is compiled: the only frame is that of the native functions. *)
Definition context_start (level : level) (out_dir : option str) : st :=
  St [native_frame] [] (sink_new level) [] [] (match out_dir with Some d => Some (M_Path.out_files_new d) | None => None end)
     [] 0 [].
Section Run.
  Variable X : externals.
  (** the text of src/std.papyri *)
  Variable stdlib : str.
  Variable fuel : nat.

  (** module_loader.rs:145-161 *)
  Definition compile_stdlib : EM unit :=
    let* r := compile_source X (evals_n X fuel) (lit "<stdlib>") stdlib RequireEmpty in
    let* base := gets st_root in
    let* i := new_frame (Some base) (snd r) in
    modify (set_root i);;;
    let* d := gets st_sink in
    if sink_is_empty d then ret tt else crash FStdlib.
  (** context.rs:46-62 *)
  Definition context_new (level : level) (out_dir : option str) : res unit := compile_stdlib (context_start level out_dir).
  (** module_loader.rs:81-83: compile a source text, as from a file at [path] *)
  Definition compile (path text : str) : EM (html * nmap value) :=
    compile_source X (evals_n X fuel) path text (RequireBlock n_p).
  (** context.rs:82-88 *)
  Definition reset : EM unit :=
    modify (fun s => set_sink (sink_clear (st_sink s)) s);;;
    modify (set_uids []);;;
    let* o := gets st_out in
    match o with Some o => if M_Path.out_is_empty o then ret tt else crash FUncollected | None => ret tt end.
End Run.
