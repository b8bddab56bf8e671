(** Specification for C47 and C57: what a well-behaved program and a sound state are, and which panics remain possible. *)
From Verif Require Import Base M_Names M_Html S_Html M_Path M_Types M_Diag M_Ast M_Value M_State M_HtmlParse M_Native M_Eval S_Types S_Scope S_Call.

(** ** Checks on every part of a syntax tree *)

Record checks := Checks {
  c_call : name_expr -> bool;                (* the function of each call *)
  c_sig : signature -> bool;                 (* each signature of a function definition *)
  c_let : bool -> str -> expr -> bool;       (* each variable of a [@let]: whether implicit, its name and value *)
  c_name : str -> bool;                      (* each other name declared: of functions, exports and variables in patterns *)
  c_pattern : pattern -> bool;               (* each pattern *)
  c_written : str -> bool                    (* each name of a tag, an attribute, a named argument or an export *)
}.
Section Every.
  Variable C : checks.
  Fixpoint every_expr (e : expr) : bool :=
    match e with
    | EFuncCall _ f args content => c_call C f && forallb every_arg args && every_expr content
    | EFuncDef d => every_def d
    | ELetIn l => every_let l
    | EMatch v branches => every_expr v && forallb (fun b => every_pattern (fst b) && every_expr (snd b)) branches
    | EGroup ns => forallb every_node ns
    | EList l => forallb (fun x => every_expr (fst x)) l
    | ETag n attrs ns =>
      match n with TNLit n => c_written C n | TNName _ => true end && forallb every_attr attrs && forallb every_node ns
    | _ => true
    end
  with every_arg (a : arg) : bool := match a with Arg n _ e => (is_anonymous n || c_written C n) && every_expr e end
  with every_def (d : func_def) : bool := match d with FuncDef _ s body => every_sig s && every_expr body end
  with every_sig (s : signature) : bool := match s with Signature ps _ _ _ _ _ => c_sig C s && forallb every_param ps end
  with every_param (p : param) : bool := match p with Param _ _ _ _ d => match d with Some e => every_expr e | None => true end end
  with every_let (l : let_in) : bool :=
    match l with
    | LetIn imp vars child => forallb (fun ne => c_let C imp (fst ne) (snd ne) && every_expr (snd ne)) vars && every_expr child
    end
  with every_attr (a : tag_attr) : bool :=
    match a with
    | TAttr n _ v => c_written C n && match v with Some e => every_expr e | None => true end
    | TSpread e => every_expr e
    end
  with every_pattern (p : pattern) : bool :=
    c_pattern C p &&
    match p with
    | PVarName n | PTypeOf n => c_name C n
    | PEquals e => every_expr e
    | PAnd p q => every_pattern p && every_pattern q
    | POr p q names => every_pattern p && every_pattern q && forallb (c_name C) names
    | PRegex _ names => forallb (c_name C) names
    | PExactList ps | PSpreadList ps _ | PExactHtml ps | PSpreadHtml ps _ => forallb every_pattern ps
    | PDict attrs spread =>
      forallb (fun kp => every_pattern (snd kp)) attrs && match spread with Some p => every_pattern p | None => true end
    | PTag n a c => every_pattern n && every_pattern a && every_pattern c
    | _ => true
    end
  with every_node (n : node) : bool :=
    match n with
    | AExport e => every_export e
    | AExpr e => every_expr e
    | AFuncDef d => match d with FuncDef n _ _ => c_name C n end && every_def d
    | _ => true
    end
  with every_export (e : M_Ast.export) : bool :=
    match e with
    | ExNames vars => forallb (fun ne => c_name C (fst ne) && c_written C (fst ne) && every_expr (snd ne)) vars
    | ExLetIn l => match l with LetIn _ vars _ => forallb (fun ne => c_name C (fst ne) && c_written C (fst ne)) vars end && every_let l
    | ExFuncDef d => match d with FuncDef n _ _ => c_name C n && c_written C n end && every_def d
    end.
End Every.

(** ** Well-formed syntax trees, as the parser makes them *)

Section WellFormed.
  (** the number of groups of a regular expression *)
  Variable groups : str -> nat.
  (** There are at least as many parameters as the counts say (more, where there are syntax errors), and none is nameless. *)
  Definition wf_sig (s : signature) : bool :=
    let '(Signature ps np sp nn sn hc) := s in
    (np + (if sp then 1 else 0) + nn + (if sn then 1 else 0) + (if hc then 1 else 0) <=? length ps)
    && negb (mem n_anonymous (List.map param_name ps)).
  (** a spread pattern has a spread, and a regular expression a name for each group *)
  Definition wf_pattern (p : pattern) : bool :=
    match p with
    | PSpreadList ps i | PSpreadHtml ps i => i <? length ps
    | PRegex re names => groups re =? length names
    | _ => true
    end.
  Definition well_formed : checks := Checks (fun _ => true) wf_sig (fun _ _ _ => true) (fun _ => true) wf_pattern (fun _ => true).
End WellFormed.

(** ** A discipline for programs. No function is called by way of [?::]; no two parameters of a function have the same name;
    and there is a table [T] of the implicit names, which gives each of them a type: implicit parameters are declared with
    that type, implicit variables have literal values of that type, and these names are used for no other variables than
    those (and for parameters). *)

Fixpoint distinct (l : list str) : bool := match l with [] => true | x :: l => negb (mem x l) && distinct l end.
(** The value of a literal, the text of a template left out. *)
Definition literal (e : expr) : option value :=
  match e with
  | EUnit => Some UNIT
  | EBool b => Some (VBool b)
  | EInt i => Some (VInt i)
  | EBareString _ | EVerbatim _ | ETemplate _ => Some (VStr [])
  | _ => None
  end.
Section Discipline.
  Variable T : list (str * ty).
  Definition plain_name (n : str) : bool := negb (nhas T n).
  Definition disciplined_param (p : param) : bool :=
    let '(Param n question_mark is_implicit t _) := p in
    negb is_implicit || match ngetm T n with Some t' => ty_eqb t' (t_option_if t question_mark) | None => false end.
  Definition disciplined_sig (s : signature) : bool :=
    let '(Signature ps _ _ _ _ _) := s in distinct (List.map param_name ps) && forallb disciplined_param ps.
  Definition disciplined_let (imp : bool) (n : str) (e : expr) : bool :=
    if imp then match ngetm T n, literal e with Some t, Some v => check_value t v | _, _ => false end else plain_name n.
  Definition discipline : checks :=
    Checks (fun f => negb (is_coalescing f)) disciplined_sig disciplined_let plain_name (fun _ => true) (fun _ => true).
End Discipline.

(** ** Names without characters that are special in HTML, see [PlainName] *)
Definition is_plain (n : str) : bool :=
  negb (str_eqb n []) && forallb (fun c => negb (existsb (N.eqb c) [32; 9; 10; 12; 13; 34; 39; 47; 60; 61; 62]%N)) n.
(** Parsed HTML whose names are plain and whose void elements are empty; [low] turns names into lower case. *)
Inductive PlainDom (low : str -> str) : dom -> Prop :=
| PM_document ds : Forall (PlainDom low) ds -> PlainDom low (DDocument ds)
| PM_doctype : PlainDom low DDoctype
| PM_text s : PlainDom low (DText s)
| PM_comment : PlainDom low DComment
| PM_element n a ds : PlainName (low n) -> Forall (fun kv => PlainName (low (fst kv))) a -> (Void (low n) -> ds = []) -> Forall (PlainDom low) ds ->
    PlainDom low (DElement n a ds)
| PM_instruction : PlainDom low DProcessingInstruction.
Definition named : checks :=
  Checks (fun _ => true) (fun _ => true) (fun _ _ _ => true) (fun _ => true) (fun _ => true) is_plain.

(** ** Sound states *)

(** Whether programs are disciplined, and according to which table ([groups] as above); or whether names are plain *)
Inductive mode := Lax | Plain | Strict (groups : str -> nat) (T : list (str * ty)).
Definition Loose (m : mode) : Prop := match m with Strict _ _ => False | _ => True end.

Section Sound.
  Variable m : mode.

  Definition GoodExpr (e : expr) : Prop :=
    match m with
    | Lax => True
    | Plain => every_expr named e = true
    | Strict g T => every_expr (well_formed g) e = true /\ every_expr (discipline T) e = true
    end.
  Definition GoodNode (n : node) : Prop :=
    match m with
    | Lax => True
    | Plain => every_node named n = true
    | Strict g T => every_node (well_formed g) n = true /\ every_node (discipline T) n = true
    end.
  Definition GoodName (n : str) : Prop := match m with Strict _ T => plain_name T n = true | _ => True end.
  Definition GoodExportName (n : str) : Prop := GoodName n /\ (m = Plain -> PlainName n).

  (** An expression evaluated where type [t] is expected may give [v]. *)
  Definition Fits (t : ty) (v : value) : Prop := HasType t v \/ (Loose m /\ v = UNIT).

  Definition GoodHtml (h : html) : Prop := (Normal h /\ DistinctAttrs h) /\ (m = Plain -> PlainDoc h).
  Definition PlainKeys {A} (vs : nmap A) : Prop := m = Plain -> Forall PlainName (nkeys vs).

  (** Defaults have the types of their parameters. *)
  Definition GoodParam (p : fparam) : Prop :=
    (forall v, p_default p = Some v -> Fits (p_type p) v) /\
    match m with
    | Strict _ T => p_implicit p = true -> ngetm T (p_name p) = Some (p_type p)
    | _ => True
    end.
  Definition GoodSig (sig : fsig) : Prop :=
    Forall GoodParam (params sig) /\ match m with Strict _ _ => WfSig sig | _ => True end.
  (** Arguments bound beforehand have the types of their parameters, and there are as many positional ones as the count
      says. *)
  Definition GoodPartials (sig : fsig) (b : partials) : Prop :=
    NoDup (nkeys (pp_map b)) /\ NoDup (nkeys (pp_spread_named b)) /\ PlainKeys (pp_spread_named b) /\
    match m with
    | Strict _ _ =>
      (forall p v, In p (params sig) -> ngetm (pp_map b) (p_name p) = Some v -> HasType (p_type p) v) /\
      (forall i p, nth_error (s_positional sig) i = Some p -> i < pp_count b -> exists v, ngetm (pp_map b) (p_name p) = Some v)
    | _ => True
    end.
  (** [n] is the number of scopes there are. *)
  Fixpoint GoodFunc (n : nat) (f : func) : Prop :=
    match f with
    | FClosure _ c sig body => c < n /\ GoodSig sig /\ GoodExpr body
    | FNative g _ sig => sig = native_sig g
    | FBound f p => GoodFunc n f /\ GoodPartials (func_sig f) p
    end.
  Definition GoodRegex (r : regex_value) : Prop := m = Plain -> match rx_kind r with RNamed names => Forall PlainName names | _ => True end.
  Definition GoodHere (n : nat) (v : value) : Prop :=
    match v with
    | VHtml h => GoodHtml h /\ ~ IsText h
    | VDict vs => NoDup (nkeys vs) /\ PlainKeys vs
    | VFunc f => GoodFunc n f
    | VRegex r => GoodRegex r
    | _ => True
    end.
  (** The values a function holds: defaults and arguments bound beforehand *)
  Definition partial_values (b : partials) : list value :=
    pp_spread_pos b ++ nvalues (pp_spread_named b) ++ nvalues (pp_map b).
  Definition defaults (sig : fsig) : list value :=
    flat_map (fun p => match p_default p with Some v => [v] | None => [] end) (params sig ++ [s_content sig]).
  Fixpoint held (f : func) : list value :=
    match f with
    | FClosure _ _ sig _ | FNative _ _ sig => defaults sig
    | FBound f p => held f ++ partial_values p
    end.
  (** [Within v w]: [w] is [v], or is held in [v] at some depth. *)
  Inductive Within : value -> value -> Prop :=
  | W_here v : Within v v
  | W_list vs x v : In x vs -> Within x v -> Within (VList vs) v
  | W_dict vs x v : In x (nvalues vs) -> Within x v -> Within (VDict vs) v
  | W_func f x v : In x (held f) -> Within x v -> Within (VFunc f) v.
  Definition Good (n : nat) (v : value) : Prop := forall w, Within v w -> GoodHere n w.
  Definition GoodMap (n : nat) (vs : nmap value) : Prop := NoDup (nkeys vs) /\ Forall (Good n) (nvalues vs).

  Definition GoodFrame (n : nat) (f : frame) : Prop :=
    GoodMap n (fr_locals f) /\
    match m with
    | Strict _ T => forall k, In k (fr_implicit f) -> exists t, ngetm T k = Some t /\ forall v, ngetm (fr_locals f) k = Some v -> HasType t v
    | _ => True
    end.
  Definition GoodExports (n : nat) (vs : nmap value) : Prop := GoodMap n vs /\ Forall GoodExportName (nkeys vs).
  Definition GoodModule (n : nat) (ms : module_state) : Prop :=
    match ms with MLoaded out exports => GoodHtml out /\ GoodExports n exports | _ => True end.

  Record Sound (s : st) : Prop := {
    so_running : Running s;
    so_frames : Forall (GoodFrame (length (st_heap s))) (st_heap s);
    so_exports : GoodExports (length (st_heap s)) (st_exports s);
    so_modules : Forall (fun km => GoodModule (length (st_heap s)) (snd km)) (st_mods s);
    so_outputs : forall o, st_out s = Some o -> Forall (fun f => GoodHtml (snd f)) (M_Path.out_v o)
  }.
End Sound.

(** ** The panics that remain possible in disciplined programs *)

(** The document contains a processing instruction. *)
Fixpoint has_instruction (d : dom) : bool :=
  match d with
  | DProcessingInstruction => true
  | DDocument ds | DElement _ _ ds => existsb has_instruction ds
  | _ => false
  end.
(** In the parser (C15, C43), when it panics on the text of a source file; when the lines of a code block are indented alike (C08), in the highlighter, and when making a
    unique id (C02); of arithmetic, in a build with overflow checks; when a file listed by the file system is not a
    [.papyri] file; and when parsed HTML has a processing instruction. *)
Definition Remaining (X : externals) (c : fault) : Prop :=
  match c with
  | FParser => exists path text, x_read X path = Some text /\ parse_source X path text = Panic
  | FIndent | FHighlight | FUniqueId => True
  | FOverflow => x_checks X = true
  | FListing => exists dir errs files f, x_list_dir X dir = Some (errs, files) /\ In f files /\ forall stem, f <> stem ++ lit ".papyri"
  | FHtmlNode => exists s, has_instruction (snd (x_html_parse X s)) = true
  | _ => False
  end.
(** The regular expressions of patterns have as many groups as they seem to. *)
Definition GroupsAre (X : externals) (groups : str -> nat) : Prop :=
  forall re s gs, x_captures X re s = Some gs -> length gs = S (groups re).
(** The table has the one implicit parameter of the native functions, that of [@code] (native.rs:60). *)
Definition Covers (m : mode) : Prop := match m with Strict _ T => ngetm T (lit "language") = Some (TOptional TStr) | _ => True end.
