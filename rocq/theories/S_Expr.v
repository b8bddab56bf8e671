(** What expressions evaluate to (C62): the rules of the language, one for each form of expression. *)
From Verif Require Import Base M_Text M_Names M_TagInfo M_Html M_Sequence M_Types M_Token M_Diag M_Ast M_Value M_State M_Matcher M_Binder M_Native M_Eval S_Scope S_Match S_Util.

Definition reported (e : papyri_error) (s : st) : st := set_sink (sink_add e (st_sink s)) s.

Section Expr.
  Variable X : externals.

  (** Evaluating [e], where a value of type [t] is expected, starting in state [s], gives [v] and state [s']. *)
  Definition Yields (e : expr) (t : ty) (s : st) (v : value) (s' : st) : Prop := exists fuel, e_node (evals_n X fuel) e t s = Ok v s'.
  (** ... fails, having reported why. *)
  Definition Fails (e : expr) (t : ty) (s s' : st) : Prop := exists fuel, e_node (evals_n X fuel) e t s = Err AlreadyReported s'.
  (** A call of the function [f] whose parameters have the values [bs] gives [v]. *)
  Definition Calls (f : func) (bs : nmap value) (t : ty) (src : str) (s : st) (v : value) (s' : st) : Prop :=
    exists fuel, e_call (evals_n X fuel) f bs t src s = Ok v s'.

  (** ** Literals *)
  Inductive Literal : expr -> value -> Prop :=
  | lit_unit : Literal EUnit UNIT
  | lit_bool b : Literal (EBool b) (VBool b)
  | lit_int i : Literal (EInt i) (VInt i)
  | lit_str x : Literal (EBareString x) (VStr x)
  (** in as many backticks as it needs *)
  | lit_verbatim k x : (forall y, x <> lit "`" ++ y) -> (forall y, x <> y ++ lit "`") ->
      Literal (EVerbatim (repeat 96%N k ++ x ++ repeat 96%N k)) (VStr x).

  (** ** Names: variables (C27), attributes and elements *)
  Inductive Names (s : st) : name_expr -> value -> Prop :=
  | nm_variable n v : get_var n s = Ok v s -> Names s (NSimple n) v
  (** nothing has no attributes and no elements, but may be asked for them with [?::] *)
  | nm_no_attr x a : Names s x UNIT -> Names s (NAttr x true a) UNIT
  | nm_no_element x i : Names s x UNIT -> Names s (NIndex x true i) UNIT
  | nm_entry x c a vs v : Names s x (VDict vs) -> ngetm vs a = Some v -> Names s (NAttr x c a) v
  | nm_tag_name x c n a h : Names s x (VHtml (HTag n a h)) -> Names s (NAttr x c (lit "tag_name")) (VStr n)
  (** a method: a function of the language applied to the value (C34) *)
  | nm_method x c a v f : Names s x v -> (v = UNIT -> c = false) -> (forall vs w, v = VDict vs -> ngetm vs a <> Some w) ->
      (forall n l h, v = VHtml (HTag n l h) -> a <> lit "tag_name") ->
      evaluate_native_attr v a s = Ok f s -> Names s (NAttr x c a) (VFunc f)
  (** elements are counted from 0, or from -1 backwards *)
  | nm_element x c i vs v : Names s x (VList vs) -> ElementAt vs i v -> Names s (NIndex x c i) v.

  (** ** Templates *)
  Inductive TextOf (s : st) : list template_part -> str -> Prop :=
  | tx_nil : TextOf s [] []
  | tx_lit x ps y : TextOf s ps y -> TextOf s (TPLit x :: ps) (x ++ y)
  | tx_char c ps y : TextOf s ps y -> TextOf s (TPChar c :: ps) (c :: y)
  | tx_space ps y : TextOf s ps y -> TextOf s (TPWhitespace :: ps) (lit " " ++ y)
  | tx_name n v x ps y : Names s n v -> coerce (TOptional TStr) v = inl (VStr x) -> TextOf s ps y -> TextOf s (TPName n :: ps) (x ++ y)
  | tx_nothing n ps y : Names s n UNIT -> TextOf s ps y -> TextOf s (TPName n :: ps) y.

  (** ** Lists *)
  (** what the elements of a list are expected to be *)
  Inductive ElementType : ty -> ty -> Prop :=
  | et_list u : ElementType (TList u) u
  | et_dict u : ElementType (TDict u) u
  | et_block : ElementType TBlock THtml
  | et_html : ElementType THtml THtml
  | et_optional t u : ElementType t u -> ElementType (TOptional t) u
  | et_other t : In t [TAny; TUnit; TBool; TInt; TStr; TInline; TFunction; TRegex] -> ElementType t TAny.
  Inductive Items (u : ty) : list (expr * bool) -> st -> list value -> st -> Prop :=
  | it_nil s : Items u [] s [] s
  | it_item e l s v s1 vs s2 : Yields e u s v s1 -> Items u l s1 vs s2 -> Items u ((e, false) :: l) s (v :: vs) s2
  | it_spread e l s us s1 vs s2 : Yields e (TList u) s (VList us) s1 -> Items u l s1 vs s2 -> Items u ((e, true) :: l) s (us ++ vs) s2.

  (** ** Tags *)
  Inductive TagNamed (s : st) : tag_name -> str -> Prop :=
  | tn_lit n : TagNamed s (TNLit n) n
  | tn_name x v n : Names s x v -> coerce TStr v = inl (VStr n) -> is_identifier n = true -> TagNamed s (TNName x) (List.map to_ascii_lower n)
  | tn_doctype x v n : Names s x v -> coerce TStr v = inl (VStr n) -> List.map to_ascii_lower n = lit "!doctype" ->
      TagNamed s (TNName x) n_doctype.
  (** [Attributes l a s a' s']: the attributes [l], after those in [a], give [a'] in all. No name occurs twice. *)
  Inductive Attributes : list tag_attr -> nmap (option str) -> st -> nmap (option str) -> st -> Prop :=
  | at_nil a s : Attributes [] a s a s
  | at_flag n q l a s a' s' : ~ In n (nkeys a) -> Attributes l (a ++ [(n, None)]) s a' s' -> Attributes (TAttr n q None :: l) a s a' s'
  | at_value n (q : bool) e l a s x s1 a' s' : Yields e (if q then TOptional TStr else TStr) s (VStr x) s1 -> ~ In n (nkeys a) ->
      Attributes l (a ++ [(n, Some x)]) s1 a' s' -> Attributes (TAttr n q (Some e) :: l) a s a' s'
  (** the [?] says that the value may be nothing (but see C47: a coalescing call may be nothing where that is not expected) *)
  | at_nothing n (q : bool) e l a s s1 a' s' : Yields e (if q then TOptional TStr else TStr) s UNIT s1 ->
      Attributes l a s1 a' s' -> Attributes (TAttr n q (Some e) :: l) a s a' s'
  | at_spread e l a s d s1 a' s' : Yields e (TDict (TOptional TStr)) s (VDict (attr_values d)) s1 -> NoDup (nkeys (a ++ d)) ->
      Attributes l (a ++ d) s1 a' s' -> Attributes (TSpread e :: l) a s a' s'.

  (** ** Scopes *)
  (** in a new scope inside scope [i], with local variables [l] *)
  Definition entered (i : nat) (l : nmap value) (s : st) : st :=
    set_stack (length (st_heap s) :: st_stack s) (set_heap (st_heap s ++ [Frame (Some i) l []]) s).
  Definition left_scope (s : st) : st := set_stack (List.tl (st_stack s)) s.
  (** [n] is exported, with a warning if it was already *)
  Definition exported (n : str) (v : value) (s : st) : st :=
    let s' := set_exports (ninsert (st_exports s) n v) s in
    if nhas (st_exports s) n then reported (Warn (NameAlreadyExported n)) s' else s'.
  (** the variables are declared (C27, C28) one after the other in the current scope, and exported first if [ex] *)
  Inductive Introduces (imp ex : bool) : list (str * expr) -> st -> st -> Prop :=
  | dc_nil s : Introduces imp ex [] s s
  | dc_var n e l s v s1 s2 s3 : Yields e TAny s v s1 -> set_var n v imp (if ex then exported n v s1 else s1) = Ok tt s2 -> Introduces imp ex l s2 s3 ->
      Introduces imp ex ((n, e) :: l) s s3.
  (** the value of a let: the variables are declared in a new scope, and the body is evaluated there *)
  Inductive LetYields (ex : bool) : let_in -> ty -> st -> value -> st -> Prop :=
  | let_yields imp vars body t s i v s1 s2 : hd_error (st_stack s) = Some i -> i < length (st_heap s) ->
      Introduces imp ex vars (entered i [] s) s1 -> Yields body t s1 v s2 -> LetYields ex (LetIn imp vars body) t s v (left_scope s2).

  (** ** Pattern matching *)
  (** Trying the pattern on the value (C29) gives [b]; if it matches, its variables are declared in the current scope. *)
  Definition Matches (p : pattern) (v : value) (s : st) (b : bool) (s' : st) : Prop :=
    exists fuel, bind_pattern (e_node (evals_n X fuel)) (x_captures X) p v s = Ok b s'.
  (** the branches are tried in order, each in a scope of its own *)
  Inductive Branches (v : value) (t : ty) : list (pattern * expr) -> st -> value -> st -> Prop :=
  | bc_taken p e l s i s1 w s2 : hd_error (st_stack s) = Some i -> i < length (st_heap s) -> Matches p v (entered i [] s) true s1 ->
      Yields e t s1 w s2 -> Branches v t ((p, e) :: l) s w (left_scope s2)
  | bc_next p e l s i s1 w s2 : hd_error (st_stack s) = Some i -> i < length (st_heap s) -> Matches p v (entered i [] s) false s1 ->
      Branches v t l (left_scope s1) w s2 -> Branches v t ((p, e) :: l) s w s2.

  (** ** Functions *)
  (** the function defined by [d]: its body belongs to the current scope; the signature is as described by C32 *)
  Inductive Defines : func_def -> st -> func -> st -> Prop :=
  | defines n sg body s i sig s' fuel : hd_error (st_stack s) = Some i ->
      compile_func_signature (e_node (evals_n X fuel)) sg s = Ok sig s' -> Defines (FuncDef n sg body) s (FClosure n i sig body) s'.
  (** the arguments of a call give the parameters the values [bs] (C32) *)
  Definition Binding (f : func) (args : list arg) (content : expr) (s : st) (bs : nmap value) (s' : st) : Prop :=
    exists fuel, bind_call (e_node (evals_n X fuel)) f args content s = Ok bs s'.

  (** ** Content *)
  (** a code fence calls [code_block] if it takes several lines, and [code] otherwise, with the text and the implicit arguments *)
  Inductive FenceYields (src text : str) (multi : bool) (s : st) : html -> st -> Prop :=
  | fence_yields f bs v h s1 s' : Names s (NSimple (if multi then lit "code_block" else lit "code")) (VFunc f) ->
      bind_synthetic_call f true (VStr (get_verbatim_text text)) s = Ok bs s1 ->
      Calls f bs (if multi then TBlock else TInline) src s1 v s' -> to_html v = Some h -> FenceYields src text multi s h s'.
  (** the node adds a piece of content *)
  Inductive Adds : node -> st -> item -> st -> Prop :=
  | ad_expr e s v h s' : Yields e THtml s v s' -> to_html v = Some h -> Adds (AExpr e) s (Piece h) s'
  | ad_text x s : Adds (AText x) s (Piece (html_text x)) s
  | ad_char c s : Adds (AChar c) s (Piece (html_text [c])) s
  | ad_space s : Adds AWhitespace s (Piece HWhitespace) s
  | ad_break s : Adds AParagraphBreak s ParagraphBreak s
  | ad_fence src text multi s h s' : FenceYields src text multi s h s' -> Adds (ACodeFence src text multi) s (Piece h) s'.
  (** the node is a declaration, which adds nothing *)
  Inductive Exports : list (str * expr) -> st -> st -> Prop :=
  | exps_nil s : Exports [] s s
  | exps_var n e l s v s1 s2 : Yields e TAny s v s1 -> Exports l (exported n v s1) s2 -> Exports ((n, e) :: l) s s2.
  Inductive Effects : node -> st -> st -> Prop :=
  | ef_function n sg body s f s1 s' : Defines (FuncDef n sg body) s f s1 -> set_var n (VFunc f) false s1 = Ok tt s' ->
      Effects (AFuncDef (FuncDef n sg body)) s s'
  | ef_export_names l s s' : Exports l s s' -> Effects (AExport (ExNames l)) s s'
  | ef_export_let l s v s' : LetYields true l TUnit s v s' -> Effects (AExport (ExLetIn l)) s s'
  | ef_export_function n sg body s f s1 s' : Defines (FuncDef n sg body) s f s1 -> set_var n (VFunc f) false (exported n (VFunc f) s1) = Ok tt s' ->
      Effects (AExport (ExFuncDef (FuncDef n sg body))) s s'.
  (** evaluating the node fails *)
  Inductive Breaks : node -> st -> papyri_error -> st -> Prop :=
  | br_expr e s s' : Fails e THtml s s' -> Breaks (AExpr e) s AlreadyReported s'
  | br_export e s err s' fuel : compile_export (evals_n X fuel) e s = Err err s' -> Breaks (AExport e) s err s'
  | br_fence src text multi s err s' fuel : compile_code_fence (evals_n X fuel) src text multi s = Err err s' ->
      Breaks (ACodeFence src text multi) s err s'.
  (** The errors about the pieces of content put one after the other where content of the kind [k] is required (C24) *)
  Definition refusals (k : content_kind) (parent : option str) (items : list item) : list papyri_error :=
    match b_items items (b_new k parent) with Ret (es, _) => List.map seq_err es | _ => [] end.
  Definition told (k : content_kind) (parent : option str) (before : list item) (i : item) (s : st) : st :=
    fold_left (fun s e => reported e s) (skipn (length (refusals k parent before)) (refusals k parent (before ++ [i]))) s.
  (** [Contents k parent ns before s items s']: the nodes, after the pieces [before], give the pieces [items] in all. A node that
      fails adds nothing; the others add the same as without it. *)
  Inductive Contents (k : content_kind) (parent : option str) : list node -> list item -> st -> list item -> st -> Prop :=
  | ct_nil before s : Contents k parent [] before s before s
  | ct_adds n ns before s i s1 items s' : Adds n s i s1 -> Contents k parent ns (before ++ [i]) (told k parent before i s1) items s' ->
      Contents k parent (n :: ns) before s items s'
  | ct_effects n ns before s s1 items s' : Effects n s s1 -> Contents k parent ns before s1 items s' -> Contents k parent (n :: ns) before s items s'
  | ct_breaks n ns before s e s1 items s' : Breaks n s e s1 -> Contents k parent ns before (reported e s1) items s' ->
      Contents k parent (n :: ns) before s items s'.
  (** The document made of the nodes: that of their pieces, as content of the kind [k] (C24-C26). *)
  Inductive Makes (k : content_kind) (parent : option str) (ns : list node) (s : st) : html -> st -> Prop :=
  | makes items s' es h : Contents k parent ns [] s items s' -> compile_items k parent items = Ret (es, h) ->
      refusals k parent items = List.map seq_err es -> Makes k parent ns s h s'
  | makes_not items s' es e h : Contents k parent ns [] s items s' -> compile_items k parent items = Ret (es ++ [e], h) ->
      refusals k parent items = List.map seq_err es -> Makes k parent ns s h (reported (seq_err e) s').
  (** ** Documents *)
  (** in the scope of a new document: a scope inside the standard library's, on a call stack of its own, and with no exports yet *)
  Definition begun (s : st) : st :=
    set_stack [length (st_heap s)] (set_exports [] (set_heap (st_heap s ++ [Frame (Some (st_root s)) [] []]) s)).
  (** A text gives a document [h] and exports [ex]: the errors of the parser (C43-C46, C54) are reported; the nodes it finds give the
      document; afterwards the call stack and the exports of whatever asked for the document are as before. *)
  Inductive DocumentOf (path text : str) (s : st) : html -> nmap value -> st -> Prop :=
  | document_of root errs h s1 : parse_source X path text = Ret (root, errs) ->
      Makes (RequireBlock n_p) None root (begun (fold_left (fun s e => reported e s) errs s)) h s1 ->
      DocumentOf path text s h (st_exports s1) (set_stack (st_stack s) (set_exports (st_exports s) s1)).
End Expr.
