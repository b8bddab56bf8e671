(** The grammar of Papyri documents, over tokens without comments. [Expr toks rest e] says that [toks] starts with the
    expression [e] and that [rest] is left behind it; and likewise for the other phrases. *)
From Verif Require Import Base M_Names M_TagInfo M_Token M_Types M_Ast S_Front S_TextSubs.

Definition tokens := list token.
(** The next token satisfies [P]. *)
Definition Next (P : token -> Prop) (toks : tokens) : Prop := exists t l, toks = t :: l /\ P t.
Definition Is (k : token_kind) (t : token) : Prop := tk_kind t = k.

(** White space is skipped wherever it may occur. *)
Inductive Skip : tokens -> tokens -> Prop :=
| skip_white t l : White t -> Skip (t :: l) l
| skip_none toks : ~ Next White toks -> Skip toks toks.
(** An optional token: present exactly if it is next *)
Inductive Optional (k : token_kind) : tokens -> tokens -> bool -> Prop :=
| opt_some t l : Is k t -> Optional k (t :: l) l true
| opt_none toks : ~ Next (Is k) toks -> Optional k toks toks false.

(** ** Words *)
Definition Letter (c : char) : Prop := (65 <= c <= 90 \/ 97 <= c <= 122 \/ c = 95)%N.
Definition HexDigits (s : str) : Prop := forallb is_ascii_hexdigit s = true.
(** What the tokenizer makes sure of *)
Inductive Lexeme : token_kind -> str -> Prop :=
| lex_name c n : Letter c -> Lexeme Name (c :: n)
| lex_var n : n <> [] -> Lexeme VarName (lit "$" ++ n)
| lex_func n : n <> [] -> Lexeme FuncName (lit "@" ++ n)
| lex_question : Lexeme QuestionMark (lit "?")
| lex_close n : Lexeme CloseTag (lit "</" ++ n ++ lit ">")
| lex_numeric c n digits : EscapeDigits c n -> length digits = n -> HexDigits digits -> Lexeme Escape (lit "\" ++ c :: digits)
| lex_escape c : (forall n, ~ EscapeDigits c n) -> Lexeme Escape (lit "\" ++ [c])
| lex_other k s : ~ In k [Comment; Name; VarName; FuncName; QuestionMark; CloseTag; Escape] -> Lexeme k s.
Definition LexTok (t : token) : Prop := Lexeme (tk_kind t) (tk_text t).
(** The name in a name, variable or function token *)
Inductive NameOf : token -> str -> Prop :=
| no_name t : Is Name t -> NameOf t (tk_text t)
| no_var t c n : Is VarName t -> tk_text t = c :: n -> NameOf t n
| no_func t c n : Is FuncName t -> tk_text t = c :: n -> NameOf t n.
(** An integer: an optional sign and decimal digits, in the range of 64 bits *)
Definition IntLiteral (s : str) (z : Z) : Prop :=
  (- 2 ^ 63 <= z < 2 ^ 63)%Z /\
  exists ds n, ds <> [] /\ DecValue ds n /\ (s = ds /\ z = Z.of_N n \/ s = 43%N :: ds /\ z = Z.of_N n \/ s = 45%N :: ds /\ z = (- Z.of_N n)%Z).
(** The character an escape sequence stands for *)
Inductive EscapeMeans : str -> char -> Prop :=
| em_numeric b c n digits code : EscapeDigits c n -> length digits = n -> HexValue digits code ->
    (code < 1114112)%N -> ~ Surrogate code -> EscapeMeans (b :: c :: digits) code
| em_newline b l : EscapeMeans (b :: 110%N :: l) 10%N
| em_tab b l : EscapeMeans (b :: 116%N :: l) 9%N
| em_other b c l : (forall n, ~ EscapeDigits c n) -> c <> 110%N -> c <> 116%N -> EscapeMeans (b :: c :: l) c.
(** Lower case of a name; names are equal up to case if their lower cases are *)
Definition lowered (s : str) : str := List.map (fun c => if ((65 <=? c) && (c <=? 90))%N then (c + 32)%N else c) s.

(** ** Names with accesses: [$x], [$x::attr], [$x::3], [$x?::attr] *)
Definition Access (t : token) : Prop := Is DoubleColon t \/ Is QuestionMarkDoubleColon t.
Definition Coalescing (t : token) (c : bool) : Prop := Is (if c then QuestionMarkDoubleColon else DoubleColon) t.
Inductive Path : name_expr -> tokens -> tokens -> name_expr -> Prop :=
| path_end n toks : ~ Next Access toks -> Path n toks toks n
| path_attr n t c a x toks rest m : Coalescing t c -> Is Name a -> NameOf a x -> Path (NAttr n c x) toks rest m ->
    Path n (t :: a :: toks) rest m
| path_index n t c a i toks rest m : Coalescing t c -> Is Number a -> IntLiteral (tk_text a) i ->
    Path (NIndex n c i) toks rest m -> Path n (t :: a :: toks) rest m.
(** The token has been read. *)
Definition Named (t : token) (toks rest : tokens) (m : name_expr) : Prop :=
  exists n, NameOf t n /\ Path (NSimple n) toks rest m.

(** ** Types: a base type, then [list], [dict] or [?], any number of times *)
Definition base_types : list (str * ty) :=
  [(lit "any", TAny); (lit "none", TUnit); (lit "html", THtml); (lit "block", TBlock); (lit "inline", TInline);
   (lit "bool", TBool); (lit "int", TInt); (lit "str", TStr); (lit "function", TFunction); (lit "regex", TRegex);
   (lit "list", TList TAny); (lit "dict", TDict TAny)].
Inductive TypeSuffix : ty -> tokens -> tokens -> ty -> Prop :=
| ts_end t toks rest : Skip toks rest -> ~ Next (fun a => Is Name a \/ Is QuestionMark a) rest -> TypeSuffix t toks rest t
| ts_list t toks a l rest u : Skip toks (a :: l) -> Is Name a -> tk_text a = lit "list" -> TypeSuffix (TList t) l rest u ->
    TypeSuffix t toks rest u
| ts_dict t toks a l rest u : Skip toks (a :: l) -> Is Name a -> tk_text a = lit "dict" -> TypeSuffix (TDict t) l rest u ->
    TypeSuffix t toks rest u
| ts_optional t toks a l rest u : Skip toks (a :: l) -> Is QuestionMark a ->
    TypeSuffix (if unit_is_assignable t then t else TOptional t) l rest u -> TypeSuffix t toks rest u.
Inductive Type_ : tokens -> tokens -> ty -> Prop :=
| type_ toks a l rest t u : Skip toks (a :: l) -> Is Name a -> In (tk_text a, t) base_types -> TypeSuffix t l rest u ->
    Type_ toks rest u.

(** ** Text *)
Definition text_kinds : list token_kind :=
  [Name; Number; Boolean true; Boolean false; LPar; RPar; LAngle; RAngle; Ampersand; Arrow; Asterisk; Colon; Comma; Dot;
   DoubleAsterisk; DoubleColon; Equals; ExclamationMark; QuestionMark; QuestionMarkDoubleColon; Underscore; RawText].
(** What a token is in text: itself, or the typographic form of dots, quotes and bars *)
Inductive TextOf : token -> str -> Prop :=
| to_plain t : In (tk_kind t) text_kinds -> TextOf t (tk_text t)
| to_ellipsis t : Is Ellipsis t -> TextOf t [8230%N]
| to_single_left t : Is (Quote QSingle QLeft) t -> TextOf t [8216%N]
| to_single_right t : Is (Quote QSingle QRight) t -> TextOf t [8217%N]
| to_double_left t : Is (Quote QDouble QLeft) t -> TextOf t [8220%N]
| to_double_right t : Is (Quote QDouble QRight) t -> TextOf t [8221%N]
| to_bar t : Is Bar t -> TextOf t [8288%N].
Definition Textual (t : token) : Prop := exists s, TextOf t s.
(** Text goes on as far as possible, up to a [<] at most. *)
Inductive TextRun : tokens -> tokens -> str -> Prop :=
| tr_end toks : ~ Next (fun t => Textual t /\ ~ Is LAngle t) toks -> TextRun toks toks []
| tr_more t s toks rest u : TextOf t s -> ~ Is LAngle t -> TextRun toks rest u -> TextRun (t :: toks) rest (s ++ u).

(** ** Template literals: [acc] are the parts read before, literals with the position of their end *)
Inductive AddLiteral (t : token) : list (template_part * nat) -> list (template_part * nat) -> Prop :=
| al_join acc s : AddLiteral t (acc ++ [(TPLit s, tk_start t)]) (acc ++ [(TPLit (s ++ tk_text t), tk_end t)])
| al_new acc : (forall before s, acc <> before ++ [(TPLit s, tk_start t)]) ->
    AddLiteral t acc (acc ++ [(TPLit (tk_text t), tk_end t)]).
(** A closing brace drops the white space before it. *)
Inductive DropSpace : list (template_part * nat) -> list (template_part * nat) -> Prop :=
| ds_space acc e : DropSpace (acc ++ [(TPWhitespace, e)]) acc
| ds_other acc : (forall before e, acc <> before ++ [(TPWhitespace, e)]) -> DropSpace acc acc.
Definition template_special : list token_kind :=
  [Newline; LBrace; RBrace; VarName; Escape; Entity; Whitespace; Verbatim VSimple; Verbatim VMultiline].
Section Template.
  Variable decode : str -> str.                                              (* what an entity stands for *)
  Variable q : quote_kind.                                                                (* the quotes around it *)
  (** [Parts acc depth toks rest parts]: [depth] braces are open. *)
  Inductive Parts : list (template_part * nat) -> nat -> tokens -> tokens -> list template_part -> Prop :=
  | parts_end acc t d rest : Is (Quote q d) t -> Parts acc 0 (t :: rest) rest (List.map fst acc)
  | parts_open acc depth t toks toks' rest ps : Is LBrace t -> Skip toks toks' -> Parts acc (S depth) toks' rest ps ->
      Parts acc depth (t :: toks) rest ps
  | parts_close acc acc' depth t toks rest ps : Is RBrace t -> DropSpace acc acc' -> Parts acc' depth toks rest ps ->
      Parts acc (S depth) (t :: toks) rest ps
  | parts_name acc depth t toks toks' rest n ps : Is VarName t -> Named t toks toks' n ->
      Parts (acc ++ [(TPName n, 0)]) depth toks' rest ps -> Parts acc depth (t :: toks) rest ps
  | parts_escape acc depth t toks rest c ps : Is Escape t -> EscapeMeans (tk_text t) c ->
      Parts (acc ++ [(TPChar c, 0)]) depth toks rest ps -> Parts acc depth (t :: toks) rest ps
  | parts_entity acc depth t toks rest c ps : Is Entity t -> decode (tk_text t) = [c] ->
      Parts (acc ++ [(TPChar c, 0)]) depth toks rest ps -> Parts acc depth (t :: toks) rest ps
  | parts_space acc depth t toks rest ps : Is Whitespace t ->
      Parts (acc ++ [(TPWhitespace, 0)]) depth toks rest ps -> Parts acc depth (t :: toks) rest ps
  | parts_literal acc acc' depth t toks rest ps : ~ In (tk_kind t) template_special -> (forall d, ~ Is (Quote q d) t) ->
      AddLiteral t acc acc' -> Parts acc' depth toks rest ps -> Parts acc depth (t :: toks) rest ps.
End Template.

(** ** Lists of phrases, up to a closing token *)
Section Lists.
  Context {A : Type}.
  Variable close : token_kind.
  Variable item : tokens -> tokens -> A -> Prop.
  (** Separated by commas; there may be one at the end. *)
  Inductive Separated : tokens -> tokens -> list A -> Prop :=
  | sep_end toks t rest : Skip toks (t :: rest) -> Is close t -> Separated toks rest []
  | sep_more toks a b c t l rest x xs : Skip toks a -> ~ Next (Is close) a -> item a b x -> Skip b c -> c = t :: l -> Is Comma t ->
      Separated l rest xs -> Separated toks rest (x :: xs)
  | sep_last toks a b c t rest x : Skip toks a -> ~ Next (Is close) a -> item a b x -> Skip b c -> ~ Next (Is Comma) c ->
      Skip c (t :: rest) -> Is close t -> Separated toks rest [x].
  (** Without separators; the closing token is given. *)
  Inductive Juxtaposed : tokens -> tokens -> list A -> token -> Prop :=
  | jux_end toks t rest : Skip toks (t :: rest) -> Is close t -> Juxtaposed toks rest [] t
  | jux_more toks a b c rest x xs t : Skip toks a -> ~ Next (Is close) a -> item a b x -> Skip b c -> Juxtaposed c rest xs t ->
      Juxtaposed toks rest (x :: xs) t.
End Lists.
(** [*] and [**]; which of them are allowed *)
Definition SpreadTok (t : token) : Prop := Is Asterisk t \/ Is DoubleAsterisk t.
Inductive Spread (pos named : bool) : tokens -> tokens -> spread_kind -> Prop :=
| spread_none toks : ~ Next SpreadTok toks -> Spread pos named toks toks NoSpread
| spread_pos t l : pos = true -> Is Asterisk t -> Spread pos named (t :: l) l PosSpread
| spread_named t l : named = true -> Is DoubleAsterisk t -> Spread pos named (t :: l) l NamedSpread.

(** ** Rules about lists of arguments, parameters and attributes *)
Definition PositionalArg (a : arg) : Prop := let '(Arg n k _) := a in n = n_anonymous /\ k <> NamedSpread.
Definition given_names (args : list arg) : list str :=
  flat_map (fun a => let '(Arg n _ _) := a in if str_eqb n n_anonymous then [] else [n]) args.
(** Positional arguments come first, and no name is given twice. *)
Definition ArgsOk (args : list arg) : Prop :=
  (exists pos named, args = pos ++ named /\ Forall PositionalArg pos /\ Forall (fun a => ~ PositionalArg a) named) /\
  NoDup (given_names args).
(** A parameter with the kind of its spread, and whether its name starts with an underscore *)
Definition raw : Type := param * spread_kind * bool.
Definition raw_name (r : raw) : str := let '(Param n _ _ _ _, _, _) := r in n.
Definition raw_implicit (r : raw) : bool := let '(Param _ _ i _ _, _, _) := r in i.
Definition raw_default (r : raw) : option expr := let '(Param _ _ _ _ d, _, _) := r in d.
Definition Optional_ (r : raw) : Prop := let '(Param _ q _ _ d, _, _) := r in q = true \/ d <> None.
Definition PositionalParam (r : raw) : Prop := let '(_, k, u) := r in k = NoSpread /\ u = true.
Definition NamedParam (r : raw) : Prop := let '(_, k, u) := r in k = NoSpread /\ u = false.
Definition OptionalLast (l : list raw) : Prop :=
  exists required optional, l = required ++ optional /\ Forall (fun r => ~ Optional_ r) required /\ Forall Optional_ optional.
(** The parameters in parentheses are positional ones, whose names start with an underscore, perhaps a spread [*$_..] for
    more of them, named ones, and perhaps a spread [**$..] for more of them. Their names are distinct; among the positional
    and among the named parameters, optional ones come last. Only named parameters may be implicit, and then they have no
    default. *)
Definition ParamsOk (l pos : list raw) (pspread : option raw) (named : list raw) (nspread : option raw) : Prop :=
  let opt o := match o with Some r => [r] | None => [] end in
  l = pos ++ opt pspread ++ named ++ opt nspread /\
  Forall PositionalParam pos /\ (forall p k u, pspread = Some (p, k, u) -> k = PosSpread /\ u = true) /\
  Forall NamedParam named /\ (forall p k u, nspread = Some (p, k, u) -> k = NamedSpread /\ u = false) /\
  NoDup (List.map raw_name l) /\ OptionalLast pos /\ OptionalLast named /\
  (forall r, In r (pos ++ opt pspread ++ opt nspread) -> raw_implicit r = false) /\
  (forall r, In r named -> raw_implicit r = true -> raw_default r = None).
Definition attr_names (l : list tag_attr) : list str := flat_map (fun a => match a with TAttr n _ _ => [n] | TSpread _ => [] end) l.

(** ** Patterns *)
Definition distinct (l : list str) : list str := fold_left (fun out n => if mem n out then out else out ++ [n]) l [].
(** The variables of a pattern, in order *)
Fixpoint pattern_vars (p : pattern) : list str :=
  match p with
  | PVarName n | PTypeOf n => [n]
  | PAnd p q => pattern_vars p ++ pattern_vars q
  | POr _ _ ns | PRegex _ ns => ns
  | PTag a b c => pattern_vars a ++ pattern_vars b ++ pattern_vars c
  | PExactList ps | PSpreadList ps _ | PExactHtml ps | PSpreadHtml ps _ => flat_map pattern_vars ps
  | PDict attrs r => flat_map (fun kp => pattern_vars (snd kp)) attrs ++ match r with Some p => pattern_vars p | None => [] end
  | PIgnore | PLiteralNone | PLiteralName _ | PEquals _ | PTyped _ => []
  end.
(** Patterns that match no HTML *)
Inductive NotHtml : pattern -> Prop :=
| nh_bool b : NotHtml (PEquals (EBool b))
| nh_int i : NotHtml (PEquals (EInt i))
| nh_equals_list l : NotHtml (PEquals (EList l))
| nh_list ps : NotHtml (PExactList ps)
| nh_spread ps i : NotHtml (PSpreadList ps i)
| nh_dict a r : NotHtml (PDict a r)
| nh_and_l p q : NotHtml p -> NotHtml (PAnd p q)
| nh_and_r p q : NotHtml q -> NotHtml (PAnd p q)
| nh_or_l p q ns : NotHtml p -> NotHtml (POr p q ns)
| nh_or_r p q ns : NotHtml q -> NotHtml (POr p q ns).
(** What [[..]] or [{..}] means, given its items, each with whether it is a spread: there is at most one. *)
Inductive ListPattern : list (pattern * bool) -> pattern -> Prop :=
| lp_exact ps : ListPattern (List.map (fun p => (p, false)) ps) (PExactList ps)
| lp_spread pre p post : ListPattern (List.map (fun p => (p, false)) pre ++ (p, true) :: List.map (fun p => (p, false)) post)
    (PSpreadList (pre ++ p :: post) (length pre)).
Inductive SeqPattern : list (pattern * bool) -> pattern -> Prop :=
| sp_none : SeqPattern [] PLiteralNone
| sp_exact ps : ps <> [] -> SeqPattern (List.map (fun p => (p, false)) ps) (PExactHtml ps)
| sp_spread pre p post : SeqPattern (List.map (fun p => (p, false)) pre ++ (p, true) :: List.map (fun p => (p, false)) post)
    (PSpreadHtml (pre ++ p :: post) (length pre)).
(** What [(..)] means, given its items: patterns with distinct names, then perhaps a spread *)
Definition dict_items (attrs : list (str * pattern)) (r : option pattern) : list (option str * pattern) :=
  List.map (fun kp => (Some (fst kp), snd kp)) attrs ++ match r with Some p => [(None, p)] | None => [] end.
Inductive DictPattern : list (option str * pattern) -> pattern -> Prop :=
| dp_dict attrs r : NoDup (List.map fst attrs) -> DictPattern (dict_items attrs r) (PDict attrs r).
(** The attributes of a tag; a spread on its own is the pattern for all of them *)
Inductive AttrsPattern : list (option str * pattern) -> pattern -> Prop :=
| ap_spread p : AttrsPattern [(None, p)] p
| ap_dict attrs r : NoDup (List.map fst attrs) -> attrs <> [] \/ r = None -> AttrsPattern (dict_items attrs r) (PDict attrs r).
(** The regular expression for a template pattern, and the variables its groups are for *)
Definition regex_part (escape : str -> str) (p : template_part) : str :=
  match p with
  | TPLit s => escape s
  | TPChar c => escape [c]
  | TPName _ => lit "(.+?)"
  | TPWhitespace => lit "\s+"
  end.
Definition regex_text (escape : str -> str) (ps : list template_part) : str :=
  lit "^(?s:" ++ flat_map (regex_part escape) ps ++ lit ")$".
Definition regex_vars (ps : list template_part) : list str :=
  flat_map (fun p => match p with TPName (NSimple n) => [n] | _ => [] end) ps.
Definition LiteralPart (p : template_part) : Prop := forall n, p <> TPName n.
Definition SimplePart (p : template_part) : Prop := forall n, p = TPName n -> exists x, n = NSimple x.

(** ** Nodes *)
Definition Literal (e : expr) : Prop :=
  match e with EUnit | EBool _ | EInt _ | EBareString _ | EVerbatim _ => True | _ => False end.
Definition WhiteNode (n : node) : Prop :=
  match n with
  | AWhitespace | AParagraphBreak => True
  | AChar c => c = 32%N \/ c = 9%N \/ c = 10%N \/ c = 12%N \/ c = 13%N
  | _ => False
  end.
(** White space at the end is dropped. *)
Inductive Trimmed : list node -> list node -> Prop :=
| trimmed l w : Forall WhiteNode w -> (forall l' n, l = l' ++ [n] -> ~ WhiteNode n) -> Trimmed (l ++ w) l.
Definition group (ns : list node) : expr := match ns with [] => EUnit | _ => EGroup ns end.
(** A closing tag: [</>], or one that names the tag up to case *)
Definition CloseFor (name : str) (t : token) : Prop :=
  Is CloseTag t /\
  (tk_text t = lit "</>" \/ name <> n_anonymous /\ exists n, tk_text t = lit "</" ++ n ++ lit ">" /\ lowered n = lowered name).
Definition TagStart (t : token) : Prop := Is Name t \/ Is VarName t \/ Is ExclamationMark t.

Section Grammar.
  Variable src : str.                                                              (* the path of the source file *)
  Variable decode : str -> str.                                                     (* what entities stand for *)
  Variable escape : str -> str.                                     (* literal text in regular expressions *)

  Inductive Expr : tokens -> tokens -> expr -> Prop :=
  | x_unit t l : Is Dot t -> Expr (t :: l) l EUnit
  | x_bool t l b : Is (Boolean b) t -> Expr (t :: l) l (EBool b)
  | x_bare t l : Is Name t -> Expr (t :: l) l (EBareString (tk_text t))
  | x_int t l i : Is Number t -> IntLiteral (tk_text t) i -> Expr (t :: l) l (EInt i)
  | x_verbatim t l k : Is (Verbatim k) t -> Expr (t :: l) l (EVerbatim (tk_text t))
  | x_name t l rest n : Is VarName t -> Named t l rest n -> Expr (t :: l) rest (EName n)
  | x_call t l a b rest f args content : Is FuncName t -> Named t l a f -> Args a b args -> Content b rest content ->
      Expr (t :: l) rest (EFuncCall src f args content)
  | x_fn t l rest d : Is (Kw KFn) t -> FuncDef_ l rest d -> Expr (t :: l) rest (EFuncDef d)
  | x_let t l rest d (i : bool) vars e : Is (Kw (if i then KImplicit else KLet)) t -> Let l rest vars e -> d = LetIn i vars e ->
      ~ Literal e -> Expr (t :: l) rest (ELetIn d)
  | x_match t l a o b rest v branches : Is (Kw KMatch) t -> SExpr l a v -> Skip a (o :: b) -> Is LBrace o ->
      Separated RBrace Branch b rest branches -> Expr (t :: l) rest (EMatch v branches)
  | x_group t l a ns ns' c rest : Is LBrace t -> Skip l a -> Nodes (Is RBrace) a (c :: rest) ns -> Trimmed ns ns' ->
      Is RBrace c -> Expr (t :: l) rest (group ns')
  | x_list t l rest items : Is LSqb t -> Separated RSqb Item l rest items -> Expr (t :: l) rest (EList items)
  | x_tag t l rest e : Is LAngle t -> Next TagStart l -> Tag l rest e -> Expr (t :: l) rest e
  | x_template t q d l rest ps : Is (Quote q d) t -> Parts decode q [] 0 l rest ps -> Expr (t :: l) rest (ETemplate ps)
  (** an expression, perhaps after white space *)
  with SExpr : tokens -> tokens -> expr -> Prop :=
  | s_expr toks a rest e : Skip toks a -> Expr a rest e -> SExpr toks rest e
  (** the content of a call or the body of a declaration: [...] takes all that follows in the enclosing block *)
  with Content : tokens -> tokens -> expr -> Prop :=
  | c_rest toks t a rest ns : Skip toks (t :: a) -> Is Ellipsis t ->
      Nodes (fun t => Is CloseTag t \/ Is RBrace t) a rest ns -> Content toks rest (group ns)
  | c_expr toks a rest e : Skip toks a -> ~ Next (Is Ellipsis) a -> SExpr a rest e -> Content toks rest e
  (** arguments *)
  with Argument : tokens -> tokens -> arg -> Prop :=
  | a_value toks a b c rest k v : Skip toks a -> Spread true true a b k -> Skip b c -> ~ Next (Is Name) c -> SExpr c rest v ->
      Argument toks rest (Arg n_anonymous k v)
  | a_bare toks a b t c rest k : Skip toks a -> Spread true true a b k -> Skip b (t :: c) -> Is Name t -> Skip c rest ->
      ~ Next (Is Equals) rest -> Argument toks rest (Arg n_anonymous k (EBareString (tk_text t)))
  | a_named toks a b t n c e d rest v : Skip toks a -> Spread true true a b NoSpread -> Skip b (t :: c) -> Is Name t ->
      NameOf t n -> Skip c (e :: d) -> Is Equals e -> SExpr d rest v -> Argument toks rest (Arg n NoSpread v)
  with Args : tokens -> tokens -> list arg -> Prop :=
  | args_none toks rest : Skip toks rest -> ~ Next (Is LPar) rest -> Args toks rest []
  | args_some toks t a rest args : Skip toks (t :: a) -> Is LPar t -> Separated RPar Argument a rest args -> ArgsOk args ->
      Args toks rest args
  (** items of a list *)
  with Item : tokens -> tokens -> expr * bool -> Prop :=
  | i_one toks rest v : Argument toks rest (Arg n_anonymous NoSpread v) -> Item toks rest (v, false)
  | i_spread toks rest v : Argument toks rest (Arg n_anonymous PosSpread v) -> Item toks rest (v, true)
  (** declarations of variables *)
  with Decls : tokens -> tokens -> list (str * expr) -> Prop :=
  | decls toks rest args vars : Args toks rest args -> vars <> [] -> Forall (fun ne => fst ne <> n_anonymous) vars ->
      args = List.map (fun ne => Arg (fst ne) NoSpread (snd ne)) vars -> Decls toks rest vars
  with Let : tokens -> tokens -> list (str * expr) -> expr -> Prop :=
  | let_ toks a rest vars e : Decls toks a vars -> Content a rest e -> Let toks rest vars e
  (** functions *)
  with Annotation : tokens -> tokens -> bool -> ty -> Prop :=
  | an_none toks : ~ Next (Is Colon) toks -> Annotation toks toks false TAny
  | an_some t a b c rest i ty_ : Is Colon t -> Skip a b -> Optional (Kw KImplicit) b c i -> Type_ c rest ty_ ->
      Annotation (t :: a) rest i ty_
  with Default : tokens -> tokens -> option expr -> Prop :=
  | def_none toks : ~ Next (Is Equals) toks -> Default toks toks None
  | def_some t a rest e : Is Equals t -> SExpr a rest e -> Default (t :: a) rest (Some e)
  with Param_ : tokens -> tokens -> raw -> Prop :=
  | param_ toks a b t n c d e f g h rest k (q : bool) i ty_ v u : Skip toks a -> Spread true true a b k -> Skip b (t :: c) ->
      Is VarName t -> NameOf t n -> (u = true <-> exists m, tk_text t = lit "$_" ++ m) ->
      Skip c d -> Optional QuestionMark d e q -> Skip e f -> Annotation f g i ty_ -> Skip g h -> Default h rest v ->
      (v <> None -> k = NoSpread) -> Param_ toks rest (Param n q i ty_ v, k, u)
  with Params : tokens -> tokens -> list raw -> Prop :=
  | params_none toks : ~ Next (Is LPar) toks -> Params toks toks []
  | params_some t a rest l : Is LPar t -> Separated RPar Param_ a rest l -> Params (t :: a) rest l
  with Signature_ : tokens -> tokens -> signature -> Prop :=
  | sig_dot toks a b t rest l pos ps named ns : Skip toks a -> Params a b l -> ParamsOk l pos ps named ns -> Skip b (t :: rest) ->
      Is Dot t ->
      Signature_ toks rest (Signature (List.map (fun r => fst (fst r)) l) (length pos) (match ps with Some _ => true | None => false end)
                              (length named) (match ns with Some _ => true | None => false end) false)
  | sig_content toks a b c rest l pos ps named ns p u : Skip toks a -> Params a b l -> ParamsOk l pos ps named ns -> Skip b c ->
      ~ Next (Is Dot) c -> Param_ c rest (p, NoSpread, u) -> raw_default (p, NoSpread, u) = None ->
      Signature_ toks rest (Signature (List.map (fun r => fst (fst r)) l ++ [p]) (length pos) (match ps with Some _ => true | None => false end)
                              (length named) (match ns with Some _ => true | None => false end) true)
  with FuncDef_ : tokens -> tokens -> func_def -> Prop :=
  | fd_named toks t n a b c d rest s body : Skip toks (t :: a) -> Is Name t -> NameOf t n -> Signature_ a b s -> Skip b (c :: d) ->
      Is Arrow c -> SExpr d rest body -> FuncDef_ toks rest (FuncDef n s body)
  | fd_anonymous toks a b c d rest s body : Skip toks a -> ~ Next (Is Name) a -> Signature_ a b s -> Skip b (c :: d) -> Is Arrow c ->
      SExpr d rest body -> FuncDef_ toks rest (FuncDef n_anonymous s body)
  (** tags, behind the [<] *)
  with TagName : tokens -> tokens -> tag_name -> str -> Prop :=
  | tn_name t l n : Is Name t -> NameOf t n -> TagName (t :: l) l (TNLit (lowered n)) (lowered n)
  | tn_var t l rest n : Is VarName t -> Named t l rest n -> TagName (t :: l) rest (TNName n) n_anonymous
  | tn_doctype t d l : Is ExclamationMark t -> lowered (tk_text d) = lowered (lit "DOCTYPE") ->
      TagName (t :: d :: l) l (TNLit n_doctype) n_doctype
  with Attr : tokens -> tokens -> tag_attr -> Prop :=
  | at_spread toks a b rest e : Skip toks a -> Spread false true a b NamedSpread -> SExpr b rest e -> Attr toks rest (TSpread e)
  | at_value toks a b t c n d e f g rest (q : bool) v : Skip toks a -> Spread false true a b NoSpread -> Skip b (t :: c) -> Is Name t ->
      NameOf t n -> Skip c d -> Optional QuestionMark d e q -> Skip e (f :: g) -> Is Equals f -> SExpr g rest v ->
      Attr toks rest (TAttr n q (Some v))
  | at_bare toks a b t c n d e rest : Skip toks a -> Spread false true a b NoSpread -> Skip b (t :: c) -> Is Name t -> NameOf t n ->
      Skip c d -> Optional QuestionMark d e false -> Skip e rest -> ~ Next (Is Equals) rest -> Attr toks rest (TAttr n false None)
  with Tag : tokens -> tokens -> expr -> Prop :=
  | tag_empty toks a rest name id attrs c : TagName toks a name id -> Juxtaposed RAngle Attr a rest attrs c ->
      NoDup (attr_names attrs) -> tk_text c = lit "/>" \/ is_self_closing id = true -> Tag toks rest (ETag name attrs [])
  | tag_full toks a b b' d rest name id attrs c ns ns' : TagName toks a name id -> Juxtaposed RAngle Attr a b attrs c ->
      NoDup (attr_names attrs) -> tk_text c <> lit "/>" -> is_self_closing id = false ->
      Skip b b' -> Nodes (CloseFor id) b' (d :: rest) ns -> Trimmed ns ns' -> CloseFor id d -> Tag toks rest (ETag name attrs ns')
  (** patterns *)
  with Branch : tokens -> tokens -> pattern * expr -> Prop :=
  | branch toks a t b rest p e : Pattern toks a p -> Skip a (t :: b) -> Is Arrow t -> SExpr b rest e -> Branch toks rest (p, e)
  with Pattern : tokens -> tokens -> pattern -> Prop :=
  | pat toks a rest p r : AndPattern toks a p -> OrMore p a rest r -> Pattern toks rest r
  with OrMore : pattern -> tokens -> tokens -> pattern -> Prop :=
  | or_end p toks rest : Skip toks rest -> ~ Next (Is Bar) rest -> OrMore p toks rest p
  | or_more p toks t a b rest q r : Skip toks (t :: a) -> Is Bar t -> AndPattern a b q ->
      OrMore (POr p q (distinct (pattern_vars p ++ pattern_vars q))) b rest r -> OrMore p toks rest r
  with AndPattern : tokens -> tokens -> pattern -> Prop :=
  | and_pat toks a rest p r : Primary toks a p -> AndMore p a rest r -> AndPattern toks rest r
  with AndMore : pattern -> tokens -> tokens -> pattern -> Prop :=
  | and_end p toks rest : Skip toks rest -> ~ Next (Is Ampersand) rest -> AndMore p toks rest p
  | and_more p toks t a b rest q r : Skip toks (t :: a) -> Is Ampersand t -> Primary a b q -> AndMore (PAnd p q) b rest r ->
      AndMore p toks rest r
  (** a type after a pattern: it is checked first *)
  with Typed : pattern -> tokens -> tokens -> pattern -> Prop :=
  | ty_none p toks rest : Skip toks rest -> ~ Next (Is Colon) rest -> Typed p toks rest p
  | ty_var p toks t a v b rest n : Skip toks (t :: a) -> Is Colon t -> Skip a (v :: b) -> Is VarName v ->
      Named v b rest (NSimple n) -> Typed p toks rest (if match p with PIgnore => true | _ => false end then PTypeOf n else PAnd (PTypeOf n) p)
  | ty_type p toks t a b rest ty_ : Skip toks (t :: a) -> Is Colon t -> Skip a b -> ~ Next (Is VarName) b -> Type_ b rest ty_ ->
      Typed p toks rest (if match p with PIgnore => true | _ => false end then PTyped ty_ else PAnd (PTyped ty_) p)
  with Primary : tokens -> tokens -> pattern -> Prop :=
  | p_ignore toks t a rest r : Skip toks (t :: a) -> Is Underscore t -> Typed PIgnore a rest r -> Primary toks rest r
  | p_var toks t a b rest n r : Skip toks (t :: a) -> Is VarName t -> Named t a b (NSimple n) -> Typed (PVarName n) b rest r ->
      Primary toks rest r
  | p_none toks t rest : Skip toks (t :: rest) -> Is Dot t -> Primary toks rest PLiteralNone
  | p_literal toks t a rest e : Skip toks (t :: a) ->
      (exists b, Is (Boolean b) t) \/ Is Number t \/ (exists k, Is (Verbatim k) t) -> Expr (t :: a) rest e -> Primary toks rest (PEquals e)
  | p_equals toks t a rest e : Skip toks (t :: a) -> Is Equals t -> SExpr a rest e -> Primary toks rest (PEquals e)
  | p_list toks t a rest items r : Skip toks (t :: a) -> Is LSqb t -> Separated RSqb Positional a rest items -> ListPattern items r ->
      Primary toks rest r
  | p_seq toks t a rest items c r : Skip toks (t :: a) -> Is LBrace t -> Juxtaposed RBrace Positional a rest items c -> SeqPattern items r ->
      Forall (fun pb => ~ NotHtml (fst pb)) items -> Primary toks rest r
  | p_dict toks t a rest items r : Skip toks (t :: a) -> Is LPar t -> Separated RPar (NamedPattern false) a rest items ->
      DictPattern items r -> Primary toks rest r
  | p_template toks t q d a rest ps : Skip toks (t :: a) -> Is (Quote q d) t -> Parts decode q [] 0 a rest ps ->
      Forall LiteralPart ps -> Primary toks rest (PEquals (ETemplate ps))
  | p_regex toks t q d a rest ps : Skip toks (t :: a) -> Is (Quote q d) t -> Parts decode q [] 0 a rest ps ->
      ~ Forall LiteralPart ps -> Forall SimplePart ps -> Primary toks rest (PRegex (regex_text escape ps) (regex_vars ps))
  | p_tag toks t a b c rest name id items attrs close content : Skip toks (t :: a) -> Is LAngle t -> TagPatternName a b name id ->
      Juxtaposed RAngle (NamedPattern true) b c items close -> AttrsPattern items attrs -> 
      TagPatternContent id close c rest content -> Primary toks rest (PTag name attrs content)
  with TagPatternName : tokens -> tokens -> pattern -> str -> Prop :=
  | tpn_any t l : Is Underscore t -> TagPatternName (t :: l) l PIgnore n_anonymous
  | tpn_name t l n : Is Name t -> NameOf t n -> TagPatternName (t :: l) l (PLiteralName (lowered n)) (lowered n)
  | tpn_var t l rest n : Is VarName t -> Named t l rest (NSimple n) -> TagPatternName (t :: l) rest (PVarName n) n_anonymous
  with TagPatternContent : str -> token -> tokens -> tokens -> pattern -> Prop :=
  | tpc_empty id close toks rest : tk_text close = lit "/>" \/ is_self_closing id = true -> Skip toks rest ->
      TagPatternContent id close toks rest PLiteralNone
  | tpc_closed id close toks t rest : tk_text close <> lit "/>" -> is_self_closing id = false -> Skip toks (t :: rest) ->
      Is CloseTag t -> CloseFor id t -> TagPatternContent id close toks rest PLiteralNone
  | tpc_content id close toks a b t rest p : tk_text close <> lit "/>" -> is_self_closing id = false -> Skip toks a ->
      ~ Next (Is CloseTag) a -> Pattern a b p -> Skip b (t :: rest) -> Is CloseTag t -> CloseFor id t ->
      TagPatternContent id close toks rest p
  with Positional : tokens -> tokens -> pattern * bool -> Prop :=
  | pos_rest toks t rest : Skip toks (t :: rest) -> Is Ellipsis t -> Positional toks rest (PIgnore, true)
  | pos_one toks a b rest k p : Skip toks a -> ~ Next (Is Ellipsis) a -> Spread true false a b k -> Pattern b rest p ->
      Positional toks rest (p, match k with NoSpread => false | _ => true end)
  with NamedPattern : bool -> tokens -> tokens -> option str * pattern -> Prop :=
  | np_rest lone toks t rest : Skip toks (t :: rest) -> Is Ellipsis t -> NamedPattern lone toks rest (None, PIgnore)
  | np_spread lone toks a b rest p : Skip toks a -> ~ Next (Is Ellipsis) a -> Spread false true a b NamedSpread -> Pattern b rest p ->
      NamedPattern lone toks rest (None, p)
  | np_named lone toks a t n b e c rest p : Skip toks a -> Spread false true a (t :: b) NoSpread -> Is Name t -> NameOf t n ->
      (forall m, tk_text t <> lit "_" ++ m) -> Skip b (e :: c) -> Is Equals e -> Pattern c rest p ->
      NamedPattern lone toks rest (Some n, p)
  | np_lone toks a t n b rest : Skip toks a -> Spread false true a (t :: b) NoSpread -> Is Name t -> NameOf t n ->
      (forall m, tk_text t <> lit "_" ++ m) -> Skip b rest -> ~ Next (Is Equals) rest -> NamedPattern true toks rest (Some n, PLiteralNone)
  (** nodes, up to a token that satisfies [close] or the end; that token is left *)
  with Nodes : (token -> Prop) -> tokens -> tokens -> list node -> Prop :=
  | ns_end (close : token -> Prop) toks : (forall t l, toks = t :: l -> close t) -> Nodes close toks toks []
  | ns_more (close : token -> Prop) t l a rest n ns : ~ close t -> Node (t :: l) a n -> Nodes close a rest ns ->
      Nodes close (t :: l) rest (n :: ns)
  with Node : tokens -> tokens -> node -> Prop :=
  | n_export t l rest e : Is (Kw KExport) t -> Export_ l rest e -> Node (t :: l) rest (AExport e)
  | n_fn t l rest n s b : Is (Kw KFn) t -> FuncDef_ l rest (FuncDef n s b) -> n <> n_anonymous -> Node (t :: l) rest (AFuncDef (FuncDef n s b))
  | n_fence t l k : Is (Verbatim k) t -> Node (t :: l) l (ACodeFence src (tk_text t) match k with VMultiline => true | VSimple => false end)
  | n_expr t l rest e : In (tk_kind t) [FuncName; Kw KImplicit; Kw KLet; Kw KMatch; VarName; LBrace; LSqb] -> Expr (t :: l) rest e ->
      Node (t :: l) rest (AExpr e)
  | n_tag t l rest e : Is LAngle t -> Next TagStart l -> Tag l rest e -> Node (t :: l) rest (AExpr e)
  | n_white t l : Is Whitespace t -> Node (t :: l) l AWhitespace
  | n_break t l : Is Newline t -> Node (t :: l) l AParagraphBreak
  | n_escape t l c : Is Escape t -> EscapeMeans (tk_text t) c -> Node (t :: l) l (AChar c)
  | n_entity t l c : Is Entity t -> decode (tk_text t) = [c] -> Node (t :: l) l (AChar c)
  | n_text t l rest s u out : (Is LAngle t -> ~ Next TagStart l) -> TextOf t s -> TextRun l rest u ->
      Substituted (s ++ u) out -> Node (t :: l) rest (AText out)
  with Export_ : tokens -> tokens -> export -> Prop :=
  | e_fn toks t a rest n s b : Skip toks (t :: a) -> Is (Kw KFn) t -> FuncDef_ a rest (FuncDef n s b) -> n <> n_anonymous ->
      Export_ toks rest (ExFuncDef (FuncDef n s b))
  | e_let toks t a rest vars e : Skip toks (t :: a) -> Is (Kw KLet) t -> Let a rest vars e -> Export_ toks rest (ExLetIn (LetIn false vars e))
  | e_names toks a b t rest vars : Skip toks a -> ~ Next (fun t => Is (Kw KFn) t \/ Is (Kw KLet) t) a -> Decls a b vars ->
      Skip b (t :: rest) -> Is Dot t -> Export_ toks rest (ExNames vars).

  (** A document: nodes up to the end *)
  Definition Document (toks : tokens) (ns : list node) : Prop :=
    exists a ns', Skip toks a /\ Nodes (fun _ => False) a [] ns' /\ Trimmed ns' ns.
End Grammar.
