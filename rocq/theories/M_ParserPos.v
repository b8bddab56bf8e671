(** Model of /repo/src/parser again (base.rs, func.rs, matcher.rs, tag.rs, template.rs, types.rs), now with the positions of the
    diagnostics. Of the source range of a diagnostic only the start is kept (sink_base.rs:49-54, where the end is commented
    out), so of the range of a syntax tree node only the start is modelled, where the parser uses it: results are paired with it.
    Properties_Pos.v proves that without positions this is the parser of M_Parser. *)
From Verif Require Import Base M_Text M_Names M_TagInfo M_Token M_Tokenizer M_TokenText M_TextSubs M_Types M_Diag M_Queue M_Ast M_Parser.

(** As [pstate] and [PM] of M_Queue, each diagnostic with its position: an index into the source, in bytes. base.rs:10-15. *)
Record qstate := QState { qs_tokens : list token; qs_diags : list (papyri_error * nat) }.
(** [Reported] (errors/mod.rs:20-26), as in M_Queue (parser/err.rs:12-15, parser/queue.rs:19-67), with positions *)
Inductive qres (A : Type) := QOk (a : A) (s : qstate) | QErr (s : qstate) | QPanic | QFuel.
Arguments QOk {A}. Arguments QErr {A}. Arguments QPanic {A}. Arguments QFuel {A}.
(** as in M_Queue (parser/err.rs:12-15, parser/queue.rs:19-67), with positions *)
Definition QM (A : Type) := qstate -> qres A.
(** as in M_Queue (parser/err.rs:12-15, parser/queue.rs:19-67), with positions *)
Definition qret {A} (a : A) : QM A := QOk a.
(** as in M_Queue (parser/err.rs:12-15, parser/queue.rs:19-67), with positions *)
Definition qbind {A B} (m : QM A) (f : A -> QM B) : QM B :=
  fun s => match m s with QOk a s => f a s | QErr s => QErr s | QPanic => QPanic | QFuel => QFuel end.
(** as in M_Queue (parser/err.rs:12-15, parser/queue.rs:19-67), with positions *)
Notation "'do*' x <- m ; n" := (qbind m (fun x => n)) (at level 200, x pattern, m at level 100, n at level 200).
(** as in M_Queue (parser/err.rs:12-15, parser/queue.rs:19-67), with positions *)
Notation "m ;* n" := (qbind m (fun _ => n)) (at level 100, n at level 200, right associativity).

(** err.rs:12-15 *)
Definition qreport (e : papyri_error) (p : nat) : QM unit := fun s => QOk tt (QState (qs_tokens s) (qs_diags s ++ [(e, p)])).
(** parser/err.rs:12-15 *)
Definition qserr (e : syntax_error) (p : nat) : QM unit := qreport (SyntaxErr e) p.
(** parser/err.rs:12-15 *)
Definition qsfail {A} (e : syntax_error) (p : nat) : QM A := fun s => QErr (QState (qs_tokens s) (qs_diags s ++ [(SyntaxErr e, p)])).
(** err.rs:17-25 *)
Definition q_unexpected (tok : token) : syntax_error := TokenUnexpected (tk_kind tok).
(** parser/err.rs:23-25 *)
Definition q_unmatched (tok : token) : QM unit := qserr (TokenUnmatched (tk_kind tok)) (tk_start tok).

(** A function of M_Parser that reports at one position only, if at all. parser/err.rs:12-15. *)
Definition qat {A} (p : nat) (m : PM A) : QM A := fun s =>
  let add s' := QState (ps_tokens s') (qs_diags s ++ List.map (fun e => (e, p)) (ps_diags s')) in
  match m (PState (qs_tokens s) []) with
  | POk a s' => QOk a (add s')
  | PErr s' => QErr (add s')
  | PPanic => QPanic
  | PFuel => QFuel
  end.
(** parser/err.rs:8-10 *)
Definition q_ice {A} : QM A := fun _ => QPanic.
(** [Result::ok], base.rs:52-95 *)
Definition q_ok {A} (m : QM A) : QM (option A) := fun s =>
  match m s with QOk a s => QOk (Some a) s | QErr s => QOk None s | QPanic => QPanic | QFuel => QFuel end.
(** [Result::map_err], tag.rs:8-64 and matcher.rs:230-282 *)
Definition q_map_err {A} (m : QM A) (h : QM unit) : QM A := fun s =>
  match m s with
  | QErr s => match h s with QOk _ s => QErr s | QErr s => QErr s | QPanic => QPanic | QFuel => QFuel end
  | r => r
  end.
(** no counterpart in the code, as [with_fuel] in M_Parser (loops of base.rs:52-95 and others) *)
Definition q_with_fuel {A} (f : nat -> QM A) : QM A := fun s => f (S (length (qs_tokens s))) s.

(** queue.rs:19-21, 43-67: no diagnostics *)
Definition q_poll : QM (option token) := qat 0 poll.
(** [self.tokens.last()], queue.rs:43-54 *)
Definition q_peek : QM (option token) := qat 0 peek.
(** queue.rs:43-48 *)
Definition q_poll_if (p : token -> bool) : QM (option token) := qat 0 (poll_if p).
(** queue.rs:65-67 *)
Definition q_poll_if_kind (k : token_kind) : QM (option token) := qat 0 (poll_if_kind k).
(** queue.rs:52-54 *)
Definition q_has_next (p : token -> bool) : QM bool := qat 0 (has_next p).
(** queue.rs:57-61 *)
Definition q_skip : QM unit := qat 0 skip_whitespace.
(** base.rs:33-50: no diagnostics *)
Definition q_name_id (tok : token) : QM str := qat 0 (tok_name_id tok).
(** base.rs:44-50 *)
Definition q_lowercase_name_id (tok : token) : QM str := qat 0 (tok_lowercase_name_id tok).
(** text.rs:101-116: no diagnostics *)
Definition q_text (tok : token) : QM node := qat 0 (parse_text tok).
(** base.rs:220-224 *)
Definition q_number (tok : token) : QM Z := qat (tk_start tok) (p_number tok).
(** text.rs:76-94 *)
Definition q_unescape (tok : token) : QM char := qat (tk_start tok) (p_unescape tok).
(** text.rs:60-71 *)
Definition q_entity (decode : str -> str) (tok : token) : QM char :=
  let (c, e) := decode_entity decode (tk_text tok) in
  match e with Some e => qserr e (tk_start tok) | None => qret tt end;* qret c.

(** func.rs:47-61; with the start of the token *)
Definition q_spread (allow_pos allow_named : bool) : QM (spread_kind * option nat) :=
  do* tok <- q_poll_if is_spread_tok;
  match tok with
  | None => qret (NoSpread, None)
  | Some tok =>
    do* k <- (if is_kind Asterisk tok
              then if allow_pos then qret PosSpread else qserr SpreadPositionalNotAllowed (tk_start tok);* qret NoSpread
              else if allow_named then qret NamedSpread else qserr SpreadNamedNotAllowed (tk_start tok);* qret NoSpread);
    qret (k, Some (tk_start tok))
  end.
(** [Option::unwrap_or] and the like, on starts of ranges. func.rs:197-289. *)
Definition start_or (o : option nat) (p : nat) : nat := match o with Some q => q | None => p end.

(** func.rs:92-130 *)
Fixpoint q_check_params (rs : list (raw_param * nat)) (s : sigst) : QM sigst :=
  match rs with [] => qret s | (r, p) :: rs => do* s <- qat p (check_param r s); q_check_params rs s end.
(** func.rs:178-192 *)
Fixpoint q_check_args (args : list (arg * nat)) (any_named : bool) (used : list str) : QM unit :=
  match args with
  | [] => qret tt
  | (Arg name kind _, p) :: args =>
    if negb (is_anonymous name) then
      (if mem name used then qserr (ArgDuplicateName name) p else qret tt);*
      q_check_args args true (set_add name used)
    else match kind with
         | NamedSpread => q_check_args args true used
         | _ => (if any_named then qserr ArgPositionalAfterNamed p else qret tt);* q_check_args args any_named used
         end
  end.
(** tag.rs:37-44 *)
Fixpoint q_check_attrs (attrs : list (tag_attr * nat)) (used : list str) : QM unit :=
  match attrs with
  | [] => qret tt
  | (TAttr name _ _, p) :: attrs =>
    (if mem name used then qserr (TagDuplicateAttr name) p else qret tt);* q_check_attrs attrs (set_add name used)
  | (TSpread _, _) :: attrs => q_check_attrs attrs used
  end.
(** base.rs:355-372 *)
Fixpoint q_named_args (args : list (arg * nat)) : QM (list (str * expr)) :=
  match args with
  | [] => qret []
  | (Arg name kind value, p) :: args =>
    match kind with
    | NoSpread =>
      if arg_positional name kind then qserr DeclPositionalArg p;* q_named_args args
      else do* rest <- q_named_args args; qret ((name, value) :: rest)
    | _ =>
      qserr (if arg_positional name kind then SpreadPositionalNotAllowed else SpreadNamedNotAllowed) p;*
      q_named_args args
    end
  end.
(** matcher.rs:176-190 *)
Fixpoint q_spread_index (l : list (pos_pattern * nat)) (i : nat) (index : option nat) : QM (option nat) :=
  match l with
  | [] => qret index
  | (_, false, _) :: l => q_spread_index l (S i) index
  | (_, true, p) :: l =>
    (if is_some index then qserr PatternMultipleSpreads p else qret tt);* q_spread_index l (S i) (Some i)
  end.
(** matcher.rs:193-197 *)
Fixpoint q_check_html (l : list (pos_pattern * nat)) : QM unit :=
  match l with
  | [] => qret tt
  | (x, _, p) :: l => (if can_match_html x then qret tt else qserr PatternCannotMatchHTML p);* q_check_html l
  end.
(** matcher.rs:340-362; the position of a part is the start of its pattern (matcher.rs:20-27) *)
Fixpoint q_dict_parts (parts : list (named_pattern * nat)) (attrs : nmap pattern) (spread : option pattern * nat)
  : QM (nmap pattern * (option pattern * nat)) :=
  match parts with
  | [] => qret (attrs, spread)
  | ((Some n, x), p) :: parts =>
    if is_some (fst spread) then qserr PatternNamedAfterSpread p;* q_dict_parts parts attrs spread
    else
      (if nhas attrs n then qserr (PatternDuplicateName n) p else qret tt);* q_dict_parts parts (ninsert attrs n x) spread
  | ((None, x), p) :: parts =>
    (if is_some (fst spread) then qserr ParamMultipleSpread p else qret tt);* q_dict_parts parts attrs (Some x, p)
  end.
(** matcher.rs:364-374 *)
Definition q_make_dict (parts : list (named_pattern * nat)) (start : nat) (simplify : bool) : QM (pattern * nat) :=
  do* r <- q_dict_parts parts [] (None, 0);
  match r with
  | ([], (Some x, p)) => if simplify then qret (x, p) else qret (PDict [] (Some x), start)
  | (attrs, (spread, _)) => qret (PDict attrs spread, start)
  end.
(** matcher.rs:292-323; each part with the start of its name, if it is one *)
Fixpoint q_template_regex (parts : list (template_part * nat)) (re : str) (vars : list str) : QM (str * list str) :=
  match parts with
  | [] => qret (re, vars)
  | (TPLit s, _) :: parts => q_template_regex parts (re ++ regex_escape s) vars
  | (TPChar c, _) :: parts => q_template_regex parts (re ++ regex_escape [c]) vars
  | (TPName (NSimple n), _) :: parts => q_template_regex parts (re ++ lit "(.+?)") (vars ++ [n])
  | (TPName (NAttr _ _ _), p) :: parts => qserr PatternAttrAccess p;* q_template_regex parts re vars
  | (TPName (NIndex _ _ _), p) :: parts => qserr PatternIndexAccess p;* q_template_regex parts re vars
  | (TPWhitespace, _) :: parts => q_template_regex parts (re ++ lit "\s+") vars
  end.

(** The recursive calls. base.rs:112-218 and matcher.rs:57-74. *)
Record qparsers := QParsers { qr_expr_tok : token -> QM (expr * nat); qr_pattern : QM (pattern * nat); qr_node : token -> QM node }.

Section PosParser.
  (** sourcefile.rs:110-113, [eof_range]: the length of the source *)
  Variable eof : nat.

  (** queue.rs:25-28 *)
  Definition q_expect_poll : QM token := qat eof expect_poll.
  (** queue.rs:32-39 *)
  Definition q_expect_kind (k : token_kind) : QM token :=
    do* t <- q_peek;
    match t with
    | Some tok => if negb (kind_eqb (tk_kind tok) k) then qsfail (TokenExpectedWas k (tk_kind tok)) (tk_start tok) else q_expect_poll
    | None => q_expect_poll
    end.
  (** types.rs:151-169, the loop; [begin] is the start of the first token *)
  Definition q_group_type (begin : nat) (t : ty) (tok : token) : QM ty :=
    if str_eqb (tk_text tok) (lit "list") then qret (TList t)
    else if str_eqb (tk_text tok) (lit "dict") then qret (TDict t)
    else if str_eqb (tk_text tok) (lit "?") then
      if unit_is_assignable t then qreport (Warn RedundantOptionType) (tk_start tok);* qret t else qret (TOptional t)
    else qserr TokenInvalidGroupType begin;* qret t.
  (** the loop of types.rs:129-171 *)
  Fixpoint q_groups (begin fuel : nat) (t : ty) : QM ty :=
    match fuel with
    | 0 => fun _ => QFuel
    | S fuel =>
      q_skip;*
      do* tok <- q_poll_if is_group_tok;
      match tok with
      | Some tok => do* t <- q_group_type begin t tok; q_groups begin fuel t
      | None => qret t
      end
    end.
  (** types.rs:129-171 *)
  Definition q_type : QM (ty * nat) :=
    q_skip;*
    do* begin_token <- q_expect_kind Name;
    do* t <- match base_type (tk_text begin_token) with
             | Some t => qret t
             | None => qserr TokenInvalidPrimitiveType (tk_start begin_token);* qret TAny
             end;
    do* t <- q_with_fuel (fun fuel => q_groups (tk_start begin_token) fuel t);
    qret (t, tk_start begin_token).

  (** base.rs:226-254: the start of a name stays that of its first token *)
  Fixpoint q_name_loop (fuel : nat) (n : name_expr) : QM name_expr :=
    match fuel with
    | 0 => fun _ => QFuel
    | S fuel =>
      do* tok <- q_poll_if is_access;
      match tok with
      | None => qret n
      | Some tok =>
        let coalescing := is_kind QuestionMarkDoubleColon tok in
        do* index_tok <- q_poll_if_kind Number;
        match index_tok with
        | Some index_tok => do* i <- q_number index_tok; q_name_loop fuel (NIndex n coalescing i)
        | None =>
          do* attr_name <- q_expect_kind Name; do* a <- q_name_id attr_name; q_name_loop fuel (NAttr n coalescing a)
        end
      end
    end.
  (** base.rs:226-254 *)
  Definition q_name (tok : token) : QM (name_expr * nat) :=
    do* n <- q_name_id tok; do* n <- q_with_fuel (fun fuel => q_name_loop fuel (NSimple n)); qret (n, tk_start tok).

  (** base.rs:52-71 *)
  Section NodesUntil.
    Variable parse_node : token -> QM node.
    Variable closer : token -> bool.
    (** the loop of base.rs:52-71 *)
    Fixpoint q_nodes_loop (fuel : nat) : QM (list node * option token) :=
      match fuel with
      | 0 => fun _ => QFuel
      | S fuel =>
        do* tok <- q_poll;
        match tok with
        | None => qret ([], None)
        | Some tok =>
          if closer tok then qret ([], Some tok)
          else
            do* child <- q_ok (parse_node tok);
            do* rest <- q_nodes_loop fuel;
            qret (match child with Some n => n :: fst rest | None => fst rest end, snd rest)
        end
      end.
    (** base.rs:52-71 *)
    Definition q_nodes_until : QM (list node * option token) :=
      q_skip;*
      do* r <- q_with_fuel q_nodes_loop;
      qret (pop_whitespace (fst r), snd r).
    (** base.rs:265-273 *)
    Fixpoint q_ellipsis_loop (fuel : nat) : QM (list node) :=
      match fuel with
      | 0 => fun _ => QFuel
      | S fuel =>
        do* tok <- q_poll_if in_ellipsis;
        match tok with
        | None => qret []
        | Some tok =>
          do* child <- q_ok (parse_node tok);
          do* rest <- q_ellipsis_loop fuel;
          qret (match child with Some n => n :: rest | None => rest end)
        end
      end.
  End NodesUntil.

  (** base.rs:73-95 *)
  Section SeparatedUntil.
    Context {T : Type}.
    Variable open : token.
    Variable parse : QM T.
    Variable sep_kind close_kind : token_kind.
    (** the loop of base.rs:73-95 *)
    Fixpoint q_separated_loop (fuel : nat) (expect_end : bool) : QM (list T * token) :=
      match fuel with
      | 0 => fun _ => QFuel
      | S fuel =>
        q_skip;*
        do* close <- (if expect_end then q_ok (q_expect_kind close_kind) else q_poll_if_kind close_kind);
        match close with
        | Some close => qret ([], close)
        | None =>
          do* child <- q_map_err parse (q_unmatched open;* qserr (TokenExpectedWasEOF close_kind) eof);
          q_skip;*
          do* expect_end <- (if kind_eqb sep_kind Whitespace then qret false
                             else do* sep <- q_poll_if_kind sep_kind; qret (negb (is_some sep)));
          do* rest <- q_separated_loop fuel expect_end;
          qret (child :: fst rest, snd rest)
        end
      end.
    (** base.rs:73-95 *)
    Definition q_separated : QM (list T * token) := q_with_fuel (fun fuel => q_separated_loop fuel false).
  End SeparatedUntil.

  (** template.rs:8-68. [parts] is last part first, each with the end of its text in the source if it is a literal, and the
      start of the name if it is a name. *)
  Fixpoint q_template_loop (fuel : nat) (decode : str -> str) (open : token) (open_kind : quote_kind)
      (parts : list (template_part * nat * nat)) (braces : list token) : QM (list (template_part * nat) * list token) :=
    match fuel with
    | 0 => fun _ => QFuel
    | S fuel =>
      let go := q_template_loop fuel decode open open_kind in
      do* tok <- q_map_err q_expect_poll (q_unmatched open);
      let literal :=
        match parts with
        | (TPLit s, end_, _) :: before =>
          if end_ =? tk_start tok then go ((TPLit (s ++ tk_text tok), tk_end tok, 0) :: before) braces
          else go ((TPLit (tk_text tok), tk_end tok, 0) :: parts) braces
        | _ => go ((TPLit (tk_text tok), tk_end tok, 0) :: parts) braces
        end in
      match tk_kind tok with
      | Quote k _ =>
        if match k, open_kind with QSingle, QSingle | QDouble, QDouble => true | _, _ => false end
        then qret (rev (List.map (fun x => (fst (fst x), snd x)) parts), rev braces)
        else literal
      | Newline | Verbatim _ => qserr (q_unexpected tok) (tk_start tok);* go parts braces
      | LBrace => q_skip;* go parts (tok :: braces)
      | RBrace =>
        match braces with
        | [] => qserr (q_unexpected tok) (tk_start tok);* go parts braces
        | _ :: braces => go match parts with (TPWhitespace, _, _) :: before => before | _ => parts end braces
        end
      | VarName =>
        do* n <- q_ok (q_name tok);
        go match n with Some (n, p) => (TPName n, 0, p) :: parts | None => parts end braces
      | Escape => do* c <- q_unescape tok; go ((TPChar c, 0, 0) :: parts) braces
      | Entity => do* c <- q_entity decode tok; go ((TPChar c, 0, 0) :: parts) braces
      | Whitespace => go ((TPWhitespace, 0, 0) :: parts) braces
      | _ => literal
      end
    end.
  (** base.rs:52-71, for the tokens which are not closed *)
  Fixpoint q_report_unmatched (toks : list token) : QM unit :=
    match toks with [] => qret tt | t :: toks => q_unmatched t;* q_report_unmatched toks end.
  (** template.rs:8-68 *)
  Definition q_template_parts (decode : str -> str) (open : token) (open_kind : quote_kind) : QM (list (template_part * nat) * nat) :=
    do* r <- q_with_fuel (fun fuel => q_template_loop fuel decode open open_kind [] []);
    q_report_unmatched (snd r);* qret (fst r, tk_start open).

  (** matcher.rs:327-338 *)
  Definition q_name_pattern (tok : token) : QM (str * nat) :=
    do* n <- q_name tok;
    match n with
    | (NSimple n, p) => qret (n, p)
    | (NAttr _ _ _, p) => qsfail PatternAttrAccess p
    | (NIndex _ _ _, p) => qsfail PatternIndexAccess p
    end.
  (** matcher.rs:378-397. The range of the pair starts where the pattern for the type does (ast.rs:353-371). *)
  Definition q_typed_pattern (x : pattern * nat) : QM (pattern * nat) :=
    q_skip;*
    do* colon <- q_poll_if_kind Colon;
    match colon with
    | None => qret x
    | Some _ =>
      q_skip;*
      do* var <- q_poll_if_kind VarName;
      do* q <- match var with
               | Some var => do* n <- q_name_pattern var; qret (PTypeOf (fst n), snd n)
               | None => do* t <- q_type; qret (PTyped (fst t), snd t)
               end;
      qret match fst x with PIgnore => q | _ => (PAnd (fst q) (fst x), snd q) end
    end.

  Section Parser.
    Variable src : str.
    Variable decode : str -> str.
    Variable regex_ok : str -> bool.
    Variable R : qparsers.

    (** base.rs:108-110 *)
    Definition q_expr : QM (expr * nat) := q_skip;* do* tok <- q_expect_poll; qr_expr_tok R tok.
    (** base.rs:99-104 and 265-273; the group starts at the ellipsis *)
    Definition q_ellipsis_group (open : token) : QM (expr * nat) :=
      do* children <- q_with_fuel (q_ellipsis_loop (qr_node R)); qret (group_of children, tk_start open).
    (** base.rs:97-104 *)
    Definition q_expr_or_ellipsis : QM (expr * nat) :=
      q_skip;*
      do* e <- q_poll_if_kind Ellipsis;
      match e with Some e => q_ellipsis_group e | None => q_expr end.
    (** base.rs:275-281 *)
    Definition q_group (open : token) : QM (expr * nat) :=
      do* r <- q_nodes_until (qr_node R) (is_kind RBrace);
      (if is_some (snd r) then qret tt else q_unmatched open);*
      qret (group_of (fst r), tk_start open).

    (** func.rs:254-289 *)
    Definition q_arg : QM (arg * nat) :=
      q_skip;*
      do* spread <- q_spread true true;
      q_skip;*
      do* name_tok <- q_poll_if_kind Name;
      match name_tok with
      | None => do* v <- q_expr; qret (Arg n_anonymous (fst spread) (fst v), start_or (snd spread) (snd v))
      | Some name_tok =>
        let start := start_or (snd spread) (tk_start name_tok) in
        q_skip;*
        do* eq <- q_poll_if_kind Equals;
        if is_some eq then
          match snd spread with Some p => qserr ArgSpreadNamed p | None => qret tt end;*
          do* v <- q_expr;
          do* n <- q_name_id name_tok;
          qret (Arg n NoSpread (fst v), start)
        else qret (Arg n_anonymous (fst spread) (EBareString (tk_text name_tok)), start)
      end.
    (** func.rs:164-195 *)
    Definition q_args : QM (list (arg * nat)) :=
      q_skip;*
      do* lpar <- q_poll_if_kind LPar;
      match lpar with
      | None => qret []
      | Some lpar =>
        do* r <- q_separated lpar q_arg Comma RPar;
        q_check_args (fst r) false [];* qret (fst r)
      end.
    (** base.rs:292-312 *)
    Definition q_list_item : QM (expr * bool) :=
      do* a <- q_arg;
      let '(Arg name kind value, p) := a in
      match kind with
      | NamedSpread => qserr SpreadNamedNotAllowed p
      | _ => if arg_positional name kind then qret tt else qserr ArgNamedNotAllowed p
      end;*
      qret (value, match kind with PosSpread => true | _ => false end).
    (** base.rs:292-312 *)
    Definition q_list (open : token) : QM (expr * nat) :=
      do* r <- q_separated open q_list_item Comma RSqb; qret (EList (fst r), tk_start open).

    (** func.rs:197-252; also the start of the default value *)
    Definition q_param : QM (raw_param * nat * nat) :=
      q_skip;*
      do* spread <- q_spread true true;
      q_skip;*
      do* name_tok <- q_expect_kind VarName;
      do* name <- q_name_id name_tok;
      let underscore := starts_with (lit "$_") (tk_text name_tok) in
      q_skip;*
      do* question_mark <- q_poll_if_kind QuestionMark;
      q_skip;*
      do* colon <- q_poll_if_kind Colon;
      do* annotation <- (if is_some colon then
                           q_skip;*
                           do* implicit <- q_poll_if_kind (Kw KImplicit);
                           do* t <- q_ok q_type;
                           qret (is_some implicit, match t with Some t => fst t | None => TAny end)
                         else qret (false, TAny));
      let '(is_implicit, t) := annotation in
      q_skip;*
      do* equals <- q_poll_if_kind Equals;
      do* default <- (if is_some equals then do* e <- q_expr; qret (Some (fst e), snd e) else qret (None, 0));
      (if is_some (fst default) && match fst spread with NoSpread => false | _ => true end
       then qserr ParamSpreadDefault (snd default) else qret tt);*
      qret (Param name (is_some question_mark) is_implicit t (fst default), fst spread, underscore,
            start_or (snd spread) (tk_start name_tok), snd default).
    (** func.rs:63-162 *)
    Definition q_signature : QM signature :=
      q_skip;*
      do* lpar <- q_poll_if_kind LPar;
      do* r <- match lpar with
               | None => qret ([], sigst0)
               | Some lpar =>
                 do* r <- q_separated lpar q_param Comma RPar;
                 do* s <- q_check_params (List.map fst (fst r)) sigst0;
                 qret (List.map (fun x => fst (fst (fst (fst x)))) (fst r), s)
               end;
      let '(params, s) := r in
      q_skip;*
      do* dot <- q_poll_if_kind Dot;
      if is_some dot then
        qret (Signature params (ss_positional s) (ss_positional_spread s) (ss_named s) (ss_named_spread s) false)
      else
        do* c <- q_param;
        let '(Param n q i t default, spread, _, p, default_start) := c in
        match spread with
        | NoSpread => if is_some default then qserr ParamContentDefault default_start else qret tt
        | _ => qserr ParamContentSpread p
        end;*
        qret (Signature (params ++ [Param n q i t default]) (ss_positional s) (ss_positional_spread s) (ss_named s)
                (ss_named_spread s) true).
    (** func.rs:12-33 *)
    Definition q_func_def (at_ : token) (allow_anonymous : bool) : QM (func_def * nat) :=
      q_skip;*
      do* name_tok <- q_poll_if_kind Name;
      do* name <- match name_tok with Some t => q_name_id t | None => qret n_anonymous end;
      do* sig <- q_signature;
      q_skip;*
      q_expect_kind Arrow;*
      do* body <- q_expr;
      if is_anonymous name && negb allow_anonymous then qsfail AnonymousFunctionNotAllowed (tk_start at_)
      else qret (FuncDef name sig (fst body), tk_start at_).
    (** func.rs:35-45 *)
    Definition q_func_call (at_ : token) : QM (expr * nat) :=
      do* f <- q_name at_;
      do* args <- q_args;
      do* content <- q_expr_or_ellipsis;
      qret (EFuncCall src (fst f) (List.map fst args) (fst content), snd f).

    (** base.rs:355-372 *)
    Definition q_some_named_args (at_ : token) : QM (list (str * expr)) :=
      do* args <- q_args;
      match args with
      | [] => qsfail DeclMissingArgs (tk_start at_)
      | _ => q_named_args args
      end.
    (** base.rs:340-353 *)
    Definition q_let_in (at_ : token) (is_export : bool) : QM (let_in * nat) :=
      do* vars <- q_some_named_args at_;
      do* child <- q_expr_or_ellipsis;
      (if expr_is_literal (fst child) && negb is_export then qserr LetInLiteral (snd child) else qret tt);*
      qret (LetIn (is_kind (Kw KImplicit) at_) vars (fst child), tk_start at_).
    (** base.rs:316-337 *)
    Definition q_export (at_ : token) : QM export :=
      q_skip;*
      do* fn_tok <- q_poll_if_kind (Kw KFn);
      match fn_tok with
      | Some fn_tok => do* f <- q_func_def fn_tok false; qret (ExFuncDef (fst f))
      | None =>
        do* let_tok <- q_poll_if_kind (Kw KLet);
        match let_tok with
        | Some let_tok => do* l <- q_let_in let_tok true; qret (ExLetIn (fst l))
        | None =>
          do* vars <- q_some_named_args at_;
          q_skip;*
          q_expect_kind Dot;*
          qret (ExNames vars)
        end
      end.

    (** tag.rs:66-104 *)
    Definition q_tag_attribute : QM (tag_attr * nat) :=
      q_skip;*
      do* spread <- q_spread false true;
      match fst spread with
      | NoSpread =>
        q_skip;*
        do* name_tok <- q_expect_kind Name;
        do* name <- q_name_id name_tok;
        q_skip;*
        do* question_mark <- q_poll_if_kind QuestionMark;
        q_skip;*
        do* equals <- q_poll_if_kind Equals;
        if is_some equals then do* v <- q_expr; qret (TAttr name (is_some question_mark) (Some (fst v)), tk_start name_tok)
        else match question_mark with
             | Some q => qsfail (TokenExpected Equals) (tk_start q)
             | None => qret (TAttr name false None, tk_start name_tok)
             end
      | _ => do* e <- q_expr; qret (TSpread (fst e), snd e)
      end.
    (** tag.rs:8-64 *)
    Definition q_tag (langle : token) : QM (expr * nat) :=
      do* name_tok <- q_expect_poll;
      do* n <- match tk_kind name_tok with
               | Name => do* n <- q_lowercase_name_id name_tok; qret (TNLit n, n)
               | VarName => do* n <- q_name name_tok; qret (TNName (fst n), n_anonymous)
               | ExclamationMark =>
                 do* doctype <- q_expect_poll;
                 if eq_ignore_case (tk_text doctype) (lit "DOCTYPE") then qret (TNLit n_doctype, n_doctype)
                 else qsfail TokenExpectedDoctype (tk_start doctype)
               | _ => q_ice
               end;
      let '(name, name_id) := n in
      do* r <- q_separated langle q_tag_attribute Whitespace RAngle;
      let '(attrs, rangle) := r in
      q_check_attrs attrs [];*
      if str_eqb (tk_text rangle) (lit "/>") || is_self_closing name_id then qret (ETag name (List.map fst attrs) [], tk_start langle)
      else
        do* c <- q_nodes_until (qr_node R) (is_close_tag name_id);
        match c with
        | (children, Some _) => qret (ETag name (List.map fst attrs) children, tk_start langle)
        | (_, None) => qsfail TagUnmatchedOpen (tk_start langle)
        end.

    (** matcher.rs:126-140 *)
    Definition q_positional_pattern : QM (pos_pattern * nat) :=
      q_skip;*
      do* e <- q_poll_if_kind Ellipsis;
      match e with
      | Some e => qret (PIgnore, true, tk_start e)
      | None =>
        do* spread <- q_spread true false;
        do* x <- qr_pattern R;
        qret (fst x, match fst spread with NoSpread => false | _ => true end, snd x)
      end.
    (** matcher.rs:142-163 *)
    Definition q_named_pattern (allow_lone_name : bool) : QM (named_pattern * nat) :=
      q_skip;*
      do* e <- q_poll_if_kind Ellipsis;
      match e with
      | Some e => qret (None, PIgnore, tk_start e)
      | None =>
        do* spread <- q_spread false true;
        match fst spread with
        | NoSpread =>
          do* name_tok <- q_expect_kind Name;
          (if starts_with (lit "_") (tk_text name_tok) then qserr PatternNamedUnderscore (tk_start name_tok) else qret tt);*
          q_skip;*
          do* equals <- (if allow_lone_name then q_poll_if_kind Equals else q_ok (q_expect_kind Equals));
          do* name <- q_name_id name_tok;
          do* x <- (if is_some equals then qr_pattern R else qret (PLiteralNone, tk_start name_tok));
          qret (Some name, fst x, snd x)
        | _ => do* x <- qr_pattern R; qret (None, fst x, snd x)
        end
      end.
    (** matcher.rs:165-216 *)
    Definition q_seq_pattern (open : token) (sep_kind close_kind : token_kind) : QM (pattern * nat) :=
      do* r <- q_separated open q_positional_pattern sep_kind close_kind;
      let children := fst r in
      do* index <- q_spread_index children 0 None;
      let ps := List.map (fun x => fst (fst x)) children in
      let is_list := is_kind LSqb open in
      (if is_list then qret tt else q_check_html children);*
      qret (match index with
            | Some i => if is_list then PSpreadList ps i else PSpreadHtml ps i
            | None => if is_list then PExactList ps else match ps with [] => PLiteralNone | _ => PExactHtml ps end
            end, tk_start open).
    (** matcher.rs:218-228 *)
    Definition q_dict_pattern (lpar : token) : QM (pattern * nat) :=
      do* r <- q_separated lpar (q_named_pattern false) Comma RPar; q_make_dict (fst r) (tk_start lpar) false.
    (** matcher.rs:230-282 *)
    Definition q_tag_pattern (langle : token) : QM (pattern * nat) :=
      do* name_tok <- q_expect_poll;
      do* n <- match tk_kind name_tok with
               | Underscore => qret (PIgnore, n_anonymous)
               | Name => do* n <- q_lowercase_name_id name_tok; qret (PLiteralName n, n)
               | VarName => do* n <- q_name_pattern name_tok; qret (PVarName (fst n), n_anonymous)
               | _ => qsfail (q_unexpected name_tok) (tk_start name_tok)
               end;
      let '(name, name_id) := n in
      do* r <- q_separated langle (q_named_pattern true) Whitespace RAngle;
      let '(raw_attrs, rangle) := r in
      do* attrs <- q_make_dict raw_attrs (tk_start langle) true;
      q_skip;*
      do* c <- (if str_eqb (tk_text rangle) (lit "/>") || is_self_closing name_id then qret (PLiteralNone, rangle)
                else
                  do* close <- q_poll_if_kind CloseTag;
                  match close with
                  | Some close => qret (PLiteralNone, close)
                  | None =>
                    do* content <- qr_pattern R;
                    q_skip;*
                    do* close <- q_expect_kind CloseTag;
                    qret (fst content, close)
                  end);
      let '(content, close) := c in
      (if is_kind CloseTag close && negb (is_close_tag name_id close) then qserr PatternIncorrectCloseTag (tk_start close)
       else qret tt);*
      qret (PTag name (fst attrs) content, tk_start langle).
    (** matcher.rs:284-325 *)
    Definition q_template_pattern (open : token) (open_kind : quote_kind) : QM (pattern * nat) :=
      do* r <- q_template_parts decode open open_kind;
      let parts := fst r in
      if forallb (fun x => part_is_literal (fst x)) parts then qret (PEquals (ETemplate (List.map fst parts)), snd r)
      else
        do* t <- q_template_regex parts (lit "^(?s:") [];
        let re := fst t ++ lit ")$" in
        if regex_ok re then qret (PRegex re (snd t), snd r) else q_ice.
    (** matcher.rs:88-124 *)
    Definition q_primary_pattern : QM (pattern * nat) :=
      q_skip;*
      do* tok <- q_expect_poll;
      match tk_kind tok with
      | Underscore => q_typed_pattern (PIgnore, tk_start tok)
      | VarName => do* n <- q_name_pattern tok; q_typed_pattern (PVarName (fst n), snd n)
      | Dot => qret (PLiteralNone, tk_start tok)
      | Boolean _ | Number | Verbatim _ => do* e <- qr_expr_tok R tok; qret (PEquals (fst e), snd e)
      | Equals => do* e <- q_expr; qret (PEquals (fst e), snd e)
      | LAngle => q_tag_pattern tok
      | LSqb => q_seq_pattern tok Comma RSqb
      | LPar => q_dict_pattern tok
      | LBrace => q_seq_pattern tok Whitespace RBrace
      | Quote k _ => q_template_pattern tok k
      | Name => qsfail PatternBareName (tk_start tok)
      | Asterisk => qsfail SpreadPositionalNotAllowed (tk_start tok)
      | DoubleAsterisk => qsfail SpreadNamedNotAllowed (tk_start tok)
      | Ellipsis => qsfail SpreadWildcardNotAllowed (tk_start tok)
      | _ => qsfail (q_unexpected tok) (tk_start tok)
      end.
    (** matcher.rs:76-86; ast.rs:353-371 *)
    Fixpoint q_and_loop (fuel : nat) (x : pattern * nat) : QM (pattern * nat) :=
      match fuel with
      | 0 => fun _ => QFuel
      | S fuel =>
        q_skip;*
        do* t <- q_poll_if_kind Ampersand;
        if is_some t then do* y <- q_primary_pattern; q_and_loop fuel (PAnd (fst x) (fst y), snd x) else qret x
      end.
    (** matcher.rs:76-86 *)
    Definition q_and_pattern : QM (pattern * nat) :=
      do* x <- q_primary_pattern; q_with_fuel (fun fuel => q_and_loop fuel x).
    (** matcher.rs:57-74 *)
    Fixpoint q_or_loop (fuel : nat) (x : pattern * nat) : QM (pattern * nat) :=
      match fuel with
      | 0 => fun _ => QFuel
      | S fuel =>
        q_skip;*
        do* t <- q_poll_if_kind Bar;
        if is_some t then
          do* y <- q_and_pattern;
          q_or_loop fuel (POr (fst x) (fst y) (get_name_ids (fst y) (get_name_ids (fst x) [])), snd x)
        else qret x
      end.
    (** matcher.rs:57-74 *)
    Definition q_match_pattern : QM (pattern * nat) :=
      do* x <- q_and_pattern; q_with_fuel (fun fuel => q_or_loop fuel x).
    (** matcher.rs:49-55 *)
    Definition q_match_branch : QM (pattern * expr) :=
      do* x <- qr_pattern R;
      q_skip;*
      q_expect_kind Arrow;*
      do* e <- q_expr;
      qret (fst x, fst e).
    (** matcher.rs:30-47 *)
    Definition q_match (at_ : token) : QM (expr * nat) :=
      do* v <- q_expr;
      q_skip;*
      do* open <- q_expect_kind LBrace;
      do* r <- q_separated open q_match_branch Comma RBrace;
      qret (EMatch (fst v) (fst r), tk_start at_).

    (** base.rs:114-172 *)
    Definition q_expr_tok (tok : token) : QM (expr * nat) :=
      match tk_kind tok with
      | Dot => qret (EUnit, tk_start tok)
      | Boolean b => qret (EBool b, tk_start tok)
      | Name => qret (EBareString (tk_text tok), tk_start tok)
      | Number => do* i <- q_number tok; qret (EInt i, tk_start tok)
      | Verbatim _ => qret (EVerbatim (tk_text tok), tk_start tok)
      | VarName => do* n <- q_name tok; qret (EName (fst n), snd n)
      | FuncName => q_func_call tok
      | Kw KExport => qsfail ExportNotAllowed (tk_start tok)
      | Kw KFn => do* f <- q_func_def tok true; qret (EFuncDef (fst f), snd f)
      | Kw KImplicit | Kw KLet => do* l <- q_let_in tok false; qret (ELetIn (fst l), snd l)
      | Kw KMatch => q_match tok
      | LBrace => q_group tok
      | LSqb => q_list tok
      | LAngle => do* tag <- q_has_next starts_tag; if tag then q_tag tok else qsfail ExpectedExpr (tk_start tok)
      | Quote k _ => do* r <- q_template_parts decode tok k; qret (ETemplate (List.map fst (fst r)), snd r)
      | _ => qsfail ExpectedExpr (tk_start tok)
      end.
    (** base.rs:174-218 *)
    Definition q_node (tok : token) : QM node :=
      match tk_kind tok with
      | Kw KExport => do* e <- q_export tok; qret (AExport e)
      | Kw KFn => do* f <- q_func_def tok false; qret (AFuncDef (fst f))
      | Verbatim k => qret (ACodeFence src (tk_text tok) match k with VMultiline => true | VSimple => false end)
      | FuncName | Kw _ | VarName | LBrace | LSqb => do* e <- q_expr_tok tok; qret (AExpr (fst e))
      | LAngle => do* tag <- q_has_next starts_tag; if tag then do* e <- q_tag tok; qret (AExpr (fst e)) else q_text tok
      | CloseTag | RBrace | RSqb => qsfail (TokenUnmatched (tk_kind tok)) (tk_start tok)
      | Comment => q_ice
      | Whitespace => qret AWhitespace
      | Newline => qret AParagraphBreak
      | Escape => do* c <- q_unescape tok; qret (AChar c)
      | Entity => do* c <- q_entity decode tok; qret (AChar c)
      | _ => q_text tok
      end.
    (** base.rs:112-168, matcher.rs:57-74 and base.rs:170-218 *)
    Definition q_step : qparsers := QParsers q_expr_tok q_match_pattern q_node.
  End Parser.

  (** The recursion, bounded by fuel. base.rs:112-168, matcher.rs:57-74 and base.rs:170-218 *)
  Fixpoint qparsers_n (src : str) (decode : str -> str) (regex_ok : str -> bool) (fuel : nat) : qparsers :=
    match fuel with
    | 0 => QParsers (fun _ _ => QFuel) (fun _ => QFuel) (fun _ _ => QFuel)
    | S fuel => q_step src decode regex_ok (qparsers_n src decode regex_ok fuel)
    end.
  (** base.rs:24-27 *)
  Definition q_root (src : str) (decode : str -> str) (regex_ok : str -> bool) : QM (list node) :=
    q_with_fuel (fun fuel =>
      do* r <- q_nodes_until (qr_node (qparsers_n src decode regex_ok fuel)) (fun _ => false); qret (fst r)).
End PosParser.

(** base.rs:18-21 and queue.rs:12-16: the syntax tree, and the diagnostics with their positions; those of the tokenizer first *)
Definition parse_pos (decode : str -> str) (regex_ok : str -> bool) (src text : str)
  : outcome (list node * list (papyri_error * nat)) :=
  obind (tokenize text true) (fun r =>
  match q_root (blen text) src decode regex_ok (QState (fst r) (List.map (fun e => (SyntaxErr (fst e), fst (snd e))) (snd r))) with
  | QOk nodes s => Ret (nodes, qs_diags s)
  | QErr s => Ret ([], qs_diags s)
  | QPanic => Panic
  | QFuel => OutOfFuel
  end).
