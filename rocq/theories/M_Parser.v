(** Model of /repo/src/parser: base.rs, func.rs, matcher.rs, tag.rs, template.rs, and parse_text of text.rs. Positions of
    diagnostics and of syntax tree nodes are left out (see M_Ast). Recursive calls go through a record of parsers, which
    is tied with fuel at the end; the loops have fuel of their own, one more than the number of tokens left. *)
From Verif Require Import Base M_Text M_Names M_TagInfo M_Token M_Tokenizer M_TokenText M_TextSubs M_Types M_Diag M_Queue M_Ast.

(** [Result::ok], used to go on after an error. base.rs:52-95. *)
Definition p_ok {A} (m : PM A) : PM (option A) := fun s =>
  match m s with POk a s => POk (Some a) s | PErr s => POk None s | PPanic => PPanic | PFuel => PFuel end.
(** [Result::map_err], where the function reports more diagnostics. tag.rs:8-64 and matcher.rs:230-282. *)
Definition map_err {A} (m : PM A) (h : PM unit) : PM A := fun s =>
  match m s with
  | PErr s => match h s with POk _ s => PErr s | PErr s => PErr s | PPanic => PPanic | PFuel => PFuel end
  | r => r
  end.
(** err.rs:8-10 *)
Definition p_ice {A} : PM A := fun _ => PPanic.
(** fuel for a loop that takes at least one token in every round but the last. No counterpart in the code: for the [while] and [loop] loops of /repo/src/parser (base.rs:52-95, 226-254 and others). *)
Definition with_fuel {A} (f : nat -> PM A) : PM A := fun s => f (S (length (ps_tokens s))) s.
(** [report] with a syntax error, parser/err.rs:12-15 *)
Definition serr (e : syntax_error) : PM unit := preport (SyntaxErr e).
(** [Err(self.report(..))] with a syntax error, parser/err.rs:12-15 *)
Definition sfail {A} (e : syntax_error) : PM A := pfail (SyntaxErr e).
(** [tok.kind == kind], parser/queue.rs:65-67 *)
Definition is_kind (k : token_kind) (t : token) : bool := kind_eqb (tk_kind t) k.
(** [Option::is_some] (std), as used in parser/func.rs:63-162 *)
Definition is_some {A} (o : option A) : bool := match o with Some _ => true | None => false end.

(** [str::to_lowercase] of ASCII text ([tok_lowercase_name_id] is applied to names only) and [eq_ignore_ascii_case]. base.rs:44-50 and tag.rs:108-113. *)
Definition lower_char (c : char) : char := if in_range 65 90 c then (c + 32)%N else c.
(** [to_ascii_lowercase] (std), for base.rs:44-50 *)
Definition ascii_lower (s : str) : str := List.map lower_char s.
(** [eq_ignore_ascii_case] (std), for tag.rs:108-113 *)
Definition eq_ignore_case (a b : str) : bool := str_eqb (ascii_lower a) (ascii_lower b).

(** base.rs:33-42 *)
Definition tok_name_id (tok : token) : PM str :=
  match tk_kind tok with
  | Name => pret (tk_text tok)
  | FuncName | VarName => pret (List.tl (tk_text tok))
  | _ => p_ice
  end.
(** base.rs:44-50 *)
Definition tok_lowercase_name_id (tok : token) : PM str :=
  if is_kind Name tok then pret (ascii_lower (tk_text tok)) else p_ice.
(** base.rs:220-224 *)
Definition p_number (tok : token) : PM Z :=
  match parse_number (tk_text tok) with inl z => pret z | inr e => sfail e end.
(** text.rs:76-94 *)
Definition p_unescape (tok : token) : PM char :=
  match unescape_char (tk_text tok) with
  | Ret (c, None) => pret c
  | Ret (c, Some e) => serr e;; pret c
  | _ => p_ice
  end.

(** base.rs:226-254 *)
Definition is_access (t : token) : bool := is_kind DoubleColon t || is_kind QuestionMarkDoubleColon t.
(** the loop of base.rs:226-254 *)
Fixpoint name_loop (fuel : nat) (n : name_expr) : PM name_expr :=
  match fuel with
  | 0 => fun _ => PFuel
  | S fuel =>
    do tok <- poll_if is_access;
    match tok with
    | None => pret n
    | Some tok =>
      let coalescing := is_kind QuestionMarkDoubleColon tok in
      do index_tok <- poll_if_kind Number;
      match index_tok with
      | Some index_tok => do i <- p_number index_tok; name_loop fuel (NIndex n coalescing i)
      | None => do attr_name <- expect_poll_kind Name; do a <- tok_name_id attr_name; name_loop fuel (NAttr n coalescing a)
      end
    end
  end.
(** base.rs:226-254 *)
Definition parse_name (tok : token) : PM name_expr :=
  do n <- tok_name_id tok; with_fuel (fun fuel => name_loop fuel (NSimple n)).

(** text.rs:101-116 *)
Definition has_text (t : token) : bool := negb (is_kind LAngle t) && is_some (token_text t).
(** the loop of text.rs:101-116 *)
Fixpoint text_loop (fuel : nat) (text : str) : PM str :=
  match fuel with
  | 0 => fun _ => PFuel
  | S fuel =>
    do tok <- poll_if has_text;
    match tok with
    | Some tok => text_loop fuel (text ++ match token_text tok with Some t => t | None => [] end)
    | None => pret text
    end
  end.
(** text.rs:101-116 *)
Definition parse_text (first : token) : PM node :=
  match token_text first with
  | None => p_ice
  | Some text => do text <- with_fuel (fun fuel => text_loop fuel text); pret (AText (substitutions text))
  end.

(** base.rs:52-71: the loop; a node that cannot be parsed is left out *)
Section NodesUntil.
  Variable parse_node : token -> PM node.
  Variable closer : token -> bool.
  (** the loop of base.rs:52-71 *)
  Fixpoint nodes_loop (fuel : nat) : PM (list node * option token) :=
    match fuel with
    | 0 => fun _ => PFuel
    | S fuel =>
      do tok <- poll;
      match tok with
      | None => pret ([], None)
      | Some tok =>
        if closer tok then pret ([], Some tok)
        else
          do child <- p_ok (parse_node tok);
          do rest <- nodes_loop fuel;
          pret (match child with Some n => n :: fst rest | None => fst rest end, snd rest)
      end
    end.
  (** base.rs:67-69 *)
  Fixpoint pop_whitespace (l : list node) : list node :=
    match l with
    | [] => []
    | n :: l => match pop_whitespace l with
                | [] => if node_is_whitespace n then [] else [n]
                | l => n :: l
                end
    end.
  (** base.rs:52-71 *)
  Definition parse_nodes_until : PM (list node * option token) :=
    skip_whitespace;;
    do r <- with_fuel nodes_loop;
    pret (pop_whitespace (fst r), snd r).
End NodesUntil.
(** base.rs:265-273 *)
Definition in_ellipsis (t : token) : bool := negb (is_kind CloseTag t) && negb (is_kind RBrace t).
Section EllipsisGroup.
  Variable parse_node : token -> PM node.
  (** the loop of base.rs:265-273 *)
  Fixpoint ellipsis_loop (fuel : nat) : PM (list node) :=
    match fuel with
    | 0 => fun _ => PFuel
    | S fuel =>
      do tok <- poll_if in_ellipsis;
      match tok with
      | None => pret []
      | Some tok =>
        do child <- p_ok (parse_node tok);
        do rest <- ellipsis_loop fuel;
        pret (match child with Some n => n :: rest | None => rest end)
      end
    end.
End EllipsisGroup.
(** base.rs:283-290 *)
Definition group_of (children : list node) : expr := match children with [] => EUnit | _ => EGroup children end.

(** base.rs:73-95 *)
Section SeparatedUntil.
  Context {T : Type}.
  Variable open : token.
  Variable parse : PM T.
  Variable sep_kind close_kind : token_kind.
  (** the loop of base.rs:73-95 *)
  Fixpoint separated_loop (fuel : nat) (expect_end : bool) : PM (list T * token) :=
    match fuel with
    | 0 => fun _ => PFuel
    | S fuel =>
      skip_whitespace;;
      do close <- (if expect_end then p_ok (expect_poll_kind close_kind) else poll_if_kind close_kind);
      match close with
      | Some close => pret ([], close)
      | None =>
        do child <- map_err parse (serr (TokenUnmatched (tk_kind open));; serr (TokenExpectedWasEOF close_kind));
        skip_whitespace;;
        do expect_end <- (if kind_eqb sep_kind Whitespace then pret false
                          else do sep <- poll_if_kind sep_kind; pret (negb (is_some sep)));
        do rest <- separated_loop fuel expect_end;
        pret (child :: fst rest, snd rest)
      end
    end.
  (** base.rs:73-95 *)
  Definition parse_separated_until : PM (list T * token) := with_fuel (fun fuel => separated_loop fuel false).
End SeparatedUntil.

(** func.rs:47-61 *)
Definition is_spread_tok (t : token) : bool := is_kind Asterisk t || is_kind DoubleAsterisk t.
(** func.rs:47-61 *)
Definition poll_if_spread (allow_pos allow_named : bool) : PM spread_kind :=
  do tok <- poll_if is_spread_tok;
  match tok with
  | None => pret NoSpread
  | Some tok =>
    if is_kind Asterisk tok then if allow_pos then pret PosSpread else serr SpreadPositionalNotAllowed;; pret NoSpread
    else if allow_named then pret NamedSpread else serr SpreadNamedNotAllowed;; pret NoSpread
  end.

(** template.rs:8-68. [parts] is last part first, each with the end of its text in the source if it is a literal. *)
Fixpoint template_loop (fuel : nat) (decode : str -> str) (open : token) (open_kind : quote_kind)
    (parts : list (template_part * nat)) (braces : list token) : PM (list template_part * list token) :=
  match fuel with
  | 0 => fun _ => PFuel
  | S fuel =>
    let go := template_loop fuel decode open open_kind in
    do tok <- map_err expect_poll (serr (TokenUnmatched (tk_kind open)));
    let literal :=
      match parts with
      | (TPLit s, end_) :: before =>
        if end_ =? tk_start tok then go ((TPLit (s ++ tk_text tok), tk_end tok) :: before) braces
        else go ((TPLit (tk_text tok), tk_end tok) :: parts) braces
      | _ => go ((TPLit (tk_text tok), tk_end tok) :: parts) braces
      end in
    match tk_kind tok with
    | Quote k _ =>
      if match k, open_kind with QSingle, QSingle | QDouble, QDouble => true | _, _ => false end
      then pret (rev (List.map fst parts), rev braces)
      else literal
    | Newline | Verbatim _ => serr (TokenUnexpected (tk_kind tok));; go parts braces
    | LBrace => skip_whitespace;; go parts (tok :: braces)
    | RBrace =>
      match braces with
      | [] => serr (TokenUnexpected (tk_kind tok));; go parts braces
      | _ :: braces => go match parts with (TPWhitespace, _) :: before => before | _ => parts end braces
      end
    | VarName =>
      do n <- p_ok (parse_name tok);
      go match n with Some n => (TPName n, 0) :: parts | None => parts end braces
    | Escape => do c <- p_unescape tok; go ((TPChar c, 0) :: parts) braces
    | Entity =>
      let (c, e) := decode_entity decode (tk_text tok) in
      match e with Some e => serr e | None => pret tt end;; go ((TPChar c, 0) :: parts) braces
    | Whitespace => go ((TPWhitespace, 0) :: parts) braces
    | _ => literal
    end
  end.
(** base.rs:52-71, for the tokens which are not closed *)
Fixpoint report_unmatched (toks : list token) : PM unit :=
  match toks with [] => pret tt | t :: toks => serr (TokenUnmatched (tk_kind t));; report_unmatched toks end.
(** template.rs:8-68 *)
Definition parse_template_parts (decode : str -> str) (open : token) (open_kind : quote_kind) : PM (list template_part) :=
  do r <- with_fuel (fun fuel => template_loop fuel decode open open_kind [] []);
  report_unmatched (snd r);; pret (fst r).

(** tag.rs:106-112 *)
Definition is_close_tag (name : str) (tok : token) : bool :=
  is_kind CloseTag tok &&
  (str_eqb (tk_text tok) (lit "</>") ||
   negb (is_anonymous name) && eq_ignore_case name (removelast (skipn 2 (tk_text tok)))).

(** func.rs:80-134: the checks on the parameters of a function *)
Record sigst := SigSt {
  ss_any_named : bool; ss_used : list str; ss_any_optional : bool; ss_any_optional_named : bool;
  ss_positional : nat; ss_positional_spread : bool; ss_named : nat; ss_named_spread : bool
}.
(** func.rs:63-68: the initial values *)
Definition sigst0 : sigst := SigSt false [] false false 0 false 0 false.
(** func.rs:197: the result of [parse_param] *)
Definition raw_param : Type := param * spread_kind * bool.                    (* with the kind of spread, and [$_..] *)
(** one round of the loop of func.rs:80-134 *)
Definition check_param (r : raw_param) (s : sigst) : PM sigst :=
  let '(Param name question_mark is_implicit t default, kind, is_underscore) := r in
  let is_spread := match kind with NoSpread => false | _ => true end in
  let is_required := negb is_spread && negb question_mark && negb (is_some default) in
  let is_positional := if is_spread then match kind with PosSpread => true | _ => false end else is_underscore in
  let '(SigSt any_named used any_opt any_opt_named np sp nn sn) := s in
  (if mem name used then serr (ParamDuplicateName name)
   else if is_positional && any_named then serr ParamPositionalAfterNamed
   else if is_required && (if is_positional then any_opt else any_opt_named) then serr ParamRequiredAfterOptional
   else if is_positional && is_implicit then serr ParamPositionalImplicit
   else if is_spread && is_implicit then serr ParamSpreadImplicit
   else if is_implicit && is_some default then serr ParamDefaultImplicit
   else if (is_positional && sp) || (negb is_positional && sn) then
     serr (if is_spread then ParamMultipleSpread else ParamAfterSpread)
   else pret tt);;
  let used := set_add name used in
  match is_positional, is_spread with
  | false, false => pret (SigSt true used any_opt (any_opt_named || negb is_required) np sp (S nn) sn)
  | true, false => pret (SigSt any_named used (any_opt || negb is_required) any_opt_named (S np) sp nn sn)
  | false, true =>
    (if is_underscore then serr ParamNamedSpreadUnderscore else pret tt);;
    pret (SigSt true used any_opt any_opt_named np sp nn true)
  | true, true =>
    (if is_underscore then pret tt else serr ParamPositionalSpreadNoUnderscore);;
    pret (SigSt any_named used any_opt any_opt_named np true nn sn)
  end.
(** the loop of func.rs:80-134 *)
Fixpoint check_params (rs : list raw_param) (s : sigst) : PM sigst :=
  match rs with [] => pret s | r :: rs => do s <- check_param r s; check_params rs s end.

(** func.rs:178-192: the checks on the arguments of a call *)
Fixpoint check_args (args : list arg) (any_named : bool) (used : list str) : PM unit :=
  match args with
  | [] => pret tt
  | Arg name kind _ :: args =>
    if negb (is_anonymous name) then
      (if mem name used then serr (ArgDuplicateName name) else pret tt);;
      check_args args true (set_add name used)
    else match kind with
         | NamedSpread => check_args args true used
         | _ => (if any_named then serr ArgPositionalAfterNamed else pret tt);; check_args args any_named used
         end
  end.
(** tag.rs:37-44: the checks on the attributes of a tag *)
Fixpoint check_attrs (attrs : list tag_attr) (used : list str) : PM unit :=
  match attrs with
  | [] => pret tt
  | TAttr name _ _ :: attrs =>
    (if mem name used then serr (TagDuplicateAttr name) else pret tt);; check_attrs attrs (set_add name used)
  | TSpread _ :: attrs => check_attrs attrs used
  end.
(** base.rs:355-372; ast.rs:180-192 *)
Definition arg_positional (name : str) (kind : spread_kind) : bool :=
  is_anonymous name && match kind with NamedSpread => false | _ => true end.
(** base.rs:358-371 *)
Fixpoint named_args (args : list arg) : PM (list (str * expr)) :=
  match args with
  | [] => pret []
  | Arg name kind value :: args =>
    match kind with
    | NoSpread =>
      if arg_positional name kind then serr DeclPositionalArg;; named_args args
      else do rest <- named_args args; pret ((name, value) :: rest)
    | _ =>
      serr (if arg_positional name kind then SpreadPositionalNotAllowed else SpreadNamedNotAllowed);;
      named_args args
    end
  end.

(** matcher.rs:8-18: a pattern, and whether it is a spread; a pattern with its name, or without one if it is a spread *)
Definition pos_pattern : Type := pattern * bool.
(** [NamedMatchPattern], matcher.rs:15-18 *)
Definition named_pattern : Type := option str * pattern.
(** matcher.rs:176-190: the index of the spread, the last one if there are several *)
Fixpoint spread_index (l : list pos_pattern) (i : nat) (index : option nat) : PM (option nat) :=
  match l with
  | [] => pret index
  | (_, false) :: l => spread_index l (S i) index
  | (_, true) :: l => (if is_some index then serr PatternMultipleSpreads else pret tt);; spread_index l (S i) (Some i)
  end.
(** matcher.rs:230-282: the patterns of the content *)
Fixpoint check_html_patterns (ps : list pattern) : PM unit :=
  match ps with
  | [] => pret tt
  | p :: ps => (if can_match_html p then pret tt else serr PatternCannotMatchHTML);; check_html_patterns ps
  end.
(** matcher.rs:340-374 *)
Fixpoint dict_parts (parts : list named_pattern) (attrs : nmap pattern) (spread : option pattern)
  : PM (nmap pattern * option pattern) :=
  match parts with
  | [] => pret (attrs, spread)
  | (Some n, p) :: parts =>
    if is_some spread then serr PatternNamedAfterSpread;; dict_parts parts attrs spread
    else
      (if nhas attrs n then serr (PatternDuplicateName n) else pret tt);; dict_parts parts (ninsert attrs n p) spread
  | (None, p) :: parts => (if is_some spread then serr ParamMultipleSpread else pret tt);; dict_parts parts attrs (Some p)
  end.
(** matcher.rs:340-374 *)
Definition make_dict_pattern (parts : list named_pattern) (simplify : bool) : PM pattern :=
  do r <- dict_parts parts [] None;
  match r with
  | ([], Some p) => if simplify then pret p else pret (PDict [] (Some p))
  | (attrs, spread) => pret (PDict attrs spread)
  end.
(** [regex::escape] (regex crate, regex-syntax's [is_meta_character]). Used in matcher.rs:284-325. *)
Definition is_meta (c : char) : bool := existsb (N.eqb c) (lit "\.+*?()|[]{}^$#&-~").
(** [regex::escape] (regex crate), used in matcher.rs:284-325 *)
Definition regex_escape (s : str) : str := flat_map (fun c => if is_meta c then [c_of "\"; c] else [c]) s.
(** matcher.rs:292-323 *)
Fixpoint template_regex (parts : list template_part) (re : str) (vars : list str) : PM (str * list str) :=
  match parts with
  | [] => pret (re, vars)
  | TPLit s :: parts => template_regex parts (re ++ regex_escape s) vars
  | TPChar c :: parts => template_regex parts (re ++ regex_escape [c]) vars
  | TPName (NSimple n) :: parts => template_regex parts (re ++ lit "(.+?)") (vars ++ [n])
  | TPName (NAttr _ _ _) :: parts => serr PatternAttrAccess;; template_regex parts re vars
  | TPName (NIndex _ _ _) :: parts => serr PatternIndexAccess;; template_regex parts re vars
  | TPWhitespace :: parts => template_regex parts (re ++ lit "\s+") vars
  end.
(** ast.rs:232-236 *)
Definition part_is_literal (p : template_part) : bool := match p with TPName _ => false | _ => true end.
(** matcher.rs:327-338 *)
Definition parse_name_pattern (tok : token) : PM str :=
  do n <- parse_name tok;
  match n with
  | NSimple n => pret n
  | NAttr _ _ _ => sfail PatternAttrAccess
  | NIndex _ _ _ => sfail PatternIndexAccess
  end.
(** matcher.rs:378-397 *)
Definition parse_optional_typed_pattern (p : pattern) : PM pattern :=
  skip_whitespace;;
  do colon <- poll_if_kind Colon;
  match colon with
  | None => pret p
  | Some _ =>
    skip_whitespace;;
    do var <- poll_if_kind VarName;
    do q <- match var with
            | Some var => do n <- parse_name_pattern var; pret (PTypeOf n)
            | None => do t <- parse_type; pret (PTyped t)
            end;
    pret match p with PIgnore => q | _ => PAnd q p end
  end.

(** The recursive calls. [parse_expr_tok] (base.rs:112-168), [parse_match_pattern] (matcher.rs:57-74) and [parse_node] (base.rs:170-218). *)
Record parsers := Parsers { r_expr_tok : token -> PM expr; r_pattern : PM pattern; r_node : token -> PM node }.

Section Parser.
  Variable src : str.                                                             (* the path of the source file *)
  (** The htmlentity crate: decoding of entities *)
  Variable decode : str -> str.
  (** The regex crate: whether a regular expression compiles *)
  Variable regex_ok : str -> bool.
  Variable R : parsers.

  (** base.rs:108-110 *)
  Definition parse_expr : PM expr := skip_whitespace;; do tok <- expect_poll; r_expr_tok R tok.
  (** base.rs:99-104 and 265-273 *)
  Definition parse_ellipsis_group : PM expr :=
    do children <- with_fuel (ellipsis_loop (r_node R)); pret (group_of children).
  (** base.rs:97-104 *)
  Definition parse_expr_or_ellipsis : PM expr :=
    skip_whitespace;;
    do e <- poll_if_kind Ellipsis;
    if is_some e then parse_ellipsis_group else parse_expr.
  (** base.rs:275-281 *)
  Definition parse_group (open : token) : PM expr :=
    do r <- parse_nodes_until (r_node R) (is_kind RBrace);
    (if is_some (snd r) then pret tt else serr (TokenUnmatched (tk_kind open)));;
    pret (group_of (fst r)).

  (** func.rs:254-289 *)
  Definition parse_arg : PM arg :=
    skip_whitespace;;
    do spread <- poll_if_spread true true;
    skip_whitespace;;
    do name_tok <- poll_if_kind Name;
    match name_tok with
    | None => do v <- parse_expr; pret (Arg n_anonymous spread v)
    | Some name_tok =>
      skip_whitespace;;
      do eq <- poll_if_kind Equals;
      if is_some eq then
        match spread with NoSpread => pret tt | _ => serr ArgSpreadNamed end;;
        do v <- parse_expr;
        do n <- tok_name_id name_tok;
        pret (Arg n NoSpread v)
      else pret (Arg n_anonymous spread (EBareString (tk_text name_tok)))
    end.
  (** func.rs:164-195 *)
  Definition parse_args : PM (list arg) :=
    skip_whitespace;;
    do lpar <- poll_if_kind LPar;
    match lpar with
    | None => pret []
    | Some lpar =>
      do r <- parse_separated_until lpar parse_arg Comma RPar;
      check_args (fst r) false [];; pret (fst r)
    end.
  (** base.rs:292-312 *)
  Definition parse_list_item : PM (expr * bool) :=
    do a <- parse_arg;
    let '(Arg name kind value) := a in
    match kind with
    | NamedSpread => serr SpreadNamedNotAllowed
    | _ => if arg_positional name kind then pret tt else serr ArgNamedNotAllowed
    end;;
    pret (value, match kind with PosSpread => true | _ => false end).
  (** base.rs:292-312 *)
  Definition parse_list (open : token) : PM expr :=
    do r <- parse_separated_until open parse_list_item Comma RSqb; pret (EList (fst r)).

  (** func.rs:197-252 *)
  Definition parse_param : PM raw_param :=
    skip_whitespace;;
    do spread <- poll_if_spread true true;
    skip_whitespace;;
    do name_tok <- expect_poll_kind VarName;
    do name <- tok_name_id name_tok;
    let underscore := starts_with (lit "$_") (tk_text name_tok) in
    skip_whitespace;;
    do question_mark <- poll_if_kind QuestionMark;
    skip_whitespace;;
    do colon <- poll_if_kind Colon;
    do annotation <- (if is_some colon then
                        skip_whitespace;;
                        do implicit <- poll_if_kind (Kw KImplicit);
                        do t <- p_ok parse_type;
                        pret (is_some implicit, match t with Some t => t | None => TAny end)
                      else pret (false, TAny));
    let '(is_implicit, t) := annotation in
    skip_whitespace;;
    do equals <- poll_if_kind Equals;
    do default <- (if is_some equals then do e <- parse_expr; pret (Some e) else pret None);
    (if is_some default && match spread with NoSpread => false | _ => true end then serr ParamSpreadDefault else pret tt);;
    pret (Param name (is_some question_mark) is_implicit t default, spread, underscore).
  (** func.rs:63-162 *)
  Definition parse_signature : PM signature :=
    skip_whitespace;;
    do lpar <- poll_if_kind LPar;
    do r <- match lpar with
            | None => pret ([], sigst0)
            | Some lpar =>
              do r <- parse_separated_until lpar parse_param Comma RPar;
              do s <- check_params (fst r) sigst0;
              pret (List.map (fun p => fst (fst p)) (fst r), s)
            end;
    let '(params, s) := r in
    skip_whitespace;;
    do dot <- poll_if_kind Dot;
    if is_some dot then
      pret (Signature params (ss_positional s) (ss_positional_spread s) (ss_named s) (ss_named_spread s) false)
    else
      do c <- parse_param;
      let '(Param n q i t default, spread, _) := c in
      match spread with
      | NoSpread => if is_some default then serr ParamContentDefault else pret tt
      | _ => serr ParamContentSpread
      end;;
      pret (Signature (params ++ [Param n q i t default]) (ss_positional s) (ss_positional_spread s) (ss_named s)
              (ss_named_spread s) true).
  (** func.rs:12-33 *)
  Definition parse_func_def (allow_anonymous : bool) : PM func_def :=
    skip_whitespace;;
    do name_tok <- poll_if_kind Name;
    do name <- match name_tok with Some t => tok_name_id t | None => pret n_anonymous end;
    do sig <- parse_signature;
    skip_whitespace;;
    expect_poll_kind Arrow;;
    do body <- parse_expr;
    if is_anonymous name && negb allow_anonymous then sfail AnonymousFunctionNotAllowed
    else pret (FuncDef name sig body).
  (** func.rs:35-45 *)
  Definition parse_func_call (at_ : token) : PM expr :=
    do f <- parse_name at_;
    do args <- parse_args;
    do content <- parse_expr_or_ellipsis;
    pret (EFuncCall src f args content).

  (** base.rs:355-372 *)
  Definition parse_some_named_args : PM (list (str * expr)) :=
    do args <- parse_args;
    match args with
    | [] => sfail DeclMissingArgs
    | _ => named_args args
    end.
  (** base.rs:340-353 *)
  Definition parse_let_in (at_ : token) (is_export : bool) : PM let_in :=
    do vars <- parse_some_named_args;
    do child <- parse_expr_or_ellipsis;
    (if expr_is_literal child && negb is_export then serr LetInLiteral else pret tt);;
    pret (LetIn (is_kind (Kw KImplicit) at_) vars child).
  (** base.rs:316-337 *)
  Definition parse_export : PM export :=
    skip_whitespace;;
    do fn_tok <- poll_if_kind (Kw KFn);
    if is_some fn_tok then do f <- parse_func_def false; pret (ExFuncDef f)
    else
      do let_tok <- poll_if_kind (Kw KLet);
      match let_tok with
      | Some let_tok => do l <- parse_let_in let_tok true; pret (ExLetIn l)
      | None =>
        do vars <- parse_some_named_args;
        skip_whitespace;;
        expect_poll_kind Dot;;
        pret (ExNames vars)
      end.

  (** tag.rs:66-104 *)
  Definition parse_tag_attribute : PM tag_attr :=
    skip_whitespace;;
    do spread <- poll_if_spread false true;
    match spread with
    | NoSpread =>
      skip_whitespace;;
      do name_tok <- expect_poll_kind Name;
      do name <- tok_name_id name_tok;
      skip_whitespace;;
      do question_mark <- poll_if_kind QuestionMark;
      skip_whitespace;;
      do equals <- poll_if_kind Equals;
      if is_some equals then do v <- parse_expr; pret (TAttr name (is_some question_mark) (Some v))
      else if is_some question_mark then sfail (TokenExpected Equals)
      else pret (TAttr name false None)
    | _ => do e <- parse_expr; pret (TSpread e)
    end.
  (** tag.rs:8-64 *)
  Definition parse_tag (langle : token) : PM expr :=
    do name_tok <- expect_poll;
    do n <- match tk_kind name_tok with
            | Name => do n <- tok_lowercase_name_id name_tok; pret (TNLit n, n)
            | VarName => do n <- parse_name name_tok; pret (TNName n, n_anonymous)
            | ExclamationMark =>
              do doctype <- expect_poll;
              if eq_ignore_case (tk_text doctype) (lit "DOCTYPE") then pret (TNLit n_doctype, n_doctype)
              else sfail TokenExpectedDoctype
            | _ => p_ice
            end;
    let '(name, name_id) := n in
    do r <- parse_separated_until langle parse_tag_attribute Whitespace RAngle;
    let '(attrs, rangle) := r in
    check_attrs attrs [];;
    if str_eqb (tk_text rangle) (lit "/>") || is_self_closing name_id then pret (ETag name attrs [])
    else
      do c <- parse_nodes_until (r_node R) (is_close_tag name_id);
      match c with
      | (children, Some _) => pret (ETag name attrs children)
      | (_, None) => sfail TagUnmatchedOpen
      end.

  (** matcher.rs:126-140 *)
  Definition parse_positional_match_pattern : PM pos_pattern :=
    skip_whitespace;;
    do e <- poll_if_kind Ellipsis;
    if is_some e then pret (PIgnore, true)
    else
      do spread <- poll_if_spread true false;
      do p <- r_pattern R;
      pret (p, match spread with NoSpread => false | _ => true end).
  (** matcher.rs:142-163 *)
  Definition parse_named_match_pattern (allow_lone_name : bool) : PM named_pattern :=
    skip_whitespace;;
    do e <- poll_if_kind Ellipsis;
    if is_some e then pret (None, PIgnore)
    else
      do spread <- poll_if_spread false true;
      match spread with
      | NoSpread =>
        do name_tok <- expect_poll_kind Name;
        (if starts_with (lit "_") (tk_text name_tok) then serr PatternNamedUnderscore else pret tt);;
        skip_whitespace;;
        do equals <- (if allow_lone_name then poll_if_kind Equals else p_ok (expect_poll_kind Equals));
        do name <- tok_name_id name_tok;
        do p <- (if is_some equals then r_pattern R else pret PLiteralNone);
        pret (Some name, p)
      | _ => do p <- r_pattern R; pret (None, p)
      end.
  (** matcher.rs:165-216 *)
  Definition parse_seq_pattern (open : token) (sep_kind close_kind : token_kind) : PM pattern :=
    do r <- parse_separated_until open parse_positional_match_pattern sep_kind close_kind;
    let children := fst r in
    do index <- spread_index children 0 None;
    let ps := List.map fst children in
    let is_list := is_kind LSqb open in
    (if is_list then pret tt else check_html_patterns ps);;
    pret match index with
         | Some i => if is_list then PSpreadList ps i else PSpreadHtml ps i
         | None => if is_list then PExactList ps else match ps with [] => PLiteralNone | _ => PExactHtml ps end
         end.
  (** matcher.rs:218-228 *)
  Definition parse_dict_pattern (lpar : token) : PM pattern :=
    do r <- parse_separated_until lpar (parse_named_match_pattern false) Comma RPar; make_dict_pattern (fst r) false.
  (** matcher.rs:230-282 *)
  Definition parse_tag_pattern (langle : token) : PM pattern :=
    do name_tok <- expect_poll;
    do n <- match tk_kind name_tok with
            | Underscore => pret (PIgnore, n_anonymous)
            | Name => do n <- tok_lowercase_name_id name_tok; pret (PLiteralName n, n)
            | VarName => do n <- parse_name_pattern name_tok; pret (PVarName n, n_anonymous)
            | k => sfail (TokenUnexpected k)
            end;
    let '(name, name_id) := n in
    do r <- parse_separated_until langle (parse_named_match_pattern true) Whitespace RAngle;
    let '(raw_attrs, rangle) := r in
    do attrs <- make_dict_pattern raw_attrs true;
    skip_whitespace;;
    do c <- (if str_eqb (tk_text rangle) (lit "/>") || is_self_closing name_id then pret (PLiteralNone, rangle)
             else
               do close <- poll_if_kind CloseTag;
               match close with
               | Some close => pret (PLiteralNone, close)
               | None =>
                 do content <- r_pattern R;
                 skip_whitespace;;
                 do close <- expect_poll_kind CloseTag;
                 pret (content, close)
               end);
    let '(content, close) := c in
    (if is_kind CloseTag close && negb (is_close_tag name_id close) then serr PatternIncorrectCloseTag else pret tt);;
    pret (PTag name attrs content).
  (** matcher.rs:284-325 *)
  Definition parse_template_pattern (open : token) (open_kind : quote_kind) : PM pattern :=
    do parts <- parse_template_parts decode open open_kind;
    if forallb part_is_literal parts then pret (PEquals (ETemplate parts))
    else
      do r <- template_regex parts (lit "^(?s:") [];
      let re := fst r ++ lit ")$" in
      if regex_ok re then pret (PRegex re (snd r)) else p_ice.
  (** matcher.rs:88-124 *)
  Definition parse_primary_match_pattern : PM pattern :=
    skip_whitespace;;
    do tok <- expect_poll;
    match tk_kind tok with
    | Underscore => parse_optional_typed_pattern PIgnore
    | VarName => do n <- parse_name_pattern tok; parse_optional_typed_pattern (PVarName n)
    | Dot => pret PLiteralNone
    | Boolean _ | Number | Verbatim _ => do e <- r_expr_tok R tok; pret (PEquals e)
    | Equals => do e <- parse_expr; pret (PEquals e)
    | LAngle => parse_tag_pattern tok
    | LSqb => parse_seq_pattern tok Comma RSqb
    | LPar => parse_dict_pattern tok
    | LBrace => parse_seq_pattern tok Whitespace RBrace
    | Quote k _ => parse_template_pattern tok k
    | Name => sfail PatternBareName
    | Asterisk => sfail SpreadPositionalNotAllowed
    | DoubleAsterisk => sfail SpreadNamedNotAllowed
    | Ellipsis => sfail SpreadWildcardNotAllowed
    | k => sfail (TokenUnexpected k)
    end.
  (** matcher.rs:76-86 *)
  Fixpoint and_loop (fuel : nat) (p : pattern) : PM pattern :=
    match fuel with
    | 0 => fun _ => PFuel
    | S fuel =>
      skip_whitespace;;
      do t <- poll_if_kind Ampersand;
      if is_some t then do q <- parse_primary_match_pattern; and_loop fuel (PAnd p q) else pret p
    end.
  (** matcher.rs:76-86 *)
  Definition parse_and_match_pattern : PM pattern :=
    do p <- parse_primary_match_pattern; with_fuel (fun fuel => and_loop fuel p).
  (** matcher.rs:57-74 *)
  Fixpoint or_loop (fuel : nat) (p : pattern) : PM pattern :=
    match fuel with
    | 0 => fun _ => PFuel
    | S fuel =>
      skip_whitespace;;
      do t <- poll_if_kind Bar;
      if is_some t then
        do q <- parse_and_match_pattern; or_loop fuel (POr p q (get_name_ids q (get_name_ids p [])))
      else pret p
    end.
  (** matcher.rs:57-74 *)
  Definition parse_match_pattern : PM pattern :=
    do p <- parse_and_match_pattern; with_fuel (fun fuel => or_loop fuel p).
  (** matcher.rs:49-55 *)
  Definition parse_match_branch : PM (pattern * expr) :=
    do p <- r_pattern R;
    skip_whitespace;;
    expect_poll_kind Arrow;;
    do e <- parse_expr;
    pret (p, e).
  (** matcher.rs:30-47 *)
  Definition parse_match : PM expr :=
    do v <- parse_expr;
    skip_whitespace;;
    do open <- expect_poll_kind LBrace;
    do r <- parse_separated_until open parse_match_branch Comma RBrace;
    pret (EMatch v (fst r)).

  (** base.rs:158, 196 *)
  Definition starts_tag (t : token) : bool := is_kind Name t || is_kind VarName t || is_kind ExclamationMark t.
  (** base.rs:114-172 *)
  Definition parse_expr_tok (tok : token) : PM expr :=
    match tk_kind tok with
    | Dot => pret EUnit
    | Boolean b => pret (EBool b)
    | Name => pret (EBareString (tk_text tok))
    | Number => do i <- p_number tok; pret (EInt i)
    | Verbatim _ => pret (EVerbatim (tk_text tok))
    | VarName => do n <- parse_name tok; pret (EName n)
    | FuncName => parse_func_call tok
    | Kw KExport => sfail ExportNotAllowed
    | Kw KFn => do f <- parse_func_def true; pret (EFuncDef f)
    | Kw KImplicit | Kw KLet => do l <- parse_let_in tok false; pret (ELetIn l)
    | Kw KMatch => parse_match
    | LBrace => parse_group tok
    | LSqb => parse_list tok
    | LAngle => do tag <- has_next starts_tag; if tag then parse_tag tok else sfail ExpectedExpr
    | Quote k _ => do parts <- parse_template_parts decode tok k; pret (ETemplate parts)
    | _ => sfail ExpectedExpr
    end.
  (** base.rs:174-218 *)
  Definition parse_node (tok : token) : PM node :=
    match tk_kind tok with
    | Kw KExport => do e <- parse_export; pret (AExport e)
    | Kw KFn => do f <- parse_func_def false; pret (AFuncDef f)
    | Verbatim k => pret (ACodeFence src (tk_text tok) match k with VMultiline => true | VSimple => false end)
    | FuncName | Kw _ | VarName | LBrace | LSqb => do e <- parse_expr_tok tok; pret (AExpr e)
    | LAngle => do tag <- has_next starts_tag; if tag then do e <- parse_tag tok; pret (AExpr e) else parse_text tok
    | CloseTag | RBrace | RSqb => sfail (TokenUnmatched (tk_kind tok))
    | Comment => p_ice
    | Whitespace => pret AWhitespace
    | Newline => pret AParagraphBreak
    | Escape => do c <- p_unescape tok; pret (AChar c)
    | Entity =>
      let (c, e) := decode_entity decode (tk_text tok) in
      match e with Some e => serr e | None => pret tt end;; pret (AChar c)
    | _ => parse_text tok
    end.
  (** base.rs:112-168, matcher.rs:57-74 and base.rs:170-218 *)
  Definition parser_step : parsers := Parsers parse_expr_tok parse_match_pattern parse_node.
End Parser.

(** The recursion, bounded by fuel. [parse_expr_tok] (base.rs:112-168), [parse_match_pattern] (matcher.rs:57-74) and [parse_node] (base.rs:170-218). *)
Fixpoint parsers_n (src : str) (decode : str -> str) (regex_ok : str -> bool) (fuel : nat) : parsers :=
  match fuel with
  | 0 => Parsers (fun _ _ => PFuel) (fun _ => PFuel) (fun _ _ => PFuel)
  | S fuel => parser_step src decode regex_ok (parsers_n src decode regex_ok fuel)
  end.
(** base.rs:24-27 *)
Definition parse_root (src : str) (decode : str -> str) (regex_ok : str -> bool) : PM (list node) :=
  with_fuel (fun fuel =>
    do r <- parse_nodes_until (r_node (parsers_n src decode regex_ok fuel)) (fun _ => false); pret (fst r)).
(** base.rs:18-21 and queue.rs:12-16: the syntax tree and the diagnostics *)
Definition parse (decode : str -> str) (regex_ok : str -> bool) (src text : str) : outcome (list node * list papyri_error) :=
  obind (tokenize text true) (fun r =>
  match parse_root src decode regex_ok (PState (fst r) (List.map (fun e => SyntaxErr (fst e)) (snd r))) with
  | POk nodes s => Ret (nodes, ps_diags s)
  | PErr s => Ret ([], ps_diags s)
  | PPanic => Panic
  | PFuel => OutOfFuel
  end).
