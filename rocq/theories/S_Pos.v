(** Specification for C66: where in the text a syntax error is. *)
From Verif Require Import Base M_Text M_Names M_Token M_Tokenizer M_TokenText M_Diag M_Queue M_Parser.

Definition IsSpread (t : token) : Prop := tk_kind t = Asterisk \/ tk_kind t = DoubleAsterisk.
(** The first token of an expression *)
Definition StartsExpr (t : token) : Prop :=
  match tk_kind t with
  | Dot | Boolean _ | Name | Number | Verbatim _ | VarName | FuncName | LBrace | LSqb | LAngle | Quote _ _ => True
  | Kw k => k <> KExport
  | _ => False
  end.
(** The first token of a pattern, of a type written after one, of a named pattern without a value, or [...] *)
Definition StartsPattern (t : token) : Prop :=
  StartsExpr t \/ tk_kind t = Underscore \/ tk_kind t = LPar \/ tk_kind t = Ellipsis.
(** The only token of a literal, or the first of an empty group *)
Definition StartsLiteral (t : token) : Prop :=
  match tk_kind t with Dot | Boolean _ | Name | Number | Verbatim _ | LBrace | Ellipsis => True | _ => False end.
Definition Opening (k : token_kind) : Prop := match k with LPar | LSqb | LBrace | LAngle | Quote _ _ => True | _ => False end.
Definition Closing (k : token_kind) : Prop := match k with CloseTag | RBrace | RSqb => True | _ => False end.
Definition dollar : str := lit "$".
(** A parameter name, as written: [$_x] for a positional one *)
Definition Underscored (t : token) : Prop := tk_kind t = VarName /\ exists s, tk_text t = lit "$_" ++ s.

(** The token at the position of the diagnostic, for each diagnostic that has one *)
Definition About (e : papyri_error) (t : token) : Prop :=
  match e with
  | SyntaxErr e =>
    match e with
    (* the tokenizer *)
    | TokenEntityMissingSemicolon => tk_kind t = Entity /\ forall s, tk_text t <> s ++ lit ";"
    | TokenInvalidEntity => tk_kind t = Entity
    | TokenInvalidEscape => tk_kind t = Escape
    | TokenExpectedWasEOF k => k = Escape /\ tk_text t = [92%N]
    | TokenVerbatimMultilineNotEnoughBackticks | TokenVerbatimTooManyBackticks | TokenVerbatimEOF => exists k, tk_kind t = Verbatim k
    | TagCloseMalformed => tk_kind t = RawText /\ exists s, tk_text t = lit "</" ++ s
    (* brackets and other tokens *)
    | TokenUnmatched k => tk_kind t = k /\ (Opening k \/ Closing k)
    | TokenUnexpected k => tk_kind t = k
    | TokenExpectedWas k was => tk_kind t = was /\ was <> k
    | TokenExpected k => k = Equals /\ tk_kind t = QuestionMark
    | TokenExpectedDoctype => eq_ignore_case (tk_text t) (lit "DOCTYPE") = false
    | TokenInvalidNumber => tk_kind t = Number /\ parse_number (tk_text t) = inr TokenInvalidNumber
    | TagUnmatchedOpen => tk_kind t = LAngle
    | TagDuplicateAttr n => tk_kind t = Name /\ tk_text t = n
    | ExpectedExpr => ~ StartsExpr t \/ tk_kind t = LAngle
    | ExportNotAllowed => tk_kind t = Kw KExport
    | AnonymousFunctionNotAllowed => tk_kind t = Kw KFn
    | DeclMissingArgs => tk_kind t = Kw KLet \/ tk_kind t = Kw KImplicit \/ tk_kind t = Kw KExport
    | LetInLiteral => StartsLiteral t
    (* types *)
    | TokenInvalidPrimitiveType => tk_kind t = Name /\ base_type (tk_text t) = None
    | TokenInvalidGroupType => tk_kind t = Name
    (* spreads *)
    | SpreadPositionalNotAllowed => tk_kind t = Asterisk
    | SpreadNamedNotAllowed => tk_kind t = DoubleAsterisk
    | SpreadWildcardNotAllowed => tk_kind t = Ellipsis
    | ArgSpreadNamed | ParamSpreadImplicit | ParamContentSpread => IsSpread t
    (* arguments *)
    | ArgDuplicateName n => (tk_kind t = Name /\ tk_text t = n) \/ IsSpread t
    | ArgNamedNotAllowed => tk_kind t = Name \/ IsSpread t
    | ArgPositionalAfterNamed => StartsExpr t \/ tk_kind t = Asterisk
    | DeclPositionalArg => StartsExpr t
    (* parameters *)
    | ParamDuplicateName n => (tk_kind t = VarName /\ tk_text t = dollar ++ n) \/ IsSpread t
    | ParamPositionalAfterNamed | ParamPositionalImplicit => Underscored t \/ tk_kind t = Asterisk
    | ParamRequiredAfterOptional | ParamAfterSpread => tk_kind t = VarName
    | ParamDefaultImplicit => tk_kind t = VarName /\ ~ Underscored t
    | ParamPositionalSpreadNoUnderscore => tk_kind t = Asterisk
    | ParamNamedSpreadUnderscore => tk_kind t = DoubleAsterisk
    | ParamSpreadDefault | ParamContentDefault => StartsExpr t
    | ParamMultipleSpread => IsSpread t \/ StartsPattern t
    (* patterns *)
    | PatternBareName => tk_kind t = Name
    | PatternNamedUnderscore => tk_kind t = Name /\ exists s, tk_text t = lit "_" ++ s
    | PatternAttrAccess | PatternIndexAccess => tk_kind t = VarName
    | PatternIncorrectCloseTag => tk_kind t = CloseTag
    | PatternMultipleSpreads | PatternCannotMatchHTML | PatternNamedAfterSpread | PatternDuplicateName _ => StartsPattern t
    | UnexpectedEOF | ArgNamedUnderscore => False
    end
  | Warn RedundantOptionType => tk_text t = lit "?"
  | _ => False
  end.
(** Diagnostics about the end of the text *)
Definition AtEnd (e : papyri_error) : Prop :=
  match e with SyntaxErr UnexpectedEOF | SyntaxErr (TokenExpectedWasEOF _) => True | _ => False end.
