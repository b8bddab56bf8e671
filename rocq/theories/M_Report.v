(** Model of the texts of the messages and of the printed reports: the [Display] instances of /repo/src/errors, of
    [TokenKind] (/repo/src/parser/token.rs), and [stack_trace] of /repo/src/compiler/frame.rs. *)
From Verif Require Import Base M_Text M_Types M_Token M_Diag M_SourceFile.

(** The texts of the errors of other crates and of the operating system ([ParseIntError], [regex::Error], [io::Error],
    [reqwest::Error]) are not modelled: they are a parameter. Used in errors/module_error.rs:11-19, errors/runtime_error.rs:56-79. *)
Record foreign := {
  fo_int : str;
  fo_regex : str;
  fo_io : str -> str;
  fo_network : str;
}.

(** token.rs:71-116 *)
Definition kind_text (k : token_kind) : str :=
  match k with
  | Comment => lit "comment" | Whitespace => lit "whitespace" | Newline => lit "paragraph break"
  | Escape => lit "escape sequence" | Entity => lit "entity" | RawText => lit "text"
  | Name => lit "name" | Kw _ => lit "keyword" | FuncName => lit "function name" | VarName => lit "variable name"
  | Number => lit "int literal" | Boolean _ => lit "bool literal" | Verbatim _ => lit "string literal"
  | CloseTag => lit "closing tag"
  | LPar => lit "'('" | RPar => lit "')'" | LSqb => lit "'['" | RSqb => lit "']'" | LBrace => lit "'{'" | RBrace => lit "'}'"
  | LAngle => lit "'<'" | RAngle => lit "'>'" | Ampersand => lit "'&'" | Arrow => lit "'->'" | Asterisk => lit "'*'"
  | Bar => lit "'|'" | Colon => lit "':'" | Comma => lit "','" | Dot => lit "'.'" | DoubleAsterisk => lit "'**'"
  | DoubleColon => lit "'::'" | Ellipsis => lit "ellipsis" | Equals => lit "'='" | ExclamationMark => lit "'!'"
  | QuestionMark => lit "'?'" | QuestionMarkDoubleColon => lit "'?::'"
  | Quote QSingle _ => lit "single-quote" | Quote QDouble _ => lit "double-quote"
  | Underscore => lit "'_'"
  end.

(** syntax_error.rs:71-131 *)
Definition syntax_text (F : foreign) (e : syntax_error) : str :=
  match e with
  | TokenExpected k => lit "expected " ++ kind_text k
  | TokenExpectedDoctype => lit "expected 'DOCTYPE'"
  | TokenExpectedWas k t => lit "expected " ++ kind_text k ++ lit ", was " ++ kind_text t
  | TokenExpectedWasEOF k => lit "expected " ++ kind_text k ++ lit ", was end of course"
  | TokenUnexpected t => lit "unexpected " ++ kind_text t
  | TokenUnmatched t => lit "unmatched " ++ kind_text t
  | TokenInvalidNumber => lit "invalid number (" ++ fo_int F ++ lit ")"
  | TokenEntityMissingSemicolon => lit "entity must end with a semicolon ';'"
  | TokenInvalidEntity => lit "invalid entity"
  | TokenInvalidEscape => lit "invalid Unicode escape"
  | TokenInvalidPrimitiveType => lit "not a primitive type name"
  | TokenInvalidGroupType => lit "not a type modifier"
  | TokenVerbatimMultilineNotEnoughBackticks => lit "multiline string literal must be delimited by at least three backticks"
  | TokenVerbatimTooManyBackticks => lit "too many backticks in string literal closing delimiter"
  | TokenVerbatimEOF => lit "unexpected end of source in string literal"
  | ExpectedExpr => lit "expected expression"
  | UnexpectedEOF => lit "unexpected end of source"
  | TagCloseMalformed => lit "malformed closing tag"
  | TagUnmatchedOpen => lit "unmatched opening tag"
  | TagDuplicateAttr n => lit "duplicate attribute name '" ++ n ++ lit "'"
  | SpreadPositionalNotAllowed => lit "positional spread not allowed here"
  | SpreadNamedNotAllowed => lit "named spread not allowed here"
  | SpreadWildcardNotAllowed => lit "wildcard spread not allowed here"
  | AnonymousFunctionNotAllowed => lit "anonymous function not allowed here"
  | ParamDuplicateName n => lit "duplicate parameter name '" ++ n ++ lit "'"
  | ParamPositionalAfterNamed => lit "positional parameter cannot occur after named parameter"
  | ParamRequiredAfterOptional => lit "required parameter cannot occur after optional parameter"
  | ParamDefaultImplicit => lit "implicit parameter cannot have default value"
  | ParamPositionalImplicit => lit "positional parameter cannot be implicit"
  | ParamSpreadDefault => lit "spread parameter cannot have default value"
  | ParamSpreadImplicit => lit "spread parameter cannot be implicit"
  | ParamMultipleSpread => lit "cannot have multiple spread parameters"
  | ParamAfterSpread => lit "parameter cannot occur after spread"
  | ParamPositionalSpreadNoUnderscore => lit "positional spread parameter must begin with underscore"
  | ParamNamedSpreadUnderscore => lit "named spread parameter must not begin with underscore"
  | ParamContentSpread => lit "content parameter cannot be spread"
  | ParamContentDefault => lit "content parameter cannot have default value"
  | ArgDuplicateName n => lit "duplicate named argument '" ++ n ++ lit "'"
  | ArgNamedNotAllowed => lit "named argument not allowed here"
  | ArgPositionalAfterNamed => lit "positional argument cannot occur after named argument"
  | ArgSpreadNamed => lit "named argument cannot be spread"
  | ArgNamedUnderscore => lit "named argument cannot begin with underscore"
  | DeclMissingArgs => lit "missing named declarations; expected '(name=value, ...)'"
  | DeclPositionalArg => lit "positional argument not allowed in this declaration"
  | LetInLiteral => lit "let expression with literal has no effect; did you mean '...'?"
  | ExportNotAllowed => lit "'@export' declaration not allowed here"
  | PatternBareName => lit "bare name not allowed in match pattern; use $ for variable name or backticks for string literal"
  | PatternMultipleSpreads => lit "match pattern cannot have multiple spreads"
  | PatternNamedUnderscore => lit "named pattern cannot begin with underscore"
  | PatternNamedAfterSpread => lit "named pattern cannot occur after spread"
  | PatternDuplicateName n => lit "duplicate named pattern '" ++ n ++ lit "'"
  | PatternIncorrectCloseTag => lit "incorrect closing tag in match pattern; use </> for unnamed tag"
  | PatternCannotMatchHTML => lit "this pattern cannot match HTML content"
  | PatternAttrAccess => lit "variable pattern must be a simple name, not attribute access"
  | PatternIndexAccess => lit "variable pattern must be a simple name, not indexed access"
  end.

(** runtime_error.rs:44-53 *)
Definition name_text (e : name_error) : str :=
  match e with
  | NoSuchVariable n => lit "no such variable '" ++ n ++ lit "'"
  | NoSuchParameter n => lit "no such parameter '" ++ n ++ lit "'"
  | NoSuchAttribute t n => lit "value of type '" ++ t_display t ++ lit "' has no such attribute '" ++ n ++ lit "'"
  | InvalidTag n => lit "invalid tag name '" ++ n ++ lit "'"
  end.

(** runtime_error.rs:55-79 *)
Definition runtime_text (F : foreign) (e : runtime_error) : str :=
  match e with
  | AttrMultipleValues n => lit "received multiple values for attribute '" ++ n ++ lit "'"
  | ParamMissing n => lit "missing required parameter '" ++ n ++ lit "'"
  | ParamMissingImplicit n => lit "missing required implicit parameter '" ++ n ++ lit "'"
  | ParamExistsButNotImplicit n =>
    lit "required implicit parameter '" ++ n ++ lit "'; this name exists but is not declared implicit"
  | ParamMultipleValues n => lit "received multiple named arguments for parameter '" ++ n ++ lit "'"
  | ParamMustBePositive n i => lit "parameter '" ++ n ++ lit "' must be positive (was " ++ zdec i ++ lit ")"
  | RegexSyntaxError => lit "regex syntax error (" ++ fo_regex F ++ lit ")"
  | RegexMixedGroupKinds => lit "regex cannot have both named and unnamed capture groups"
  | RegexInvalidGroupName n => lit "regex group name '" ++ n ++ lit "' is not a valid identifier"
  | Raised s => s
  | NoMatchingBranch => lit "no matching branch in @match"
  | IndexOutOfRange i len => lit "index out of bounds (index " ++ zdec i ++ lit ", length " ++ dec (N.of_nat len) ++ lit ")"
  | ParseIntError => lit "failed to parse int (" ++ fo_int F ++ lit ")"
  | FileReadError p => lit "failed to read file """ ++ p ++ lit """ (" ++ fo_io F p ++ lit ")"
  | PathNotInOutDir p => lit "path """ ++ p ++ lit """ is not within output directory"
  | WriteFileNotAllowed => lit "no output directory for '@file::write'; use '--out'"
  | ParseHtmlError s => lit "failed to parse HTML (" ++ s ++ lit ")"
  | NetworkError => lit "network error (" ++ fo_network F ++ lit ")"
  | NetworkDisabled => lit "network access is not enabled"
  end.

(** type_error.rs:22-39 *)
Definition type_text (e : type_error) : str :=
  match e with
  | ExpectedWas t t' => lit "expected " ++ t_display t ++ lit ", was " ++ t_display t'
  | TooManyPositionalArgs n m =>
    lit "too many positional arguments (expected " ++ dec (N.of_nat n) ++ lit ", was " ++ dec (N.of_nat m) ++ lit ")"
  | NotEnoughPositionalArgs n m =>
    lit "not enough positional arguments (expected " ++ dec (N.of_nat n) ++ lit ", was " ++ dec (N.of_nat m) ++ lit ")"
  | BlockNotAllowed => lit "block content not allowed here"
  | BlockNotAllowedIn p => lit "block content not allowed within parent tag '" ++ p ++ lit "'"
  | ETagNotAllowed t => lit "'" ++ t ++ lit "' tag not allowed here"
  | ETagNotAllowedIn t p => lit "'" ++ t ++ lit "' tag not allowed within parent tag '" ++ p ++ lit "'"
  | EParagraphBreakNotAllowed => lit "paragraph break not allowed here"
  | ENoContentAllowed => lit "required empty content, but was non-empty"
  | ContentAlreadyBound => lit "this function's contents have already been bound (expected none)"
  | SortKeyInvalid t => lit "sort key must be str or int, was " ++ t_display t
  | SortKeyHeterogeneous => lit "sort key must be homogeneous, not a mix of str and int"
  end.

(** module_error.rs:10-19 *)
Definition module_text (F : foreign) (e : module_error) : str :=
  match e with
  | IOError p => fo_io F p ++ lit " in """ ++ p ++ lit """"
  | CircularImport p => lit "circular import detected in """ ++ p ++ lit """"
  | PreviousError p => lit "previous error in """ ++ p ++ lit """"
  end.

(** warning.rs:17-31 *)
Definition warning_text (e : warning) : str :=
  match e with
  | RedundantOptionType => lit "type modifier '?' is redundant here"
  | NameAlreadyDeclared n => lit "name '" ++ n ++ lit "' already declared"
  | PatternNameAlreadyBound n => lit "name '" ++ n ++ lit "' already bound in this pattern; did you mean '=$" ++ n ++ lit "'?"
  | NameAlreadyExported n => lit "name '" ++ n ++ lit "' already exported"
  | InlineHighlightEnumerate => lit "cannot enumerate lines in inline code"
  | InlineHighlightMultiline => lit "inline code cannot be multiple lines"
  | HighlightNotEnabled => lit "syntax highlighting is not enabled in this build"
  | HighlightLanguageUnknown l => lit "no syntax highlighter found for language """ ++ l ++ lit """"
  | BrokenLink s => lit "linked file does not exist at """ ++ s ++ lit """"
  end.

(** sink.rs:79-91 *)
Definition error_text (F : foreign) (e : papyri_error) : str :=
  match e with
  | ModuleErr e => lit "Module error: " ++ module_text F e
  | NameErr e => lit "Name error: " ++ name_text e
  | RuntimeErr e => lit "Runtime error: " ++ runtime_text F e
  | SyntaxErr e => lit "Syntax error: " ++ syntax_text F e
  | TypeErr e => lit "Type error: " ++ type_text e
  | Warn e => lit "Warning: " ++ warning_text e
  | AlreadyReported => lit "Diagnostic already reported"
  end.

(** sink_base.rs:42-47: a position in a source file, with the function called there if it is the position of a call *)
Record place := Place { pl_path : str; pl_text : str; pl_start : nat; pl_func : option str }.
(** sink_base.rs:79-83 *)
Record diagnostic := Diagnostic { dg_msg : papyri_error; dg_place : place; dg_trace : option (list place) }.

(** frame.rs:132-144, on the frames from the oldest to the newest: [None] is a frame which is not that of a call,
    [Some (f, p)] that of a call of the function named [f] at [p] *)
Definition stack_trace (frames : list (option (str * place))) : list place :=
  flat_map (fun fr => match fr with
                      | Some (f, p) => [Place (pl_path p) (pl_text p) (pl_start p) (Some (lit "@" ++ f))]
                      | None => []
                      end) frames.

(** sink_base.rs:86-94; 10 is the line feed *)
Definition write_trace_line (p : place) (func : option str) : outcome str :=
  obind (index_to_line_col (pl_text p) (pl_start p)) (fun lc =>
  Ret (lit "    File """ ++ pl_path p ++ lit """, line " ++ dec (N.of_nat (fst lc)) ++ lit ", col " ++ dec (N.of_nat (snd lc))
       ++ match func with Some f => lit ", in " ++ f | None => [] end ++ [10%N])).
(** sink_base.rs:99-102: the lines of the calls, and the function of the last *)
Fixpoint write_calls (calls : list place) (in_func : option str) : outcome (str * option str) :=
  match calls with
  | [] => Ret ([], in_func)
  | c :: calls =>
    obind (write_trace_line c in_func) (fun l =>
    obind (write_calls calls (pl_func c)) (fun r => Ret (l ++ fst r, snd r)))
  end.
(** sink_base.rs:86-111 *)
Definition diagnostic_text (F : foreign) (d : diagnostic) : outcome str :=
  match dg_trace d with
  | Some calls =>
    obind (write_calls calls None) (fun r =>
    obind (write_trace_line (dg_place d) (snd r)) (fun l =>
    Ret (lit "Traceback (most recent call last):" ++ [10%N] ++ fst r ++ l ++ error_text F (dg_msg d) ++ [10%N])))
  | None =>
    obind (write_trace_line (dg_place d) None) (fun l => Ret (error_text F (dg_msg d) ++ [10%N] ++ l))
  end.
(** sink_base.rs:151-154. [eprintln] adds a line feed. *)
Fixpoint print_all (F : foreign) (v : list diagnostic) : outcome str :=
  match v with
  | [] => Ret []
  | d :: v => obind (diagnostic_text F d) (fun a => obind (print_all F v) (fun b => Ret (a ++ [10%N] ++ b)))
  end.
(** sink_base.rs:193-199 *)
Fixpoint debug_all (F : foreign) (v : list diagnostic) : outcome str :=
  match v with
  | [] => Ret []
  | d :: v => obind (diagnostic_text F d) (fun a => obind (debug_all F v) (fun b => Ret (a ++ b)))
  end.
(** sink_base.rs:193-199 *)
Definition debug_text (F : foreign) (v : list diagnostic) (d : sink) : outcome str :=
  obind (debug_all F v) (fun a => Ret (a ++ sink_summary d ++ [10%N])).
