(** Specification for C64: the wording of the messages. In a template, each percent sign stands for the next of the arguments. *)
From Verif Require Import Base M_Text M_Types M_Token M_Diag M_Report.

Inductive Filled : list N -> list str -> str -> Prop :=
| filled_end : Filled [] [] []
| filled_char c t args s : c <> 37%N -> Filled t args s -> Filled (c :: t) args (c :: s)
| filled_arg t a args s : Filled t args s -> Filled (37%N :: t) (a :: args) (a ++ s).
(** What tokens are called *)
Definition called (k : token_kind) : string :=
  match k return string with
  | Comment => "comment" | Whitespace => "whitespace" | Newline => "paragraph break"
  | Escape => "escape sequence" | Entity => "entity" | RawText => "text"
  | Name => "name" | Kw _ => "keyword" | FuncName => "function name" | VarName => "variable name"
  | Number => "int literal" | Boolean _ => "bool literal" | Verbatim _ => "string literal"
  | CloseTag => "closing tag"
  | LPar => "'('" | RPar => "')'" | LSqb => "'['" | RSqb => "']'" | LBrace => "'{'" | RBrace => "'}'"
  | LAngle => "'<'" | RAngle => "'>'" | Ampersand => "'&'" | Arrow => "'->'" | Asterisk => "'*'"
  | Bar => "'|'" | Colon => "':'" | Comma => "','" | Dot => "'.'" | DoubleAsterisk => "'**'"
  | DoubleColon => "'::'" | Ellipsis => "ellipsis" | Equals => "'='" | ExclamationMark => "'!'"
  | QuestionMark => "'?'" | QuestionMarkDoubleColon => "'?::'"
  | Quote QSingle _ => "single-quote" | Quote QDouble _ => "double-quote"
  | Underscore => "'_'"
  end.
(** The template of each message, and its arguments *)
Definition wording (F : foreign) (e : papyri_error) : string * list str :=
  match e with
  | ModuleErr (IOError p) => ("Module error: % in ""%"""%string, [fo_io F p; p])
  | ModuleErr (CircularImport p) => ("Module error: circular import detected in ""%"""%string, [p])
  | ModuleErr (PreviousError p) => ("Module error: previous error in ""%"""%string, [p])
  | NameErr (NoSuchVariable n) => ("Name error: no such variable '%'"%string, [n])
  | NameErr (NoSuchParameter n) => ("Name error: no such parameter '%'"%string, [n])
  | NameErr (NoSuchAttribute t n) => ("Name error: value of type '%' has no such attribute '%'"%string, [t_display t; n])
  | NameErr (InvalidTag n) => ("Name error: invalid tag name '%'"%string, [n])
  | RuntimeErr (AttrMultipleValues n) => ("Runtime error: received multiple values for attribute '%'"%string, [n])
  | RuntimeErr (ParamMissing n) => ("Runtime error: missing required parameter '%'"%string, [n])
  | RuntimeErr (ParamMissingImplicit n) => ("Runtime error: missing required implicit parameter '%'"%string, [n])
  | RuntimeErr (ParamExistsButNotImplicit n) => ("Runtime error: required implicit parameter '%'; this name exists but is not declared implicit"%string, [n])
  | RuntimeErr (ParamMultipleValues n) => ("Runtime error: received multiple named arguments for parameter '%'"%string, [n])
  | RuntimeErr (ParamMustBePositive n i) => ("Runtime error: parameter '%' must be positive (was %)"%string, [n; zdec i])
  | RuntimeErr RegexSyntaxError => ("Runtime error: regex syntax error (%)"%string, [fo_regex F])
  | RuntimeErr RegexMixedGroupKinds => ("Runtime error: regex cannot have both named and unnamed capture groups"%string, [])
  | RuntimeErr (RegexInvalidGroupName n) => ("Runtime error: regex group name '%' is not a valid identifier"%string, [n])
  | RuntimeErr (Raised s) => ("Runtime error: %"%string, [s])
  | RuntimeErr NoMatchingBranch => ("Runtime error: no matching branch in @match"%string, [])
  | RuntimeErr (IndexOutOfRange i len) => ("Runtime error: index out of bounds (index %, length %)"%string, [zdec i; dec (N.of_nat len)])
  | RuntimeErr ParseIntError => ("Runtime error: failed to parse int (%)"%string, [fo_int F])
  | RuntimeErr (FileReadError p) => ("Runtime error: failed to read file ""%"" (%)"%string, [p; fo_io F p])
  | RuntimeErr (PathNotInOutDir p) => ("Runtime error: path ""%"" is not within output directory"%string, [p])
  | RuntimeErr WriteFileNotAllowed => ("Runtime error: no output directory for '@file::write'; use '--out'"%string, [])
  | RuntimeErr (ParseHtmlError s) => ("Runtime error: failed to parse HTML (%)"%string, [s])
  | RuntimeErr NetworkError => ("Runtime error: network error (%)"%string, [fo_network F])
  | RuntimeErr NetworkDisabled => ("Runtime error: network access is not enabled"%string, [])
  | SyntaxErr (TokenExpected k) => ("Syntax error: expected %"%string, [lit (called k)])
  | SyntaxErr TokenExpectedDoctype => ("Syntax error: expected 'DOCTYPE'"%string, [])
  | SyntaxErr (TokenExpectedWas k t) => ("Syntax error: expected %, was %"%string, [lit (called k); lit (called t)])
  | SyntaxErr (TokenExpectedWasEOF k) => ("Syntax error: expected %, was end of course"%string, [lit (called k)])
  | SyntaxErr (TokenUnexpected t) => ("Syntax error: unexpected %"%string, [lit (called t)])
  | SyntaxErr (TokenUnmatched t) => ("Syntax error: unmatched %"%string, [lit (called t)])
  | SyntaxErr TokenInvalidNumber => ("Syntax error: invalid number (%)"%string, [fo_int F])
  | SyntaxErr TokenEntityMissingSemicolon => ("Syntax error: entity must end with a semicolon ';'"%string, [])
  | SyntaxErr TokenInvalidEntity => ("Syntax error: invalid entity"%string, [])
  | SyntaxErr TokenInvalidEscape => ("Syntax error: invalid Unicode escape"%string, [])
  | SyntaxErr TokenInvalidPrimitiveType => ("Syntax error: not a primitive type name"%string, [])
  | SyntaxErr TokenInvalidGroupType => ("Syntax error: not a type modifier"%string, [])
  | SyntaxErr TokenVerbatimMultilineNotEnoughBackticks => ("Syntax error: multiline string literal must be delimited by at least three backticks"%string, [])
  | SyntaxErr TokenVerbatimTooManyBackticks => ("Syntax error: too many backticks in string literal closing delimiter"%string, [])
  | SyntaxErr TokenVerbatimEOF => ("Syntax error: unexpected end of source in string literal"%string, [])
  | SyntaxErr ExpectedExpr => ("Syntax error: expected expression"%string, [])
  | SyntaxErr UnexpectedEOF => ("Syntax error: unexpected end of source"%string, [])
  | SyntaxErr TagCloseMalformed => ("Syntax error: malformed closing tag"%string, [])
  | SyntaxErr TagUnmatchedOpen => ("Syntax error: unmatched opening tag"%string, [])
  | SyntaxErr (TagDuplicateAttr n) => ("Syntax error: duplicate attribute name '%'"%string, [n])
  | SyntaxErr SpreadPositionalNotAllowed => ("Syntax error: positional spread not allowed here"%string, [])
  | SyntaxErr SpreadNamedNotAllowed => ("Syntax error: named spread not allowed here"%string, [])
  | SyntaxErr SpreadWildcardNotAllowed => ("Syntax error: wildcard spread not allowed here"%string, [])
  | SyntaxErr AnonymousFunctionNotAllowed => ("Syntax error: anonymous function not allowed here"%string, [])
  | SyntaxErr (ParamDuplicateName n) => ("Syntax error: duplicate parameter name '%'"%string, [n])
  | SyntaxErr ParamPositionalAfterNamed => ("Syntax error: positional parameter cannot occur after named parameter"%string, [])
  | SyntaxErr ParamRequiredAfterOptional => ("Syntax error: required parameter cannot occur after optional parameter"%string, [])
  | SyntaxErr ParamDefaultImplicit => ("Syntax error: implicit parameter cannot have default value"%string, [])
  | SyntaxErr ParamPositionalImplicit => ("Syntax error: positional parameter cannot be implicit"%string, [])
  | SyntaxErr ParamSpreadDefault => ("Syntax error: spread parameter cannot have default value"%string, [])
  | SyntaxErr ParamSpreadImplicit => ("Syntax error: spread parameter cannot be implicit"%string, [])
  | SyntaxErr ParamMultipleSpread => ("Syntax error: cannot have multiple spread parameters"%string, [])
  | SyntaxErr ParamAfterSpread => ("Syntax error: parameter cannot occur after spread"%string, [])
  | SyntaxErr ParamPositionalSpreadNoUnderscore => ("Syntax error: positional spread parameter must begin with underscore"%string, [])
  | SyntaxErr ParamNamedSpreadUnderscore => ("Syntax error: named spread parameter must not begin with underscore"%string, [])
  | SyntaxErr ParamContentSpread => ("Syntax error: content parameter cannot be spread"%string, [])
  | SyntaxErr ParamContentDefault => ("Syntax error: content parameter cannot have default value"%string, [])
  | SyntaxErr (ArgDuplicateName n) => ("Syntax error: duplicate named argument '%'"%string, [n])
  | SyntaxErr ArgNamedNotAllowed => ("Syntax error: named argument not allowed here"%string, [])
  | SyntaxErr ArgPositionalAfterNamed => ("Syntax error: positional argument cannot occur after named argument"%string, [])
  | SyntaxErr ArgSpreadNamed => ("Syntax error: named argument cannot be spread"%string, [])
  | SyntaxErr ArgNamedUnderscore => ("Syntax error: named argument cannot begin with underscore"%string, [])
  | SyntaxErr DeclMissingArgs => ("Syntax error: missing named declarations; expected '(name=value, ...)'"%string, [])
  | SyntaxErr DeclPositionalArg => ("Syntax error: positional argument not allowed in this declaration"%string, [])
  | SyntaxErr LetInLiteral => ("Syntax error: let expression with literal has no effect; did you mean '...'?"%string, [])
  | SyntaxErr ExportNotAllowed => ("Syntax error: '@export' declaration not allowed here"%string, [])
  | SyntaxErr PatternBareName => ("Syntax error: bare name not allowed in match pattern; use $ for variable name or backticks for string literal"%string, [])
  | SyntaxErr PatternMultipleSpreads => ("Syntax error: match pattern cannot have multiple spreads"%string, [])
  | SyntaxErr PatternNamedUnderscore => ("Syntax error: named pattern cannot begin with underscore"%string, [])
  | SyntaxErr PatternNamedAfterSpread => ("Syntax error: named pattern cannot occur after spread"%string, [])
  | SyntaxErr (PatternDuplicateName n) => ("Syntax error: duplicate named pattern '%'"%string, [n])
  | SyntaxErr PatternIncorrectCloseTag => ("Syntax error: incorrect closing tag in match pattern; use </> for unnamed tag"%string, [])
  | SyntaxErr PatternCannotMatchHTML => ("Syntax error: this pattern cannot match HTML content"%string, [])
  | SyntaxErr PatternAttrAccess => ("Syntax error: variable pattern must be a simple name, not attribute access"%string, [])
  | SyntaxErr PatternIndexAccess => ("Syntax error: variable pattern must be a simple name, not indexed access"%string, [])
  | TypeErr (ExpectedWas t t') => ("Type error: expected %, was %"%string, [t_display t; t_display t'])
  | TypeErr (TooManyPositionalArgs n m) => ("Type error: too many positional arguments (expected %, was %)"%string, [dec (N.of_nat n); dec (N.of_nat m)])
  | TypeErr (NotEnoughPositionalArgs n m) => ("Type error: not enough positional arguments (expected %, was %)"%string, [dec (N.of_nat n); dec (N.of_nat m)])
  | TypeErr BlockNotAllowed => ("Type error: block content not allowed here"%string, [])
  | TypeErr (BlockNotAllowedIn p) => ("Type error: block content not allowed within parent tag '%'"%string, [p])
  | TypeErr (ETagNotAllowed t) => ("Type error: '%' tag not allowed here"%string, [t])
  | TypeErr (ETagNotAllowedIn t p) => ("Type error: '%' tag not allowed within parent tag '%'"%string, [t; p])
  | TypeErr EParagraphBreakNotAllowed => ("Type error: paragraph break not allowed here"%string, [])
  | TypeErr ENoContentAllowed => ("Type error: required empty content, but was non-empty"%string, [])
  | TypeErr ContentAlreadyBound => ("Type error: this function's contents have already been bound (expected none)"%string, [])
  | TypeErr (SortKeyInvalid t) => ("Type error: sort key must be str or int, was %"%string, [t_display t])
  | TypeErr SortKeyHeterogeneous => ("Type error: sort key must be homogeneous, not a mix of str and int"%string, [])
  | Warn RedundantOptionType => ("Warning: type modifier '?' is redundant here"%string, [])
  | Warn (NameAlreadyDeclared n) => ("Warning: name '%' already declared"%string, [n])
  | Warn (PatternNameAlreadyBound n) => ("Warning: name '%' already bound in this pattern; did you mean '=$%'?"%string, [n; n])
  | Warn (NameAlreadyExported n) => ("Warning: name '%' already exported"%string, [n])
  | Warn InlineHighlightEnumerate => ("Warning: cannot enumerate lines in inline code"%string, [])
  | Warn InlineHighlightMultiline => ("Warning: inline code cannot be multiple lines"%string, [])
  | Warn HighlightNotEnabled => ("Warning: syntax highlighting is not enabled in this build"%string, [])
  | Warn (HighlightLanguageUnknown l) => ("Warning: no syntax highlighter found for language ""%"""%string, [l])
  | Warn (BrokenLink s) => ("Warning: linked file does not exist at ""%"""%string, [s])
  | AlreadyReported => ("Diagnostic already reported"%string, [])
  end.
