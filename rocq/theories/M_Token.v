(** Model of the tokens of /repo/src/parser/token.rs and of the syntax errors of /repo/src/errors/syntax_error.rs. *)
From Verif Require Import Base.

(** token.rs:55 *)
Inductive verbatim_kind := VSimple | VMultiline.
(** token.rs:58-59 *)
Inductive keyword := KExport | KFn | KImplicit | KLet | KMatch.
(** token.rs:63-64 *)
Inductive quote_kind := QSingle | QDouble.
(** token.rs:68-69 *)
Inductive quote_dir := QLeft | QRight.

(** token.rs:8-51 *)
Inductive token_kind :=
| Comment | Whitespace | Newline
| Escape | Entity | RawText
| Name | Kw (k : keyword) | FuncName | VarName | Number | Boolean (b : bool) | Verbatim (k : verbatim_kind)
| LPar | RPar | LSqb | RSqb | LBrace | RBrace | LAngle | RAngle | CloseTag
| Ampersand | Arrow | Asterisk | Bar | Colon | Comma | Dot | DoubleAsterisk | DoubleColon | Ellipsis | Equals
| ExclamationMark | QuestionMark | QuestionMarkDoubleColon | Quote (k : quote_kind) (d : quote_dir) | Underscore.

(** derived [PartialEq], token.rs:5 *)
Definition kind_eq_dec (a b : token_kind) : {a = b} + {a <> b}.
Proof. repeat decide equality. Defined.
(** the derived [PartialEq] of [TokenKind], token.rs:7-8 *)
Definition kind_eqb (a b : token_kind) : bool := if kind_eq_dec a b then true else false.

(** token.rs:119-127 and sourcefile.rs:37-46. The text of the token is kept beside its span (the Rust code looks it up in
    the source, sourcefile.rs:103-105); [Properties_Front] proves it is the text at that span. Simplification: offsets are
    unbounded (u32 in Rust, sources must be smaller than 4 GiB), and the file id is omitted. *)
Record token := Token { tk_kind : token_kind; tk_text : str; tk_start : nat; tk_end : nat }.

(** token.rs:131-133 *)
Definition kind_is_whitespace (k : token_kind) : bool := kind_eqb k Whitespace || kind_eqb k Newline.
(** token.rs:131-133 *)
Definition tok_is_whitespace (t : token) : bool := kind_is_whitespace (tk_kind t).
(** token.rs:136-138 *)
Definition bool_to_string (b : bool) : str := if b then lit "True" else lit "False".
(** token.rs:141-143; 96 is the backtick *)
Definition get_verbatim_text (s : str) : str := trim_by (N.eqb 96) s.

(** syntax_error.rs:6-69 (Simplification: the [ParseIntError] of [TokenInvalidNumber] is omitted.) *)
Inductive syntax_error :=
| TokenExpected (k : token_kind) | TokenExpectedDoctype | TokenExpectedWas (k was : token_kind)
| TokenExpectedWasEOF (k : token_kind) | TokenUnexpected (k : token_kind) | TokenUnmatched (k : token_kind)
| TokenInvalidNumber | TokenEntityMissingSemicolon | TokenInvalidEntity | TokenInvalidEscape
| TokenInvalidPrimitiveType | TokenInvalidGroupType
| TokenVerbatimMultilineNotEnoughBackticks | TokenVerbatimTooManyBackticks | TokenVerbatimEOF
| ExpectedExpr | UnexpectedEOF
| TagCloseMalformed | TagUnmatchedOpen | TagDuplicateAttr (name : str)
| SpreadPositionalNotAllowed | SpreadNamedNotAllowed | SpreadWildcardNotAllowed
| AnonymousFunctionNotAllowed | ParamDuplicateName (name : str) | ParamPositionalAfterNamed
| ParamRequiredAfterOptional | ParamDefaultImplicit | ParamPositionalImplicit | ParamSpreadDefault
| ParamSpreadImplicit | ParamMultipleSpread | ParamAfterSpread | ParamPositionalSpreadNoUnderscore
| ParamNamedSpreadUnderscore | ParamContentSpread | ParamContentDefault
| ArgDuplicateName (name : str) | ArgNamedNotAllowed | ArgPositionalAfterNamed | ArgSpreadNamed | ArgNamedUnderscore
| DeclMissingArgs | DeclPositionalArg | LetInLiteral | ExportNotAllowed
| PatternBareName | PatternMultipleSpreads | PatternNamedUnderscore | PatternNamedAfterSpread
| PatternDuplicateName (name : str) | PatternIncorrectCloseTag | PatternCannotMatchHTML | PatternAttrAccess
| PatternIndexAccess.
