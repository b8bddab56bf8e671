(** Specifications for C64: what a printed diagnostic says. Lists are of characters, 10 is the line feed. *)
From Verif Require Import Base M_Types M_Token M_Diag M_Report S_Util.

Definition AsciiText (s : str) : Prop := Forall (fun c => (c < 128)%N) s.
(** A position of the file: not after its end. *)
Definition Within (p : place) : Prop := AsciiText (pl_text p) /\ pl_start p <= blen (pl_text p).

(** The line printed for a place in the function [f]: the file, and the line and column of the place. *)
Inductive PlaceLine (p : place) (f : option str) : str -> Prop :=
| place_line pre post line col :
    pl_text p = pre ++ post -> pl_start p = blen pre -> LineCol pre line col ->
    PlaceLine p f (lit "    File """ ++ pl_path p ++ lit """, line " ++ dec (N.of_nat line) ++ lit ", col " ++ dec (N.of_nat col)
                   ++ match f with Some f => lit ", in " ++ f | None => [] end ++ [10%N]).

(** The function in which the [i]-th of a list of nested calls is made: that of the call before. *)
Definition function_of (calls : list place) (i : nat) : option str :=
  match i with
  | 0 => None
  | S j => match nth_error calls j with Some c => pl_func c | None => None end
  end.
(** The text of a diagnostic. Without stack trace: its message, then its place. With one: the places of the calls from
    the oldest to the newest, then its place, each with the function it is in; then its message. *)
Inductive ReportText (F : foreign) (e : papyri_error) (p : place) : option (list place) -> str -> Prop :=
| report_static l : PlaceLine p None l -> ReportText F e p None (error_text F e ++ [10%N] ++ l)
| report_trace calls lines :
    List.length lines = List.length calls + 1 ->
    (forall i l, nth_error lines i = Some l ->
       exists q, nth_error (calls ++ [p]) i = Some q /\ PlaceLine q (function_of calls i) l) ->
    ReportText F e p (Some calls)
      (lit "Traceback (most recent call last):" ++ [10%N] ++ List.concat lines ++ error_text F e ++ [10%N]).
Definition places (d : diagnostic) : list place :=
  match dg_trace d with Some calls => calls ++ [dg_place d] | None => [dg_place d] end.

(** The calls among the frames of the stack. *)
Inductive CallsOf : list (option (str * place)) -> list (str * place) -> Prop :=
| calls_none : CallsOf [] []
| calls_other frames calls : CallsOf frames calls -> CallsOf (None :: frames) calls
| calls_call f p frames calls : CallsOf frames calls -> CallsOf (Some (f, p) :: frames) ((f, p) :: calls).

(** The messages which quote names and numbers only: not those of programs ([Raised]), of the operating system or of
    other crates; and whose quoted names have no quote in them (names and tags never have). *)
Definition Quotable (n : str) : Prop := ~ In 39%N n.
Definition PlainText (e : papyri_error) : Prop :=
  match e with
  | ModuleErr (IOError _) | RuntimeErr (Raised _) | RuntimeErr (FileReadError _) => False
  | NameErr (NoSuchVariable n | NoSuchParameter n | NoSuchAttribute _ n | InvalidTag n)
  | RuntimeErr (AttrMultipleValues n | ParamMissing n | ParamMissingImplicit n | ParamExistsButNotImplicit n
                | ParamMultipleValues n | ParamMustBePositive n _ | RegexInvalidGroupName n)
  | SyntaxErr (TagDuplicateAttr n | ParamDuplicateName n | ArgDuplicateName n | PatternDuplicateName n)
  | TypeErr (BlockNotAllowedIn n | ETagNotAllowed n)
  | Warn (NameAlreadyDeclared n | PatternNameAlreadyBound n | NameAlreadyExported n) => Quotable n
  | TypeErr (ETagNotAllowedIn n m) => Quotable n /\ Quotable m
  | _ => True
  end.
(** Token kinds are shown without their details: which keyword, which boolean, ... *)
Definition shown_kind (k : token_kind) : token_kind :=
  match k with
  | Kw _ => Kw KFn | Boolean _ => Boolean true | Verbatim _ => Verbatim VSimple | Quote q _ => Quote q QLeft
  | k => k
  end.
Definition shown (e : papyri_error) : papyri_error :=
  match e with
  | SyntaxErr (TokenExpected k) => SyntaxErr (TokenExpected (shown_kind k))
  | SyntaxErr (TokenExpectedWas k t) => SyntaxErr (TokenExpectedWas (shown_kind k) (shown_kind t))
  | SyntaxErr (TokenExpectedWasEOF k) => SyntaxErr (TokenExpectedWasEOF (shown_kind k))
  | SyntaxErr (TokenUnexpected k) => SyntaxErr (TokenUnexpected (shown_kind k))
  | SyntaxErr (TokenUnmatched k) => SyntaxErr (TokenUnmatched (shown_kind k))
  | e => e
  end.
