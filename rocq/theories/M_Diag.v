(** Model of /repo/src/errors: the errors and warnings, and the diagnostic sink. *)
From Verif Require Import Base M_Text M_Types M_Token.

(** type_error.rs:7-20 *)
Inductive type_error :=
| ExpectedWas (expected was : ty)
| TooManyPositionalArgs (expected was : nat)
| NotEnoughPositionalArgs (expected was : nat)
| BlockNotAllowed | BlockNotAllowedIn (parent : str) | ETagNotAllowed (tag : str) | ETagNotAllowedIn (tag parent : str)
| EParagraphBreakNotAllowed | ENoContentAllowed | ContentAlreadyBound
| SortKeyInvalid (t : ty) | SortKeyHeterogeneous.
(** runtime_error.rs:7-13 *)
Inductive name_error :=
| NoSuchVariable (n : str) | NoSuchParameter (n : str) | NoSuchAttribute (t : ty) (n : str) | InvalidTag (n : str).
(** runtime_error.rs:19-42; the payloads of foreign error types are left out. *)
Inductive runtime_error :=
| AttrMultipleValues (n : str)
| ParamMissing (n : str) | ParamMissingImplicit (n : str) | ParamExistsButNotImplicit (n : str)
| ParamMultipleValues (n : str) | ParamMustBePositive (n : str) (i : Z)
| RegexSyntaxError | RegexMixedGroupKinds | RegexInvalidGroupName (n : str)
| Raised (s : str) | NoMatchingBranch | IndexOutOfRange (i : Z) (len : nat) | ParseIntError
| FileReadError (p : str) | PathNotInOutDir (p : str) | WriteFileNotAllowed | ParseHtmlError (s : str)
| NetworkError | NetworkDisabled.
(** module_error.rs:4-8; the IO error is left out. *)
Inductive module_error := IOError (p : str) | CircularImport (p : str) | PreviousError (p : str).
(** warning.rs:5-15 *)
Inductive warning :=
| RedundantOptionType | NameAlreadyDeclared (n : str) | PatternNameAlreadyBound (n : str) | NameAlreadyExported (n : str)
| InlineHighlightEnumerate | InlineHighlightMultiline | HighlightNotEnabled | HighlightLanguageUnknown (l : str)
| BrokenLink (s : str).
(** sink.rs:15-23 *)
Inductive papyri_error :=
| ModuleErr (e : module_error) | NameErr (e : name_error) | RuntimeErr (e : runtime_error) | SyntaxErr (e : syntax_error)
| TypeErr (e : type_error) | Warn (e : warning) | AlreadyReported.

(** sink_base.rs:10 *)
Inductive severity := SDebug | SWarning | SError.
(** sink.rs:25-35 *)
Definition severity_of (e : papyri_error) : severity :=
  match e with
  | ModuleErr _ | NameErr _ | RuntimeErr _ | SyntaxErr _ | TypeErr _ => SError
  | Warn _ => SWarning
  | AlreadyReported => SDebug
  end.
(** the derived order of [Severity], sink_base.rs:9-10 *)
Definition severity_rank (s : severity) : nat := match s with SDebug => 0 | SWarning => 1 | SError => 2 end.
(** sink_base.rs:15 *)
Inductive level := LAll | LWarning | LError | LIgnoreAll.
(** sink_base.rs:17-25 *)
Definition should_report (l : level) (s : severity) : bool :=
  match l with
  | LAll => true
  | LWarning => severity_rank SWarning <=? severity_rank s
  | LError => severity_rank SError <=? severity_rank s
  | LIgnoreAll => false
  end.

(** sink_base.rs:113-119. A recorded diagnostic is modelled by its message: source positions and stack traces are left
    out. The counters are [u32] in the code. *)
Record sink := { sk_v : list papyri_error; sk_errors : N; sk_warnings : N; sk_level : level }.
(** sink_base.rs:123-129 *)
Definition sink_new (l : level) : sink := {| sk_v := []; sk_errors := 0; sk_warnings := 0; sk_level := l |}.
(** sink_base.rs:133-135 *)
Definition sink_is_empty (d : sink) : bool := (sk_errors d =? 0)%N && (sk_warnings d =? 0)%N.
(** sink_base.rs:139-141 *)
Definition sink_has_any (p : papyri_error -> bool) (d : sink) : bool := existsb p (sk_v d).
(** sink_base.rs:144-148 *)
Definition sink_clear (d : sink) : sink := {| sk_v := []; sk_errors := 0; sk_warnings := 0; sk_level := sk_level d |}.
(** sink_base.rs:180-190, called with the severity of the error (sink.rs:98-111) *)
Definition sink_add (e : papyri_error) (d : sink) : sink :=
  {| sk_v := if should_report (sk_level d) (severity_of e) then sk_v d ++ [e] else sk_v d;
     sk_errors := match severity_of e with SError => (sk_errors d + 1)%N | _ => sk_errors d end;
     sk_warnings := match severity_of e with SWarning => (sk_warnings d + 1)%N | _ => sk_warnings d end;
     sk_level := sk_level d |}.
(** sink_base.rs:159-175 *)
Definition sink_summary (d : sink) : str :=
  if (0 <? sk_errors d)%N then
    lit "failed, " ++ dec (sk_errors d) ++ lit " error" ++ pluralise (sk_errors d) ++ lit ", " ++ dec (sk_warnings d)
    ++ lit " warning" ++ pluralise (sk_warnings d)
  else if (0 <? sk_warnings d)%N then lit "OK, " ++ dec (sk_warnings d) ++ lit " warning" ++ pluralise (sk_warnings d)
  else lit "OK".
