(** Model of the rest of /repo/src/compiler/highlight.rs: the classification of code that the syntect crate has parsed. *)
From Verif Require Import Base M_Text M_Names M_SourceFile M_Highlight.

(** syntect: a scope is a list of atoms, written with dots between them; the scopes a piece of code is in form a stack. Used in highlight.rs:275-313. *)
Definition scope := list str.
(** syntect: [Scope::is_prefix_of]. Used in highlight.rs:275-313. *)
Fixpoint scope_prefix (a b : scope) : bool :=
  match a, b with
  | [], _ => true
  | x :: a, y :: b => str_eqb x y && scope_prefix a b
  | _ :: _, [] => false
  end.
(** syntect: [ScopeSelector::does_match] with a single scope as its path and as its exclusion, which are the only selectors used;
    only whether there is a match is of interest. Used in highlight.rs:275-313. *)
Definition does_match (sel : scope) (stack : list scope) : bool := existsb (scope_prefix sel) stack.
(** selectors of the form [a - b] (syntect), used in highlight.rs:257-313 *)
Definition does_match_not (sel exclude : scope) (stack : list scope) : bool := negb (does_match exclude stack) && does_match sel stack.

(** highlight.rs:230-268, 270-308; [||] is for several selectors *)
Definition token_kind_of (s : str) (stack : list scope) : hkind :=
  if is_whitespace s then HPlain
  else if does_match_not [lit "invalid"] [lit "invalid"; lit "deprecated"] stack then HInvalid
  else if does_match [lit "comment"] stack then HComment
  else if str_eqb s (lit "(") || str_eqb s (lit "{") || str_eqb s (lit "[") then HParenLeft
  else if str_eqb s (lit ")") || str_eqb s (lit "}") || str_eqb s (lit "]") then HParenRight
  else if does_match [lit "string"] stack then HString
  else if does_match [lit "constant"; lit "numeric"] stack then HNumber
  else if does_match [lit "constant"; lit "language"] stack then HKeywordLiteral
  else if does_match [lit "keyword"; lit "operator"; lit "word"] stack then HKeywordOp
  else if does_match [lit "keyword"; lit "operator"] stack then HOp
  else if is_identifier s &&
    (does_match [lit "keyword"] stack || does_match [lit "storage"; lit "modifier"] stack || does_match [lit "storage"; lit "type"] stack ||
     does_match [lit "variable"; lit "language"] stack) then HKeyword
  else if does_match_not [lit "punctuation"] [lit "punctuation"; lit "definition"; lit "annotation"] stack then HPunctuation
  else if does_match [lit "entity"; lit "name"] stack then HNameDef
  else if does_match_not [lit "variable"] [lit "variable"; lit "annotation"] stack then HName
  else if does_match [lit "meta"; lit "annotation"; lit "type"] stack then HTypeAnnotation
  else if does_match [lit "meta"; lit "annotation"] stack then HDecorator
  else if is_identifier s then HName
  else HPunctuation.

(** highlight.rs:311-341. What the crate answers for a line: either the byte ranges of its pieces, each with its stack of scopes,
    or an error. The kind of an empty range or of one that cannot be cut out is not looked at: see [push_ranges] and [lh_push]. *)
Definition parsed_line := option (list (nat * nat * list scope)).
(** highlight.rs:327-334 *)
Definition classify_range (line : str) (r : nat * nat * list scope) : nat * nat * hkind :=
  let '(a, b, stack) := r in
  (a, b, match get_span line a b with Ret s => token_kind_of s stack | _ => HPlain end).
(** highlight.rs:325-340 *)
Definition classify_line (line : str) (p : parsed_line) : option (list (nat * nat * hkind)) :=
  match p with Some rs => Some (List.map (classify_range line) rs) | None => None end.
(** [parse]: the answer for each line of a source, if the language is known. highlight.rs:315-346. *)
Definition syntect_of (parse : str -> list str -> option (list parsed_line)) (language : str) (ls : list str)
  : option (list (option (list (nat * nat * hkind)))) :=
  match parse language ls with
  | Some ps => Some (List.map (fun lp => classify_line (fst lp) (snd lp)) (combine ls ps))
  | None => None
  end.
