(** Model of /repo/src/parser/queue.rs and of [parse_type] of /repo/src/parser/types.rs. *)
From Verif Require Import Base M_Token M_Types M_Diag.

(** base.rs:10-15, the parts of the parser that change. Tokens are held in source order (the code holds them reversed, to
    pop from the end); reported diagnostics in order of report, without their positions. *)
Record pstate := PState { ps_tokens : list token; ps_diags : list papyri_error }.

(** Result of a parser method returning [Reported<A>] or [A]: a value, [Err(AlreadyReported)], a panic, or (in the model
    only) fuel exhausted. errors/mod.rs:20-26. *)
Inductive pres (A : Type) := POk (a : A) (s : pstate) | PErr (s : pstate) | PPanic | PFuel.
Arguments POk {A}. Arguments PErr {A}. Arguments PPanic {A}. Arguments PFuel {A}.
(** the monad the parser is written in (errors/mod.rs:20-26, [Reported]); no counterpart in the code *)
Definition PM (A : Type) := pstate -> pres A.
(** the monad the parser is written in (errors/mod.rs:20-26, [Reported]); no counterpart in the code *)
Definition pret {A} (a : A) : PM A := POk a.
(** the monad the parser is written in (errors/mod.rs:20-26, [Reported]); no counterpart in the code: the [?] operator *)
Definition pbind {A B} (m : PM A) (f : A -> PM B) : PM B :=
  fun s => match m s with POk a s => f a s | PErr s => PErr s | PPanic => PPanic | PFuel => PFuel end.
(** the monad the parser is written in (errors/mod.rs:20-26, [Reported]); no counterpart in the code *)
Notation "'do' x <- m ; n" := (pbind m (fun x => n)) (at level 200, x pattern, m at level 100, n at level 200).
(** the monad the parser is written in (errors/mod.rs:20-26, [Reported]); no counterpart in the code *)
Notation "m ;; n" := (pbind m (fun _ => n)) (at level 100, n at level 200, right associativity).

(** err.rs:8-25, [report] records a diagnostic; its result is used as [Err(self.report(..))] in [pfail]. *)
Definition preport (e : papyri_error) : PM unit := fun s => POk tt (PState (ps_tokens s) (ps_diags s ++ [e])).
(** [Err(self.report(..))], parser/err.rs:12-15 *)
Definition pfail {A} (e : papyri_error) : PM A := fun s => PErr (PState (ps_tokens s) (ps_diags s ++ [e])).

(** queue.rs:19-21 *)
Definition poll : PM (option token) := fun s =>
  match ps_tokens s with
  | [] => POk None s
  | t :: l => POk (Some t) (PState l (ps_diags s))
  end.
(** queue.rs:25-28 *)
Definition expect_poll : PM token :=
  do t <- poll; match t with Some t => pret t | None => pfail (SyntaxErr UnexpectedEOF) end.
(** [self.tokens.last()]. queue.rs:43-54. *)
Definition peek : PM (option token) := fun s => POk (hd_error (ps_tokens s)) s.
(** queue.rs:32-39 *)
Definition expect_poll_kind (k : token_kind) : PM token :=
  do t <- peek;
  match t with
  | Some tok => if negb (kind_eqb (tk_kind tok) k) then pfail (SyntaxErr (TokenExpectedWas k (tk_kind tok))) else expect_poll
  | None => expect_poll
  end.
(** queue.rs:43-48 *)
Definition poll_if (p : token -> bool) : PM (option token) :=
  do t <- peek; match t with Some tok => if p tok then poll else pret None | None => pret None end.
(** queue.rs:52-54 *)
Definition has_next (p : token -> bool) : PM bool :=
  do t <- peek; pret (match t with Some tok => p tok | None => false end).
(** queue.rs:57-61 *)
Definition skip_whitespace : PM unit := do _ <- poll_if tok_is_whitespace; pret tt.
(** queue.rs:65-67 *)
Definition poll_if_kind (k : token_kind) : PM (option token) := poll_if (fun t => kind_eqb (tk_kind t) k).

(** parser/types.rs:132-149 *)
Definition base_type (s : str) : option ty :=
  if str_eqb s (lit "any") then Some TAny
  else if str_eqb s (lit "none") then Some TUnit
  else if str_eqb s (lit "html") then Some THtml
  else if str_eqb s (lit "block") then Some TBlock
  else if str_eqb s (lit "inline") then Some TInline
  else if str_eqb s (lit "bool") then Some TBool
  else if str_eqb s (lit "int") then Some TInt
  else if str_eqb s (lit "str") then Some TStr
  else if str_eqb s (lit "function") then Some TFunction
  else if str_eqb s (lit "regex") then Some TRegex
  else if str_eqb s (lit "list") then Some (TList TAny)
  else if str_eqb s (lit "dict") then Some (TDict TAny)
  else None.
(** parser/types.rs:153-155 *)
Definition is_group_tok (t : token) : bool := kind_eqb (tk_kind t) Name || kind_eqb (tk_kind t) QuestionMark.
(** parser/types.rs:156-167 *)
Definition group_type (t : ty) (tok : token) : PM ty :=
  if str_eqb (tk_text tok) (lit "list") then pret (TList t)
  else if str_eqb (tk_text tok) (lit "dict") then pret (TDict t)
  else if str_eqb (tk_text tok) (lit "?") then
    if unit_is_assignable t then preport (Warn RedundantOptionType);; pret t else pret (TOptional t)
  else preport (SyntaxErr TokenInvalidGroupType);; pret t.
(** parser/types.rs:151-169, the loop; [fuel] bounds the number of tokens *)
Fixpoint parse_groups (fuel : nat) (t : ty) : PM ty :=
  match fuel with
  | 0 => fun _ => PFuel
  | S fuel =>
    skip_whitespace;;
    do tok <- poll_if is_group_tok;
    match tok with
    | Some tok => do t <- group_type t tok; parse_groups fuel t
    | None => pret t
    end
  end.
(** parser/types.rs:129-171; the source range returned is left out *)
Definition parse_type : PM ty :=
  skip_whitespace;;
  do begin_token <- expect_poll_kind Name;
  do t <- match base_type (tk_text begin_token) with
          | Some t => pret t
          | None => preport (SyntaxErr TokenInvalidPrimitiveType);; pret TAny
          end;
  fun s => parse_groups (S (length (ps_tokens s))) t s.
