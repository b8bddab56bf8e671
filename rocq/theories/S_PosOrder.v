(** Specification for C66: what comes before a syntax error that is about two places of the text. *)
From Verif Require Import Base M_Names M_Token M_Diag M_Ast M_Parser S_Pos.

(** A token of the text that starts before the position *)
Definition Earlier (all : list token) (Q : token -> Prop) (p : nat) : Prop := exists t, In t all /\ Q t /\ tk_start t < p.
(** Two tokens, one before the other, of which the later is at the position or before it *)
Definition Twice (all : list token) (Q R : token -> Prop) (p : nat) : Prop :=
  exists t u, In t all /\ In u all /\ Q t /\ R u /\ tk_start t < tk_start u /\ tk_start u <= p.
Definition Kind (k : token_kind) (t : token) : Prop := tk_kind t = k.
Definition NameIs (n : str) (t : token) : Prop := tk_kind t = Name /\ tk_text t = n.
Definition ParamIs (n : str) (t : token) : Prop := tk_kind t = VarName /\ tk_text t = dollar ++ n.
Definition SpreadOrRest (t : token) : Prop := IsSpread t \/ tk_kind t = Ellipsis.
Definition LetKeyword (t : token) : Prop := tk_kind t = Kw KLet \/ tk_kind t = Kw KImplicit.

(** The error is reported at the later of the two places, the earlier being before it *)
Definition Preceded (all : list token) (e : papyri_error) (p : nat) : Prop :=
  match e with
  | SyntaxErr e =>
    match e with
    (* a name given twice: the first time is before *)
    | TagDuplicateAttr n | ArgDuplicateName n => Earlier all (NameIs n) p
    | ParamDuplicateName n => Earlier all (ParamIs n) p
    | PatternDuplicateName n => Twice all (NameIs n) (NameIs n) p
    (* something that must not follow something else *)
    | ArgPositionalAfterNamed => Earlier all (fun t => tk_kind t = Equals \/ tk_kind t = DoubleAsterisk) p
    | ParamPositionalAfterNamed => Earlier all (fun t => (tk_kind t = VarName /\ ~ Underscored t) \/ tk_kind t = DoubleAsterisk) p
    | ParamRequiredAfterOptional => Earlier all (fun t => tk_kind t = QuestionMark \/ tk_kind t = Equals) p
    | ParamAfterSpread => Earlier all IsSpread p
    | ParamMultipleSpread => Earlier all IsSpread p \/ Twice all SpreadOrRest SpreadOrRest p
    | PatternMultipleSpreads => Twice all SpreadOrRest SpreadOrRest p
    | PatternNamedAfterSpread => Twice all SpreadOrRest (Kind Name) p
    (* a part of something that does not allow it *)
    | LetInLiteral => Earlier all LetKeyword p
    | DeclPositionalArg => Earlier all (fun t => LetKeyword t \/ tk_kind t = Kw KExport) p
    | ArgNamedNotAllowed => Earlier all (Kind LSqb) p
    | ParamSpreadDefault => Twice all IsSpread (Kind Equals) p
    | ParamContentDefault => Twice all (Kind VarName) (Kind Equals) p
    | PatternIncorrectCloseTag => Earlier all (Kind LAngle) p
    | TokenExpected Equals => Earlier all (Kind Name) p
    | _ => True
    end
  | _ => True
  end.
