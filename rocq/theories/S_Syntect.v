(** Specification for C75: what kind of token a piece of code is, by the scopes it is in. *)
From Verif Require Import Base M_Text M_Names M_Highlight M_Syntect S_Text S_Native2 S_Highlight.

Definition InScope (stack : list scope) (name : scope) : Prop := exists rest, In (name ++ rest) stack.
(** The rules, the first of which that applies decides. *)
Definition kind_rules (s : str) (stack : list scope) : list (Prop * hkind) :=
  let within := InScope stack in
  [ (Forall AsciiSpace s, HPlain);
    (within [lit "invalid"] /\ ~ within [lit "invalid"; lit "deprecated"], HInvalid);
    (within [lit "comment"], HComment);
    (exists c d, Pair c d /\ s = [c], HParenLeft);
    (exists c d, Pair c d /\ s = [d], HParenRight);
    (within [lit "string"], HString);
    (within [lit "constant"; lit "numeric"], HNumber);
    (within [lit "constant"; lit "language"], HKeywordLiteral);
    (within [lit "keyword"; lit "operator"; lit "word"], HKeywordOp);
    (within [lit "keyword"; lit "operator"], HOp);
    (Identifier s /\ (within [lit "keyword"] \/ within [lit "storage"; lit "modifier"] \/ within [lit "storage"; lit "type"] \/
                      within [lit "variable"; lit "language"]), HKeyword);
    (within [lit "punctuation"] /\ ~ within [lit "punctuation"; lit "definition"; lit "annotation"], HPunctuation);
    (within [lit "entity"; lit "name"], HNameDef);
    (within [lit "variable"] /\ ~ within [lit "variable"; lit "annotation"], HName);
    (within [lit "meta"; lit "annotation"; lit "type"], HTypeAnnotation);
    (within [lit "meta"; lit "annotation"], HDecorator);
    (Identifier s, HName);
    (True, HPunctuation) ].
Inductive FirstRule : list (Prop * hkind) -> hkind -> Prop :=
| first_here (P : Prop) k rules : P -> FirstRule ((P, k) :: rules) k
| first_later (P : Prop) k k' rules : ~ P -> FirstRule rules k' -> FirstRule ((P, k) :: rules) k'.
Definition KindIn (s : str) (stack : list scope) (k : hkind) : Prop := FirstRule (kind_rules s stack) k.

(** A line as the parser has cut it: pieces and the scopes they are in; or it could not be parsed. *)
Definition piece := (str * list scope)%type.
Inductive CutAt : nat -> list piece -> list (nat * nat * list scope) -> Prop :=
| cut_nil pos : CutAt pos [] []
| cut_cons pos s stack l rs : CutAt (pos + blen s) l rs -> CutAt pos ((s, stack) :: l) ((pos, pos + blen s, stack) :: rs).
(** [LineParsed line answer cs]: the answer for the line, and the pieces with the kinds they have. *)
Inductive LineParsed (line : str) : parsed_line -> list chunk -> Prop :=
| parsed_ok ps rs cs : CutAt 0 ps rs -> flat_map fst ps = line -> Forall2 (fun p c => fst c = fst p /\ KindIn (fst p) (snd p) (snd c)) ps cs ->
    LineParsed line (Some rs) cs
| parsed_error : LineParsed line None [(line, HPlain)].
(** The answers of a parser: for each line, its pieces one after the other, or an error. *)
Definition Parses (parse : str -> list str -> option (list parsed_line)) : Prop :=
  forall language ls answers, parse language ls = Some answers ->
  Forall2 (fun line answer => match answer with Some rs => exists ps, CutAt 0 ps rs /\ flat_map fst ps = line | None => True end) ls answers.
