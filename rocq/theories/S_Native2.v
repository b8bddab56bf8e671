(** Specification vocabulary for the remaining native functions (C02, C37, C40, C52, C53, C59, C60). *)
From Verif Require Import Base M_Text M_Names M_Html M_Types M_Token M_Diag M_Highlight M_Ast M_Value M_State S_Text S_Html S_Scope.

(** ** Booleans *)

(** The values that count as false. *)
Inductive Falsy : value -> Prop :=
| F_false : Falsy (VBool false)
| F_zero : Falsy (VInt 0)
| F_str : Falsy (VStr [])
| F_html : Falsy (VHtml HEmpty)
| F_list : Falsy (VList [])
| F_dict : Falsy (VDict []).

(** ** Strings *)

(** The bytes of a character in UTF-8. *)
Definition utf8 (c : char) : list N :=
  (if c <? 128 then [c]
   else if c <? 2048 then [192 + c / 64; 128 + c mod 64]
   else if c <? 65536 then [224 + c / 4096; 128 + c / 64 mod 64; 128 + c mod 64]
   else [240 + c / 262144; 128 + c / 4096 mod 64; 128 + c / 64 mod 64; 128 + c mod 64])%N.
(** ASCII white space: tab, line feed, form feed, carriage return and space. *)
Definition AsciiSpace (c : char) : Prop := In c [9; 10; 12; 13; 32]%N.

(** ** Regular expressions *)

(** What a capture group has captured: a string, or nothing. *)
Definition Captured (g : option str) (v : value) : Prop := match g with Some s => v = VStr s | None => v = UNIT end.
(** What becomes of a match: the matched text if the expression has no groups, else the list of the matched text and the
    groups, or the dictionary of the groups if they have names. The first group is the whole match. *)
Inductive MatchValue : regex_kind -> list (option str) -> value -> Prop :=
| MV_simple g gs v : Captured g v -> MatchValue RSimple (g :: gs) v
| MV_numbered gs vs : Forall2 Captured gs vs -> MatchValue RNumbered gs (VList vs)
| MV_named names g gs vs : NoDup names -> Forall2 Captured gs vs -> length names = length vs ->
    MatchValue (RNamed names) (g :: gs) (VDict (combine names vs)).
(** The kind of an expression with these groups, some of them with names. *)
Inductive KindOf : list (option str) -> regex_kind -> Prop :=
| KO_none : KindOf [] RSimple
| KO_numbered gs : gs <> [] -> (forall g, In g gs -> g = None) -> KindOf gs RNumbered
| KO_named gs names : gs <> [] -> gs = List.map Some names -> Forall Identifier names -> KindOf gs (RNamed names).
Inductive BadGroups : list (option str) -> runtime_error -> Prop :=
| BG_mixed gs n : In None gs -> In (Some n) gs -> BadGroups gs RegexMixedGroupKinds
| BG_name before n after : Forall Identifier before -> ~ Identifier n ->
    BadGroups (List.map Some (before ++ n :: after)) (RegexInvalidGroupName n).

(** ** Scopes *)

(** The scope [i] of [h'] is that of [h] with the names of [d] declared in it; nothing else has changed. *)
Definition DeclaredIn (i : nat) (d : list (str * value)) (h h' : list frame) : Prop :=
  length h' = length h /\
  (forall n v, In (n, v) d -> BindsAt h' i n v) /\
  (forall n v, ~ In n (List.map fst d) -> (BindsAt h i n v <-> BindsAt h' i n v)) /\
  (forall j, j <> i -> nth_error h' j = nth_error h j).

(** ** Code *)

(** The first line of a code block may name its language, which is then not part of the code. *)
Inductive HintedCode (default : str) : str -> str -> str -> Prop :=
| HC_hint l t rest : ~ In 10%N l -> TrimmedEnd l t -> Identifier t -> HintedCode default (l ++ 10%N :: rest) t rest
| HC_none s : (forall l t rest, s = l ++ 10%N :: rest -> ~ In 10%N l -> TrimmedEnd l t -> ~ Identifier t) ->
    HintedCode default s default s.

(** A match has the whole text as its first group, and a group for each name. *)
Definition GroupsOf (k : regex_kind) (gs : list (option str)) : Prop :=
  match k with RSimple => gs <> [] | RNumbered => True | RNamed names => NoDup names /\ length gs = S (length names) end.
