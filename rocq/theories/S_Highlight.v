(** Specification of syntax highlighting: what the lines of highlighted code should look like. *)
From Verif Require Import Base M_Names M_Html M_Token M_Tokenizer M_Highlight S_Html.

(** ** What is seen of a document *)

(** the characters of a document, without its tags *)
Fixpoint visible (evs : list event) : str :=
  match evs with
  | [] => []
  | EChar c :: evs => c :: visible evs
  | _ :: evs => visible evs
  end.
Definition text_of (h : html) : str := visible (events h).
(** a visible character, and the attributes of the innermost element it is in *)
Record mark := Mark { m_char : char; m_attrs : list (str * option str) }.
Fixpoint marks_in (stack : list (list (str * option str))) (evs : list event) : list mark :=
  match evs with
  | [] => []
  | EChar c :: evs => Mark c (List.hd [] stack) :: marks_in stack evs
  | EOpen _ a :: evs => marks_in (a :: stack) evs
  | EClose _ :: evs => marks_in (List.tl stack) evs
  end.
Definition marks (h : html) : list mark := marks_in [] (events h).

(** ** Classified code *)

(** a piece of the code and what kind of token it is *)
Definition chunk := (str * hkind)%type.
Inductive Pair : char -> char -> Prop :=
| Pair_round : Pair (c_of "(") (c_of ")")
| Pair_square : Pair (c_of "[") (c_of "]")
| Pair_curly : Pair (c_of "{") (c_of "}").
(** Opening and closing brackets are single characters; links are found by the highlighter, not the classification. *)
Definition ProperChunk (x : chunk) : Prop :=
  match snd x with
  | HParenLeft => exists c d, fst x = [c] /\ Pair c d
  | HParenRight => exists c d, fst x = [d] /\ Pair c d
  | HUrl _ | HParenUnmatched => False
  | _ => True
  end.
Definition chars (l : list chunk) : list (char * hkind) := flat_map (fun x => List.map (fun c => (c, snd x)) (fst x)) l.

(** [rs] are adjacent ranges, in bytes, of the pieces of the text starting at [pos]. *)
Inductive Cut : nat -> list chunk -> list (nat * nat * hkind) -> Prop :=
| Cut_nil pos : Cut pos [] []
| Cut_cons pos s k l rs : Cut (pos + blen s) l rs -> Cut pos ((s, k) :: l) ((pos, pos + blen s, k) :: rs).

(** What a classification says about a line: the ranges of its pieces, or nothing if it fails, and the line is plain. *)
Definition LineGiven (cs : list chunk) (given : option (list (nat * nat * hkind))) : Prop :=
  match given with Some rs => Cut 0 cs rs | None => exists line, cs = [(line, HPlain)] end.
Definition chunks_text (l : list chunk) : str := flat_map fst l.

(** The lines of classified code, without their line breaks. *)
Inductive ChunkLines : list chunk -> list (list chunk) -> Prop :=
| CL_nil : ChunkLines [] [[]]
| CL_within s k l line ls : ~ In 10%N s -> ChunkLines l (line :: ls) -> ChunkLines ((s, k) :: l) (((s, k) :: line) :: ls)
| CL_break s t k l ls : ~ In 10%N s -> ChunkLines ((t, k) :: l) ls -> ChunkLines ((s ++ 10%N :: t, k) :: l) ([(s, k)] :: ls).
(** text as lines *)
Fixpoint join_lines (ls : list str) : str :=
  match ls with
  | [] => []
  | [l] => l
  | l :: ls => l ++ 10%N :: join_lines ls
  end.

(** ** Links in comments and strings *)

Definition UrlChar (c : char) : Prop :=
  is_unicode_whitespace c = false /\ c <> c_of "'" /\ c <> c_of """" /\ c <> c_of "`".
Definition Scheme (s : str) : Prop := s = lit "http" \/ s = lit "https".
Definition UrlStart (s : str) : Prop := exists h c rest, Scheme h /\ s = h ++ lit "://" ++ c :: rest /\ UrlChar c.
(** The links are the leftmost and longest URLs. *)
Inductive Links : str -> list (str + char) -> Prop :=
| L_end : Links [] []
| L_url h w rest l : Scheme h -> w <> [] -> Forall UrlChar w -> (forall c t, rest = c :: t -> ~ UrlChar c) ->
    Links rest l -> Links (h ++ lit "://" ++ w ++ rest) (inl (h ++ lit "://" ++ w) :: l)
| L_char c rest l : ~ UrlStart (c :: rest) -> Links rest l -> Links (c :: rest) (inr c :: l).

(** ** Highlighted code *)

Definition class_name (k : hkind) : str :=
  match k with
  | HComment => lit "comment" | HDecorator => lit "decorator" | HInvalid => lit "err" | HKeyword => lit "keyword"
  | HKeywordLiteral => lit "keyword-literal" | HKeywordOp => lit "keyword-op" | HName => lit "name"
  | HNameDef => lit "name-def" | HNumber => lit "number" | HOp => lit "op" | HParenLeft => lit "lparen"
  | HParenRight => lit "rparen" | HParenUnmatched => lit "unmatched-paren" | HPunctuation => lit "punctuation"
  | HString => lit "string" | HTypeAnnotation => lit "type-annotation" | HPlain | HUrl _ => []
  end.
Definition class_attr (k : hkind) : list (str * option str) := [(lit "class", Some (class_name k))].
Definition numbered (k : hkind) (n : str) : list (str * option str) := class_attr k ++ [(lit "data_paren_no", Some n)].
Definition kind_attrs (k : hkind) : list (str * option str) := match k with HPlain => [] | k => class_attr k end.
Definition link_marks (k : hkind) (x : str + char) : list mark :=
  match x with
  | inr c => [Mark c (class_attr k)]
  | inl url => List.map (fun c => Mark c ((lit "href", Some url) :: match k with HComment => class_attr k | _ => [] end)) url
  end.
(** How a piece of code is shown. *)
Inductive ShownAs : chunk -> list mark -> Prop :=
| SA_plain s k : ~ In k [HComment; HString; HParenLeft; HParenRight] ->
    ShownAs (s, k) (List.map (fun c => Mark c (kind_attrs k)) s)
| SA_links s k l : In k [HComment; HString] -> Links s l -> ShownAs (s, k) (flat_map (link_marks k) l)
| SA_left c n : ShownAs ([c], HParenLeft) [Mark c (numbered HParenLeft n)]
| SA_right c n : ShownAs ([c], HParenRight) [Mark c (numbered HParenRight n)]
| SA_stray c : ShownAs ([c], HParenRight) [Mark c (class_attr HParenUnmatched)].
Definition LineShown (line : list chunk) (h : html) : Prop := exists parts, Forall2 ShownAs line parts /\ marks h = List.concat parts.

(** What may stand between an opening bracket and the bracket [d] that closes it: matching pairs of brackets, and closing
    brackets that match nothing, as they are not [d]. *)
Inductive Inside (d : char) : list (char * hkind) -> Prop :=
| In_nil : Inside d []
| In_other c k l : k <> HParenLeft -> k <> HParenRight -> Inside d l -> Inside d ((c, k) :: l)
| In_stray c l : c <> d -> Inside d l -> Inside d ((c, HParenRight) :: l)
| In_pair c e inner l : Pair c e -> Inside e inner -> Inside d l ->
    Inside d ((c, HParenLeft) :: inner ++ (e, HParenRight) :: l).
(** The brackets at the positions [i] and [j] match. *)
Definition Matching (l : list (char * hkind)) (i j : nat) : Prop :=
  exists a c mid d b, l = a ++ (c, HParenLeft) :: mid ++ (d, HParenRight) :: b /\
    i = length a /\ j = length a + 1 + length mid /\ Pair c d /\ Inside d mid.
Definition HasNumber (k : hkind) (ms : list mark) (i : nat) (n : str) : Prop :=
  exists c, nth_error ms i = Some (Mark c (numbered k n)).
(** Opening brackets have different numbers, and an opening and a closing bracket have the same number just if they match. *)
Definition BracketsNumbered (l : list (char * hkind)) (ms : list mark) : Prop :=
  (forall i i' n, HasNumber HParenLeft ms i n -> HasNumber HParenLeft ms i' n -> i = i') /\
  (forall i c, nth_error l i = Some (c, HParenLeft) -> exists n, HasNumber HParenLeft ms i n) /\
  (forall i j, Matching l i j <-> exists n, HasNumber HParenLeft ms i n /\ HasNumber HParenRight ms j n).
Definition Highlighted (ls : list (list chunk)) (out : list html) : Prop :=
  Forall2 LineShown ls out /\ BracketsNumbered (chars (List.concat ls)) (flat_map marks out).

(** Code with line numbers: each line is an element with its number, followed by a line break. *)
Fixpoint NumberedLines (n : Z) (ls : list html) : list event :=
  match ls with
  | [] => []
  | h :: ls =>
    EOpen (lit "span") [(lit "class", Some (lit "line")); (lit "data_line_no", Some (zdec n))] :: events h ++ EClose (lit "span") :: EChar 10%N ::
    NumberedLines (n + 1) ls
  end.

(** ** The classification of Papyri code *)

(** the name of the function being defined: the first name after [@fn], with no other keyword between *)
Definition AfterFn (before : list token) : Prop :=
  exists a f b, before = a ++ f :: b /\ tk_kind f = Kw KFn /\ Forall (fun t => tk_kind t <> Name /\ forall k, tk_kind t <> Kw k) b.
Definition AfterAngle (before : list token) : Prop := exists a t, before = a ++ [t] /\ tk_kind t = LAngle.
Inductive PapyriKind (before : list token) : token_kind -> hkind -> Prop :=
| PK_name_def : AfterFn before -> PapyriKind before Name HNameDef
| PK_tag_name : ~ AfterFn before -> AfterAngle before -> PapyriKind before Name HName
| PK_name : ~ AfterFn before -> ~ AfterAngle before -> PapyriKind before Name HPlain
| PK_comment : PapyriKind before Comment HComment
| PK_plain k : In k [RawText; Whitespace; Newline] -> PapyriKind before k HPlain
| PK_literal k : In k [Boolean true; Boolean false; Escape; Entity] -> PapyriKind before k HKeywordLiteral
| PK_number : PapyriKind before Number HNumber
| PK_var : PapyriKind before VarName HName
| PK_verbatim k : PapyriKind before (Verbatim k) HString
| PK_func : PapyriKind before FuncName HDecorator
| PK_keyword k : PapyriKind before (Kw k) HKeyword
| PK_left k : In k [LPar; LSqb; LBrace] -> PapyriKind before k HParenLeft
| PK_right k : In k [RPar; RSqb; RBrace] -> PapyriKind before k HParenRight
| PK_op k : In k [LAngle; RAngle; CloseTag; Ampersand; Arrow; Asterisk; Bar; Colon; Comma; Dot; DoubleAsterisk; DoubleColon;
                  Ellipsis; Equals; ExclamationMark; QuestionMark; QuestionMarkDoubleColon; Underscore] \/
            (exists q d, k = Quote q d) -> PapyriKind before k HOp.
Inductive PapyriChunks (before : list token) : list token -> list chunk -> Prop :=
| PC_nil : PapyriChunks before [] []
| PC_cons t ts k l : PapyriKind before (tk_kind t) k -> PapyriChunks (before ++ [t]) ts l ->
    PapyriChunks before (t :: ts) ((tk_text t, k) :: l).
