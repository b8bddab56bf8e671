(** Model of /repo/src/compiler/highlight.rs (without the syntect crate's own highlighting) and highlight_papyri.rs. *)
From Verif Require Import Base M_Int M_Text M_Names M_Html M_Token M_Tokenizer M_Diag M_SourceFile.

(** highlight.rs:11-31 *)
Inductive hkind :=
| HPlain | HComment | HDecorator | HKeyword | HKeywordLiteral | HKeywordOp | HName | HNameDef | HNumber | HOp
| HParenLeft | HParenRight | HParenUnmatched | HPunctuation | HString | HTypeAnnotation | HUrl (in_comment : bool) | HInvalid.
(** the derived [PartialEq] of [TokenKind], highlight.rs:11-31 *)
Definition hkind_eq_dec (a b : hkind) : {a = b} + {a <> b}.
Proof. decide equality. apply Bool.bool_dec. Defined.
(** the derived [PartialEq] of [TokenKind], highlight.rs:11-31 *)
Definition hkind_eqb (a b : hkind) : bool := if hkind_eq_dec a b then true else false.

(** highlight.rs:33-40 *)
Definition matching_paren (s : str) : outcome str :=
  if str_eqb s (lit "(") then Ret (lit ")")
  else if str_eqb s (lit "{") then Ret (lit "}")
  else if str_eqb s (lit "[") then Ret (lit "]")
  else Panic.

(** highlight.rs:42-45: the regular expression of URLs, http or https, then ://, then one or more characters other than
    white space, quotes and backticks, matched at the start; the length of the match *)
Definition is_url_char (c : char) : bool :=
  negb (is_unicode_whitespace c || (c =? 39)%N || (c =? 34)%N || (c =? 96)%N).
(** a match of [URL_REGEX] at the start of a text, highlight.rs:42-45 *)
Definition url_len (s : str) : option nat :=
  match strip_prefix (lit "http") s with
  | None => None
  | Some t =>
    let t' := match strip_prefix (lit "s") t with Some t' => t' | None => t end in
    match strip_prefix (lit "://") t' with
    | None => None
    | Some u =>
      match take_while is_url_char u with
      | [] => None
      | w => Some (length s - length u + length w)
      end
    end
  end.
(** [Regex::find_iter]: the leftmost non-overlapping matches, as byte ranges. [skip] counts the characters that are part
    of the last match. highlight.rs:99. *)
Fixpoint find_urls (skip pos : nat) (s : str) : list (nat * nat) :=
  match s with
  | [] => []
  | c :: t =>
    match skip with
    | S skip => find_urls skip (pos + utf8_len c) t
    | 0 =>
      match url_len s with
      | Some n => (pos, pos + blen (firstn n s)) :: find_urls (n - 1) (pos + utf8_len c) t
      | None => find_urls 0 (pos + utf8_len c) t
      end
    end
  end.

(** highlight.rs:144-165. The attributes of a fresh tag cannot be duplicates. *)
Definition css_class (k : hkind) : str :=
  match k with
  | HComment => lit "comment" | HDecorator => lit "decorator" | HInvalid => lit "err" | HKeyword => lit "keyword"
  | HKeywordLiteral => lit "keyword-literal" | HKeywordOp => lit "keyword-op" | HName => lit "name"
  | HNameDef => lit "name-def" | HNumber => lit "number" | HOp => lit "op" | HParenLeft => lit "lparen"
  | HParenRight => lit "rparen" | HParenUnmatched => lit "unmatched-paren" | HPunctuation => lit "punctuation"
  | HString => lit "string" | HTypeAnnotation => lit "type-annotation"
  | HPlain | HUrl _ => []
  end.
(** highlight.rs:144-180 *)
Definition make_token (k : hkind) (s : str) (paren_no : N) : html :=
  match k with
  | HPlain => html_text s
  | HUrl in_comment =>
    HTag n_a ((n_href, Some s) :: if in_comment then [(n_class, Some (lit "comment"))] else []) (html_text s)
  | k =>
    HTag n_span ((n_class, Some (css_class k)) :: if (0 <? paren_no)%N then [(n_data_paren_no, Some (dec paren_no))] else [])
      (html_text s)
  end.

(** highlight.rs:47-54. The count is [u32] in the code. *)
Record lh := LH {
  lh_src : str;
  lh_parts : list html;
  lh_stack : list (str * N);                                (* innermost first *)
  lh_count : N;
  lh_a : nat; lh_b : nat;                                                (* current_range *)
  lh_kind : option hkind
}.
(** highlight.rs:57-66 *)
Definition lh_new (src : str) : lh := LH src [] [] 0 0 0 None.

(** highlight.rs:131-137 *)
Definition close_part (l : lh) : outcome lh :=
  match lh_kind l with
  | None => Ret l
  | Some k =>
    obind (get_span (lh_src l) (lh_a l) (lh_b l)) (fun s =>
    Ret (LH (lh_src l) (lh_parts l ++ [make_token k s 0]) (lh_stack l) (lh_count l) (lh_b l) (lh_b l) None))
  end.
(** highlight.rs:119-129 *)
Definition push_other (a b : nat) (k : hkind) (l : lh) : outcome lh :=
  if b <=? a then Ret l
  else if match lh_kind l with Some k' => hkind_eqb k' k | None => false end
  then Ret (LH (lh_src l) (lh_parts l) (lh_stack l) (lh_count l) (lh_a l) b (lh_kind l))
  else obind (close_part l) (fun l => Ret (LH (lh_src l) (lh_parts l) (lh_stack l) (lh_count l) a b (Some k))).
(** highlight.rs:112-117 *)
Definition push_with_paren_no (a b : nat) (k : hkind) (paren_no : N) (l : lh) : outcome lh :=
  obind (close_part l) (fun l =>
  obind (get_span (lh_src l) a b) (fun s =>
  Ret (LH (lh_src l) (lh_parts l ++ [make_token k s paren_no]) (lh_stack l) (lh_count l) b b (lh_kind l)))).
(** highlight.rs:95-110; [cur] is the end of the last match *)
Fixpoint push_urls (urls : list (nat * nat)) (start cur b : nat) (k url_kind : hkind) (l : lh) : outcome lh :=
  match urls with
  | [] => push_other cur b k l
  | (ma, mb) :: urls =>
    obind (push_other cur (start + ma) k l) (fun l =>
    obind (push_other (start + ma) (start + mb) url_kind l) (fun l =>
    obind (close_part l) (fun l => push_urls urls start (start + mb) b k url_kind l)))
  end.
(** highlight.rs:68-93 *)
Definition lh_push (a b : nat) (k : hkind) (l : lh) : outcome lh :=
  obind (get_span (lh_src l) a b) (fun s =>
  match k with
  | HComment | HString => push_urls (find_urls 0 0 s) a a b k (HUrl (hkind_eqb k HComment)) l
  | HParenLeft =>
    obind (matching_paren s) (fun m =>
    let n := (lh_count l + 1)%N in
    push_with_paren_no a b k n (LH (lh_src l) (lh_parts l) ((m, n) :: lh_stack l) n (lh_a l) (lh_b l) (lh_kind l)))
  | HParenRight =>
    match lh_stack l with
    | (rpar, n) :: stack =>
      if str_eqb rpar s then
        obind (push_with_paren_no a b k n l) (fun l =>
        Ret (LH (lh_src l) (lh_parts l) stack (lh_count l) (lh_a l) (lh_b l) (lh_kind l)))
      else push_other a b HParenUnmatched l
    | [] => push_other a b HParenUnmatched l
    end
  | k => push_other a b k l
  end).
(** highlight.rs:139-142 *)
Definition take_line (l : lh) : outcome (html * lh) :=
  obind (close_part l) (fun l =>
  Ret (from_iter (lh_parts l), LH (lh_src l) [] (lh_stack l) (lh_count l) (lh_a l) (lh_b l) (lh_kind l))).

(** highlight.rs:183-193; [checks]: see M_Int *)
Fixpoint enumerate_loop (checks : bool) (ls : list html) (i : nat) (start : Z) : outcome (list html) :=
  match ls with
  | [] => Ret []
  | line :: ls =>
    obind (i64 checks (Z.of_nat i + start)) (fun no =>
    obind (enumerate_loop checks ls (S i) start) (fun out =>
    Ret (HTag n_span [(n_class, Some (lit "line")); (n_data_line_no, Some (zdec no))] line :: HRawNewline :: out)))
  end.
(** highlight.rs:183-193 *)
Definition enumerate_lines (checks : bool) (ls : list html) (start : Z) : outcome html :=
  obind (enumerate_loop checks ls 0 start) (fun out => Ret (from_iter out)).

(** highlight.rs:195-199 *)
Definition no_highlighting (src : str) : list html := List.map html_text (lines src).

(** highlight_papyri.rs:22-61; the flags are [next_is_def] and [next_is_tag_name] *)
Definition papyri_kind (k : token_kind) (is_def is_tag_name : bool) : hkind * bool :=
  match k with
  | Comment => (HComment, is_def)
  | RawText | Whitespace | Newline => (HPlain, is_def)
  | Boolean _ | Escape | Entity => (HKeywordLiteral, is_def)
  | Number => (HNumber, is_def)
  | VarName => (HName, is_def)
  | Verbatim _ => (HString, is_def)
  | Name => if is_def then (HNameDef, false) else if is_tag_name then (HName, is_def) else (HPlain, is_def)
  | FuncName => (HDecorator, is_def)
  | Kw kw => (HKeyword, match kw with KFn => true | _ => false end)
  | LPar | LSqb | LBrace => (HParenLeft, is_def)
  | RPar | RSqb | RBrace => (HParenRight, is_def)
  | _ => (HOp, is_def)
  end.
(** [str::split('\n')]. Used in highlight_papyri.rs:9-80. *)
Fixpoint split_nl (s : str) : list str :=
  match s with
  | [] => [[]]
  | c :: t =>
    if (c =? 10)%N then [] :: split_nl t
    else match split_nl t with x :: xs => (c :: x) :: xs | [] => [[c]] end
  end.
(** highlight_papyri.rs:65-80 *)
Fixpoint push_parts (parts : list str) (cur : nat) (do_close : bool) (k : hkind) (l : lh) (out : list html)
  : outcome (lh * list html) :=
  match parts with
  | [] => Ret (l, out)
  | part :: parts =>
    obind (if do_close then
             obind (get_span (lh_src l) (cur - 1) cur) (fun s =>
             if str_eqb s [10%N] then obind (take_line l) (fun r => Ret (snd r, out ++ [fst r])) else Panic)
           else Ret (l, out)) (fun r => let (l, out) := r in
    obind (lh_push cur (cur + blen part) k l) (fun l => push_parts parts (cur + blen part + 1) true k l out))
  end.
(** highlight_papyri.rs:22-81 *)
Fixpoint highlight_tokens (toks : list token) (is_def is_tag_name : bool) (l : lh) (out : list html)
  : outcome (lh * list html) :=
  match toks with
  | [] => Ret (l, out)
  | tok :: toks =>
    let (k, is_def) := papyri_kind (tk_kind tok) is_def is_tag_name in
    obind (push_parts (split_nl (tk_text tok)) (tk_start tok) false k l out) (fun r => let (l, out) := r in
    highlight_tokens toks is_def (kind_eqb (tk_kind tok) LAngle) l out)
  end.
(** highlight_papyri.rs:9-85 *)
Definition syntax_highlight_papyri (src : str) : outcome (list html) :=
  let src := trim_end src in
  obind (tokenize src false) (fun r =>
  obind (highlight_tokens (fst r) false false (lh_new src) []) (fun r => let (l, out) := r in
  obind (take_line l) (fun r => Ret (out ++ [fst r])))).

(** highlight.rs:315-345, the part of [syntect_highlighting::highlight] outside the syntect crate: for each line, either
    the kinds of its adjacent ranges, or nothing (a parse error). *)
Fixpoint push_ranges (rs : list (nat * nat * hkind)) (l : lh) : outcome lh :=
  match rs with
  | [] => Ret l
  | (a, b, k) :: rs => if b <=? a then push_ranges rs l else obind (lh_push a b k l) (push_ranges rs)
  end.
(** highlight.rs:315-346 *)
Fixpoint highlight_lines (ls : list (str * option (list (nat * nat * hkind)))) (l : lh) : outcome (list html) :=
  match ls with
  | [] => Ret []
  | (line, ranges) :: ls =>
    let l := LH line (lh_parts l) (lh_stack l) (lh_count l) (lh_a l) (lh_b l) (lh_kind l) in
    match ranges with
    | Some rs =>
      obind (push_ranges rs l) (fun l =>
      obind (take_line l) (fun r =>
      obind (highlight_lines ls (snd r)) (fun out => Ret (fst r :: out))))
    | None => obind (highlight_lines ls l) (fun out => Ret (html_text line :: out))
    end
  end.
Section Highlight.
  (** syntect: for a known language, the classification of each line of a source *)
  Variable syntect : str -> list str -> option (list (option (list (nat * nat * hkind)))).
  (** highlight.rs:201-219 and 300-335 (with the feature "syntect", which is on by default) *)
  Definition syntax_highlight (src language : str) : outcome (list html * option warning) :=
    if str_eqb language (lit "none") then Ret (no_highlighting src, None)
    else if str_eqb language (lit "papyri") then obind (syntax_highlight_papyri src) (fun ls => Ret (ls, None))
    else match syntect language (lines src) with
         | None => Ret (no_highlighting src, Some (HighlightLanguageUnknown language))
         | Some rs => obind (highlight_lines (combine (lines src) rs) (lh_new src)) (fun ls => Ret (ls, None))
         end.
End Highlight.
