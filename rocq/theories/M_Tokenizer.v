(** Model of /repo/src/parser/tokenizer.rs. *)
From Verif Require Import Base M_Text M_Token.

(** [str::find(&str)] (Rust std): the text before the first occurrence of [pat], and the text from there on. Used in tokenizer.rs:72-243. *)
Fixpoint find_sub (pat s : str) : option (str * str) :=
  match strip_prefix pat s with
  | Some _ => Some ([], s)
  | None =>
    match s with
    | [] => None
    | c :: t => match find_sub pat t with Some (a, b) => Some (c :: a, b) | None => None end
    end
  end.
(** [str::starts_with(&str)] (Rust std). Used in tokenizer.rs:72-243. *)
Definition starts_with (pat s : str) : bool := match strip_prefix pat s with Some _ => true | None => false end.
(** [chars.next()] matched against a predicate, as in [matches!(chars.next(), Some(c) if f(c))]. tokenizer.rs:72-243. *)
Definition next_is (f : char -> bool) (s : str) : bool := match s with c :: _ => f c | [] => false end.

(** tokenizer.rs:245-248 *)
Definition scan_while (f : char -> bool) (s : str) : nat := blen (take_while f s).
(** tokenizer.rs:250-252 *)
Definition is_paragraph_break (s : str) : bool := 2 <=? length (filter (N.eqb 10) s).
(** tokenizer.rs:254-261; the characters are ()[]{}<>.,-=:*!?/|#@$& backslash, backtick and both quotes *)
Definition special_chars : str := lit "()[]{}<>.,-=:*!?/|#@$&\`'""".
(** tokenizer.rs:254-261 *)
Definition is_raw_text (c : char) : bool :=
  if existsb (N.eqb c) special_chars then false else negb (is_ident_cont c) && negb (is_ascii_whitespace c).

(** The text of a prefix given by its length in bytes, [&src[..len]]; the lengths used below are on char boundaries. tokenizer.rs:72-243. *)
Definition prefix_str (s : str) (len : nat) : str := match split_bytes s len with Some (a, _) => a | None => [] end.

(** no counterpart in the code: how a character literal of tokenizer.rs:72-261 is written *)
Definition c_of (s : string) : char := match lit s with c :: _ => c | [] => 0%N end.

(** tokenizer.rs:107-114 *)
Definition keyword_kind (name : str) : token_kind :=
  if str_eqb name (lit "export") then Kw KExport
  else if str_eqb name (lit "fn") then Kw KFn
  else if str_eqb name (lit "implicit") then Kw KImplicit
  else if str_eqb name (lit "let") then Kw KLet
  else if str_eqb name (lit "match") then Kw KMatch
  else FuncName.
(** tokenizer.rs:94-99 *)
Definition ident_kind (name : str) : token_kind :=
  if str_eqb name (lit "True") then Boolean true
  else if str_eqb name (lit "False") then Boolean false
  else if str_eqb name (lit "_") then Underscore
  else Name.

(** tokenizer.rs:72-243. [src] is [&src_str[cur..]]; the result is the length of the token in bytes, its kind and the
    error passed to [on_error], if any (every path calls it at most once). [t] is [&src[1..]] whenever the first character
    is ASCII, and so on for the following ASCII characters. The guarded arms are tried in source order. *)
Definition next_token (src : str) : outcome (nat * token_kind * option syntax_error) :=
  match src with
  | [] => Panic
  | c :: t =>
    let ok len kind := Ret (len, kind, None) in
    let err len kind e := Ret (len, kind, Some e) in
    let is s := (c =? c_of s)%N in
    if is "#"%string then
      let i := 1 + scan_while (fun c => negb (c =? 10)%N) t in
      let rest := drop_while (fun c => negb (c =? 10)%N) t in
      let j := i + scan_while is_ascii_whitespace rest in
      ok (if is_paragraph_break (take_while is_ascii_whitespace rest) then i else j) Comment
    else if is_ascii_whitespace c then
      let len := 1 + scan_while is_ascii_whitespace t in
      ok len (if is_paragraph_break (prefix_str src len) then Newline else Whitespace)
    else if is_ident_start c then
      let len := 1 + scan_while is_ident_cont t in
      ok len (ident_kind (prefix_str src len))
    else if is_ascii_digit c then ok (1 + scan_while is_ascii_digit t) Number
    else if (is "$"%string || is "@"%string) && next_is is_ident_start t then
      let len := scan_while is_ident_cont t in
      ok (1 + len) (if is "$"%string then VarName else keyword_kind (prefix_str t len))
    else if is "&"%string && next_is (fun c => is_ascii_alphabetic c || (c =? c_of "#")%N) t then
      let t2 := List.tl t in
      let f c := negb (is_ascii_whitespace c) && negb (c =? c_of ";")%N in
      let len := 2 + scan_while f t2 in
      if next_is (N.eqb (c_of ";")) (drop_while f t2) then ok (len + 1) Entity
      else err len Entity TokenEntityMissingSemicolon
    else if is "\"%string then
      match t with
      | d :: t2 =>
        if (d =? 10)%N then err 1 Escape TokenInvalidEscape
        else if (d =? c_of "x")%N || (d =? c_of "u")%N || (d =? c_of "U")%N then
          let end_ := if (d =? c_of "x")%N then 4 else if (d =? c_of "u")%N then 6 else 10 in
          if end_ <=? blen src then
            match split_bytes t2 (end_ - 2) with
            | Some (digits, _) =>
              if forallb is_ascii_hexdigit digits then ok end_ Escape else err 2 Escape TokenInvalidEscape
            | None => Panic
            end
          else err 2 Escape TokenInvalidEscape
        else ok (1 + utf8_len d) Escape
      | [] => err 1 RawText (TokenExpectedWasEOF Escape)
      end
    else if is "`"%string then
      let tick := N.eqb (c_of "`") in
      let open_len := 1 + scan_while tick t in
      let delim := take_while tick src in
      let rest := drop_while tick src in
      let kind := Verbatim (if starts_with (lit "```") src then VMultiline else VSimple) in
      match find_sub delim rest with
      | Some (content, from_close) =>
        let close_len := open_len + scan_while tick (skipn open_len from_close) in
        let len := open_len + blen content + close_len in
        if open_len <? close_len then err len kind TokenVerbatimTooManyBackticks
        else if (open_len <? 3) && existsb (N.eqb 10) content then err len kind TokenVerbatimMultilineNotEnoughBackticks
        else ok len kind
      | None => err (blen src) kind TokenVerbatimEOF
      end
    else if is "<"%string then
      if starts_with (lit "<!--") src then
        match find_sub (lit "-->") (skipn 4 src) with
        | Some (content, _) => ok (blen content + 7) Comment
        | None => ok (blen src) Comment
        end
      else if next_is (N.eqb (c_of "/")) t then
        let t2 := List.tl t in
        if next_is is_ident_start t2 then
          let t3 := List.tl t2 in
          let ident_len := 1 + scan_while is_ident_cont t3 in
          if next_is (N.eqb (c_of ">")) (drop_while is_ident_cont t3) then ok (3 + ident_len) CloseTag
          else err (2 + ident_len) RawText TagCloseMalformed
        else if starts_with (lit "</>") src then ok 3 CloseTag
        else err 2 RawText TagCloseMalformed
      else ok 1 LAngle
    else if is "-"%string && starts_with (lit "->") src then ok 2 Arrow
    else if is "-"%string && next_is is_ascii_digit t then ok (2 + scan_while is_ascii_digit (List.tl t)) Number
    else if is "("%string then ok 1 LPar
    else if is ")"%string then ok 1 RPar
    else if is "["%string then ok 1 LSqb
    else if is "]"%string then ok 1 RSqb
    else if is "{"%string then ok 1 LBrace
    else if is "}"%string then ok 1 RBrace
    else if is ">"%string then ok 1 RAngle
    else if is "/"%string && starts_with (lit "/>") src then ok 2 RAngle
    else if is "&"%string then ok 1 Ampersand
    else if is "|"%string then ok 1 Bar
    else if is ","%string then ok 1 Comma
    else if is "="%string then ok 1 Equals
    else if is "!"%string then ok 1 ExclamationMark
    else if is "*"%string then if starts_with (lit "**") src then ok 2 DoubleAsterisk else ok 1 Asterisk
    else if is ":"%string then if starts_with (lit "::") src then ok 2 DoubleColon else ok 1 Colon
    else if is "?"%string then if starts_with (lit "?::") src then ok 3 QuestionMarkDoubleColon else ok 1 QuestionMark
    else if is "."%string then if starts_with (lit "...") src then ok 3 Ellipsis else ok 1 Dot
    else if is "'"%string then ok 1 (Quote QSingle QLeft)
    else if is """"%string then ok 1 (Quote QDouble QLeft)
    else ok (utf8_len c + scan_while is_raw_text t) RawText
  end.

(** tokenizer.rs:47-50 *)
Definition next_quote_dir (k : token_kind) : quote_dir :=
  match k with
  | Equals | LBrace | LPar | LSqb | RAngle | Newline | Whitespace => QLeft
  | _ => QRight
  end.
(** tokenizer.rs:28-30 *)
Definition set_quote_dir (k : token_kind) (d : quote_dir) : token_kind :=
  match k with Quote q _ => Quote q d | k => k end.

(** tokenizer.rs:53-66. [tokens] is the output so far, last token first. *)
Definition push_token (strip_comments : bool) (tok : token) (tokens : list token) : list token :=
  if kind_eqb (tk_kind tok) Comment && strip_comments then tokens
  else
    match tokens with
    | prev :: before =>
      if tok_is_whitespace tok && tok_is_whitespace prev then
        if kind_eqb (tk_kind tok) Newline then tok :: before else tokens
      else tok :: tokens
    | [] => [tok]
    end.

(** tokenizer.rs:24-67, the loop; [rest] is [&src_str[cur..]], the diagnostics are collected last first. Fuel bounds the
    number of tokens. *)
Fixpoint tokenize_loop (fuel : nat) (strip_comments : bool) (rest : str) (cur : nat) (dir : quote_dir)
  (tokens : list token) (errors : list (syntax_error * (nat * nat)))
  : outcome (list token * list (syntax_error * (nat * nat))) :=
  match rest with
  | [] => Ret (rev tokens, rev errors)
  | _ =>
    match fuel with
    | O => OutOfFuel
    | S fuel =>
      obind (next_token rest) (fun '(len, kind, error) =>
        match len with
        | O => Panic
        | _ =>
          let kind := set_quote_dir kind dir in
          match split_bytes rest len with
          | None => Panic
          | Some (text, rest') =>
            let tok := {| tk_kind := kind; tk_text := text; tk_start := cur; tk_end := cur + len |} in
            let errors := match error with Some e => (e, (cur, cur + len)) :: errors | None => errors end in
            tokenize_loop fuel strip_comments rest' (cur + len) (next_quote_dir kind)
              (push_token strip_comments tok tokens) errors
          end
        end)
    end
  end.

(** tokenizer.rs:9-70 *)
Definition tokenize (src : str) (strip_comments : bool) : outcome (list token * list (syntax_error * (nat * nat))) :=
  tokenize_loop (length src) strip_comments src 0 QLeft [] [].
