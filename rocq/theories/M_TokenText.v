(** Model of how tokens are decoded: /repo/src/parser/text.rs and parse_number of /repo/src/parser/base.rs. *)
From Verif Require Import Base M_Token.

(** Digit value as in [u32::from_str_radix(_, 16)] (Rust std). Used in parser/text.rs:76-94. *)
Definition hex_digit (c : char) : option N :=
  if is_ascii_digit c then Some (c - 48)%N
  else if in_range 97 102 c then Some (c - 87)%N
  else if in_range 65 70 c then Some (c - 55)%N
  else None.
(** [u32::from_str_radix] (std), used in parser/text.rs:76-94 *)
Fixpoint radix_loop (radix : N) (s : str) (acc : N) : option N :=
  match s with
  | [] => Some acc
  | c :: t =>
    match hex_digit c with
    | Some d => if (d <? radix)%N then radix_loop radix t (acc * radix + d)%N else None
    | None => None
    end
  end.
(** [u32::from_str_radix] (Rust std): empty strings and overflow are errors; an initial plus sign is allowed. Used in parser/text.rs:76-94. *)
Definition u32_from_str_radix (radix : N) (s : str) : option N :=
  let digits := match s with c :: (_ :: _ as t) => if (c =? 43)%N then t else s | _ => s end in
  match digits with
  | [] => None
  | _ =>
    match radix_loop radix digits 0%N with
    | Some n => if (n <? 4294967296)%N then Some n else None
    | None => None
    end
  end.
(** [char::from_u32] (Rust std): code points other than surrogates. Used in parser/text.rs:76-94. *)
Definition char_from_u32 (n : N) : option char :=
  if (n <? 55296)%N || ((57343 <? n) && (n <? 1114112))%N then Some n else None.
(** [char::REPLACEMENT_CHARACTER] (std), used in parser/text.rs:62-94 *)
Definition replacement_character : char := 65533%N.

(** text.rs:76-94, given the text of the token. *)
Definition unescape_char (s : str) : outcome (char * option syntax_error) :=
  match s with
  | _ :: c :: digits =>
    if (c =? 120)%N || (c =? 117)%N || (c =? 85)%N then (* x u U *)
      match u32_from_str_radix 16 digits with
      | None => Panic
      | Some code =>
        match char_from_u32 code with
        | Some c => Ret (c, None)
        | None => Ret (replacement_character, Some TokenInvalidEscape)
        end
      end
    else if (c =? 110)%N then Ret (10%N, None)
    else if (c =? 116)%N then Ret (9%N, None)
    else Ret (c, None)
  | _ => Panic
  end.

(** text.rs:62-71. The table of entities is that of an external crate (htmlentity): [decode] is a parameter. *)
Definition decode_entity (decode : str -> str) (s : str) : char * option syntax_error :=
  match decode s with
  | [c] => (c, None)
  | _ => (replacement_character, Some TokenInvalidEntity)
  end.

(** [str::parse::<i64>] (Rust std): optional sign, at least one digit, the value in range. Used in base.rs:220-224. *)
Definition i64_min : Z := (-9223372036854775808)%Z.
(** [i64::MAX] (std), for base.rs:220-224 *)
Definition i64_max : Z := 9223372036854775807%Z.
(** the range of [i64] (std), for base.rs:220-224 *)
Definition in_i64 (z : Z) : bool := ((i64_min <=? z) && (z <=? i64_max))%Z.
(** [str::parse::<i64>] (std), used in base.rs:220-224 *)
Definition parse_i64 (s : str) : option Z :=
  let '(neg, digits) :=
    match s with
    | c :: t => if (c =? 45)%N then (true, t) else if (c =? 43)%N then (false, t) else (false, s)
    | [] => (false, s)
    end in
  match digits with
  | [] => None
  | _ =>
    match radix_loop 10 digits 0%N with
    | Some n => let z := if neg then (- Z.of_N n)%Z else Z.of_N n in if in_i64 z then Some z else None
    | None => None
    end
  end.
(** base.rs:220-224 *)
Definition parse_number (s : str) : Z + syntax_error :=
  match parse_i64 s with Some z => inl z | None => inr TokenInvalidNumber end.

(** text.rs:119-159 *)
Definition token_text (tok : token) : option str :=
  match tk_kind tok with
  | Name | Number | Boolean _ | LPar | RPar | LAngle | RAngle | Ampersand | Arrow | Asterisk | Colon | Comma | Dot
  | DoubleAsterisk | DoubleColon | Equals | ExclamationMark | QuestionMark | QuestionMarkDoubleColon | Underscore
  | RawText => Some (tk_text tok)
  | Ellipsis => Some [8230%N]
  | Quote QSingle QLeft => Some [8216%N]
  | Quote QSingle QRight => Some [8217%N]
  | Quote QDouble QLeft => Some [8220%N]
  | Quote QDouble QRight => Some [8221%N]
  | Bar => Some [8288%N]
  | _ => None
  end.
