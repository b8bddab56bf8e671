(** Common vocabulary of the model: characters, strings, byte slicing, outcomes. *)
From Coq Require Export Ascii String.
From Coq Require Export List Arith NArith ZArith Lia Bool.
From Coq Require Export ZifyBool ZifyNat ZifyN.
From Coq Require Decimal DecimalN.
Export ListNotations.
#[global] Open Scope list_scope.

(** A Rust [char] is modelled by its code point. (Simplification: surrogates are not excluded by the type.) *)
Notation char := N (only parsing).

(** A Rust [str]/[String]/[Rc<str>] is modelled by its sequence of chars ([s.chars()]). *)
Notation str := (list N) (only parsing).

(** ASCII literals, for readable constants. *)
Fixpoint lit (s : string) : str :=
  match s with
  | EmptyString => []
  | String a s' => N_of_ascii a :: lit s'
  end.

(** Outcome of Rust code that may panic ([errors::ice], slicing off a char boundary, unwrap of None, ...);
    [OutOfFuel] is an artefact of fuelled recursion and never a Rust behaviour. *)
Inductive outcome (A : Type) : Type :=
| Ret (a : A)
| Panic
| OutOfFuel.
Arguments Ret {A} a.
Arguments Panic {A}.
Arguments OutOfFuel {A}.

Definition obind {A B} (x : outcome A) (f : A -> outcome B) : outcome B :=
  match x with Ret a => f a | Panic => Panic | OutOfFuel => OutOfFuel end.

(** [char::len_utf8] (Rust std). *)
Definition utf8_len (c : char) : nat :=
  if (c <? 128)%N then 1 else if (c <? 2048)%N then 2 else if (c <? 65536)%N then 3 else 4.

(** [str::len]: length in bytes (Rust std). *)
Fixpoint blen (s : str) : nat :=
  match s with [] => 0 | c :: t => utf8_len c + blen t end.

(** Splitting at a byte offset, [s.split_at(n)]/[&s[..n]]/[&s[n..]] (Rust std): [None] is the panic for an
    offset that is out of range or not on a char boundary. *)
Fixpoint split_bytes (s : str) (n : nat) : option (str * str) :=
  match n with
  | O => Some ([], s)
  | S _ =>
    match s with
    | [] => None
    | c :: t =>
      if utf8_len c <=? n then
        match split_bytes t (n - utf8_len c) with
        | Some (a, b) => Some (c :: a, b)
        | None => None
        end
      else None
    end
  end.

Fixpoint str_eqb (a b : str) : bool :=
  match a, b with
  | [], [] => true
  | x :: a', y :: b' => N.eqb x y && str_eqb a' b'
  | _, _ => false
  end.

(** Membership in a set of strings ([IndexSet::contains]). *)
Definition mem (s : str) (l : list str) : bool := existsb (str_eqb s) l.

(** ASCII classes (Rust std [char::is_ascii_*]). *)
Definition in_range (lo hi c : char) : bool := ((lo <=? c) && (c <=? hi))%N.
Arguments in_range (lo hi c)%N_scope.
Definition is_ascii (c : char) : bool := (c <? 128)%N.
Definition is_ascii_lower (c : char) : bool := in_range 97 122 c.
Definition is_ascii_upper (c : char) : bool := in_range 65 90 c.
Definition is_ascii_alphabetic (c : char) : bool := is_ascii_lower c || is_ascii_upper c.
Definition is_ascii_digit (c : char) : bool := in_range 48 57 c.
Definition is_ascii_alphanumeric (c : char) : bool := is_ascii_alphabetic c || is_ascii_digit c.
Definition is_ascii_hexdigit (c : char) : bool := is_ascii_digit c || in_range 97 102 c || in_range 65 70 c.
(** [char::is_ascii_whitespace]: space, tab, LF, FF, CR (not VT). *)
Definition is_ascii_whitespace (c : char) : bool :=
  ((c =? 32) || (c =? 9) || (c =? 10) || (c =? 12) || (c =? 13))%N.
(** [char::is_whitespace]: the Unicode White_Space property. *)
Definition is_unicode_whitespace (c : char) : bool :=
  (in_range 9 13 c || (c =? 32) || (c =? 133) || (c =? 160) || (c =? 5760) || in_range 8192 8202 c
   || (c =? 8232) || (c =? 8233) || (c =? 8239) || (c =? 8287) || (c =? 12288))%N.
Definition to_ascii_lower (c : char) : char := if is_ascii_upper c then (c + 32)%N else c.

(** Decimal spelling of an unsigned number ([to_string], [format!("{n}")]). *)
Fixpoint uint_str (d : Decimal.uint) : str :=
  match d with
  | Decimal.Nil => []
  | Decimal.D0 d => 48%N :: uint_str d
  | Decimal.D1 d => 49%N :: uint_str d
  | Decimal.D2 d => 50%N :: uint_str d
  | Decimal.D3 d => 51%N :: uint_str d
  | Decimal.D4 d => 52%N :: uint_str d
  | Decimal.D5 d => 53%N :: uint_str d
  | Decimal.D6 d => 54%N :: uint_str d
  | Decimal.D7 d => 55%N :: uint_str d
  | Decimal.D8 d => 56%N :: uint_str d
  | Decimal.D9 d => 57%N :: uint_str d
  end.
Definition dec (n : N) : str := uint_str (N.to_uint n).

(** Decimal spelling of a signed integer ([i64::to_string]). *)
Definition zdec (z : Z) : str :=
  match z with
  | Z0 => dec 0
  | Zpos p => dec (Npos p)
  | Zneg p => 45%N :: dec (Npos p)
  end.

(** [s.trim_matches]-style helpers. *)
Fixpoint drop_while (f : char -> bool) (s : str) : str :=
  match s with [] => [] | c :: t => if f c then drop_while f t else s end.
Fixpoint take_while (f : char -> bool) (s : str) : str :=
  match s with [] => [] | c :: t => if f c then c :: take_while f t else [] end.
Definition trim_end_by (f : char -> bool) (s : str) : str := rev (drop_while f (rev s)).
Definition trim_by (f : char -> bool) (s : str) : str := trim_end_by f (drop_while f s).
(** [str::trim], [trim_start], [trim_end] use the Unicode whitespace class. *)
Definition trim (s : str) : str := trim_by is_unicode_whitespace s.
Definition trim_start (s : str) : str := drop_while is_unicode_whitespace s.
Definition trim_end (s : str) : str := trim_end_by is_unicode_whitespace s.

(** [str::strip_prefix]. *)
Fixpoint strip_prefix (p s : str) : option str :=
  match p, s with
  | [], _ => Some s
  | x :: p', y :: s' => if N.eqb x y then strip_prefix p' s' else None
  | _ :: _, [] => None
  end.
