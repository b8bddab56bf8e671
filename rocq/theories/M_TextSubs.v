(** Model of the typographic substitutions of /repo/src/parser/text.rs. *)
From Verif Require Import Base.

(** text.rs:13-33 and 38-56: the searched sequences, each with its replacement (the two arrays are parallel). *)
Definition minus : char := 8722%N.
(** parser/text.rs:13-56 *)
Definition text_subs : list (str * str) :=
  [(lit "-0", minus :: lit "0"); (lit "-1", minus :: lit "1"); (lit "-2", minus :: lit "2");
   (lit "-3", minus :: lit "3"); (lit "-4", minus :: lit "4"); (lit "-5", minus :: lit "5");
   (lit "-6", minus :: lit "6"); (lit "-7", minus :: lit "7"); (lit "-8", minus :: lit "8");
   (lit "-9", minus :: lit "9");
   (lit "---", [8212%N]); (lit "--", [8211%N]); (lit "<->", [8596%N]); (lit "<-", [8592%N]); (lit "->", [8594%N]);
   (lit "!=", [8800%N]); (lit "<=", [8804%N]); (lit ">=", [8805%N]); (lit "+/-", [177%N]); (lit "(c)", [169%N]);
   (lit "~", [160%N])].

(** [MatchKind::LeftmostLongest] (aho_corasick): among the sequences found here, the longest. parser/text.rs:15. *)
Fixpoint longest_sub (table : list (str * str)) (s : str) : option (str * str) :=
  match table with
  | [] => None
  | (p, r) :: table =>
    match strip_prefix p s, longest_sub table s with
    | Some _, Some (p', r') => if length p <? length p' then Some (p', r') else Some (p, r)
    | Some _, None => Some (p, r)
    | None, other => other
    end
  end.

(** [AhoCorasick::replace_all] (aho_corasick): matches are found from left to right without overlap; [skip] counts the
    characters of the last match still to be passed over. parser/text.rs:38-56. *)
Fixpoint replace_all (table : list (str * str)) (skip : nat) (s : str) : str :=
  match s with
  | [] => []
  | c :: t =>
    match skip with
    | S k => replace_all table k t
    | O =>
      match longest_sub table s with
      | Some (p, r) => r ++ replace_all table (length p - 1) t
      | None => c :: replace_all table 0 t
      end
    end
  end.

(** text.rs:38-56 *)
Definition substitutions (s : str) : str := replace_all text_subs 0 s.
