(** Model of /repo/src/utils/text.rs. *)
From Verif Require Import Base.

(** text.rs:17-19 *)
Definition is_ident_start (c : char) : bool := is_ascii_alphabetic c || (c =? 95)%N.
(** text.rs:23-25 *)
Definition is_ident_cont (c : char) : bool := is_ascii_alphanumeric c || (c =? 95)%N.
(** text.rs:9-13 *)
Definition is_identifier (s : str) : bool :=
  match s with
  | [] => false
  | c :: t => is_ident_start c && forallb is_ident_cont t
  end.

(** text.rs:52-54 *)
Definition looks_like_glob (s : str) : bool :=
  existsb (fun c => (c =? 42) || (c =? 63) || (c =? 91) || (c =? 93))%N s.

(** text.rs:58-58 *)
Definition is_whitespace (s : str) : bool := forallb is_ascii_whitespace s.

(** text.rs:64-66 *)
Definition pluralise (q : N) : str := if (q =? 1)%N then [] else lit "s".

(** text.rs:43 [id.ends_with('_')] *)
Definition ends_with_char (x : char) (s : str) : bool :=
  match rev s with c :: _ => (c =? x)%N | [] => false end.

(** text.rs:38-46, the loop of make_identifier; [id] is the buffer built so far. Only ASCII characters are ever
    pushed, so [id.len()] is the number of characters. *)
Fixpoint make_identifier_loop (s : str) (max_len : nat) (id : str) : str :=
  match s with
  | [] => id
  | c :: t =>
    if max_len <=? List.length id then id
    else if is_ascii_alphanumeric c then make_identifier_loop t max_len (id ++ [c])
    else if negb (ends_with_char 95 id) then make_identifier_loop t max_len (id ++ lit "_")
    else make_identifier_loop t max_len id
  end.

Section Deunicode.
  (** The external transliteration table [deunicode::deunicode] (text.rs:31). *)
  Variable deunicode : str -> str.

  (** text.rs:30-48 *)
  Definition make_identifier (s : str) (max_len : nat) : str :=
    match deunicode s with
    | c :: t => make_identifier_loop t max_len (if is_ascii_alphabetic c then [c] else lit "_")
    | [] => lit "_"
    end.

  (** text.rs:178-189, the search for an unused suffixed id. [used] is [self.ids_used]; the counter is an
      unbounded number here (an i32 in the code: the model does not exhibit overflow after 2^31 collisions). *)
  Fixpoint unique_id_loop (fuel : nat) (used : list str) (id_base : str) (max_len : nat) (counter : N) : outcome str :=
    match fuel with
    | O => OutOfFuel
    | S fuel =>
      let id := id_base ++ lit "_" ++ dec counter in
      if negb (mem id used) then Ret id
      else if (max_len <=? blen id) && (1 <? blen id_base)
              && ends_with_char 95 (trim_end_by (fun c => (c =? 57)%N) id)
      then match split_bytes id_base (blen id_base - 1) with
           | Some (id_base', _) => unique_id_loop fuel used id_base' max_len (counter + 1)
           | None => Panic
           end
      else unique_id_loop fuel used id_base max_len (counter + 1)
    end.

  (** text.rs:160-167, the first candidate. The slice on line 163 is of an ASCII identifier, so it is [firstn]. *)
  Definition first_candidate (id_base : str) (max_len : nat) : str :=
    List.map to_ascii_lower
      (if negb (is_identifier id_base) then make_identifier id_base max_len
       else if max_len <? blen id_base then firstn max_len id_base
       else id_base).

  (** text.rs:159-193. Returns the id and the new set of used ids ([IndexSet], newest last). *)
  Definition get_unique_id (used : list str) (id_base : str) (max_len : nat) : outcome (str * list str) :=
    let id := first_candidate id_base max_len in
    if negb (mem id used) then Ret (id, used ++ [id])
    else
      let base' :=
        if (max_len <? blen id_base + 2) && (3 <=? max_len)
        then match split_bytes id_base (max_len - 2) with Some (a, _) => Some a | None => None end
        else Some id_base in
      match base' with
      | None => Panic
      | Some b =>
        obind (unique_id_loop (S (List.length used)) used b max_len 2)
              (fun id => Ret (id, used ++ [id]))
      end.

  (** A request to the generator, or [clear()] (text.rs:149-151). *)
  Inductive uid_op := UidReq (id_base : str) (max_len : nat) | UidClear.

  (** Run a history; the outputs of the requests in order, and the final state. text.rs:149-193 *)
  Fixpoint uid_run (used : list str) (ops : list uid_op) : outcome (list str * list str) :=
    match ops with
    | [] => Ret ([], used)
    | UidClear :: ops => uid_run [] ops
    | UidReq b m :: ops =>
      obind (get_unique_id used b m) (fun '(id, used') =>
      obind (uid_run used' ops) (fun '(ids, used'') => Ret (id :: ids, used'')))
    end.
End Deunicode.

(** text.rs:73-73. [htmlentity::entity::encode] with [EntitySet::Html] or [SpecialChars] and named encoding:
    external code, modelled as documented on lines 68-69. *)
Definition encode_char (escape_quotes : bool) (c : char) : str :=
  if (c =? 60)%N then lit "&lt;"
  else if (c =? 62)%N then lit "&gt;"
  else if (c =? 38)%N then lit "&amp;"
  else if escape_quotes && (c =? 34)%N then lit "&quot;"
  else if escape_quotes && (c =? 39)%N then lit "&apos;"
  else [c].
(** text.rs:73-73 *)
Definition encode_entities (s : str) (escape_quotes : bool) : str :=
  flat_map (encode_char escape_quotes) s.

(** [str::lines] (Rust std): split on LF, a CR directly before the LF is dropped, no final empty line. Used in text.rs:82-108. *)
Fixpoint lines (s : str) : list str :=
  match s with
  | [] => []
  | c :: t =>
    if (c =? 10)%N then [] :: lines t
    else if (c =? 13)%N && match t with d :: _ => (d =? 10)%N | [] => false end then lines t
    else match lines t with [] => [[c]] | l :: ls => (c :: l) :: ls end
  end.

(** text.rs:85-106, the loop of fix_indentation. [ind] is [indentation_to_remove]; [whole] is the argument [s].
    The index found on line 96 counts chars but is used on lines 100-101 as a byte offset. *)
Fixpoint fix_indentation_loop (whole : str) (ls : list str) (ind : option str) (out : str) : outcome str :=
  match ls with
  | [] => Ret out
  | line :: ls =>
    match ind with
    | Some i =>
      let out := out ++ match strip_prefix i line with Some stripped => stripped | None => trim_start line end in
      fix_indentation_loop whole ls ind (out ++ [10%N])
    | None =>
      if forallb is_unicode_whitespace line then fix_indentation_loop whole ls None out
      else
        let index := List.length (take_while is_unicode_whitespace line) in
        if index =? 0 then Ret (trim whole)
        else match split_bytes line index with
             | None => Panic
             | Some (a, b) => fix_indentation_loop whole ls (Some a) ((out ++ b) ++ [10%N])
             end
    end
  end.
(** text.rs:82-108 *)
Definition fix_indentation (s : str) : outcome str := fix_indentation_loop s (lines (trim_end s)) None [].

(** [src.find('\n')] and the split around it. text.rs:114-125. *)
Fixpoint split_newline (s : str) : option (str * str) :=
  match s with
  | [] => None
  | c :: t =>
    if (c =? 10)%N then Some ([], t)
    else match split_newline t with Some (a, b) => Some (c :: a, b) | None => None end
  end.
(** text.rs:114-125 *)
Definition get_source_language_hint (src default : str) : str * str :=
  match split_newline src with
  | None => (default, src)
  | Some (l, rest) =>
    let first_line := trim_end l in
    if is_identifier first_line then (first_line, rest) else (default, src)
  end.
