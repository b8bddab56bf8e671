(** Names and name-keyed maps. An interned name ([NameID], string_pool.rs:9-27) is modelled from here on by the string
    it denotes: C05 proves that, in one pool, ids and strings determine each other. *)
From Verif Require Import Base.

(** The predefined names [str_ids::X] used by the compiler, const_strs.rs:26-173. *)
Definition n_anonymous : str := lit "<anonymous>".
(** const_strs.rs:28 *)
Definition n_doctype : str := lit "!DOCTYPE".
(** const_strs.rs:29 *)
Definition n_a : str := lit "a".
(** const_strs.rs:45 *)
Definition n_br : str := lit "br".
(** const_strs.rs:48 *)
Definition n_class : str := lit "class".
(** const_strs.rs:49 *)
Definition n_code : str := lit "code".
(** const_strs.rs:50 *)
Definition n_code_block : str := lit "code_block".
(** const_strs.rs:57 *)
Definition n_data_line_no : str := lit "data_line_no".
(** const_strs.rs:58 *)
Definition n_data_paren_no : str := lit "data_paren_no".
(** const_strs.rs:94 *)
Definition n_hr : str := lit "hr".
(** const_strs.rs:95 *)
Definition n_href : str := lit "href".
(** const_strs.rs:115 *)
Definition n_li : str := lit "li".
(** const_strs.rs:133 *)
Definition n_p : str := lit "p".
(** const_strs.rs:148 *)
Definition n_span : str := lit "span".
(** const_strs.rs:153 *)
Definition n_table : str := lit "table".
(** const_strs.rs:154 *)
Definition n_tag_name : str := lit "tag_name".
(** const_strs.rs:156 *)
Definition n_td : str := lit "td".
(** const_strs.rs:160 *)
Definition n_th : str := lit "th".
(** const_strs.rs:163 *)
Definition n_tr : str := lit "tr".
(** const_strs.rs:166 *)
Definition n_ul : str := lit "ul".

(** string_pool.rs:21-23 *)
Definition is_anonymous (n : str) : bool := str_eqb n n_anonymous.

(** [NameIDMap<T>] and [AttrMap] (string_pool.rs:30, tag.rs:13): an [IndexMap], modelled as the list of its entries in
    insertion order. *)
Definition nmap (T : Type) := list (str * T).

(** [IndexMap::get]. string_pool.rs:27-30 ([NameIDMap] is an [IndexMap]). *)
Fixpoint ngetm {T} (m : nmap T) (k : str) : option T :=
  match m with
  | [] => None
  | (k', v) :: m => if str_eqb k k' then Some v else ngetm m k
  end.
(** [IndexMap::contains_key]. string_pool.rs:27-30 ([NameIDMap] is an [IndexMap]). *)
Definition nhas {T} (m : nmap T) (k : str) : bool :=
  match ngetm m k with Some _ => true | None => false end.
(** [IndexMap::insert]: an existing key keeps its position and gets the new value. string_pool.rs:27-30 ([NameIDMap] is an [IndexMap]). *)
Fixpoint ninsert {T} (m : nmap T) (k : str) (v : T) : nmap T :=
  match m with
  | [] => [(k, v)]
  | (k', v') :: m => if str_eqb k k' then (k', v) :: m else (k', v') :: ninsert m k v
  end.
(** [IndexMap::swap_remove] (what [remove] means in indexmap 1.x): the last entry takes the place of the removed one. Used in frame.rs:121-124, signature.rs:302-342. *)
Fixpoint nremove_at {T} (m : nmap T) (k : str) (last : str * T) : nmap T :=
  match m with
  | [] => []
  | e :: m =>
    if str_eqb k (fst e) then match m with [] => [] | _ => last :: removelast m end
    else e :: nremove_at m k last
  end.
(** [IndexMap::remove], used in frame.rs:121-124 and signature.rs:302-342 *)
Definition nremove {T} (m : nmap T) (k : str) : nmap T :=
  match m with [] => [] | e :: _ => nremove_at m k (List.last m e) end.
(** [FromIterator]/[extend]: insert one after the other. string_pool.rs:27-30 ([NameIDMap] is an [IndexMap]). *)
Definition nfrom {T} (l : list (str * T)) : nmap T := fold_left (fun m kv => ninsert m (fst kv) (snd kv)) l [].
(** [IndexMap::keys], [values]. string_pool.rs:27-30 ([NameIDMap] is an [IndexMap]). *)
Definition nkeys {T} (m : nmap T) : list str := List.map fst m.
(** string_pool.rs:27-30 ([NameIDMap] is an [IndexMap]): [IndexMap::values] *)
Definition nvalues {T} (m : nmap T) : list T := List.map snd m.
(** [IndexMap == IndexMap]: same length and every entry of the first is in the second, whatever the order. string_pool.rs:27-30 ([NameIDMap] is an [IndexMap]). *)
Definition neqb {T} (eqb : T -> T -> bool) (m1 m2 : nmap T) : bool :=
  (List.length m1 =? List.length m2)
  && forallb (fun kv => match ngetm m2 (fst kv) with Some v => eqb (snd kv) v | None => false end) m1.
