(** Property theorems C05, C06, C10, C11. *)
From Verif Require Import Base M_StringPool M_SliceRef M_SourceFile M_Path S_Util P_Util P_Path.

(** C05. In any history of insertions into a fresh pool (with any lower-casing function), every id handed out still
    denotes the string it was handed out for at the end; two ids are equal exactly when their strings are; and each
    built-in name has its compile-time id. *)
Theorem C05_interning :
  forall (to_lowercase : str -> str) ops ids p,
    pool_run to_lowercase ops pool_new = (ids, p) ->
    length ids = length ops /\
    (forall i id o, nth_error ids i = Some id -> nth_error ops i = Some o ->
       pool_get id p = Some (op_string to_lowercase o)) /\
    (forall i j id1 id2 o1 o2,
       nth_error ids i = Some id1 -> nth_error ids j = Some id2 ->
       nth_error ops i = Some o1 -> nth_error ops j = Some o2 ->
       (id1 = id2 <-> op_string to_lowercase o1 = op_string to_lowercase o2)) /\
    (forall id s, nth_error const_strs id = Some s -> pool_get id p = Some s /\ get_id_if_present s p = Some id).
Proof. exact pool_interning. Qed.
Print Assumptions C05_interning.

(** The ids the compiler uses by name are those of the names they are called after. *)
Theorem C05_constants :
  forall (to_lowercase : str -> str) ops ids p id s,
    pool_run to_lowercase ops pool_new = (ids, p) ->
    In (id, s) [(ID_ANONYMOUS, "<anonymous>"); (ID_DOCTYPE, "!DOCTYPE"); (ID_A, "a"); (ID_HTML, "html"); (ID_LI, "li"); (ID_P, "p");
                (ID_WRITE, "write")]%string ->
    pool_get id p = Some (lit s) /\ get_id_if_present (lit s) p = Some id.
Proof.
  intros low ops ids p id s H I. apply (proj2 (proj2 (proj2 (C05_interning _ _ _ _ H)))).
  cbn [In] in I. repeat (destruct I as [[= <- <-]|I]; [reflexivity|]). destruct I.
Qed.
Print Assumptions C05_constants.

Example C05_nonvacuous :
  exists p, pool_run (map to_ascii_lower) [PInsert (lit "zz"); PInsertLower (lit "ZZ"); PInsert (lit "ZZ"); PInsertLower (lit "P")] pool_new
            = ([144; 144; 145; ID_P], p).
Proof. eexists. vm_compute. reflexivity. Qed.

(** C06. For ASCII source text, the reported position is that of the byte offset. *)
Theorem C06_line_col_partial :
  forall pre post, Forall (fun c => (c < 128)%N) (pre ++ post) ->
    exists line col, index_to_line_col (pre ++ post) (blen pre) = Ret (line, col) /\ LineCol pre line col.
Proof. exact line_col_ascii. Qed.
Print Assumptions C06_line_col_partial.

(** For any text, the table is right when looked up by the number of characters, instead of bytes, before the position. *)
Theorem C06_line_col_chars :
  forall pre post, exists line col, index_to_line_col (pre ++ post) (length pre) = Ret (line, col) /\ LineCol pre line col.
Proof. exact line_col_chars. Qed.
Print Assumptions C06_line_col_chars.

(** With other characters in the text, a byte offset gets a wrong position, or a crash at the end of the file. *)
Theorem C06_line_col_refuted : exists pre post line col line' col',
  index_to_line_col (pre ++ post) (blen pre) = Ret (line', col') /\ LineCol pre line col /\ (line', col') <> (line, col).
Proof. exact line_col_wrong. Qed.
Print Assumptions C06_line_col_refuted.

Theorem C06_line_col_crash_refuted : exists s, index_to_line_col s (eof_index s) = Panic.
Proof. exact line_col_panic. Qed.
Print Assumptions C06_line_col_crash_refuted.

Theorem C06_span_text : forall a b c, get_span (a ++ b ++ c) (blen a) (blen a + blen b) = Ret b.
Proof. exact get_span_spec. Qed.
Print Assumptions C06_span_text.

Example C06_nonvacuous : index_to_line_col (lit "a" ++ [10%N] ++ lit "bc") 3 = Ret (2, 2) /\
  LineCol (lit "a" ++ [10%N] ++ lit "b") 2 2.
Proof.
  split; [reflexivity|]. apply (line_col_next _ (lit "a") (lit "b")); [reflexivity|]. cbn. intros [H|[]]. discriminate.
Qed.

(** C10. Whatever sequence of writes is requested, every file that is then written lies inside the output directory,
    seen from any working directory (file systems without symbolic links). The output directory is not the empty path. *)
Theorem C10_writes_contained :
  forall (T : Type) base (reqs : list (str * T)) oks o files o' cwd dir,
    base <> [] ->
    push_all (out_files_new base) reqs = (oks, o) -> take_iter o = (files, o') ->
    Denotes cwd base dir ->
    Forall (fun pt => exists names, Forall ValidName names /\ Denotes cwd (fst pt) (dir ++ names)) files /\
    out_is_empty o' = true.
Proof. exact @out_files_contained. Qed.
Print Assumptions C10_writes_contained.

(** For an absolute output directory without ".." parts: exactly the requests for a file inside it are accepted, and what is
    written is what was accepted, in the same order, with its content, at the place asked for. *)
Theorem C10_writes_exact :
  forall (T : Type) base (reqs : list (str * T)) oks o files o' cwd dir,
    Absolute base -> NoParent base ->
    push_all (out_files_new base) reqs = (oks, o) -> take_iter o = (files, o') ->
    Denotes cwd base dir ->
    Written cwd dir (join base) reqs oks files.
Proof. exact @out_files_exact. Qed.
Print Assumptions C10_writes_exact.

(** For an absolute output directory without ".." parts, the check is exact, and the file written is the one asked for. *)
Theorem C10_check_exact :
  forall base rel names cwd dir,
    Absolute base -> NoParent base -> Denotes cwd base dir ->
    (make_relative base rel = Some (map Norm names) <-> Denotes cwd (join base rel) (dir ++ names)).
Proof. exact make_relative_faithful. Qed.
Print Assumptions C10_check_exact.

(** [Denotes] is a total function of the path. *)
Theorem C10_denotes_function :
  forall cwd p, (exists f, Denotes cwd p f) /\ forall f f', Denotes cwd p f -> Denotes cwd p f' -> f = f'.
Proof. intros cwd p. split; [apply Denotes_total|apply Denotes_fun]. Qed.
Print Assumptions C10_denotes_function.

(** With an empty output path an absolute path is accepted; with "." every relative path is refused; and with a relative
    output directory a path that leaves it and comes back to a namesake is accepted, and written to another place than
    the one asked for (but inside the output directory). *)
Theorem C10_empty_base_refuted : exists p, make_relative [] (lit "/etc/x") = Some p /\
  forall cwd, Denotes cwd (join [] (join_names p)) [lit "etc"; lit "x"].
Proof. exact empty_base_escapes. Qed.
Print Assumptions C10_empty_base_refuted.

Theorem C10_dot_base_refuted : forall rel, is_absolute rel = false -> make_relative (lit ".") rel = None.
Proof. exact dot_base_rejects. Qed.
Print Assumptions C10_dot_base_refuted.

Theorem C10_relative_base_refuted : exists p,
  make_relative (lit "out") (lit "../../out/x") = Some p /\
  forall cwd w, Denotes (cwd ++ [w]) (join (lit "out") (lit "../../out/x")) (cwd ++ [lit "out"; lit "x"]) /\
                Denotes (cwd ++ [w]) (join (lit "out") (join_names p)) (cwd ++ [w; lit "out"; lit "x"]).
Proof. exact relative_base_unfaithful. Qed.
Print Assumptions C10_relative_base_refuted.

Example C10_nonvacuous :
  exists o, push_all (out_files_new (lit "out")) [(lit "a/../b/./c.html", 1); (lit "../x", 2); (lit "/out/y", 3)] = ([true; false; false], o) /\
  fst (take_iter o) = [(lit "out/b/c.html", 1)].
Proof. eexists. split; vm_compute; reflexivity. Qed.
Example C10_nonvacuous_exact :
  Absolute (lit "/out") /\ NoParent (lit "/out") /\ Denotes [] (lit "/out") [lit "out"] /\
  exists o, push_all (out_files_new (lit "/out")) [(lit "a/../b/./c.html", 1); (lit "../x", 2); (lit "/out/y", 3)] = ([true; false; true], o) /\
  fst (take_iter o) = [(lit "/out/b/c.html", 1); (lit "/out/y", 3)].
Proof.
  split; [now eexists|]. split.
  { intros a b E. exfalso. destruct a as [|? [|? [|? [|? [|? a]]]]]; vm_compute in E; try discriminate E. }
  split; [apply Denotes_walk; reflexivity|]. eexists. split; vm_compute; reflexivity.
Qed.

(** C11. *)
Theorem C11_list_slice :
  forall (A : Type) (s : slice_ref A) l i j, sr_as_ref s = Ret l ->
    exists s' out, native_slice s i j = Ret s' /\ sr_as_ref s' = Ret out /\
      Slice l i (match j with Some j => j | None => Z.of_nat (length l) end) out.
Proof. exact @native_slice_spec. Qed.
Print Assumptions C11_list_slice.

Theorem C11_slice_function : forall (A : Type) (l : list A) i j o o', Slice l i j o -> Slice l i j o' -> o = o'.
Proof. exact @Slice_fun. Qed.
Print Assumptions C11_slice_function.

Theorem C11_list_index :
  forall (A : Type) (s : slice_ref A) l i, sr_as_ref s = Ret l ->
    (forall x, list_get s i = Ret (Some x) <-> ElementAt l i x) /\
    (list_get s i = Ret None <-> (i < - Z.of_nat (length l) \/ Z.of_nat (length l) <= i)%Z) /\
    list_get s i <> Panic /\ list_get s i <> OutOfFuel.
Proof. exact @list_get_spec. Qed.
Print Assumptions C11_list_index.

(** Lists made from scratch, and in-range sub-slices (list patterns), represent what they should. *)
Theorem C11_from : forall (A : Type) (l : list A), sr_as_ref (sr_from l) = Ret l.
Proof. exact @sr_from_view. Qed.
Print Assumptions C11_from.

Theorem C11_sub_slice :
  forall (A : Type) (s : slice_ref A) l a b, sr_as_ref s = Ret l -> a <= b -> b <= length l ->
    exists s', sr_slice s a b = Ret s' /\ sr_as_ref s' = Ret (firstn (b - a) (skipn a l)).
Proof. exact @sr_slice_view. Qed.
Print Assumptions C11_sub_slice.

Example C11_nonvacuous :
  native_slice (sr_from [1; 2; 3; 4; 5]) (-3) (Some 4%Z) = Ret (SliceRef [1; 2; 3; 4; 5] 2 4) /\
  obind (native_slice (sr_from [1; 2; 3; 4; 5]) (-3) (Some 4%Z)) (fun s => list_get s (-1)) = Ret (Some 4).
Proof. split; reflexivity. Qed.
