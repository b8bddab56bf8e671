(** Property theorems C01-C04, C07-C09, C73 (text utilities). Nothing but statements, each closed by a lemma. *)
From Verif Require Import Base M_Text S_Text P_Text P_TextMore.

(** C01. In any history, the ids handed out after a [clear()] are pairwise distinct; a history of n requests that does
    not panic yields n ids; the generator always terminates. *)
Theorem C01_unique_ids_distinct :
  forall (deunicode : str -> str) (before reqs : list uid_op) ids used,
    Forall (fun o => exists b m, o = UidReq b m) reqs ->
    uid_run deunicode [] (before ++ UidClear :: reqs) = Ret (ids, used) ->
    exists earlier mine, ids = earlier ++ mine /\ length mine = length reqs /\ NoDup mine.
Proof.
  intros deu before reqs ids used H. apply uid_distinct_lemma.
  apply forallb_forall. rewrite Forall_forall in H. intros o Ho. destruct (H o Ho) as (b & m & ->). reflexivity.
Qed.
Print Assumptions C01_unique_ids_distinct.

Theorem C01_unique_ids_terminate :
  forall (deunicode : str -> str) used ops, uid_run deunicode used ops <> OutOfFuel.
Proof. exact uid_run_total. Qed.
Print Assumptions C01_unique_ids_terminate.

Example C01_nonvacuous :
  uid_run (fun s => s) []
    [UidReq (lit "x") 9; UidClear; UidReq (lit "a b") 9; UidReq (lit "a b") 9; UidReq (lit "x") 9; UidReq (lit "x") 9]
  = Ret ([lit "x"; lit "a_b"; lit "a b_2"; lit "x"; lit "x_2"], [lit "a_b"; lit "a b_2"; lit "x"; lit "x_2"]).
Proof. vm_compute. reflexivity. Qed.

(** C02. The documented claim (lower case identifier, no crash) is false of the code: repeated requests whose base is
    not already a lower case identifier yield ids that are not lower case, not identifiers, or crash. *)
Theorem C02_unique_ids_lowercase_refuted :
  forall deunicode, exists ops ids used id, uid_run deunicode [] ops = Ret (ids, used) /\ In id ids /\ ~ Lowercase id.
Proof. exact get_unique_id_not_lower. Qed.
Print Assumptions C02_unique_ids_lowercase_refuted.

Theorem C02_unique_ids_identifier_refuted :
  forall deunicode, exists ops ids used id, uid_run deunicode [] ops = Ret (ids, used) /\ In id ids /\ ~ Identifier id.
Proof. exact get_unique_id_not_ident. Qed.
Print Assumptions C02_unique_ids_identifier_refuted.

Theorem C02_unique_ids_no_crash_refuted : forall deunicode, exists ops, uid_run deunicode [] ops = Panic.
Proof. exact get_unique_id_panics. Qed.
Print Assumptions C02_unique_ids_no_crash_refuted.

(** The part that holds: bases that are lower case identifiers, in any state of the generator. *)
Theorem C02_unique_ids_partial :
  forall deunicode used base max_len,
    1 <= max_len -> Identifier base /\ Lowercase base ->
    exists id used', get_unique_id deunicode used base max_len = Ret (id, used') /\ Identifier id /\ Lowercase id.
Proof. exact get_unique_id_lower. Qed.
Print Assumptions C02_unique_ids_partial.

Example C02_nonvacuous : Identifier (lit "foo_1") /\ Lowercase (lit "foo_1") /\
  get_unique_id (fun s => s) [lit "foo_1"; lit "foo_2"] (lit "foo_1") 5 = Ret (lit "foo_3", [lit "foo_1"; lit "foo_2"; lit "foo_3"]).
Proof.
  split; [apply is_identifier_spec; reflexivity|]. split; [|vm_compute; reflexivity].
  repeat constructor; intros [H1 H2]; vm_compute in H1, H2; try (now apply H1); now apply H2.
Qed.

(** C03. Lengths are in bytes, as for [max_len] in the code. *)
Theorem C03_unique_id_length :
  forall deunicode used base max_len id used',
    3 <= max_len -> get_unique_id deunicode used base max_len = Ret (id, used') ->
    blen id <= max_len \/ exists stem n, id = stem ++ lit "_" ++ dec n /\ blen stem <= 1.
Proof. exact get_unique_id_length. Qed.
Print Assumptions C03_unique_id_length.

Example C03_nonvacuous :
  get_unique_id (fun s => s)
    (map lit ["abc"; "ab_2"; "ab_3"; "ab_4"; "ab_5"; "ab_6"; "ab_7"; "ab_8"; "ab_9"]%string) (lit "abc") 4
  = Ret (lit "a_10", map lit ["abc"; "ab_2"; "ab_3"; "ab_4"; "ab_5"; "ab_6"; "ab_7"; "ab_8"; "ab_9"; "a_10"]%string).
Proof. vm_compute. reflexivity. Qed.

(** C04. *)
Theorem C04_make_identifier :
  forall deunicode s max_len, 1 <= max_len ->
    let id := make_identifier deunicode s max_len in
    Identifier id /\ length id <= max_len /\ (forall a b, id <> a ++ [95; 95]%N ++ b).
Proof. exact make_identifier_spec. Qed.
Print Assumptions C04_make_identifier.

(** The identifier spells the text, transliterated, up to the given length: letters and digits are kept, the rest becomes single
    underscores; a first character that is not a letter counts as an underscore. *)
Theorem C04_spelling :
  forall deunicode s max_len, 1 <= max_len ->
    let id := make_identifier deunicode s max_len in
    (deunicode s = [] -> id = [95%N]) /\
    (forall c t, deunicode s = c :: t -> AsciiLetter c -> exists full, Squeezed (c :: t) full /\ id = firstn max_len full) /\
    (forall c t, deunicode s = c :: t -> ~ AsciiLetter c -> exists full, Squeezed (95%N :: t) full /\ id = firstn max_len full).
Proof. exact make_identifier_spelling. Qed.
Print Assumptions C04_spelling.

Theorem C04_is_identifier : forall s, is_identifier s = true <-> Identifier s.
Proof. exact is_identifier_spec. Qed.
Print Assumptions C04_is_identifier.

Example C04_nonvacuous : make_identifier (fun s => s) (lit "9 to - 5!") 6 = lit "_to_5_".
Proof. vm_compute. reflexivity. Qed.

(** C73. Which id a request gets. The first id for a name that is an identifier is that name, in lower case and cut to the maximal
    length; for another name it is the identifier that spells it (C04). *)
Theorem C73_first : forall deunicode used name max_len first, ~ In first used ->
  Identifier name /\ LowerOf (firstn max_len name) first \/
  ~ Identifier name /\ LowerOf (make_identifier deunicode name max_len) first ->
  get_unique_id deunicode used name max_len = Ret (first, used ++ [first]).
Proof. exact unique_first. Qed.
Print Assumptions C73_first.
(** If that is taken, the name is given the least number from 2 with which it is not taken, if there is room for it. *)
Theorem C73_numbered : forall deunicode used name max_len first n, In first used ->
  Identifier name /\ LowerOf (firstn max_len name) first \/
  ~ Identifier name /\ LowerOf (make_identifier deunicode name max_len) first ->
  let numbered k := name ++ lit "_" ++ dec k in
  (2 <= n)%N -> blen (numbered n) <= max_len -> ~ In (numbered n) used -> (forall k, (2 <= k < n)%N -> In (numbered k) used) ->
  get_unique_id deunicode used name max_len = Ret (numbered n, used ++ [numbered n]).
Proof. exact unique_numbered. Qed.
Print Assumptions C73_numbered.
(** If there is no room, the beginning of the name is numbered. *)
Theorem C73_shape : forall deunicode used name max_len first id used', In first used ->
  Identifier name /\ LowerOf (firstn max_len name) first \/
  ~ Identifier name /\ LowerOf (make_identifier deunicode name max_len) first ->
  get_unique_id deunicode used name max_len = Ret (id, used') ->
  used' = used ++ [id] /\ exists stem rest n, name = stem ++ rest /\ (2 <= n)%N /\ id = stem ++ lit "_" ++ dec n.
Proof. exact unique_shape. Qed.
Print Assumptions C73_shape.
Example C73_nonvacuous :
  get_unique_id (fun s => s) [lit "ab"; lit "aB_2"; lit "aB_3"] (lit "aB") 9 = Ret (lit "aB_4", [lit "ab"; lit "aB_2"; lit "aB_3"; lit "aB_4"]) /\
  LowerOf (firstn 9 (lit "aB")) (lit "ab") /\
  get_unique_id (fun s => s) [lit "abc"; lit "ab_2"] (lit "abc") 4 = Ret (lit "ab_3", [lit "abc"; lit "ab_2"; lit "ab_3"]).
Proof. split; [vm_compute; reflexivity|]. split; [|vm_compute; reflexivity]. apply lower_of. Qed.

(** C07. Escaped text decodes to exactly the original text (and to nothing else), has no raw angle brackets, no raw
    quotes when asked, and each ampersand in it begins one of the five predefined entities. *)
Theorem C07_escape_decodes : forall s quotes t, Decodes (encode_entities s quotes) t <-> t = s.
Proof.
  intros s q t. split; [|intros ->; apply encode_decodes].
  intros H. symmetry. eapply Decodes_fun; [apply encode_decodes | exact H].
Qed.
Print Assumptions C07_escape_decodes.

Theorem C07_escape_safe : forall s quotes c, In c (encode_entities s quotes) ->
  c <> 60%N /\ c <> 62%N /\ (quotes = true -> c <> 34%N /\ c <> 39%N).
Proof. exact encode_entities_safe. Qed.
Print Assumptions C07_escape_safe.

Theorem C07_escape_ampersands : forall s quotes a b, encode_entities s quotes = a ++ 38%N :: b ->
  exists name t, In name (map lit ["lt;"; "gt;"; "amp;"; "quot;"; "apos;"]%string) /\ b = name ++ t.
Proof. exact encode_entities_ampersands. Qed.
Print Assumptions C07_escape_ampersands.

Example C07_nonvacuous : encode_entities (lit "<a b='c&d'>") true = lit "&lt;a b=&apos;c&amp;d&apos;&gt;".
Proof. vm_compute. reflexivity. Qed.

(** C08. Every code fence body has a specified result, and the code computes it, provided the indentation of the first
    non-blank line is ASCII. *)
Theorem C08_fence_indentation_partial :
  (forall s, exists ind out, FenceBody ind s out) /\
  (forall ind s out, FenceBody ind s out -> Forall (fun c => (c < 128)%N) ind -> fix_indentation s = Ret out).
Proof. exact (conj FenceBody_total fix_indentation_spec). Qed.
Print Assumptions C08_fence_indentation_partial.

(** Without the proviso it crashes, or strips the wrong indentation. *)
Theorem C08_fence_indentation_crash_refuted : exists s, fix_indentation s = Panic.
Proof. exact fix_indentation_panics. Qed.
Print Assumptions C08_fence_indentation_crash_refuted.
Theorem C08_fence_indentation_refuted :
  exists ind s out, FenceBody ind s out /\ exists r, fix_indentation s = Ret r /\ r <> out.
Proof. exact fix_indentation_wrong. Qed.
Print Assumptions C08_fence_indentation_refuted.

Definition nl : str := [10%N].
Example C08_nonvacuous :
  fix_indentation (nl ++ lit "  if x:" ++ nl ++ lit "    y" ++ nl ++ lit " z  " ++ nl)
  = Ret (lit "if x:" ++ nl ++ lit "  y" ++ nl ++ lit "z" ++ nl).
Proof. vm_compute. reflexivity. Qed.

(** C09. *)
Theorem C09_language_hint :
  forall src default,
  (exists l rest, src = l ++ 10%N :: rest /\ ~ In 10%N l /\ Identifier (trim_end l) /\
     get_source_language_hint src default = (trim_end l, rest))
  \/ ((~ exists l rest, src = l ++ 10%N :: rest /\ ~ In 10%N l /\ Identifier (trim_end l))
      /\ get_source_language_hint src default = (default, src)).
Proof. exact language_hint_spec. Qed.
Print Assumptions C09_language_hint.

Theorem C09_trim_end : forall s, TrimmedEnd s (trim_end s).
Proof. exact trim_end_spec. Qed.
Print Assumptions C09_trim_end.

Example C09_nonvacuous :
  get_source_language_hint (lit "python " ++ nl ++ lit "x = 1") (lit "none") = (lit "python", lit "x = 1").
Proof. vm_compute. reflexivity. Qed.
