(** Property theorems C35, C36, C37, C51 (modules, output files and unique ids of a run). *)
From Verif Require Import Base M_Names M_Html M_Path M_Types M_Diag M_Ast M_Value M_State M_Native M_Eval S_Scope S_Run P_State P_Built
  P_Module S_Example.

(** C35. Once a module has been loaded, every later import of it, along any path that leads to the same file, returns the
    same content and exports, and changes nothing (so nothing is compiled again). *)
Theorem C35_same_exports : forall X fuel fuel' path path' k s out exports s1 s2,
  x_canonicalize X path = Some k -> x_canonicalize X path' = Some k ->
  load_cached X (evals_n X fuel) path s = Ok (out, exports) s1 ->
  Later X s1 s2 ->
  load_cached X (evals_n X fuel') path' s2 = Ok (out, exports) s2.
Proof. exact same_exports. Qed.
Print Assumptions C35_same_exports.

(** A module that could not be loaded is remembered as such: every later import of it fails, and changes nothing. *)
Theorem C35_failure_remembered : forall X fuel fuel' path path' k s e s1 s2,
  x_canonicalize X path = Some k -> x_canonicalize X path' = Some k -> ~ InProgress k s ->
  load_cached X (evals_n X fuel) path s = Err e s1 ->
  Later X s1 s2 ->
  load_cached X (evals_n X fuel') path' s2 = Err (ModuleErr (PreviousError path')) s2.
Proof. exact failure_remembered. Qed.
Print Assumptions C35_failure_remembered.

(** An import of a module not yet asked for compiles its source, once, with the module marked as in progress, and remembers
    the outcome; an import of any other module changes nothing. The trace [st_trace] gets an entry exactly when a
    compilation is started. *)
Theorem C35_import : forall X fuel path k s, x_canonicalize X path = Some k ->
  match ngetm (st_mods s) k with
  | None => exists s0, WhileLoading k s s0 /\ st_trace s0 = st_trace s ++ [k] /\
      (forall out exports s1, load_uncached X (evals_n X fuel) path s0 = Ok (out, exports) s1 ->
         load_cached X (evals_n X fuel) path s
         = Ok (out, exports) (set_mods (ninsert (st_mods s1) k (MLoaded out exports)) (set_out (st_out s) s1))) /\
      (forall e s1, load_uncached X (evals_n X fuel) path s0 = Err e s1 ->
         load_cached X (evals_n X fuel) path s
         = Err e (set_mods (ninsert (st_mods s1) k MError) (set_out (st_out s) s1)))
  | Some _ => after (load_cached X (evals_n X fuel) path s) = Some s
  end.
Proof. exact load_once. Qed.
Print Assumptions C35_import.

(** So in any run no module is compiled twice: those compiled in between are distinct, and are exactly the ones that had
    not been asked for before and have been since. *)
Theorem C35_compiled_once : forall X s s', Later X s s' ->
  exists new, st_trace s' = st_trace s ++ new /\ NoDup new /\
    forall k, In k new <-> ngetm (st_mods s) k = None /\ exists x, ngetm (st_mods s') k = Some x.
Proof. exact compiled_once. Qed.
Print Assumptions C35_compiled_once.

(** C36. While a module is being loaded, any import of it, from wherever, is an error that reports the circular import, and
    is not followed. *)
Theorem C36_circular : forall X fuel path' k s s',
  x_canonicalize X path' = Some k -> InProgress k s -> Later X s s' ->
  load_cached X (evals_n X fuel) path' s' = Err (ModuleErr (CircularImport path')) s'.
Proof. exact circular. Qed.
Print Assumptions C36_circular.

(** Whatever happens, the modules in progress afterwards are those that were before; so none is left in that state at the
    end, even if loading fails. *)
Theorem C36_none_left : forall X s s', Later X s s' -> forall k, InProgress k s <-> InProgress k s'.
Proof. intros X s s' H k. now apply in_progress_same with (X := X). Qed.
Print Assumptions C36_none_left.

(** Imports cannot be followed forever: on a finite set of files at most that many compilations are started, whatever the
    import graph and however many imports are asked for. (That the programs in the files terminate is not claimed: they may
    define recursive functions.) *)
Theorem C36_bounded : forall X files s s',
  (forall p k, x_canonicalize X p = Some k -> In k files) ->
  (forall k x, ngetm (st_mods s) k = Some x -> In k files) ->
  Later X s s' ->
  exists new, st_trace s' = st_trace s ++ new /\ length new <= length files.
Proof. intros X files s s' HX Hs HL. exact (compilations_bounded X files HX s s' HL Hs). Qed.
Print Assumptions C36_bounded.

(** Files a.papyri and b.papyri import each other: loading the first compiles each once, reports the cycle, and the result
    stays the same for later imports. *)
Example C35_C36_nonvacuous : exists out s1,
  load_cached ex_X (evals_n ex_X 50) (lit "a.papyri") ex_start = Ok (out, [(lit "x", VInt 1)]) s1 /\
  st_trace s1 = [lit "a.papyri"; lit "b.papyri"] /\
  sk_v (st_sink s1) = [ModuleErr (CircularImport (lit "a.papyri"))] /\
  Later ex_X ex_start s1 /\ (forall k, ~ InProgress k ex_start) /\
  (exists exports, load_cached ex_X (evals_n ex_X 3) (lit "b.papyri") s1 = Ok (HEmpty, exports) s1).
Proof.
  destruct (load_cached ex_X (evals_n ex_X 50) (lit "a.papyri") ex_start) as [[out x] s1|e s1| |] eqn:E;
    [|exfalso; vm_compute in E; discriminate..].
  exists out, s1. assert (HL : Later ex_X ex_start s1).
  { eapply later_load; [rewrite E; reflexivity|apply later_now]. }
  vm_compute in E. injection E as <- <- <-. split; [reflexivity|]. split; [reflexivity|]. split; [reflexivity|]. split; [exact HL|].
  split.
  - intros k H. discriminate.
  - eexists. vm_compute. reflexivity.
Qed.

(** C37. The files collected for output are only ever added to, in the order of writing, whatever happens; there is a
    collector afterwards exactly if there was one. *)
Theorem C37_collected : forall X s s', Later X s s' ->
  match st_out s, st_out s' with
  | None, None => True
  | Some o, Some o' => base_path o' = base_path o /\ exists new, out_v o' = out_v o ++ new
  | _, _ => False
  end.
Proof. intros X s s' H. exact (later_out X s s' H). Qed.
Print Assumptions C37_collected.

(** An import, successful or not, leaves the collector exactly as it was. *)
Theorem C37_import_restores : forall X fuel path s s',
  after (load_cached X (evals_n X fuel) path s) = Some s' -> st_out s' = st_out s.
Proof. exact load_restores_out. Qed.
Print Assumptions C37_import_restores.

(** While a module is loaded, every attempt to write a file is rejected. *)
Theorem C37_no_writes_in_modules : forall X k s s0 s1 path h,
  WhileLoading k s s0 -> Later X s0 s1 ->
  push_out_file path h s1 = Err (RuntimeErr WriteFileNotAllowed) s1.
Proof. exact no_writes_while_loading. Qed.
Print Assumptions C37_no_writes_in_modules.

Example C37_nonvacuous : exists s0 s1 s2,
  push_out_file (lit "x.html") (HText (lit "x")) ex_start = Ok tt s0 /\
  load_cached ex_X (evals_n ex_X 50) (lit "missing") s0 = Err (ModuleErr (IOError (lit "missing"))) s0 /\
  after (load_cached ex_X (evals_n ex_X 50) (lit "a.papyri") s0) = Some s1 /\
  push_out_file (lit "y.html") (HText (lit "y")) s1 = Ok tt s2 /\
  st_out s2 = Some (OutFiles (lit "out") [([Norm (lit "x.html")], HText (lit "x")); ([Norm (lit "y.html")], HText (lit "y"))]).
Proof. do 3 eexists. do 4 (split; [vm_compute; reflexivity|]). vm_compute. reflexivity. Qed.

(** C51. The unique ids handed out while a document is compiled, by it and by all modules it loads, are all different. *)
Theorem C51_unique_ids : forall X fuel s s', NoDup (st_uids s) ->
  (exists e t, after (e_node (evals_n X fuel) e t s) = Some s') \/
  (exists path text, after (compile X fuel path text s) = Some s') ->
  NoDup (st_uids s') /\ exists new, st_uids s' = st_uids s ++ new.
Proof.
  intros X fuel s s' Hn [(e & t & H)|(p & t & H)].
  - destruct (built_uids any_key true _ _ (built_node X fuel e t true) _ _ H) as (new & E & Hd). split; [auto|]. now exists new.
  - destruct (built_uids any_key true _ _ (built_compile X fuel p t true) _ _ H) as (new & E & Hd). split; [auto|]. now exists new.
Qed.
Print Assumptions C51_unique_ids.
(** ... and each id returned is a new one. *)
Theorem C51_new_id : forall deunicode base n s id s', new_unique_id deunicode base n s = Ok id s' ->
  ~ In id (st_uids s) /\ st_uids s' = st_uids s ++ [id].
Proof.
  intros d b n s id s'. unfold new_unique_id. destruct (M_Text.get_unique_id d (st_uids s) b n) as [[i u]| |] eqn:E; try discriminate.
  apply P_Text.get_unique_id_fresh in E as [H ->]. intros [= <- <-]. auto.
Qed.
Print Assumptions C51_new_id.

Example C51_nonvacuous : exists s',
  e_node (evals_n ex_X 9)
    (EList [(ex_call "unique_id" "a", false); (ex_call "unique_id" "a", false)]) TAny
    (set_heap [Frame None [(lit "unique_id", VFunc (FNative StrUniqueId (lit "unique_id") (native_sig StrUniqueId)))] []] (set_stack [0] ex_start))
  = Ok (VList [VStr (lit "a"); VStr (lit "a_2")]) s' /\ st_uids s' = [lit "a"; lit "a_2"].
Proof. eexists. split; vm_compute; reflexivity. Qed.
