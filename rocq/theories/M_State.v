(** Model of the state of a running compiler: /repo/src/compiler/base.rs, context.rs, frame.rs, exports.rs and the data of
    module_loader.rs. *)
From Verif Require Import Base M_Names M_Html M_Path M_Types M_Token M_Diag M_Ast M_Value.

(** frame.rs:23-27. A frame is shared by reference ([Rc<RefCell<Frame>>]); a reference is an index into the heap. *)
Record frame := Frame { fr_parent : option nat; fr_locals : nmap value; fr_implicit : list str }.

(** module_loader.rs:14-30. A module that was never asked for has no entry ([NotLoaded]). *)
Inductive module_state :=
| MLoaded (out : html) (exports : nmap value)
| MBusy
| MError.

(** base.rs:20-24 and context.rs:14-41, the parts that change while compiling. [st_stack] is [call_stack], innermost frame
    first (the function and position of each call, used for stack traces, are left out). [st_root] is the frame that the
    frames of source files are children of: the standard library's, or the native functions' while it is compiled. [st_trace] is ghost state: the
    canonical paths of the files whose compilation was started, in order. The interned strings (see M_Names), the loaded
    source texts and the HTTP client are left out. *)
Record st := St {
  st_heap : list frame;
  st_stack : list nat;
  st_sink : sink;
  st_exports : nmap value;
  st_mods : list (str * module_state);
  st_out : option (out_files html);
  st_uids : list str;
  st_root : nat;
  st_trace : list str
}.
(** assignment to a part of the state: frames (frame.rs:12-27) *)
Definition set_heap h s := St h (st_stack s) (st_sink s) (st_exports s) (st_mods s) (st_out s) (st_uids s) (st_root s) (st_trace s).
(** assignment to a part of the state: active frame, base.rs:18-22 *)
Definition set_stack k s := St (st_heap s) k (st_sink s) (st_exports s) (st_mods s) (st_out s) (st_uids s) (st_root s) (st_trace s).
(** assignment to a part of the state: [ctx.diagnostics], context.rs:14-41 *)
Definition set_sink d s := St (st_heap s) (st_stack s) d (st_exports s) (st_mods s) (st_out s) (st_uids s) (st_root s) (st_trace s).
(** assignment to a part of the state: [exports], base.rs:18-22 *)
Definition set_exports e s := St (st_heap s) (st_stack s) (st_sink s) e (st_mods s) (st_out s) (st_uids s) (st_root s) (st_trace s).
(** assignment to a part of the state: [ctx.module_cache], context.rs:14-41 *)
Definition set_mods m s := St (st_heap s) (st_stack s) (st_sink s) (st_exports s) m (st_out s) (st_uids s) (st_root s) (st_trace s).
(** assignment to a part of the state: [ctx.out_files], context.rs:14-41 *)
Definition set_out o s := St (st_heap s) (st_stack s) (st_sink s) (st_exports s) (st_mods s) o (st_uids s) (st_root s) (st_trace s).
(** assignment to a part of the state: [ctx.unique_ids], context.rs:14-41 *)
Definition set_uids u s := St (st_heap s) (st_stack s) (st_sink s) (st_exports s) (st_mods s) (st_out s) u (st_root s) (st_trace s).
(** assignment to a part of the state: the initial frame, context.rs:14-41 *)
Definition set_root r s := St (st_heap s) (st_stack s) (st_sink s) (st_exports s) (st_mods s) (st_out s) (st_uids s) r (st_trace s).
(** assignment to a part of the state: the calls being made, frame.rs:23-27 *)
Definition set_trace t s := St (st_heap s) (st_stack s) (st_sink s) (st_exports s) (st_mods s) (st_out s) (st_uids s) (st_root s) t.

(** Why the compiler panics (an internal compiler error, or a panic of the standard library). errors/mod.rs:31-41 and the panics of std. *)
Inductive fault :=
| FConvert     (* value_convert.rs:20-23: a value is not of the type it is converted to *)
| FArgument    (* native_gen.rs: no binding for a parameter of a native function *)
| FFrame       (* frame.rs:128-130: no frame *)
| FSignature   (* signature.rs:316-319, 349-366 *)
| FPattern     (* matcher.rs:158-178 *)
| FGroups      (* matcher.rs:128-146: not one group for each name *)
| FListing     (* native.rs:398: a listed file is not a [.papyri] file *)
| FStdlib      (* module_loader.rs:157-160 *)
| FUncollected (* context.rs:82-88 *)
| FHtmlNode    (* html_parse.rs:72 *)
| FParser | FIndex | FSequence | FIndent | FHighlight | FUniqueId | FOverflow. (* a panic in the computation named *)

(** The result of a method of the compiler: a value, an error ([Reported] methods only fail with [AlreadyReported]), a
    panic (internal compiler error), or fuel exhausted (in the model only). errors/mod.rs:20-26 ([Reported], [PapyriResult]). *)
Inductive res (A : Type) := Ok (a : A) (s : st) | Err (e : papyri_error) (s : st) | Crash (f : fault) | NoFuel.
Arguments Ok {A}. Arguments Err {A}. Arguments Crash {A}. Arguments NoFuel {A}.
(** the monad of the methods of [Compiler] (base.rs:18-22) that return [Reported] or [PapyriResult] (errors/mod.rs:20-26) *)
Definition EM (A : Type) := st -> res A.
(** the monad of the methods of [Compiler] (base.rs:18-22) that return [Reported] or [PapyriResult] (errors/mod.rs:20-26): [Ok] of errors/mod.rs:20-26 *)
Definition ret {A} (a : A) : EM A := Ok a.
(** the monad of the methods of [Compiler] (base.rs:18-22) that return [Reported] or [PapyriResult] (errors/mod.rs:20-26): [Err] of errors/mod.rs:20-26 *)
Definition fail {A} (e : papyri_error) : EM A := Err e.
(** the monad of the methods of [Compiler] (base.rs:18-22) that return [Reported] or [PapyriResult] (errors/mod.rs:20-26): [errors::ice], errors/mod.rs:31-41 *)
Definition crash {A} (f : fault) : EM A := fun _ => Crash f.
(** the [?] operator; the monad of the methods of [Compiler] (base.rs:18-22) that return [Reported] or [PapyriResult] (errors/mod.rs:20-26). *)
Definition bind {A B} (m : EM A) (f : A -> EM B) : EM B :=
  fun s => match m s with Ok a s => f a s | Err e s => Err e s | Crash c => Crash c | NoFuel => NoFuel end.
(** the monad of the methods of [Compiler] (base.rs:18-22) that return [Reported] or [PapyriResult] (errors/mod.rs:20-26) *)
Notation "'let*' x := m 'in' n" := (bind m (fun x => n)) (at level 200, x pattern, m at level 100, n at level 200).
(** the monad of the methods of [Compiler] (base.rs:18-22) that return [Reported] or [PapyriResult] (errors/mod.rs:20-26) *)
Notation "m ;;; n" := (bind m (fun _ => n)) (at level 100, n at level 200, right associativity).
(** the monad of the methods of [Compiler] (base.rs:18-22) that return [Reported] or [PapyriResult] (errors/mod.rs:20-26): a result that does not involve the state *)
Definition lift {A} (r : A + papyri_error) : EM A := match r with inl a => ret a | inr e => fail e end.
(** a computation on plain data that may panic; the monad of the methods of [Compiler] (base.rs:18-22) that return [Reported] or [PapyriResult] (errors/mod.rs:20-26). *)
Definition pure {A} (f : fault) (r : outcome A) : EM A :=
  fun s => match r with Ret a => Ok a s | Panic => Crash f | OutOfFuel => NoFuel end.
(** the monad of the methods of [Compiler] (base.rs:18-22) that return [Reported] or [PapyriResult] (errors/mod.rs:20-26): reading the state *)
Definition gets {A} (f : st -> A) : EM A := fun s => Ok (f s) s.
(** the monad of the methods of [Compiler] (base.rs:18-22) that return [Reported] or [PapyriResult] (errors/mod.rs:20-26): changing the state *)
Definition modify (f : st -> st) : EM unit := fun s => Ok tt (f s).

(** context.rs:104-112, [report_static] and [report] *)
Definition report (e : papyri_error) : EM unit := modify (fun s => set_sink (sink_add e (st_sink s)) s).
(** [.map_err(|e| self.report(e, ..))]. context.rs:109-112. *)
Definition or_report {A} (m : EM A) : EM A :=
  fun s => match m s with
           | Err e s => Err AlreadyReported (set_sink (sink_add e (st_sink s)) s)
           | r => r
           end.
(** A [Reported] result whose error is inspected instead of passed on. As in sequence.rs:27-40. *)
Definition catch {A} (m : EM A) : EM (A + papyri_error) :=
  fun s => match m s with
           | Ok a s => Ok (inl a) s
           | Err e s => Ok (inr e) s
           | Crash f => Crash f
           | NoFuel => NoFuel
           end.

(** frame.rs:100-109 with 45-48. The frames of a scope chain have ever smaller indices ([HeapOk] in S_Scope, proved for
    every reachable state), so [S i] steps suffice. *)
Fixpoint frame_get_fuel (fuel : nat) (h : list frame) (i : nat) (n : str) (require_implicit : bool) : option value :=
  match fuel with
  | 0 => None
  | S fuel =>
    match nth_error h i with
    | None => None
    | Some f =>
      match (if negb require_implicit || mem n (fr_implicit f) then ngetm (fr_locals f) n else None) with
      | Some v => Some v
      | None => match fr_parent f with Some p => frame_get_fuel fuel h p n require_implicit | None => None end
      end
    end
  end.
(** frame.rs:45-48 and 100-109 *)
Definition frame_get (h : list frame) (i : nat) (n : str) (imp : bool) : option value := frame_get_fuel (S i) h i n imp.

(** assignment to one frame (std: [RefCell::borrow_mut], frame.rs:52-56) *)
Definition update {A} (l : list A) (i : nat) (f : A -> A) : list A :=
  match nth_error l i with Some x => firstn i l ++ f x :: skipn (S i) l | None => l end.
(** frame.rs:52-56 and 117-119; the first result says whether the name was already set *)
Definition fr_has (n : str) (f : frame) : bool := nhas (fr_locals f) n.
(** frame.rs:52-56 and 117-119 *)
Definition fr_set (n : str) (v : value) (implicit : bool) (f : frame) : frame :=
  Frame (fr_parent f) (ninsert (fr_locals f) n v) (if implicit then set_add n (fr_implicit f) else fr_implicit f).
(** frame.rs:121-124 *)
Definition fr_unset (n : str) (f : frame) : frame :=
  Frame (fr_parent f) (nremove (fr_locals f) n) (List.filter (fun m => negb (str_eqb n m)) (fr_implicit f)).
(** frame.rs:58-63 *)
Definition fr_unset_all (ns : list str) (f : frame) : frame := fold_left (fun f n => fr_unset n f) ns f.
(** frame.rs:65-72 *)
Definition fr_set_missing (ns : list str) (v : value) (f : frame) : frame :=
  fold_left (fun f n => if fr_has n f then f else fr_set n v false f) ns f.

(** frame.rs:128-130 (a panic if there is no frame) *)
Definition frame_id : EM nat :=
  fun s => match st_stack s with i :: _ => Ok i s | [] => Crash FFrame end.
(** [self.frame()], frame.rs:128-130, and a change of that frame *)
Definition with_frame (f : frame -> frame) : EM unit :=
  let* i := frame_id in modify (fun s => set_heap (update (st_heap s) i f) s).
(** frame.rs:45-48 on [self.frame()] *)
Definition frame_lookup (n : str) (imp : bool) : EM (option value) :=
  let* i := frame_id in gets (fun s => frame_get (st_heap s) i n imp).
(** frame.rs:111-113 on the current frame *)
Definition frame_has (n : str) : EM bool :=
  let* i := frame_id in
  gets (fun s => match nth_error (st_heap s) i with Some f => fr_has n f | None => false end).
(** frame.rs:52-56 on the current frame *)
Definition frame_set (n : str) (v : value) (implicit : bool) : EM bool :=
  let* had := frame_has n in with_frame (fr_set n v implicit);;; ret had.

(** frame.rs:146-153 *)
Definition get_var (n : str) : EM value :=
  let* r := frame_lookup n false in
  match r with Some v => ret v | None => fail (NameErr (NoSuchVariable n)) end.
(** frame.rs:155-167 *)
Definition get_implicit (n : str) (default : option value) : EM value :=
  let* r := frame_lookup n true in
  match r with
  | Some v => ret v
  | None =>
    match default with
    | Some v => ret v
    | None =>
      let* r := frame_lookup n false in
      fail (RuntimeErr (match r with Some _ => ParamExistsButNotImplicit n | None => ParamMissingImplicit n end))
    end
  end.
(** frame.rs:169-174 *)
Definition set_var (n : str) (v : value) (implicit : bool) : EM unit :=
  let* had := frame_set n v implicit in
  if had then report (Warn (NameAlreadyDeclared n)) else ret tt.

(** frame.rs:30-39, 75-89: a new frame, child of the frame [parent] *)
Definition new_frame (parent : option nat) (locals : nmap value) : EM nat :=
  fun s => Ok (length (st_heap s)) (set_heap (st_heap s ++ [Frame parent locals []]) s).
(** frame.rs:176-181 *)
Definition in_frame {A} (i : nat) (m : EM A) : EM A :=
  fun s =>
    let pop s := set_stack (List.tl (st_stack s)) s in
    match m (set_stack (i :: st_stack s) s) with
    | Ok a s => Ok a (pop s)
    | Err e s => Err e (pop s)
    | r => r
    end.
(** func.rs:134-135: evaluate in a new frame, child of a closure's, with the bindings. A reference to a frame that is not in
    the heap, which cannot exist in the code, is treated as a crash. *)
Definition in_call_frame {A} (closure : nat) (bs : nmap value) (m : EM A) : EM A :=
  let* n := gets (fun s => length (st_heap s)) in
  if closure <? n then let* i := new_frame (Some closure) bs in in_frame i m else crash FFrame.
(** frame().to_inactive().new_empty_child_frame(), as used in value.rs:227 and matcher.rs:12-14 *)
Definition in_child_frame {A} (m : EM A) : EM A :=
  let* i := frame_id in in_call_frame i [] m.

(** exports.rs:9-14 *)
Definition export (n : str) (v : value) : EM unit :=
  let* had := gets (fun s => nhas (st_exports s) n) in
  modify (fun s => set_exports (ninsert (st_exports s) n v) s);;;
  if had then report (Warn (NameAlreadyExported n)) else ret tt.

(** compiler/types.rs:83-133 as used by the compiler *)
Definition coerceM (v : value) (t : ty) : EM value := lift (coerce t v).
