(** Specification for C83: what a compiler that has been used does with the next source. *)
From Verif Require Import Base M_Text M_Names M_Html M_Path M_Types M_Diag M_Ast M_Value M_State M_Native M_Eval S_Scope.

(** ** Renumbering the scopes
    A function holds the number of the scope it was defined in. [rv r v] is [v] with every number [i] of a scope in it
    replaced by [r i]; nothing else in it changes. *)
Section Rename.
Variable r : nat -> nat.
Fixpoint rv (v : value) : value :=
  match v with
  | VDict vs => VDict (List.map (fun kv => (fst kv, rv (snd kv))) vs)
  | VList vs => VList (List.map rv vs)
  | VFunc f => VFunc (rf f)
  | VBool _ | VInt _ | VStr _ | VHtml _ | VRegex _ => v
  end
with rf (f : func) : func :=
  match f with
  | FClosure n c s b => FClosure n (r c) (rs s) b
  | FNative g n s => FNative g n (rs s)
  | FBound f p => FBound (rf f) (rpp p)
  end
with rp (p : fparam) : fparam :=
  match p with FParam n i t d => FParam n i t (match d with Some v => Some (rv v) | None => None end) end
with rs (s : fsig) : fsig :=
  match s with
  | FSig p sp n sn c =>
    FSig (List.map rp p) (match sp with Some q => Some (rp q) | None => None end) (List.map (fun kv => (fst kv, rp (snd kv))) n)
         (match sn with Some q => Some (rp q) | None => None end) (rp c)
  end
with rpp (p : partials) : partials :=
  match p with
  | Partials c sp sn m => Partials c (List.map rv sp) (List.map (fun kv => (fst kv, rv (snd kv))) sn) (List.map (fun kv => (fst kv, rv (snd kv))) m)
  end.
(** the values of a map *)
Definition rm {A B} (f : A -> B) (m : nmap A) : nmap B := List.map (fun kv => (fst kv, f (snd kv))) m.
Definition rframe (f : frame) : frame := Frame (option_map r (fr_parent f)) (rm rv (fr_locals f)) (fr_implicit f).
Definition rmodule (m : module_state) : module_state :=
  match m with MLoaded h e => MLoaded h (rm rv e) | MBusy => MBusy | MError => MError end.
End Rename.

(** ** Using a compiler
    [Used s s1]: from the state [s], the compiler got to the state [s1] in use: any number of times and in any order, a text or
    a file is compiled, successfully or not, the collected files are taken out, and the compiler is reset. What the environment
    [X] answers, and the fuel, may change in between. *)
Inductive Used (s : st) : st -> Prop :=
| used_not : Used s s
| used_text X fuel path text s1 s2 : Used s s1 -> after (compile X fuel path text s1) = Some s2 -> Used s s2
| used_file X fuel path s1 s2 : Used s s1 -> after (load_uncached X (evals_n X fuel) path s1) = Some s2 -> Used s s2
| used_take s1 o : Used s s1 -> st_out s1 = Some o -> Used s (set_out (Some (snd (take_iter o))) s1)
| used_reset s1 s2 : Used s s1 -> reset s1 = Ok tt s2 -> Used s s2.

(** The module for the file [k] has been asked for, successfully or not. *)
Definition Known (s : st) (k : str) : Prop := nhas (st_mods s) k = true.

(** [new] and [used] are the states of a compiler in which nothing has been compiled yet and of one that has been used; [new']
    and [used'] are those after the compilation of the same source. Diagnostics, collected files and unique ids are the same;
    the same modules were loaded, in the same order, and are the same up to the numbers of scopes; and so is every scope, and the scopes
    of the standard library have the same numbers. *)
Record SameUpToScopes (r : nat -> nat) (new new' used used' : st) : Prop := {
  su_sink : st_sink used' = st_sink new';
  su_out : st_out used' = st_out new';
  su_uids : st_uids used' = st_uids new';
  su_loaded : exists l, st_trace new' = st_trace new ++ l /\ st_trace used' = st_trace used ++ l;
  su_modules : forall k m, ngetm (st_mods new') k = Some m -> ngetm (st_mods used') k = Some (rmodule r m);
  su_known : forall k, Known used' k <-> Known used k \/ Known new' k;
  su_scopes : forall i f, nth_error (st_heap new') i = Some f -> nth_error (st_heap used') (r i) = Some (rframe r f);
  su_order : forall i j, i < j -> r i < r j;
  su_std : forall i, i < length (st_heap new) -> r i = i
}.
