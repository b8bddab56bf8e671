(** Model of /repo/src/compiler/signature.rs and of the binding of arguments in /repo/src/compiler/func.rs. A [ParamBinder]
    (signature.rs:132-136) is the partial parameters together with the signature. *)
From Verif Require Import Base M_Names M_Types M_Token M_Diag M_Ast M_Value M_State.

(** [map.insert] on the partial parameters (signature.rs:100-105) *)
Definition pp_set_map (m : nmap value) (b : partials) : partials :=
  let '(Partials c sp sn _) := b in Partials c sp sn m.

(** signature.rs:231-245 *)
Definition add_positional_arg (sig : fsig) (v : value) (b : partials) : EM partials :=
  let '(Partials count sp sn map) := b in
  match nth_error (s_positional sig) count with
  | Some param => let* v := coerceM v (p_type param) in ret (Partials (count + 1) sp sn (ninsert map (p_name param) v))
  | None =>
    match s_spread sig with
    | Some param => let* v := coerceM v (component_type (p_type param)) in ret (Partials (count + 1) (sp ++ [v]) sn map)
    | None => ret (Partials (count + 1) sp sn map)
    end
  end.
(** signature.rs:247-267 *)
Definition add_named_arg (sig : fsig) (n : str) (v : value) (b : partials) : EM partials :=
  let '(Partials count sp sn map) := b in
  match ngetm (s_named sig) n with
  | Some param =>
    let* v := coerceM v (p_type param) in
    if nhas map n then fail (RuntimeErr (ParamMultipleValues n)) else ret (Partials count sp sn (ninsert map n v))
  | None =>
    match s_spread_named sig with
    | Some param =>
      let* v := coerceM v (component_type (p_type param)) in
      if nhas sn n then fail (RuntimeErr (ParamMultipleValues n)) else ret (Partials count sp (ninsert sn n v) map)
    | None => fail (NameErr (NoSuchParameter n))
    end
  end.
(** signature.rs:269-285 *)
Definition add_content_arg (sig : fsig) (v : value) (b : partials) : EM partials :=
  let n := p_name (s_content sig) in
  if nhas (pp_map b) n then
    if is_unit v then ret b else fail (TypeErr ContentAlreadyBound)
  else
    let* v := coerceM v (p_type (s_content sig)) in
    ret (if is_anonymous n then b else pp_set_map (ninsert (pp_map b) n v) b).
(** signature.rs:288-300 *)
Definition check_pos_count (sig : fsig) (b : partials) : EM unit :=
  if match s_spread sig with None => true | Some _ => false end && (length (s_positional sig) <? pp_count b)
  then fail (TypeErr (TooManyPositionalArgs (length (s_positional sig)) (pp_count b)))
  else ret tt.
(** signature.rs:139-143 *)
Definition close_bound (sig : fsig) (b : partials) (f : func) : EM func :=
  check_pos_count sig b;;; ret (FBound f b).
(** signature.rs:199-212 *)
Fixpoint bind_implicits (params : list fparam) (b : partials) : EM partials :=
  match params with
  | [] => ret b
  | param :: params =>
    if negb (p_implicit param) || nhas (pp_map b) (p_name param) then bind_implicits params b
    else
      let* v := get_implicit (p_name param) (p_default param) in
      bind_implicits params (pp_set_map (ninsert (pp_map b) (p_name param) v) b)
  end.
(** signature.rs:199-212 *)
Definition bind_implicit_args (sig : fsig) (b : partials) : EM partials := bind_implicits (nvalues (s_named sig)) b.

(** signature.rs:321-330 *)
Fixpoint fill_positional (sig : fsig) (count : nat) (params : list fparam) (map : nmap value) : EM (nmap value) :=
  match params with
  | [] => ret map
  | param :: params =>
    match p_default param with
    | None =>
      fail (TypeErr (NotEnoughPositionalArgs
        (length (List.filter (fun p => match p_default p with None => true | Some _ => false end) (s_positional sig))) count))
    | Some v => fill_positional sig count params (ninsert map (p_name param) v)
    end
  end.
(** signature.rs:331-339 *)
Fixpoint fill_named (params : list fparam) (map : nmap value) : EM (nmap value) :=
  match params with
  | [] => ret map
  | param :: params =>
    if nhas map (p_name param) then fill_named params map
    else match p_default param with
         | None => fail (RuntimeErr (ParamMissing (p_name param)))
         | Some v => fill_named params (ninsert map (p_name param) v)
         end
  end.
(** signature.rs:302-342 *)
Definition build (sig : fsig) (b : partials) : EM (nmap value) :=
  check_pos_count sig b;;;
  let '(Partials count sp sn map) := b in
  let* map := match s_spread sig with
              | Some param => let* v := coerceM (VList sp) (p_type param) in ret (ninsert map (p_name param) v)
              | None => ret map
              end in
  let* map := match s_spread_named sig with
              | Some param => let* v := coerceM (VDict sn) (p_type param) in ret (ninsert map (p_name param) v)
              | None => ret map
              end in
  let content := p_name (s_content sig) in
  if negb (is_anonymous content) && negb (nhas map content) then crash FSignature
  else
    let* map := fill_positional sig count (skipn count (s_positional sig)) map in
    fill_named (nvalues (s_named sig)) map.

(** func.rs:44-50 *)
Definition bind_content (f : func) (v : value) : EM func :=
  let* b := add_content_arg (func_sig f) v (get_partials f) in close_bound (func_sig f) b f.
(** func.rs:52-58 *)
Definition bind_positional (f : func) (v : value) : EM func :=
  let* b := add_positional_arg (func_sig f) v (get_partials f) in close_bound (func_sig f) b f.
(** the loop over the positional arguments, func.rs:60-75 *)
Fixpoint add_positionals (sig : fsig) (vs : list value) (b : partials) : EM partials :=
  match vs with
  | [] => ret b
  | v :: vs => let* b := add_positional_arg sig v b in add_positionals sig vs b
  end.
(** the loop over the named arguments, func.rs:60-75 *)
Fixpoint add_nameds (sig : fsig) (vs : list (str * value)) (b : partials) : EM partials :=
  match vs with
  | [] => ret b
  | (n, v) :: vs => let* b := add_named_arg sig n v b in add_nameds sig vs b
  end.
(** func.rs:60-75 *)
Definition bind_partial (f : func) (pos : list value) (named : nmap value) (content : value) : EM func :=
  let sig := func_sig f in
  let* b := add_positionals sig pos (get_partials f) in
  let* b := add_nameds sig named b in
  let* b := if is_unit content then ret b else add_content_arg sig content b in
  close_bound sig b f.
(** func.rs:77-85 *)
Definition bind_synthetic_call (f : func) (implicits : bool) (content : value) : EM (nmap value) :=
  let sig := func_sig f in
  let* b := if implicits then bind_implicit_args sig (get_partials f) else ret (get_partials f) in
  let* b := add_content_arg sig content b in
  build sig b.

Section Calls.
  (** [evaluate_node] *)
  Variable eval : expr -> ty -> EM value.

  (** signature.rs:153-174; the conversion of a value of type [any list] to a list cannot fail (else: crash) *)
  Definition compile_positional_arg (sig : fsig) (spread : bool) (e : expr) (b : partials) : EM partials :=
    if spread then
      let* v := eval e (TList TAny) in
      match v with VList vs => add_positionals sig vs b | _ => crash FConvert end
    else
      let hint := match nth_error (s_positional sig) (pp_count b) with
                  | Some param => p_type param
                  | None => match s_spread sig with Some param => component_type (p_type param) | None => TAny end
                  end in
      let* v := eval e hint in add_positional_arg sig v b.
  (** signature.rs:176-197 *)
  Definition compile_named_arg (sig : fsig) (spread : bool) (n : str) (e : expr) (b : partials) : EM partials :=
    if spread then
      let* v := eval e (TDict TAny) in
      match v with VDict vs => add_nameds sig vs b | _ => crash FConvert end
    else
      let hint := match ngetm (s_named sig) n with
                  | Some param => p_type param
                  | None => match s_spread_named sig with Some param => component_type (p_type param) | None => TAny end
                  end in
      let* v := eval e hint in add_named_arg sig n v b.
  (** ast.rs:189-191 *)
  Definition arg_is_spread (k : spread_kind) : bool := match k with NoSpread => false | _ => true end.
  (** ast.rs:183-185 *)
  Definition arg_is_positional (n : str) (k : spread_kind) : bool :=
    is_anonymous n && match k with NamedSpread => false | _ => true end.
  (** signature.rs:145-151 *)
  Definition compile_arg (sig : fsig) (a : arg) (b : partials) : EM partials :=
    let '(Arg n k e) := a in
    or_report (if arg_is_positional n k then compile_positional_arg sig (arg_is_spread k) e b
               else compile_named_arg sig (arg_is_spread k) n e b).
  (** the loop over the arguments, func.rs:87-98 *)
  Fixpoint compile_args (sig : fsig) (l : list arg) (b : partials) : EM partials :=
    match l with
    | [] => ret b
    | a :: l => let* b := compile_arg sig a b in compile_args sig l b
    end.
  (** signature.rs:214-229 *)
  Definition compile_content_arg (sig : fsig) (e : expr) (b : partials) : EM partials :=
    let hint := if nhas (pp_map b) (p_name (s_content sig)) then TAny else p_type (s_content sig) in
    let* v := eval e hint in or_report (add_content_arg sig v b).
  (** func.rs:87-97 *)
  Definition bind_call (f : func) (l : list arg) (content : expr) : EM (nmap value) :=
    let sig := func_sig f in
    let* b := compile_args sig l (get_partials f) in
    let* b := bind_implicit_args sig b in
    let* b := compile_content_arg sig content b in
    build sig b.

  (** signature.rs:369-387 *)
  Definition compile_param (p : param) : EM fparam :=
    let '(Param n question_mark is_implicit t default) := p in
    let t := t_option_if t question_mark in
    let* d := match default with
              | Some e => let* r := catch (eval e t) in ret (match r with inl v => Some v | inr _ => None end)
              | None => ret None
              end in
    ret (FParam n is_implicit t (match d with Some v => Some v | None => if question_mark then Some UNIT else None end)).
  (** the loops over the parameters, signature.rs:346-367 *)
  Fixpoint compile_params (ps : list param) : EM (list fparam) :=
    match ps with
    | [] => ret []
    | p :: ps => let* q := compile_param p in let* qs := compile_params ps in ret (q :: qs)
    end.
  (** signature.rs:53-97 and 346-367. The parameters are compiled as they are consumed, in order; [params.next().unwrap()]
      panics if there are fewer than the counts say. *)
  Definition compile_func_signature (s : signature) : EM fsig :=
    let '(Signature params np ps nn ns hc) := s in
    let total := np + (if ps then 1 else 0) + nn + (if ns then 1 else 0) + (if hc then 1 else 0) in
    let* all := compile_params (firstn total params) in
    if length all <? total then crash FSignature
    else
      let positional := firstn np all in
      let all := skipn np all in
      let spread := if ps then hd_error all else None in
      let all := if ps then List.tl all else all in
      let named := nfrom (List.map (fun p => (p_name p, p)) (firstn nn all)) in
      let all := skipn nn all in
      let spread_named := if ns then hd_error all else None in
      let all := if ns then List.tl all else all in
      let content := match (if hc then hd_error all else None) with
                     | Some p => p
                     | None => FParam n_anonymous false TUnit None
                     end in
      ret (FSig positional spread named spread_named content).
  (** func.rs:109-116 *)
  Definition compile_func_def (d : func_def) : EM func :=
    let '(FuncDef n s body) := d in
    let* closure := frame_id in
    let* sig := compile_func_signature s in
    ret (FClosure n closure sig body).
End Calls.
