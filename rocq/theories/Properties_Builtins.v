(** Property theorems C70: the built-in functions. *)
From Verif Require Import Base M_Names M_Types M_Diag M_Value M_State M_Binder M_Native M_Eval S_Scope S_Run S_Example S_Builtins P_Builtins.

(** C70. However long a compiler has been in use, whatever its standard library and whatever it has compiled, the outermost
    scope around every source file contains exactly what is documented: each built-in function under its name or in its
    group, with its signature (names, kinds, types and default values of the parameters). *)
Theorem C70_names : forall X stdlib fuel level out s0 s, context_new X stdlib fuel level out = Ok tt s0 -> Later X s0 s ->
  exists is o, Enclosing (st_heap s) (st_root s) (is ++ [o]) /\
    (forall n v, BindsAt (st_heap s) o n v -> Documented n v) /\
    (forall b, In b builtins -> exists v, BindsAt (st_heap s) o (found_under b) v).
Proof. exact outermost_scope. Qed.
Print Assumptions C70_names.

(** The attributes of a value are the functions documented as methods in the group of its type, with the value given as
    first argument or as content, as documented; other attributes are errors. (What giving an argument means: C34.) *)
Theorem C70_methods : forall subject name s,
  (forall n f sig m, name = lit n -> In (B (group_of subject) n f sig m) builtins ->
     exists fs, IsBuiltin f n sig (VFunc (FNative f name fs)) /\
       evaluate_native_attr subject name s =
       match m with
       | NoMethod => Err (NameErr (NoSuchAttribute (get_type subject) name)) s
       | Argument => bind_positional (FNative f name fs) subject s
       | Content => bind_content (FNative f name fs) subject s
       end) /\
  ((forall n f sig m, name = lit n -> ~ In (B (group_of subject) n f sig m) builtins) ->
   evaluate_native_attr subject name s = Err (NameErr (NoSuchAttribute (get_type subject) name)) s).
Proof. exact methods_spec. Qed.
Print Assumptions C70_methods.

Definition C70_text : str := lit "@let(list=`x`, code=`y`) {$list}".
Example C70_nonvacuous : exists s0 s h, context_new ex_X [] 9 LWarning None = Ok tt s0 /\
  compile ex_X 9 (lit "f") C70_text s0 = Ok h s /\ Later ex_X s0 s /\
  Enclosing (st_heap s) (st_root s) ([2] ++ [0]) /\
  (exists vs v, BindsAt (st_heap s) 0 (lit "list") (VDict vs) /\ ngetm vs (lit "enumerate") = Some v /\
     IsBuiltin ListEnumerate "enumerate" "($from: int = 0) $list: any list" v).
Proof.
  do 3 eexists. split; [vm_compute; reflexivity|]. split; [vm_compute; reflexivity|]. split; [|split].
  - eapply (later_compile ex_X 9 (lit "f") C70_text); [vm_compute; reflexivity|constructor].
  - eapply enc_in; [reflexivity|reflexivity|]. eapply enc_top; reflexivity.
  - do 2 eexists. split; [eexists; split; reflexivity|]. split; [reflexivity|]. eexists. split; [reflexivity|]. split; [reflexivity|].
    intros k p [[= <- <-]|[]]. reflexivity.
Qed.
