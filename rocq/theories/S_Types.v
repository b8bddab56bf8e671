(** Specification vocabulary for types and values (C16-C20, C39). *)
From Verif Require Import Base M_Names M_TagInfo M_Html S_Html M_Types M_Value.

(** ** Which values a type has *)

(** Block-level content: a block tag, a link around block-level content, or several pieces one of which is. *)
Inductive BlockLevel : html -> Prop :=
| BL_tag n a c : n <> lit "a" -> In n block_names -> BlockLevel (HTag n a c)
| BL_link a c : BlockLevel c -> BlockLevel (HTag (lit "a") a c)
| BL_seq l : Exists BlockLevel l -> BlockLevel (HSeq l).
(** Inline content: text, a tag which is not a block tag, or several pieces all of which are. *)
Inductive InlineLevel : html -> Prop :=
| IL_text s : InlineLevel (HText s)
| IL_ws : InlineLevel HWhitespace
| IL_nl : InlineLevel HRawNewline
| IL_tag n a c : ~ In n block_names -> InlineLevel (HTag n a c)
| IL_seq l : Forall InlineLevel l -> InlineLevel (HSeq l).

(** The types the unit value has. *)
Definition AcceptsNone (t : ty) : Prop :=
  t = TUnit \/ t = TAny \/ t = THtml \/ t = TBlock \/ t = TInline \/ exists t', t = TOptional t'.

Inductive HasType : ty -> value -> Prop :=
| HT_none t : AcceptsNone t -> HasType t UNIT
| HT_any v : HasType TAny v
| HT_bool b : HasType TBool (VBool b)
| HT_int i : HasType TInt (VInt i)
| HT_str s : HasType TStr (VStr s)
| HT_function f : HasType TFunction (VFunc f)
| HT_regex r : HasType TRegex (VRegex r)
| HT_html h : HasType THtml (VHtml h)
| HT_html_str s : HasType THtml (VStr s)
| HT_inline_str s : HasType TInline (VStr s)
| HT_block h : BlockLevel h -> HasType TBlock (VHtml h)
| HT_inline h : InlineLevel h -> HasType TInline (VHtml h)
| HT_dict t vs : Forall (fun kv => HasType t (snd kv)) vs -> HasType (TDict t) (VDict vs)
| HT_list t vs : Forall (HasType t) vs -> HasType (TList t) (VList vs)
| HT_option t v : HasType t v -> HasType (TOptional t) v.

(** ** Types as the language has them: [T?] only over a type which does not have the unit value. *)
Inductive NormalTy : ty -> Prop :=
| NT_base t : In t [TUnit; TAny; THtml; TBlock; TInline; TBool; TInt; TStr; TFunction; TRegex] -> NormalTy t
| NT_dict t : NormalTy t -> NormalTy (TDict t)
| NT_list t : NormalTy t -> NormalTy (TList t)
| NT_option t : NormalTy t -> ~ AcceptsNone t -> NormalTy (TOptional t).

(** Types that do not mention [any]. *)
Inductive AnyFree : ty -> Prop :=
| AF_base t : In t [TUnit; THtml; TBlock; TInline; TBool; TInt; TStr; TFunction; TRegex] -> AnyFree t
| AF_dict t : AnyFree t -> AnyFree (TDict t)
| AF_list t : AnyFree t -> AnyFree (TList t)
| AF_option t : AnyFree t -> AnyFree (TOptional t).
(** The type [t] mentions the type [b]: it is [b], or a list, dictionary or option of a type that does. *)
Inductive Mentions (b : ty) : ty -> Prop :=
| mn_here : Mentions b b
| mn_dict t : Mentions b t -> Mentions b (TDict t)
| mn_list t : Mentions b t -> Mentions b (TList t)
| mn_option t : Mentions b t -> Mentions b (TOptional t).

(** ** Values as the compiler has them *)

(** Attribute names of every tag are distinct. *)
Inductive DistinctAttrs : html -> Prop :=
| DA_tag n a c : NoDup (List.map fst a) -> DistinctAttrs c -> DistinctAttrs (HTag n a c)
| DA_seq l : Forall DistinctAttrs l -> DistinctAttrs (HSeq l)
| DA_other h : (match h with HTag _ _ _ | HSeq _ => False | _ => True end) -> DistinctAttrs h.

(** HTML values are in normal form and are not just text (text is a string value); dictionary keys are distinct.
    Functions are not looked into. *)
Inductive WfValue : value -> Prop :=
| WF_bool b : WfValue (VBool b)
| WF_int i : WfValue (VInt i)
| WF_str s : WfValue (VStr s)
| WF_func f : WfValue (VFunc f)
| WF_regex r : WfValue (VRegex r)
| WF_html h : Normal h -> ~ IsText h -> DistinctAttrs h -> WfValue (VHtml h)
| WF_list vs : Forall WfValue vs -> WfValue (VList vs)
| WF_dict vs : NoDup (List.map fst vs) -> Forall (fun kv => WfValue (snd kv)) vs -> WfValue (VDict vs).

(** Every part [v'] of [v] that is a value held in a list or dictionary, [v] itself included, satisfies [P]. *)
Inductive EveryPart (P : value -> Prop) : value -> Prop :=
| EP_list vs : P (VList vs) -> Forall (EveryPart P) vs -> EveryPart P (VList vs)
| EP_dict vs : P (VDict vs) -> Forall (fun kv => EveryPart P (snd kv)) vs -> EveryPart P (VDict vs)
| EP_other v : (match v with VList _ | VDict _ => False | _ => True end) -> P v -> EveryPart P v.

(** No part is both block-level and inline (a link around block-level content). *)
Definition Unambiguous (v : value) : Prop :=
  EveryPart (fun v => match v with VHtml h => ~ (BlockLevel h /\ InlineLevel h) | _ => True end) v.
(** No part is a function. *)
Definition NoFunctions (v : value) : Prop :=
  EveryPart (fun v => match v with VFunc _ => False | _ => True end) v.
(** In every list and dictionary inside [v], whenever an element [e] follows some others: the others report exactly the
    type of [e] as their common type, or neither of the two types mentions [any]. *)
Definition elements (v : value) : list value :=
  match v with VList vs => vs | VDict vs => List.map snd vs | _ => [] end.
Definition NoLostAny (v : value) : Prop :=
  EveryPart (fun v => forall others e rest, elements v = others ++ e :: rest -> others <> [] ->
    get_type (VList others) = TList (get_type e) \/
    (AnyFree (get_type (VList others)) /\ AnyFree (get_type e))) v.
