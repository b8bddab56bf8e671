(** Specification of tag content (C24-C26), on top of the documents of S_Html. *)
From Verif Require Import Base M_Names M_TagInfo M_Html S_Html.

(** ** C24: content rules *)

(** Block-level: a tag with a block name, or a link around something block-level. *)
Inductive BlockLevel : html -> Prop :=
| BL_tag n a c : n <> lit "a" -> In n block_names -> BlockLevel (HTag n a c)
| BL_link a c : BlockLevel c -> BlockLevel (HTag (lit "a") a c)
| BL_seq l x : In x l -> BlockLevel x -> BlockLevel (HSeq l).
Definition TagAmong (names : list str) (h : html) : Prop := exists n a c, h = HTag n a c /\ In n names.
(** The rules for the nodes directly inside a tag, as documented at taginfo.rs:90-109. *)
Definition Conforms (k : content_kind) (nodes : list html) : Prop :=
  match k with
  | RequireOneOf names => Forall (TagAmong names) nodes
  | RequireBlock _ => Forall BlockLevel nodes
  | AllowBlock _ => Forall BlockLevel nodes \/ Forall (fun h => ~ BlockLevel h) nodes
  | RequireInline | RequireInlineNoLineBreaks => Forall (fun h => ~ BlockLevel h) nodes
  | RequireEmpty => nodes = []
  end.
(** The nodes of some content: a sequence stands for its elements. *)
Definition nodes (h : html) : list html := match h with HEmpty => [] | HSeq l => l | _ => [h] end.
(** Every tag in the document has content that obeys the rules for that tag. *)
Inductive Valid : html -> Prop :=
| V_empty : Valid HEmpty
| V_ws : Valid HWhitespace
| V_nl : Valid HRawNewline
| V_text s : Valid (HText s)
| V_tag n a c : Conforms (content_kind_for n) (nodes c) -> Valid c -> Valid (HTag n a c)
| V_seq l : Forall Valid l -> Valid (HSeq l).
(** All nodes are block-level, or none is. *)
Definition Homogeneous (h : html) : Prop :=
  Forall BlockLevel (nodes h) \/ Forall (fun h => ~ BlockLevel h) (nodes h).

(** ** C25: nothing but white space is lost, nothing but wrappers is added *)

Definition White (c : char) : Prop := In c [9; 10; 12; 13; 32]%N.
(** The tags that may be inserted around content, and the line break. *)
Definition wrappers : list str := List.map lit ["p"; "li"; "dd"; "body"; "base"; "tr"; "td"; "br"]%string.
(** [Arranged es es']: [es'] is [es] with some white space characters left out and some wrapper tags put in. Everything
    else is kept, in the same order. *)
Inductive Arranged : list event -> list event -> Prop :=
| A_nil : Arranged [] []
| A_keep e es es' : Arranged es es' -> Arranged (e :: es) (e :: es')
| A_white c es es' : White c -> Arranged es es' -> Arranged (EChar c :: es) es'
| A_open n es es' : In n wrappers -> Arranged es es' -> Arranged es (EOpen n [] :: es')
| A_close n es es' : In n wrappers -> Arranged es es' -> Arranged es (EClose n :: es').
(** The visible text: the characters that are not white space. *)
Definition visible (es : list event) : list char :=
  flat_map (fun e => match e with
                     | EChar c => if existsb (N.eqb c) [9; 10; 12; 13; 32]%N then [] else [c]
                     | _ => []
                     end) es.

(** ** C26: edges *)

Definition NotWhite (e : event) : Prop := match e with EChar c => ~ White c | _ => True end.
(** Nothing, or content that neither starts nor ends with white space. *)
Definition CleanEdges (es : list event) : Prop :=
  es = [] \/ (exists e t, es = e :: t /\ NotWhite e) /\ (exists e t, es = t ++ [e] /\ NotWhite e).
Definition AllWhite (es : list event) : Prop := Forall (fun e => exists c, e = EChar c /\ White c) es.
(** Every tag in the document has content with clean edges. *)
Inductive DeepClean : html -> Prop :=
| DC_empty : DeepClean HEmpty
| DC_ws : DeepClean HWhitespace
| DC_nl : DeepClean HRawNewline
| DC_text s : DeepClean (HText s)
| DC_tag n a c : CleanEdges (events c) -> DeepClean c -> DeepClean (HTag n a c)
| DC_seq l : Forall DeepClean l -> DeepClean (HSeq l).
