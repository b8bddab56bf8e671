(** Specification for C39: when two values are equal. *)
From Verif Require Import Base M_Names M_Html M_Value.

Inductive HtmlEqual : html -> html -> Prop :=
| he_empty : HtmlEqual HEmpty HEmpty
| he_space : HtmlEqual HWhitespace HWhitespace
| he_newline : HtmlEqual HRawNewline HRawNewline
| he_text s : HtmlEqual (HText s) (HText s)
| he_tag n a a' c c' : (forall k v, In (k, v) a <-> In (k, v) a') -> HtmlEqual c c' -> HtmlEqual (HTag n a c) (HTag n a' c')
| he_seq l m : Forall2 HtmlEqual l m -> HtmlEqual (HSeq l) (HSeq m).
(** There is no rule for functions, nor for values of different kinds. *)
Inductive Equal : value -> value -> Prop :=
| eq_bool b : Equal (VBool b) (VBool b)
| eq_int i : Equal (VInt i) (VInt i)
| eq_str s : Equal (VStr s) (VStr s)
| eq_html h h' : HtmlEqual h h' -> Equal (VHtml h) (VHtml h')
| eq_regex r r' : rx_source r = rx_source r' -> Equal (VRegex r) (VRegex r')
| eq_list l m : Forall2 Equal l m -> Equal (VList l) (VList m)
| eq_dict l m : (forall k, In k (List.map fst l) <-> In k (List.map fst m)) ->
    (forall k a b, In (k, a) l -> In (k, b) m -> Equal a b) -> Equal (VDict l) (VDict m).
