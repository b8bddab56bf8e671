(** Specification for C76 and C77: what a browser takes as the content of a script or style element, and elements that have
    each attribute once. *)
From Verif Require Import Base M_Names M_Html S_Html.

(** Elements whose content HTML defines to be raw text: there are no tags and no character references in it
    (https://html.spec.whatwg.org/#parsing-html-fragments: the elements for which the tokenizer is in the script data or the
    raw text state) *)
Definition raw_text_elements : list str := List.map lit ["script"; "style"; "xmp"; "iframe"; "noembed"; "noframes"]%string.
Definition lower_case (s : str) : str := List.map (fun c => if (65 <=? c)%N && (c <=? 90)%N then (c + 32)%N else c) s.
(** A text that starts with an end tag of that name *)
Definition EndTag (name t : str) : Prop :=
  exists n c more, t = lit "</" ++ n ++ c :: more /\ lower_case n = name /\ In c [9; 10; 12; 32; 47; 62]%N.
(** [RawContent name t content rest]: in [t], which comes after the start tag of an element of that name, the content is
    [content], up to the first end tag of that name, and [rest] comes after the end tag. *)
Definition RawContent (name t content rest : str) : Prop :=
  t = content ++ lit "</" ++ name ++ lit ">" ++ rest /\
  forall before t', t = before ++ t' -> EndTag name t' -> length content <= length before.

(** The text of a piece of HTML without elements *)
Inductive TextIs : html -> str -> Prop :=
| ti_empty : TextIs HEmpty []
| ti_space : TextIs HWhitespace [32%N]
| ti_newline : TextIs HRawNewline [10%N]
| ti_text s : TextIs (HText s) s
| ti_seq l ts : Forall2 TextIs l ts -> TextIs (HSeq l) (List.concat ts).

(** An element, and those inside it, have each attribute once. *)
Inductive Once : node -> Prop :=
| once_char c : Once (Chr c)
| once_elem n attrs kids : NoDup (List.map fst attrs) -> Forall Once kids -> Once (Elem n attrs kids).
