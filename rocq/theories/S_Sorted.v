(** Specification for C24: content of elements with particular children, such as lists and tables. *)
From Verif Require Import Base M_Names M_TagInfo M_Html M_Sequence S_Html S_Sequence.

(** A piece made of elements with these names only. *)
Inductive Among (names : list str) : html -> Prop :=
| Am_nothing : Among names HEmpty
| Am_tag n a c : In n names -> Among names (HTag n a c)
| Am_seq l : Forall (Among names) l -> Among names (HSeq l).
(** What becomes of a run of other pieces: they are the content of an element [w], if there is any content. *)
Definition Wrapped (w : str) (run : list html) (errors : list seq_error) (ps : list html) : Prop :=
  exists h, compile_items (content_kind_for w) (Some w) (List.map Piece run) = Ret (errors, h) /\ (h = HEmpty /\ ps = [] \/ h <> HEmpty /\ ps = [HTag w [] h]).
(** [Arrayed names w run items ps errors]: after the run of other pieces [run], the content [items] gives the children [ps] and these
    errors. A run is ended by an element with one of the names and by a paragraph break. *)
Inductive Arrayed (names : list str) (w : str) : list html -> list item -> list html -> list seq_error -> Prop :=
| Arr_end run ps es : Wrapped w run es ps -> Arrayed names w run [] ps es
| Arr_nothing run items ps es : Arrayed names w run items ps es -> Arrayed names w run (Piece HEmpty :: items) ps es
| Arr_own run p items ps es ps' es' : p <> HEmpty -> Among names p -> Wrapped w run es ps -> Arrayed names w [] items ps' es' ->
    Arrayed names w run (Piece p :: items) (ps ++ p :: ps') (es ++ es')
| Arr_other run p items ps es : p <> HEmpty -> ~ Among names p -> Arrayed names w (run ++ [p]) items ps es -> Arrayed names w run (Piece p :: items) ps es
| Arr_break run items ps es ps' es' : Wrapped w run es ps -> Arrayed names w [] items ps' es' -> Arrayed names w run (ParagraphBreak :: items) (ps ++ ps') (es ++ es').
