(** Specification for C24: how content is divided into paragraphs where block content is required or allowed. *)
From Verif Require Import Base M_Names M_TagInfo M_Html M_Sequence S_Html S_Sequence S_Inline.

(** The paragraph made of a run of inline pieces: none, if there is nothing but white space. *)
Definition Paragraph (run ps : list html) : Prop :=
  exists ms, Trimmed run ms /\ (from_iter ms = HEmpty /\ ps = [] \/ from_iter ms <> HEmpty /\ ps = [HTag (lit "p") [] (from_iter ms)]).
(** [Divided run items closed last]: after the run of inline pieces [run], the content [items] is divided into [closed], blocks and
    paragraphs, and the run [last] at the end. A run is ended by a block and by a paragraph break. *)
Inductive Divided : list html -> list item -> list html -> list html -> Prop :=
| Div_end run : Divided run [] [] run
| Div_nothing run items closed last : Divided run items closed last -> Divided run (Piece HEmpty :: items) closed last
| Div_piece run p items closed last : p <> HEmpty -> ~ BlockLevel p -> Divided (run ++ [p]) items closed last -> Divided run (Piece p :: items) closed last
| Div_block run p ps items closed last : BlockLevel p -> Paragraph run ps -> Divided [] items closed last -> Divided run (Piece p :: items) (ps ++ p :: closed) last
| Div_break run ps items closed last : Paragraph run ps -> Divided [] items closed last -> Divided run (ParagraphBreak :: items) (ps ++ closed) last.
