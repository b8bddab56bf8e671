(** Property theorems C79: compiling to plain text. *)
From Verif Require Import Base M_Names M_Html M_Render S_Html S_PlainText P_PlainText.

(** C79. As plain text, a document is its characters, all of them in their order and unchanged, and line breaks (and bars) for
    the ends of block elements; nothing else. *)
Theorem C79_text : forall h t, render false h = t <-> PlainText (events h) t.
Proof. intros h t. split; [intros <-; apply render_plain|]. intro H. exact (plain_fun _ _ _ (render_plain h) H). Qed.
Print Assumptions C79_text.
Example C79_nonvacuous :
  render false (HSeq [HTag (lit "p") [(lit "id", None)] (HSeq [HText (lit "a<"); HTag (lit "b") [] (HText (lit "&amp;"))]); HTag (lit "hr") [] HEmpty; HTag (lit "li") [] HWhitespace]) =
  lit "a<&amp;" ++ [LF; LF; LF; HORIZONTAL_BAR; LF; LF] ++ lit " " ++ [LF].
Proof. reflexivity. Qed.
