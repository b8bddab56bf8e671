(** Specification for C40: which elements highlighted code is made of. *)
From Verif Require Import Base M_Names M_Html S_Html.

(** Plain text, a marked piece of text, or a link to the address it shows. *)
Inductive CodePiece : list event -> Prop :=
| cp_text s : CodePiece (List.map EChar s)
| cp_span a s : ~ In (lit "href") (List.map fst a) ->
    CodePiece (EOpen (lit "span") a :: List.map EChar s ++ [EClose (lit "span")])
| cp_link a s : In (lit "href", Some s) a -> CodePiece (EOpen (lit "a") a :: List.map EChar s ++ [EClose (lit "a")]).
Definition CodeLine (evs : list event) : Prop := exists pieces, Forall CodePiece pieces /\ evs = List.concat pieces.
