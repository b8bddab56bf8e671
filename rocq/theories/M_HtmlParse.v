(** Model of /repo/src/compiler/html_parse.rs. The parser itself is another crate (html5ever): a text is parsed to a
    document and a list of errors. *)
From Verif Require Import Base M_Names M_Html.

(** markup5ever_rcdom::NodeData. Only the local part of a name is kept. Used in html_parse.rs:33-74. *)
Inductive dom :=
| DDocument (children : list dom)
| DDoctype
| DText (s : str)
| DComment
| DElement (name : str) (attrs : list (str * str)) (children : list dom)
| DProcessingInstruction.

(** html_parse.rs:19-21 *)
Definition html_errors (errs : list str) : list str :=
  List.filter (fun e => negb (str_eqb e (lit "Duplicate attribute"))) errs.

(** html_parse.rs:33-74; [lower] is [str::to_lowercase] *)
Fixpoint node_to_html (lower : str -> str) (d : dom) : outcome html :=
  let all := (fix all ds := match ds with
                            | [] => Ret []
                            | d :: ds => obind (node_to_html lower d) (fun h => obind (all ds) (fun hs => Ret (h :: hs)))
                            end) in
  match d with
  | DComment | DDoctype => Ret HEmpty
  | DDocument ds => obind (all ds) (fun hs => Ret (from_iter hs))
  | DElement n attrs ds =>
    obind (all ds) (fun hs =>
    Ret (HTag (lower n) (nfrom (List.map (fun a => (lower (fst a), Some (snd a))) attrs)) (from_iter hs)))
  | DText s => Ret (html_text s)
  | DProcessingInstruction => Panic
  end.
