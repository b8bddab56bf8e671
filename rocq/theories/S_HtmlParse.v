(** The document a parsed HTML text stands for (C63). *)
From Verif Require Import Base M_Names M_Html M_HtmlParse S_Html.

Section Reads.
  (** lower case *)
  Variable lower : str -> str.

  (** The attributes [a] of an element: their names in lower case, in order; a name which then occurs twice has the last value,
      in the first place. *)
  Definition AttributesOf (attrs : list (str * str)) (a : list (str * option str)) : Prop :=
    NoDup (List.map fst a) /\
    (forall n v, In (n, v) a <-> exists before k x after, attrs = before ++ (k, x) :: after /\ lower k = n /\ v = Some x /\
       forall k' x', In (k', x') after -> lower k' <> n) /\
    (NoDup (List.map (fun kx => lower (fst kx)) attrs) -> a = List.map (fun kx => (lower (fst kx), Some (snd kx))) attrs).

  (** [Reads d evs]: the characters and tags in [d] are [evs]. Comments and document types are left out. Nothing is said of
      processing instructions, which HTML does not have. *)
  Inductive Reads : dom -> list event -> Prop :=
  | rd_comment : Reads DComment []
  | rd_doctype : Reads DDoctype []
  | rd_text s : Reads (DText s) (List.map EChar s)
  | rd_document ds evs : ReadsAll ds evs -> Reads (DDocument ds) evs
  | rd_element n attrs a ds evs : AttributesOf attrs a -> ReadsAll ds evs ->
      Reads (DElement n attrs ds) (EOpen (lower n) a :: evs ++ [EClose (lower n)])
  with ReadsAll : list dom -> list event -> Prop :=
  | rd_nil : ReadsAll [] []
  | rd_cons d ds evs evs' : Reads d evs -> ReadsAll ds evs' -> ReadsAll (d :: ds) (evs ++ evs').
End Reads.

(** The first error that counts: two attributes with the same name do not. *)
Definition FirstError (errs : list str) (o : option str) : Prop :=
  match o with
  | None => Forall (fun e => e = lit "Duplicate attribute") errs
  | Some e => exists before after, errs = before ++ e :: after /\ e <> lit "Duplicate attribute" /\
      Forall (fun e => e = lit "Duplicate attribute") before
  end.
