(** Specification for C24: exactly what becomes of content where only inline content, or none, is allowed. *)
From Verif Require Import Base M_Names M_TagInfo M_Html M_Sequence S_Html S_Sequence.

(** The first block-level tag of a piece. *)
Inductive FirstBlock : html -> str -> Prop :=
| FB_tag n a c : n <> lit "a" -> In n block_names -> FirstBlock (HTag n a c) n
| FB_link a c n : FirstBlock c n -> FirstBlock (HTag (lit "a") a c) n
| FB_seq before x after n : Forall (fun y => ~ BlockLevel y) before -> FirstBlock x n -> FirstBlock (HSeq (before ++ x :: after)) n.
(** A piece of white space only. *)
Inductive Blank : html -> Prop :=
| Blank_empty : Blank HEmpty
| Blank_space : Blank HWhitespace
| Blank_newline : Blank HRawNewline
| Blank_text t : Forall White t -> Blank (HText t).
(** [Taken breaks parent items hs errors]: of the pieces of content, [hs] are taken, and [errors] are reported about the others.
    A paragraph break is a line break if there may be line breaks, and an error otherwise. *)
Inductive Taken (breaks : bool) (parent : option str) : list item -> list html -> list seq_error -> Prop :=
| Taken_end : Taken breaks parent [] [] []
| Taken_nothing items hs es : Taken breaks parent items hs es -> Taken breaks parent (Piece HEmpty :: items) hs es
| Taken_piece p items hs es : p <> HEmpty -> ~ BlockLevel p -> Taken breaks parent items hs es -> Taken breaks parent (Piece p :: items) (p :: hs) es
| Taken_block p n items hs es : FirstBlock p n -> Taken breaks parent items hs es ->
    Taken breaks parent (Piece p :: items) hs (match parent with Some t => TagNotAllowedIn n t | None => TagNotAllowed n end :: es)
| Taken_break items hs es : breaks = true -> Taken breaks parent items hs es -> Taken breaks parent (ParagraphBreak :: items) (HTag (lit "br") [] HEmpty :: hs) es
| Taken_no_break items hs es : breaks = false -> Taken breaks parent items hs es -> Taken breaks parent (ParagraphBreak :: items) hs (ParagraphBreakNotAllowed :: es).
(** White space at both ends is dropped. *)
Definition Trimmed (hs ms : list html) : Prop :=
  exists before after, hs = before ++ ms ++ after /\ Forall Blank before /\ Forall Blank after /\
  (forall x t, ms = x :: t -> ~ Blank x) /\ (forall i x, ms = i ++ [x] -> ~ Blank x).

(** The rules: what may be in which tag. Where tags of some kinds are required, content that is something else is wrapped in the first one. *)
Definition rules : list (list string * content_kind) :=
  [ (["article"; "aside"; "blockquote"; "footer"; "header"; "main"; "nav"; "section"]%string, RequireBlock (lit "p"));
    (["a"; "<anonymous>"; "address"; "body"; "details"; "div"; "fieldset"; "figcaption"; "figure"; "form"; "li"]%string, AllowBlock (lit "p"));
    (["dl"]%string, RequireOneOf (List.map lit ["dd"; "dt"]%string));
    (["hgroup"]%string, RequireOneOf (List.map lit ["p"; "h1"; "h2"; "h3"; "h4"; "h5"; "h6"]%string));
    (["html"]%string, RequireOneOf (List.map lit ["body"; "head"]%string));
    (["head"]%string, RequireOneOf (List.map lit ["base"; "link"; "meta"; "noscript"; "script"; "style"; "template"; "title"]%string));
    (["menu"; "ol"; "ul"]%string, RequireOneOf [lit "li"]);
    (["table"]%string, RequireOneOf (List.map lit ["tr"; "tbody"; "tfoot"; "thead"; "caption"; "colgroup"]%string));
    (["tbody"; "tfoot"; "thead"]%string, RequireOneOf [lit "tr"]);
    (["tr"]%string, RequireOneOf (List.map lit ["td"; "th"]%string));
    (["h1"; "h2"; "h3"; "h4"; "h5"; "h6"; "p"]%string, RequireInlineNoLineBreaks) ].
Inductive Rule (n : str) : content_kind -> Prop :=
| Rule_row names k : In (names, k) rules -> In n (List.map lit names) -> Rule n k
| Rule_void : Void n -> Rule n RequireEmpty
| Rule_other : (forall names k, In (names, k) rules -> ~ In n (List.map lit names)) -> ~ Void n -> Rule n RequireInline.
