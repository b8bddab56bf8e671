(** Model of /repo/src/utils/taginfo.rs. *)
From Verif Require Import Base M_Names.

(** taginfo.rs:7-30 *)
Definition self_closing_names : list str := List.map lit
  ["!DOCTYPE"; "area"; "base"; "br"; "col"; "command"; "embed"; "hr"; "img"; "input"; "keygen"; "link"; "menuitem";
   "meta"; "param"; "source"; "track"; "wbr"]%string.
(** taginfo.rs:7-30 *)
Definition is_self_closing (n : str) : bool := mem n self_closing_names.

(** taginfo.rs:34-86 *)
Definition block_names : list str := List.map lit
  ["!DOCTYPE"; "address"; "article"; "aside"; "base"; "blockquote"; "body"; "dd"; "details"; "div"; "dl"; "dt";
   "fieldset"; "figcaption"; "figure"; "footer"; "form"; "h1"; "h2"; "h3"; "h4"; "h5"; "h6"; "head"; "header";
   "hgroup"; "hr"; "html"; "iframe"; "li"; "link"; "main"; "menu"; "meta"; "nav"; "ol"; "p"; "pre"; "script";
   "section"; "style"; "table"; "template"; "title"; "ul"]%string.
(** taginfo.rs:34-86 *)
Definition is_block_name (n : str) : bool := mem n block_names.

(** taginfo.rs:90-109 *)
Inductive content_kind :=
| RequireOneOf (names : list str)
| RequireBlock (wrap : str)
| AllowBlock (wrap : str)
| RequireInline
| RequireInlineNoLineBreaks
| RequireEmpty.

(** taginfo.rs:114, 118 *)
Definition REQUIRE_P : content_kind := RequireBlock n_p.
(** taginfo.rs:118 *)
Definition ALLOW_P : content_kind := AllowBlock n_p.

(** taginfo.rs:122-216; the arms are tried in order and are disjoint. *)
Definition content_kind_for (n : str) : content_kind :=
  let is := fun l : list string => mem n (List.map lit l) in
  if is ["article"; "aside"; "blockquote"; "footer"; "header"; "main"; "nav"; "section"]%string then REQUIRE_P
  else if is ["a"; "<anonymous>"; "address"; "body"; "details"; "div"; "fieldset"; "figcaption"; "figure"; "form"; "li"]%string
  then ALLOW_P
  else if is ["dl"]%string then RequireOneOf (List.map lit ["dd"; "dt"]%string)
  else if is ["hgroup"]%string then RequireOneOf (List.map lit ["p"; "h1"; "h2"; "h3"; "h4"; "h5"; "h6"]%string)
  else if is ["html"]%string then RequireOneOf (List.map lit ["body"; "head"]%string)
  else if is ["head"]%string
  then RequireOneOf (List.map lit ["base"; "link"; "meta"; "noscript"; "script"; "style"; "template"; "title"]%string)
  else if is ["menu"; "ol"; "ul"]%string then RequireOneOf (List.map lit ["li"]%string)
  else if is ["table"]%string
  then RequireOneOf (List.map lit ["tr"; "tbody"; "tfoot"; "thead"; "caption"; "colgroup"]%string)
  else if is ["tbody"; "tfoot"; "thead"]%string then RequireOneOf (List.map lit ["tr"]%string)
  else if is ["tr"]%string then RequireOneOf (List.map lit ["td"; "th"]%string)
  else if is ["h1"; "h2"; "h3"; "h4"; "h5"; "h6"; "p"]%string then RequireInlineNoLineBreaks
  else if is_self_closing n then RequireEmpty
  else RequireInline.
