(** Specification vocabulary for HTML documents: normal form (C21), the character/tag stream a document denotes, and an
    independent reader of HTML text (C23). None of it uses the functions of M_Html or M_Render. *)
From Verif Require Import Base M_Names M_Html.

(** ** Normal form *)

Definition IsText (h : html) : Prop :=
  match h with HText _ | HWhitespace | HRawNewline => True | _ => False end.
(** A single piece: not nothing and not several pieces. *)
Definition IsPiece (h : html) : Prop := match h with HEmpty | HSeq _ => False | _ => True end.
Fixpoint NoAdjacentText (l : list html) : Prop :=
  match l with
  | x :: (y :: _) as t => ~ (IsText x /\ IsText y) /\ NoAdjacentText t
  | _ => True
  end.
(** No nested sequences, no empty pieces, no two adjacent text nodes, no sequence of less than two pieces; a text node is
    not the empty text, one space or one line feed (which have their own representations). *)
Inductive Normal : html -> Prop :=
| N_empty : Normal HEmpty
| N_ws : Normal HWhitespace
| N_nl : Normal HRawNewline
| N_text s : s <> [] -> s <> [32%N] -> s <> [10%N] -> Normal (HText s)
| N_tag n a c : Normal c -> Normal (HTag n a c)
| N_seq l : 2 <= length l -> Forall IsPiece l -> NoAdjacentText l -> Forall Normal l -> Normal (HSeq l).

(** ** What a document denotes: its characters, start tags and end tags, in order. *)
Inductive event :=
| EChar (c : char)
| EOpen (name : str) (attrs : list (str * option str))
| EClose (name : str).
Fixpoint events (h : html) : list event :=
  match h with
  | HEmpty => []
  | HWhitespace => [EChar 32%N]
  | HRawNewline => [EChar 10%N]
  | HText s => List.map EChar s
  | HTag n a c => EOpen n a :: events c ++ [EClose n]
  | HSeq l => flat_map events l
  end.

(** ** An independent reader for HTML text *)

(** A document as a browser would see it: elements with attributes, and characters. *)
Inductive node :=
| Elem (name : str) (attrs : list (str * option str)) (kids : list node)
| Chr (c : char).

(** Void elements have no end tag (https://html.spec.whatwg.org/#void-elements, plus the obsolete ones and the
    document type declaration). *)
Definition void_elements : list str := List.map lit
  ["!DOCTYPE"; "area"; "base"; "br"; "col"; "command"; "embed"; "hr"; "img"; "input"; "keygen"; "link"; "menuitem";
   "meta"; "param"; "source"; "track"; "wbr"]%string.
Definition Void (n : str) : Prop := In n void_elements.

(** Tokenizer: one transition per character, [None] on anything it does not understand. *)
Inductive rstate :=
| RData                                                                  (* between tags *)
| RAfterDecl                                                             (* right after <!DOCTYPE ...> *)
| RRef (acc : str)                                                       (* inside &...; in text *)
| RTagOpen                                                               (* after < *)
| RTagName (name : str)
| REndName (name : str)
| RBeforeAttr (name : str) (attrs : list (str * option str))
| RAttrName (name : str) (attrs : list (str * option str)) (k : str)
| RBeforeVal (name : str) (attrs : list (str * option str)) (k : str)    (* after = *)
| RVal (name : str) (attrs : list (str * option str)) (k v : str)        (* inside "..." *)
| RValRef (name : str) (attrs : list (str * option str)) (k v acc : str) (* inside &...; in "..." *)
| RAfterVal (name : str) (attrs : list (str * option str)).              (* after the closing quote *)

Definition charref (name : str) : option char :=
  if str_eqb name (lit "lt") then Some 60%N
  else if str_eqb name (lit "gt") then Some 62%N
  else if str_eqb name (lit "amp") then Some 38%N
  else if str_eqb name (lit "quot") then Some 34%N
  else if str_eqb name (lit "apos") then Some 39%N
  else None.
Definition opened (name : str) (attrs : list (str * option str)) : option (rstate * list event) :=
  Some (if str_eqb name (lit "!DOCTYPE") then RAfterDecl else RData, [EOpen name attrs]).
Definition in_data (c : char) : option (rstate * list event) :=
  if (c =? 60)%N then Some (RTagOpen, [])
  else if (c =? 38)%N then Some (RRef [], [])
  else Some (RData, [EChar c]).
Definition read_char (s : rstate) (c : char) : option (rstate * list event) :=
  match s with
  | RData => in_data c
  | RAfterDecl => if (c =? 10)%N then Some (RData, []) else in_data c
  | RRef acc =>
    if (c =? 59)%N then option_map (fun d => (RData, [EChar d])) (charref acc) else Some (RRef (acc ++ [c]), [])
  | RTagOpen => if (c =? 47)%N then Some (REndName [], []) else Some (RTagName [c], [])
  | RTagName name =>
    if (c =? 62)%N then opened name []
    else if (c =? 32)%N then Some (RBeforeAttr name [], []) else Some (RTagName (name ++ [c]), [])
  | REndName name => if (c =? 62)%N then Some (RData, [EClose name]) else Some (REndName (name ++ [c]), [])
  | RBeforeAttr name attrs => Some (RAttrName name attrs [c], [])
  | RAttrName name attrs k =>
    if (c =? 61)%N then Some (RBeforeVal name attrs k, [])
    else if (c =? 32)%N then Some (RBeforeAttr name (attrs ++ [(k, None)]), [])
    else if (c =? 62)%N then opened name (attrs ++ [(k, None)])
    else Some (RAttrName name attrs (k ++ [c]), [])
  | RBeforeVal name attrs k => if (c =? 34)%N then Some (RVal name attrs k [], []) else None
  | RVal name attrs k v =>
    if (c =? 34)%N then Some (RAfterVal name (attrs ++ [(k, Some v)]), [])
    else if (c =? 38)%N then Some (RValRef name attrs k v [], [])
    else Some (RVal name attrs k (v ++ [c]), [])
  | RValRef name attrs k v acc =>
    if (c =? 59)%N then option_map (fun d => (RVal name attrs k (v ++ [d]), [])) (charref acc)
    else Some (RValRef name attrs k v (acc ++ [c]), [])
  | RAfterVal name attrs =>
    if (c =? 62)%N then opened name attrs
    else if (c =? 32)%N then Some (RBeforeAttr name attrs, []) else None
  end.
Fixpoint read_chars (s : rstate) (t : str) : option (rstate * list event) :=
  match t with
  | [] => Some (s, [])
  | c :: t =>
    match read_char s c with
    | None => None
    | Some (s, e) => match read_chars s t with None => None | Some (s', e') => Some (s', e ++ e') end
    end
  end.

(** Tree construction: [done] are the finished nodes at the current level (in reverse), [stack] the open elements. *)
Fixpoint build_tree (es : list event) (done : list node) (stack : list (str * list (str * option str) * list node))
  : option (list node) :=
  match es with
  | [] => match stack with [] => Some (rev done) | _ => None end
  | EChar c :: es => build_tree es (Chr c :: done) stack
  | EOpen n a :: es =>
    if mem n void_elements then build_tree es (Elem n a [] :: done) stack
    else build_tree es [] ((n, a, done) :: stack)
  | EClose n :: es =>
    match stack with
    | [] => None
    | (n', a, outer) :: stack =>
      if str_eqb n n' then build_tree es (Elem n' a (rev done) :: outer) stack else None
    end
  end.

(** The document denoted by an HTML text, if it is well formed: all tags complete, start and end tags properly nested. *)
Definition read_html (t : str) : option (list node) :=
  match read_chars RData t with
  | Some (RData, es) | Some (RAfterDecl, es) => build_tree es [] []
  | _ => None
  end.

(** The document that a value of type [html] stands for. Attribute names are shown with [-] for [_]. *)
Definition shown (k : str) : str := List.map (fun c => if (c =? 95)%N then 45%N else c) k.
Fixpoint doc (h : html) : list node :=
  match h with
  | HEmpty => []
  | HWhitespace => [Chr 32%N]
  | HRawNewline => [Chr 10%N]
  | HText s => List.map Chr s
  | HTag n a c => [Elem n (List.map (fun kv => (shown (fst kv), snd kv)) a) (doc c)]
  | HSeq l => flat_map doc l
  end.

(** A plain name: not empty, and none of the characters that delimit names in HTML. *)
Definition PlainName (n : str) : Prop :=
  n <> [] /\ Forall (fun c => ~ In c [32; 9; 10; 12; 13; 34; 39; 47; 60; 61; 62]%N) n.
(** All tag and attribute names are plain and void elements have no content. *)
Inductive PlainDoc : html -> Prop :=
| PD_empty : PlainDoc HEmpty
| PD_ws : PlainDoc HWhitespace
| PD_nl : PlainDoc HRawNewline
| PD_text s : PlainDoc (HText s)
| PD_tag n a c : PlainName n -> Forall (fun kv => PlainName (fst kv)) a -> (Void n -> c = HEmpty) -> PlainDoc c ->
    PlainDoc (HTag n a c)
| PD_seq l : Forall PlainDoc l -> PlainDoc (HSeq l).

(** Attribute names that are identifiers of the language contain no dash, so showing them loses nothing. *)
Definition NoDash (k : str) : Prop := ~ In 45%N k.
Fixpoint AttrsNoDash (h : html) : Prop :=
  match h with
  | HTag _ a c => Forall (fun kv => NoDash (fst kv)) a /\ AttrsNoDash c
  | HSeq l => (fix all l := match l with [] => True | x :: l => AttrsNoDash x /\ all l end) l
  | _ => True
  end.
