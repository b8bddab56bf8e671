(** What the functions of the standard library do (C61): how a call is described. *)
From Verif Require Import Base M_Text M_Names M_TagInfo M_Html M_Types M_Diag M_Ast M_Value M_State M_Native M_Eval M_Std S_Html S_Sequence S_Scope S_Lib.

(** [s] is the state in which compiling starts, once the standard library has been compiled. *)
Definition Starts (s : st) : Prop :=
  exists X fuel level out, x_regex X std_regex <> None /\ 40 <= fuel /\ context_new X std_papyri fuel level out = Ok tt s.
(** The name [n] stands for the function [f] in source files. *)
Definition Predefined (n : str) (f : func) : Prop :=
  forall s, Starts s -> BindsAt (st_heap s) (st_root s) n (VFunc f).
(** The name [d::n] stands for [f]. *)
Definition PredefinedIn (d n : str) (f : func) : Prop :=
  forall s, Starts s -> exists vs, BindsAt (st_heap s) (st_root s) d (VDict vs) /\ ngetm vs n = Some (VFunc f).
(** A state reached later: the scopes of the start are as they were, and others have been added. *)
Definition Later (s : st) : Prop := exists s0 more, Starts s0 /\ st_heap s = st_heap s0 ++ more.

(** A call of [f] whose parameters have the values [bs], in a place where a value of type [t] is expected, gives [v] as a value
    of that type. It reports nothing and has no effect. *)
Definition Gives (X : externals) (f : func) (bs : nmap value) (v : value) : Prop :=
  forall s t w src, Later s -> coerce t v = inl w ->
  exists k new, forall fuel, k <= fuel -> e_call (evals_n X fuel) f bs t src s = Ok w (set_heap (st_heap s ++ new) s).
(** ... reports the error [e], and has no result and no other effect. *)
Definition Complains (X : externals) (f : func) (bs : nmap value) (e : papyri_error) : Prop :=
  forall s t src, Later s ->
  exists k new, forall fuel, k <= fuel ->
    e_call (evals_n X fuel) f bs t src s = Err AlreadyReported (set_sink (sink_add e (st_sink s)) (set_heap (st_heap s ++ new) s)).

(** The signature of a function of positional parameters and content. *)
Definition takes (ps : list (str * ty)) (content : str * ty) : fsig :=
  FSig (List.map (fun p => FParam (fst p) false (snd p) None) ps) None [] None (FParam (fst content) false (snd content) None).

(** [h'] is [h], unless that is blank. *)
Definition Trimmed (h h' : html) : Prop :=
  (AllWhite (events h) -> h' = HEmpty) /\ (~ AllWhite (events h) -> h' = h).
(** A tag as the compiler makes it: its name is in lower case, its attributes have different names, and its content is as the
    tag requires, without white space at the ends. *)
Record ProperTag (n : str) (a : nmap (option str)) (c : html) : Prop := {
  pt_name : is_identifier n = true /\ List.map to_ascii_lower n = n;
  pt_attrs : NoDup (nkeys a);
  pt_normal : Normal c;
  pt_edges : CleanEdges (events c);
  pt_content : Conforms (content_kind_for n) (nodes c)
}.
(** The attributes but those of the name [k]. *)
Definition without (k : str) (a : nmap (option str)) : nmap (option str) := List.filter (fun kv => negb (str_eqb (fst kv) k)) a.
Definition text_of (o : option str) : str := match o with Some s => s | None => [] end.
(** The parameters have these values, and there are no others. *)
Definition Bound (bs l : nmap value) : Prop := forall n, ngetm bs n = ngetm l n.
(** Code of a source file runs in a state reached later, in a scope that was made later. *)
Definition Inside (s : st) : Prop :=
  exists s0 more, Starts s0 /\ st_heap s = st_heap s0 ++ more /\ (forall i, hd_error (st_stack s) = Some i -> length (st_heap s0) <= i).
(** The value is not a tag. *)
Definition NotTag (v : value) : Prop := forall n a c, v <> VHtml (HTag n a c).

(** The functions that put their content in a tag: the name of the function, the tag *)
Definition inline_functions : list (string * string) :=
  [("b", "b"); ("bold", "strong"); ("cite", "cite"); ("dfn", "dfn"); ("emph", "em"); ("i", "i"); ("quote", "q"); ("span", "span");
   ("sub", "sub"); ("sup", "sup"); ("strikethrough", "s"); ("underline", "u");
   ("h1", "h1"); ("h2", "h2"); ("h3", "h3"); ("h4", "h4"); ("h5", "h5"); ("h6", "h6")]%string.
Definition text_functions : list (string * string) := [("kbd", "kbd"); ("samp", "samp")]%string.

(** A path without the slash at its end *)
Definition without_slash (r : str) : str :=
  match rev r with
  | c :: ((_ :: _) as q) => if (c =? 47)%N then rev q else r
  | _ => r
  end.
(** The library for regular expressions finds the slash: the expression is for texts of at least one character and a slash. *)
Definition FindsSlash (X : externals) (re r : str) : Prop :=
  x_captures X re r = if str_eqb (without_slash r) r then None else Some [Some r; Some (without_slash r)].
(** Content of a tag, or nothing if it is absent *)
Definition optional_tag (n : string) (v : value) (h : html) : list html := if is_unit v then [] else [HTag (lit n) [] h].
(** Content that consists of blocks, with no white space around it *)
Definition Blocks (v : value) (h : html) : Prop := to_html v = Some h /\ Normal h /\ CleanEdges (events h) /\ Forall BlockLevel (nodes h).

(** ** Pages *)
(** What every page has in its head: the title, and links to the files at [w] *)
Definition head_tags (w : str) (title : html) : list html :=
  [HTag (lit "title") [] title; HTag (lit "meta") [(lit "charset", Some (lit "utf-8"))] HEmpty;
   HTag (lit "link") [(lit "rel", Some (lit "stylesheet")); (lit "type", Some (lit "text/css")); (lit "href", Some (w ++ lit "/papyri.css"))] HEmpty].
Definition script_tag (w : str) : html :=
  HTag (lit "script") [(lit "type", Some (lit "text/javascript")); (lit "src", Some (w ++ lit "/papyri.js"))] HEmpty.
(** What may be added to the head *)
Definition head_names : list str := List.map lit ["base"; "link"; "meta"; "noscript"; "script"; "style"; "template"; "title"]%string.
Definition ForHead (v : value) (h : html) : Prop := to_html v = Some h /\ Normal h /\ Forall (TagAmong head_names) (nodes h).
(** The page with this title, these contents, and the header and footer [va] and [vb] if they are given *)
Definition page_html (title : html) (w : str) (gh ga gc gb : html) (va vb : value) : html :=
  HSeq [HTag (lit "!DOCTYPE") [(lit "html", None)] HEmpty;
        HTag (lit "html") []
          (HSeq [HTag (lit "head") [] (HSeq (head_tags w title ++ nodes gh));
                 HTag (lit "body") [] (HSeq (optional_tag "header" va ga ++ [HTag (lit "article") [] gc] ++ optional_tag "footer" vb gb ++ [script_tag w]))])].
