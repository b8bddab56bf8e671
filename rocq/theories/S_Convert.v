(** How values are shown as HTML, and how they are converted to the type expected of them (C71). *)
From Verif Require Import Base M_Names M_Html S_Html M_Types M_Value S_Types S_Native.

(** The decimal numeral of [i], without superfluous zeros; [sign] is what is written before negative ones. *)
Definition Decimal (sign : char) (i : Z) (s : str) : Prop :=
  exists ds, Digits ds /\ (forall ds', ds = 48%N :: ds' -> ds' = []) /\
    ((0 <= i)%Z /\ s = ds /\ numeral ds = i \/ (i < 0)%Z /\ s = sign :: ds /\ numeral ds = (- i)%Z).

(** ** How a value is shown *)

Definition txt (s : str) : list event := map EChar s.
Definition element (n : string) (attrs : list (str * option str)) (es : list event) : list event := EOpen (lit n) attrs :: es ++ [EClose (lit n)].
(** U+2212, the minus sign *)
Definition minus_sign : char := 8722%N.

Inductive Shown : value -> list event -> Prop :=
| sh_true : Shown (VBool true) (txt (lit "True"))
| sh_false : Shown (VBool false) (txt (lit "False"))
| sh_int i s : Decimal minus_sign i s -> Shown (VInt i) (txt s)
| sh_str s : Shown (VStr s) (txt s)
| sh_html h : Shown (VHtml h) (events h)
(** a list as a list with one item for each element, in order *)
| sh_list vs items : Forall2 (fun v item => exists es, Shown v es /\ item = element "li" [] es) vs items ->
    Shown (VList vs) (element "ul" [] (concat items))
(** a dictionary as a table with one row for each entry, in order: the key as a heading, and the value *)
| sh_dict vs rows :
    Forall2 (fun kv row => exists es, Shown (snd kv) es /\
      row = element "tr" [] (element "th" [] (txt (fst kv)) ++ element "td" [] es)) vs rows ->
    Shown (VDict vs) (element "table" [(lit "class", Some (lit "tabular-data"))] (concat rows))
| sh_func f : Shown (VFunc f) (element "code" [] (txt (lit "(@fn " ++ func_name f ++ lit ")")))
| sh_regex r : Shown (VRegex r) (element "code" [] (txt (lit "(@regex " ++ rx_source r ++ lit ")"))).

(** The value for some HTML: a string if it is only text, but not nothing *)
Inductive HtmlValue : html -> value -> Prop :=
| hv_text h s : events h = txt s -> s <> [] -> HtmlValue h (VStr s)
| hv_html h : ~ IsText h -> HtmlValue h (VHtml h).

(** ** Conversion *)

Definition IsFunction (v : value) : Prop := exists f, v = VFunc f.
Definition IsCollection (v : value) : Prop := exists l d, v = VList l \/ v = VDict d.

(** Where a value of type [t] is expected and [v] is given, it is converted to [v']. *)
Inductive Converts : ty -> value -> value -> Prop :=
| cv_none t : AcceptsNone t -> Converts t UNIT UNIT
| cv_optional t v v' : v <> UNIT -> Converts t v v' -> Converts (TOptional t) v v'
(** nothing to do *)
| cv_any v : Converts TAny v v
| cv_bool b : Converts TBool (VBool b) (VBool b)
| cv_int i : Converts TInt (VInt i) (VInt i)
| cv_str s : Converts TStr (VStr s) (VStr s)
| cv_function f : Converts TFunction (VFunc f) (VFunc f)
| cv_regex r : Converts TRegex (VRegex r) (VRegex r)
| cv_html_str s : Converts THtml (VStr s) (VStr s)
| cv_inline_str s : Converts TInline (VStr s) (VStr s)
(** booleans and numbers to strings *)
| cv_true : Converts TStr (VBool true) (VStr (lit "True"))
| cv_false : Converts TStr (VBool false) (VStr (lit "False"))
| cv_number i s : Decimal 45 i s -> Converts TStr (VInt i) (VStr s)
(** collections element by element *)
| cv_list t vs vs' : Forall2 (Converts t) vs vs' -> Converts (TList t) (VList vs) (VList vs')
| cv_dict t vs vs' : Forall2 (fun a b => fst a = fst b /\ Converts t (snd a) (snd b)) vs vs' -> Converts (TDict t) (VDict vs) (VDict vs')
(** to HTML: anything but functions; inline content becomes a paragraph where a block is expected, and there are no blocks
    or collections where inline content is expected *)
| cv_html v h v' : ~ IsFunction v -> (forall s, v <> VStr s) -> Normal h -> Shown v (events h) -> HtmlValue h v' -> Converts THtml v v'
| cv_block v h v' : ~ IsFunction v -> Normal h -> Shown v (events h) -> ~ InlineLevel h -> HtmlValue h v' -> Converts TBlock v v'
| cv_paragraph v h : ~ IsFunction v -> Normal h -> Shown v (events h) -> InlineLevel h -> Converts TBlock v (VHtml (HTag (lit "p") [] h))
| cv_inline v h v' : ~ IsFunction v -> ~ IsCollection v -> (forall s, v <> VStr s) -> Normal h -> Shown v (events h) -> ~ BlockLevel h ->
    HtmlValue h v' -> Converts TInline v v'.

(** The value [v] cannot be converted to [t]: [expected] and [was] are reported, the type expected and the type of the value,
    or of the first part of it that is at fault. *)
Inductive Refused : ty -> value -> ty -> ty -> Prop :=
| rf_optional t v expected was : v <> UNIT -> Refused t v expected was -> Refused (TOptional t) v expected was
| rf_list t good v rest expected was : Forall (fun w => exists w', Converts t w w') good -> Refused t v expected was ->
    Refused (TList t) (VList (good ++ v :: rest)) expected was
| rf_dict t good k v rest expected was : Forall (fun kw => exists w', Converts t (snd kw) w') good -> Refused t v expected was ->
    Refused (TDict t) (VDict (good ++ (k, v) :: rest)) expected was
| rf_here t v : (forall t', t <> TOptional t') -> (forall t' vs, ~ (t = TList t' /\ v = VList vs)) -> (forall t' vs, ~ (t = TDict t' /\ v = VDict vs)) ->
    (forall v', ~ Converts t v v') -> Refused t v t (get_type v).
