(** The documentation of the built-in functions, for property C70. *)
From Coq Require Import DecimalString.
From Verif Require Import Base M_Names M_Types M_Value.

(** ** How a signature is written *)

Fixpoint show_type (t : ty) : str :=
  match t with
  | TUnit => lit "none" | TAny => lit "any" | THtml => lit "html" | TBlock => lit "block html" | TInline => lit "inline html"
  | TBool => lit "bool" | TInt => lit "int" | TStr => lit "str" | TFunction => lit "function" | TRegex => lit "regex"
  | TDict t => show_type t ++ lit " dict"
  | TList t => show_type t ++ lit " list"
  | TOptional t => show_type t ++ lit "?"
  end.
(** Only the values that occur as default values *)
Definition show_default (d : option value) : str :=
  match d with
  | None => []
  | Some (VBool true) => lit " = True"
  | Some (VBool false) => lit " = False"
  | Some (VInt i) => lit " = " ++ lit (NilZero.string_of_int (Z.to_int i))
  | Some (VHtml HEmpty) => lit " = ."
  | Some _ => lit " = ?"
  end.
(** [before] is "$_" for positional parameters, "$" for named ones, with stars for the spread ones *)
Definition show_param (before : str) (p : fparam) : str :=
  before ++ p_name p ++ lit ": " ++ (if p_implicit p then lit "@implicit " else []) ++ show_type (p_type p) ++ show_default (p_default p).
Definition show_params (s : fsig) : list str :=
  map (show_param (lit "$_")) (s_positional s)
  ++ match s_spread s with Some p => [show_param (lit "*$_") p] | None => [] end
  ++ map (fun kp => show_param (lit "$") (snd kp)) (s_named s)
  ++ match s_spread_named s with Some p => [show_param (lit "**$") p] | None => [] end.
Fixpoint with_commas (l : list str) : str :=
  match l with [] => [] | [a] => a | a :: l => a ++ lit ", " ++ with_commas l end.
(** The content parameter of a function without content is called "<anonymous>" and has type none. *)
Definition show_sig (s : fsig) : str :=
  let content := show_param (lit "$") (s_content s) in
  let content := if str_eqb content (lit "$<anonymous>: none") then [] else content in
  match show_params s, content with
  | [], _ => content
  | ps, [] => lit "(" ++ with_commas ps ++ lit ")"
  | ps, _ => lit "(" ++ with_commas ps ++ lit ") " ++ content
  end.

(** ** The documentation *)

(** How a function is called as a method of a value of the type its group is named after: not at all, with the value as first
    positional argument, or with the value as content *)
Inductive method := NoMethod | Argument | Content.
(** Group, name, function, signature, method *)
Inductive builtin := B (group name : string) (f : native_func) (sig : string) (m : method).
Local Open Scope string_scope.
Definition builtins : list builtin :=
  [
   B "bool" "and" BoolAnd "($_a: bool, $_b: bool)" Argument;
   B "bool" "from" BoolFrom "$param: any" NoMethod;
   B "bool" "or" BoolOr "($_a: bool, $_b: bool)" Argument;
   B "bool" "negate" BoolNegate "$param: bool" Content;
   B "int" "add" IntAdd "(*$_args: int list)" Argument;
   B "int" "negate" IntNegate "$param: int" Content;
   B "int" "parse" IntParse "$param: str" NoMethod;
   B "str" "ends_with" StrEndsWith "($_a: str, $_b: str)" Argument;
   B "str" "escape_html" StrEscapeHtml "$str: str" Content;
   B "str" "from" StrFrom "$param: str" NoMethod;
   B "str" "is_empty" StrIsEmpty "$str: str" Content;
   B "str" "is_whitespace" StrIsWhitespace "$str: str" Content;
   B "str" "len" StrLen "$str: str" Content;
   B "str" "lower" StrLower "$str: str" Content;
   B "str" "split" StrSplit "($_sep: str) $str: str" Content;
   B "str" "starts_with" StrStartsWith "($_a: str, $_b: str)" Argument;
   B "str" "trim" StrTrim "$str: str" Content;
   B "str" "unique_id" StrUniqueId "($max_length: int = 128) $base: str" Content;
   B "str" "upper" StrUpper "$str: str" Content;
   B "regex" "compile" RegexCompile "$source: str" NoMethod;
   B "regex" "count" RegexCount "($_regex: regex) $str: str" Argument;
   B "regex" "find" RegexFind "($_regex: regex) $str: str" Argument;
   B "regex" "find_all" RegexFindAll "($_regex: regex) $str: str" Argument;
   B "regex" "split" RegexSplit "($_regex: regex) $str: str" Argument;
   B "regex" "test" RegexTest "($_regex: regex) $str: str" Argument;
   B "function" "bind" FunctionBind "($_function: function, *$_args: any list, **$kwargs: any dict) $param: any" Argument;
   B "function" "name" FunctionName "$function: function" Content;
   B "html" "escape_html" HtmlEscapeHtml "$html: html" Content;
   B "html" "is_empty" HtmlIsEmpty "$html: html" Content;
   B "html" "is_whitespace" HtmlIsWhitespace "$html: html" Content;
   B "html" "parse" HtmlParse "$param: str" NoMethod;
   B "list" "all" ListAll "($_function: function) $list: any list" Content;
   B "list" "any" ListAny "($_function: function) $list: any list" Content;
   B "list" "contains" ListContains "($_param: any) $list: any list" Content;
   B "list" "enumerate" ListEnumerate "($from: int = 0) $list: any list" Content;
   B "list" "filter" ListFilter "($_function: function? = .) $list: any list" Content;
   B "list" "find" ListFind "($_function: function) $list: any list" Content;
   B "list" "flat" ListFlat "$list: any list" Content;
   B "list" "get" ListGet "($_i: int) $list: any list" Content;
   B "list" "html_nodes" ListHtmlNodes "$html: html" NoMethod;
   B "list" "is_empty" ListIsEmpty "$list: any list" Content;
   B "list" "join" ListJoin "($_sep: html = .) $list: html list" Content;
   B "list" "len" ListLen "$list: any list" Content;
   B "list" "map" ListMap "($_function: function) $list: any list" Content;
   B "list" "slice" ListSlice "($_a: int, $_b: int? = .) $list: any list" Content;
   B "list" "sorted" ListSorted "($key: function? = ., $reversed: bool = False) $list: any list" Content;
   B "list" "reversed" ListReversed "$list: any list" NoMethod;
   B "dict" "get" DictGet "($_key: str) $dict: any dict" NoMethod;
   B "dict" "is_empty" DictIsEmpty "$dict: any dict" NoMethod;
   B "dict" "items" DictItems "$dict: any dict" NoMethod;
   B "dict" "keys" DictKeys "$dict: any dict" NoMethod;
   B "dict" "len" DictLen "$dict: any dict" NoMethod;
   B "dict" "new" DictNew "(**$kwargs: any dict)" NoMethod;
   B "dict" "values" DictValues "$dict: any dict" NoMethod;
   B "file" "list" FileList "$path: str" NoMethod;
   B "file" "read" FileRead "$path: str" NoMethod;
   B "file" "write" FileWrite "($_path: str) $html: html" NoMethod;
   B "net" "fetch_raw" NetFetchRaw "$path: str" NoMethod;
   B "net" "fetch_html" NetFetchHtml "$path: str" NoMethod;
   B "" "code" FCode "($language: @implicit str? = ., $code_block: bool = False, $first_line_no: int = 1) $source: str" NoMethod;
   B "" "import" FImport "$path: str" NoMethod;
   B "" "include" FInclude "$path: str" NoMethod;
   B "" "raise" FRaise "$str: str" NoMethod
  ].
Local Close Scope string_scope.

(** The value [v] is the function [f] with the name [n] and the signature written [sig]. *)
Definition IsBuiltin (f : native_func) (n sig : string) (v : value) : Prop :=
  exists s, v = VFunc (FNative f (lit n) s) /\ show_sig s = lit sig /\ (forall k p, In (k, p) (s_named s) -> k = p_name p).
(** What a name stands for outside of all definitions: a function without a group, or a group with exactly its functions *)
Inductive Documented : str -> value -> Prop :=
| doc_function n f sig m v : In (B "" n f sig m) builtins -> IsBuiltin f n sig v -> Documented (lit n) v
| doc_group g vs : g <> ""%string ->
    (forall n v, ngetm vs n = Some v -> exists n' f sig m, n = lit n' /\ In (B g n' f sig m) builtins /\ IsBuiltin f n' sig v) ->
    (forall n f sig m, In (B g n f sig m) builtins -> exists v, ngetm vs (lit n) = Some v /\ IsBuiltin f n sig v) ->
    Documented (lit g) (VDict vs).
(** The name under which a program finds the function: its group's or its own *)
Definition found_under (b : builtin) : str := let '(B g n _ _ _) := b in if String.eqb g "" then lit n else lit g.

(** The group of functions that is named after the type of a value *)
Definition group_of (v : value) : string :=
  match v with
  | VBool _ => "bool" | VInt _ => "int" | VStr _ => "str" | VRegex _ => "regex" | VFunc _ => "function" | VHtml _ => "html"
  | VList _ => "list" | VDict _ => "dict"
  end.
