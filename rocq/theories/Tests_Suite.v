(** The project's own integration tests (/repo/tests/*.rs), run on the model: all of them, as they stand. This is a check
    of the model against known results of the code, and is no proof of any property. *)
From Verif Require Import Base M_Text M_Names M_Html M_HtmlParse M_Render M_Path M_Types M_Token M_Diag M_Ast M_Value M_State M_Native M_Eval M_Lib.

Definition table {A} (d : A) (t : list (str * A)) (k : str) : A := match find (fun e => str_eqb (fst e) k) t with Some e => snd e | None => d end.
Definition some_str (s : string) : option str := Some (lit s).
(** What the foreign libraries answer to the calls the tests make of them *)
Definition suite_X : externals :=
  {| x_checks := true;
     x_deunicode := List.map (fun c => if (c =? 244)%N then 111%N else c);
     x_lower := List.map to_ascii_lower;
     x_upper := List.map (fun c => if ((97 <=? c) && (c <=? 122))%N then (c - 32)%N else c);
     x_regex := table (Some [])
       [(lit "([a-z]+)([0-9]+)", Some [None; None]);
        (lit "(?P<letters>[a-z]+)(?P<numbers>[0-9]+)", Some [some_str "letters"; some_str "numbers"])];
     x_captures := table (fun _ => None)
       [(lit "^(?s:(.+?)\s+(.+?))$", table None [(lit "foo bar", Some [some_str "foo bar"; some_str "foo"; some_str "bar"])]);
        (lit "^(?s:hello\s+(.+?))$", table None [(lit "hello world", Some [some_str "hello world"; some_str "world"])]);
        (lit ".*", table None [(lit "foo bar", Some [some_str "foo bar"])]);
        (lit "[a-z]*", table None [(lit "foo bar", Some [some_str "foo"])]);
        (lit "([a-z]+)([0-9]+)", table None [(lit "foo123 bar456", Some [some_str "foo123"; some_str "foo"; some_str "123"])]);
        (lit "(?P<letters>[a-z]+)(?P<numbers>[0-9]+)",
         table None [(lit "foo123 bar456", Some [some_str "foo123"; some_str "foo"; some_str "123"])])];
     x_captures_iter := table (fun _ => [])
       [(lit "[a-z]*", table [] [(lit "foo bar", [[some_str "foo"]; [some_str "bar"]])]);
        (lit "([a-z]+)([0-9]+)", table []
          [(lit "foo123 bar456", [[some_str "foo123"; some_str "foo"; some_str "123"]; [some_str "bar456"; some_str "bar"; some_str "456"]])]);
        (lit "(?P<letters>[a-z]+)(?P<numbers>[0-9]+)", table []
          [(lit "foo123 bar456", [[some_str "foo123"; some_str "foo"; some_str "123"]; [some_str "bar456"; some_str "bar"; some_str "456"]])])];
     x_is_match := fun _ _ => false; x_find_count := fun _ _ => 0;
     x_split := table (fun s => [s]) [(lit "\s+", table [] [(lit "foo   bar  baz", [lit "foo"; lit "bar"; lit "baz"])])];
     x_decode := table [] [(lit "&quot;", [34%N]); (lit "&#65;", [65%N]); (lit "&#x41;", [65%N])];
     x_html_parse := fun s => ([s], DDocument []); x_syntect := fun _ _ => None; x_fetch := None;
     x_read := fun _ => None; x_canonicalize := fun _ => None; x_list_dir := fun _ => None |}.

(** tests/common/mod.rs *)
Definition gives (s : str) (r : outcome compiled) : bool := match r with Ret (Document t) => str_eqb s t | _ => false end.
Definition reports (p : papyri_error -> bool) (r : outcome compiled) : bool :=
  match r with Ret (Diagnostics ds) => existsb p ds | _ => false end.
Definition suite : list (str * str * (outcome compiled -> bool)) := [
  (* tests/basic.rs:5 hello_world *)
  (lit "basic.hello_world", lit "Hello, world!", gives (lit "<p>Hello, world!</p>"));
  (* tests/basic.rs:10 paragraph_break *)
  (lit "basic.paragraph_break", lit "Paragraph 1

Paragraph 2", gives (lit "<p>Paragraph 1</p><p>Paragraph 2</p>"));
  (* tests/basic.rs:15 code_inline *)
  (lit "basic.code_inline", lit "`some_code`", gives (lit "<p><code>some_code</code></p>"));
  (* tests/basic.rs:20 variable *)
  (lit "basic.variable", lit "@let(x=5) {$x $x}", gives (lit "<p>5 5</p>"));
  (* tests/basic.rs:25 line_comment *)
  (lit "basic.line_comment", lit "# Nothing
Something", gives (lit "<p>Something</p>"));
  (* tests/basic.rs:30 multiline_comment *)
  (lit "basic.multiline_comment", lit "<!-- Nothing
here -->
Something", gives (lit "<p>Something</p>"));
  (* tests/basic.rs:35 escaped_comment *)
  (lit "basic.escaped_comment", lit "\# not a comment", gives (lit "<p># not a comment</p>"));
  (* tests/basic.rs:42 let_multiple *)
  (lit "basic.let_multiple", lit "@match @let(x=5, y=$x) $y { 5 -> OK, $val -> {Failed: was $val} }", gives (lit "<p>OK</p>"));
  (* tests/dict.rs:5 attr_access *)
  (lit "dict.attr_access", lit "@match @let(foo=@dict::new(x=23).) $foo::x { 23 -> OK, $val -> {Failed: was $val} }", gives (lit "<p>OK</p>"));
  (* tests/dict.rs:10 attr_access_nested *)
  (lit "dict.attr_access_nested", lit "@match @let(foo=@dict::new(bar=@dict::new(x=23).).) $foo::bar::x { 23 -> OK, $val -> {Failed: was $val} }", gives (lit "<p>OK</p>"));
  (* tests/dict.rs:15 attr_access_coalesce *)
  (lit "dict.attr_access_coalesce", lit "@match @let(foo=.) $foo?::x { . -> OK, $val -> {Failed: was $val} }", gives (lit "<p>OK</p>"));
  (* tests/dict.rs:20 get *)
  (lit "dict.get", lit "@match @let(foo=@dict::new(x=23)., key=`x`) @dict::get($key) $foo { 23 -> OK, $val -> {Failed: was $val} }", gives (lit "<p>OK</p>"));
  (* tests/dict.rs:25 len *)
  (lit "dict.len", lit "@match @dict::len @dict::new(x=3, y=4). { 2 -> OK, $val -> {Failed: was $val} }", gives (lit "<p>OK</p>"));
  (* tests/dict.rs:30 keys *)
  (lit "dict.keys", lit "@match @dict::keys @dict::new(x=3, y=4). { =[x, y] -> OK, $val -> {Failed: was $val} }", gives (lit "<p>OK</p>"));
  (* tests/dict.rs:35 values *)
  (lit "dict.values", lit "@match @dict::values @dict::new(x=3, y=4). { =[3, 4] -> OK, $val -> {Failed: was $val} }", gives (lit "<p>OK</p>"));
  (* tests/dict.rs:40 items *)
  (lit "dict.items", lit "@match @dict::items @dict::new(x=3, y=4). { =[[x, 3], [y, 4]] -> OK, $val -> {Failed: was $val} }", gives (lit "<p>OK</p>"));
  (* tests/dict.rs:47 no_such_attr *)
  (lit "dict.no_such_attr", lit "@let(foo=@dict::new(x=23).) $foo::y", reports (fun e => match e with NameErr (NoSuchAttribute _ _) => true | _ => false end));
  (* tests/dict.rs:52 get_key_missing *)
  (lit "dict.get_key_missing", lit "@let(foo=@dict::new(x=23)., key=`y`) @dict::get($key) $foo", reports (fun e => match e with NameErr (NoSuchAttribute _ _) => true | _ => false end));
  (* tests/func.rs:5 simple_function *)
  (lit "func.simple_function", lit "@b Something", gives (lit "<p><b>Something</b></p>"));
  (* tests/func.rs:10 positional_argument *)
  (lit "func.positional_argument", lit "@href(`foo.html`) Foo", gives (lit "<p><a href=""foo.html"">Foo</a></p>"));
  (* tests/func.rs:15 named_argument *)
  (lit "func.named_argument", lit "@image(alt=`Foo`) `foo.png`", gives (lit "<p><img src=""foo.png"" alt=""Foo""></p>"));
  (* tests/func.rs:20 optional_argument *)
  (lit "func.optional_argument", lit "@image `foo.png`", gives (lit "<p><img src=""foo.png""></p>"));
  (* tests/func.rs:25 group_function *)
  (lit "func.group_function", lit "@b {Something else}", gives (lit "<p><b>Something else</b></p>"));
  (* tests/func.rs:30 ellipsis_contents *)
  (lit "func.ellipsis_contents", lit "@b ... Hello, world!", gives (lit "<p><b>Hello, world!</b></p>"));
  (* tests/func.rs:35 ellipsis_in_group *)
  (lit "func.ellipsis_in_group", lit "{@b ... Hello, world!} Oh.", gives (lit "<p><b>Hello, world!</b> Oh.</p>"));
  (* tests/func.rs:40 ellipsis_in_tag *)
  (lit "func.ellipsis_in_tag", lit "<span>@b ... Hello, world!</span> Oh.", gives (lit "<p><span><b>Hello, world!</b></span> Oh.</p>"));
  (* tests/func.rs:45 pos_spread *)
  (lit "func.pos_spread", lit "@fn foo(*$_v) $_ -> $_v
@foo(1, 2, 3).", gives (lit "<ul><li>1</li><li>2</li><li>3</li></ul>"));
  (* tests/func.rs:50 add_as_method *)
  (lit "func.add_as_method", lit "@let(x=1) @x::add(1).", gives (lit "<p>2</p>"));
  (* tests/func.rs:55 join_as_method *)
  (lit "func.join_as_method", lit "@let(foo=[1, 2, 3]) @foo::join(`, `).", gives (lit "<p>1, 2, 3</p>"));
  (* tests/func.rs:60 call_attr_function *)
  (lit "func.call_attr_function", lit "@let(foo=@dict::new(bar=@fn $_ -> 23).) @foo::bar.", gives (lit "<p>23</p>"));
  (* tests/func.rs:65 empty_content_param *)
  (lit "func.empty_content_param", lit "@fn foo . -> Foo
@foo.", gives (lit "<p>Foo</p>"));
  (* tests/func.rs:72 call_if_not_unit *)
  (lit "func.call_if_not_unit", lit "@match @let(foo=.) @foo?::bar. { . -> OK, $val -> {Failed: was $val} }", gives (lit "<p>OK</p>"));
  (* tests/func.rs:77 function_name *)
  (lit "func.function_name", lit "@match @let(bar=@fn foo $x -> $x) @bar::name. { `foo` -> OK, $val -> {Failed: was $val} }", gives (lit "<p>OK</p>"));
  (* tests/func.rs:82 bind_none *)
  (lit "func.bind_none", lit "@match @let(foo=@function::bind(@fn $_ -> 4).) @foo. { 4 -> OK, $val -> {Failed: was $val} }", gives (lit "<p>OK</p>"));
  (* tests/func.rs:87 bind_pos *)
  (lit "func.bind_pos", lit "@match @let(foo=@function::bind(@fn($_x, $_y) $_ -> [$_x, $_y], 1).) @foo(2). { =[1, 2] -> OK, $val -> {Failed: was $val} }", gives (lit "<p>OK</p>"));
  (* tests/func.rs:92 bind_named *)
  (lit "func.bind_named", lit "@match @let(foo=@function::bind(@fn($x, $y) $_ -> [$x, $y], x=1).) @foo(y=2). { =[1, 2] -> OK, $val -> {Failed: was $val} }", gives (lit "<p>OK</p>"));
  (* tests/func.rs:97 bind_pos_spread *)
  (lit "func.bind_pos_spread", lit "@match @let(foo=@function::bind(@fn(*$_v) $_ -> $_v, 1, 2).) @foo(3, 4). { =[1, 2, 3, 4] -> OK, $val -> {Failed: was $val} }", gives (lit "<p>OK</p>"));
  (* tests/func.rs:102 bind_named_spread *)
  (lit "func.bind_named_spread", lit "@match @let(foo=@function::bind(@fn(**$kw) $_ -> $kw, x=1, y=2).) @foo(z=3). { (x=1, y=2, z=3) -> OK, $val -> {Failed: was $val} }", gives (lit "<p>OK</p>"));
  (* tests/func.rs:107 bind_content *)
  (lit "func.bind_content", lit "@match @let(foo=@function::bind(@fn $v: int -> $v) 23) @foo. { 23 -> OK, $val -> {Failed: was $val} }", gives (lit "<p>OK</p>"));
  (* tests/func.rs:112 bind_as_method *)
  (lit "func.bind_as_method", lit "@match @let(foo=@fn($x, $y) $_ -> [$x, $y], foo_bound=@foo::bind(x=1).) @foo_bound(y=2). { =[1, 2] -> OK, $val -> {Failed: was $val} }", gives (lit "<p>OK</p>"));
  (* tests/func.rs:117 indirect_call *)
  (lit "func.indirect_call", lit "@match @let(foo=@fn($_x, $y) $z -> [$_x, $y, $z]) @function::call($foo, 1, y=2) 3 { =[1, 2, 3] -> OK, $val -> {Failed: was $val} }", gives (lit "<p>OK</p>"));
  (* tests/list.rs:5 basic_ul *)
  (lit "list.basic_ul", lit "[Hello, world]", gives (lit "<ul><li>Hello</li><li>world</li></ul>"));
  (* tests/list.rs:10 basic_ol *)
  (lit "list.basic_ol", lit "@numbered [Hello, world]", gives (lit "<ol><li>Hello</li><li>world</li></ol>"));
  (* tests/list.rs:15 nested *)
  (lit "list.nested", lit "[Hello, [Papyri, world]]", gives (lit "<ul><li>Hello</li><li><ul><li>Papyri</li><li>world</li></ul></li></ul>"));
  (* tests/list.rs:20 spread *)
  (lit "list.spread", lit "[Hello, *[Papyri, world]]", gives (lit "<ul><li>Hello</li><li>Papyri</li><li>world</li></ul>"));
  (* tests/list.rs:25 join *)
  (lit "list.join", lit "@list::join [Foo, Bar, Baz]", gives (lit "<p>FooBarBaz</p>"));
  (* tests/list.rs:30 join_with_separator *)
  (lit "list.join_with_separator", lit "@list::join(`, `) [Foo, Bar, Baz]", gives (lit "<p>Foo, Bar, Baz</p>"));
  (* tests/list.rs:35 join_with_html_separator *)
  (lit "list.join_with_html_separator", lit "@list::join(<span/>) [Foo, Bar, Baz]", gives (lit "<p>Foo<span></span>Bar<span></span>Baz</p>"));
  (* tests/list.rs:42 index *)
  (lit "list.index", lit "@match @let(foo=[2, 4, 6]) $foo::0 { 2 -> OK, $val -> {Failed: was $val} }", gives (lit "<p>OK</p>"));
  (* tests/list.rs:47 negative_index *)
  (lit "list.negative_index", lit "@match @let(foo=[2, 4, 6]) $foo::-1 { 6 -> OK, $val -> {Failed: was $val} }", gives (lit "<p>OK</p>"));
  (* tests/list.rs:52 len *)
  (lit "list.len", lit "@match @let(foo=[2, 4, 6]) @foo::len. { 3 -> OK, $val -> {Failed: was $val} }", gives (lit "<p>OK</p>"));
  (* tests/list.rs:57 is_empty *)
  (lit "list.is_empty", lit "@match @let(foo=[]) @foo::is_empty. { True -> OK, $val -> {Failed: was $val} }", gives (lit "<p>OK</p>"));
  (* tests/list.rs:62 is_not_empty *)
  (lit "list.is_not_empty", lit "@match @let(foo=[2, 4, 6]) @foo::is_empty. { False -> OK, $val -> {Failed: was $val} }", gives (lit "<p>OK</p>"));
  (* tests/list.rs:67 enumerate *)
  (lit "list.enumerate", lit "@match @list::enumerate [foo, bar, baz] { =[[0, foo], [1, bar], [2, baz]] -> OK, $val -> {Failed: was $val} }", gives (lit "<p>OK</p>"));
  (* tests/list.rs:72 enumerate_from *)
  (lit "list.enumerate_from", lit "@match @list::enumerate(from=4) [foo, bar, baz] { =[[4, foo], [5, bar], [6, baz]] -> OK, $val -> {Failed: was $val} }", gives (lit "<p>OK</p>"));
  (* tests/list.rs:77 filter_none *)
  (lit "list.filter_none", lit "@match @list::filter [1, 2, ., 3, ., 4] { =[1, 2, 3, 4] -> OK, $val -> {Failed: was $val} }", gives (lit "<p>OK</p>"));
  (* tests/list.rs:82 filter_predicate *)
  (lit "list.filter_predicate", lit "@match @list::filter(@fn $x -> $x) [True, True, False, True] { =[True, True, True] -> OK, $val -> {Failed: was $val} }", gives (lit "<p>OK</p>"));
  (* tests/list.rs:87 map *)
  (lit "list.map", lit "@match @list::map(@fn $x -> [$x, $x]) [1, 2, 3] { =[[1, 1], [2, 2], [3, 3]] -> OK, $val -> {Failed: was $val} }", gives (lit "<p>OK</p>"));
  (* tests/list.rs:92 slice *)
  (lit "list.slice", lit "@match @list::slice(2, 4) [0, 1, 2, 3, 4, 5] { =[2, 3] -> OK, $val -> {Failed: was $val} }", gives (lit "<p>OK</p>"));
  (* tests/list.rs:97 slice_negative *)
  (lit "list.slice_negative", lit "@match @list::slice(-2) [0, 1, 2, 3, 4, 5] { =[4, 5] -> OK, $val -> {Failed: was $val} }", gives (lit "<p>OK</p>"));
  (* tests/list.rs:102 slice_empty *)
  (lit "list.slice_empty", lit "@match @list::slice(2, 0) [0, 1, 2, 3, 4, 5] { =[] -> OK, $val -> {Failed: was $val} }", gives (lit "<p>OK</p>"));
  (* tests/list.rs:107 sorted_ints *)
  (lit "list.sorted_ints", lit "@match @list::sorted [5, 3, 4, 1, 2] { =[1, 2, 3, 4, 5] -> OK, $val -> {Failed: was $val} }", gives (lit "<p>OK</p>"));
  (* tests/list.rs:112 sorted_strings *)
  (lit "list.sorted_strings", lit "@match @list::sorted [`foo`, `bar`, `baz`] { =[`bar`, `baz`, `foo`] -> OK, $val -> {Failed: was $val} }", gives (lit "<p>OK</p>"));
  (* tests/list.rs:117 sorted_int_keys *)
  (lit "list.sorted_int_keys", lit "@match @list::sorted(key=@fn $p -> $p::0) [[5, True], [3, False], [4, True], [1, False], [2, True]] { =[[1, False], [2, True], [3, False], [4, True], [5, True]] -> OK, $val -> {Failed: was $val} }", gives (lit "<p>OK</p>"));
  (* tests/list.rs:122 sorted_string_keys *)
  (lit "list.sorted_string_keys", lit "@match @list::sorted(key=@fn $p -> $p::0) [[`foo`, 1], [`bar`, 2], [`baz`, 3]] { =[[`bar`, 2], [`baz`, 3], [`foo`, 1]] -> OK, $val -> {Failed: was $val} }", gives (lit "<p>OK</p>"));
  (* tests/list.rs:127 sorted_int_as_string *)
  (lit "list.sorted_int_as_string", lit "@match @list::sorted(key=$str::from) [1, 3, 22, 15] { =[1, 15, 22, 3] -> OK, $val -> {Failed: was $val} }", gives (lit "<p>OK</p>"));
  (* tests/list.rs:132 sort_reversed *)
  (lit "list.sort_reversed", lit "@match @list::sorted(reversed=True) [4, 2, 3, 5, 1] { =[5, 4, 3, 2, 1] -> OK, $val -> {Failed: was $val} }", gives (lit "<p>OK</p>"));
  (* tests/list.rs:139 index_out_of_bounds *)
  (lit "list.index_out_of_bounds", lit "@let(foo=[2, 4, 6]) $foo::3", reports (fun e => match e with RuntimeErr (IndexOutOfRange _ _) => true | _ => false end));
  (* tests/list.rs:144 negative_index_out_of_bounds *)
  (lit "list.negative_index_out_of_bounds", lit "@let(foo=[2, 4, 6]) $foo::-4", reports (fun e => match e with RuntimeErr (IndexOutOfRange _ _) => true | _ => false end));
  (* tests/matcher.rs:4 wildcard *)
  (lit "matcher.wildcard", lit "@match 23 { _ -> OK, $val -> {Failed: was $val} }", gives (lit "<p>OK</p>"));
  (* tests/matcher.rs:6 literal_int *)
  (lit "matcher.literal_int", lit "@match 23 { 23 -> OK, $val -> {Failed: was $val} }", gives (lit "<p>OK</p>"));
  (* tests/matcher.rs:7 literal_str *)
  (lit "matcher.literal_str", lit "@match `foobar` { `foobar` -> OK, $val -> {Failed: was $val} }", gives (lit "<p>OK</p>"));
  (* tests/matcher.rs:8 literal_bool *)
  (lit "matcher.literal_bool", lit "@match True { True -> OK, $val -> {Failed: was $val} }", gives (lit "<p>OK</p>"));
  (* tests/matcher.rs:9 literal_list *)
  (lit "matcher.literal_list", lit "@match [1, 2] { [1, 2] -> OK, $val -> {Failed: was $val} }", gives (lit "<p>OK</p>"));
  (* tests/matcher.rs:10 literal_dict *)
  (lit "matcher.literal_dict", lit "@match @dict::new(x=1, y=2). { (x=1, y=2) -> OK, $val -> {Failed: was $val} }", gives (lit "<p>OK</p>"));
  (* tests/matcher.rs:12 unit_dot_dot *)
  (lit "matcher.unit_dot_dot", lit "@match . { . -> OK, $val -> {Failed: was $val} }", gives (lit "<p>OK</p>"));
  (* tests/matcher.rs:13 unit_dot_braces *)
  (lit "matcher.unit_dot_braces", lit "@match . { {} -> OK, $val -> {Failed: was $val} }", gives (lit "<p>OK</p>"));
  (* tests/matcher.rs:14 unit_braces_dot *)
  (lit "matcher.unit_braces_dot", lit "@match {} { . -> OK, $val -> {Failed: was $val} }", gives (lit "<p>OK</p>"));
  (* tests/matcher.rs:15 unit_braces_braces *)
  (lit "matcher.unit_braces_braces", lit "@match {} { {} -> OK, $val -> {Failed: was $val} }", gives (lit "<p>OK</p>"));
  (* tests/matcher.rs:16 typed_unit_dot *)
  (lit "matcher.typed_unit_dot", lit "@match . { _: none -> OK, $val -> {Failed: was $val} }", gives (lit "<p>OK</p>"));
  (* tests/matcher.rs:17 typed_unit_braces *)
  (lit "matcher.typed_unit_braces", lit "@match {} { _: none -> OK, $val -> {Failed: was $val} }", gives (lit "<p>OK</p>"));
  (* tests/matcher.rs:19 typed_int *)
  (lit "matcher.typed_int", lit "@match 23 { _: int -> OK, $val -> {Failed: was $val} }", gives (lit "<p>OK</p>"));
  (* tests/matcher.rs:20 typed_str *)
  (lit "matcher.typed_str", lit "@match `foobar` { _: str -> OK, $val -> {Failed: was $val} }", gives (lit "<p>OK</p>"));
  (* tests/matcher.rs:21 typed_bool *)
  (lit "matcher.typed_bool", lit "@match True { _: bool -> OK, $val -> {Failed: was $val} }", gives (lit "<p>OK</p>"));
  (* tests/matcher.rs:22 typed_list *)
  (lit "matcher.typed_list", lit "@match [1, 2] { _: int list -> OK, $val -> {Failed: was $val} }", gives (lit "<p>OK</p>"));
  (* tests/matcher.rs:23 typed_dict *)
  (lit "matcher.typed_dict", lit "@match @dict::new(x=1, y=2). { _: int dict -> OK, $val -> {Failed: was $val} }", gives (lit "<p>OK</p>"));
  (* tests/matcher.rs:24 typed_function *)
  (lit "matcher.typed_function", lit "@match @fn $x -> $x { _: function -> OK, $val -> {Failed: was $val} }", gives (lit "<p>OK</p>"));
  (* tests/matcher.rs:26 spread_list *)
  (lit "matcher.spread_list", lit "@match [1, 2, 3] { [1, *[2, 3]] -> OK, $val -> {Failed: was $val} }", gives (lit "<p>OK</p>"));
  (* tests/matcher.rs:27 spread_dict *)
  (lit "matcher.spread_dict", lit "@match @dict::new(x=1, y=2, z=3). { (x=1, **(y=2, z=3)) -> OK, $val -> {Failed: was $val} }", gives (lit "<p>OK</p>"));
  (* tests/matcher.rs:28 equals_dict *)
  (lit "matcher.equals_dict", lit "@match @dict::new(x=1, y=2, z=3). { =@dict::new(z=3, y=2, x=1). -> OK, $val -> {Failed: was $val} }", gives (lit "<p>OK</p>"));
  (* tests/matcher.rs:30 spread_list_wildcard *)
  (lit "matcher.spread_list_wildcard", lit "@match [1, 2, 3] { [1, ...] -> OK, $val -> {Failed: was $val} }", gives (lit "<p>OK</p>"));
  (* tests/matcher.rs:31 spread_dict_wildcard *)
  (lit "matcher.spread_dict_wildcard", lit "@match @dict::new(x=1, y=2, z=3). { (x=1, ...) -> OK, $val -> {Failed: was $val} }", gives (lit "<p>OK</p>"));
  (* tests/matcher.rs:32 spread_tag_wildcard *)
  (lit "matcher.spread_tag_wildcard", lit "@match <a href=""foo.html"">foo</a> { <a ...> _ </a> -> OK, $val -> {Failed: was $val} }", gives (lit "<p>OK</p>"));
  (* tests/matcher.rs:34 tag_simple *)
  (lit "matcher.tag_simple", lit "@match <span>Foo</span> { <span> _ </span> -> OK, $val -> {Failed: was $val} }", gives (lit "<p>OK</p>"));
  (* tests/matcher.rs:35 tag_empty *)
  (lit "matcher.tag_empty", lit "@match <span/> { <span/> -> OK, $val -> {Failed: was $val} }", gives (lit "<p>OK</p>"));
  (* tests/matcher.rs:36 tag_attr *)
  (lit "matcher.tag_attr", lit "@match <span id=`foobar`>Foo</span> { <span id=`foobar`> _ </span> -> OK, $val -> {Failed: was $val} }", gives (lit "<p>OK</p>"));
  (* tests/matcher.rs:37 tag_wildcard_name *)
  (lit "matcher.tag_wildcard_name", lit "@match <span>Foo</span> { <_> _ </> -> OK, $val -> {Failed: was $val} }", gives (lit "<p>OK</p>"));
  (* tests/matcher.rs:38 tag_seq *)
  (lit "matcher.tag_seq", lit "@match {<a/><b/><i/>} { {<a/><b/><i/>} -> OK, $val -> {Failed: was $val} }", gives (lit "<p>OK</p>"));
  (* tests/matcher.rs:39 tag_spread *)
  (lit "matcher.tag_spread", lit "@match {<a/><b/><i/><u/>} { {<a/> *_ <u/>} -> OK, $val -> {Failed: was $val} }", gives (lit "<p>OK</p>"));
  (* tests/matcher.rs:40 tag_one_in_seq *)
  (lit "matcher.tag_one_in_seq", lit "@match <span/> { {<span/>} -> OK, $val -> {Failed: was $val} }", gives (lit "<p>OK</p>"));
  (* tests/matcher.rs:41 html_text_seq *)
  (lit "matcher.html_text_seq", lit "@match {Foo} { {_} -> OK, $val -> {Failed: was $val} }", gives (lit "<p>OK</p>"));
  (* tests/matcher.rs:42 html_text_seq_spread *)
  (lit "matcher.html_text_seq_spread", lit "@match {Foo} { {*_} -> OK, $val -> {Failed: was $val} }", gives (lit "<p>OK</p>"));
  (* tests/matcher.rs:44 equals_captured_var *)
  (lit "matcher.equals_captured_var", lit "@match [23, 23] { [$x, =$x] -> OK, $val -> {Failed: was $val} }", gives (lit "<p>OK</p>"));
  (* tests/matcher.rs:45 var_and_literal *)
  (lit "matcher.var_and_literal", lit "@match [23, 23] { [23 & $x, 23 & =$x] -> OK, $val -> {Failed: was $val} }", gives (lit "<p>OK</p>"));
  (* tests/matcher.rs:46 var_and_template *)
  (lit "matcher.var_and_template", lit "@match [`foo bar`, [`foo bar`, `foo`, `bar`]] { [$x & '$a $b', =[$x, $a, $b]] -> OK, $val -> {Failed: was $val} }", gives (lit "<p>OK</p>"));
  (* tests/matcher.rs:48 or_left *)
  (lit "matcher.or_left", lit "@match 1 { 1 | 2 -> OK, $val -> {Failed: was $val} }", gives (lit "<p>OK</p>"));
  (* tests/matcher.rs:49 or_right *)
  (lit "matcher.or_right", lit "@match 2 { 1 | 2 -> OK, $val -> {Failed: was $val} }", gives (lit "<p>OK</p>"));
  (* tests/matcher.rs:50 and_or_precedence *)
  (lit "matcher.and_or_precedence", lit "@match 1 { 1 | 2 & 3 -> OK, $val -> {Failed: was $val} }", gives (lit "<p>OK</p>"));
  (* tests/matcher.rs:55 equals_value *)
  (lit "matcher.equals_value", lit "@let(x=23, y=17) @match 17 {=$x -> {Failed (equals x)}, =$y -> OK, _ -> Failed}", gives (lit "<p>OK</p>"));
  (* tests/matcher.rs:60 list_part *)
  (lit "matcher.list_part", lit "@match [1, 2, 3] {[$x, *_] -> $x}", gives (lit "<p>1</p>"));
  (* tests/matcher.rs:65 dict_part *)
  (lit "matcher.dict_part", lit "@match @dict::new(x=1, y=2, z=3). {(x=$x, **_) -> $x}", gives (lit "<p>1</p>"));
  (* tests/matcher.rs:70 template_part *)
  (lit "matcher.template_part", lit "@match `hello world` {""hello $x"" -> $x}", gives (lit "<p>world</p>"));
  (* tests/matcher.rs:75 tag_part *)
  (lit "matcher.tag_part", lit "@match {<a/><b>Foo</b><i/>} {{<a/>$x<i/>} -> $x}", gives (lit "<p><b>Foo</b></p>"));
  (* tests/matcher.rs:80 tag_spread_part *)
  (lit "matcher.tag_spread_part", lit "@match {<a/><b>Foo</b><b>Bar</b><i/>} {{<a/>*$x<i/>} -> $x}", gives (lit "<p><b>Foo</b><b>Bar</b></p>"));
  (* tests/matcher.rs:85 type_of *)
  (lit "matcher.type_of", lit "@match `foobar` {_: $t -> $t}", gives (lit "<p>str</p>"));
  (* tests/matcher.rs:90 or_left_bind *)
  (lit "matcher.or_left_bind", lit "@match 123 {$x | $y -> [$x, $y]}", gives (lit "<ul><li>123</li><li></li></ul>"));
  (* tests/matcher.rs:95 or_right_bind *)
  (lit "matcher.or_right_bind", lit "@match 123 {$x: bool | $y -> [$x, $y]}", gives (lit "<ul><li></li><li>123</li></ul>"));
  (* tests/matcher.rs:101 literal_in_html *)
  (lit "matcher.literal_in_html", lit "@match 5 {{5} -> OK}", reports (fun e => match e with SyntaxErr PatternCannotMatchHTML => true | _ => false end));
  (* tests/matcher.rs:102 no_matching_branch *)
  (lit "matcher.no_matching_branch", lit "@match 5 {6 -> Fail}", reports (fun e => match e with RuntimeErr NoMatchingBranch => true | _ => false end));
  (* tests/native.rs:5 add *)
  (lit "native.add", lit "@match @int::add(1, 1). { 2 -> OK, $val -> {Failed: was $val} }", gives (lit "<p>OK</p>"));
  (* tests/native.rs:10 negate *)
  (lit "native.negate", lit "@match @let(x=4) @x::negate. { -4 -> OK, $val -> {Failed: was $val} }", gives (lit "<p>OK</p>"));
  (* tests/native.rs:15 escape_html *)
  (lit "native.escape_html", lit "@match @let(x=`<foo>&</foo>`) @x::escape_html. { `&lt;foo&gt;&amp;&lt;/foo&gt;` -> OK, $val -> {Failed: was $val} }", gives (lit "<p>OK</p>"));
  (* tests/native.rs:20 unique_id *)
  (lit "native.unique_id", lit "@match [@str::unique_id foo, @str::unique_id foo, @str::unique_id bar, @str::unique_id foo] { =[`foo`, `foo_2`, `bar`, `foo_3`] -> OK, $val -> {Failed: was $val} }", gives (lit "<p>OK</p>"));
  (* tests/native.rs:25 unique_id_transliterate_unicode *)
  (lit "native.unique_id_transliterate_unicode", lit "@match @str::unique_id `l'H" ++ [244%N] ++ lit "pital's rule` { `l_hopital_s_rule` -> OK, $val -> {Failed: was $val} }", gives (lit "<p>OK</p>"));
  (* tests/native.rs:31 raise *)
  (lit "native.raise", lit "@raise `foobar`", reports (fun e => match e with RuntimeErr (Raised _) => true | _ => false end));
  (* tests/regex.rs:5 compile *)
  (lit "regex.compile", lit "@match @regex::compile `.*` { _: regex -> OK, $val -> {Failed: was $val} }", gives (lit "<p>OK</p>"));
  (* tests/regex.rs:10 whole_string *)
  (lit "regex.whole_string", lit "@match @regex::find(@regex::compile `.*`) `foo bar` { `foo bar` -> OK, $val -> {Failed: was $val} }", gives (lit "<p>OK</p>"));
  (* tests/regex.rs:15 char_class *)
  (lit "regex.char_class", lit "@match @regex::find(@regex::compile `[a-z]*`) `foo bar` { `foo` -> OK, $val -> {Failed: was $val} }", gives (lit "<p>OK</p>"));
  (* tests/regex.rs:20 char_class_all *)
  (lit "regex.char_class_all", lit "@match @regex::find_all(@regex::compile `[a-z]*`) `foo bar` { =[`foo`, `bar`] -> OK, $val -> {Failed: was $val} }", gives (lit "<p>OK</p>"));
  (* tests/regex.rs:25 capture_groups *)
  (lit "regex.capture_groups", lit "@match @regex::find(@regex::compile `([a-z]+)([0-9]+)`) `foo123 bar456` { =[`foo123`, `foo`, `123`] -> OK, $val -> {Failed: was $val} }", gives (lit "<p>OK</p>"));
  (* tests/regex.rs:30 capture_groups_all *)
  (lit "regex.capture_groups_all", lit "@match @regex::find_all(@regex::compile `([a-z]+)([0-9]+)`) `foo123 bar456` { =[[`foo123`, `foo`, `123`], [`bar456`, `bar`, `456`]] -> OK, $val -> {Failed: was $val} }", gives (lit "<p>OK</p>"));
  (* tests/regex.rs:35 named_capture_groups *)
  (lit "regex.named_capture_groups", lit "@match @regex::find(@regex::compile `(?P<letters>[a-z]+)(?P<numbers>[0-9]+)`) `foo123 bar456` { (letters=`foo`, numbers=`123`) -> OK, $val -> {Failed: was $val} }", gives (lit "<p>OK</p>"));
  (* tests/regex.rs:40 named_capture_groups_all *)
  (lit "regex.named_capture_groups_all", lit "@match @regex::find_all(@regex::compile `(?P<letters>[a-z]+)(?P<numbers>[0-9]+)`) `foo123 bar456` { [(letters=`foo`, numbers=`123`), (letters=`bar`, numbers=`456`)] -> OK, $val -> {Failed: was $val} }", gives (lit "<p>OK</p>"));
  (* tests/regex.rs:45 split *)
  (lit "regex.split", lit "@match @regex::split(@regex::compile `\s+`) `foo   bar  baz` { =[`foo`, `bar`, `baz`] -> OK, $val -> {Failed: was $val} }", gives (lit "<p>OK</p>"));
  (* tests/str.rs:5 escaped_template *)
  (lit "str.escaped_template", lit "@match ""\#"" { `#` -> OK, $val -> {Failed: was $val} }", gives (lit "<p>OK</p>"));
  (* tests/str.rs:10 len *)
  (lit "str.len", lit "@match @let(foo=`foobar`) @foo::len. { 6 -> OK, $val -> {Failed: was $val} }", gives (lit "<p>OK</p>"));
  (* tests/str.rs:15 is_empty *)
  (lit "str.is_empty", lit "@match @let(foo='') @foo::is_empty. { True -> OK, $val -> {Failed: was $val} }", gives (lit "<p>OK</p>"));
  (* tests/str.rs:20 is_not_empty *)
  (lit "str.is_not_empty", lit "@match @let(foo=`foobar`) @foo::is_empty. { False -> OK, $val -> {Failed: was $val} }", gives (lit "<p>OK</p>"));
  (* tests/str.rs:25 starts_with *)
  (lit "str.starts_with", lit "@match @str::starts_with(`foobar`, `foo`). { True -> OK, $val -> {Failed: was $val} }", gives (lit "<p>OK</p>"));
  (* tests/str.rs:30 not_starts_with *)
  (lit "str.not_starts_with", lit "@match @str::starts_with(`foobar`, `bar`). { False -> OK, $val -> {Failed: was $val} }", gives (lit "<p>OK</p>"));
  (* tests/str.rs:35 ends_with *)
  (lit "str.ends_with", lit "@match @str::ends_with(`foobar`, `bar`). { True -> OK, $val -> {Failed: was $val} }", gives (lit "<p>OK</p>"));
  (* tests/str.rs:40 not_ends_with *)
  (lit "str.not_ends_with", lit "@match @str::ends_with(`foobar`, `foo`). { False -> OK, $val -> {Failed: was $val} }", gives (lit "<p>OK</p>"));
  (* tests/str.rs:45 split *)
  (lit "str.split", lit "@match @str::split(` `) `foo bar` { =[`foo`, `bar`] -> OK, $val -> {Failed: was $val} }", gives (lit "<p>OK</p>"));
  (* tests/str.rs:50 trim *)
  (lit "str.trim", lit "@match @str::trim `  foo bar   ` { `foo bar` -> OK, $val -> {Failed: was $val} }", gives (lit "<p>OK</p>"));
  (* tests/str.rs:55 lower *)
  (lit "str.lower", lit "@match @str::lower `FOO` { `foo` -> OK, $val -> {Failed: was $val} }", gives (lit "<p>OK</p>"));
  (* tests/str.rs:60 upper *)
  (lit "str.upper", lit "@match @str::upper `foo` { `FOO` -> OK, $val -> {Failed: was $val} }", gives (lit "<p>OK</p>"));
  (* tests/str.rs:65 parse_int *)
  (lit "str.parse_int", lit "@match @int::parse `123` { 123 -> OK, $val -> {Failed: was $val} }", gives (lit "<p>OK</p>"));
  (* tests/str.rs:72 parse_int_fail *)
  (lit "str.parse_int_fail", lit "@int::parse `foobar`", reports (fun e => match e with RuntimeErr ParseIntError => true | _ => false end));
  (* tests/tag.rs:5 simple_tag *)
  (lit "tag.simple_tag", lit "<span>Foo</span>", gives (lit "<p><span>Foo</span></p>"));
  (* tests/tag.rs:10 simple_attribute *)
  (lit "tag.simple_attribute", lit "<span id=""foo"">Foo</span>", gives (lit "<p><span id=""foo"">Foo</span></p>"));
  (* tests/tag.rs:15 attribute_order *)
  (lit "tag.attribute_order", lit "<span id=""foo"" class=""foo"">Foo</span><span class=""bar"" id=""bar"">Bar</span>", gives (lit "<p><span id=""foo"" class=""foo"">Foo</span><span class=""bar"" id=""bar"">Bar</span></p>"));
  (* tests/tag.rs:20 escaped_attribute *)
  (lit "tag.escaped_attribute", lit "<a href=""\#test"">Foo</a>", gives (lit "<p><a href=""#test"">Foo</a></p>"));
  (* tests/tag.rs:25 boolean_attribute *)
  (lit "tag.boolean_attribute", lit "<span hidden>Foo</span>", gives (lit "<p><span hidden>Foo</span></p>"));
  (* tests/tag.rs:30 self_closing *)
  (lit "tag.self_closing", lit "<br>", gives (lit "<p><br></p>"));
  (* tests/tag.rs:35 doctype *)
  (lit "tag.doctype", lit "<!DOCTYPE html>", gives (lit "<!DOCTYPE html>
"));
  (* tests/tag.rs:40 auto_close *)
  (lit "tag.auto_close", lit "<span />", gives (lit "<p><span></span></p>"));
  (* tests/tag.rs:45 short_close *)
  (lit "tag.short_close", lit "<span>Foo</>", gives (lit "<p><span>Foo</span></p>"));
  (* tests/tag.rs:50 block_tag *)
  (lit "tag.block_tag", lit "<div>Foo</div>", gives (lit "<div>Foo</div>"));
  (* tests/tag.rs:55 content_kind *)
  (lit "tag.content_kind", lit "<ul>Foo</ul>", gives (lit "<ul><li>Foo</li></ul>"));
  (* tests/tag.rs:60 content_kind_nested *)
  (lit "tag.content_kind_nested", lit "<table>Foo</table>", gives (lit "<table><tr><td>Foo</td></tr></table>"));
  (* tests/tag.rs:65 var_attribute *)
  (lit "tag.var_attribute", lit "@let(id=`foo`) <span id=$id>Foo</span>", gives (lit "<p><span id=""foo"">Foo</span></p>"));
  (* tests/tag.rs:70 var_tag_name *)
  (lit "tag.var_tag_name", lit "@let(t=`span`) <$t>Foo</>", gives (lit "<p><span>Foo</span></p>"));
  (* tests/tag.rs:75 template_attribute *)
  (lit "tag.template_attribute", lit "@let(c=`foo`) <span class=""$c bar"">Foo</span>", gives (lit "<p><span class=""foo bar"">Foo</span></p>"));
  (* tests/tag.rs:80 empty_attribute *)
  (lit "tag.empty_attribute", lit "@let(id=.) <span id?=$id>Foo</span>", gives (lit "<p><span>Foo</span></p>"));
  (* tests/tag.rs:85 spread_attribute *)
  (lit "tag.spread_attribute", lit "<span **@dict::new(id=`foo`).>Foo</span>", gives (lit "<p><span id=""foo"">Foo</span></p>"));
  (* tests/tag.rs:90 empty_spread_attribute *)
  (lit "tag.empty_spread_attribute", lit "<span **@dict::new(hidden=.).>Foo</span>", gives (lit "<p><span hidden>Foo</span></p>"));
  (* tests/tag.rs:95 anchor_inline *)
  (lit "tag.anchor_inline", lit "<a>Foo</a>", gives (lit "<p><a>Foo</a></p>"));
  (* tests/tag.rs:100 anchor_block *)
  (lit "tag.anchor_block", lit "<a><div>Foo</div></a>", gives (lit "<a><div>Foo</div></a>"));
  (* tests/tag.rs:107 tag_name *)
  (lit "tag.tag_name", lit "@match @let(t=<span/>) $t::tag_name { `span` -> OK, $val -> {Failed: was $val} }", gives (lit "<p>OK</p>"));
  (* tests/tag.rs:114 unclosed_tag *)
  (lit "tag.unclosed_tag", lit "<span>", reports (fun e => match e with SyntaxErr TagUnmatchedOpen => true | _ => false end));
  (* tests/tag.rs:119 unmatched_closing_tag *)
  (lit "tag.unmatched_closing_tag", lit "</span>", reports (fun e => match e with SyntaxErr (TokenUnmatched _) => true | _ => false end));
  (* tests/tag.rs:124 incorrect_closing_tag *)
  (lit "tag.incorrect_closing_tag", lit "<span></div>", reports (fun e => match e with SyntaxErr TagUnmatchedOpen => true | _ => false end));
  (* tests/tag.rs:129 unclosed_template *)
  (lit "tag.unclosed_template", lit "<span id=""foobar>Foobar</span>", reports (fun e => match e with SyntaxErr (TokenExpectedWasEOF _) => true | _ => false end));
  (* tests/tag.rs:134 unmatched_self_closing *)
  (lit "tag.unmatched_self_closing", lit "<br></br>", reports (fun e => match e with SyntaxErr (TokenUnmatched _) => true | _ => false end));
  (* tests/tag.rs:139 duplicate_attribute *)
  (lit "tag.duplicate_attribute", lit "<span id=`foo` id=`bar`>Foobar</span>", reports (fun e => match e with SyntaxErr (TagDuplicateAttr _) => true | _ => false end));
  (* tests/tag.rs:144 invalid_tag_name *)
  (lit "tag.invalid_tag_name", lit "@let(t=`12345`) <$t>Foobar</>", reports (fun e => match e with NameErr (InvalidTag _) => true | _ => false end));
  (* tests/tag.rs:149 duplicate_attribute_var *)
  (lit "tag.duplicate_attribute_var", lit "<span id=`foo` **@dict::new(id=`bar`).>Foobar</span>", reports (fun e => match e with RuntimeErr (AttrMultipleValues _) => true | _ => false end));
  (* tests/tag.rs:154 self_closing_with_content *)
  (lit "tag.self_closing_with_content", lit "@let(tag_name=`img`) <$tag_name>Foo</>", reports (fun e => match e with TypeErr ENoContentAllowed => true | _ => false end));
  (* tests/text.rs:4 nbsp *)
  (lit "text.nbsp", lit "~", gives (lit "<p>" ++ [160%N] ++ lit "</p>"));
  (* tests/text.rs:5 dashes *)
  (lit "text.dashes", lit "-- ---", gives (lit "<p>" ++ [8211%N] ++ lit " " ++ [8212%N] ++ lit "</p>"));
  (* tests/text.rs:6 arrows *)
  (lit "text.arrows", lit "<- -> <->", gives (lit "<p>" ++ [8592%N] ++ lit " " ++ [8594%N] ++ lit " " ++ [8596%N] ++ lit "</p>"));
  (* tests/text.rs:7 other_subs *)
  (lit "text.other_subs", lit "<= >= != ... +/- (c)", gives (lit "<p>" ++ [8804%N] ++ lit " " ++ [8805%N] ++ lit " " ++ [8800%N] ++ lit " " ++ [8230%N] ++ lit " " ++ [177%N] ++ lit " " ++ [169%N] ++ lit "</p>"));
  (* tests/text.rs:8 negative_number *)
  (lit "text.negative_number", lit "-5", gives (lit "<p>" ++ [8722%N] ++ lit "5</p>"));
  (* tests/text.rs:9 en_dash_range *)
  (lit "text.en_dash_range", lit "5--8", gives (lit "<p>5" ++ [8211%N] ++ lit "8</p>"));
  (* tests/text.rs:11 escape *)
  (lit "text.escape", lit "\$ \@", gives (lit "<p>$ @</p>"));
  (* tests/text.rs:12 hex_escape *)
  (lit "text.hex_escape", lit "\x41 \u0041 \U00000041", gives (lit "<p>A A A</p>"));
  (* tests/text.rs:13 html_entities *)
  (lit "text.html_entities", lit "&quot; &#65; &#x41;", gives (lit "<p>"" A A</p>"));
  (* tests/text.rs:15 single_quotes *)
  (lit "text.single_quotes", lit "I'm 'ok' now", gives (lit "<p>I" ++ [8217%N] ++ lit "m " ++ [8216%N] ++ lit "ok" ++ [8217%N] ++ lit " now</p>"));
  (* tests/text.rs:16 double_quotes *)
  (lit "text.double_quotes", lit "You ""are"" now", gives (lit "<p>You " ++ [8220%N] ++ lit "are" ++ [8221%N] ++ lit " now</p>"));
  (* tests/text.rs:17 quote_override *)
  (lit "text.quote_override", lit "{}'single{'}, {}""double{""} ", gives (lit "<p>" ++ [8217%N] ++ lit "single" ++ [8216%N] ++ lit ", " ++ [8221%N] ++ lit "double" ++ [8220%N] ++ lit "</p>"));
  (* tests/text.rs:19 escape_html *)
  (lit "text.escape_html", lit "\<span\>", gives (lit "<p>&lt;span&gt;</p>"));
  (* tests/types.rs:5 typeof_int *)
  (lit "types.typeof_int", lit "@typeof 23", gives (lit "<p>int</p>"));
  (* tests/types.rs:10 typeof_str *)
  (lit "types.typeof_str", lit "@typeof `foobar`", gives (lit "<p>str</p>"));
  (* tests/types.rs:15 typeof_bool *)
  (lit "types.typeof_bool", lit "@typeof True", gives (lit "<p>bool</p>"));
  (* tests/types.rs:20 typeof_none *)
  (lit "types.typeof_none", lit "@typeof .", gives (lit "<p>none</p>"));
  (* tests/types.rs:25 typeof_int_list *)
  (lit "types.typeof_int_list", lit "@typeof [1, 2, 3]", gives (lit "<p>int list</p>"));
  (* tests/types.rs:30 typeof_int_option_list *)
  (lit "types.typeof_int_option_list", lit "@typeof [1, ., 2, ., 3]", gives (lit "<p>int? list</p>"));
  (* tests/types.rs:35 typeof_str_list *)
  (lit "types.typeof_str_list", lit "@typeof [`foo`, `bar`]", gives (lit "<p>str list</p>"));
  (* tests/types.rs:40 typeof_int_dict *)
  (lit "types.typeof_int_dict", lit "@typeof @dict::new(x=1, y=2).", gives (lit "<p>int dict</p>"));
  (* tests/types.rs:45 typeof_str_dict *)
  (lit "types.typeof_str_dict", lit "@typeof @dict::new(x=`foo`, y=`bar`).", gives (lit "<p>str dict</p>"));
  (* tests/types.rs:50 typeof_bare_str *)
  (lit "types.typeof_bare_str", lit "@typeof foobar", gives (lit "<p>str</p>"));
  (* tests/types.rs:55 typeof_bare_str_list *)
  (lit "types.typeof_bare_str_list", lit "@typeof [foo, bar]", gives (lit "<p>str list</p>"));
  (* tests/types.rs:60 call_optional_str *)
  (lit "types.call_optional_str", lit "@fn foo($_0: str?) $_: none -> OK
@foo(`bar`).", gives (lit "<p>OK</p>"));
  (* tests/types.rs:65 call_int_list *)
  (lit "types.call_int_list", lit "@fn foo($_0: int list) $_: none -> OK
@foo([1, 2, 3]).", gives (lit "<p>OK</p>"));
  (* tests/types.rs:70 call_optional_int_list *)
  (lit "types.call_optional_int_list", lit "@fn foo($_0: int list?) $_: none -> OK
@foo([1, 2, 3]).", gives (lit "<p>OK</p>"))].
(** All of them pass. *)
Definition failing : list str :=
  flat_map (fun (x : str * str * (outcome compiled -> bool)) =>
    let '(name, src, check) := x in if check (compile_str suite_X 100 src) then [] else [name]) suite.
Definition suite_failures : list str := Eval vm_compute in failing.
Example suite_passes : length suite = 205 /\ suite_failures = [].
Proof. split; reflexivity. Qed.
