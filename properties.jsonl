{"id": "C01", "title": "Unique IDs never repeat", "statement": "Between two resets, every ID handed out by the unique-ID generator (the `@unique_id` function and automatic heading IDs) differs from every ID handed out before it, whatever bases and maximum lengths were requested.", "quantifier": "every finite sequence of requests (any base strings, any max lengths), starting from a cleared generator", "why_tests_cant": "collisions depend on the whole history of previously issued IDs and on suffix/truncation interactions; tests sample a few histories", "anchors": ["src/utils/text.rs: UniqueIDGenerator::get_unique_id, clear", "src/compiler/native.rs: UNIQUE_ID"]}
{"id": "C02", "title": "Unique IDs are lowercase identifiers", "statement": "Every ID handed out is a valid identifier ([a-z_][a-z0-9_]*), lowercase, as documented; and asking for one never crashes the compiler.", "quantifier": "every history of requests and every base string", "why_tests_cant": "only base strings which collide after normalisation reach the suffixing path, and they can be arbitrary Unicode", "anchors": ["src/utils/text.rs: UniqueIDGenerator::get_unique_id (lines 153-193)"]}
{"id": "C03", "title": "Unique IDs respect the length limit", "statement": "An ID handed out is no longer than the requested maximum length unless uniqueness forces it: with a maximum of at least 3 it exceeds the limit only once the textual stem has been cut down to a single character.", "quantifier": "every history of requests and every max length >= 3", "why_tests_cant": "the overflow branch is only reached after 8, 98, 998, ... collisions on the same stem", "anchors": ["src/utils/text.rs: UniqueIDGenerator::get_unique_id"]}
{"id": "C04", "title": "Identifier synthesis is well-formed", "statement": "Turning any string into an identifier yields a string matching [a-zA-Z_][a-zA-Z0-9_]* of length at most max_len (for max_len >= 1), never containing two adjacent underscores; letters and digits are kept in order and each run of other characters becomes one underscore.", "quantifier": "every input string, every ASCII transliteration, every max_len >= 1", "why_tests_cant": "input is arbitrary Unicode; the character loop has many paths", "anchors": ["src/utils/text.rs: make_identifier, is_identifier"]}
{"id": "C05", "title": "Name interning is a bijection", "statement": "Interning equal strings always returns the same id, distinct strings always get distinct ids, an id keeps denoting the string it was issued for whatever is interned later, and the built-in names have their fixed ids.", "quantifier": "every sequence of intern / lookup operations on a pool", "why_tests_cant": "stability is a property of all later histories", "anchors": ["src/utils/string_pool.rs: StringPool::{new,insert,get,get_id_if_present,insert_lowercase}", "src/utils/const_strs.rs"]}
{"id": "C06", "title": "Diagnostics point to the right line and column", "statement": "For every position in a source file that a diagnostic can carry (including end of file), the reported line is one plus the number of newlines before it, and the column is one plus the number of characters since the last newline; reporting a position never crashes.", "quantifier": "every source text and every token boundary in it", "why_tests_cant": "must hold for every position of every Unicode text; tests only have ASCII samples", "anchors": ["src/utils/sourcefile.rs: SourceFile::index_to_line_col, get_span, eof_range", "src/errors/sink_base.rs: Diagnostic::fmt"]}
{"id": "C07", "title": "Entity escaping is safe and lossless", "statement": "Escaped text contains no raw '<', '>' (nor quotes, when quotes are escaped), every '&' in it begins an entity, and decoding the entities gives back exactly the original text.", "quantifier": "every string, both quote modes", "why_tests_cant": "the property ranges over all strings", "anchors": ["src/utils/text.rs: encode_entities", "src/compiler/render.rs: Renderer::write_str, write_attr"]}
{"id": "C08", "title": "Code fence indentation is stripped uniformly", "statement": "For a code fence, the indentation of the first non-blank line is removed from each line that starts with it, other lines lose all of their leading whitespace, leading blank lines and trailing whitespace are dropped, and nothing else of any line is changed; the operation never crashes.", "quantifier": "every code fence body", "why_tests_cant": "depends on the interaction of arbitrary whitespace prefixes of arbitrarily many lines", "anchors": ["src/utils/text.rs: fix_indentation"]}
{"id": "C09", "title": "Language hint splitting is lossless", "statement": "The language hint is taken exactly when the body has more than one line and the first line (right-trimmed) is an identifier; then the remaining source is exactly what follows the first newline, otherwise it is the whole source.", "quantifier": "every code fence body and every default language", "why_tests_cant": "quantifies over all strings", "anchors": ["src/utils/text.rs: get_source_language_hint", "src/compiler/native.rs: native_code_impl"]}
{"id": "C10", "title": "Written files stay inside the output directory", "statement": "A path passed to @file::write is accepted only if the file it denotes lies inside the output directory; what is then written is exactly base/relative with no '..' component; every accepted request is kept in order, and rejected ones leave the set of files unchanged.", "quantifier": "every (normalised) base directory, every relative path string with any number of '.', '..' and absolute components, every history of writes", "why_tests_cant": "path traversal is adversarial; tests try a handful of spellings", "anchors": ["src/utils/relpath.rs: make_relative", "src/utils/outfiles.rs: OutFiles", "src/compiler/native.rs: FILE_WRITE"]}
{"id": "C11", "title": "List slicing and indexing", "statement": "`list::slice(start, end)` returns exactly the elements at the Python-style clamped positions, in order, and never crashes; `list::get`/`::n` with index n returns element n (or len+n for negative n) and reports IndexOutOfRange exactly when that position does not exist. A slice of a slice is the slice of the composed positions.", "quantifier": "every list (including slices of slices), every pair of 64-bit indices", "why_tests_cant": "boundary arithmetic over all indices and nesting of views", "anchors": ["src/utils/sliceref.rs: SliceRef", "src/compiler/names.rs: list_get", "src/compiler/native.rs: LIST_SLICE, LIST_GET"]}
{"id": "C12", "title": "Tokens tile the source", "statement": "Tokenizing without comment stripping yields non-empty tokens whose spans are adjacent, start at 0 and end at the end of the source: concatenating the token texts gives back the source exactly. Tokenizing terminates on every input.", "quantifier": "every source string", "why_tests_cant": "an untested character combination could leave a gap or loop forever", "anchors": ["src/parser/tokenizer.rs: tokenize, Tokenizer::next_token"]}
{"id": "C13", "title": "Whitespace tokens are normalised", "statement": "When comments are stripped, no comment token remains and no two whitespace tokens are adjacent (a paragraph break and newline/whitespace never follow one another except as one token), and the non-comment, non-whitespace tokens are exactly those of the unstripped token stream in the same order.", "quantifier": "every source string", "why_tests_cant": "quantifies over all interleavings of comments, newlines and text", "anchors": ["src/parser/tokenizer.rs: tokenize"]}
{"id": "C14", "title": "Verbatim text is verbatim", "statement": "For every text not containing a run of n backticks and not starting or ending with one, wrapping it between n backticks yields one verbatim token whose text is exactly that text, with no escape, entity or comment processing.", "quantifier": "every text, every n >= 1 (n >= 3 if the text has several lines)", "why_tests_cant": "text is arbitrary; its interaction with delimiters cannot be enumerated", "anchors": ["src/parser/tokenizer.rs: next_token ('`' case)", "src/parser/text.rs: get_verbatim_text"]}
{"id": "C15", "title": "No source text crashes the front end", "statement": "Tokenizing any source text and decoding the text of any token (escapes, entities, numbers) never crashes: bad input is answered with a diagnostic.", "quantifier": "every source string", "why_tests_cant": "a crash may need a specific mix of escape and multi-byte characters", "anchors": ["src/parser/tokenizer.rs: next_token", "src/parser/text.rs: unescape_char, token_text", "src/parser/base.rs: parse_number"]}
{"id": "C16", "title": "Types print and parse back", "statement": "The textual form of every type parses back to the same type, consuming all of it and reporting nothing.", "quantifier": "every type (unboundedly nested lists, dicts and optionals)", "why_tests_cant": "types nest without bound", "anchors": ["src/parser/types.rs: Type::fmt, parse_type, option"]}
{"id": "C17", "title": "Optional types are normalised", "statement": "Making a type optional never produces a nested or redundant option: the result accepts the unit value, accepts exactly what the original type accepts plus unit, and making it optional again changes nothing.", "quantifier": "every type and every value", "why_tests_cant": "types nest without bound", "anchors": ["src/parser/types.rs: Type::option, option_if, unit_is_assignable", "src/compiler/types.rs: check_value"]}
{"id": "C18", "title": "Coercion is sound", "statement": "If a value is accepted where a type is expected, the value delivered has that type; a value that already has the type is delivered unchanged; coercing twice is the same as coercing once.", "quantifier": "every type and every value", "why_tests_cant": "types and values nest without bound", "anchors": ["src/compiler/types.rs: Compiler::coerce_value, check_value", "src/compiler/value_convert.rs"]}
{"id": "C19", "title": "Reported types are accurate", "statement": "The type reported for a value (by diagnostics and by `typeof`-style APIs) is a type the value has: checking the value against its own reported type succeeds.", "quantifier": "every value", "why_tests_cant": "values nest without bound; heterogeneous lists interact with the common-type computation", "anchors": ["src/compiler/value.rs: Value::get_type, common_type_of", "src/compiler/types.rs: least_upper_bound"]}
{"id": "C20", "title": "Common types are upper bounds", "statement": "The common type computed for two types is the strongest type which accepts every value that either of them accepts: any other type accepting all these values accepts every value of the common type. It does not depend on the order of the two types, and the common type of a type with itself is that type.", "quantifier": "every pair of types", "why_tests_cant": "pairs of nested types are unbounded", "anchors": ["src/compiler/types.rs: least_upper_bound"]}
{"id": "C21", "title": "HTML sequences are in normal form", "statement": "Building HTML out of any list of pieces gives HTML in normal form (no nested sequences, no empty pieces, no two adjacent text nodes, no one-element sequences), and building it again from its own nodes changes nothing.", "quantifier": "every finite list of HTML pieces", "why_tests_cant": "piece lists are unbounded and arbitrarily nested", "anchors": ["src/compiler/html.rs: HTMLSeqBuilder, FromIterator for HTML, HTML::nodes"]}
{"id": "C22", "title": "Rendering is compositional", "statement": "Joining pieces into a sequence never changes what is rendered: the rendering (both as HTML and as plain text) of the joined HTML is the concatenation of the renderings of the pieces.", "quantifier": "every list of HTML pieces", "why_tests_cant": "as above", "anchors": ["src/compiler/html.rs", "src/compiler/render.rs: Renderer::render"]}
{"id": "C23", "title": "Rendered output is well-formed and injection-free", "statement": "Rendered HTML is well-formed: every start tag of a non-void element has its matching end tag in the right place, text and attribute values cannot introduce markup, and parsing the output gives back exactly the document that was rendered.", "quantifier": "every HTML document in normal form whose tag and attribute names are plain names", "why_tests_cant": "document trees and text are unbounded; injection is adversarial", "anchors": ["src/compiler/render.rs: Renderer", "src/utils/text.rs: encode_entities", "src/utils/taginfo.rs: is_self_closing"]}
{"id": "C24", "title": "Content model is enforced", "statement": "Whatever content is placed into a tag, if it is accepted then it satisfies the tag's content rules: tags requiring particular children (ul, table, tr, ...) contain only those, tags requiring block content contain only block-level children, tags requiring inline content contain no block-level children, tags requiring nothing are empty. Where only inline content or none is allowed, every piece is taken or an error is reported about it, and nothing else is.", "quantifier": "every tag kind and every sequence of content pieces, line breaks and paragraph breaks", "why_tests_cant": "unbounded sequences of pieces and nested implicit wrappers", "anchors": ["src/compiler/sequence.rs: SequenceBuilder", "src/utils/taginfo.rs: ContentKind::for_"]}
{"id": "C25", "title": "Tag content loses no text", "statement": "When content is accepted into a tag, its visible text is exactly the text of the pieces in order, up to whitespace: nothing is dropped, duplicated or reordered by implicit paragraphs and wrappers.", "quantifier": "every tag kind and every sequence of content pieces", "why_tests_cant": "as above", "anchors": ["src/compiler/sequence.rs: SequenceBuilder::{push,newline,close_child,into_html}"]}
{"id": "C26", "title": "No stray whitespace at block edges", "statement": "Tag content, and each implicit paragraph created in it, never starts or ends with white space, whatever white space there is between and around the pieces of it; only a piece that itself has white space at an edge beside other text, such as the value of a variable, keeps that.", "quantifier": "every tag kind and every sequence of content pieces, each of them either all white space or without white space at its edges", "why_tests_cant": "as above", "anchors": ["src/compiler/sequence.rs: SequenceBuilder"]}
{"id": "C27", "title": "Lexical scoping", "statement": "A variable reference resolves to the binding in the innermost enclosing scope that binds it; binding a name in one scope never changes what any other name, or any other scope that is not nested inside it, resolves to.", "quantifier": "every nesting of scopes and every sequence of declarations", "why_tests_cant": "unbounded scope chains and histories", "anchors": ["src/compiler/frame.rs: ActiveFrame, InactiveFrame"]}
{"id": "C28", "title": "Implicit parameters use dynamic, implicit-only lookup", "statement": "A missing implicit argument is filled with the nearest enclosing binding of that name which was declared implicit; if there is none the default is used; if there is neither, an error is reported. Declaring a name makes its binding implicit exactly if it is declared implicit or was so in the same scope already: a second declaration in the same scope, which is warned about, cannot make it explicit.", "quantifier": "every chain of scopes and every signature", "why_tests_cant": "unbounded scope chains", "anchors": ["src/compiler/frame.rs: get_implicit", "src/compiler/signature.rs: bind_implicit_args"]}
{"id": "C29", "title": "A successful match binds every pattern variable", "statement": "When a pattern matches a value, every variable occurring in the pattern (on either side of an alternative, in spreads, nested in tags) is bound afterwards, so a later reference cannot fail; no other variable is changed.", "quantifier": "every pattern, every value, every prior scope", "why_tests_cant": "patterns and values nest without bound", "anchors": ["src/compiler/matcher.rs: bind_pattern, bind_all, bind_all_with_spread", "src/parser/ast.rs: MatchPattern::get_name_ids"]}
{"id": "C30", "title": "Spread list patterns split the list", "statement": "A list pattern with k sub-patterns around one spread matches exactly the lists of length >= k whose prefix and suffix match the sub-patterns; the spread is bound to exactly the middle, so prefix ++ middle ++ suffix is the list.", "quantifier": "every list and every list pattern", "why_tests_cant": "list lengths and pattern positions are unbounded", "anchors": ["src/compiler/matcher.rs: bind_all_with_spread, bind_exact_list, bind_list"]}
{"id": "C31", "title": "Match picks the first matching branch", "statement": "A @match evaluates exactly the first branch whose pattern matches, and reports NoMatchingBranch exactly when no branch matches.", "quantifier": "every list of branches and every value", "why_tests_cant": "number of branches is unbounded", "anchors": ["src/compiler/matcher.rs: evaluate_match", "src/parser/ast.rs: Match"]}
{"id": "C32", "title": "Accepted calls bind every parameter once with its type", "statement": "If the arguments of a call are accepted then every declared parameter receives exactly one value and that value has the parameter's declared type, so running the function body can never find a parameter missing.", "quantifier": "every signature, every sequence of positional, spread and named arguments, content and implicit bindings", "why_tests_cant": "signatures and argument lists are unbounded", "anchors": ["src/compiler/signature.rs: ParamBinder", "src/compiler/native_gen.rs"]}
{"id": "C33", "title": "Arity errors are exact", "statement": "A call is rejected for too many / too few positional arguments, an unknown or duplicate named argument, or a missing required parameter exactly when that is the case.", "quantifier": "every signature and argument list", "why_tests_cant": "as above", "anchors": ["src/compiler/signature.rs: ParamBinder::{add_positional_arg,add_named_arg,build}"]}
{"id": "C34", "title": "Partial application equals direct application", "statement": "Binding some arguments with ::bind and calling with the rest is the same as calling with all of them at once (in the same order), for any number of intermediate binds.", "quantifier": "every signature and every split of the argument list into any number of stages", "why_tests_cant": "unbounded number of stages", "anchors": ["src/compiler/func.rs: Func::Bound, bind_partial", "src/compiler/signature.rs: bind_partial, close_into_bound_function"]}
{"id": "C35", "title": "A module is compiled at most once", "statement": "However often and along whatever paths a file is imported in one run, its source is compiled at most once (successes and failures are remembered) and every import of it sees the same exports.", "quantifier": "every import graph (finite, possibly cyclic) and every sequence of import requests", "why_tests_cant": "import graphs are unbounded", "anchors": ["src/compiler/module_loader.rs: ModuleCache, load_cached, load_uncached"]}
{"id": "C36", "title": "Circular imports are reported, not followed forever", "statement": "Loading always terminates on a finite set of files: importing a file that is still being loaded is reported as a circular import, and once a top-level load has finished no file is left in the being-loaded state.", "quantifier": "every import graph, including self-imports and arbitrarily long cycles", "why_tests_cant": "as above", "anchors": ["src/compiler/module_loader.rs: load_cached, ModuleState"]}
{"id": "C37", "title": "Importing restores the output collector", "statement": "Files written by the main document are collected in order, imported modules cannot write output files and importing never loses files already collected, even when the import fails.", "quantifier": "every import graph and history of writes", "why_tests_cant": "failure paths at any nesting depth", "anchors": ["src/compiler/module_loader.rs: load_uncached (out_files take/restore)"]}
{"id": "C38", "title": "Sorting is a stable sort", "statement": "`list::sorted` returns a permutation of the list, ordered by key (descending when reversed), keeping the original order of elements with equal keys, and is rejected exactly when a key is not a string/int or keys are mixed.", "quantifier": "every list, key function and direction", "why_tests_cant": "lists are unbounded", "anchors": ["src/compiler/native.rs: native_sorted_impl"]}
{"id": "C39", "title": "Value equality is an equivalence on data", "statement": "Equality of values is symmetric and transitive, reflexive on values containing no functions (functions equal nothing), values of different kinds are never equal, markup and dictionaries are equal regardless of the order of attributes and keys, regular expressions are equal when written alike, and equality on lists depends only on the elements, not on how the list is a view of another list.", "quantifier": "every triple of values", "why_tests_cant": "values nest without bound", "anchors": ["src/compiler/value.rs: PartialEq for Value", "src/utils/sliceref.rs: PartialEq"]}
{"id": "C40", "title": "Syntax highlighting changes no text", "statement": "Highlighting code (any token classification) changes only markup: the text of the highlighted lines, joined by newlines, is the source text; opening and closing brackets are given the same number exactly when they match.", "quantifier": "every source and every classification of it into adjacent token ranges", "why_tests_cant": "source texts and bracket nestings are unbounded", "anchors": ["src/compiler/highlight.rs: LineHighlighter", "src/compiler/highlight_papyri.rs"]}
{"id": "C41", "title": "Success means no diagnostics", "statement": "Diagnostics counts are exact: the number of errors and warnings equals the number reported since the last reset whatever the reporting level, the stored messages are exactly those at or above the level, in order; compiling a string succeeds iff nothing was reported.", "quantifier": "every sequence of reports and resets, every reporting level", "why_tests_cant": "histories are unbounded", "anchors": ["src/errors/sink_base.rs: DiagnosticSink", "src/lib.rs: compile_str"]}
{"id": "C42", "title": "No output from a failed compile", "statement": "The command line tool writes an output file for a source only if that source produced no error; each output path lies inside the output directory with the right extension; the exit status is failure iff some error was reported. For each source one line says what became of it (skipped and why, written, or how many errors and warnings there were), each written file is named, and the final line gives the totals; with --silent the lines about success are left out.", "quantifier": "every set of source files and every outcome of compiling each", "why_tests_cant": "any number of files with any mix of outcomes", "anchors": ["src/bin/papyri.rs: process_source_file, get_out_path, main loop"]}
{"id": "C43", "title": "Parsing consumes all tokens and terminates", "statement": "Parsing any token stream terminates and accounts for every token: each token is consumed exactly once, in order, or reported in a diagnostic; every parse step that returns a node consumed at least one token.", "quantifier": "every token stream", "why_tests_cant": "streams are unbounded and arbitrarily malformed", "anchors": ["src/parser/base.rs: Parser::parse_nodes_until, parse_node", "src/parser/queue.rs"]}
{"id": "C44", "title": "Character escapes decode correctly", "statement": "\\xHH and \\uHHHH escapes decode to exactly the character with that code, surrogates and codes beyond Unicode are reported and replaced, \\n and \\t map to their control characters and any other escaped character stands for itself.", "quantifier": "every escape sequence", "why_tests_cant": "65536 code units and all invalid spellings", "anchors": ["src/parser/text.rs: unescape_char", "src/parser/tokenizer.rs"]}
{"id": "C45", "title": "Integer literals", "statement": "Every 64-bit signed integer's decimal spelling is tokenized as one number and parses to that integer; literals outside that range are reported, never wrapped.", "quantifier": "every integer", "why_tests_cant": "2^64 values plus all out-of-range spellings", "anchors": ["src/parser/base.rs: parse_number", "src/parser/tokenizer.rs"]}
{"id": "C46", "title": "Text substitutions", "statement": "Typographic substitution replaces exactly the leftmost-longest occurrences of the documented sequences and leaves all other text unchanged.", "quantifier": "every text", "why_tests_cant": "overlapping occurrences in arbitrary text", "anchors": ["src/parser/text.rs: SUBSTITUTIONS, substitute"]}
{"id": "C47", "title": "Evaluation respects expected types", "statement": "When an expression is evaluated where a type is expected, the result (if any) has that type: natives and callbacks never receive a value of another type.", "quantifier": "every expression, scope and expected type", "why_tests_cant": "expressions nest without bound", "anchors": ["src/compiler/value.rs: evaluate_node", "src/compiler/func.rs: evaluate_func_call", "src/compiler/native.rs: eval_callback"]}
{"id": "C48", "title": "List functions", "statement": "`list::map`, `filter`, `flat`, `enumerate`, `reversed`, `join`, `contains`, `len` compute the standard list functions, evaluating callbacks left to right once per element and stopping at the first failure.", "quantifier": "every list and callback", "why_tests_cant": "lists are unbounded", "anchors": ["src/compiler/native.rs"]}
{"id": "C49", "title": "Integer functions never wrap", "statement": "Arithmetic natives (`int::add`, `int::negate`, `list::enumerate` numbering) return the exact mathematical result or an error; they never wrap around or crash.", "quantifier": "all 64-bit operands", "why_tests_cant": "boundary operands", "anchors": ["src/compiler/native.rs: INT_ADD, INT_NEGATE, LIST_ENUMERATE"]}
{"id": "C50", "title": "Errors are never silent", "statement": "If evaluating an expression, calling a function, importing a module or compiling a file fails, then either the error handed back is reported as an error-level diagnostic by the caller, or an error-level diagnostic has already been recorded: a compilation that drops part of the document always leaves an error diagnostic.", "quantifier": "every program, every expected type, every behaviour of the environment, every compilation state", "why_tests_cant": "the AlreadyReported marker is returned from dozens of places, each of which must have recorded an error before; tests exercise few of them", "anchors": ["src/errors/sink.rs: PapyriError, AlreadyReported, ReportError", "src/compiler/base.rs: Compiler", "src/compiler/mod.rs"]}
{"id": "C51", "title": "Unique ids stay unique across modules and nested calls", "statement": "The unique ids handed out during a whole compilation - by the document, by functions it calls and by every module it loads - are pairwise different, and none is forgotten.", "quantifier": "every program, import graph and environment", "why_tests_cant": "depends on the whole evaluation history, including failed imports and discarded branches", "anchors": ["src/compiler/native.rs: UNIQUE_ID", "src/compiler/context.rs: Context::unique_ids"]}
{"id": "C52", "title": "String functions", "statement": "`str::starts_with`/`ends_with` decide whether one string is a prefix/suffix of the other; `str::split` returns exactly the parts between the leftmost non-overlapping occurrences of the separator; `int::parse` accepts exactly the decimal numerals (with optional sign) of 64-bit integers and returns the number denoted.", "quantifier": "all strings and separators", "why_tests_cant": "overlapping separators, numerals of any length and boundary values; strings are unbounded", "anchors": ["src/compiler/native.rs: STARTS_WITH, ENDS_WITH, SPLIT, PARSE"]}
{"id": "C53", "title": "Dictionary functions", "statement": "`dict::get` returns the value of the key or an error naming it; `keys`, `values` and `items` list the entries in one and the same order; `len` and `is_empty` agree with them.", "quantifier": "every dictionary and key", "why_tests_cant": "dictionaries are unbounded", "anchors": ["src/compiler/native.rs: DICT functions", "src/utils/string_pool.rs: NameIDMap"]}
{"id": "C54", "title": "The parser accepts exactly the grammar", "statement": "Parsing a source without an error yields a syntax tree exactly when the source's tokens form a document of the published grammar with that tree (expressions, calls, tags, patterns, declarations, signatures and their side conditions such as unique argument names, positional before named, optional parameters last); the grammar is unambiguous, so no source has two readings.", "quantifier": "every source text, every behaviour of the entity decoder", "why_tests_cant": "source texts and nesting are unbounded, and both directions (nothing wrong accepted, nothing right rejected) are claims about all of them", "anchors": ["src/parser/base.rs", "src/parser/func.rs", "src/parser/tag.rs", "src/parser/matcher.rs", "src/parser/template.rs", "src/parser/text.rs", "src/parser/queue.rs"]}
{"id": "C55", "title": "Compiling a text", "statement": "`compile_str` gives the rendered document if compiling the text reported nothing, and otherwise all errors and warnings reported, in order and at least one; a context can always be created (the standard library compiles without diagnostics), so every diagnostic is about the given text; the result does not depend on the network, and no output file is produced. (The documentation also says that file access is disabled; it is not.)", "quantifier": "every source text, every behaviour of the environment", "why_tests_cant": "source texts are unbounded and every behaviour of the environment has to be considered", "anchors": ["src/lib.rs: compile_str", "src/compiler/context.rs: Context::new", "src/compiler/module_loader.rs: compile_stdlib, compile_synthetic", "src/std.papyri"]}
{"id": "C56", "title": "Sources of one run do not influence each other", "statement": "When the command line tool compiles several sources in one run, the diagnostics and the output of each source are those it would have if it were the only source; different sources are compiled to different files.", "quantifier": "All lists of source files, all contents of files, all options.", "why_tests_cant": "A test compiles a fixed set of sources; the interaction goes through modules that two sources share and through names that differ only in case.", "anchors": ["src/bin/papyri.rs: run, process_source_file, get_out_path", "src/compiler/context.rs: reset", "src/compiler/module_loader.rs: load_cached"]}
{"id": "C57", "title": "No internal errors", "statement": "A program never makes the compiler panic with an internal error (a failed conversion of a value to the type a native function declared, a missing argument or variable scope, a signature or pattern the parser should have ruled out, a document sequence that cannot be closed): whatever is wrong with a program is reported as a diagnostic. The parser hands on only syntax trees the evaluator can handle, also for texts with syntax errors.", "quantifier": "every program and file, every session of compilations in one context, every behaviour of the environment", "why_tests_cant": "programs nest without bound, functions are passed around, and the internal checks sit in some thirty native functions and the binder, matcher and converter: only an invariant of all reachable states rules them out", "anchors": ["src/errors/mod.rs: ice_at", "src/compiler/value_convert.rs", "src/compiler/native.rs: NativeFunc::evaluate, eval_callback", "src/compiler/signature.rs", "src/compiler/matcher.rs", "src/compiler/frame.rs", "src/parser/func.rs", "src/parser/matcher.rs"]}
{"id": "C58", "title": "Documents are in normal form", "statement": "The document a program compiles to, and every file it collects for output, is in normal form (no nested or empty sequences, no empty or adjacent text nodes), and no element has two attributes of the same name.", "quantifier": "every program, every session, every behaviour of the environment", "why_tests_cant": "documents are built by arbitrarily nested calls, modules, parsed HTML and callbacks", "anchors": ["src/compiler/html.rs", "src/compiler/sequence.rs", "src/compiler/tag.rs", "src/compiler/html_parse.rs", "src/compiler/value_convert.rs: into_html"]}
{"id": "C59", "title": "Regular expressions as values", "statement": "Compiling a regular expression in a program succeeds exactly if the regex library accepts it and its capture groups are all unnamed or all named with identifiers, and fails with a specific error otherwise; searching with the value returns the matched text, the list of the match and its groups, or the dictionary of the named groups, according to its groups; counting, testing and splitting return what the library returns.", "quantifier": "every regular expression, every text, every behaviour of the regex library", "why_tests_cant": "expressions, their groups and the texts searched are unbounded", "anchors": ["src/compiler/regex_value.rs: RegexValue::compile, captures_to_value", "src/compiler/native.rs: REGEX"]}
{"id": "C60", "title": "Programs load modules and files as documented", "statement": "`@import` returns the exports of the module and `@include` its document, declaring each export in the current scope and changing no other name; paths are relative to the directory of the source file and get the .papyri suffix if they lack it. Writing adds the document to the files to be written and does nothing else, and is an error where writing is not allowed or the path leaves the output directory. Listing a directory gives its source files without their suffix. Nothing is fetched when the network is disabled.", "quantifier": "every module, path, directory and program state", "why_tests_cant": "the set of exports, files and scopes is unbounded and the effects must be the only ones", "anchors": ["src/compiler/native.rs: IMPORT, INCLUDE, FILE, NET", "src/compiler/context.rs: push_out_file", "src/utils/relpath.rs"]}
{"id": "C61", "title": "The functions of the standard library do what they say", "statement": "Once the compiler has started, the names of the standard library stand for functions with the documented parameters, and nothing a source file evaluates changes that. The formatting functions (`@b`, `@bold`, `@h1`, ...) put their inline content, without blank ends if it is blank, in the tag they stand for; `@href`, `@image`, `@blockquote` and `@footnote` make their tags with the given attributes, leaving out those that are not given. `@class` and `@style` add to the attribute after what it had, or add the attribute, and keep the name, the other attributes and the content; `@attributes` adds attributes; `@numbered` turns an unordered list into an ordered one; each of them reports an error naming what it was given if that is no such tag. `@typeof`, `@html::tag_name`, `@inline::from` and `@block::from` return the name of the type, the name of the tag, and the content. None of them has any other effect.", "quantifier": "every argument, in every state in which a source file can call the functions", "why_tests_cant": "the content, the attributes and the states are unbounded, and the absence of other effects is about the whole state", "anchors": ["src/std.papyri", "src/compiler/context.rs: Context::new, compile_stdlib", "src/compiler/func.rs", "src/compiler/html.rs"]}
{"id": "C62", "title": "Every form of expression means what the language says", "statement": "Evaluation is deterministic, an expression that fails has reported why, and each form has exactly the value its rule gives it: names (variables, entries and elements of a value, methods, `?::` on nothing), templates, lists with spread elements, tags with optional and spread attributes, groups, let, match, function definitions, calls and code fences. Arguments, elements and nodes are evaluated once each, from left to right; let, match branches and calls open a new scope inside the current scope or that of the definition, and close it. In content, a node that fails is reported and left out, and the rest is compiled as if it were not there. A text compiles to the document its nodes make, with its exports.", "quantifier": "every expression and every list of nodes, in every state, for every expected type and every behaviour of the environment", "why_tests_cant": "expressions nest without bound and calls recur; the rules are equivalences, so they also say when there is no value", "anchors": ["src/compiler/value.rs: evaluate_node, evaluate_list, evaluate_template, evaluate_let_in, evaluate_code_fence", "src/compiler/names.rs: evaluate_name", "src/compiler/func.rs: evaluate_func_call", "src/compiler/tag.rs: compile_tag", "src/compiler/sequence.rs: compile_sequence", "src/compiler/exports.rs", "src/compiler/matcher.rs: evaluate_match"]}
{"id": "C63", "title": "Parsing HTML keeps every tag and character", "statement": "Parsing a text as HTML gives the document it stands for: its elements, with their attributes, and its characters, in order, without comments and document types, and with names in lower case. An attribute which occurs twice has its last value and is not an error; any other error found in the text is reported, the first one only, and gives no document. The document is in normal form. Fetching a page over the network gives the document that its text parses to, or the text as it is.", "quantifier": "every text and every document the HTML parser can give for it, of any size and depth, with any errors; every page", "why_tests_cant": "documents nest to any depth, and each way of combining text, comments and elements must keep the order and merge adjacent text", "anchors": ["src/compiler/html_parse.rs: HTML::parse, node_to_html", "src/compiler/native.rs: html::parse, net::fetch_html, net::fetch_raw"]}
{"id": "C64", "title": "Printed diagnostics say where and what", "statement": "The text printed for a diagnostic gives its message, and the file, line and column of its place; for a diagnostic with a stack trace, also a line for every call being made, from the oldest to the newest, each with the function it is in. Diagnostics are printed in the order in which they were reported. Every message has the documented words, with the names, types and numbers it is about in their places; messages tell errors apart, errors are never shown like warnings, and the summary tells the numbers of errors and warnings. Printing never fails.", "quantifier": "every diagnostic, with stack traces of any depth, names of any length and files of any content; every pair of errors; every number of errors and warnings", "why_tests_cant": "traces have any depth, and that no two of about a hundred messages coincide for any names is a statement about all pairs", "anchors": ["src/errors/sink_base.rs: Diagnostic, DiagnosticSink::print_to_stderr, DiagnosticSink::summary", "src/errors/sink.rs: PapyriError", "src/errors/syntax_error.rs", "src/errors/runtime_error.rs", "src/errors/type_error.rs", "src/errors/module_error.rs", "src/errors/warning.rs", "src/parser/token.rs: TokenKind", "src/compiler/frame.rs: stack_trace"]}
{"id": "C65", "title": "Prose compiles to paragraphs", "statement": "A text in which no construct of the language starts compiles, without any diagnostic, to one paragraph element for every paragraph of the text (paragraphs are separated by white space with at least two line feeds), in order. A paragraph shows its words in order, separated by one space, however they were spaced and broken into lines. A word is shown with curly quotation marks in the right direction, ellipses, word joiners and the documented substitutions, and otherwise as written, with <, > and & escaped. Compiling prose changes no variable, and exports nothing; without HTML, each paragraph is followed by an empty line.", "quantifier": "every prose text of any length with any layout and any characters; every state of the compiler before; every limit on recursion", "why_tests_cant": "the claim is about every text and every way of laying it out, and goes through the tokenizer, the parser, the evaluator and the renderer at once", "anchors": ["src/lib.rs: compile_str", "src/parser/tokenizer.rs: tokenize", "src/parser/base.rs: parse_nodes_until, parse_node", "src/parser/text.rs: parse_text, token_text", "src/utils/text.rs: substitutions", "src/compiler/sequence.rs: SequenceCompiler", "src/compiler/render.rs: Renderer"]}
{"id": "C66", "title": "Syntax errors are reported where they are", "statement": "Each diagnostic of the parser is given the position of the start of a token of the text that it is about: an invalid token, the token found instead of the expected one, the bracket or tag that is not matched, the duplicate or forbidden name, spread, argument, parameter, default value or pattern. Only diagnostics about the end of the text are at the end of the text. A diagnostic about two places, such as a name given twice or something after what must come last, is at the later place. In an ASCII text, the line and column printed are those of that token.", "quantifier": "every text of any length, with any number of errors of any kind, for every behaviour of entity decoding and of the regular expression library", "why_tests_cant": "the parser recovers from errors and goes on, so positions are threaded through every combination of constructs, and the claim is about each of some seventy kinds of errors in all of them", "anchors": ["src/parser/base.rs", "src/parser/func.rs", "src/parser/matcher.rs", "src/parser/tag.rs", "src/parser/types.rs", "src/parser/template.rs", "src/parser/queue.rs", "src/parser/tokenizer.rs", "src/utils/sourcefile.rs: SourceRange, index_to_line_col"]}
{"id": "C67", "title": "Compiling ends unless function calls nest without bound", "statement": "Compiling a text ends, whatever the text, the files it imports, the state before and the behaviour of the libraries used, if there is any bound on how deeply function calls nest; so loops over lists, matching, importing modules that import each other, rendering and all native functions end. In particular a text that calls no function always compiles in finite time. The result does not depend on the bound.", "quantifier": "every text, every set of files, every state of the compiler, every bound on the nesting of calls, every behaviour of the libraries used", "why_tests_cant": "termination is a claim about infinitely many steps of every program, and no test that stops can tell a program that ends late from one that does not", "anchors": ["src/compiler/base.rs: compile_node, compile_sequence, evaluate_node", "src/compiler/func.rs: evaluate_func_call", "src/compiler/matcher.rs", "src/compiler/native.rs", "src/compiler/tag.rs", "src/compiler/signature.rs", "src/compiler/module_loader.rs: load_cached", "src/parser/base.rs: parse_root"]}
{"id": "C68", "title": "Valid markup compiles to itself", "statement": "A text that is markup - elements with attributes, nested to any depth, text of words, single spaces and escape sequences, paragraphs with or without tags, white space between blocks - and obeys the rules about which element may contain what compiles without any diagnostic, exports nothing, and gives exactly the HTML of the page: the same elements in the same order with the same attributes and text, with special characters as entities, paragraphs in <p> tags, and no closing tags for void elements. Every page of blocks that obeys the rules is the output for some text. If it consists of letters and single spaces only, it is the output for its own HTML, so that compiling a second time changes nothing.", "quantifier": "every text that is markup, of any size and depth, in every state of the compiler, for every behaviour of the libraries used", "why_tests_cant": "the claim relates whole texts to whole pages through the tokenizer, the parser, the compiler, the sequence builder and the renderer, over unboundedly nested trees; tests show a few trees", "anchors": ["src/parser/tokenizer.rs", "src/parser/base.rs: parse_node, parse_root", "src/parser/tag.rs: parse_tag, parse_attrs", "src/parser/template.rs", "src/parser/text.rs", "src/compiler/base.rs: compile_sequence", "src/compiler/sequence.rs: SequenceBuilder", "src/compiler/tag.rs", "src/compiler/html.rs", "src/compiler/render.rs", "src/utils/taginfo.rs"]}
{"id": "C69", "title": "Tokens follow the lexical grammar", "statement": "Every text is read in exactly one way as a sequence of tokens: those of a lexical grammar given separately, which says for each kind of token - names, numbers, keywords, quotes and their direction, white space and paragraph breaks, comments, escapes, entities, tags, verbatim text and punctuation - what its text is, where it ends, and which complaint, if any, is reported. The parser is given that sequence without comments, with each gap reduced to one white space token. (The exception is the crash on some malformed escapes, C15.)", "quantifier": "every text of any length", "why_tests_cant": "that a hand-written scanner agrees with a grammar, and that the grammar is unambiguous, is a claim about all texts", "anchors": ["src/parser/tokenizer.rs: tokenize, Tokenizer::next_token", "src/parser/token.rs: TokenKind"]}
{"id": "C70", "title": "Built-in functions are where the documentation says", "statement": "Whatever has been compiled before, with whatever standard library, the outermost scope around every source file contains exactly the documented built-in functions, each under its name or in its group, with its documented signature: names, kinds, types and default values of parameters. A value has as attributes exactly the functions documented as methods of its type, and calling one gives it the value as first argument or as content, as documented; any other attribute is an error.", "quantifier": "every history of one compiler; every value, attribute name and state", "why_tests_cant": "that no program can change the outermost scope is a claim about all programs; that a value has no other attribute is one about all names", "anchors": ["src/compiler/native.rs: native_defs!", "src/compiler/native_gen.rs: NativeDefs::build, to_frame, evaluate_native_attr", "src/compiler/context.rs: Context::new", "src/compiler/module_loader.rs: compile_stdlib"]}
{"id": "C71", "title": "Values are converted by the documented rules", "statement": "Where a value of some type is expected, the given value is converted by fixed rules or refused. A value which already has the type is kept; booleans and integers become their text where a string is expected; a value shown as HTML becomes content where content is expected, wrapped in a paragraph where block content is expected; lists and dictionaries are converted element by element and an absent value is kept where it is optional. A refusal says which type was expected and which was given, for the first part that fails. Every value is shown in the document by fixed rules: numbers in decimal with a proper minus sign, lists as bullet lists, dictionaries as tables, booleans as True and False, functions and regular expressions as code.", "quantifier": "every type the language can write and every value of any depth", "why_tests_cant": "types and values nest without bound, and the rules must cover every combination", "anchors": ["src/compiler/types.rs: Compiler::coerce_value", "src/compiler/value.rs: Compiler::compile_value"]}
{"id": "C72", "title": "Every compiled document is well-formed and reads back exactly", "statement": "Whatever the program - with computed tag names, attributes from dictionaries, templates, files, functions of the standard library - the document it compiles to has only names that can be written in HTML, and no content in void elements; so the text it is rendered to, read by an independent reader, gives exactly that document: no text or attribute value passes for markup, and every element ends where it should. The same holds for files compiled, files written by a program, and the library's function for compiling a text. (HTML parsed at run time is assumed to have such names.)", "quantifier": "every program, every file system and environment, every sequence of compilations in one context, every amount of fuel", "why_tests_cant": "the names in a document come from everywhere: tokens, dictionary keys, named arguments, groups of regular expressions, parsed HTML; tests sample few paths from there to a tag", "anchors": ["src/compiler/tag.rs: compile_tag, compile_tag_attrs", "src/compiler/html.rs: HTML", "src/compiler/native.rs", "src/utils/text.rs: is_identifier", "src/lib.rs: compile_str"]}
{"id": "C73", "title": "Which unique id a request gets", "statement": "The first id for a name is the name itself, in lower case and cut to the maximal length, or the identifier that spells it if it is not an identifier. If that id is taken, the name gets the least number from 2 that makes an id not yet taken, as in name_2, if there is room; without room the beginning of the name is numbered.", "quantifier": "every name, every maximal length, every set of ids already handed out", "why_tests_cant": "the ids depend on all ids handed out before, and lengths of names and numbers interact at every power of ten", "anchors": ["src/utils/text.rs: UniqueIDs::get_unique_id, make_identifier"]}
{"id": "C74", "title": "A text compiles to exactly the document its grammar and rules give it", "statement": "If the library's function for compiling a text gives a document, then the text is read as tokens by the lexical grammar, the tokens form a document of the syntax grammar, its nodes make HTML by the rules of evaluation with nothing reported, and the result is that HTML rendered. Conversely every text for which there are such a reading, derivation and evaluation, and in which no question mark follows a type that has none as a value anyway (the words any, none, html, block and inline, or another question mark), compiles to that document.", "quantifier": "every text whose escapes are complete, every environment", "why_tests_cant": "the claim joins the specifications of all stages, each over unbounded inputs; a test sees only single texts", "anchors": ["src/lib.rs: compile_str", "src/parser/base.rs: parse", "src/compiler/module_loader.rs: compile_synthetic"]}
{"id": "C75", "title": "Kinds of tokens in code of other languages", "statement": "Code in a language known to the syntax parser is cut into the pieces the parser gives; the kind of each piece follows from its text and the scopes it is in, by the first applicable rule of a fixed list (white space, invalid, comment, brackets, string, number, ..., else name or punctuation). Highlighting then always succeeds, whatever the scopes are, keeps the text of every line, and shows a line that could not be parsed as it is.", "quantifier": "every source, every language and every answer of the parser that cuts lines into adjacent pieces", "why_tests_cant": "texts and stacks of scopes are unbounded, and the rules overlap", "anchors": ["src/compiler/highlight.rs: syntect_highlighting::token_kind, highlight"]}
{"id": "C76", "title": "Scripts and style sheets keep their text", "statement": "The content of a script, style or other raw text element of a compiled document, as a browser takes it (no tags, no character references, up to the first end tag of that name), is the text the program put there, and that text cannot end the element early.", "quantifier": "every such element, every text in it, every attribute, everything that may follow", "why_tests_cant": "a test tries single scripts; whether some text ends the element early, or is changed, is a question about all texts", "anchors": ["src/compiler/render.rs: Renderer", "src/utils/text.rs: encode_entities", "src/utils/taginfo.rs: content_kind_for"]}
{"id": "C77", "title": "No element is written with an attribute twice", "statement": "In the text a compiled document is rendered to, no element has the same attribute twice (a browser would ignore the second one).", "quantifier": "every program, every environment, every session of a compiler", "why_tests_cant": "attributes come from literals, dictionaries, templates, matches and parsed HTML, in any combination", "anchors": ["src/compiler/tag.rs: compile_tag_attrs", "src/compiler/render.rs: Renderer", "src/compiler/html_parse.rs"]}
{"id": "C78", "title": "Rendering to a writer that fails", "statement": "Rendering a document to a writer writes exactly the document, as UTF-8, and reports success; or, if the writer fails, reports that, having written a part of the document from the beginning and never using the writer again. The command line tool says that it has written a file only if the file contains the whole document.", "quantifier": "every document, every writer and file, whichever of the writes fails and however much of it is written", "why_tests_cant": "a failure may come at any write, in the middle of any of them, or when the file is closed", "anchors": ["src/compiler/render.rs: Renderer, Context::render", "src/bin/papyri.rs: write_out_file"]}
{"id": "C79", "title": "Compiling to plain text", "statement": "In text mode, a document is rendered as its characters, all of them, in order and not encoded, with a line break after every block element (two after a paragraph, and a bar for a rule), and nothing else: no tags, no attributes.", "quantifier": "every document", "why_tests_cant": "documents are unbounded trees; a lost or duplicated character or break may need any nesting of elements", "anchors": ["src/compiler/render.rs: Renderer::write_html, as_html"]}
{"id": "C80", "title": "The source files of a directory", "statement": "Given a directory, the command line tool compiles, and `@file::list` lists, exactly the Papyri source files in it and in the directories below it (the suffix in any case), each once and in order of their paths, relative to the directory. Directories that cannot be read and links that lead nowhere are reported.", "quantifier": "every tree of directories, files and links, in any order the system lists them", "why_tests_cant": "trees are unbounded, and links, names and permissions combine freely", "anchors": ["src/utils/relpath.rs: find_papyri_source_files_in_dir, make_relative", "src/utils/sourcefile.rs: is_papyri_file", "src/compiler/native.rs: FILE::LIST"]}
{"id": "C81", "title": "Layout and comments do not matter", "statement": "Two texts which consist of the same words and signs, with gaps at the same places, compile to the same document with the same exports, reports and effects. A gap may be filled with any white space and any comments, of either style; it only matters whether there is white space in it at all, and whether a blank line, and which way it makes a quotation mark after it point.", "quantifier": "every pair of such texts, every environment and state, every amount of fuel", "why_tests_cant": "comments and indentation can be put into infinitely many places, also within expressions, tags, templates and patterns, where other code takes care of them", "anchors": ["src/parser/token.rs", "src/parser/tokenizer.rs: tokenize", "src/parser/queue.rs", "src/parser/base.rs: Parser", "src/parser/template.rs"]}
{"id": "C82", "title": "What is shown has no influence on what is compiled", "statement": "The reporting level and the options --silent and --ignore-warnings change only what is shown: whatever is compiled, and whatever was compiled before in the same context, the resulting document, exports, collected files, unique ids and the numbers of errors and warnings are the same at every level, and the diagnostics kept at a level are exactly those reported that are of that level. The command line tool compiles, reads and writes the same files, in the same order and with the same content, prints the same diagnostics up to the level, and ends with the same status and message.", "quantifier": "all programs, sequences of sources, pairs of levels, option settings, file systems and libraries (as long as they do not look at what was printed)", "why_tests_cant": "It compares two runs for every program; a warning that is swallowed or a counter that depends on the level may matter only in an unusual combination of sources.", "anchors": ["src/errors/sink_base.rs: DiagSinkBase, ReportingLevel", "src/errors/sink.rs", "src/bin/papyri.rs: Main", "src/compiler/context.rs: Context"]}
{"id": "C83", "title": "A source is compiled the same way whatever was compiled before", "statement": "When a context has been used for any number of sources, with or without errors, and is then reset, the next source is compiled exactly as in a new context, provided that no module it asks for was asked for before: the document, the exports, the diagnostics, the collected files, the unique ids and the order in which modules are loaded are the same. If the source cannot be read, the error is the same.", "quantifier": "all histories of a context (texts, files, collected files taken, resets, with changing environments), all sources, reporting levels and output directories", "why_tests_cant": "It compares the compilation of every source after every history with a compilation in a new context; a variable, an id or a diagnostic that leaks from one source to the next may show only for an unusual pair of sources.", "anchors": ["src/compiler/context.rs: Context::reset, Context::compile, Context::load_uncached", "src/compiler/module_loader.rs: ModuleLoader", "src/compiler/frame.rs: ActiveFrame", "src/utils/outfiles.rs", "src/bin/papyri.rs"]}
{"id": "C84", "title": "White space may be wrapped differently and comments added to it", "statement": "Wherever there is white space after a word or sign of a text, it may be replaced by any other white space and by white space with comments in it, of either style, as long as a blank line remains one: the text compiles to the same document with the same exports, reports and effects.", "quantifier": "every text, every place with white space in it, every replacement, every environment and state", "why_tests_cant": "texts, places and comments are unbounded; whether a character before or after the place is read differently depends on what is next to it", "anchors": ["src/parser/tokenizer.rs: tokenize, next_token", "src/parser/token.rs", "src/parser/queue.rs"]}
{"id": "C85", "title": "White space at the end of a text does not matter", "statement": "A text that is parsed without errors, does not end in white space or a comment, and has no `...` in it, compiles to the same document, with the same exports, reports and effects, when any white space, with comments in it if one likes, is added at its end; so a final line feed may be added, removed, or made a blank line.", "quantifier": "every such text, all white space with comments, every environment and state", "why_tests_cant": "every parser function looks for more tokens at the end of the text, and any construct may be the last one; an extra white space token there must not be taken for a part of it", "anchors": ["src/parser/tokenizer.rs: tokenize", "src/parser/queue.rs", "src/parser/base.rs: Parser", "src/parser/func.rs", "src/parser/matcher.rs", "src/parser/tag.rs", "src/parser/types.rs"]}
{"id": "C86", "title": "A blank line divides a document into parts compiled one after the other", "statement": "When a text has a blank line outside of every construct, its document is the blocks and paragraphs of the part before the blank line followed by those of the part after it. The part after is compiled as a document of its own would be, except that it finds the definitions, diagnostics, ids and files the part before leaves. The same holds of a blank line in any element that requires block content. Two texts that are parsed without errors may be put together with a blank line between them: the tree of the whole is the tree of the first, a paragraph break, and the tree of the second, if neither has `...` in it and the first does not end in an escaped character.", "quantifier": "every text that compiles, every blank line among its top level nodes, every content of an element that requires block content, every environment and state", "why_tests_cant": "texts are unbounded, and what is left over of the paragraph before the blank line (an open paragraph, pending white space, a wrapper) could leak into what follows for particular combinations only", "anchors": ["src/compiler/sequence.rs: compile_sequence, SequenceBuilder", "src/compiler/base.rs: Compiler", "src/utils/taginfo.rs: ContentKind"]}
