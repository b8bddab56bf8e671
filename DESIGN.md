# Formal model of papyri-rs: design

Papyri is a markup language with functions that compiles to HTML. The model covers the whole path from source text to
written files: tokenizer, parser, evaluator with all native functions, content model, renderer, module loader, `compile_str`
and the command line tool. It is a set of total computable Gallina functions; `Tests_Suite.v` runs the project's own tests
(205 of them, from `/repo/tests`) on it inside Coq, with the same verdicts.

## Layout of `rocq/theories`

| files | content |
|-------|---------|
| `Base.v`, `BaseFacts.v` | characters, strings, `outcome` (result / panic / out of fuel) |
| `M_*.v` | the model: definitions only, each citing the lines of `/repo` it models |
| `S_*.v` | specifications: small vocabularies in which the properties are stated, independent of the model's helpers |
| `P_*.v` | lemmas and proofs |
| `Properties_*.v` | the property theorems (`Cxx_...`), each followed by `Print Assumptions`, and `Example`s that meet the hypotheses |
| `Tests_Suite.v` | the project's tests, evaluated on the model |

`properties.jsonl` lists the properties, `MANIFEST.json` the theorems per property, `seeded/LOG.jsonl` the wrong programs the
theorems were tried against.

## Conventions of the model

* A Rust `char` is its code point (`N`), a `str` a list of them; byte lengths and slicing go through `utf8_len`, so slicing
  inside a character is visible as a panic.
* Panics, internal errors (`errors::ice`), out-of-bounds accesses and overflow aborts are explicit results that carry their cause
  (`fault` in `M_State.v`). Nothing is replaced by a default value.
* `&mut self` methods return the new state: `outcome` for plain functions, the monad `EM` (`M_State.v`: result or error, with
  state; crash; out of fuel) for the compiler, `PM` (`M_Parser.v`) for the parser.
* Loops are structural recursion. Evaluation and parsing, whose recursion is not structural, take fuel; running out of it
  is a separate result. `P_Mono.v` proves that more fuel never changes a result. For parsing, the fuel the model gives itself is proved to be enough
  for every text (C43_ends). Evaluation need not terminate (programs may be recursive), so its theorems are about all runs that return.
* Everything outside the crate is a field of a record that the theorems quantify over, never an axiom: `externals`
  (`M_Native.v`: deunicode, case mapping, regex, entity decoding, html5ever, syntect, network, file system reads, and
  whether overflow checks are compiled in) and `host` (`M_Cli.v`: what the operating system answers the command line tool).
* Interned names are modelled by the strings they denote; C05 justifies this. `IndexMap` and `IndexSet` are association lists and
  duplicate-free lists in insertion order. `Rc` sharing is not modelled, as values are immutable; scopes (`ActiveFrame`),
  which are mutable and shared, are indices into a heap of frames.
* Source positions are modelled where they have effects (C06, C12, C66: tokenizer, parser diagnostics and line table), but not in syntax trees and
  diagnostics beyond the path of the source file.

## Methods

* **Tokenizer** (`P_Tokenizer`, `P_Front`, `P_Escape`): an invariant of the scanning position, by induction on the remaining text.
* **Parser** (`S_Grammar`, `P_Parser*`): the grammar is written as an inductive relation on token lists; a program logic for the
  parser monad proves that the parser accepts exactly the grammar (soundness, completeness, unambiguity) and that it terminates on all
  texts. A second logic (`P_ParserWf`) proves that every tree it hands on, even after errors, is well formed.
* **Evaluator, generic facts** (`P_Built`): an inductive predicate on state transformers, closed under the monad's operations,
  of which every evaluator function is shown to be an instance once. Scoping, diagnostics, unique ids, the module cache and the output collector
  (C27, C28, C35-C37, C50, C51) are consequences.
* **Calls and patterns** (`S_Call`, `P_Call`, `S_Match`, `P_Match`): declarative relations (which value each parameter must get, what a pattern matches)
  proved equivalent to the binder and the matcher.
* **Soundness** (`S_Safe`, `S_Session`, `P_Safe*`, `P_Session`): a Hoare logic over the evaluator with an invariant of values, frames and
  modules; with an inductive definition of the states a session of compilations can reach (`Session`). Gives
  C47, C57 and C58.
* **Documents** (`P_Html`, `P_Sequence`): the stream of characters and tags a document denotes, and an independent reader of HTML text (`S_Html`).
* **Command line tool** (`S_Cli`, `P_Cli`): the model is a tree of questions to the operating system; the theorems are about every
  sequence of answers, by refinement to a declarative description of the run.

## Properties

| id | theorems in | model | how |
|----|-------------|-------|-----|
| C01-C04 unique ids, identifiers | Text | M_Text | invariant over request histories; C02 is refuted on the collision path and proved for lower case identifiers |
| C05 interning | Util | M_StringPool | refinement to a growing injective list |
| C06 line and column | Util | M_SourceFile | proved for ASCII; refuted otherwise (byte offset into a per-character table) |
| C07 escaping | Text | M_Text | decoding relation |
| C08, C09 code fences | Text | M_Text | per-line specification; C08 refuted for non-ASCII indentation |
| C10 output paths | Util | M_Path | denotation of paths; refuted for empty and relative output paths in two respects |
| C11 slices | Util | M_SliceRef | refinement to lists |
| C12-C15 tokens | Front | M_Tokenizer | induction; C15 refuted for malformed escapes, with exactly the texts on which the tokenizer crashes and the escapes that cannot be decoded (P_Cut, P_Escapes), and proved for all others |
| C16, C17 types | Types | M_Types, M_Queue | induction on types |
| C18-C20, C39 values | Types | M_Value | induction; refutations for heterogeneous lists (`any` is treated as the least type) and links around blocks |
| C21-C23 documents | Html | M_Html, M_Render | normal forms, independent reader |
| C24-C26 content model | Html, Inline, Blocks, Sorted, Document | M_Sequence, M_TagInfo | invariant over pushes; C24 refuted for mixed pieces in block content; exact for inline content and no content (S_Inline), for block content (S_Blocks) and for particular children (S_Sorted, but for `head`) |
| C27, C28, C50 scopes, diagnostics | Scope | M_State, M_Eval | `Built` |
| C29-C31 matching | Match | M_Matcher | relation equivalent to the matcher; for expressions with effects inside a pattern, C29_bound (variables are bound when it matches) by induction over patterns with the frame rule |
| C32-C34 calls | Call | M_Binder, M_Eval | relation equivalent to the binder; C32 refuted for implicit parameters and a repeated name |
| C35-C37, C51 modules | Module | M_Eval | `Built`; measure: files not loaded yet |
| C38, C48, C49, C52, C53, C59, C60 native functions | Native, Native2 | M_Native | one specification per function; C49 refuted for overflow, C60 for `.PAPYRI` files |
| C40 highlighting | Highlight, Native2 | M_Highlight | marks of characters, bracket matching, links |
| C41 diagnostics | Types | M_Diag | histories |
| C42, C56 command line tool | Cli | M_Cli | refinement; both refuted in part |
| C43, C54 parser | Parser | M_Parser | grammar equivalence |
| C44-C46 escapes, numbers, substitutions | Front | M_TokenText, M_TextSubs | declarative decoding |
| C47, C57, C58 soundness | Safe | all | invariant of all reachable states; refuted for programs using `?::` calls or ill-typed implicits |
| C61 standard library | Std | M_Std, M_Eval | symbolic evaluation of the functions of `std.papyri`, for all arguments and states |
| C62 expressions | Expr | M_Eval | rules for each form of expression and node, proved equivalent to the evaluator (in the limit of fuel) |
| C63 parsing HTML | HtmlParse | M_HtmlParse, M_Native | relation between a parsed document and its tags and characters; proved by induction on the document |
| C64 printed diagnostics | Report | M_Report | relation between a diagnostic and its text; proved by induction on the stack trace; messages by comparing all pairs of fixed parts, and against a table of templates |
| C65 prose | Prose | tokenizer, parser, evaluator, renderer | relational layout and typesetting (S_Prose); tokens of a word by induction on it, then the syntax tree, the builder and the rendered page; the layout is proved total and unique |
| C66 places of syntax errors | Pos | the parser again, with the starts of ranges (M_ParserPos) | erasing positions gives the parser of M_Parser, by a relation preserved by every parsing function; a second pass shows that every position is that of a token the diagnostic is about (S_Pos); a third, relating the tokens consumed to those that remain, that errors about two places are at the later one (S_PosOrder) |
| C67 compiling ends | Ends | the evaluator, and the evaluator with a limit on the nesting of calls (S_Ends) | induction on the limit and on syntax trees (P_Ast): families of computations that grow with fuel and end from every state (P_Ends to P_Ends5); the limited evaluator is below the evaluator (P_Below), and the evaluator below the limited one (as in P_Mono) |
| C68 markup | Markup | tokenizer, parser, evaluator, builder, renderer together, on texts that are markup (S_Markup) | texts are read token by token in continuation style (P_Markup1 to P_Markup3), the tokens are derived in the grammar of C54 (P_Markup4, P_Markup5), the parser accepts what the grammar derives (P_Markup6), then mutual induction on syntax trees for evaluation, with lemmas on the builder for each content kind (P_Markup7, P_Markup8); every page can be written (P_Markup9), a simple one as it is rendered (P_Self) |
| C69 lexical grammar | Lex | M_Tokenizer, against a declarative lexical grammar (S_Lex) | each kind of token both ways (P_Lex1 to P_Lex3): what the scanner returns is a lexeme of the grammar, and a lexeme is returned; then induction on the text; gaps by C13; the texts on which the tokenizer crashes are found in the same way (P_Cut) |
| C70 built-ins | Builtins | M_Native (signatures, groups, methods), M_Eval | a table of printed signatures transcribed from native.rs (S_Builtins) compared with the model by computation; that the outermost scope never changes by the frame rule of C27 |
| C71 conversions | Convert | M_Value | inductive rules (S_Convert) for conversion, refusal and display; both directions by induction on types and values; numerals by their grammar |
| C72 documents read back | Plain | M_Eval and all it uses | third mode of the invariant of C57/C58 (S_Safe, S_Session): all names are plain; parser pass (P_ParserWf) for written names; then the reader of C23. Assumed: names in parsed HTML are plain |
| C73 which unique id | Text | M_Text | induction on the search for a free number (P_TextMore), with the growth of decimal numerals |
| C74 text to document | Whole | all | C69, C54, C62 and C55 joined; what the parser reports is an error, or the one warning about a question mark, which must then be redundant (an invariant of the parser's state: P_Redundant) |
| C75 tokens of other languages | Syntect | M_Syntect | the rules as a list of conditions, the first of which decides; selectors of the syntect crate are modelled (a selector of one scope, with at most one exclusion), its parser is arbitrary; highlighting by C40 |
| C76 scripts and style sheets | Raw | M_Render | a separate description of raw text content, as HTML defines it (S_Raw); refuted by a program for texts with special characters |
| C77 attributes once | Raw | M_Render, M_Eval | distinct names (C58) stay distinct when written, without dashes; refuted with parsed HTML |
| C78 writers that fail | RenderIo | M_RenderIo | the renderer over an arbitrary writer, and the standard library's buffered writer over an arbitrary file; by induction over documents, with the buffer's invariant; refuted for the tool's files, whose last error is lost |
| C79 plain text | PlainText | M_Render | a relation from the characters and tags of a document to its text; equivalence by induction over documents |
| C80 source files of a directory | Sources | M_Cli, M_Native | trees of directories, files and links, and what walkdir and canonicalize answer for them (S_Sources); by induction over trees; refuted for directories with the name of a source, and for links |
| C81 layout and comments | Layout | M_Tokenizer, M_Parser, M_Eval | two runs of the parser side by side (P_Layout to P_Layout3): token streams equal up to positions and the text of white space, with the same tokens touching, give the same tree; the lexical side by the grammar of C69 (P_Layout4) |
| C82 what is shown does not matter | Levels | M_Diag, M_State, M_Eval, M_Cli | two runs side by side: every method of the compiler is built from primitive operations (P_Built), each of which takes states that are alike to states that are alike (P_Levels); then the command line tool, with a host that does not look at what is printed |
| C83 the history of a compiler does not matter | Alone | M_State, M_Eval and all it uses | every function of the compiler commutes with inserting scopes into the heap and renumbering those above, if it asks for other modules than were asked for (P_Shift1 to P_Shift5, one lemma for each function); a used compiler after a reset is a new one with scopes inserted (P_Shift6), by the frame rule of C28 and because values in the scopes of the standard library refer to those scopes only (invariant of C57) |
| C84 white space may be wrapped differently and comments added to it | Refill | M_Tokenizer, M_Parser | a token before white space is one before other white space (one case for each sort of token of the lexical grammar, P_Refill), so the tokens before the place stay; those after it are moved; then C81; refuted for a quotation mark after a # comment |
| C85 white space at the end of a text does not matter | Trail | M_Tokenizer, M_Parser | relational pass over every parser function: run on the tokens with and without one more white space token at the end, both do the same or the one without reports an error (P_Trail); at the level of characters as for C84, with nothing after the place (P_TrailText) |
| C86 a blank line divides a document | Blank, Join, Parts | M_Sequence, M_Eval, M_Parser, M_Tokenizer | from the exact account of block content (P_Blocks) and the rules of evaluation (S_Expr, S_Document): pieces, state and paragraphs of both parts are put together; for two texts, a relation between runs of the parser with and without tokens after white space (P_Join), and the lexical grammar (P_JoinText); for any number of texts, induction over them (P_Parts) |
| C55 `compile_str` | Lib | M_Lib, M_Std | evaluation of the standard library; refuted: file access is not disabled |

`_refuted` theorems exhibit a counterexample (mostly a program or an input, run on the model) to the claim as a user would
state it; the true part is then a theorem with the suffix `_partial`, or one with an extra hypothesis that says what is excluded.

## Trusted base

* Coq 8.16.1's kernel, and the reading of `/repo` recorded in the comments of `M_*.v`.
* `Print Assumptions` says "Closed under the global context" for all theorems except these, which use the standard library's
  `functional_extensionality_dep` (to evaluate the parser on the text of the standard library step by step):
  `C42_run`, `C42_no_output_on_error`, `C42_inside_out_dir`, `C42_exit_status`, `C42_stdin`, `C47_coalescing_refuted`, `C55_context`,
  `C55_result`, `C56_fresh_partial`, `C57_implicit_refuted`, those of C61, `C65_compile_str`, `C65_reflow`, `C68_compile_str_partial`,
  `C68_every_page_partial`, `C68_itself`, and those of C74 and C83.
* No axioms, parameters, functors or unchecked definitions are declared.

## Modelled and not modelled

| part of `/repo/src` | status |
|---------------------|--------|
| `utils/*` | modelled; `Path` on Unix, paths as text (non-UTF-8 paths are not representable); `find_papyri_source_files_in_dir` with the traversal as an answer of the host in M_Cli, and over directory trees in C80 |
| `parser/*` | modelled; starts of the ranges of diagnostics are modelled in M_ParserPos (C66), ranges in syntax trees are left out |
| `compiler/*` | modelled; external crates (regex, html5ever, syntect, reqwest) are arbitrary functions; write errors in `render.rs` in M_RenderIo (a writer that may fail), not in M_Render; syntect scope selectors in M_Syntect |
| `errors/*` | kinds and severities of diagnostics, sink, summary line and exit status, texts of messages and printed reports (C64); positions of syntax errors (C66), but not of runtime errors |
| `bin/papyri.rs` | modelled after argument parsing (the `clap`-like parsing of arguments is outside); see `M_Cli.v` |
| `lib.rs`, `std.papyri` | modelled |

Not modelled: performance, memory use, stack depth, `Rc` identity, threads (there are none), and the correctness of the external crates.
