{
 "claims": [
  {
   "property": "C01",
   "status": "proved",
   "theorems": [
    "C01_unique_ids_distinct",
    "C01_unique_ids_terminate"
   ],
   "note": ""
  },
  {
   "property": "C02",
   "status": "partial",
   "theorems": [
    "C02_unique_ids_lowercase_refuted",
    "C02_unique_ids_identifier_refuted",
    "C02_unique_ids_no_crash_refuted",
    "C02_unique_ids_partial"
   ],
   "note": "Full claim refuted (lower case, identifier shape and no-crash all fail on the collision path, which uses the raw base). Proved for bases that are lower case identifiers, in every generator state."
  },
  {
   "property": "C03",
   "status": "proved",
   "theorems": [
    "C03_unique_id_length"
   ],
   "note": ""
  },
  {
   "property": "C04",
   "status": "proved",
   "theorems": [
    "C04_make_identifier",
    "C04_spelling",
    "C04_is_identifier"
   ],
   "note": ""
  },
  {
   "property": "C05",
   "status": "proved",
   "theorems": [
    "C05_interning",
    "C05_constants"
   ],
   "note": ""
  },
  {
   "property": "C06",
   "status": "partial",
   "theorems": [
    "C06_line_col_partial",
    "C06_line_col_chars",
    "C06_line_col_refuted",
    "C06_line_col_crash_refuted",
    "C06_span_text"
   ],
   "note": "Proved for ASCII text; refuted in general (byte offset used to index a per-character table: wrong position, or a crash at end of file)."
  },
  {
   "property": "C07",
   "status": "proved",
   "theorems": [
    "C07_escape_decodes",
    "C07_escape_safe",
    "C07_escape_ampersands"
   ],
   "note": ""
  },
  {
   "property": "C08",
   "status": "partial",
   "theorems": [
    "C08_fence_indentation_partial",
    "C08_fence_indentation_crash_refuted",
    "C08_fence_indentation_refuted"
   ],
   "note": "Proved for every body whose first non-blank line is indented by ASCII white space; refuted otherwise (char index used as byte offset: crash or wrong stripping)."
  },
  {
   "property": "C09",
   "status": "proved",
   "theorems": [
    "C09_language_hint",
    "C09_trim_end"
   ],
   "note": ""
  },
  {
   "property": "C10",
   "status": "partial",
   "theorems": [
    "C10_writes_contained",
    "C10_writes_exact",
    "C10_check_exact",
    "C10_denotes_function",
    "C10_empty_base_refuted",
    "C10_dot_base_refuted",
    "C10_relative_base_refuted"
   ],
   "note": "Containment proved for every request history and every non-empty output path; exactness proved for absolute output paths without '..'; the remaining cases are refuted (empty output path lets an absolute path escape; '.' refuses everything; a relative output path can accept a path denoting another place). Symbolic links are not modelled. C10_writes_exact: with such an output path, the set of files written is exactly the set of requested files whose path denotes a place inside it."
  },
  {
   "property": "C11",
   "status": "proved",
   "theorems": [
    "C11_list_slice",
    "C11_slice_function",
    "C11_list_index",
    "C11_from",
    "C11_sub_slice"
   ],
   "note": ""
  },
  {
   "property": "C12",
   "status": "proved",
   "theorems": [
    "C12_tokens_tile",
    "C12_tokens_concat",
    "C12_terminates",
    "C12_token_text",
    "C12_punctuation"
   ],
   "note": ""
  },
  {
   "property": "C13",
   "status": "proved",
   "theorems": [
    "C13_stripped",
    "C13_whitespace_normal",
    "C13_significant_kept"
   ],
   "note": ""
  },
  {
   "property": "C14",
   "status": "proved",
   "theorems": [
    "C14_verbatim"
   ],
   "note": ""
  },
  {
   "property": "C15",
   "status": "partial",
   "theorems": [
    "C15_tokenize_refuted",
    "C15_decode_refuted",
    "C15_no_crash_partial",
    "C15_crashes",
    "C15_parser_partial",
    "C15_decode_exact"
   ],
   "note": "Refuted: the tokenizer slices inside a character for a numeric escape with a non-ASCII character among its digits, and decoding a (reported) malformed escape crashes. C15_crashes says exactly on which texts the tokenizer crashes (in the terms of the lexical grammar of C69), C15_decode_exact which escapes cannot be decoded. C15_parser_partial: the parser crashes on no other text; missing is which of the texts with a malformed escape it crashes on (not if the token is skipped because of a syntax error)."
  },
  {
   "property": "C16",
   "status": "proved",
   "theorems": [
    "C16_type_text",
    "C16_parsed_normal"
   ],
   "note": ""
  },
  {
   "property": "C17",
   "status": "proved",
   "theorems": [
    "C17_option_accepts",
    "C17_option_idempotent",
    "C17_option_normal",
    "C17_check_value"
   ],
   "note": ""
  },
  {
   "property": "C18",
   "status": "partial",
   "theorems": [
    "C18_coerce_sound",
    "C18_coerce_idempotent",
    "C18_coerce_unchanged_partial",
    "C18_coerce_unchanged_refuted"
   ],
   "note": "Soundness and idempotence proved for all types and well-formed values; 'delivered unchanged' proved for all normalised types except for values containing a link around block-level content, for which it is refuted (is_block and is_inline both hold)."
  },
  {
   "property": "C19",
   "status": "partial",
   "theorems": [
    "C19_reported_type_partial",
    "C19_reported_type_refuted",
    "C19_reported_type_strongest_partial",
    "C19_reported_type_strongest_refuted",
    "C19_reported_type_empty",
    "C19_reported_normal"
   ],
   "note": "Refuted for heterogeneous lists (`any` is treated as the bottom of the common type computation); proved for every value in which no element of type any is followed by others (NoLostAny). C19_reported_type_strongest_partial: the reported type is the strongest one, except for empty lists and dictionaries (C19_reported_type_strongest_refuted; what they report is settled by C19_reported_type_empty) and where text and content meet."
  },
  {
   "property": "C20",
   "status": "partial",
   "theorems": [
    "C20_common_type_upper_partial",
    "C20_common_type_upper_refuted",
    "C20_common_type_strongest_partial",
    "C20_common_type_strongest_refuted",
    "C20_common_type_commutative",
    "C20_common_type_idempotent"
   ],
   "note": "Commutative and idempotent for all types; upper bound proved for types not mentioning any and refuted with any; strongest proved for types in which text does not meet content, refuted for str and html (the common type is any though html accepts text)."
  },
  {
   "property": "C21",
   "status": "proved",
   "theorems": [
    "C21_sequence_normal",
    "C21_sequence_content",
    "C21_rebuild",
    "C21_normal_unique"
   ],
   "note": ""
  },
  {
   "property": "C22",
   "status": "proved",
   "theorems": [
    "C22_render_compositional"
   ],
   "note": ""
  },
  {
   "property": "C23",
   "status": "proved",
   "theorems": [
    "C23_render_read",
    "C23_render_injective"
   ],
   "note": ""
  },
  {
   "property": "C24",
   "status": "partial",
   "theorems": [
    "C24_block_exact",
    "C24_allow_exact",
    "C24_document",
    "C24_content_model",
    "C24_content_model_deep_partial",
    "C24_block_content_refuted",
    "C24_content_total",
    "C24_block_content_accepts",
    "C24_rules",
    "C24_inline_exact",
    "C24_empty_exact",
    "C24_sorted_exact",
    "C24_stable"
   ],
   "note": "Proved for every tag that requires particular children, inline content or no content, and for all tags when pieces do not mix block-level and inline nodes; refuted for block-content tags given a mixed piece (accepted unchanged). C24_inline_exact, C24_empty_exact, C24_block_exact, C24_allow_exact and C24_sorted_exact say exactly what is taken, how it is divided into paragraphs or wrapped and what is reported where inline content, none, block content or particular children are allowed (but for head, where a child after a misplaced piece is lost: C24_head_loses); C24_rules gives the rule for each tag; C24_document says it of the whole document of every text that compiles."
  },
  {
   "property": "C25",
   "status": "proved",
   "theorems": [
    "C25_content_arranged",
    "C25_content_text"
   ],
   "note": ""
  },
  {
   "property": "C26",
   "status": "proved",
   "theorems": [
    "C26_clean_edges"
   ],
   "note": ""
  },
  {
   "property": "C27",
   "status": "proved",
   "theorems": [
    "C27_lookup",
    "C27_declare",
    "C27_evaluation",
    "C27_local",
    "C27_lexical"
   ],
   "note": ""
  },
  {
   "property": "C28",
   "status": "proved",
   "theorems": [
    "C28_lookup",
    "C28_declare",
    "C28_arguments"
   ],
   "note": ""
  },
  {
   "property": "C29",
   "status": "proved",
   "theorems": [
    "C29_outcome",
    "C29_deterministic",
    "C29_variables",
    "C29_bound",
    "C29_plain",
    "C29_alternatives"
   ],
   "note": ""
  },
  {
   "property": "C30",
   "status": "proved",
   "theorems": [
    "C30_spread",
    "C30_middle",
    "C30_short"
   ],
   "note": ""
  },
  {
   "property": "C31",
   "status": "proved",
   "theorems": [
    "C31_first_branch"
   ],
   "note": ""
  },
  {
   "property": "C32",
   "status": "partial",
   "theorems": [
    "C32_binds",
    "C32_unique",
    "C32_typed_partial",
    "C32_typed_refuted",
    "C32_source_call",
    "C32_internal_call",
    "C32_native_functions",
    "C32_defined_functions",
    "C32_same_name_refuted"
   ],
   "note": "Binding (exactly the parameters, once each, with the value the call determines) proved for all signatures with distinct parameter names and all argument sequences, also after partial application and for calls evaluated from source. 'Has the declared type' proved except for implicit parameters that are not given, and refuted for those: the implicit variable's value is bound without being converted. Also refuted for a content parameter with the name of another parameter, which the parser accepts."
  },
  {
   "property": "C33",
   "status": "proved",
   "theorems": [
    "C33_internal_call",
    "C33_accepted",
    "C33_rejected",
    "C33_complaint_true"
   ],
   "note": "A call is accepted if and only if every argument has a place and every parameter a value; a rejection carries an error whose claim about the call is true; never a crash."
  },
  {
   "property": "C34",
   "status": "proved",
   "theorems": [
    "C34_stages",
    "C34_bind",
    "C34_methods",
    "C34_native",
    "C34_name"
   ],
   "note": "Any number of bind steps, any mixing of positional and named arguments in the direct call."
  },
  {
   "property": "C35",
   "status": "proved",
   "theorems": [
    "C35_same_exports",
    "C35_failure_remembered",
    "C35_import",
    "C35_compiled_once"
   ],
   "note": ""
  },
  {
   "property": "C36",
   "status": "proved",
   "theorems": [
    "C36_circular",
    "C36_none_left",
    "C36_bounded"
   ],
   "note": ""
  },
  {
   "property": "C37",
   "status": "proved",
   "theorems": [
    "C37_collected",
    "C37_import_restores",
    "C37_no_writes_in_modules"
   ],
   "note": ""
  },
  {
   "property": "C38",
   "status": "proved",
   "theorems": [
    "C38_sorted",
    "C38_unique",
    "C38_rejected"
   ],
   "note": "Native function list::sorted on bound parameters, for an arbitrary evaluator of callbacks. The library sort (slice::sort_by_key) is modelled by a stable insertion sort."
  },
  {
   "property": "C39",
   "status": "proved",
   "theorems": [
    "C39_equality_means",
    "C39_equality_symmetric",
    "C39_equality_transitive",
    "C39_equality_reflexive",
    "C39_equality_lists",
    "C39_equality_dicts"
   ],
   "note": ""
  },
  {
   "property": "C40",
   "status": "proved",
   "theorems": [
    "C40_classified",
    "C40_papyri",
    "C40_papyri_total",
    "C40_plain",
    "C40_links_unique",
    "C40_elements",
    "C40_line_numbers",
    "C40_code"
   ],
   "note": ""
  },
  {
   "property": "C41",
   "status": "proved",
   "theorems": [
    "C41_diagnostics_exact",
    "C41_success_iff",
    "C41_summary_ok_iff",
    "C41_has_any_iff",
    "C41_since_reset"
   ],
   "note": "Sink-level statement proved for all histories and levels; compile_str's success test is sink_is_empty."
  },
  {
   "property": "C42",
   "status": "partial",
   "theorems": [
    "C42_run",
    "C42_no_output_on_error",
    "C42_inside_out_dir",
    "C42_exit_status",
    "C42_stdin",
    "C42_complaint_refuted",
    "C42_stdin_warning_refuted",
    "C42_lost_refuted"
   ],
   "note": "Proved for every run of the tool (arguments, files, answers of the operating system): order and treatment of the sources, output paths, no output on error, exit status, stdin. Refuted as stated in two points: complaints about arguments do not make the run fail, and with stdin a warning alone does. Parsing of the arguments, the text of operating system errors and non-UTF-8 paths are not modelled. An error when a file is closed is lost (C42_lost_refuted)."
  },
  {
   "property": "C43",
   "status": "proved",
   "theorems": [
    "C43_terminates",
    "C43_ends",
    "C43_all_tokens",
    "C43_in_order",
    "C43_accounted",
    "C43_lexemes"
   ],
   "note": "C43_ends (parsing comes to an end) is for every text. C43_terminates needs that no escape token is malformed (else the code panics, see C15), and that the regular expressions made from templates are accepted by the regex library."
  },
  {
   "property": "C44",
   "status": "proved",
   "theorems": [
    "C44_numeric",
    "C44_simple"
   ],
   "note": ""
  },
  {
   "property": "C45",
   "status": "proved",
   "theorems": [
    "C45_literal",
    "C45_value"
   ],
   "note": ""
  },
  {
   "property": "C46",
   "status": "proved",
   "theorems": [
    "C46_substitutions",
    "C46_unchanged",
    "C46_none_left",
    "C46_idempotent"
   ],
   "note": ""
  },
  {
   "property": "C47",
   "status": "partial",
   "theorems": [
    "C47_any_program_partial",
    "C47_disciplined_partial",
    "C47_sessions",
    "C47_running",
    "C47_entering",
    "C47_coalescing_refuted"
   ],
   "note": "Proved for every program that follows the discipline of S_Safe.v (no calls by way of ?::, distinct parameter names, typed implicit variables), in every state a session can reach; for all programs: the value has the expected type or is none. Refuted in full generality: a call by way of ?:: gives none where another type is expected, and a native function then panics."
  },
  {
   "property": "C48",
   "status": "proved",
   "theorems": [
    "C48_map",
    "C48_filter",
    "C48_filter_none",
    "C48_find",
    "C48_any",
    "C48_all",
    "C48_search_fails",
    "C48_contains",
    "C48_flat",
    "C48_reversed_len",
    "C48_join",
    "C48_get_slice"
   ],
   "note": "Stated for the native functions applied to bound parameters and an arbitrary evaluator of callbacks; binding of the parameters is C32/C33."
  },
  {
   "property": "C49",
   "status": "partial",
   "theorems": [
    "C49_exact_partial",
    "C49_overflow_crash_refuted",
    "C49_overflow_wrap_refuted",
    "C49_all_cases"
   ],
   "note": "False in general: out-of-range sums crash with overflow checks and wrap around without (C49_overflow_crash_refuted, C49_overflow_wrap_refuted). C49_exact_partial proves exactness when intermediate results are in range, C49_all_cases says what happens otherwise."
  },
  {
   "property": "C50",
   "status": "proved",
   "theorems": [
    "C50_errors_recorded"
   ],
   "note": ""
  },
  {
   "property": "C51",
   "status": "proved",
   "theorems": [
    "C51_unique_ids",
    "C51_new_id",
    "C51_native"
   ],
   "note": ""
  },
  {
   "property": "C52",
   "status": "proved",
   "theorems": [
    "C52_affixes",
    "C52_split",
    "C52_parse",
    "C52_measures",
    "C52_escape"
   ],
   "note": ""
  },
  {
   "property": "C53",
   "status": "proved",
   "theorems": [
    "C53_identities",
    "C53_dict",
    "C53_booleans",
    "C53_documents"
   ],
   "note": ""
  },
  {
   "property": "C54",
   "status": "proved",
   "theorems": [
    "C54_accepts",
    "C54_unambiguous",
    "C54_pattern_text"
   ],
   "note": "For every text. Hypothesis: the regular expressions made from templates are accepted by the regex library."
  },
  {
   "property": "C55",
   "status": "partial",
   "theorems": [
    "C55_context",
    "C55_result",
    "C55_compile_reports",
    "C55_fuel",
    "C55_no_network",
    "C55_no_output",
    "C55_no_files_refuted"
   ],
   "note": "compile_str is modelled from the text to the rendered document; the documented 'file access disabled' is refuted. functional_extensionality_dep (standard library) is used to evaluate the parser on the standard library."
  },
  {
   "property": "C56",
   "status": "partial",
   "theorems": [
    "C56_fresh_partial",
    "C56_reset",
    "C56_independent_refuted",
    "C56_unique_ids_refuted",
    "C56_same_output_refuted"
   ],
   "note": "Every source is compiled from a state without diagnostics, unique ids and collected files of the sources before (C56_fresh_partial); independence is refuted because loaded modules are kept, with the errors reported only for the first importer, because unique ids are forgotten but the modules they occur in are not (C56_unique_ids_refuted: the same id twice in a page), and because a.papyri and a.PAPYRI share an output file. C83 proves the independence for sources that do not share modules."
  },
  {
   "property": "C57",
   "status": "partial",
   "theorems": [
    "C57_text",
    "C57_file",
    "C57_parser",
    "C57_syntax_trees",
    "C57_implicit_refuted"
   ],
   "note": "Proved for every disciplined program, text and file, in every session: panics have only the causes listed in Remaining (those are the subjects of C02, C08, C15, C43 and foreign libraries); in the parser, only on a source with a malformed escape (C57_parser). The discipline is needed: C57_implicit_refuted, C47_coalescing_refuted."
  },
  {
   "property": "C58",
   "status": "proved",
   "theorems": [
    "C58_document",
    "C58_file",
    "C58_collected"
   ],
   "note": "Proved for all programs and sessions."
  },
  {
   "property": "C59",
   "status": "proved",
   "theorems": [
    "C59_compile",
    "C59_match"
   ],
   "note": "Proved for every regex library whose matches have the groups of the expression."
  },
  {
   "property": "C60",
   "status": "partial",
   "theorems": [
    "C60_import",
    "C60_write",
    "C60_read_raise",
    "C60_network",
    "C60_list_partial",
    "C60_list_refuted"
   ],
   "note": "Proved, except that listing a directory crashes on a source file whose suffix is not in lower case (C60_list_refuted); without such files it is proved (C60_list_partial)."
  },
  {
   "property": "C61",
   "status": "proved",
   "theorems": [
    "C61_lasts",
    "C61_inline",
    "C61_text",
    "C61_href",
    "C61_footnote",
    "C61_blockquote",
    "C61_image",
    "C61_class",
    "C61_style",
    "C61_attributes",
    "C61_numbered",
    "C61_conversions",
    "C61_call",
    "C61_call_implicit",
    "C61_code_block",
    "C61_page"
   ],
   "note": "Proved for all functions of the library. `@blockquote` and `@page` for content consisting of blocks; the slash at the end of web_root as found by the library for regular expressions (a parameter of the model)."
  },
  {
   "property": "C62",
   "status": "proved",
   "theorems": [
    "C62_determined",
    "C62_determined_failure",
    "C62_failure",
    "C62_literals",
    "C62_names",
    "C62_templates",
    "C62_lists",
    "C62_tags",
    "C62_groups",
    "C62_let",
    "C62_match",
    "C62_functions",
    "C62_calls",
    "C62_closures",
    "C62_bound",
    "C62_content",
    "C62_documents"
   ],
   "note": "Rules in S_Expr.v, one theorem (an equivalence) per form. The binding of arguments, patterns, signatures and native functions are those of C32, C29 and C38-C60."
  },
  {
   "property": "C63",
   "status": "proved",
   "theorems": [
    "C63_parse",
    "C63_characters",
    "C63_error",
    "C63_cases",
    "C63_fetch"
   ],
   "note": "The HTML parser itself (html5ever) is an external: a text gives a document and a list of errors. A processing instruction, which the HTML parser never produces, is a hypothesis of C63_parse (it would be a crash)."
  },
  {
   "property": "C64",
   "status": "partial",
   "theorems": [
    "C64_report",
    "C64_traceback",
    "C64_order",
    "C64_messages",
    "C64_severity",
    "C64_summary",
    "C64_panics",
    "C64_not_ascii_refuted",
    "C64_forged_refuted",
    "C64_wording"
   ],
   "note": "Proved for ASCII files. In other files printing a diagnostic can panic (C64_not_ascii_refuted; C64_panics says exactly when), and a message raised by a program can make one diagnostic look like two (C64_forged_refuted). C64_wording pins the words of all messages, including the misspelt 'end of course'. C64_messages leaves out messages whose text comes from programs, the operating system or other crates. Which place the parser gives to a diagnostic is C66; which place the evaluator gives to one is not modelled."
  },
  {
   "property": "C65",
   "status": "proved",
   "theorems": [
    "C65_layout",
    "C65_word",
    "C65_compile",
    "C65_compile_str",
    "C65_reflow",
    "C65_verbatim"
   ],
   "note": "Whole pipeline, for every text in which no construct starts: C65_layout and C65_word say that the specification determines the page. C65_compile_str and C65_reflow use that the standard library compiles (C55_context)."
  },
  {
   "property": "C66",
   "status": "partial",
   "theorems": [
    "C66_same",
    "C66_where",
    "C66_order",
    "C66_line_col_partial",
    "C66_unmatched_refuted",
    "C66_group_type_refuted",
    "C66_typed_refuted"
   ],
   "note": "C66_order is about the order of the places only: the earlier place is some token of the right kind before, not shown to be in the same construct (S_PosOrder). The token a diagnostic is about is given by its kind (S_Pos), e.g. a pattern error is at the first token of a pattern or of the type written after it. Refuted: matching brackets are reported as unmatched, and the text as ended, when there is an error between them (C66_unmatched_refuted); an invalid group type is reported at its first word, even if that one is valid (C66_group_type_refuted); a typed pattern is reported at its type (C66_typed_refuted). Lines and columns are proved for ASCII texts only, because of C06. Ends of ranges are not modelled, as they are never printed."
  },
  {
   "property": "C67",
   "status": "proved",
   "theorems": [
    "C67_limited",
    "C67_same",
    "C67_nesting",
    "C67_no_calls",
    "C67_endless"
   ],
   "note": "S_Ends gives the evaluator with a limit on the nesting of calls, and when a program has no calls. C67_same and C67_nesting say that the limit changes nothing else, and that only unbounded nesting of calls makes compiling go on for ever. A function that calls itself does compile for ever (in the code: until the stack overflows), since the code has no limit of its own (C67_endless)."
  },
  {
   "property": "C68",
   "status": "partial",
   "theorems": [
    "C68_compile_partial",
    "C68_compile_str_partial",
    "C68_every_page_partial",
    "C68_itself",
    "C68_white_refuted"
   ],
   "note": "S_Markup gives pages, their HTML, which element may contain what (its own tables) and how they are written. The theorems need that text inside an element or paragraph does not begin or end with white space, even if escaped; without that the claim is false (C68_white_refuted: an escaped space at the end of an element is lost). Regular expressions of text patterns are assumed to be accepted by the regex library. Words in pages of this kind consist of letters; other punctuation and its typography are the subject of C65. C68_itself is about pages with letters and single spaces only (S_Self), whose HTML is a source text of theirs."
  },
  {
   "property": "C69",
   "status": "proved",
   "theorems": [
    "C69_tokens",
    "C69_stripped",
    "C69_one_reading"
   ],
   "note": "S_Lex gives the lexical grammar with its own character classes, keyword and punctuation tables. Every text has exactly one reading; the tokenizer returns it unless a token of the text is a numeric escape cut inside a character, where the code panics (C15_crashes)."
  },
  {
   "property": "C70",
   "status": "proved",
   "theorems": [
    "C70_names",
    "C70_methods"
   ],
   "note": "S_Builtins lists the 63 functions with printed signatures, transcribed from native.rs by a script, not from the model; its printer of signatures is its own."
  },
  {
   "property": "C71",
   "status": "proved",
   "theorems": [
    "C71_converts",
    "C71_refused",
    "C71_shown"
   ],
   "note": "S_Convert gives the rules as inductive relations (Converts, Refused, Shown); exact in both directions for types as the parser makes them."
  },
  {
   "property": "C72",
   "status": "proved",
   "theorems": [
    "C72_text",
    "C72_file",
    "C72_collected",
    "C72_compile_str"
   ],
   "note": "By the invariant of C57/C58 in a third mode (Plain): names of tags, attributes, dictionary keys, exports and regular expression groups are plain throughout evaluation; the parser makes only plain names; the reader is that of C23. Assumption on the library for HTML: names it returns are plain and void elements are empty."
  },
  {
   "property": "C73",
   "status": "proved",
   "theorems": [
    "C73_first",
    "C73_numbered",
    "C73_shape"
   ],
   "note": ""
  },
  {
   "property": "C74",
   "status": "proved",
   "theorems": [
    "C74_sound",
    "C74_complete"
   ],
   "note": "For every text. Hypothesis: the regular expressions made from templates are accepted by the regex library."
  },
  {
   "property": "C75",
   "status": "proved",
   "theorems": [
    "C75_kind",
    "C75_highlighted"
   ],
   "note": ""
  },
  {
   "property": "C76",
   "status": "partial",
   "theorems": [
    "C76_content_partial",
    "C76_content_refuted",
    "C76_elements_refuted"
   ],
   "note": "Proved: such text never ends the element early, and it is kept exactly if it has none of < > &. Refuted otherwise: special characters are written as character references in scripts and style sheets too (C76_content_refuted), and elements inside them are accepted (C76_elements_refuted)."
  },
  {
   "property": "C77",
   "status": "partial",
   "theorems": [
    "C77_once_partial",
    "C77_once_refuted"
   ],
   "note": "Proved when no attribute name has a dash. Refuted with parsed HTML that has both a-b and a_b, as underscores are written as dashes."
  },
  {
   "property": "C78",
   "status": "partial",
   "theorems": [
    "C78_writer",
    "C78_success",
    "C78_utf8",
    "C78_file_partial",
    "C78_file_refuted"
   ],
   "note": "Proved for rendering to any writer. For the command line tool: a file always has a part of the document from the beginning, and all but the last 8192 bytes if the tool says it was written; refuted that it has all of it (C78_file_refuted): the buffered writer is dropped without being flushed, which loses the error."
  },
  {
   "property": "C79",
   "status": "proved",
   "theorems": [
    "C79_text"
   ],
   "note": ""
  },
  {
   "property": "C80",
   "status": "partial",
   "theorems": [
    "C80_found_partial",
    "C80_directory_refuted",
    "C80_links_refuted",
    "C80_list_partial"
   ],
   "note": "Proved for every tree: all entries with the name of a source file are found, in order and once if there are no links, and what cannot be read is reported. Refuted that only files are found (C80_directory_refuted: a directory named a.papyri is taken for a source) and for links (C80_links_refuted: a linked file is found twice, a link leading out of the directory is skipped silently). Listing from a program needs the suffix in small letters (C60_list_refuted)."
  },
  {
   "property": "C81",
   "status": "proved",
   "theorems": [
    "C81_parse",
    "C81_compile",
    "C81_library"
   ],
   "note": "S_Layout says when two token lists of the lexical grammar (S_Lex) are laid out alike; C81_parse, C81_compile and C81_library say that such texts give the same result, diagnostics (without positions) included. Provisos: the complaints of the lexical grammar agree (a comment in a gap may be unfinished), and the tokenizer crashes on neither text (C15_crashes says when). Alike means the same kinds of tokens, so a quotation mark must point the same way (C84_quote_refuted shows that a # comment before it can change that)."
  },
  {
   "property": "C82",
   "status": "proved",
   "theorems": [
    "C82_context",
    "C82_compile",
    "C82_reset",
    "C82_tool"
   ],
   "note": "C82_context, C82_compile and C82_reset: states that are alike but for the level give equal results and states that are alike. C82_tool: the runs of the tool with and without --silent and --ignore-warnings. The host (file system, libraries) must not look at what was printed (Indifferent)."
  },
  {
   "property": "C83",
   "status": "proved",
   "theorems": [
    "C83_text",
    "C83_file",
    "C83_tool",
    "C83_tool_output"
   ],
   "note": "C83_text and C83_file: any history of a context, followed by a reset, makes no difference to the next source unless it asks for a module that was asked for before (C56_independent_refuted shows why this condition is needed). The states are the same up to the numbers of scopes (SameUpToScopes), so functions that are exported behave the same, too. C83_tool and C83_tool_output: in a run of the command line tool, a source that asks for no module gets the diagnostics, output and collected files of a new compiler."
  },
  {
   "property": "C84",
   "status": "partial",
   "theorems": [
    "C84_parse_partial",
    "C84_compile_partial",
    "C84_library_partial",
    "C84_white",
    "C84_quote_refuted"
   ],
   "note": "The place is given by the text before it, which must be a sequence of tokens of the whole text and not end in a comment or a lone backslash; comments as in S_Refill begin and end with white space. C84_white (white space only) has no other proviso but that of C69. With comments of the form # the text after the place must not begin with a quotation mark: such a mark is taken for a closing one (C84_quote_refuted)."
  },
  {
   "property": "C85",
   "status": "proved",
   "theorems": [
    "C85_parse",
    "C85_compile",
    "C85_library",
    "C85_exchange",
    "C85_dots_matter"
   ],
   "note": "C85_dots_matter shows that the provisos are needed: `@let(x = 1)...` is an error at the very end of a text and none with a line feed after it. Comments as in C84 (they begin and end with white space)."
  },
  {
   "property": "C86",
   "status": "proved",
   "theorems": [
    "C86_content",
    "C86_document",
    "C86_parse",
    "C86_compile",
    "C86_plain_matters",
    "C86_parts",
    "C86_parts_compile"
   ],
   "note": "C86_content and C86_document are about the nodes the parser finds (C43-C46, C54): a blank line inside a construct, or before the body of a @let, is not one between nodes. C86_parse and C86_compile start from two texts, C86_parts and C86_parts_compile from any number, that are parsed without errors by themselves and have no ... in them. C86_plain_matters: a space written as an escape sequence at the end of the first text stays in the tree of the whole."
  }
 ]
}