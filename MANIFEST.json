{
 "claims": [
  {
   "property": "C01",
   "status": "proved",
   "theorems": [
    "C01_parse_total",
    "C01_reader_total",
    "C01_file_total"
   ],
   "note": ""
  },
  {
   "property": "C02",
   "status": "proved",
   "theorems": [
    "C02_exact_language",
    "C02_unambiguous"
   ],
   "note": ""
  },
  {
   "property": "C03",
   "status": "proved",
   "theorems": [
    "C03_trees",
    "C03_exactly",
    "C03_print_parse"
   ],
   "note": "C03_print_parse: for every behaviour gp of go/parser.ParseExpr; 'read back' is the hypothesis go_rule (SpecTrees.v). C03_trees: for the reference Go parser, hypotheses on the trees only (SpecBack.v). C03_exactly: for all rules whatever, exactly the rules meeting these conditions survive."
  },
  {
   "property": "C04",
   "status": "proved",
   "theorems": [
    "C04_parsed_files",
    "C04_parsed_unix_files",
    "C04_exactly",
    "C04_exactly_unix",
    "C04_stability_refuted",
    "C04_reprint_stable"
   ],
   "note": "C04_reprint_stable: for every behaviour gp of go/parser.ParseExpr. C04_parsed_files, C04_parsed_unix_files: for the reference Go parser, unconditional but for merging operators and arrows in literals of conditions; C04_stability_refuted shows both provisos are needed. C04_exactly: the file survives if and only if both provisos hold; C04_exactly_unix: without carriage returns, if and only if no operators merge."
  },
  {
   "property": "C05",
   "status": "proved",
   "theorems": [
    "C05_print_parse",
    "C05_words",
    "C05_parsed_is_ordered",
    "C05_parse_print_parse",
    "C05_exactly",
    "C05_parse_total",
    "C05_merging_operators_refuted",
    "C05_changed_silently_refuted"
   ],
   "note": "About the reference model of go/parser (GoParser.v), which scans all of Go 1.16's number, rune and string literals. C05_exactly shows that the proviso is exact, for every tree; the refuted theorems give texts that fail."
  },
  {
   "property": "C06",
   "status": "proved",
   "theorems": [
    "C06_concatenation",
    "C06_go_parser",
    "C06_empty_sources_refuted"
   ],
   "note": "Needs that the Go parser accepts no text starting with // on one line: proved of the reference model; the empty case is refuted."
  },
  {
   "property": "C07",
   "status": "proved",
   "theorems": [
    "C07_padding",
    "C07_comment_only_refuted"
   ],
   "note": "Same proviso as C06; refuted for sources without rules."
  },
  {
   "property": "C08",
   "status": "proved",
   "theorems": [
    "C08_well_formed"
   ],
   "note": ""
  },
  {
   "property": "C09",
   "status": "proved",
   "theorems": [
    "C09_no_positions",
    "C09_equal_trees"
   ],
   "note": ""
  },
  {
   "property": "C10",
   "status": "proved",
   "theorems": [
    "C10_ellipsis_lost",
    "C10_spread_call_refuted"
   ],
   "note": "The claim is false of the code; the theorems are the refutation, for any call in general and for one concrete source."
  },
  {
   "property": "C11",
   "status": "proved",
   "theorems": [
    "C11_utf8"
   ],
   "note": ""
  },
  {
   "property": "C12",
   "status": "proved",
   "theorems": [
    "C12_error_places"
   ],
   "note": "Includes the quirk that a newline is reported as column 0 of the next line."
  },
  {
   "property": "C13",
   "status": "proved",
   "theorems": [
    "C13_filename_is_a_label"
   ],
   "note": ""
  },
  {
   "property": "C14",
   "status": "proved",
   "theorems": [
    "C14_expressions_come_from_source",
    "C14_rejections_never_help",
    "C14_bad_expression_fails"
   ],
   "note": ""
  },
  {
   "property": "C15",
   "status": "proved",
   "theorems": [
    "C15_whole_condition",
    "C15_comment_swallows_refuted"
   ],
   "note": "Exact for conditions that do not contain => ; the claim about the text as written is refuted (comments)."
  },
  {
   "property": "C16",
   "status": "proved",
   "theorems": [
    "C16_in_any_file",
    "C16_operands",
    "C16_any_order"
   ],
   "note": ""
  },
  {
   "property": "C17",
   "status": "proved",
   "theorems": [
    "C17_writer_protocol",
    "C17_partial_output_is_prefix"
   ],
   "note": ""
  },
  {
   "property": "C18",
   "status": "proved",
   "theorems": [
    "C18_bytes"
   ],
   "note": ""
  },
  {
   "property": "C19",
   "status": "proved",
   "theorems": [
    "C19_file_is_its_rules"
   ],
   "note": ""
  },
  {
   "property": "C20",
   "status": "proved",
   "theorems": [
    "C20_trees",
    "C20_printing_injective"
   ],
   "note": "C20_printing_injective for every Go parser; C20_trees for the reference Go parser, hypotheses on the trees only."
  },
  {
   "property": "C21",
   "status": "proved",
   "theorems": [
    "C21_expand_iff"
   ],
   "note": ""
  },
  {
   "property": "C22",
   "status": "proved",
   "theorems": [
    "C22_expand_plain"
   ],
   "note": ""
  },
  {
   "property": "C23",
   "status": "proved",
   "theorems": [
    "C23_expand_idempotent",
    "C23_expand_fixed_points"
   ],
   "note": ""
  },
  {
   "property": "C24",
   "status": "proved",
   "theorems": [
    "C24_error_iff",
    "C24_error_names_first_clash"
   ],
   "note": ""
  },
  {
   "property": "C25",
   "status": "proved",
   "theorems": [
    "C25_failure_unchanged"
   ],
   "note": ""
  },
  {
   "property": "C26",
   "status": "proved",
   "theorems": [
    "C26_proper_no_panic",
    "C26_panic_cause",
    "C26_handbuilt_no_panic_refuted",
    "C26_parsed_no_panic"
   ],
   "note": "Holds for every file of proper rules (the shape parsed files have); refuted for hand-built trees, with the only possible cause."
  },
  {
   "property": "C27",
   "status": "proved",
   "theorems": [
    "C27_keeps_all_but_opcodes"
   ],
   "note": ""
  },
  {
   "property": "C28",
   "status": "proved",
   "theorems": [
    "C28_concatenation",
    "C28_concatenation_error"
   ],
   "note": ""
  },
  {
   "property": "C29",
   "status": "proved",
   "theorems": [
    "C29_features_kept",
    "C29_filter_before_or_after"
   ],
   "note": ""
  },
  {
   "property": "C30",
   "status": "proved",
   "theorems": [
    "C30_only_the_rule_slice_is_replaced",
    "C30_reachable_trees_unchanged",
    "C30_sharing_does_not_change_the_outcome"
   ],
   "note": ""
  },
  {
   "property": "C31",
   "status": "proved",
   "theorems": [
    "C31_walk_calls",
    "C31_walk_result",
    "C31_walk_everything",
    "C31_walk_panics_only_on_nil"
   ],
   "note": ""
  },
  {
   "property": "C32",
   "status": "proved",
   "theorems": [
    "C32_inspect_visits",
    "C32_inspect_panics",
    "C32_any_callback",
    "C32_any_callback_calls"
   ],
   "note": ""
  },
  {
   "property": "C33",
   "status": "proved",
   "theorems": [
    "C33_contains_exists",
    "C33_contains_answers",
    "C33_contains_calls",
    "C33_any_predicate",
    "C33_preorder_exists"
   ],
   "note": ""
  },
  {
   "property": "C34",
   "status": "proved",
   "theorems": [
    "C34_HasBinding",
    "C34_HasType",
    "C34_HasAux",
    "C34_HasAuxInt",
    "C34_HasEllipsis",
    "C34_HasTrailing"
   ],
   "note": ""
  },
  {
   "property": "C35",
   "status": "proved",
   "theorems": [
    "C35_walk_reaches_expressions_refuted"
   ],
   "note": "The claim as documented is false of the code; the theorem is the refutation: for any visitor, conditions and aux fields are never visited."
  },
  {
   "property": "C36",
   "status": "proved",
   "theorems": [
    "C36_script_well_formed",
    "C36_declared_once",
    "C36_any_name_refuted"
   ],
   "note": ""
  },
  {
   "property": "C37",
   "status": "proved",
   "theorems": [
    "C37_models_are_counterexamples",
    "C37_unsat_iff_valid"
   ],
   "note": ""
  },
  {
   "property": "C38",
   "status": "proved",
   "theorems": [
    "C38_success_iff_typable"
   ],
   "note": ""
  },
  {
   "property": "C39",
   "status": "proved",
   "theorems": [
    "C39_unsupported_rejected"
   ],
   "note": ""
  },
  {
   "property": "C40",
   "status": "proved",
   "theorems": [
    "C40_no_panic"
   ],
   "note": ""
  },
  {
   "property": "C41",
   "status": "proved",
   "theorems": [
    "C41_comment_contained",
    "C41_legal_names_no_cr",
    "C41_carriage_return_refuted"
   ],
   "note": "Line feeds cannot escape the comment, for any text without carriage return; legal names never contain one. For hand-built names the unrestricted claim is refuted (CR ends an SMT-LIB comment)."
  },
  {
   "property": "C42",
   "status": "proved",
   "theorems": [
    "C42_placeholders_independent_refuted",
    "C42_placeholder_script_unreadable"
   ],
   "note": "The claim is false of the code; theorems are the refutations: placeholders share one constant, and a strict SMT-LIB reader rejects it."
  },
  {
   "property": "C43",
   "status": "proved",
   "theorems": [
    "C43_go_parser",
    "C43_loads_simple_rules",
    "C43_loaded_are_simple_and_expanded"
   ],
   "note": "For every behaviour of go/parser.ParseExpr that returns no tree with a missing part (proved of the reference model), every disk contents and write failure."
  },
  {
   "property": "C44",
   "status": "proved",
   "theorems": [
    "C44_output_files",
    "C44_names"
   ],
   "note": "For every behaviour of go/parser.ParseExpr that returns no tree with a missing part (proved of the reference model), every disk contents and write failure."
  },
  {
   "property": "C45",
   "status": "proved",
   "theorems": [
    "C45_never_crashes",
    "C45_success_iff",
    "C45_errors_stop_cleanly",
    "C45_exit_status"
   ],
   "note": "For every behaviour of go/parser.ParseExpr that returns no tree with a missing part (proved of the reference model), every disk contents and write failure."
  },
  {
   "property": "C46",
   "status": "proved",
   "theorems": [
    "C46_only_these_complaints"
   ],
   "note": "For every behaviour of go/parser.ParseExpr that returns no tree with a missing part (proved of the reference model), every disk contents and write failure."
  },
  {
   "property": "C47",
   "status": "proved",
   "theorems": [
    "C47_scripts_decide_source_rules",
    "C47_models_refute_source_rules"
   ],
   "note": "For every behaviour of go/parser.ParseExpr that returns no tree with a missing part (proved of the reference model), every disk contents and write failure. Variables must not be names SMT-LIB gives a meaning (C36/C42 refute the rest)."
  },
  {
   "property": "C48",
   "status": "proved",
   "theorems": [
    "C48_log",
    "C48_stderr",
    "C48_history"
   ],
   "note": "For every behaviour of go/parser.ParseExpr that returns no tree with a missing part (proved of the reference model), every disk contents and write failure."
  },
  {
   "property": "C49",
   "status": "proved",
   "theorems": [
    "C49_parser_implements_the_grammar",
    "C49_everything_else_is_an_error",
    "C49_rule_by_rule"
   ],
   "note": "rules.peg is transcribed rule by rule in PegFile.v (the Go text of the action blocks is the same in rules.peg and zparser.go). For every behaviour of go/parser.ParseExpr."
  },
  {
   "property": "C50",
   "status": "proved",
   "theorems": [
    "C50_expanded_reads_back",
    "C50_parsed_expanded_reads_back",
    "C50_print_parse_expand"
   ],
   "note": "For every Go parser under the read-back hypothesis; for parsed files with the reference Go parser the same provisos as C04."
  },
  {
   "property": "C51",
   "status": "proved",
   "theorems": [
    "C51_error_is_local",
    "C51_appending"
   ],
   "note": "For every behaviour of go/parser.ParseExpr. Eight bytes = the longest literal plus the longest UTF-8 sequence, rounded up."
  },
  {
   "property": "C52",
   "status": "proved",
   "theorems": [
    "C52_quadratic",
    "C52_limit_never_reached"
   ],
   "note": "Count.v adds the counter to the engine; the bound is proved for every expression of the grammar, and the counted parser equals the uncounted one."
  },
  {
   "property": "C53",
   "status": "proved",
   "theorems": [
    "C53_killed",
    "C53_rerun"
   ],
   "note": ""
  },
  {
   "property": "C54",
   "status": "proved",
   "theorems": [
    "C54_one_meaning",
    "C54_process",
    "C54_status"
   ],
   "note": ""
  },
  {
   "property": "C55",
   "status": "proved",
   "theorems": [
    "C55_reader",
    "C55_string"
   ],
   "note": ""
  },
  {
   "property": "C56",
   "status": "proved",
   "theorems": [
    "C56_renaming",
    "C56_instances"
   ],
   "note": ""
  },
  {
   "property": "C57",
   "status": "proved",
   "theorems": [
    "C57_rewriting",
    "C57_exact",
    "C57_run"
   ],
   "note": "Scripts read by the strict SMT-LIB reader, which excludes the placeholder _ (see C42)."
  },
  {
   "property": "C58",
   "status": "proved",
   "theorems": [
    "C58_layout",
    "C58_writer",
    "C58_strings"
   ],
   "note": "go/ast.Fprint and strconv.Quote are reference models of the standard library; trees whose pointers are met once (no '(obj @ n)'), empty slices nil."
  },
  {
   "property": "C59",
   "status": "proved",
   "theorems": [
    "C59_dump_injective",
    "C59_parsed_files",
    "C59_multiline_types_refuted"
   ],
   "note": "As C58; C59_multiline_types_refuted shows the condition on types is needed."
  },
  {
   "property": "C60",
   "status": "proved",
   "theorems": [
    "C60_no_data_race",
    "C60_common_memory_unchanged",
    "C60_expansions_do_not_interfere",
    "C60_tests_do_not_notice",
    "C60_printing_does_not_notice",
    "C60_generating_does_not_notice",
    "C60_parsing_does_not_notice",
    "C60_parsed_files_are_apart",
    "C60_processing_does_not_notice",
    "C60_next_round",
    "C60_every_schedule_ends",
    "C60_same_file_refuted"
   ],
   "note": "No package starts goroutines itself: the claim is about callers that do. An access to a struct or an array is one step of Conc.v; without data races (C60_no_data_race) a finer grain gives the same results (Go memory model). Package variables are only read and are not on the heap. C60_same_file_refuted shows that each goroutine needs a File of its own."
  },
  {
   "property": "C61",
   "status": "proved",
   "theorems": [
    "C61_message_names_a_fault",
    "C61_only_panic"
   ],
   "note": "All trees, no properness assumed. The order of the faults inside one rule is not part of the statement (C62 has it for Generate)."
  },
  {
   "property": "C62",
   "status": "proved",
   "theorems": [
    "C62_message_is_first_fault",
    "C62_one_message"
   ],
   "note": "An equivalence, so it also says that nothing else is ever reported. Unprintable rules fail first, with the printer's message (C19)."
  },
  {
   "property": "C63",
   "status": "proved",
   "theorems": [
    "C63_layout",
    "C63_one_document",
    "C63_writer",
    "C63_trees",
    "C63_without_sharing",
    "C63_any_memory"
   ],
   "note": "dumps with shared objects: layout, uniqueness, termination on cycles, writers, agreement with C58 when nothing is shared."
  },
  {
   "property": "C64",
   "status": "proved",
   "theorems": [
    "C64_scripts_in_outdir",
    "C64_join",
    "C64_links_refuted"
   ],
   "note": "filepath.Join is the reference model Path.v; with directory links the claim is refuted (C64_links_refuted)."
  },
  {
   "property": "C65",
   "status": "proved",
   "theorems": [
    "C65_expected",
    "C65_one_reading",
    "C65_honest",
    "C65_unambiguous",
    "C65_complete_refuted"
   ],
   "note": "Completeness of the list is refuted (C65_complete_refuted): only what was tried exactly at the farthest byte is listed."
  },
  {
   "property": "C66",
   "status": "proved",
   "theorems": [
    "C66_printing",
    "C66_generating",
    "C66_after_expansion",
    "C66_only_reads",
    "C66_nil_pointers"
   ],
   "note": "Any depth of stack that fits the tree; the go/ast nodes of an ast.Expr are one cell."
  },
  {
   "property": "C67",
   "status": "proved",
   "theorems": [
    "C67_fresh",
    "C67_cells_determined",
    "C67_two_files",
    "C67_dump",
    "C67_parse_expand_print"
   ],
   "note": "parse.File, Reader and String end in the modelled parse; structs being filled in and the parser's own bookkeeping are not on the heap; the go/ast nodes of an ast.Expr are one cell."
  },
  {
   "property": "C68",
   "status": "proved",
   "theorems": [
    "C68_printed",
    "C68_expanded",
    "C68_linear_expansion_refuted",
    "C68_script",
    "C68_run",
    "C68_log",
    "C68_failed_run"
   ],
   "note": "With the reference model of go/parser.ParseExpr (GoParser.v) for the source side."
  },
  {
   "property": "C69",
   "status": "proved",
   "theorems": [
    "C69_instances",
    "C69_new_is_private",
    "C69_unshared_source",
    "C69_parsed",
    "C69_independence_refuted"
   ],
   "note": "C69_independence_refuted: instances of one rule share the parts without alternatives. Writes are of whole cells (a struct or an array), which covers assignments to fields and elements. Expansions that fail leave the file as it was (C29, C30)."
  },
  {
   "property": "C70",
   "status": "proved",
   "theorems": [
    "C70_expansion_is_type_safe",
    "C70_histories",
    "C70_expanded_files_were_finite",
    "C70_printing_and_generating",
    "C70_feature_tests",
    "C70_cycles"
   ],
   "note": "The end of the stack is a panic with its own message in the model (a fatal error in Go). Two goroutines at once: C60."
  },
  {
   "property": "C71",
   "status": "proved",
   "theorems": [
    "C71_line_breaks",
    "C71_one_line_each",
    "C71_conditions"
   ],
   "note": "Line breaks of printed text are counted exactly; corollary: one line per rule, equal to the rule printed alone."
  },
  {
   "property": "C72",
   "status": "proved",
   "theorems": [
    "C72_layout_does_not_matter",
    "C72_any_source_can_be_reformatted",
    "C72_inside_expressions_refuted"
   ],
   "note": "For every behaviour of go/parser.ParseExpr; the second theorem needs that a comment alone is not an expression (C06_go_parser). Call arguments are part of one word: their layout is Go's."
  },
  {
   "property": "C73",
   "status": "proved",
   "theorems": [
    "C73_cut",
    "C73_rearrange",
    "C73_remove"
   ],
   "note": "C73_cut holds for every behaviour of go/parser.ParseExpr; the others need that a comment alone is not an expression (C06_go_parser)."
  },
  {
   "property": "C74",
   "status": "proved",
   "theorems": [
    "C74_appending",
    "C74_reordering",
    "C74_other_files_stay",
    "C74_directory_is_current_refuted"
   ],
   "note": "C74_directory_is_current_refuted: old scripts stay in the directory."
  },
  {
   "property": "C75",
   "status": "proved",
   "theorems": [
    "C75_proved_iff",
    "C75_reflexive",
    "C75_symmetric",
    "C75_transitive",
    "C75_rewriting"
   ],
   "note": "C75_turned_refuted: a proved rule whose result is a lone variable has no script turned round (Generate rejects it)."
  },
  {
   "property": "C76",
   "status": "proved",
   "theorems": [
    "C76_read_only_visitors",
    "C76_contains",
    "C76_any_visitor_calls",
    "C76_any_visitor",
    "C76_stack",
    "C76_children_after_visit",
    "C76_edit_in_place",
    "C76_edited_file",
    "C76_unshared_file",
    "C76_parse_edit_print",
    "C76_parse_edit_expand_print",
    "C76_other_files"
   ],
   "note": "The theorems about editing are for trees without nil interfaces (elsewhere Walk panics, C31)."
  },
  {
   "property": "C77",
   "status": "proved",
   "theorems": [
    "C77_type_safe",
    "C77_inspect",
    "C77_histories",
    "C77_whole",
    "C77_cycles",
    "C77_nil_nodes",
    "C77_contains"
   ],
   "note": "The end of the stack is a panic with its own message in the model (a fatal error in Go). An interface that holds a slice is the address of its elements, so the length of a slice in an ast.Op is fixed, as in Go."
  }
 ]
}