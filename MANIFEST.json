{
 "claims": [
  {
   "property": "C01",
   "status": "proved",
   "theorems": [
    "C01_json_encode_round_trip",
    "C01_json_reading_unique"
   ],
   "note": ""
  },
  {
   "property": "C02",
   "status": "partial",
   "theorems": [
    "C02_json_encode_legal_refuted",
    "C02_json_encode_legal_iff",
    "C02_json_encode_unsigned"
   ],
   "note": "REFUTED on platforms where char is signed (bytes >= 0x80 give \\u-0XX); the exact characterisation is proved: legal iff char is unsigned or the input is ASCII."
  },
  {
   "property": "C03",
   "status": "proved",
   "theorems": [
    "C03_url_encode_denotes",
    "C03_url_encode_normal",
    "C03_url_decode_functional",
    "C03_url_encode_injective"
   ],
   "note": ""
  },
  {
   "property": "C04",
   "status": "proved",
   "theorems": [
    "C04_equal_case_insensitive_iff",
    "C04_equivalence",
    "C04_to_lowercase_spec",
    "C04_to_lowercase_idempotent"
   ],
   "note": ""
  },
  {
   "property": "C05",
   "status": "proved",
   "theorems": [
    "C05_asm_verbatim",
    "C05_remove_triple_quotes"
   ],
   "note": ""
  },
  {
   "property": "C06",
   "status": "proved",
   "theorems": [
    "C06_string_builder"
   ],
   "note": ""
  },
  {
   "property": "C07",
   "status": "proved",
   "theorems": [
    "C07_compare_lexicographic",
    "C07_operators",
    "C07_total_order"
   ],
   "note": ""
  },
  {
   "property": "C08",
   "status": "proved",
   "theorems": [
    "C08_version_round_trip",
    "C08_version_components",
    "C08_version_texts",
    "C08_else_throws"
   ],
   "note": ""
  },
  {
   "property": "C09",
   "status": "proved",
   "theorems": [
    "C09_range_ordered",
    "C09_expand_least",
    "C09_expand_order_irrelevant"
   ],
   "note": ""
  },
  {
   "property": "C10",
   "status": "proved",
   "theorems": [
    "C10_location_text_determines_range"
   ],
   "note": ""
  },
  {
   "property": "C11",
   "status": "proved",
   "theorems": [
    "C11_context_innermost_wins",
    "C11_message_never_empty",
    "C11_what_never_empty"
   ],
   "note": ""
  },
  {
   "property": "C12",
   "status": "proved",
   "theorems": [
    "C12_error_to_json",
    "C12_errors_to_json"
   ],
   "note": ""
  },
  {
   "property": "C13",
   "status": "proved",
   "theorems": [
    "C13_to_strings",
    "C13_to_json",
    "C13_unwrap"
   ],
   "note": ""
  },
  {
   "property": "C14",
   "status": "proved",
   "theorems": [
    "C14_promote_iff",
    "C14_promote_denotes",
    "C14_promote_references"
   ],
   "note": ""
  },
  {
   "property": "C15",
   "status": "proved",
   "theorems": [
    "C15_check_promote_agrees",
    "C15_check_promote_iff",
    "C15_check_promote_preorder",
    "C15_boolean_variable_disagrees"
   ],
   "note": ""
  },
  {
   "property": "C16",
   "status": "proved",
   "theorems": [
    "C16_int_to_nearest_double"
   ],
   "note": ""
  },
  {
   "property": "C17",
   "status": "proved",
   "theorems": [
    "C17_last_applicable_wins",
    "C17_success_iff_applicable",
    "C17_other_names_no_effect"
   ],
   "note": ""
  },
  {
   "property": "C18",
   "status": "proved",
   "theorems": [
    "C18_overloads_independent",
    "C18_variables_first_declared",
    "C18_variables_unknown",
    "C18_variables_independent"
   ],
   "note": ""
  },
  {
   "property": "C19",
   "status": "proved",
   "theorems": [
    "C19_result_types",
    "C19_expression_types"
   ],
   "note": ""
  },
  {
   "property": "C20",
   "status": "proved",
   "theorems": [
    "C20_integer_operators",
    "C20_addition",
    "C20_subtraction",
    "C20_multiplication",
    "C20_division",
    "C20_negation",
    "C20_absolute_value"
   ],
   "note": ""
  },
  {
   "property": "C21",
   "status": "partial",
   "theorems": [
    "C21_refuted",
    "C21_undefined_only_by_hazards",
    "C21_hazards_are_undefined"
   ],
   "note": "REFUTED: Rx(1 / 0) q divides by zero, pi[0] dereferences a null pointer. Proved: analysis is undefined only if a statement contains an operation without a 64-bit result, an index of something that is not a variable, or a range ending at the largest integer; and those operations always are."
  },
  {
   "property": "C22",
   "status": "proved",
   "theorems": [
    "C22_bitwise_and_shift",
    "C22_complement",
    "C22_shift_undefined_iff"
   ],
   "note": ""
  },
  {
   "property": "C23",
   "status": "proved",
   "theorems": [
    "C23_integer_comparisons",
    "C23_boolean_operators",
    "C23_negation",
    "C23_double_comparisons",
    "C23_integer_trichotomy"
   ],
   "note": ""
  },
  {
   "property": "C24",
   "status": "proved",
   "theorems": [
    "C24_folding_respects_meaning",
    "C24_meaning_unique"
   ],
   "note": ""
  },
  {
   "property": "C25",
   "status": "partial",
   "theorems": [
    "C25_unselected_operand_refuted",
    "C25_selected_branch",
    "C25_both_branches_needed"
   ],
   "note": "REFUTED: both branches of ?: and both operands of && and || are evaluated, so an undefined unselected operand makes the whole evaluation undefined. What holds is proved: when all operands have values the result is the selected one (promoted to the common type)."
  },
  {
   "property": "C26",
   "status": "proved",
   "theorems": [
    "C26_calls_yield_constants",
    "C26_calls_depend_on_values_only",
    "C26_dynamic_arguments_fail"
   ],
   "note": ""
  },
  {
   "property": "C27",
   "status": "proved",
   "theorems": [
    "C27_named_gates",
    "C27_non_gates",
    "C27_modifiers",
    "C27_lists",
    "C27_disjoint",
    "C27_same_parameters"
   ],
   "note": ""
  },
  {
   "property": "C28",
   "status": "proved",
   "theorems": [
    "C28_gate_accepted_iff",
    "C28_gate_result"
   ],
   "note": ""
  },
  {
   "property": "C29",
   "status": "proved",
   "theorems": [
    "C29_modifiers_nest"
   ],
   "note": ""
  },
  {
   "property": "C30",
   "status": "proved",
   "theorems": [
    "C30_gate_parameters",
    "C30_non_gate_parameters"
   ],
   "note": ""
  },
  {
   "property": "C31",
   "status": "partial",
   "theorems": [
    "C31_refuted",
    "C31_wait_from_grammar"
   ],
   "note": "REFUTED for trees built through the API: a wait without parameters is accepted. Proved for every tree the grammar can produce (one parameter)."
  },
  {
   "property": "C32",
   "status": "proved",
   "theorems": [
    "C32_measure_pairs"
   ],
   "note": ""
  },
  {
   "property": "C33",
   "status": "proved",
   "theorems": [
    "C33_index_accepted_iff"
   ],
   "note": ""
  },
  {
   "property": "C34",
   "status": "partial",
   "theorems": [
    "C34_refuted",
    "C34_repetitions_as_written",
    "C34_single_entry"
   ],
   "note": "REFUTED: q[0, 0] is accepted with both indices. Proved: the indices are exactly those selected by the source, and a single item or range never repeats."
  },
  {
   "property": "C35",
   "status": "proved",
   "theorems": [
    "C35_accepted_is_well_formed"
   ],
   "note": ""
  },
  {
   "property": "C36",
   "status": "partial",
   "theorems": [
    "C36_refuted",
    "C36_accounting_partial"
   ],
   "note": "REFUTED for redeclarations, which leave both a variable and an error. Proved: every statement contributes exactly one output or one error, in order, and only a declaration of an already declared name contributes both."
  },
  {
   "property": "C37",
   "status": "proved",
   "theorems": [
    "C37_declared_once",
    "C37_constants_stay",
    "C37_redeclaration_harmless"
   ],
   "note": ""
  },
  {
   "property": "C38",
   "status": "proved",
   "theorems": [
    "C38_visible_only_after_declaration",
    "C38_accepted_programs",
    "C38_visible_after_declaration"
   ],
   "note": ""
  },
  {
   "property": "C39",
   "status": "proved",
   "theorems": [
    "C39_constructed_iff",
    "C39_default_iff",
    "C39_program_version"
   ],
   "note": ""
  },
  {
   "property": "C40",
   "status": "proved",
   "theorems": [
    "C40_parse_errors_pass_through"
   ],
   "note": ""
  },
  {
   "property": "C41",
   "status": "partial",
   "theorems": [
    "C41_refuted",
    "C41_reuse_appends"
   ],
   "note": "REFUTED: analysing qubit q twice with one analyzer gives an error. Proved: a second analysis gives what analysing the two programs one after the other gives."
  },
  {
   "property": "C42",
   "status": "proved",
   "theorems": [
    "C42_push_hides_nothing",
    "C42_variable_shadows",
    "C42_new_scope_is_free",
    "C42_instruction_shadows",
    "C42_functions_are_global",
    "C42_pop_restores"
   ],
   "note": ""
  },
  {
   "property": "C43",
   "status": "partial",
   "theorems": [
    "C43_refuted",
    "C43_unknown_names_rejected",
    "C43_registered_overload_partial"
   ],
   "note": "REFUTED: gates with a name that is not in the instruction set are rejected whatever was registered. Proved: a registered overload of a gate of the instruction set can be used."
  },
  {
   "property": "C44",
   "status": "proved",
   "theorems": [
    "C44_tree_errors_located",
    "C44_errors_located"
   ],
   "note": ""
  },
  {
   "property": "C45",
   "status": "proved",
   "theorems": [
    "C45_total_unique",
    "C45_lossless",
    "C45_lexer",
    "C45_unreadable"
   ],
   "note": ""
  },
  {
   "property": "C46",
   "status": "proved",
   "theorems": [
    "C46_longest",
    "C46_keywords",
    "C46_unambiguous"
   ],
   "note": ""
  },
  {
   "property": "C47",
   "status": "proved",
   "theorems": [
    "C47_same_tokens",
    "C47_blanks_and_comments"
   ],
   "note": ""
  },
  {
   "property": "C48",
   "status": "proved",
   "theorems": [
    "C48_full_parentheses"
   ],
   "note": ""
  },
  {
   "property": "C49",
   "status": "proved",
   "theorems": [
    "C49_minimal_parentheses",
    "C49_no_fewer_parentheses"
   ],
   "note": ""
  },
  {
   "property": "C50",
   "status": "proved",
   "theorems": [
    "C50_every_program",
    "C50_parsed_writable"
   ],
   "note": ""
  },
  {
   "property": "C51",
   "status": "proved",
   "theorems": [
    "C51_out_of_range",
    "C51_integers"
   ],
   "note": ""
  },
  {
   "property": "C52",
   "status": "partial",
   "theorems": [
    "C52_program_or_error",
    "C52_throws",
    "C52_refuted",
    "C52_files"
   ],
   "note": "REFUTED for byte strings that are not UTF-8 and for files that cannot be read: an exception escapes. Proved: program xor one error for every UTF-8 text, and an exception iff not UTF-8."
  },
  {
   "property": "C53",
   "status": "proved",
   "theorems": [
    "C53_locations",
    "C53_ordered"
   ],
   "note": ""
  },
  {
   "property": "C54",
   "status": "proved",
   "theorems": [
    "C54_separators"
   ],
   "note": ""
  },
  {
   "property": "C55",
   "status": "proved",
   "theorems": [
    "C55_floats",
    "C55_out_of_range",
    "C55_unique"
   ],
   "note": ""
  },
  {
   "property": "C56",
   "status": "partial",
   "theorems": [
    "C56_primitives",
    "C56_references",
    "C56_python",
    "C56_python_alone",
    "C56_python_references",
    "C56_refuted"
   ],
   "note": "REFUTED for instruction references between C++ and Python: C++ writes the keys name and operand_types, Python reads n and t, so Python always gets an unresolved reference. Proved: every primitive round trips in C++ and in Python, versions, booleans, integers, floats and UTF-8 strings also between the two, and references round trip within each language."
  },
  {
   "property": "C57",
   "status": "proved",
   "theorems": [
    "C57_parse",
    "C57_analyse",
    "C57_used_analyzer"
   ],
   "note": ""
  },
  {
   "property": "C58",
   "status": "proved",
   "theorems": [
    "C58_appending_extends"
   ],
   "note": ""
  },
  {
   "property": "C59",
   "status": "proved",
   "theorems": [
    "C59_arithmetic_correctly_rounded",
    "C59_unary_correctly_rounded"
   ],
   "note": ""
  },
  {
   "property": "C60",
   "status": "proved",
   "theorems": [
    "C60_throws_nothing"
   ],
   "note": ""
  },
  {
   "property": "C61",
   "status": "proved",
   "theorems": [
    "C61_non_gate_accepted_iff"
   ],
   "note": ""
  },
  {
   "property": "C62",
   "status": "proved",
   "theorems": [
    "C62_stays_ordinary"
   ],
   "note": ""
  },
  {
   "property": "C63",
   "status": "proved",
   "theorems": [
    "C63_accepted"
   ],
   "note": ""
  },
  {
   "property": "C64",
   "status": "proved",
   "theorems": [
    "C64_tree",
    "C64_tree_unique"
   ],
   "note": ""
  },
  {
   "property": "C65",
   "status": "proved",
   "theorems": [
    "C65_first_error",
    "C65_scanned",
    "C65_unique"
   ],
   "note": ""
  },
  {
   "property": "C66",
   "status": "proved",
   "theorems": [
    "C66_analysed",
    "C66_throws"
   ],
   "note": ""
  },
  {
   "property": "C67",
   "status": "proved",
   "theorems": [
    "C67_instructions",
    "C67_functions",
    "C67_texts",
    "C67_types",
    "C67_references"
   ],
   "note": ""
  },
  {
   "property": "C68",
   "status": "proved",
   "theorems": [
    "C68_cpp_returns",
    "C68_cpp_fails",
    "C68_cpp_silent",
    "C68_python_analyses",
    "C68_python_parses",
    "C68_json",
    "C68_parse_json",
    "C68_json_tells_errors",
    "C68_python_analyzer",
    "C68_files",
    "C68_missing_files",
    "C68_without_defaults",
    "C68_versions"
   ],
   "note": ""
  },
  {
   "property": "C69",
   "status": "partial",
   "theorems": [
    "C69_analyzer",
    "C69_path_forgotten",
    "C69_refuted"
   ],
   "note": "REFUTED for cqasm::v3x::analyze_file and the file methods of V3xAnalyzer: they parse without a file name, so that their messages say <unknown file name>. Proved for Analyzer::analyze_file."
  },
  {
   "property": "C70",
   "status": "partial",
   "theorems": [
    "C70_same_tree",
    "C70_same_analysis",
    "C70_same_result",
    "C70_refuted"
   ],
   "note": "REFUTED for texts with two literals out of range: which one is reported depends on the order. Proved: same tree and same analysis for every text that parses, same result whenever at most one literal is out of range."
  },
  {
   "property": "C71",
   "status": "proved",
   "theorems": [
    "C71_rewritten"
   ],
   "note": ""
  },
  {
   "property": "C72",
   "status": "partial",
   "theorems": [
    "C72_refuted",
    "C72_at_return",
    "C72_results_grow",
    "C72_results_kept"
   ],
   "note": "REFUTED: the program of a result shares its block with the analyzer, so a later analysis by the same analyzer adds statements to it and can make it ill-formed. Proved: the result at return is that of the functional model, later calls only append statements, and results stay the same if only analyzers made later analyse."
  },
  {
   "property": "C73",
   "status": "partial",
   "theorems": [
    "C73_refuted",
    "C73_copy_equals",
    "C73_names_apart",
    "C73_uncopied_apart"
   ],
   "note": "REFUTED for copies: a copied analyzer shares its blocks with the original, so that analysing with one can make the other throw on a valid program. Proved: copies start equal, names, functions, instructions, variables and version of other analyzers never change, and without copies nothing of them changes."
  },
  {
   "property": "C74",
   "status": "partial",
   "theorems": [
    "C74_refuted",
    "C74_own_variables",
    "C74_outer_variables"
   ],
   "note": "REFUTED: in a pushed scope a program using a variable of an outer scope throws std::runtime_error. Proved: programs using only their own variables never throw, and programs mentioning an outer variable are never accepted."
  },
  {
   "property": "C75",
   "status": "proved",
   "theorems": [
    "C75_renaming"
   ],
   "note": ""
  },
  {
   "property": "C76",
   "status": "proved",
   "theorems": [
    "C76_new_analyzer"
   ],
   "note": ""
  },
  {
   "property": "C77",
   "status": "proved",
   "theorems": [
    "C77_unused_declaration"
   ],
   "note": ""
  },
  {
   "property": "C78",
   "status": "proved",
   "theorems": [
    "C78_instruction_removed",
    "C78_instructions_swapped",
    "C78_instructions_reordered"
   ],
   "note": ""
  },
  {
   "property": "C79",
   "status": "proved",
   "theorems": [
    "C79_equal_values",
    "C79_literal"
   ],
   "note": ""
  },
  {
   "property": "C80",
   "status": "proved",
   "theorems": [
    "C80_block_location",
    "C80_parsed"
   ],
   "note": ""
  },
  {
   "property": "C81",
   "status": "proved",
   "theorems": [
    "C81_same_analysis",
    "C81_locations",
    "C81_in_text"
   ],
   "note": ""
  },
  {
   "property": "C82",
   "status": "proved",
   "theorems": [
    "C82_expression_errors",
    "C82_expression_problems",
    "C82_statement_errors",
    "C82_statement_problems",
    "C82_program",
    "C82_text"
   ],
   "note": ""
  },
  {
   "property": "C83",
   "status": "proved",
   "theorems": [
    "C83_numbers",
    "C83_booleans"
   ],
   "note": ""
  },
  {
   "property": "C84",
   "status": "proved",
   "theorems": [
    "C84_result",
    "C84_expression",
    "C84_parsed"
   ],
   "note": ""
  },
  {
   "property": "C85",
   "status": "proved",
   "theorems": [
    "C85_written",
    "C85_text"
   ],
   "note": ""
  },
  {
   "property": "C86",
   "status": "proved",
   "theorems": [
    "C86_conversions",
    "C86_parsed",
    "C86_analysed",
    "C86_limit"
   ],
   "note": ""
  },
  {
   "property": "C87",
   "status": "proved",
   "theorems": [
    "C87_classes",
    "C87_unions",
    "C87_parameter_types",
    "C87_no_clash",
    "C87_results"
   ],
   "note": ""
  },
  {
   "property": "C88",
   "status": "proved",
   "theorems": [
    "C88_programs",
    "C88_errors",
    "C88_throws",
    "C88_analysis"
   ],
   "note": ""
  },
  {
   "property": "C89",
   "status": "proved",
   "theorems": [
    "C89_value",
    "C89_text",
    "C89_one_value",
    "C89_double_results",
    "C89_sqrt_results"
   ],
   "note": ""
  },
  {
   "property": "C90",
   "status": "proved",
   "theorems": [
    "C90_tree",
    "C90_one_meaning",
    "C90_text"
   ],
   "note": ""
  },
  {
   "property": "C91",
   "status": "proved",
   "theorems": [
    "C91_tree",
    "C91_tree_undefined",
    "C91_one_result",
    "C91_accepted",
    "C91_text",
    "C91_undefined",
    "C91_syntax_error"
   ],
   "note": ""
  },
  {
   "property": "C92",
   "status": "proved",
   "theorems": [
    "C92_tree",
    "C92_tree_undefined",
    "C92_text",
    "C92_undefined",
    "C92_syntax_error"
   ],
   "note": ""
  },
  {
   "property": "C93",
   "status": "partial",
   "theorems": [
    "C93_refuted",
    "C93_tree",
    "C93_result_partial"
   ],
   "note": "REFUTED: a text of 66 characters is accepted with 10^18 indices. Proved: trees, results (apart from indices) and lists of errors are at most as long as the text; indices at most the length of the text times the size of the largest register."
  },
  {
   "property": "C94",
   "status": "proved",
   "theorems": [
    "C94_tree",
    "C94_undefined",
    "C94_nothing_else"
   ],
   "note": ""
  },
  {
   "property": "C95",
   "status": "proved",
   "theorems": [
    "C95_cases",
    "C95_cpp",
    "C95_python",
    "C95_json"
   ],
   "note": ""
  },
  {
   "property": "C96",
   "status": "proved",
   "theorems": [
    "C96_as_alone",
    "C96_no_waiting",
    "C96_results",
    "C96_no_sharing",
    "C96_turn",
    "C96_undefined",
    "C96_exception",
    "C96_copies"
   ],
   "note": ""
  },
  {
   "property": "C97",
   "status": "proved",
   "theorems": [
    "C97_no_node_twice",
    "C97_registered_apart",
    "C97_others_stay",
    "C97_same_analysis",
    "C97_new_analyzer",
    "C97_history"
   ],
   "note": ""
  },
  {
   "property": "C98",
   "status": "proved",
   "theorems": [
    "C98_unused_names"
   ],
   "note": ""
  },
  {
   "property": "C99",
   "status": "proved",
   "theorems": [
    "C99_exchange",
    "C99_reordered",
    "C99_declarations_first"
   ],
   "note": ""
  },
  {
   "property": "C100",
   "status": "proved",
   "theorems": [
    "C100_bytes",
    "C100_characters",
    "C100_refused",
    "C100_analyses",
    "C100_parses",
    "C100_texts"
   ],
   "note": ""
  },
  {
   "property": "C101",
   "status": "proved",
   "theorems": [
    "C101_messages",
    "C101_literals",
    "C101_json"
   ],
   "note": ""
  },
  {
   "property": "C102",
   "status": "proved",
   "theorems": [
    "C102_total",
    "C102_one_exception",
    "C102_throws_iff"
   ],
   "note": ""
  },
  {
   "property": "C103",
   "status": "proved",
   "theorems": [
    "C103_gates",
    "C103_others",
    "C103_measure",
    "C103_rejected"
   ],
   "note": ""
  },
  {
   "property": "C104",
   "status": "proved",
   "theorems": [
    "C104_default",
    "C104_one_choice",
    "C104_called",
    "C104_not_called",
    "C104_gates",
    "C104_no_gates",
    "C104_constants"
   ],
   "note": ""
  },
  {
   "property": "C105",
   "status": "proved",
   "theorems": [
    "C105_pieces",
    "C105_order"
   ],
   "note": ""
  },
  {
   "property": "C106",
   "status": "proved",
   "theorems": [
    "C106_resized",
    "C106_larger",
    "C106_texts"
   ],
   "note": ""
  },
  {
   "property": "C107",
   "status": "proved",
   "theorems": [
    "C107_ranges",
    "C107_whole",
    "C107_ranges_in_texts",
    "C107_whole_in_texts"
   ],
   "note": ""
  },
  {
   "property": "C108",
   "status": "proved",
   "theorems": [
    "C108_numbers",
    "C108_texts",
    "C108_integers_as_floats"
   ],
   "note": ""
  },
  {
   "property": "C109",
   "status": "proved",
   "theorems": [
    "C109_single",
    "C109_texts"
   ],
   "note": ""
  },
  {
   "property": "C110",
   "status": "proved",
   "theorems": [
    "C110_sequence",
    "C110_texts"
   ],
   "note": ""
  },
  {
   "property": "C111",
   "status": "proved",
   "theorems": [
    "C111_merged",
    "C111_split",
    "C111_texts",
    "C111_split_in_texts"
   ],
   "note": ""
  },
  {
   "property": "C112",
   "status": "proved",
   "theorems": [
    "C112_joined",
    "C112_texts"
   ],
   "note": ""
  },
  {
   "property": "C113",
   "status": "proved",
   "theorems": [
    "C113_elementary",
    "C113_once",
    "C113_text"
   ],
   "note": ""
  },
  {
   "property": "C114",
   "status": "proved",
   "theorems": [
    "C114_renumbered",
    "C114_texts"
   ],
   "note": ""
  },
  {
   "property": "C115",
   "status": "proved",
   "theorems": [
    "C115_flat",
    "C115_numbered",
    "C115_text",
    "C115_elements",
    "C115_once"
   ],
   "note": ""
  },
  {
   "property": "C116",
   "status": "proved",
   "theorems": [
    "C116_follow",
    "C116_beginning",
    "C116_texts"
   ],
   "note": ""
  },
  {
   "property": "C117",
   "status": "proved",
   "theorems": [
    "C117_kept",
    "C117_abbreviated",
    "C117_sequence",
    "C117_places",
    "C117_merged",
    "C117_texts"
   ],
   "note": ""
  }
 ]
}