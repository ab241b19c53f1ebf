{
 "claims": [
  {
   "property": "C01",
   "status": "proved",
   "theorems": [
    "c01_plus_exact",
    "c01_plus_overflow_is_ub",
    "c01_times_exact",
    "c01_times_overflow_is_ub",
    "c01_minus_exact",
    "c01_minus_overflow_is_ub",
    "c01_minus_unary"
   ],
   "note": "Proved for argument lists of every length; overflow is shown to be exactly the UB case."
  },
  {
   "property": "C02",
   "status": "proved",
   "theorems": [
    "c02_quotient",
    "c02_remainder",
    "c02_modulo",
    "c02_laws",
    "c02_zero_divisor",
    "c02_min_by_minus_one_is_ub"
   ],
   "note": "Full statement."
  },
  {
   "property": "C03",
   "status": "proved",
   "theorems": [
    "c03_gcd",
    "c03_lcm",
    "c03_min_is_ub"
   ],
   "note": "Arguments other than INT64_MIN; c03_min_is_ub shows that negating INT64_MIN is UB in the code."
  },
  {
   "property": "C04",
   "status": "proved",
   "theorems": [
    "c04_div_ints",
    "c04_div_exact",
    "c04_mul_exact",
    "c04_normal_form_unique",
    "c04_zero_divisor",
    "c04_no_arguments"
   ],
   "note": "Also n-ary / and ratio*ratio; normal forms are unique."
  },
  {
   "property": "C05",
   "status": "proved",
   "theorems": [
    "c05_pairwise",
    "c05_relation",
    "c05_chain"
   ],
   "note": "All five relations, argument lists of every length."
  },
  {
   "property": "C06",
   "status": "proved",
   "theorems": [
    "c06_zero",
    "c06_positive",
    "c06_negative",
    "c06_sign_float",
    "c06_sign_rejects"
   ],
   "note": "Parity, max, min: C124; ratios: C07."
  },
  {
   "property": "C07",
   "status": "proved",
   "theorems": [
    "c07_times",
    "c07_div",
    "c07_plus_aborts_iff",
    "c07_minus_aborts_iff",
    "c07_cmp_aborts_iff"
   ],
   "note": "Full statement; what is false beyond it is refuted in C135."
  },
  {
   "property": "C08",
   "status": "proved",
   "theorems": [
    "c08_roundtrip",
    "c08_roundtrip_default"
   ],
   "note": "-2^63: C125."
  },
  {
   "property": "C09",
   "status": "proved",
   "theorems": [
    "c09_expt",
    "c09_expt_negative"
   ],
   "note": "Full statement plus the behaviour for negative exponents."
  },
  {
   "property": "C10",
   "status": "proved",
   "theorems": [
    "c10_cons_onto_list",
    "c10_cons_onto_atom",
    "c10_cons_onto_dotted",
    "c10_car",
    "c10_cdr",
    "c10_car_dotted",
    "c10_cdr_dotted",
    "c10_cdr_dotted_longer",
    "c10_car_cdr_of_non_pair",
    "c10_set_car_changes_one_cell",
    "c10_set_car_aliases",
    "c10_set_cdr_to_list",
    "c10_set_cdr_to_nil",
    "c10_set_cdr_to_atom"
   ],
   "note": "cons, car, cdr, set-car!, set-cdr! on every heap; frame conditions included."
  },
  {
   "property": "C11",
   "status": "proved",
   "theorems": [
    "c11_length",
    "c11_length_of_non_list",
    "c11_length_of_dotted"
   ],
   "note": "Full statement; c11_length_of_dotted shows that improper lists are counted with their final cdr instead of being rejected."
  },
  {
   "property": "C12",
   "status": "proved",
   "theorems": [
    "c12_append",
    "c12_append_dotted_last_drops_middle"
   ],
   "note": "Full statement for proper lists; for an improper last argument the exact (lossy) behaviour is proved."
  },
  {
   "property": "C13",
   "status": "proved",
   "theorems": [
    "c13_reverse",
    "c13_reverse_twice"
   ],
   "note": "Full statement."
  },
  {
   "property": "C14",
   "status": "proved",
   "theorems": [
    "c14_list_ref_in_range",
    "c14_list_ref_out_of_range",
    "c14_list_tail_in_range",
    "c14_list_tail_out_of_range",
    "c14_list_head_in_range",
    "c14_list_head_out_of_range"
   ],
   "note": "Full statement, all 64-bit indices (negative ones become huge size_t values and are shown to be rejected)."
  },
  {
   "property": "C15",
   "status": "proved",
   "theorems": [
    "c15_last_pair",
    "c15_last_pair_empty",
    "c15_last_pair_no_list",
    "c15_last_pair_stops_on_circular"
   ],
   "note": "Full statement; what is false beyond it is refuted in C136."
  },
  {
   "property": "C16",
   "status": "proved",
   "theorems": [
    "c16_list_p",
    "c16_list_p_circular"
   ],
   "note": "Full statement; what is false beyond it is refuted in C137."
  },
  {
   "property": "C17",
   "status": "proved",
   "theorems": [
    "c17_memq_finds",
    "c17_memv_finds",
    "c17_member_finds",
    "c17_mem_first_match"
   ],
   "note": "Full: memq, memv, member with the comparison each uses filled in (C74, C20). Excludes circular data and inexact numbers (no shape)."
  },
  {
   "property": "C18",
   "status": "partial",
   "theorems": [
    "c18_eq_of_same_cdr_refuted"
   ],
   "note": "False of the code for every list with at least two elements: cdr allocates a new wrapper each time."
  },
  {
   "property": "C19",
   "status": "proved",
   "theorems": [
    "c19_equal_decides_structural_equality",
    "c19_denotation_is_unique",
    "c19_inexact_not_transitive"
   ],
   "note": "Full statement (decides structural equality, hence an equivalence). Floats are outside the class; c19_inexact_not_transitive shows why."
  },
  {
   "property": "C20",
   "status": "proved",
   "theorems": [
    "c20_key_comparison",
    "c20_on_data",
    "c20_agrees_with_equal"
   ],
   "note": "Full, on all data without inexact numbers, ratios and NULs (the class [shows]); dotted cells anywhere."
  },
  {
   "property": "C21",
   "status": "proved",
   "theorems": [
    "c21_lookup_returns_first_match",
    "c21_assoc_ref",
    "c21_non_list",
    "c21_assq_finds",
    "c21_assoc_finds"
   ],
   "note": "Full: assq/assoc/assv with the comparison filled in. assv on a non-list is an assertion failure (c21_non_list)."
  },
  {
   "property": "C22",
   "status": "proved",
   "theorems": [
    "c22_assoc_set_replaces",
    "c22_assq_set_replaces",
    "c22_set_then_ref",
    "c22_set_then_ref_any_value",
    "c22_atoms_are_keyed",
    "c22_assoc_remove",
    "c22_acons",
    "c22_data_are_keyed"
   ],
   "note": "Full statement; what is false beyond it is refuted in C138."
  },
  {
   "property": "C23",
   "status": "proved",
   "theorems": [
    "c23_make",
    "c23_make_default",
    "c23_history_refines_map",
    "c23_size_counts_keys",
    "c23_stable_under_allocation",
    "c23_fold_visits_each_binding_once",
    "c23_not_a_table",
    "c23_symbol_keys_can_be_mixed"
   ],
   "note": "Every history of set/ref/remove/get-handle/create-handle in each family refines a finite map. Negative capacities: C100."
  },
  {
   "property": "C24",
   "status": "proved",
   "theorems": [
    "c24_equal_is_same_key",
    "c24_equal_key_found"
   ],
   "note": "Full statement; what is false beyond it is refuted in C139."
  },
  {
   "property": "C25",
   "status": "proved",
   "theorems": [
    "c25_make",
    "c25_make_negative",
    "c25_length",
    "c25_ref",
    "c25_set_in_range",
    "c25_set_out_of_range",
    "c25_ref_after_set",
    "c25_type_errors",
    "c25_vector"
   ],
   "note": "Full statement, plus make-vector/vector/vector-length and type errors."
  },
  {
   "property": "C26",
   "status": "proved",
   "theorems": [
    "c26_vector_to_list",
    "c26_list_to_vector",
    "c26_improper_list_to_vector",
    "c26_round_trips"
   ],
   "note": "Larger vectors: C126. Improper lists: the final cdr becomes an element."
  },
  {
   "property": "C27",
   "status": "proved",
   "theorems": [
    "c27_length",
    "c27_ref",
    "c27_set_in_range",
    "c27_set_out_of_range",
    "c27_substring",
    "c27_append",
    "c27_make_string",
    "c27_type_errors"
   ],
   "note": "Larger results: C126."
  },
  {
   "property": "C28",
   "status": "proved",
   "theorems": [
    "c28_comparisons_decide_dictionary_order",
    "c28_dictionary_order_is_total",
    "c28_nul_hides_the_rest"
   ],
   "note": "Full statement; c28_nul_hides_the_rest shows why NUL is excluded."
  },
  {
   "property": "C29",
   "status": "proved",
   "theorems": [
    "c29_ci_equal",
    "c29_ci_consistent"
   ],
   "note": "Order against the upper-cased strings: C127."
  },
  {
   "property": "C30",
   "status": "proved",
   "theorems": [
    "c30_string_to_list",
    "c30_list_to_string",
    "c30_round_trip",
    "c30_char_integer_inverse",
    "c30_case_conversion"
   ],
   "note": "Full statement (round trip for strings shorter than 2^31)."
  },
  {
   "property": "C31",
   "status": "proved",
   "theorems": [
    "c31_terminates",
    "c31_progress",
    "c31_end_of_text",
    "c31_no_overrun",
    "c31_huge_numeral_overflows"
   ],
   "note": "Full statement; undefined behaviour is confined to integer literals above 2^63-1 (signed overflow in parse_number), which c31_huge_numeral_overflows shows to be real."
  },
  {
   "property": "C32",
   "status": "proved",
   "theorems": [
    "c32_round_trip",
    "c32_sequence"
   ],
   "note": "Full statement; what is false beyond it is refuted in C140."
  },
  {
   "property": "C33",
   "status": "proved",
   "theorems": [
    "c33_string_round_trip"
   ],
   "note": "An equivalence; strings that do not survive: C129."
  },
  {
   "property": "C34",
   "status": "proved",
   "theorems": [
    "c34_symbol_round_trip"
   ],
   "note": "Full statement; what is false beyond it is refuted in C141."
  },
  {
   "property": "C35",
   "status": "proved",
   "theorems": [
    "c35_byte_stream",
    "c35_nth"
   ],
   "note": "Full statement (also char-ready? and close)."
  },
  {
   "property": "C36",
   "status": "proved",
   "theorems": [
    "c36_accumulates",
    "c36_closed"
   ],
   "note": "NUL bytes: C128."
  },
  {
   "property": "C37",
   "status": "proved",
   "theorems": [
    "c37_compound",
    "c37_atom",
    "c37_eof"
   ],
   "note": "Full statement; what is false beyond it is refuted in C142."
  },
  {
   "property": "C38",
   "status": "proved",
   "theorems": [
    "c38_lookup_order",
    "c38_no_interference"
   ],
   "note": "The usual order, modules before the global table: C123."
  },
  {
   "property": "C39",
   "status": "proved",
   "theorems": [
    "c39_set"
   ],
   "note": "Full statement; what is false beyond it is refuted in C143."
  },
  {
   "property": "C40",
   "status": "proved",
   "theorems": [
    "c40_local_define"
   ],
   "note": "Full statement; what is false beyond it is refuted in C144."
  },
  {
   "property": "C41",
   "status": "proved",
   "theorems": [
    "c41_do"
   ],
   "note": "Full statement; what is false beyond it is refuted in C145."
  },
  {
   "property": "C42",
   "status": "proved",
   "theorems": [
    "c42_module_lookup",
    "c42_define_isolated",
    "c42_latest_use_first"
   ],
   "note": "Full statement: order, isolation, most recent use first."
  },
  {
   "property": "C43",
   "status": "proved",
   "theorems": [
    "c43_value_at_export"
   ],
   "note": "Full statement; what is false beyond it is refuted in C146."
  },
  {
   "property": "C44",
   "status": "proved",
   "theorems": [
    "c44_module_bound"
   ],
   "note": "Full statement; what is false beyond it is refuted in C147."
  },
  {
   "property": "C45",
   "status": "proved",
   "theorems": [
    "c45_order",
    "c45_chain_restored",
    "c45_start"
   ],
   "note": "Order of the three calls, value and restoration of the wind chain for every program, unless a throw left a dynamic-wind (which skips the out guard: example c45_throw)."
  },
  {
   "property": "C46",
   "status": "proved",
   "theorems": [
    "c46_capture",
    "c46_chain_at_target",
    "c46_jump",
    "c46_reentry_uncrossed",
    "c46_reentry_no_throw",
    "c46_reentry"
   ],
   "note": "Full statement; what is false beyond it is refuted in C148."
  },
  {
   "property": "C47",
   "status": "proved",
   "theorems": [
    "c47_one_extent_left",
    "c47_same_extents"
   ],
   "note": "Full statement; what is false beyond it is refuted in C149."
  },
  {
   "property": "C48",
   "status": "proved",
   "theorems": [
    "c48_innermost",
    "c48_handler",
    "c48_no_throw"
   ],
   "note": "No arguments: C122."
  },
  {
   "property": "C49",
   "status": "proved",
   "theorems": [
    "c49_catch_stack_restored",
    "c49_start"
   ],
   "note": "Full statement; what is false beyond it is refuted in C150."
  },
  {
   "property": "C50",
   "status": "proved",
   "theorems": [
    "c50_reachable_survive",
    "c50_contents",
    "c50_collection_completes"
   ],
   "note": "References the collector does not see: C101."
  },
  {
   "property": "C51",
   "status": "proved",
   "theorems": [
    "c51_exactly_unreachable",
    "c51_only_the_visible_survives",
    "c51_marks_clear",
    "c51_memory_reused"
   ],
   "note": "Large objects of odd size: C102."
  },
  {
   "property": "C52",
   "status": "proved",
   "theorems": [
    "c52_no_overlap",
    "c52_distinct",
    "c52_aligned_and_mapped",
    "c52_allocation",
    "c52_allocation_completes",
    "c52_program_sizes"
   ],
   "note": "Full statement: distinct live blocks never overlap, are aligned and inside mapped segments; allocation succeeds for every size the program asks for."
  },
  {
   "property": "C53",
   "status": "proved",
   "theorems": [
    "c53_if",
    "c53_if_one_armed",
    "c53_and",
    "c53_or",
    "c53_begin",
    "c53_truth"
   ],
   "note": "Full statement for any operands."
  },
  {
   "property": "C54",
   "status": "proved",
   "theorems": [
    "c54_lambda",
    "c54_operator_expression",
    "c54_operator_variable",
    "c54_call",
    "c54_scope",
    "c54_primitive"
   ],
   "note": "Full statement; what is false beyond it is refuted in C151."
  },
  {
   "property": "C55",
   "status": "proved",
   "theorems": [
    "c55_let",
    "c55_letstar",
    "c55_letrec"
   ],
   "note": "let, let*, letrec and named let by their exact binding structure."
  },
  {
   "property": "C56",
   "status": "proved",
   "theorems": [
    "c56_one_body",
    "c56_no_variables"
   ],
   "note": "Full statement; what is false beyond it is refuted in C152."
  },
  {
   "property": "C57",
   "status": "proved",
   "theorems": [
    "c57_case",
    "c57_case_key",
    "c57_case_key_data"
   ],
   "note": "cond and dotted keys: C120."
  },
  {
   "property": "C58",
   "status": "proved",
   "theorems": [
    "c58_map",
    "c58_map_primitive"
   ],
   "note": "for-each: C121."
  },
  {
   "property": "C59",
   "status": "proved",
   "theorems": [
    "c59_template",
    "c59_constant"
   ],
   "note": "Full statement; what is false beyond it is refuted in C153."
  },
  {
   "property": "C60",
   "status": "proved",
   "theorems": [
    "c60_first",
    "c60_stays",
    "c60_again"
   ],
   "note": "Full statement, including re-entrant forces: a completed force establishes the value, every evaluation preserves it, and forcing again evaluates nothing."
  },
  {
   "property": "C61",
   "status": "proved",
   "theorems": [
    "c61_values"
   ],
   "note": "Full statement; what is false beyond it is refuted in C154."
  },
  {
   "property": "C62",
   "status": "proved",
   "theorems": [
    "c62_procedure",
    "c62_primitive"
   ],
   "note": "Full statement; what is false beyond it is refuted in C155."
  },
  {
   "property": "C63",
   "status": "proved",
   "theorems": [
    "c63_operands",
    "c63_expansion",
    "c63_define",
    "c63_define_from_procedure",
    "c63_defined"
   ],
   "note": "Full statement; what is false beyond it is refuted in C156."
  },
  {
   "property": "C64",
   "status": "proved",
   "theorems": [
    "c64_deterministic",
    "c64_more_fuel"
   ],
   "note": "Full statement: the outcome is a function of program and state; more fuel never changes it."
  },
  {
   "property": "C65",
   "status": "proved",
   "theorems": [
    "c65_apply",
    "c65_any_list",
    "c65_unknown_name",
    "c65_bad_value",
    "c65_copy_implies_positions",
    "c65_printed",
    "c65_reapply_identity",
    "c65_enable",
    "c65_disable",
    "c65_set_value",
    "c65_set_switch"
   ],
   "note": "Where the clauses fail without their conditions: C103."
  },
  {
   "property": "C66",
   "status": "proved",
   "theorems": [
    "c66_tags_distinct",
    "c66_descriptor_exactly_registered",
    "c66_limit",
    "c66_make_needs_registered",
    "c66_data_returned",
    "c66_objects_distinct",
    "c66_default_equality",
    "c66_scheme_roundtrip",
    "c66_type_errors",
    "c66_assert_type",
    "c66_scheme_register",
    "c66_scheme_make",
    "c66_scheme_type_errors",
    "c66_smob_p"
   ],
   "note": "Types with size > 0 and tags near -2^63: C104."
  },
  {
   "property": "C67",
   "status": "proved",
   "theorems": [
    "c67_cons_terminates"
   ],
   "note": "Full statement; what is false beyond it is refuted in C157."
  },
  {
   "property": "C68",
   "status": "proved",
   "theorems": [
    "c68_hashq_symbols",
    "c68_hashv_ints_chars_bools",
    "c68_hashv_finds_eqv_keys",
    "c68_hashq_finds_eq_symbols"
   ],
   "note": "Full statement; what is false beyond it is refuted in C158."
  },
  {
   "property": "C69",
   "status": "proved",
   "theorems": [
    "c69_comparisons",
    "c69_ci_comparisons",
    "c69_classes"
   ],
   "note": "Full statement."
  },
  {
   "property": "C70",
   "status": "proved",
   "theorems": [
    "c70_eval",
    "c70_eval_string"
   ],
   "note": "pscm_eval_file: C105. Programs with inexact/rational literals are outside the evaluator model."
  },
  {
   "property": "C71",
   "status": "proved",
   "theorems": [
    "c71_value",
    "c71_uncaught",
    "c71_result"
   ],
   "note": "After a later successful call: C106."
  },
  {
   "property": "C72",
   "status": "proved",
   "theorems": [
    "c72_string_value",
    "c72_string_error",
    "c72_file",
    "c72_file_continues",
    "c72_file_missing"
   ],
   "note": "String: value and error case. File: every expression in order, each by its own guarded call."
  },
  {
   "property": "C73",
   "status": "proved",
   "theorems": [
    "c73_no_leak"
   ],
   "note": "Full statement; what is false beyond it is refuted in C159."
  },
  {
   "property": "C74",
   "status": "proved",
   "theorems": [
    "c74_eq",
    "c74_memv",
    "c74_assq"
   ],
   "note": "Exact comparison on every pair of readable data; the ways it differs from the standard: C107."
  },
  {
   "property": "C75",
   "status": "proved",
   "theorems": [
    "c75_prefix",
    "c75_concat",
    "c75_leading_filler",
    "c75_trailing_filler",
    "c75_port_filler"
   ],
   "note": "All texts without NUL. Carriage returns: C108."
  },
  {
   "property": "C76",
   "status": "proved",
   "theorems": [
    "c76_total",
    "c76_disjoint",
    "c76_tower",
    "c76_numbers",
    "c76_exactly",
    "c76_not",
    "c76_list"
   ],
   "note": "Whole doubles: C109."
  },
  {
   "property": "C77",
   "status": "proved",
   "theorems": [
    "c77_symbol_string",
    "c77_string_symbol",
    "c77_fresh",
    "c77_wrong_type",
    "c77_gensym_distinct",
    "c77_gensym_fresh",
    "c77_read_names"
   ],
   "note": "NUL in names, reading of generated names, 2^31 calls: C110."
  },
  {
   "property": "C78",
   "status": "proved",
   "theorems": [
    "c78_last_write",
    "c78_fresh",
    "c78_not_variable",
    "c78_safe",
    "c78_lookup"
   ],
   "note": "The variable from a lookup is a copy: C111."
  },
  {
   "property": "C79",
   "status": "proved",
   "theorems": [
    "c79_complete",
    "c79_written",
    "c79_parens",
    "c79_lines"
   ],
   "note": "Full statement; what is false beyond it is refuted in C160."
  },
  {
   "property": "C80",
   "status": "proved",
   "theorems": [
    "c80_in_order",
    "c80_errors_survive",
    "c80_history"
   ],
   "note": "Syntax errors and several expressions on a line: C112."
  },
  {
   "property": "C81",
   "status": "proved",
   "theorems": [
    "c81_in_order",
    "c81_no_early_end",
    "c81_unreadable"
   ],
   "note": "Status after errors, empty scripts: C113."
  },
  {
   "property": "C82",
   "status": "proved",
   "theorems": [
    "c82_load",
    "c82_load_env",
    "c82_stops_at_error",
    "c82_unreadable",
    "c82_missing",
    "c82_deterministic",
    "c82_exit_int",
    "c82_exit_none",
    "c82_exit_error",
    "c82_exit_double"
   ],
   "note": "Doubles, status above 255, empty files: C114."
  },
  {
   "property": "C83",
   "status": "proved",
   "theorems": [
    "c83_message",
    "c83_uncaught",
    "c83_by_message"
   ],
   "note": "Full statement; what is false beyond it is refuted in C161."
  },
  {
   "property": "C84",
   "status": "proved",
   "theorems": [
    "c84_throw_target",
    "c84_value",
    "c84_nesting"
   ],
   "note": "The handler is not called: C115."
  },
  {
   "property": "C85",
   "status": "proved",
   "theorems": [
    "c85_capture",
    "c85_returns_again",
    "c85_invocation_arrives"
   ],
   "note": "Shared operand lists and map: C116. Core forms only (see MachModel)."
  },
  {
   "property": "C86",
   "status": "proved",
   "theorems": [
    "c86_values_kept",
    "c86_variables_kept",
    "c86_escapes_safe"
   ],
   "note": "Full statement; what is false beyond it is refuted in C162."
  },
  {
   "property": "C87",
   "status": "proved",
   "theorems": [
    "c87_innermost_catch"
   ],
   "note": "Full statement; what is false beyond it is refuted in C163."
  },
  {
   "property": "C88",
   "status": "proved",
   "theorems": [
    "c88_written",
    "c88_untouched",
    "c88_read_back",
    "c88_round_trip",
    "c88_opening",
    "c88_call_with_output_file",
    "c88_call_with_input_file"
   ],
   "note": "Non-local exits, two writers, unflushed data: C117."
  },
  {
   "property": "C89",
   "status": "proved",
   "theorems": [
    "c89_getter",
    "c89_setter",
    "c89_direction",
    "c89_default_output"
   ],
   "note": "Redirection: C118."
  },
  {
   "property": "C90",
   "status": "proved",
   "theorems": [
    "c90_make",
    "c90_output",
    "c90_input",
    "c90_only_soft",
    "c90_closed_silent"
   ],
   "note": "Other procedures, rw ports: C119. Soft-port procedures that themselves use ports are not modelled."
  },
  {
   "property": "C91",
   "status": "proved",
   "theorems": [
    "c91_partition",
    "c91_not_a_port",
    "c91_direction",
    "c91_closed_input",
    "c91_closed_output",
    "c91_string_reader",
    "c91_string_writer",
    "c91_call_with_output_string",
    "c91_call_with_input_string",
    "c91_safe"
   ],
   "note": "Closing the initial output port: C118."
  },
  {
   "property": "C92",
   "status": "proved",
   "theorems": [
    "c92_evaluated_once",
    "c92_resolved_for_ever",
    "c92_terminates",
    "c92_which_file",
    "c92_definitions_go_to_the_module"
   ],
   "note": "Module forms with constant or variable right-hand sides over files given as lists of forms; the evaluator is EvalModel. Two names with the same path are two modules: C97."
  },
  {
   "property": "C93",
   "status": "proved",
   "theorems": [
    "c93_current_module_kept",
    "c93_resolve_keeps",
    "c93_enter"
   ],
   "note": "Errors: C97."
  },
  {
   "property": "C94",
   "status": "proved",
   "theorems": [
    "c94_interface_only_exported",
    "c94_use_shows_exports",
    "c94_export"
   ],
   "note": "Modules without an interface and late exports: C97."
  },
  {
   "property": "C95",
   "status": "proved",
   "theorems": [
    "c95_clauses"
   ],
   "note": "Other orders and #:export with a list: C98."
  },
  {
   "property": "C96",
   "status": "proved",
   "theorems": [
    "c96_only_when_unbound",
    "c96_only_listed",
    "c96_first_reference",
    "c96_code_reference"
   ],
   "note": "Assignments and failing files: C99."
  },
  {
   "property": "C97",
   "status": "partial",
   "theorems": [
    "c97_file_evaluated_twice_refuted",
    "c97_error_leaves_module_refuted",
    "c97_no_exports_refuted",
    "c97_late_export_refuted"
   ],
   "note": "All three clauses refuted: (a b) and (a/b) evaluate one file twice; a failing file leaves its half-loaded module current and registered, for ever; a module that has exported nothing, or not yet, shows everything."
  },
  {
   "property": "C98",
   "status": "partial",
   "theorems": [
    "c98_list_exports_refuted",
    "c98_export_takes_the_rest_refuted",
    "c98_autoload_takes_the_rest_refuted",
    "c98_autoload_at_once_refuted"
   ],
   "note": "Refuted, for every session: #:export (a b) exports nothing; #:export takes all later symbols including keywords; #:autoload takes every later name, and can load at once."
  },
  {
   "property": "C99",
   "status": "partial",
   "theorems": [
    "c99_assignment_refuted",
    "c99_failure_refuted"
   ],
   "note": "Refuted: set! makes a global variable and the module is never loaded; a failed autoload is not tried again."
  },
  {
   "property": "C100",
   "status": "partial",
   "theorems": [
    "c100_negative_capacity_refuted"
   ],
   "note": "Refuted: a negative capacity is undefined behaviour."
  },
  {
   "property": "C101",
   "status": "partial",
   "theorems": [
    "c101_stale_vector_refuted",
    "c101_heap_bottom_refuted",
    "c101_segment_gap_refuted",
    "c101_saved_stack_refuted",
    "c101_smob_data_refuted",
    "c101_option_value_refuted"
   ],
   "note": "Refuted five times: a stale vector length, an object at the bottom of the heap range, an address in a gap between segments, a saved continuation stack, data held only by a smob."
  },
  {
   "property": "C102",
   "status": "partial",
   "theorems": [
    "c102_odd_large_size_refuted"
   ],
   "note": "Refuted for large objects of odd size."
  },
  {
   "property": "C103",
   "status": "partial",
   "theorems": [
    "c103_reapply_refuted",
    "c103_disable_value_refuted",
    "c103_set_false_refuted"
   ],
   "note": "All three refuted."
  },
  {
   "property": "C104",
   "status": "partial",
   "theorems": [
    "c104_scheme_sized_refuted",
    "c104_tag_overflow_refuted"
   ],
   "note": "Both refuted."
  },
  {
   "property": "C105",
   "status": "proved",
   "theorems": [
    "c105_eval_file"
   ],
   "note": "Full statement; what is false beyond it is refuted in C164."
  },
  {
   "property": "C106",
   "status": "partial",
   "theorems": [
    "c106_stale_refuted"
   ],
   "note": "Refuted: the last error is not cleared."
  },
  {
   "property": "C107",
   "status": "partial",
   "theorems": [
    "c107_strings_refuted",
    "c107_inexact_refuted"
   ],
   "note": "Both refuted."
  },
  {
   "property": "C108",
   "status": "partial",
   "theorems": [
    "c108_carriage_return_refuted"
   ],
   "note": "Refuted: it ends a comment for read on a port but not for the file reader."
  },
  {
   "property": "C109",
   "status": "partial",
   "theorems": [
    "c109_inexact_integer_refuted"
   ],
   "note": "Refuted for every double."
  },
  {
   "property": "C110",
   "status": "proved",
   "theorems": [
    "c110_eq",
    "c110_gensym_unreadable"
   ],
   "note": "Full statement; what is false beyond it is refuted in C165."
  },
  {
   "property": "C111",
   "status": "partial",
   "theorems": [
    "c111_lookup_copy_refuted"
   ],
   "note": "Refuted: it is a copy."
  },
  {
   "property": "C112",
   "status": "partial",
   "theorems": [
    "c112_syntax_error_refuted",
    "c112_two_on_a_line_refuted"
   ],
   "note": "Refuted: a syntax error ends the process; the rest of a line is not evaluated."
  },
  {
   "property": "C113",
   "status": "partial",
   "theorems": [
    "c113_status_refuted",
    "c113_empty_refuted"
   ],
   "note": "Refuted: the status is 0 although forms failed, and a script of comments only fails."
  },
  {
   "property": "C114",
   "status": "proved",
   "theorems": [
    "c114_exit"
   ],
   "note": "Full statement; what is false beyond it is refuted in C166."
  },
  {
   "property": "C115",
   "status": "partial",
   "theorems": [
    "c115_handler_not_called_refuted",
    "c115_leak_refuted"
   ],
   "note": "Refuted: the entry's layout is not the one scm_throw looks for, so the handler is never called; each non-local exit leaks one of 100 slots."
  },
  {
   "property": "C116",
   "status": "partial",
   "theorems": [
    "c116_operands_refuted",
    "c116_map_refuted"
   ],
   "note": "Refuted: operands of a call are collected in a shared list; re-entering the procedure called by map is a use after free."
  },
  {
   "property": "C117",
   "status": "partial",
   "theorems": [
    "c117_escape_refuted",
    "c117_two_writers_refuted",
    "c117_unflushed_refuted"
   ],
   "note": "All three refuted."
  },
  {
   "property": "C118",
   "status": "partial",
   "theorems": [
    "c118_redirect_refuted",
    "c118_default_input_refuted",
    "c118_closed_stdout_refuted"
   ],
   "note": "Refuted: set-current-output-port redirects nothing; read-char and peek-char without a port always raise; closing the initial output port makes default output undefined behaviour."
  },
  {
   "property": "C119",
   "status": "partial",
   "theorems": [
    "c119_print_refuted",
    "c119_peek_refuted",
    "c119_rw_refuted",
    "c119_nul_mode_refuted",
    "c119_close_exit_refuted"
   ],
   "note": "Refuted: display/write/newline to a soft port are lost; peek-char/char-ready? ignore it; an rw port is no output port; a NUL in the mode string ends it; a closing procedure that exits leaves the port open."
  },
  {
   "property": "C120",
   "status": "proved",
   "theorems": [
    "c120_cond",
    "c120_cond_arrow"
   ],
   "note": "Full statement; what is false beyond it is refuted in C167."
  },
  {
   "property": "C121",
   "status": "proved",
   "theorems": [
    "c121_for_each",
    "c121_for_each_primitive"
   ],
   "note": "Full statement; what is false beyond it is refuted in C168."
  },
  {
   "property": "C122",
   "status": "partial",
   "theorems": [
    "c122_no_arguments_refuted"
   ],
   "note": "Refuted: the handler receives () as an extra argument."
  },
  {
   "property": "C123",
   "status": "proved",
   "theorems": [
    "c123_promised_order"
   ],
   "note": "Full statement; what is false beyond it is refuted in C169."
  },
  {
   "property": "C124",
   "status": "proved",
   "theorems": [
    "c124_odd",
    "c124_even",
    "c124_max",
    "c124_min",
    "c124_max_inexact",
    "c124_min_inexact",
    "c124_extremum_rejects"
   ],
   "note": "Full statement; what is false beyond it is refuted in C170."
  },
  {
   "property": "C125",
   "status": "partial",
   "theorems": [
    "c125_min_refuted"
   ],
   "note": "Refuted: negation overflows."
  },
  {
   "property": "C126",
   "status": "partial",
   "theorems": [
    "c126_huge_results_refuted",
    "c126_long_vector_to_list_refuted"
   ],
   "note": "Refuted: lengths are C ints."
  },
  {
   "property": "C127",
   "status": "proved",
   "theorems": [
    "c127_ci_order_ascii"
   ],
   "note": "Full statement; what is false beyond it is refuted in C171."
  },
  {
   "property": "C128",
   "status": "partial",
   "theorems": [
    "c128_nul_truncates_refuted"
   ],
   "note": "Refuted: strlen truncates."
  },
  {
   "property": "C129",
   "status": "partial",
   "theorems": [
    "c129_control_char_refuted",
    "c129_utf8_refuted"
   ],
   "note": "Refuted for control characters and bytes above 126; C33 has the exact class."
  },
  {
   "property": "C130",
   "status": "proved",
   "theorems": [
    "c130_one_place",
    "c130_reading_unchanged",
    "c130_locations",
    "c130_locations_one",
    "c130_which",
    "c130_error_place",
    "c130_extra_input"
   ],
   "note": "Full. Hypothesis: no stale entries on the reader's stack (C132 shows this holds after any successful loads). The exact class of texts is in the statement: [calm]/[line_calm] lexemes before the object."
  },
  {
   "property": "C131",
   "status": "partial",
   "theorems": [
    "c131_string_newline_refuted",
    "c131_hidden_newline_refuted",
    "c131_char_newline_refuted",
    "c131_keyword_refuted",
    "c131_brace_newline_refuted",
    "c131_constants_refuted"
   ],
   "note": "Refuted: newline in a string literal, escaped newline, #\\\\newline-as-newline, #: prefix, #{...}# over lines, shared constants #t #f ()."
  },
  {
   "property": "C132",
   "status": "proved",
   "theorems": [
    "c132_load_leaves_none",
    "c132_report",
    "c132_history"
   ],
   "note": "Full."
  },
  {
   "property": "C133",
   "status": "partial",
   "theorems": [
    "c133_after_error_refuted",
    "c133_after_success_refuted",
    "c133_innermost_missing_refuted",
    "c133_wrong_entries_refuted"
   ],
   "note": "Refuted: parse() leaves entries after errors and after (), non-empty vectors; the next report follows them into another text (undefined behaviour)."
  },
  {
   "property": "C134",
   "status": "partial",
   "theorems": [
    "c134_written_with_dot_refuted",
    "c134_dotted_confused_refuted"
   ],
   "note": "Refuted: (x . y) and (x y) are one key; (x . (y)), as the reader stores it, and (x y) are two."
  },
  {
   "property": "C135",
   "status": "partial",
   "theorems": [
    "c135_ratio_refuted",
    "c135_sign_ratio_refuted"
   ],
   "note": "Refuted (the clauses that hold are C07). False of the code: (/ 1 2) yields a ratio on which + - < = and number equality hit assert(is_num), and the sign predicates fail. Proved: * and / never abort on numbers, and an exact characterisation of the aborting pairs."
  },
  {
   "property": "C136",
   "status": "partial",
   "theorems": [
    "c136_last_pair_odd_refuted"
   ],
   "note": "Refuted (the clauses that hold are C15). False of the code: for every proper list of odd length >= 3 the middle cell is returned (list.cc 331-352). Proved for length 1 and even lengths; termination on circular lists proved (Floyd)."
  },
  {
   "property": "C137",
   "status": "partial",
   "theorems": [
    "c137_long_list_refuted"
   ],
   "note": "Refuted (the clauses that hold are C16). Terminates on every object; true exactly for proper lists of at most 10001 elements. Refuted for longer lists (hard-coded MAX_COUNT)."
  },
  {
   "property": "C138",
   "status": "partial",
   "theorems": [
    "c138_list_value_lost_refuted"
   ],
   "note": "Refuted (the clauses that hold are C22). Update laws proved for atom values and for assoc-remove! (first match removed, order kept). Refuted for list values: assoc-ref returns the value's first element, #f for the empty list; c22_set_then_ref_any_value gives the exact result."
  },
  {
   "property": "C139",
   "status": "partial",
   "theorems": [
    "c139_equal_char_not_found_refuted"
   ],
   "note": "Refuted (the clauses that hold are C24). Proved for keys built from symbols, strings, integers, booleans, () and nested proper lists. False for characters (likewise vectors and inexact numbers), which are hashed by address."
  },
  {
   "property": "C140",
   "status": "partial",
   "theorems": [
    "c140_min_int_refuted",
    "c140_quote_list_refuted",
    "c140_dotted_list_refuted",
    "c140_ratio_refuted"
   ],
   "note": "Refuted (the clauses that hold are C32). Proved for the class ParseSpec.plain (all depths). Not in the class because false: INT64_MIN, lists headed by quote/quasiquote/unquote/unquote-splicing without exactly one operand, dotted tails that are proper lists, ratios."
  },
  {
   "property": "C141",
   "status": "partial",
   "theorems": [
    "c141_keyword_refuted",
    "c141_odd_symbol_refuted"
   ],
   "note": "Refuted (the clauses that hold are C34). Refuted for every keyword symbol and for symbols with non-identifier characters; proved for identifiers."
  },
  {
   "property": "C142",
   "status": "partial",
   "theorems": [
    "c142_long_expression_refuted",
    "c142_splitter_refuted"
   ],
   "note": "Refuted (the clauses that hold are C37). Proved for every plain datum whose text fits the 4095-byte buffer and has no delimiter character literals. Refuted for longer texts, #\\( literals, comments holding parentheses, and a symbol directly followed by a list."
  },
  {
   "property": "C143",
   "status": "partial",
   "theorems": [
    "c143_module_variable_refuted"
   ],
   "note": "Refuted (the clauses that hold are C39). Proved when the environment has no module of its own, or the current one, or the binding is in a frame. False for a module-private variable set while another module is current."
  },
  {
   "property": "C144",
   "status": "partial",
   "theorems": [
    "c144_in_module_refuted",
    "c144_inner_procedure_refuted"
   ],
   "note": "Refuted (the clauses that hold are C40). Proved for (define x v) in environments without a module. False in code loaded as a module, and for the procedure form, which always writes the current module."
  },
  {
   "property": "C145",
   "status": "partial",
   "theorems": [
    "c145_outer_variable_refuted",
    "c145_test_value_refuted"
   ],
   "note": "Refuted (the clauses that hold are C41). Proved: initialisation, parallel steps, order of body, result, for any number of iterations, when no enclosing frame binds a loop variable. False otherwise: the loop overwrites the enclosing frame's variable (c41_outer_variable_refuted). The test must be a boolean (pscm.h is_false)."
  },
  {
   "property": "C146",
   "status": "partial",
   "theorems": [
    "c146_current_value_refuted"
   ],
   "note": "Refuted (the clauses that hold are C43). Users see the value at export time (proved); later definitions are not seen (same theorem), so the claim is false."
  },
  {
   "property": "C147",
   "status": "partial",
   "theorems": [
    "c147_false_value_refuted"
   ],
   "note": "Refuted (the clauses that hold are C44). True exactly for variables bound to something other than #f; false for variables bound to #f."
  },
  {
   "property": "C148",
   "status": "partial",
   "theorems": [
    "c148_in_guard_refuted"
   ],
   "note": "Refuted (the clauses that hold are C46). An in guard that catches a throw out of a dynamic-wind leaves a stale extent in the chain (c148_in_guard_refuted)."
  },
  {
   "property": "C149",
   "status": "partial",
   "theorems": [
    "c149_shared_guards_refuted"
   ],
   "note": "Refuted (the clauses that hold are C47). Exact guard sequence of every jump between chains; equals the promised one when nothing is shared and at most one extent is left. False when extents are shared or several are left: all out guards run outermost first and shared guards run again (c47_shared_guards_refuted)."
  },
  {
   "property": "C150",
   "status": "partial",
   "theorems": [
    "c150_entry_stays_refuted",
    "c150_dangling_refuted"
   ],
   "note": "Refuted (the clauses that hold are C49). The catch stack is what it was when an evaluation returns, unless a throw or a jump passed over a catch that was not its target; in that case the entry stays and a later throw is undefined behaviour (c49_entry_stays_refuted, c49_dangling_refuted)."
  },
  {
   "property": "C151",
   "status": "partial",
   "theorems": [
    "c151_too_few_refuted"
   ],
   "note": "Refuted (the clauses that hold are C54). Evaluation order, arity, rest parameters, fresh frames; too few arguments with a rest parameter are accepted silently, hence the hypothesis."
  },
  {
   "property": "C152",
   "status": "partial",
   "theorems": [
    "c152_rest_of_body_refuted"
   ],
   "note": "Refuted (the clauses that hold are C56). False of the code: expand_let keeps only the first body expression, the others are never evaluated (c56_rest_of_body_refuted, for every named let). Proved for a single body expression and for named let without variables."
  },
  {
   "property": "C153",
   "status": "partial",
   "theorems": [
    "c153_inner_splice_refuted",
    "c153_dotted_splice_refuted"
   ],
   "note": "Refuted (the clauses that hold are C59). Every well-formed template at every depth, and constants are their own value. Not covered: splicing dotted lists (tail becomes an element) and inner ,@ before a dot (refuted: the dot is lost)."
  },
  {
   "property": "C154",
   "status": "partial",
   "theorems": [
    "c154_list_value_refuted"
   ],
   "note": "Refuted (the clauses that hold are C61). Exact for (values v ...). A single value that is a list is taken for several values (refuted)."
  },
  {
   "property": "C155",
   "status": "partial",
   "theorems": [
    "c155_evaluated_again_refuted"
   ],
   "note": "Refuted (the clauses that hold are C62). The elements of the list are used as is. The leading arguments only if self-evaluating: their values are evaluated a second time (refuted)."
  },
  {
   "property": "C156",
   "status": "partial",
   "theorems": [
    "c156_single_parameter_refuted"
   ],
   "note": "Refuted (the clauses that hold are C63). Operand binding and evaluation of the expansion. A single parameter is taken for a rest parameter, so that clause is refuted; too few operands with a rest parameter are accepted silently. Definitions in a module other than the root are not covered."
  },
  {
   "property": "C157",
   "status": "partial",
   "theorems": [
    "c157_cons_on_circular_refuted"
   ],
   "note": "Refuted (the clauses that hold are C67). False of the code for circular cdr: the loop at list.cc 75-78 never ends. Proved for proper lists."
  },
  {
   "property": "C158",
   "status": "partial",
   "theorems": [
    "c158_hashq_numbers_refuted",
    "c158_hashv_symbols_refuted"
   ],
   "note": "Refuted (the clauses that hold are C68). Proved for symbols (hashq) and integers, characters, booleans (hashv). False for equal integers in hashq tables and equal symbols in hashv tables."
  },
  {
   "property": "C159",
   "status": "partial",
   "theorems": [
    "c159_dead_refuted",
    "c159_reached_refuted"
   ],
   "note": "Refuted (the clauses that hold are C73). Proved when no throw or continuation call passed over a catch (c73_partial). False in general: each such evaluation leaks one of 100 catch entries; after 99 every string is answered by NULL for ever (c73_dead_refuted, c73_reached_refuted)."
  },
  {
   "property": "C160",
   "status": "partial",
   "theorems": [
    "c160_stuck_refuted",
    "c160_rejected_refuted",
    "c160_incomplete_refuted",
    "c160_long_line_refuted"
   ],
   "note": "Refuted (the clauses that hold are C79). Proved for texts without #{...}# and without a backslash before a delimiter. False in general: an extra closing parenthesis blocks the session for ever, strings over two lines are submitted incomplete, lines over 4095 bytes are cut."
  },
  {
   "property": "C161",
   "status": "partial",
   "theorems": [
    "c161_long_message_refuted",
    "c161_long_string_refuted"
   ],
   "note": "Refuted (the clauses that hold are C83). Exact text for lines of at most 1023 bytes; from 1026 bytes on (including the newline) undefined behaviour: the key or message overruns a 1024-byte buffer (c83_long_message_refuted)."
  },
  {
   "property": "C162",
   "status": "partial",
   "theorems": [
    "c162_values_refuted",
    "c162_variables_refuted"
   ],
   "note": "Refuted (the clauses that hold are C86). Proved for executions in which continuations escape, or are re-entered where no procedure call or map is half done, and no set-car!/set-cdr! (values) or set!/define of that variable happens. Refuted in general: re-entering an operand changes rest lists and parameters of earlier calls."
  },
  {
   "property": "C163",
   "status": "partial",
   "theorems": [
    "c163_reentered_body_refuted",
    "c163_catch_stack_refuted"
   ],
   "note": "Refuted (the clauses that hold are C87). Proved while jumps stay inside the same catch bodies and the innermost catch catches. Refuted: a body re-entered after its catch returned has no handler, and its return makes the catch stack index negative."
  },
  {
   "property": "C164",
   "status": "partial",
   "theorems": [
    "c164_file_syntax_error_refuted"
   ],
   "note": "Refuted (the clauses that hold are C105). Proved for files that parse. Refuted for a file with a syntax error: the reader's error is thrown outside any catch and the process exits."
  },
  {
   "property": "C165",
   "status": "partial",
   "theorems": [
    "c165_eq_nul_refuted",
    "c165_gensym_overflow_refuted",
    "c165_gensym_collides_refuted"
   ],
   "note": "Refuted (the clauses that hold are C110). Proved for names without NUL and for texts without #{...}#; refuted beyond; the 2^31-th gensym overflows its int counter."
  },
  {
   "property": "C166",
   "status": "partial",
   "theorems": [
    "c166_empty_refuted",
    "c166_exit_wraps_refuted",
    "c166_exit_float_refuted"
   ],
   "note": "Refuted (the clauses that hold are C114). 0 <= n <= 255 proved. Refuted: 256 is seen as 0, a double outside int is undefined behaviour, an empty file is an error."
  },
  {
   "property": "C167",
   "status": "partial",
   "theorems": [
    "c167_test_value_refuted",
    "c167_dotted_key_refuted"
   ],
   "note": "Refuted (the clauses that hold are C120). Every clause list, with #t as the value of a clause with only a test (proved to be an equivalence without =>). Refuted: that value should be the test's; a dotted key matches a proper datum."
  },
  {
   "property": "C168",
   "status": "partial",
   "theorems": [
    "c168_for_each_stops_refuted"
   ],
   "note": "Refuted (the clauses that hold are C121). Proved for lists of equal length without () elements and at most 10 lists; refuted: it stops silently at an element that is ()."
  },
  {
   "property": "C169",
   "status": "partial",
   "theorems": [
    "c169_redefinition_hidden_refuted",
    "c169_operator_position_refuted"
   ],
   "note": "Refuted (the clauses that hold are C123). Proved for names without a global entry. Refuted: the global table is searched first; operator position differs."
  },
  {
   "property": "C170",
   "status": "partial",
   "theorems": [
    "c170_odd_refuted",
    "c170_max_refuted"
   ],
   "note": "Refuted (the clauses that hold are C124). odd?/even?/max/min go through double: exact below 2^53; refuted at 2^53+1 (wrong parity, max returns a different number) and INT64_MAX (undefined cast). Inexact arguments proved."
  },
  {
   "property": "C171",
   "status": "partial",
   "theorems": [
    "c171_ci_order_refuted"
   ],
   "note": "Refuted (the clauses that hold are C127). Proved for ASCII; refuted for bytes above 127 (signed char comparison)."
  },
  {
   "property": "C172",
   "status": "proved",
   "theorems": [
    "c172_error_text",
    "c172_type_error",
    "c172_complete",
    "c172_type_name",
    "c172_type_named"
   ],
   "note": "Full; the bound of 400 bytes on the expected-type text covers every call in the code (literals below 60 bytes); beyond it the buffer overflows (c172_ex_long)."
  },
  {
   "property": "C173",
   "status": "partial",
   "theorems": [
    "c173_place_repeated_refuted",
    "c173_long_name_refuted"
   ],
   "note": "Refuted: for a datum without a location the place of the evaluation appears three times; file names with a common prefix of 511 bytes give one text."
  },
  {
   "property": "C174",
   "status": "proved",
   "theorems": [
    "c174_always",
    "c174_report",
    "c174_stack_exact",
    "c174_context_exact"
   ],
   "note": "Full for the entry and exit of eval_with_env; the printed text of an expression is a parameter."
  },
  {
   "property": "C175",
   "status": "partial",
   "theorems": [
    "c175_unlocated_refuted",
    "c175_after_throw_refuted",
    "c175_deep_refuted"
   ],
   "note": "Refuted: evaluating an unlocated expression removes the caller's entry, a throw leaves entries behind and the context on the dead evaluation, more than 100 levels remove entries of the outer ones."
  },
  {
   "property": "C176",
   "status": "proved",
   "theorems": [
    "c176_copy",
    "c176_set",
    "c176_expansion",
    "c176_fresh",
    "c176_history"
   ],
   "note": "Full for the functions of source_location.cc and their callers; objects are finite trees with identities."
  },
  {
   "property": "C177",
   "status": "partial",
   "theorems": [
    "c177_own_position_refuted",
    "c177_begin_refuted",
    "c177_moved_refuted",
    "c177_constant_refuted"
   ],
   "note": "Refuted: an operand at its own position in the expansion (as in every macro expanding (name x ...) to (op x ...)) makes copy_source_location read the file name it has just freed; swapped operands both get the first one's place; shared constants move."
  },
  {
   "property": "C178",
   "status": "proved",
   "theorems": [
    "c178_exact",
    "c178_closure",
    "c178_primitive",
    "c178_apply",
    "c178_apply_not_list",
    "c178_not_procedure"
   ],
   "note": "The five functions are one model definition (they differ in the number of arguments). c178_exact is the rule for every argument list. Calling an SCM_Function uses EvalModel's call_func."
  },
  {
   "property": "C179",
   "status": "partial",
   "theorems": [
    "c179_refuted",
    "c179_callbacks_refuted"
   ],
   "note": "Refuted: the arguments are evaluated a second time, in the procedure's own environment; apply, map, call/cc raise an error when called from C++."
  },
  {
   "property": "C180",
   "status": "proved",
   "theorems": [
    "c180_once",
    "c180_other",
    "c180_all",
    "c180_agrees",
    "c180_defined"
   ],
   "note": "c180_agrees needs the macro in the global frame; modules are reached through env_search."
  },
  {
   "property": "C181",
   "status": "partial",
   "theorems": [
    "c181_symbol_refuted",
    "c181_quoted_refuted"
   ],
   "note": "Refuted: an expansion that is a symbol is returned unevaluated; quoted constants inside an expansion are macro-expanded."
  },
  {
   "property": "C182",
   "status": "proved",
   "theorems": [
    "c182_fixed",
    "c182_fold",
    "c182_any",
    "c182_kinds",
    "c182_bound",
    "c182_unbound",
    "c182_gsubr"
   ],
   "note": "The table of the 208 builtins and the C signatures was read off the init functions by a script and is part of the model; what the C functions do is a parameter."
  },
  {
   "property": "C183",
   "status": "partial",
   "theorems": [
    "c183_current_module_refuted",
    "c183_optional_refuted",
    "c183_four_refuted"
   ],
   "note": "Refuted: current-module is registered with arity 0 but declared with a parameter; functions with optional or rest arguments get an SCM_List instead of separate arguments; functions with more than three required arguments always raise an error."
  },
  {
   "property": "C184",
   "status": "proved",
   "theorems": [
    "c184_lookup",
    "c184_lookup_unbound",
    "c184_define",
    "c184_current",
    "c184_define_lookup",
    "c184_in_module",
    "c184_define_module",
    "c184_use",
    "c184_variable"
   ],
   "note": "Module names are lists, not text; functions of the C++ program are arbitrary functions on the modelled state."
  },
  {
   "property": "C185",
   "status": "partial",
   "theorems": [
    "c185_escape_refuted",
    "c185_variable_is_a_copy_refuted"
   ],
   "note": "Refuted: an error leaves the module of the call as the current one; the returned variable is a copy made for the call."
  },
  {
   "property": "C186",
   "status": "proved",
   "theorems": [
    "c186_refines",
    "c186_errors",
    "c186_sharing",
    "c186_nodes",
    "c186_text",
    "c186_start"
   ],
   "note": "A core of the language over list nodes (CellModel): quote, if, cond, case, and, or, begin, set!, lambda, define, let (also named), let*, letrec, do, delay, map, for-each, apply, call-with-values, procedures with rest parameters, primitives, force, values and eval; a run that meets another form (macros, quasiquote, catch, throw, continuations) is outside the theorem. The primitives are arbitrary functions that only make new nodes."
  },
  {
   "property": "C187",
   "status": "partial",
   "theorems": [
    "c187_operands_replaced",
    "c187_runs_differ",
    "c187_unchanged_refuted"
   ],
   "note": "Refuted: the evaluator writes the values of the operands into a list that has a function object in front (eval.cc 676); (eval code) with code the list of the function car and ''(5 6) gives 5 once and an error after that."
  },
  {
   "property": "C188",
   "status": "proved",
   "theorems": [
    "c188_plus",
    "c188_times",
    "c188_minus",
    "c188_div",
    "c188_inverse",
    "c188_compare"
   ],
   "note": "The IEEE operations are those of Coq's SpecFloat."
  },
  {
   "property": "C189",
   "status": "partial",
   "theorems": [
    "c189_not_a_number",
    "c189_exact",
    "c189_error_refuted"
   ],
   "note": "Refuted: next to an inexact number a non-number counts as 0.0, (+ 1.0 'a) is 1.0 and (< 1.0 'a) is #f; next to an exact integer it is an assert that ends the process."
  },
  {
   "property": "C190",
   "status": "partial",
   "theorems": [
    "c190_exact_by_inexact",
    "c190_zero_divisor_refuted"
   ],
   "note": "Refuted: once the division has met an inexact divisor after an exact number, divisors are not checked: (/ 1 0.0) and (/ 1 2.0 0) are +inf, though (/ 1.0 0.0) is an error."
  },
  {
   "property": "C191",
   "status": "partial",
   "theorems": [
    "c191_abs",
    "c191_inexact_aborts",
    "c191_closed_refuted"
   ],
   "note": "Refuted: (abs 1.5) and (expt 2.0 3) end the process by an assert."
  },
  {
   "property": "C192",
   "status": "proved",
   "theorems": [
    "c192_grammar",
    "c192_default",
    "c192_bad_radix"
   ],
   "note": "The C library's strtol is modelled after ISO C; strtod is not modelled."
  },
  {
   "property": "C193",
   "status": "partial",
   "theorems": [
    "c193_only_numerals_refuted",
    "c193_null",
    "c193_value_refuted"
   ],
   "note": "Refuted: blanks in front and anything after a null character are accepted, and an integer that does not fit in 64 bits becomes the largest one (20 nines give 9223372036854775807)."
  },
  {
   "property": "C194",
   "status": "partial",
   "theorems": [
    "c194_callcc_alias_refuted"
   ],
   "note": "Refuted: the operand of a call/cc reached through a variable is not evaluated; the test for a procedure is made on the expression itself, so every such call written in a program is an error."
  },
  {
   "property": "C195",
   "status": "proved",
   "theorems": [
    "c195_allowed",
    "c195_not_allowed"
   ],
   "note": "The standard's table is written down separately (RegSpec2.v); the registrations are those of the model's table of builtins."
  },
  {
   "property": "C196",
   "status": "partial",
   "theorems": [
    "c196_missing_refuted",
    "c196_eval_refuted"
   ],
   "note": "Refuted: 61 of the 200 procedures are missing, among them floor, round, exact->inexact, caar and string-copy; for-each, call-with-values and dynamic-wind are keywords without a value; eval takes no environment."
  },
  {
   "property": "C197",
   "status": "proved",
   "theorems": [
    "c197_default",
    "c197_installed"
   ],
   "note": "What %p writes and what an installed function writes are parameters."
  },
  {
   "property": "C198",
   "status": "proved",
   "theorems": [
    "c198_called",
    "c198_refused"
   ],
   "note": "Operand evaluation and the installed functions are parameters; an operand that changes the type's apply functions is not covered."
  },
  {
   "property": "C199",
   "status": "proved",
   "theorems": [
    "c199_literal",
    "c199_whole_text",
    "c199_below_one",
    "c199_integral"
   ],
   "note": "The IEEE operations are Coq's SpecFloat; the compiler is assumed not to contract the multiplication and addition into a fused one."
  },
  {
   "property": "C200",
   "status": "partial",
   "theorems": [
    "c200_double_rounding_refuted",
    "c200_big_exponent_refuted",
    "c200_small_exponent_refuted",
    "c200_long_fraction_refuted"
   ],
   "note": "Each counterexample class is a theorem."
  },
  {
   "property": "C201",
   "status": "proved",
   "theorems": [
    "c201_string",
    "c201_char",
    "c201_same",
    "c201_vector",
    "c201_list",
    "c201_dotted"
   ],
   "note": "How printf renders a double is a parameter."
  },
  {
   "property": "C202",
   "status": "partial",
   "theorems": [
    "c202_list_refuted",
    "c202_string_in_list_refuted",
    "c202_nul_refuted"
   ],
   "note": "Each counterexample class is a theorem."
  },
  {
   "property": "C203",
   "status": "proved",
   "theorems": [
    "c203_unexpected",
    "c203_no_datum"
   ],
   "note": "The fixed part of the message; the frames of open constructs are C132."
  },
  {
   "property": "C204",
   "status": "proved",
   "theorems": [
    "c204_statics_survive"
   ],
   "note": "Option values are the exception, see c101_option_value_refuted."
  },
  {
   "property": "C205",
   "status": "proved",
   "theorems": [
    "c205_bool",
    "c205_int",
    "c205_char",
    "c205_double",
    "c205_from_bytes",
    "c205_from_c_string",
    "c205_to_bytes",
    "c205_round_trip",
    "c205_other_kinds",
    "c205_errors"
   ],
   "note": "assert is taken to be compiled in; allocation succeeds."
  },
  {
   "property": "C206",
   "status": "partial",
   "theorems": [
    "c206_int_refuted",
    "c206_not_a_number_refuted",
    "c206_not_a_char_refuted",
    "c206_length_refuted"
   ],
   "note": "Each counterexample class is a theorem."
  },
  {
   "property": "C207",
   "status": "proved",
   "theorems": [
    "c207_set_binder",
    "c207_bound_first",
    "c207_answer",
    "c207_defined_once",
    "c207_calls",
    "c207_ready_again",
    "c207_ends",
    "c207_always_consulted",
    "c207_use",
    "c207_map",
    "c207_map_module_only"
   ],
   "note": "Files evaluated by an autoload during a lookup do not consult binders in the model; the procedure given to module-map may allocate but not change the module."
  },
  {
   "property": "C208",
   "status": "partial",
   "theorems": [
    "c208_error_refuted",
    "c208_nested_refuted"
   ],
   "note": "The loss after an error is a theorem about every later history."
  },
  {
   "property": "C209",
   "status": "proved",
   "theorems": [
    "c209_value",
    "c209_throw",
    "c209_exit",
    "c209_converse",
    "c209_expression",
    "c209_expression_throw",
    "c209_expression_exit",
    "c209_one_outcome"
   ],
   "note": "MachNat.v is the semantics. Programs that call continuations, and throws that an outer catch takes but not the innermost one, have no rule in it (C46-C50 and the catch-stack claims are about those); c209_converse is about all the others that end."
  },
  {
   "property": "C210",
   "status": "proved",
   "theorems": [
    "c210_counters",
    "c210_counts_the_reachable",
    "c210_quiet",
    "c210_due",
    "c210_pace",
    "c210_not_put_off"
   ],
   "note": "GcPacingSpec.v has the footprint of a block and the runs with their counts. The size_t counters do not wrap in the model."
  },
  {
   "property": "C211",
   "status": "proved",
   "theorems": [
    "c211_heap_bounded",
    "c211_segments_suffice",
    "c211_one_mebibyte",
    "c211_never_out_of_segments"
   ],
   "note": "frugal (GcPacingSpec.v) is the history of GcSpec.v with the sizes of the structs the program allocates and the limit on live_bytes, which c210_counters identifies with the bytes of the surviving blocks. Memory a struct owns outside the collected heap (vector elements, string bytes, hash buckets) is malloced and not counted by gc.cc either."
  },
  {
   "property": "C212",
   "status": "proved",
   "theorems": [
    "c212_session",
    "c212_file",
    "c212_one_answer"
   ],
   "note": "LangSpec.v: the language, its text, and its big-step rules on mathematical integers. The theorem goes through the reader (ParseModel), the embedding interface (ApiModel), the evaluator (EvalModel) and number.cc (NumModel: the premise numeric). It holds from some depth of the C stack on, and says nothing about expressions without a finite derivation or with overflow."
  },
  {
   "property": "C213",
   "status": "proved",
   "theorems": [
    "c213_sqrt_nearest",
    "c213_sqrt_rejects",
    "c213_sqrt_square"
   ],
   "note": "SqrtSpec.v nearest_root: the root is on r's side of the midpoint with every other double, in rationals. std::sqrt is the IEEE-754 square root (SFsqrt); that it and the int64-to-double conversion and division round to nearest is proved on integers, without real numbers or their axioms."
  },
  {
   "property": "C214",
   "status": "proved",
   "theorems": [
    "c214_answers",
    "c214_never",
    "c214_exclusive"
   ],
   "note": "DivSpec.v: scoped says which names may occur, over that evaluation comes to a result that is not small; both on the rules of C212. Not returning is AFuel at every depth: on the machine the C stack overflows."
  },
  {
   "property": "C215",
   "status": "proved",
   "theorems": [
    "c215_session",
    "c215_one_value"
   ],
   "note": "HoSpec.v: the rules, hev, with procedures as parameters, body and visible variables; hshow the texts; shown relates a value to the answer (the integer, or a procedure). Bound names are identifiers that are no keyword, no operator and no macro of the interpreter. Expressions that stop in an error have no value in hev and are outside; C212 has them for first-order programs."
  },
  {
   "property": "C216",
   "status": "proved",
   "theorems": [
    "c216_session",
    "c216_exclusive"
   ],
   "note": "HerSpec.v: her, the rules for errors beside hev; result, told. Arithmetic on a procedure has neither a value nor an error: next to an integer it ends the process (C189). An integer called on no operands answers itself in the code and is outside the rules."
  },
  {
   "property": "C217",
   "status": "proved",
   "theorems": [
    "c217_answers",
    "c217_never",
    "c217_exclusive"
   ],
   "note": "HdvSpec.v: stray, the steps that leave the rules, and hscoped, which names may stand where. The theorems are about every answered run, not only about a sufficiently deep stack; c217_never about every depth beyond that needed for what comes before. c217_omega is the self-application."
  },
  {
   "property": "C218",
   "status": "proved",
   "theorems": [
    "c218_file",
    "c218_answers",
    "c218_never"
   ],
   "note": "HofProperties.v: the file is read as its data (C32) and evaluated one after the other; c218_omega is a file with the self-application in the middle."
  },
  {
   "property": "C219",
   "status": "partial",
   "theorems": [
    "c219_same_outcomes",
    "c219_tail_loop_refuted",
    "c219_no_depth_refuted",
    "c219_branches_partial"
   ],
   "note": "TailModel.v: deep counts nested calls of eval_with_env apart from the jumps to entry within one; c219_same_outcomes relates it to EvalModel.eval both ways. In forms other than if, jumps count as calls. Refuted by c219_tail_loop_refuted; C compilers cannot turn these calls into jumps, because eval_with_env restores the error context after each."
  }
 ]
}