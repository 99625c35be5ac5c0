{
 "claims": [
  {
   "property": "C01",
   "status": "proved",
   "theorems": [
    "C01_sum",
    "C01_product",
    "C01_square",
    "C01_neg",
    "C01_multiple",
    "C01_constructors"
   ],
   "note": ""
  },
  {
   "property": "C02",
   "status": "proved",
   "theorems": [
    "C02_conjunction",
    "C02_disjunction",
    "C02_disjoint",
    "C02_single",
    "C02_unconstrained"
   ],
   "note": ""
  },
  {
   "property": "C03",
   "status": "proved",
   "theorems": [
    "C03_allowed_values",
    "C03_allowed_values_total",
    "C03_width",
    "C03_width_bound"
   ],
   "note": ""
  },
  {
   "property": "C04",
   "status": "proved",
   "theorems": [
    "C04_eval",
    "C04_wf"
   ],
   "note": ""
  },
  {
   "property": "C05",
   "status": "proved",
   "theorems": [
    "C05_subst_known",
    "C05_subst_simple",
    "C05_subst_unknown",
    "C05_wf"
   ],
   "note": ""
  },
  {
   "property": "C06",
   "status": "proved",
   "theorems": [
    "C06_range_constraint"
   ],
   "note": ""
  },
  {
   "property": "C07",
   "status": "proved",
   "theorems": [
    "C07_degree",
    "C07_prediction",
    "C07_prediction_exact"
   ],
   "note": ""
  },
  {
   "property": "C08",
   "status": "proved",
   "theorems": [
    "C08_solve"
   ],
   "note": ""
  },
  {
   "property": "C09",
   "status": "proved",
   "theorems": [
    "C09_solve_for",
    "C09_solve_for_expr",
    "C09_solve_for_complete",
    "C09_solve_for_expr_complete",
    "C09_no_panic"
   ],
   "note": ""
  },
  {
   "property": "C10",
   "status": "proved",
   "theorems": [
    "C10_inline",
    "C10_degree"
   ],
   "note": ""
  },
  {
   "property": "C11",
   "status": "proved",
   "theorems": [
    "C11_split"
   ],
   "note": ""
  },
  {
   "property": "C12",
   "status": "proved",
   "theorems": [
    "C12_extract",
    "C12_affine",
    "C12_history"
   ],
   "note": ""
  },
  {
   "property": "C13",
   "status": "proved",
   "theorems": [
    "C13_linearize",
    "C13_with_assignments"
   ],
   "note": ""
  },
  {
   "property": "C14",
   "status": "proved",
   "theorems": [
    "C14_search",
    "C14_candidates",
    "C14_values"
   ],
   "note": ""
  },
  {
   "property": "C15",
   "status": "proved",
   "theorems": [
    "C15_answers_hold",
    "C15_contradiction",
    "C15_no_panic",
    "C15_solve_system",
    "C15_retain_refuted"
   ],
   "note": ""
  },
  {
   "property": "C16",
   "status": "proved",
   "theorems": [
    "C16_facts"
   ],
   "note": ""
  },
  {
   "property": "C17",
   "status": "proved",
   "theorems": [
    "C17_bus_solve",
    "C17_default_handler"
   ],
   "note": ""
  },
  {
   "property": "C18",
   "status": "proved",
   "theorems": [
    "C18_lookup",
    "C18_refinement",
    "C18_no_panic",
    "C18_queue",
    "C18_lookup_positions",
    "C18_lookup_fresh"
   ],
   "note": ""
  },
  {
   "property": "C19",
   "status": "proved",
   "theorems": [
    "C19_sound",
    "C19_for_solver",
    "C19_solve",
    "C19_exact"
   ],
   "note": ""
  },
  {
   "property": "C20",
   "status": "proved",
   "theorems": [
    "C20_exact",
    "C20_stateless",
    "C20_wide_refuted"
   ],
   "note": "Needs constant widths of at most 25 bits; refuted otherwise (C20_wide_refuted)."
  },
  {
   "property": "C21",
   "status": "proved",
   "theorems": [
    "C21_enforced",
    "C21_exact",
    "C21_shape",
    "C21_error",
    "C21_no_panic",
    "C21_wide_refuted"
   ],
   "note": "Exact for ranges ending below 2^25; for 26 to 29 bits the created check is unsatisfiable (C21_wide_refuted)."
  },
  {
   "property": "C22",
   "status": "proved",
   "theorems": [
    "C22_equivalent",
    "C22_wide_refuted"
   ],
   "note": "Needs constant widths of at most 25 bits; refuted otherwise (C22_wide_refuted)."
  },
  {
   "property": "C23",
   "status": "proved",
   "theorems": [
    "C23_equations",
    "C23_chronological",
    "C23_net",
    "C23_structure",
    "C23_succeeds",
    "C23_with_solver"
   ],
   "note": ""
  },
  {
   "property": "C24",
   "status": "proved",
   "theorems": [
    "C24_structure",
    "C24_net",
    "C24_succeeds"
   ],
   "note": ""
  },
  {
   "property": "C25",
   "status": "proved",
   "theorems": [
    "C25_carries_over",
    "C25_back",
    "C25_degree",
    "C25_no_panic",
    "C25_openvm",
    "C25_single_input_refuted",
    "C25_unknown_table_refuted",
    "C25_wide_constant_refuted"
   ],
   "note": "Needs: constants of lookups are in the domain of the table, and no other field has a single derived value; refuted otherwise (C25_*_refuted)."
  },
  {
   "property": "C26",
   "status": "proved",
   "theorems": [
    "C26_trivial_simplifications",
    "C26_panics",
    "C26_steps",
    "C26_fields",
    "C26_solver_based",
    "C26_with_solver"
   ],
   "note": ""
  },
  {
   "property": "C27",
   "status": "partial",
   "theorems": [
    "C27_carries_over",
    "C27_removed",
    "C27_extends_partial",
    "C27_extends_algebraic",
    "C27_extends_affine",
    "C27_lookup_refuted"
   ],
   "note": "Every accepted assignment carries over; the converse is proved for removed algebraic constraints, and for removed lookups that can be answered (all lookups with affine fields and constant multiplicity). Without that hypothesis it is refuted (C27_lookup_refuted)."
  },
  {
   "property": "C28",
   "status": "proved",
   "theorems": [
    "C28_reachable",
    "C28_kept",
    "C28_carries_over",
    "C28_extends",
    "C28_unsatisfiable_refuted"
   ],
   "note": "For satisfiable systems, as stated; refuted for unsatisfiable ones (C28_unsatisfiable_refuted)."
  },
  {
   "property": "C29",
   "status": "proved",
   "theorems": [
    "C29_same",
    "C29_total",
    "C29_found",
    "C29_with_solver"
   ],
   "note": ""
  },
  {
   "property": "C30",
   "status": "proved",
   "theorems": [
    "C30_expression",
    "C30_shape",
    "C30_constraint",
    "C30_to_system",
    "C30_from_system",
    "C30_machine_roundtrip",
    "C30_field_conversion"
   ],
   "note": ""
  },
  {
   "property": "C31",
   "status": "proved",
   "theorems": [
    "C31_flag_one",
    "C31_flag_zero",
    "C31_zero_row",
    "C31_flag_boolean",
    "C31_complete",
    "C31_degree",
    "C31_degree_refuted"
   ],
   "note": ""
  },
  {
   "property": "C32",
   "status": "proved",
   "theorems": [
    "C32_block",
    "C32_disjoint",
    "C32_concatenated",
    "C32_succeeds",
    "C32_kept_columns",
    "C32_issue"
   ],
   "note": ""
  },
  {
   "property": "C33",
   "status": "proved",
   "theorems": [
    "C33_partition",
    "C33_maximal"
   ],
   "note": ""
  },
  {
   "property": "C34",
   "status": "proved",
   "theorems": [
    "C34_find",
    "C34_empty_pattern",
    "C34_detect"
   ],
   "note": ""
  },
  {
   "property": "C35",
   "status": "proved",
   "theorems": [
    "C35_history",
    "C35_complete",
    "C35_extract",
    "C35_extract_waits",
    "C35_maximal_refuted"
   ],
   "note": ""
  },
  {
   "property": "C36",
   "status": "proved",
   "theorems": [
    "C36_run",
    "C36_memory"
   ],
   "note": ""
  },
  {
   "property": "C37",
   "status": "proved",
   "theorems": [
    "C37_from_iter",
    "C37_to_classes",
    "C37_roundtrip",
    "C37_intersect",
    "C37_intersect_many",
    "C37_parallel",
    "C37_chunk_size",
    "C37_combine",
    "C37_map"
   ],
   "note": ""
  },
  {
   "property": "C38",
   "status": "proved",
   "theorems": [
    "C38_combine_weakens",
    "C38_combine_exact",
    "C38_widths_refuted",
    "C38_threshold",
    "C38_for_block",
    "C38_filtered",
    "C38_filtered_twice_refuted",
    "C38_generate",
    "C38_detect_classes",
    "C38_detect_ranges"
   ],
   "note": ""
  },
  {
   "property": "C39",
   "status": "proved",
   "theorems": [
    "C39_sources",
    "C39_rows",
    "C39_no_panic",
    "C39_history",
    "C39_block",
    "C39_circular_refuted",
    "C39_missing_refuted"
   ],
   "note": ""
  },
  {
   "property": "C40",
   "status": "proved",
   "theorems": [
    "C40_order",
    "C40_reduce",
    "C40_mul",
    "C40_add",
    "C40_sub",
    "C40_neg",
    "C40_add_words",
    "C40_sub_words",
    "C40_wrap",
    "C40_inverse",
    "C40_div",
    "C40_pow",
    "C40_field",
    "C40_deserialize_refuted"
   ],
   "note": ""
  },
  {
   "property": "C41",
   "status": "proved",
   "theorems": [
    "C41_round_trip_goldilocks",
    "C41_round_trip_small",
    "C41_signed_goldilocks",
    "C41_signed_small",
    "C41_from_goldilocks",
    "C41_checked_goldilocks",
    "C41_from_small",
    "C41_checked_small",
    "C41_log2_exact",
    "C41_small_signed_refuted",
    "C41_small_numeral_refuted",
    "C41_large_int_refuted"
   ],
   "note": ""
  },
  {
   "property": "C42",
   "status": "partial",
   "theorems": [
    "C42_actions",
    "C42_replacements",
    "C42_free_back",
    "C42_combine_back",
    "C42_zero_partial",
    "C42_zero_back_partial",
    "C42_run",
    "C42_run_quadratic",
    "C42_degree",
    "C42_round_back_partial",
    "C42_circular_refuted",
    "C42_wrap_refuted",
    "C42_zero_unchecked_refuted",
    "C42_unused_refuted"
   ],
   "note": "Forward direction proved for whole runs (zero tests need the unchecked facts about markers; refuted otherwise). Backward direction proved per rule and per round without zero tests, given that the range constraints hold; refuted without that (C42_circular_refuted)."
  },
  {
   "property": "C43",
   "status": "partial",
   "theorems": [
    "C43_forward",
    "C43_back_partial",
    "C43_machine_forward",
    "C43_machine_back_partial",
    "C43_result"
   ],
   "note": "Executions carry over to the result for every sequence of passes (zero tests of rule passes must be right, see C42), and for the optimizer as a whole. The other direction is proved for the order of the optimizer, for runs whose steps that remove free variables, replace lookups or work by rules are reversible (false otherwise, see C27, C25 and C42), and for inputs with an execution (see C28)."
  },
  {
   "property": "C44",
   "status": "proved",
   "theorems": [
    "C44_split",
    "C44_meaning",
    "C44_constant_refuted"
   ],
   "note": "Constraints without variables are in no part (C44_constant_refuted)."
  },
  {
   "property": "C45",
   "status": "proved",
   "theorems": [
    "C45_attribution",
    "C45_complete",
    "C45_mapper",
    "C45_conditions",
    "C45_collision_refuted",
    "C45_unsettled_refuted"
   ],
   "note": "Proved for optimizers that introduce no new columns as memory limbs (except in the last instruction) and instructions that access an address once; refuted without these hypotheses (C45_collision_refuted, C45_unsettled_refuted)."
  },
  {
   "property": "C46",
   "status": "proved",
   "theorems": [
    "C46_csv_goldilocks",
    "C46_csv_small",
    "C46_render_injective",
    "C46_signed_mode_refuted"
   ],
   "note": ""
  },
  {
   "property": "C47",
   "status": "partial",
   "theorems": [
    "C47_complete",
    "C47_sound_partial",
    "C47_padding",
    "C47_circuits",
    "C47_checks",
    "C47_empirical_refuted"
   ],
   "note": "Every execution of the block that meets the empirical constraints gives a real row with the same effect; padding rows and the conditions are fully characterised. The direction from real rows to executions has the conditions of C43. The conditions do not include the empirical constraints: C47_empirical_refuted."
  },
  {
   "property": "C48",
   "status": "proved",
   "theorems": [
    "C48_mul",
    "C48_square",
    "C48_normalize",
    "C48_canonical_unique",
    "C48_normalize_weak",
    "C48_zero",
    "C48_is_zero",
    "C48_is_odd",
    "C48_negate",
    "C48_add",
    "C48_mul_single",
    "C48_invert",
    "C48_sqrt",
    "C48_from_bytes",
    "C48_to_bytes",
    "C48_bytes_round_trip",
    "C48_bytes_round_trip_back",
    "C48_from_u64"
   ],
   "note": ""
  },
  {
   "property": "C49",
   "status": "partial",
   "theorems": [
    "C49_masked",
    "C49_inverse_hint",
    "C49_sqrt_hint",
    "C49_sqrt_guest_partial",
    "C49_sqrt_mask_refuted",
    "C49_reverse_bytes"
   ],
   "note": "the inverse hint, the flag and the stream of the square root hint and the byte reversal are proved in full; the root that the guest returns is proved right if the limbs in the stream have 26 and 22 bits (C49_sqrt_guest_partial), and C49_sqrt_mask_refuted gives an input where they have not and the guest's answer is wrong"
  },
  {
   "property": "C50",
   "status": "proved",
   "theorems": [
    "C50_same",
    "C50_stack_refuted",
    "C50_wide_refuted",
    "C50_chips_refuted",
    "C50_numerator_refuted",
    "C50_unknown_bus_refuted"
   ],
   "note": ""
  },
  {
   "property": "C51",
   "status": "proved",
   "theorems": [
    "C51_counts",
    "C51_xor_checked"
   ],
   "note": ""
  },
  {
   "property": "C52",
   "status": "proved",
   "theorems": [
    "C52_greedy",
    "C52_count",
    "C52_monotone",
    "C52_cell",
    "C52_budget_refuted",
    "C52_wider_refuted",
    "C52_wrap_refuted",
    "C52_zero_cost_refuted",
    "C52_instruction",
    "C52_none",
    "C52_instruction_refuted"
   ],
   "note": ""
  },
  {
   "property": "C53",
   "status": "proved",
   "theorems": [
    "C53_setup",
    "C53_cell",
    "C53_gap_refuted"
   ],
   "note": ""
  },
  {
   "property": "C54",
   "status": "proved",
   "theorems": [
    "C54_labels",
    "C54_flow",
    "C54_indirect",
    "C54_call",
    "C54_compressed",
    "C54_destination_refuted",
    "C54_entered_refuted",
    "C54_end_refuted",
    "C54_apart_refuted",
    "C54_wide",
    "C54_wide_refuted"
   ],
   "note": "for ELF files whose sections start at different addresses and whose data words do not overlap; the decoder is arbitrary; the 64-bit scan is characterized and refuted; C54_compressed compares the 16-bit instructions and their 32-bit equivalents by what they do"
  },
  {
   "property": "C55",
   "status": "proved",
   "theorems": [
    "C55_blocks",
    "C55_complete",
    "C55_backward_refuted",
    "C55_gap_refuted"
   ],
   "note": "assumes forward bigint branches (refuted otherwise), and indirect jumps to labels or return addresses"
  },
  {
   "property": "C56",
   "status": "proved",
   "theorems": [
    "C56_arithmetic",
    "C56_division",
    "C56_known",
    "C56_symbol",
    "C56_substitute",
    "C56_transform",
    "C56_convert",
    "C56_zero_divisor"
   ],
   "note": "for operands whose divisors are not zero (C56_zero_divisor says what happens otherwise)"
  },
  {
   "property": "C57",
   "status": "proved",
   "theorems": [
    "C57_extract",
    "C57_opcodes",
    "C57_installed",
    "C57_roundtrip",
    "C57_arenas",
    "C57_same_name_refuted"
   ],
   "note": "the machine of an opcode is that of its AIR if AIRs have distinct names (refuted otherwise); installed messages are the same for bus ids below 2^16"
  },
  {
   "property": "C58",
   "status": "proved",
   "theorems": [
    "C58_roundtrip",
    "C58_export",
    "C58_depth",
    "C58_depth_refuted",
    "C58_display",
    "C58_display_injective",
    "C58_display_ids_refuted",
    "C58_display_grouped"
   ],
   "note": "loading needs a reader without nesting limit or with a limit of at least the nesting (refuted otherwise); printing is unique up to ids, which are not printed; the text layer of JSON/CBOR is not modelled"
  },
  {
   "property": "C59",
   "status": "proved",
   "theorems": [
    "C59_words",
    "C59_limbs",
    "C59_fields",
    "C59_ranges",
    "C59_built",
    "C59_max_bit_panics",
    "C59_mask_u64",
    "C59_not_reduced",
    "C59_bytes"
   ],
   "note": "for every modulus and integer type that calculates like numbers; instances for all fields of the number crate; the limb arithmetic of ark_ff is an assumption about that library, whose source was not available"
  },
  {
   "property": "C60",
   "status": "proved",
   "theorems": [
    "C60_names",
    "C60_lookup",
    "C60_preceding",
    "C60_labels",
    "C60_labels_refuted",
    "C60_locations",
    "C60_locations_panics",
    "C60_text_refuted",
    "C60_statements",
    "C60_statements_panics",
    "C60_data_location_panics",
    "C60_notes",
    "C60_nameless_refuted"
   ],
   "note": "for the input that gimli and goblin return; three intended statements are refuted (locations outside of text stay, nameless variables get notes, made up labels can be taken) and recorded in DESIGN.md"
  },
  {
   "property": "C61",
   "status": "proved",
   "theorems": [
    "C61_order",
    "C61_all_children",
    "C61_unchanged",
    "C61_leaves",
    "C61_post",
    "C61_pre",
    "C61_zero",
    "C61_substitute",
    "C61_substitute_value",
    "C61_substitute_refuted",
    "C61_references",
    "C61_globalize",
    "C61_globalize_refines",
    "C61_names",
    "C61_derived_refuted"
   ],
   "note": "two intended statements (substitution with values that contain keys, derived columns) are refuted and recorded in DESIGN.md"
  },
  {
   "property": "C62",
   "status": "proved",
   "theorems": [
    "C62_files",
    "C62_no_overwriting",
    "C62_apart",
    "C62_infos_refuted",
    "C62_no_path",
    "C62_no_path_refuted",
    "C62_build",
    "C62_states",
    "C62_levels",
    "C62_substitutions",
    "C62_build_substitutions",
    "C62_substitutions_refuted"
   ],
   "note": "two documented intentions (no export without a path at any level, all substituted variables in the file) are refuted and recorded in DESIGN.md"
  },
  {
   "property": "C63",
   "status": "proved",
   "theorems": [
    "C63_profile",
    "C63_profile_exists",
    "C63_blocks",
    "C63_evaluation",
    "C63_before",
    "C63_air_metrics",
    "C63_names_refuted",
    "C63_saved"
   ],
   "note": "finding precompiles by the prefix of a type name is refuted for other AIRs of that name and recorded in DESIGN.md"
  },
  {
   "property": "C64",
   "status": "proved",
   "theorems": [
    "C64_answers",
    "C64_recovers",
    "C64_reused",
    "C64_no_directory",
    "C64_arguments",
    "C64_escape",
    "C64_accepted",
    "C64_answers_refuted"
   ],
   "note": "assumes that results depend on the arguments and the executable only; without this the claim is refuted and recorded in DESIGN.md"
  },
  {
   "property": "C65",
   "status": "proved",
   "theorems": [
    "C65_total",
    "C65_names",
    "C65_line",
    "C65_line_refuted",
    "C65_alu",
    "C65_load_store",
    "C65_others",
    "C65_branch",
    "C65_branch_refuted"
   ],
   "note": "lines of instructions whose last two operands are not printed are refuted to be unique; recorded in DESIGN.md"
  },
  {
   "property": "C66",
   "status": "proved",
   "theorems": [
    "C66_created",
    "C66_traces",
    "C66_counts",
    "C66_total",
    "C66_footprint",
    "C66_range_checker_refuted"
   ],
   "note": "inventories and chips of OpenVM are modelled by their contract; the refuted theorem is about a comment in the code"
  },
  {
   "property": "C67",
   "status": "proved",
   "theorems": [
    "C67_success",
    "C67_failure",
    "C67_metered",
    "C67_no_panic",
    "C67_prove",
    "C67_mock",
    "C67_mock_release_refuted",
    "C67_limits_refuted"
   ],
   "note": "executors, provers and verifiers of OpenVM are parameters; the refuted theorems are about mock proofs in release builds and about the limits of segments"
  },
  {
   "property": "C68",
   "status": "proved",
   "theorems": [
    "C68_items",
    "C68_order",
    "C68_round_trip",
    "C68_expressions",
    "C68_new_variables",
    "C68_method_refuted",
    "C68_deterministic_refuted"
   ],
   "note": "the callback for new variables is assumed to return new ones, as its documentation says; the refuted theorems are about methods with requested variables and about two requested variables in an expression"
  },
  {
   "property": "C69",
   "status": "proved",
   "theorems": [
    "C69_detect",
    "C69_independent",
    "C69_zero_panics",
    "C69_ranges_refuted",
    "C69_start_refuted",
    "C69_program"
   ],
   "note": "for executions whose first segment records an instruction (C69_program: it then begins with a block), or traces that are processed at the end; C69_start_refuted shows the panic otherwise"
  },
  {
   "property": "C70",
   "status": "proved",
   "theorems": [
    "C70_prepare",
    "C70_call",
    "C70_program",
    "C70_progress",
    "C70_compiled",
    "C70_trap_refuted",
    "C70_superblock"
   ],
   "note": ""
  },
  {
   "property": "C71",
   "status": "proved",
   "theorems": [
    "C71_labels",
    "C71_debug",
    "C71_explained",
    "C71_symbols",
    "C71_base",
    "C71_panics",
    "C71_pairs"
   ],
   "note": ""
  },
  {
   "property": "C72",
   "status": "proved",
   "theorems": [
    "C72_transpile",
    "C72_install",
    "C72_call",
    "C72_reverse",
    "C72_inverse_sec1",
    "C72_inverse",
    "C72_sqrt",
    "C72_agree"
   ],
   "note": ""
  },
  {
   "property": "C73",
   "status": "proved",
   "theorems": [
    "C73_value",
    "C73_satisfies",
    "C73_sends",
    "C73_derives",
    "C73_rows",
    "C73_back"
   ],
   "note": ""
  },
  {
   "property": "C74",
   "status": "proved",
   "theorems": [
    "C74_made",
    "C74_panics",
    "C74_lookup",
    "C74_openvm",
    "C74_message_refuted"
   ],
   "note": ""
  },
  {
   "property": "C75",
   "status": "proved",
   "theorems": [
    "C75_files",
    "C75_directory",
    "C75_locations",
    "C75_resolved",
    "C75_shifted",
    "C75_version_refuted",
    "C75_prologue_refuted"
   ],
   "note": ""
  },
  {
   "property": "C76",
   "status": "proved",
   "theorems": [
    "C76_symbols",
    "C76_notes",
    "C76_fails",
    "C76_sections",
    "C76_missing",
    "C76_missing_refuted"
   ],
   "note": ""
  },
  {
   "property": "C77",
   "status": "proved",
   "theorems": [
    "C77_requests",
    "C77_exclusive",
    "C77_refused",
    "C77_told_apart_refuted"
   ],
   "note": ""
  },
  {
   "property": "C78",
   "status": "proved",
   "theorems": [
    "C78_memory",
    "C78_aligned",
    "C78_bytes",
    "C78_references",
    "C78_start",
    "C78_overlap_refuted"
   ],
   "note": ""
  },
  {
   "property": "C79",
   "status": "proved",
   "theorems": [
    "C79_rows",
    "C79_jumps",
    "C79_map",
    "C79_without",
    "C79_without_refuted",
    "C79_functions"
   ],
   "note": ""
  }
 ]
}