{
 "claims": [
  {
   "property": "C01",
   "status": "proved",
   "theorems": [
    "C01_constructor"
   ],
   "note": ""
  },
  {
   "property": "C02",
   "status": "proved",
   "theorems": [
    "C02_unique_names",
    "C02_unique_names_refuted"
   ],
   "note": ""
  },
  {
   "property": "C03",
   "status": "proved",
   "theorems": [
    "C03_history",
    "C03_delete_attributes_repeated_refuted"
   ],
   "note": ""
  },
  {
   "property": "C04",
   "status": "proved",
   "theorems": [
    "C04_add_object",
    "C04_add_object_with_intent",
    "C04_add_attribute",
    "C04_add_attribute_with_extent",
    "C04_set_object_intent",
    "C04_set_attribute_extent",
    "C04_delete_object",
    "C04_delete_attribute",
    "C04_delete_attributes",
    "C04_rename_object",
    "C04_rename_attribute",
    "C04_rename_to_existing_refuted"
   ],
   "note": ""
  },
  {
   "property": "C05",
   "status": "proved",
   "theorems": [
    "C05_atomic",
    "C05_delete_attributes_repeated_refuted"
   ],
   "note": ""
  },
  {
   "property": "C06",
   "status": "proved",
   "theorems": [
    "C06_module_functions",
    "C06_module_no_objects_refuted",
    "C06_oprime",
    "C06_aprime"
   ],
   "note": ""
  },
  {
   "property": "C07",
   "status": "proved",
   "theorems": [
    "C07_module_functions",
    "C07_galois",
    "C07_aclosure",
    "C07_oclosure"
   ],
   "note": ""
  },
  {
   "property": "C08",
   "status": "proved",
   "theorems": [
    "C08_associative_aclosure"
   ],
   "note": ""
  },
  {
   "property": "C09",
   "status": "proved",
   "theorems": [
    "C09_transpose",
    "C09_transpose_twice"
   ],
   "note": ""
  },
  {
   "property": "C10",
   "status": "proved",
   "theorems": [
    "C10_extract_subcontext",
    "C10_extract_subcontext_err",
    "C10_extract_filtered",
    "C10_extract_filtered_err",
    "C10_extract_filtered_mode"
   ],
   "note": ""
  },
  {
   "property": "C11",
   "status": "proved",
   "theorems": [
    "C11_eq_complete",
    "C11_eq_sound",
    "C11_eq_total",
    "C11_eq_sound_refuted"
   ],
   "note": ""
  },
  {
   "property": "C12",
   "status": "proved",
   "theorems": [
    "C12_product",
    "C12_product_mismatch"
   ],
   "note": ""
  },
  {
   "property": "C13",
   "status": "proved",
   "theorems": [
    "C13_clarify"
   ],
   "note": ""
  },
  {
   "property": "C14",
   "status": "proved",
   "theorems": [
    "C14_reduce_objects"
   ],
   "note": ""
  },
  {
   "property": "C15",
   "status": "proved",
   "theorems": [
    "C15_reduce_complete",
    "C15_irreducible_refuted",
    "C15_closures_beyond_64_refuted"
   ],
   "note": ""
  },
  {
   "property": "C16",
   "status": "proved",
   "theorems": [
    "C16_reduce_attributes"
   ],
   "note": ""
  },
  {
   "property": "C17",
   "status": "proved",
   "theorems": [
    "C17_complementary",
    "C17_compound_fails"
   ],
   "note": ""
  },
  {
   "property": "C18",
   "status": "proved",
   "theorems": [
    "C18_remove_empty_objects"
   ],
   "note": ""
  },
  {
   "property": "C19",
   "status": "proved",
   "theorems": [
    "C19_pairs",
    "C19_get_value",
    "C19_get_value_unknown"
   ],
   "note": ""
  },
  {
   "property": "C20",
   "status": "proved",
   "theorems": [
    "C20_simple_closure"
   ],
   "note": ""
  },
  {
   "property": "C21",
   "status": "proved",
   "theorems": [
    "C21_lin_closure",
    "C21_terminates",
    "C21_repeated_refuted"
   ],
   "note": ""
  },
  {
   "property": "C22",
   "status": "proved",
   "theorems": [
    "C22_closure"
   ],
   "note": ""
  },
  {
   "property": "C23",
   "status": "proved",
   "theorems": [
    "C23_dg_basis",
    "C23_pseudo_intents_unique",
    "C23_lectic_strict"
   ],
   "note": ""
  },
  {
   "property": "C24",
   "status": "proved",
   "theorems": [
    "C24_sound_complete_irredundant",
    "C24_simple"
   ],
   "note": ""
  },
  {
   "property": "C25",
   "status": "proved",
   "theorems": [
    "C25_minimum"
   ],
   "note": ""
  },
  {
   "property": "C26",
   "status": "proved",
   "theorems": [
    "C26_relative_basis",
    "C26_minimum",
    "C26_no_objects_refuted"
   ],
   "note": ""
  },
  {
   "property": "C27",
   "status": "proved",
   "theorems": [
    "C27_iterator"
   ],
   "note": ""
  },
  {
   "property": "C28",
   "status": "proved",
   "theorems": [
    "C28_cond"
   ],
   "note": ""
  },
  {
   "property": "C29",
   "status": "proved",
   "theorems": [
    "C29_object_implications_fail",
    "C29_no_objects"
   ],
   "note": ""
  },
  {
   "property": "C30",
   "status": "proved",
   "theorems": [
    "C30_current_values",
    "C30_stale_for_ever",
    "C30_stale_for_ever_extent",
    "C30_values_from_the_past",
    "C30_current_value_refuted"
   ],
   "note": ""
  },
  {
   "property": "C31",
   "status": "proved",
   "theorems": [
    "C31_norris"
   ],
   "note": ""
  },
  {
   "property": "C32",
   "status": "proved",
   "theorems": [
    "C32_covering_relation"
   ],
   "note": ""
  },
  {
   "property": "C33",
   "status": "proved",
   "theorems": [
    "C33_lattice",
    "C33_mixed_names_refuted"
   ],
   "note": ""
  },
  {
   "property": "C34",
   "status": "proved",
   "theorems": [
    "C34_cache_never_stale",
    "C34_parents_children",
    "C34_remove"
   ],
   "note": ""
  },
  {
   "property": "C35",
   "status": "proved",
   "theorems": [
    "C35_provisional_extents",
    "C35_yields_concepts_refuted"
   ],
   "note": ""
  },
  {
   "property": "C36",
   "status": "proved",
   "theorems": [
    "C36_istability"
   ],
   "note": ""
  },
  {
   "property": "C37",
   "status": "proved",
   "theorems": [
    "C37_estability"
   ],
   "note": ""
  },
  {
   "property": "C38",
   "status": "proved",
   "theorems": [
    "C38_separation",
    "C38_no_objects_refuted"
   ],
   "note": ""
  },
  {
   "property": "C39",
   "status": "proved",
   "theorems": [
    "C39_sizes"
   ],
   "note": ""
  },
  {
   "property": "C40",
   "status": "proved",
   "theorems": [
    "C40_probability",
    "C40_no_objects"
   ],
   "note": ""
  },
  {
   "property": "C41",
   "status": "proved",
   "theorems": [
    "C41_filter_concepts",
    "C41_empty_index"
   ],
   "note": ""
  },
  {
   "property": "C42",
   "status": "proved",
   "theorems": [
    "C42_algorithm2"
   ],
   "note": ""
  },
  {
   "property": "C43",
   "status": "proved",
   "theorems": [
    "C43_fidelity"
   ],
   "note": ""
  },
  {
   "property": "C44",
   "status": "proved",
   "theorems": [
    "C44_factor_contexts",
    "C44_recomposition"
   ],
   "note": ""
  },
  {
   "property": "C45",
   "status": "proved",
   "theorems": [
    "C45_weighted_fails"
   ],
   "note": ""
  },
  {
   "property": "C46",
   "status": "proved",
   "theorems": [
    "C46_w_condition",
    "C46_no_failure_refuted",
    "C46_order_independent_refuted",
    "C46_reported_coverage_refuted"
   ],
   "note": ""
  },
  {
   "property": "C47",
   "status": "proved",
   "theorems": [
    "C47_implication",
    "C47_hash"
   ],
   "note": ""
  },
  {
   "property": "C48",
   "status": "proved",
   "theorems": [
    "C48_round_trip",
    "C48_parse",
    "C48_fails",
    "C48_empty_side_refuted",
    "C48_numbers_refuted"
   ],
   "note": ""
  },
  {
   "property": "C49",
   "status": "proved",
   "theorems": [
    "C49_cover",
    "C49_irredundant_refuted"
   ],
   "note": ""
  },
  {
   "property": "C50",
   "status": "proved",
   "theorems": [
    "C50_minimize",
    "C50_shared_refuted",
    "C50_minimum_refuted"
   ],
   "note": ""
  },
  {
   "property": "C51",
   "status": "proved",
   "theorems": [
    "C51_sound_complete",
    "C51_canonical",
    "C51_canonical_refuted",
    "C51_no_objects",
    "C51_no_attributes"
   ],
   "note": ""
  },
  {
   "property": "C52",
   "status": "proved",
   "theorems": [
    "C52_round_trip",
    "C52_digits_refuted",
    "C52_line_break_refuted",
    "C52_line_ends",
    "C52_counts"
   ],
   "note": ""
  },
  {
   "property": "C53",
   "status": "proved",
   "theorems": [
    "C53_uwrite",
    "C53_uread",
    "C53_uread_empty"
   ],
   "note": ""
  },
  {
   "property": "C54",
   "status": "proved",
   "theorems": [
    "C54_reads",
    "C54_final_tab",
    "C54_line_ends",
    "C54_zero_one",
    "C54_short"
   ],
   "note": ""
  },
  {
   "property": "C55",
   "status": "proved",
   "theorems": [
    "C55_own_names",
    "C55_exactly_one"
   ],
   "note": ""
  },
  {
   "property": "C56",
   "status": "proved",
   "theorems": [
    "C56_confirmed_hold",
    "C56_open",
    "C56_confirmed_objects_hold",
    "C56_open_objects",
    "C56_edit_attribute_refuted",
    "C56_used_name_refuted"
   ],
   "note": ""
  },
  {
   "property": "C57",
   "status": "proved",
   "theorems": [
    "C57_basic_refutes",
    "C57_basic_refused",
    "C57_basic_accepted",
    "C57_basic_objects",
    "C57_basic_objects_refused",
    "C57_attribute_exploration",
    "C57_attribute_exploration_refused",
    "C57_session",
    "C57_session_refused"
   ],
   "note": ""
  },
  {
   "property": "C58",
   "status": "proved",
   "theorems": [
    "C58_background",
    "C58_finished",
    "C58_question",
    "C58_confirm_all",
    "C58_session"
   ],
   "note": ""
  },
  {
   "property": "C59",
   "status": "proved",
   "theorems": [
    "C59_delete",
    "C59_edit_attribute",
    "C59_reachable"
   ],
   "note": ""
  },
  {
   "property": "C60",
   "status": "proved",
   "theorems": [
    "C60_enforced",
    "C60_new_session",
    "C60_first_session_refuted",
    "C60_no_session"
   ],
   "note": ""
  },
  {
   "property": "C61",
   "status": "proved",
   "theorems": [
    "C61_start",
    "C61_confirm",
    "C61_occurs",
    "C61_negative",
    "C61_positive",
    "C61_refuted_pattern",
    "C61_examples",
    "C61_unexplained",
    "C61_protected_refuted",
    "C61_full_negative_refuted"
   ],
   "note": ""
  },
  {
   "property": "C62",
   "status": "proved",
   "theorems": [
    "C62_cells",
    "C62_built",
    "C62_truth_only",
    "C62_add_object",
    "C62_extract_columns",
    "C62_extract_rows",
    "C62_extract_values",
    "C62_value_refuted"
   ],
   "note": ""
  },
  {
   "property": "C63",
   "status": "proved",
   "theorems": [
    "C63_scaled",
    "C63_scaled_mv",
    "C63_names",
    "C63_too_few",
    "C63_clash_refuted"
   ],
   "note": ""
  },
  {
   "property": "C64",
   "status": "proved",
   "theorems": [
    "C64_leq",
    "C64_geq"
   ],
   "note": ""
  },
  {
   "property": "C65",
   "status": "proved",
   "theorems": [
    "C65_built",
    "C65_cells",
    "C65_no_rows",
    "C65_reachable"
   ],
   "note": ""
  },
  {
   "property": "C66",
   "status": "proved",
   "theorems": [
    "C66_object_implications",
    "C66_cached",
    "C66_stale_refuted"
   ],
   "note": ""
  },
  {
   "property": "C67",
   "status": "proved",
   "theorems": [
    "C67_compute_index_breaks_parents"
   ],
   "note": ""
  },
  {
   "property": "C68",
   "status": "proved",
   "theorems": [
    "C68_random_context"
   ],
   "note": ""
  },
  {
   "property": "C69",
   "status": "proved",
   "theorems": [
    "C69_is_redundant"
   ],
   "note": ""
  },
  {
   "property": "C70",
   "status": "proved",
   "theorems": [
    "C70_partial_example",
    "C70_negative",
    "C70_negative_on_pairs",
    "C70_negative_some_refuted",
    "C70_negative_all_refuted"
   ],
   "note": ""
  },
  {
   "property": "C71",
   "status": "proved",
   "theorems": [
    "C71_unit"
   ],
   "note": ""
  },
  {
   "property": "C72",
   "status": "proved",
   "theorems": [
    "C72_lines",
    "C72_injective"
   ],
   "note": ""
  },
  {
   "property": "C73",
   "status": "proved",
   "theorems": [
    "C73_binary_readers",
    "C73_xml_readers",
    "C73_xml_writer"
   ],
   "note": ""
  },
  {
   "property": "C74",
   "status": "proved",
   "theorems": [
    "C74_write_dot",
    "C74_uwrite_dot",
    "C74_fails"
   ],
   "note": ""
  },
  {
   "property": "C75",
   "status": "proved",
   "theorems": [
    "C75_edit_example_not_atomic",
    "C75_open_refuted"
   ],
   "note": ""
  },
  {
   "property": "C76",
   "status": "proved",
   "theorems": [
    "C76_positive_concepts",
    "C76_missed_refuted"
   ],
   "note": ""
  },
  {
   "property": "C77",
   "status": "proved",
   "theorems": [
    "C77_unconfirmed",
    "C77_default"
   ],
   "note": ""
  },
  {
   "property": "C78",
   "status": "proved",
   "theorems": [
    "C78_leq",
    "C78_geq",
    "C78_range_refuted"
   ],
   "note": ""
  },
  {
   "property": "C79",
   "status": "proved",
   "theorems": [
    "C79_scale",
    "C79_scaled",
    "C79_unknown",
    "C79_position"
   ],
   "note": ""
  },
  {
   "property": "C80",
   "status": "proved",
   "theorems": [
    "C80_add",
    "C80_add_inconsistent",
    "C80_complete",
    "C80_inconsistent",
    "C80_twice",
    "C80_succeeds"
   ],
   "note": ""
  },
  {
   "property": "C81",
   "status": "proved",
   "theorems": [
    "C81_xq",
    "C81_monotone",
    "C81_idempotent_refuted"
   ],
   "note": ""
  },
  {
   "property": "C82",
   "status": "proved",
   "theorems": [
    "C82_sound",
    "C82_complete",
    "C82_complete_refuted"
   ],
   "note": ""
  },
  {
   "property": "C83",
   "status": "proved",
   "theorems": [
    "C83_rows",
    "C83_printed"
   ],
   "note": ""
  },
  {
   "property": "C84",
   "status": "proved",
   "theorems": [
    "C84_truthful",
    "C84_generic_expert",
    "C84_foolish"
   ],
   "note": ""
  },
  {
   "property": "C85",
   "status": "proved",
   "theorems": [
    "C85_session"
   ],
   "note": ""
  },
  {
   "property": "C86",
   "status": "proved",
   "theorems": [
    "C86_is_prime",
    "C86_is_prime_refuted",
    "C86_is_factorial"
   ],
   "note": ""
  },
  {
   "property": "C87",
   "status": "proved",
   "theorems": [
    "C87_twice_refuted"
   ],
   "note": ""
  },
  {
   "property": "C88",
   "status": "proved",
   "theorems": [
    "C88_intent",
    "C88_equality",
    "C88_copy",
    "C88_table"
   ],
   "note": ""
  },
  {
   "property": "C89",
   "status": "proved",
   "theorems": [
    "C89_symmetric",
    "C89_orbit",
    "C89_maximal",
    "C89_implication",
    "C89_equality_refuted",
    "C89_equality"
   ],
   "note": ""
  },
  {
   "property": "C90",
   "status": "proved",
   "theorems": [
    "C90_background",
    "C90_algebras"
   ],
   "note": ""
  },
  {
   "property": "C91",
   "status": "proved",
   "theorems": [
    "C91_examples",
    "C91_search",
    "C91_size_refuted"
   ],
   "note": ""
  },
  {
   "property": "C92",
   "status": "proved",
   "theorems": [
    "C92_bounds"
   ],
   "note": ""
  },
  {
   "property": "C93",
   "status": "proved",
   "theorems": [
    "C93_truthful",
    "C93_plain"
   ],
   "note": ""
  },
  {
   "property": "C94",
   "status": "proved",
   "theorems": [
    "C94_refused",
    "C94_taken",
    "C94_added",
    "C94_unavailable",
    "C94_fillable_refuted"
   ],
   "note": ""
  },
  {
   "property": "C95",
   "status": "proved",
   "theorems": [
    "C95_before",
    "C95_settled_refuted"
   ],
   "note": ""
  },
  {
   "property": "C96",
   "status": "proved",
   "theorems": [
    "C96_minimize",
    "C96_cover",
    "C96_incremental",
    "C96_minimum"
   ],
   "note": ""
  },
  {
   "property": "C97",
   "status": "proved",
   "theorems": [
    "C97_values",
    "C97_mutation_is_local",
    "C97_writes_are_local",
    "C97_derivation_is_fresh"
   ],
   "note": ""
  },
  {
   "property": "C98",
   "status": "proved",
   "theorems": [
    "C98_consistent",
    "C98_deepcopy"
   ],
   "note": ""
  },
  {
   "property": "C99",
   "status": "proved",
   "theorems": [
    "C99_references_refuted",
    "C99_detached_objects",
    "C99_detached_attributes",
    "C99_detached_table",
    "C99_reach"
   ],
   "note": ""
  },
  {
   "property": "C100",
   "status": "proved",
   "theorems": [
    "C100_intents_respect_basis"
   ],
   "note": ""
  },
  {
   "property": "C101",
   "status": "proved",
   "theorems": [
    "C101_closure_by_basis"
   ],
   "note": ""
  },
  {
   "property": "C102",
   "status": "proved",
   "theorems": [
    "C102_transposed_lattice"
   ],
   "note": ""
  },
  {
   "property": "C103",
   "status": "proved",
   "theorems": [
    "C103_transposed_indices"
   ],
   "note": ""
  },
  {
   "property": "C104",
   "status": "proved",
   "theorems": [
    "C104_clarified",
    "C104_reduced_objects",
    "C104_reduced_attributes"
   ],
   "note": ""
  },
  {
   "property": "C105",
   "status": "proved",
   "theorems": [
    "C105_written",
    "C105_records",
    "C105_injective",
    "C105_fails",
    "C105_not_read_back",
    "C105_empty_name_refuted"
   ],
   "note": ""
  },
  {
   "property": "C106",
   "status": "proved",
   "theorems": [
    "C106_separate"
   ],
   "note": ""
  },
  {
   "property": "C107",
   "status": "proved",
   "theorems": [
    "C107_shared",
    "C107_client",
    "C107_touch",
    "C107_team",
    "C107_team_touch",
    "C107_stale_refuted",
    "C107_lists_refuted"
   ],
   "note": ""
  },
  {
   "property": "C108",
   "status": "proved",
   "theorems": [
    "C108_division",
    "C108_order",
    "C108_bound_refuted",
    "C108_istability",
    "C108_estability",
    "C108_separation",
    "C108_sizes",
    "C108_stability_one_refuted"
   ],
   "note": ""
  },
  {
   "property": "C109",
   "status": "proved",
   "theorems": [
    "C109_istability",
    "C109_estability",
    "C109_separation",
    "C109_extent_size",
    "C109_intent_size",
    "C109_any_threshold"
   ],
   "note": ""
  },
  {
   "property": "C110",
   "status": "proved",
   "theorems": [
    "C110_algorithm2",
    "C110_literal",
    "C110_default"
   ],
   "note": ""
  },
  {
   "property": "C111",
   "status": "proved",
   "theorems": [
    "C111_w_condition",
    "C111_literal"
   ],
   "note": ""
  },
  {
   "property": "C112",
   "status": "proved",
   "theorems": [
    "C112_any",
    "C112_attribute_deleted_refuted"
   ],
   "note": ""
  },
  {
   "property": "C113",
   "status": "proved",
   "theorems": [
    "C113_basis",
    "C113_complete",
    "C113_counterexample_refuted"
   ],
   "note": ""
  },
  {
   "property": "C114",
   "status": "proved",
   "theorems": [
    "C114_added",
    "C114_unchanged",
    "C114_deleted_refuted"
   ],
   "note": ""
  },
  {
   "property": "C115",
   "status": "proved",
   "theorems": [
    "C115_factors",
    "C115_kept",
    "C115_unchanged",
    "C115_removed_refuted"
   ],
   "note": ""
  },
  {
   "property": "C116",
   "status": "proved",
   "theorems": [
    "C116_unexplained",
    "C116_added_refuted"
   ],
   "note": ""
  },
  {
   "property": "C117",
   "status": "proved",
   "theorems": [
    "C117_background",
    "C117_noted"
   ],
   "note": ""
  },
  {
   "property": "C118",
   "status": "proved",
   "theorems": [
    "C118_complete",
    "C118_dropped_refuted"
   ],
   "note": ""
  },
  {
   "property": "C119",
   "status": "proved",
   "theorems": [
    "C119_patterns",
    "C119_added_refuted"
   ],
   "note": ""
  },
  {
   "property": "C120",
   "status": "proved",
   "theorems": [
    "C120_factors",
    "C120_kept",
    "C120_unchanged",
    "C120_removed_refuted",
    "C120_deleted_refuted"
   ],
   "note": ""
  },
  {
   "property": "C121",
   "status": "proved",
   "theorems": [
    "C121_concepts",
    "C121_basis",
    "C121_lattice",
    "C121_indices"
   ],
   "note": ""
  },
  {
   "property": "C122",
   "status": "proved",
   "theorems": [
    "C122_rename_attribute",
    "C122_rename_object",
    "C122_in_use_refuted"
   ],
   "note": ""
  },
  {
   "property": "C123",
   "status": "proved",
   "theorems": [
    "C123_added_object",
    "C123_added_attribute"
   ],
   "note": ""
  },
  {
   "property": "C124",
   "status": "proved",
   "theorems": [
    "C124_deleted_attributes",
    "C124_deleted_object"
   ],
   "note": ""
  },
  {
   "property": "C125",
   "status": "proved",
   "theorems": [
    "C125_truthful",
    "C125_answerable",
    "C125_canonical_refuted"
   ],
   "note": ""
  },
  {
   "property": "C126",
   "status": "proved",
   "theorems": [
    "C126_truthful",
    "C126_answerable"
   ],
   "note": ""
  },
  {
   "property": "C127",
   "status": "proved",
   "theorems": [
    "C127_stateless",
    "C127_calls",
    "C127_context",
    "C127_each_once",
    "C127_all_closed_refuted"
   ],
   "note": ""
  },
  {
   "property": "C128",
   "status": "proved",
   "theorems": [
    "C128_first",
    "C128_error",
    "C128_order",
    "C128_lectic",
    "C128_unsorted_refuted",
    "C128_canonical",
    "C128_sort"
   ],
   "note": ""
  },
  {
   "property": "C129",
   "status": "proved",
   "theorems": [
    "C129_added_object",
    "C129_deleted_object",
    "C129_added_attribute",
    "C129_deleted_attributes"
   ],
   "note": ""
  },
  {
   "property": "C130",
   "status": "proved",
   "theorems": [
    "C130_associative",
    "C130_transpose",
    "C130_unit_right",
    "C130_unit_left",
    "C130_intent"
   ],
   "note": ""
  },
  {
   "property": "C131",
   "status": "proved",
   "theorems": [
    "C131_bounds",
    "C131_added_object",
    "C131_added_attribute",
    "C131_deleted_object",
    "C131_deleted_attributes"
   ],
   "note": ""
  },
  {
   "property": "C132",
   "status": "proved",
   "theorems": [
    "C132_result",
    "C132_log",
    "C132_silent",
    "C132_error",
    "C132_wrong_names",
    "C132_product_refuted"
   ],
   "note": ""
  },
  {
   "property": "C133",
   "status": "proved",
   "theorems": [
    "C133_current",
    "C133_shown",
    "C133_layers",
    "C133_stale_for_ever",
    "C133_holds_refuted",
    "C133_one_table_refuted"
   ],
   "note": ""
  },
  {
   "property": "C134",
   "status": "proved",
   "theorems": [
    "C134_current",
    "C134_shown",
    "C134_same_table",
    "C134_stale_for_ever",
    "C134_holds_refuted"
   ],
   "note": ""
  },
  {
   "property": "C135",
   "status": "proved",
   "theorems": [
    "C135_results",
    "C135_simple",
    "C135_linear",
    "C135_norris"
   ],
   "note": ""
  },
  {
   "property": "C136",
   "status": "proved",
   "theorems": [
    "C136_cover",
    "C136_norris",
    "C136_printed_result",
    "C136_printed",
    "C136_minimize",
    "C136_print_basis"
   ],
   "note": ""
  },
  {
   "property": "C137",
   "status": "proved",
   "theorems": [
    "C137_and",
    "C137_and_stability",
    "C137_or",
    "C137_subcontext"
   ],
   "note": ""
  },
  {
   "property": "C138",
   "status": "proved",
   "theorems": [
    "C138_add_delete",
    "C138_add_delete_attribute",
    "C138_delete_add",
    "C138_rename",
    "C138_rename_attribute",
    "C138_set",
    "C138_rebuild"
   ],
   "note": ""
  },
  {
   "property": "C139",
   "status": "proved",
   "theorems": [
    "C139_add_add",
    "C139_add_objects",
    "C139_set_set",
    "C139_set_cell",
    "C139_transpose"
   ],
   "note": ""
  },
  {
   "property": "C140",
   "status": "proved",
   "theorems": [
    "C140_extent_size",
    "C140_intent_size",
    "C140_stability_refuted"
   ],
   "note": ""
  },
  {
   "property": "C141",
   "status": "proved",
   "theorems": [
    "C141_thresholds",
    "C141_one"
   ],
   "note": ""
  },
  {
   "property": "C142",
   "status": "proved",
   "theorems": [
    "C142_bounds",
    "C142_table",
    "C142_basis"
   ],
   "note": ""
  },
  {
   "property": "C143",
   "status": "proved",
   "theorems": [
    "C143_distinct",
    "C143_hash",
    "C143_format",
    "C143_lines",
    "C143_lines_fail",
    "C143_lattice",
    "C143_other_context_refuted",
    "C143_container"
   ],
   "note": ""
  },
  {
   "property": "C144",
   "status": "proved",
   "theorems": [
    "C144_context",
    "C144_rows",
    "C144_lattice",
    "C144_system"
   ],
   "note": ""
  },
  {
   "property": "C145",
   "status": "proved",
   "theorems": [
    "C145_first",
    "C145_greatest",
    "C145_above_refuted",
    "C145_filtered",
    "C145_whole"
   ],
   "note": ""
  },
  {
   "property": "C146",
   "status": "proved",
   "theorems": [
    "C146_system",
    "C146_lattice"
   ],
   "note": ""
  },
  {
   "property": "C147",
   "status": "proved",
   "theorems": [
    "C147_fixed",
    "C147_parents",
    "C147_append",
    "C147_system"
   ],
   "note": ""
  }
 ]
}