{
 "claims": [
  {
   "property": "C01",
   "status": "proved",
   "theorems": [
    "C01_operator_equality"
   ],
   "note": ""
  },
  {
   "property": "C02",
   "status": "proved",
   "theorems": [
    "C02_operator_conjugation",
    "C02_operator_adjoint"
   ],
   "note": ""
  },
  {
   "property": "C03",
   "status": "proved",
   "theorems": [
    "C03_operator_order",
    "C03_lexicographic"
   ],
   "note": ""
  },
  {
   "property": "C04",
   "status": "proved",
   "theorems": [
    "C04_monomial_conjugation",
    "C04_monomial_adjoint"
   ],
   "note": ""
  },
  {
   "property": "C05",
   "status": "proved",
   "theorems": [
    "C05_product_is_composition",
    "C05_term_product"
   ],
   "note": ""
  },
  {
   "property": "C06",
   "status": "proved",
   "theorems": [
    "C06_term_adjoint"
   ],
   "note": ""
  },
  {
   "property": "C07",
   "status": "proved",
   "theorems": [
    "C07_term_order"
   ],
   "note": ""
  },
  {
   "property": "C08",
   "status": "proved",
   "theorems": [
    "C08_commutate_is_commutator",
    "C08_assertion"
   ],
   "note": ""
  },
  {
   "property": "C09",
   "status": "proved",
   "theorems": [
    "C09_odd_gives_anticommutator"
   ],
   "note": ""
  },
  {
   "property": "C10",
   "status": "proved",
   "theorems": [
    "C10_symbolic_commutator"
   ],
   "note": ""
  },
  {
   "property": "C11",
   "status": "proved",
   "theorems": [
    "C11_anticommutates_concrete",
    "C11_anticommutates_symbolic"
   ],
   "note": ""
  },
  {
   "property": "C12",
   "status": "proved",
   "theorems": [
    "C12_commutator_quantum_numbers",
    "C12_total_creations_counts"
   ],
   "note": ""
  },
  {
   "property": "C13",
   "status": "proved",
   "theorems": [
    "C13_copy_as_unique_terms"
   ],
   "note": ""
  },
  {
   "property": "C14",
   "status": "proved",
   "theorems": [
    "C14_kronecker"
   ],
   "note": ""
  },
  {
   "property": "C15",
   "status": "proved",
   "theorems": [
    "C15_prefactor_multiplication"
   ],
   "note": ""
  },
  {
   "property": "C16",
   "status": "proved",
   "theorems": [
    "C16_order_kroneckers_sound",
    "C16_comparator_strict_weak_order",
    "C16_canonical_form_refuted",
    "C16_canonical_first_index"
   ],
   "note": "Value and multiset preservation and the strict-weak-order requirement are proved; the canonical-form clause is refuted (comparator prefactor.hpp 68-76 compares a.b with b.a, so deltas with equal first index tie); only the first indices are canonical."
  },
  {
   "property": "C17",
   "status": "proved",
   "theorems": [
    "C17_neighbors",
    "C17_symmetric",
    "C17_unique_bonds",
    "C17_unique_exactly_once"
   ],
   "note": ""
  },
  {
   "property": "C18",
   "status": "proved",
   "theorems": [
    "C18_graph_distance",
    "C18_metric",
    "C18_neighboring"
   ],
   "note": ""
  },
  {
   "property": "C19",
   "status": "proved",
   "theorems": [
    "C19_chain_iteration",
    "C19_square_iteration",
    "C19_each_site_once"
   ],
   "note": ""
  },
  {
   "property": "C20",
   "status": "proved",
   "theorems": [
    "C20_momentum_nearest",
    "C20_momentum_roundtrip",
    "C20_real_roundtrip"
   ],
   "note": ""
  },
  {
   "property": "C21",
   "status": "proved",
   "theorems": [
    "C21_real_positions",
    "C21_every_position_refuted"
   ],
   "note": ""
  },
  {
   "property": "C22",
   "status": "proved",
   "theorems": [
    "C22_real_closest",
    "C22_momentum_closest_below_edge",
    "C22_momentum_closest_refuted"
   ],
   "note": ""
  },
  {
   "property": "C23",
   "status": "proved",
   "theorems": [
    "C23_inverse_iff_square",
    "C23_rectangle_refuted",
    "C23_index_collision_refuted"
   ],
   "note": ""
  },
  {
   "property": "C24",
   "status": "proved",
   "theorems": [
    "C24_neighbors",
    "C24_symmetric",
    "C24_neighboring",
    "C24_unique_exactly_once",
    "C24_rectangle_refuted",
    "C24_inside_iff",
    "C24_asymmetric_refuted"
   ],
   "note": ""
  },
  {
   "property": "C25",
   "status": "proved",
   "theorems": [
    "C25_ring_distances",
    "C25_metric",
    "C25_rectangle_refuted",
    "C25_every_rectangle_refuted"
   ],
   "note": ""
  },
  {
   "property": "C26",
   "status": "proved",
   "theorems": [
    "C26_real_roundtrip",
    "C26_momentum_value",
    "C26_momentum_roundtrip",
    "C26_zone_edge_refuted"
   ],
   "note": ""
  },
  {
   "property": "C27",
   "status": "proved",
   "theorems": [
    "C27_one_operator_basis",
    "C27_three_operator_basis",
    "C27_index_bijection",
    "C27_overflow"
   ],
   "note": ""
  },
  {
   "property": "C28",
   "status": "proved",
   "theorems": [
    "C28_momentum_basis"
   ],
   "note": ""
  },
  {
   "property": "C29",
   "status": "proved",
   "theorems": [
    "C29_conjugate_basis"
   ],
   "note": ""
  },
  {
   "property": "C30",
   "status": "proved",
   "theorems": [
    "C30_one_operator_no",
    "C30_one_operator",
    "C30_three_operator"
   ],
   "note": ""
  },
  {
   "property": "C31",
   "status": "proved",
   "theorems": [
    "C31_orthogonal",
    "C31_projection",
    "C31_exact_rows"
   ],
   "note": ""
  },
  {
   "property": "C32",
   "status": "proved",
   "theorems": [
    "C32_kinetic_no",
    "C32_kinetic",
    "C32_full"
   ],
   "note": ""
  },
  {
   "property": "C33",
   "status": "proved",
   "theorems": [
    "C33_duplicate_columns_refuted",
    "C33_tall_refuted",
    "C33_rectangle_kinetic_refuted",
    "C33_rectangle_refuted"
   ],
   "note": ""
  },
  {
   "property": "C34",
   "status": "proved",
   "theorems": [
    "C34_symmetric"
   ],
   "note": ""
  },
  {
   "property": "C35",
   "status": "proved",
   "theorems": [
    "C35_matrix",
    "C35_projection",
    "C35_first_row_exact"
   ],
   "note": ""
  },
  {
   "property": "C36",
   "status": "proved",
   "theorems": [
    "C36_equation_of_motion",
    "C36_three_operator_rows",
    "C36_three_operator_rows_exact",
    "C36_three_operator_rows_refuted",
    "C36_structure",
    "C36_true_interaction_row",
    "C36_one_operator_rows_refuted"
   ],
   "note": ""
  },
  {
   "property": "C37",
   "status": "proved",
   "theorems": [
    "C37_make_columns_unique",
    "C37_has_unique_columns",
    "C37_empty_refuted"
   ],
   "note": ""
  },
  {
   "property": "C38",
   "status": "proved",
   "theorems": [
    "C38_symmetric",
    "C38_hermitian_refuted",
    "C38_hermitian_examples_refuted"
   ],
   "note": ""
  },
  {
   "property": "C39",
   "status": "proved",
   "theorems": [
    "C39_hermitian",
    "C39_equality"
   ],
   "note": ""
  },
  {
   "property": "C40",
   "status": "proved",
   "theorems": [
    "C40_list",
    "C40_refuted"
   ],
   "note": ""
  },
  {
   "property": "C41",
   "status": "proved",
   "theorems": [
    "C41_chain",
    "C41_translation",
    "C41_rectangle",
    "C41_square",
    "C41_rectangle_refuted",
    "C41_wide_refuted",
    "C41_tall_refuted"
   ],
   "note": ""
  },
  {
   "property": "C42",
   "status": "proved",
   "theorems": [
    "C42_shortcut",
    "C42_double_sum"
   ],
   "note": ""
  },
  {
   "property": "C43",
   "status": "proved",
   "theorems": [
    "C43_expectation_values",
    "C43_site_occupation",
    "C43_site_occupation1"
   ],
   "note": ""
  },
  {
   "property": "C44",
   "status": "proved",
   "theorems": [
    "C44_reduction",
    "C44_no_sharing",
    "C44_completes",
    "C44_site_occupation",
    "C44_site_occupation_completes"
   ],
   "note": ""
  },
  {
   "property": "C45",
   "status": "proved",
   "theorems": [
    "C45_history",
    "C45_larger_basis_refuted",
    "C45_plain_sum",
    "C45_completes"
   ],
   "note": ""
  },
  {
   "property": "C46",
   "status": "proved",
   "theorems": [
    "C46_table_1d",
    "C46_table_2d",
    "C46_reserve_refuted"
   ],
   "note": ""
  },
  {
   "property": "C47",
   "status": "proved",
   "theorems": [
    "C47_tracks_occupation",
    "C47_conjugate_undoes",
    "C47_back_to_fermi_sea"
   ],
   "note": ""
  },
  {
   "property": "C48",
   "status": "proved",
   "theorems": [
    "C48_return_values",
    "C48_true_means_success_refuted"
   ],
   "note": ""
  },
  {
   "property": "C49",
   "status": "proved",
   "theorems": [
    "C49_support",
    "C49_values",
    "C49_delta_sign_refuted",
    "C49_sort_comparison"
   ],
   "note": ""
  },
  {
   "property": "C50",
   "status": "proved",
   "theorems": [
    "C50_particle_number",
    "C50_closed_form",
    "C50_nonnegative"
   ],
   "note": ""
  },
  {
   "property": "C51",
   "status": "proved",
   "theorems": [
    "C51_taylor",
    "C51_history_free",
    "C51_linear",
    "C51_n_steps"
   ],
   "note": ""
  },
  {
   "property": "C52",
   "status": "proved",
   "theorems": [
    "C52_step",
    "C52_multiply_assign"
   ],
   "note": ""
  },
  {
   "property": "C53",
   "status": "proved",
   "theorems": [
    "C53_schedule",
    "C53_exact",
    "C53_times",
    "C53_end_refuted",
    "C53_nontermination_refuted",
    "C53_passed"
   ],
   "note": ""
  },
  {
   "property": "C54",
   "status": "proved",
   "theorems": [
    "C54_chain",
    "C54_square",
    "C54_even",
    "C54_nesting",
    "C54_spectrum",
    "C54_odd_refuted"
   ],
   "note": ""
  },
  {
   "property": "C55",
   "status": "proved",
   "theorems": [
    "C55_arithmetic",
    "C55_order",
    "C55_minus_assign_refuted"
   ],
   "note": ""
  },
  {
   "property": "C56",
   "status": "proved",
   "theorems": [
    "C56_regex_match_is_language",
    "C56_skippable_iff_blank_or_comment",
    "C56_next_line_is_first_other_line",
    "C56_next_line_last_line",
    "C56_all_data_lines_in_order",
    "C56_dos_comment_refuted"
   ],
   "note": ""
  },
  {
   "property": "C57",
   "status": "proved",
   "theorems": [
    "C57_terminates_iff_data_remains",
    "C57_never_returns_refuted",
    "C57_stuck_stream_refuted",
    "C57_every_text_is_a_file"
   ],
   "note": ""
  },
  {
   "property": "C58",
   "status": "proved",
   "theorems": [
    "C58_written_lines",
    "C58_lines_can_be_read_back",
    "C58_text_determines_elements",
    "C58_binary_writes_nothing",
    "C58_reading_changes_nothing",
    "C58_round_trip_refuted",
    "C58_unreadable_file_refuted"
   ],
   "note": ""
  },
  {
   "property": "C59",
   "status": "proved",
   "theorems": [
    "C59_header_lines",
    "C59_header_is_skipped",
    "C59_next_line_after_header",
    "C59_alignment",
    "C59_empty_description_hides_the_rest_refuted",
    "C59_value_without_key_refuted"
   ],
   "note": ""
  },
  {
   "property": "C60",
   "status": "proved",
   "theorems": [
    "C60_resume_never_returns_refuted",
    "C60_enough_measurements",
    "C60_zero",
    "C60_unterminated_last_line_repeated",
    "C60_fewer_measurements_never_returns_refuted",
    "C60_new_file_is_one_line_refuted",
    "C60_measurements_become_a_comment_refuted"
   ],
   "note": ""
  },
  {
   "property": "C61",
   "status": "proved",
   "theorems": [
    "C61_last_component_everywhere",
    "C61_equal_components",
    "C61_components_in_order_refuted",
    "C61_compose_concatenates"
   ],
   "note": ""
  },
  {
   "property": "C62",
   "status": "proved",
   "theorems": [
    "C62_products",
    "C62_conjugate",
    "C62_tolerance",
    "C62_equality",
    "C62_integral"
   ],
   "note": ""
  },
  {
   "property": "C63",
   "status": "proved",
   "theorems": [
    "C63_init",
    "C63_init_symmetric"
   ],
   "note": ""
  },
  {
   "property": "C64",
   "status": "proved",
   "theorems": [
    "C64_real_space",
    "C64_momentum_space",
    "C64_kinetic"
   ],
   "note": ""
  },
  {
   "property": "C65",
   "status": "proved",
   "theorems": [
    "C65_norm_drift"
   ],
   "note": ""
  },
  {
   "property": "C66",
   "status": "proved",
   "theorems": [
    "C66_real_space",
    "C66_step_norm",
    "C66_kinetic",
    "C66_kinetic_step_norm"
   ],
   "note": ""
  },
  {
   "property": "C67",
   "status": "proved",
   "theorems": [
    "C67_initial",
    "C67_initial_kinetic"
   ],
   "note": ""
  },
  {
   "property": "C68",
   "status": "proved",
   "theorems": [
    "C68_nonnegative_kinetic",
    "C68_nonnegative",
    "C68_shipped_averages_refuted"
   ],
   "note": ""
  },
  {
   "property": "C69",
   "status": "proved",
   "theorems": [
    "C69_fermi_jump"
   ],
   "note": ""
  },
  {
   "property": "C70",
   "status": "proved",
   "theorems": [
    "C70_dimensions",
    "C70_insert_appends",
    "C70_sorts_by_the_other_index",
    "C70_column_major_refuted"
   ],
   "note": ""
  },
  {
   "property": "C71",
   "status": "proved",
   "theorems": [
    "C71_old_contents_survives_a_crash",
    "C71_new_contents",
    "C71_missing_file",
    "C71_second_run_loses_the_backup_refuted"
   ],
   "note": ""
  },
  {
   "property": "C72",
   "status": "proved",
   "theorems": [
    "C72_numbered_within_a_run",
    "C72_second_run_overwrites_refuted",
    "C72_archive_complete_before_info",
    "C72_steps_are_the_call",
    "C72_stale_info_refuted"
   ],
   "note": ""
  },
  {
   "property": "C73",
   "status": "proved",
   "theorems": [
    "C73_command_line_then_default",
    "C73_precedence",
    "C73_given_twice",
    "C73_missing_response_file_refuted",
    "C73_bad_line"
   ],
   "note": ""
  },
  {
   "property": "C74",
   "status": "proved",
   "theorems": [
    "C74_rerun_has_the_same_values",
    "C74_out_of_response_file_ignored_refuted"
   ],
   "note": ""
  },
  {
   "property": "C75",
   "status": "proved",
   "theorems": [
    "C75_header_lines_are_comments",
    "C75_header_lists_used_values",
    "C75_header_lists_defaults_refuted"
   ],
   "note": ""
  },
  {
   "property": "C76",
   "status": "proved",
   "theorems": [
    "C76_paths",
    "C76_files_after_start",
    "C76_response_file_lost_refuted"
   ],
   "note": ""
  },
  {
   "property": "C77",
   "status": "proved",
   "theorems": [
    "C77_full",
    "C77_kinetic"
   ],
   "note": ""
  },
  {
   "property": "C78",
   "status": "proved",
   "theorems": [
    "C78_solution_kinetic",
    "C78_heisenberg_kinetic",
    "C78_solution",
    "C78_full",
    "C78_kinetic",
    "C78_exact_norm"
   ],
   "note": ""
  },
  {
   "property": "C79",
   "status": "proved",
   "theorems": [
    "C79_infinite_chain",
    "C79_ring",
    "C79_programs",
    "C79_ring_refuted",
    "C79_value",
    "C79_completes",
    "C79_half_filling_refuted"
   ],
   "note": ""
  },
  {
   "property": "C80",
   "status": "proved",
   "theorems": [
    "C80_operator",
    "C80_monomial",
    "C80_term",
    "C80_symbolic_term",
    "C80_hubbard",
    "C80_names_refuted"
   ],
   "note": ""
  },
  {
   "property": "C81",
   "status": "proved",
   "theorems": [
    "C81_block",
    "C81_programs",
    "C81_real_space",
    "C81_momentum_space",
    "C81_output"
   ],
   "note": ""
  },
  {
   "property": "C82",
   "status": "proved",
   "theorems": [
    "C82_completes",
    "C82_convergence",
    "C82_center"
   ],
   "note": ""
  },
  {
   "property": "C83",
   "status": "proved",
   "theorems": [
    "C83_lines",
    "C83_particle_number",
    "C83_particle_number_refuted"
   ],
   "note": ""
  },
  {
   "property": "C84",
   "status": "proved",
   "theorems": [
    "C84_read",
    "C84_other_first_line",
    "C84_short_file_refuted",
    "C84_row_major_refuted",
    "C84_huge_count_refuted",
    "C84_no_count_refuted",
    "C84_bad_entry_refuted",
    "C84_huge_dimensions_refuted",
    "C84_not_read_back_refuted",
    "C84_headed"
   ],
   "note": ""
  },
  {
   "property": "C85",
   "status": "proved",
   "theorems": [
    "C85_distinct",
    "C85_binary",
    "C85_self",
    "C85_self_refuted",
    "C85_term_distinct",
    "C85_term_binary",
    "C85_term_self"
   ],
   "note": ""
  },
  {
   "property": "C86",
   "status": "proved",
   "theorems": [
    "C86_full",
    "C86_kinetic"
   ],
   "note": ""
  },
  {
   "property": "C87",
   "status": "proved",
   "theorems": [
    "C87_full",
    "C87_kinetic",
    "C87_completes",
    "C87_kinetic_completes"
   ],
   "note": ""
  },
  {
   "property": "C88",
   "status": "proved",
   "theorems": [
    "C88_chain",
    "C88_square",
    "C88_chain_completes",
    "C88_square_completes"
   ],
   "note": ""
  },
  {
   "property": "C89",
   "status": "proved",
   "theorems": [
    "C89_equality",
    "C89_print",
    "C89_no_clash",
    "C89_kinds",
    "C89_monomial",
    "C89_reserved_refuted"
   ],
   "note": ""
  },
  {
   "property": "C90",
   "status": "proved",
   "theorems": [
    "C90_file",
    "C90_table",
    "C90_shipped"
   ],
   "note": ""
  },
  {
   "property": "C91",
   "status": "proved",
   "theorems": [
    "C91_exact",
    "C91_full",
    "C91_kinetic",
    "C91_full_error",
    "C91_kinetic_error"
   ],
   "note": ""
  },
  {
   "property": "C92",
   "status": "proved",
   "theorems": [
    "C92_momentum_lookup",
    "C92_momentum_near",
    "C92_momentum_inverse",
    "C92_momentum_basis",
    "C92_real_inverse",
    "C92_real_unit"
   ],
   "note": ""
  },
  {
   "property": "C93",
   "status": "proved",
   "theorems": [
    "C93_one",
    "C93_three",
    "C93_double_one",
    "C93_double_three",
    "C93_schedules_one",
    "C93_schedules_three",
    "C93_interleaving_one",
    "C93_interleaving_three",
    "C93_completes_one",
    "C93_completes_three",
    "C93_assert_refuted",
    "C93_state_one",
    "C93_state_three"
   ],
   "note": ""
  },
  {
   "property": "C94",
   "status": "proved",
   "theorems": [
    "C94_coefficients_full",
    "C94_coefficients_kinetic",
    "C94_kinetic",
    "C94_full",
    "C94_table",
    "C94_completes",
    "C94_kinetic_completes"
   ],
   "note": ""
  },
  {
   "property": "C95",
   "status": "proved",
   "theorems": [
    "C95_jump",
    "C95_schedules",
    "C95_interleaving",
    "C95_completes",
    "C95_state"
   ],
   "note": ""
  },
  {
   "property": "C96",
   "status": "proved",
   "theorems": [
    "C96_chain",
    "C96_square",
    "C96_chain_completes",
    "C96_square_completes",
    "C96_phases"
   ],
   "note": ""
  },
  {
   "property": "C97",
   "status": "proved",
   "theorems": [
    "C97_outside",
    "C97_element",
    "C97_reserved",
    "C97_full_refuted"
   ],
   "note": ""
  },
  {
   "property": "C98",
   "status": "proved",
   "theorems": [
    "C98_table",
    "C98_occupation",
    "C98_fermi_points",
    "C98_fermi_sea_refuted",
    "C98_cosine"
   ],
   "note": ""
  },
  {
   "property": "C99",
   "status": "proved",
   "theorems": [
    "C99_program",
    "C99_regular",
    "C99_fermi_sea_refuted"
   ],
   "note": ""
  },
  {
   "property": "C100",
   "status": "proved",
   "theorems": [
    "C100_boost",
    "C100_versions_distinct",
    "C100_clang_gcc",
    "C100_intel_refuted",
    "C100_texts_distinct",
    "C100_values",
    "C100_help",
    "C100_logname_refuted",
    "C100_start",
    "C100_version",
    "C100_log_lost_refuted"
   ],
   "note": ""
  },
  {
   "property": "C101",
   "status": "proved",
   "theorems": [
    "C101_text",
    "C101_distinct",
    "C101_nul"
   ],
   "note": ""
  },
  {
   "property": "C102",
   "status": "proved",
   "theorems": [
    "C102_kinetic",
    "C102_full",
    "C102_momentum",
    "C102_log",
    "C102_log_momentum",
    "C102_percent_refuted",
    "C102_zeros_refuted",
    "C102_wrap_refuted"
   ],
   "note": ""
  },
  {
   "property": "C103",
   "status": "proved",
   "theorems": [
    "C103_file",
    "C103_power_refuted"
   ],
   "note": ""
  },
  {
   "property": "C104",
   "status": "proved",
   "theorems": [
    "C104_lines",
    "C104_shipped"
   ],
   "note": ""
  },
  {
   "property": "C105",
   "status": "proved",
   "theorems": [
    "C105_file",
    "C105_completes",
    "C105_more_threads_refuted",
    "C105_ideal",
    "C105_start"
   ],
   "note": ""
  },
  {
   "property": "C106",
   "status": "proved",
   "theorems": [
    "C106_chain",
    "C106_table",
    "C106_theory_table",
    "C106_half_filling_refuted",
    "C106_square_table",
    "C106_square",
    "C106_sine",
    "C106_theory_program"
   ],
   "note": ""
  },
  {
   "property": "C107",
   "status": "proved",
   "theorems": [
    "C107_factors_1d",
    "C107_factors_2d",
    "C107_square_table",
    "C107_kinetic",
    "C107_full",
    "C107_jump_1d",
    "C107_jump_2d",
    "C107_jump_1d_completes",
    "C107_jump_2d_completes",
    "C107_waves"
   ],
   "note": ""
  },
  {
   "property": "C108",
   "status": "proved",
   "theorems": [
    "C108_jump",
    "C108_jump_1d",
    "C108_jump_2d",
    "C108_jump_refuted",
    "C108_jump_1d_double",
    "C108_jump_2d_double",
    "C108_exact",
    "C108_program",
    "C108_double",
    "C108_free_double",
    "C108_decouples",
    "C108_free",
    "C108_free_program"
   ],
   "note": ""
  },
  {
   "property": "C109",
   "status": "proved",
   "theorems": [
    "C109_solution",
    "C109_occupation",
    "C109_program",
    "C109_operator",
    "C109_heisenberg",
    "C109_jump",
    "C109_jump_1d",
    "C109_jump_2d",
    "C109_double",
    "C109_jump_1d_double",
    "C109_jump_2d_double"
   ],
   "note": ""
  },
  {
   "property": "C110",
   "status": "proved",
   "theorems": [
    "C110_matrix",
    "C110_solution",
    "C110_chain",
    "C110_square",
    "C110_coefficients",
    "C110_jump",
    "C110_jump_2d"
   ],
   "note": ""
  },
  {
   "property": "C111",
   "status": "proved",
   "theorems": [
    "C111_time_reversal",
    "C111_particle_hole",
    "C111_phase",
    "C111_chain",
    "C111_square",
    "C111_coefficients_kinetic",
    "C111_coefficients_kinetic_double"
   ],
   "note": ""
  },
  {
   "property": "C112",
   "status": "proved",
   "theorems": [
    "C112_attraction_double",
    "C112_solution_scaling",
    "C112_solution_sign",
    "C112_solution_attraction",
    "C112_coefficients",
    "C112_occupation",
    "C112_jump_1d",
    "C112_jump_2d",
    "C112_sign",
    "C112_sign_double"
   ],
   "note": ""
  },
  {
   "property": "C113",
   "status": "proved",
   "theorems": [
    "C113_scaling",
    "C113_free",
    "C113_free_exact",
    "C113_atomic",
    "C113_example"
   ],
   "note": ""
  },
  {
   "property": "C114",
   "status": "proved",
   "theorems": [
    "C114_normalised",
    "C114_constant",
    "C114_decay_refuted",
    "C114_file",
    "C114_example"
   ],
   "note": ""
  },
  {
   "property": "C115",
   "status": "proved",
   "theorems": [
    "C115_chain_distance",
    "C115_square_distance",
    "C115_steps",
    "C115_exact",
    "C115_coefficients",
    "C115_coefficients_double"
   ],
   "note": ""
  },
  {
   "property": "C116",
   "status": "proved",
   "theorems": [
    "C116_steps",
    "C116_coefficients",
    "C116_coefficients_double"
   ],
   "note": ""
  },
  {
   "property": "C117",
   "status": "proved",
   "theorems": [
    "C117_chains"
   ],
   "note": ""
  },
  {
   "property": "C118",
   "status": "proved",
   "theorems": [
    "C118_truncation",
    "C118_motion",
    "C118_closed",
    "C118_steps",
    "C118_coefficients_double",
    "C118_strict"
   ],
   "note": ""
  },
  {
   "property": "C119",
   "status": "proved",
   "theorems": [
    "C119_steps",
    "C119_squares"
   ],
   "note": ""
  },
  {
   "property": "C120",
   "status": "proved",
   "theorems": [
    "C120_nearest",
    "C120_distance",
    "C120_closed"
   ],
   "note": ""
  },
  {
   "property": "C121",
   "status": "proved",
   "theorems": [
    "C121_error",
    "C121_nearest",
    "C121_exact",
    "C121_order",
    "C121_word",
    "C121_resolved",
    "C121_crowded"
   ],
   "note": ""
  },
  {
   "property": "C122",
   "status": "proved",
   "theorems": [
    "C122_coefficients_read_back",
    "C122_observable_read_back",
    "C122_times_increase",
    "C122_times_distinct_refuted",
    "C122_trivial_read_back",
    "C122_jump_chain",
    "C122_jump_square",
    "C122_momentum",
    "C122_full_coefficients",
    "C122_kinetic_coefficients",
    "C122_dispersion",
    "C122_full_occupation",
    "C122_kinetic_occupation",
    "C122_theory",
    "C122_trivial"
   ],
   "note": ""
  },
  {
   "property": "C123",
   "status": "proved",
   "theorems": [
    "C123_solution",
    "C123_written",
    "C123_coefficients",
    "C123_coefficients_file",
    "C123_occupation_file",
    "C123_kinetic",
    "C123_occupation",
    "C123_time",
    "C123_numerals"
   ],
   "note": ""
  }
 ]
}