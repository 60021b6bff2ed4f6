# What `Print Assumptions` lists, theorem by theorem

Generated by `tools/axioms.py` from the built theories; 520 theorems.

## Closed under the global context (no axioms)

`P_Algebra.C01_operator_equality`, `P_Algebra.C02_operator_adjoint`, `P_Algebra.C02_operator_conjugation`, `P_Algebra.C03_lexicographic`, `P_Algebra.C03_operator_order`, `P_Algebra.C04_monomial_adjoint`, `P_Algebra.C04_monomial_conjugation`, `P_Algebra.C05_product_is_composition`, `P_Algebra.C05_term_product`, `P_Algebra.C06_term_adjoint`, `P_Algebra.C07_term_order`, `P_Algebra.C08_assertion`, `P_Algebra.C08_commutate_is_commutator`, `P_Algebra.C09_odd_gives_anticommutator`, `P_Algebra2.C10_symbolic_commutator`, `P_Algebra2.C11_anticommutates_concrete`, `P_Algebra2.C11_anticommutates_symbolic`, `P_Algebra2.C12_commutator_quantum_numbers`, `P_Algebra2.C12_total_creations_counts`, `P_Algebra2.C13_copy_as_unique_terms`, `P_Algebra2.C14_kronecker`, `P_Algebra2.C15_prefactor_multiplication`, `P_Algebra2.C16_canonical_first_index`, `P_Algebra2.C16_canonical_form_refuted`, `P_Algebra2.C16_comparator_strict_weak_order`, `P_Algebra2.C16_order_kroneckers_sound`, `P_Lattice.C17_neighbors`, `P_Lattice.C17_symmetric`, `P_Lattice.C17_unique_bonds`, `P_Lattice.C17_unique_exactly_once`, `P_Lattice.C18_graph_distance`, `P_Lattice.C18_metric`, `P_Lattice.C18_neighboring`, `P_Lattice.C19_chain_iteration`, `P_Lattice.C19_each_site_once`, `P_Lattice.C19_square_iteration`, `P_Lattice.C23_index_collision_refuted`, `P_Lattice.C23_inverse_iff_square`, `P_Lattice.C23_rectangle_refuted`, `P_Lattice.C24_neighboring`, `P_Lattice.C24_neighbors`, `P_Lattice.C24_rectangle_refuted`, `P_Lattice.C24_symmetric`, `P_Lattice.C24_unique_exactly_once`, `P_Lattice.C25_metric`, `P_Lattice.C25_rectangle_refuted`, `P_Lattice.C25_ring_distances`, `P_Basis.C27_index_bijection`, `P_Basis.C27_one_operator_basis`, `P_Basis.C27_overflow`, `P_Basis.C27_three_operator_basis`, `P_Basis.C29_conjugate_basis`, `P_Matrix.C30_one_operator`, `P_KineticNo.C30_one_operator_no`, `P_Matrix.C30_three_operator`, `P_Matrix.C31_exact_rows`, `P_Matrix.C31_orthogonal`, `P_Matrix.C31_projection`, `P_Matrix.C32_full`, `P_Matrix.C32_kinetic`, `P_KineticNo.C32_kinetic_no`, `P_Matrix.C33_duplicate_columns_refuted`, `P_Rectangle.C33_rectangle_kinetic_refuted`, `P_Rectangle.C33_rectangle_refuted`, `P_Rectangle.C33_tall_refuted`, `P_Matrix.C34_symmetric`, `P_NormalOrder.C36_equation_of_motion`, `P_Triplet.C36_one_operator_rows_refuted`, `P_Triplet.C36_structure`, `P_NormalOrder.C36_three_operator_rows`, `P_NormalOrder.C36_three_operator_rows_exact`, `P_NormalOrder.C36_three_operator_rows_refuted`, `P_Triplet.C36_true_interaction_row`, `P_Triplet.C37_empty_refuted`, `P_Triplet.C37_has_unique_columns`, `P_Triplet.C37_make_columns_unique`, `P_MatrixCheck.C38_hermitian_refuted`, `P_MatrixCheck.C38_symmetric`, `P_MatrixCheck.C39_equality`, `P_MatrixCheck.C39_hermitian`, `P_MatrixCheck.C40_list`, `P_MatrixCheck.C40_refuted`, `P_SiteOccupation.C42_double_sum`, `P_SiteOccupation.C42_shortcut`, `P_SiteOccupation.C43_expectation_values`, `P_SiteOccupation.C43_site_occupation`, `P_SiteOccupation.C43_site_occupation1`, `P_SiteOccupation.C44_completes`, `P_SiteOccupation.C44_no_sharing`, `P_SiteOccupation.C44_reduction`, `P_SiteOccupation.C44_site_occupation`, `P_SiteOccupation.C44_site_occupation_completes`, `P_FermiJump.C45_completes`, `P_FermiJump.C45_history`, `P_FermiJump.C45_larger_basis_refuted`, `P_FermiJump.C45_plain_sum`, `P_FermiJump.C46_reserve_refuted`, `P_FermiJump.C46_table_1d`, `P_FermiJump.C46_table_2d`, `P_FermiSea.C47_back_to_fermi_sea`, `P_FermiSea.C47_conjugate_undoes`, `P_FermiSea.C47_tracks_occupation`, `P_FermiSea.C48_return_values`, `P_FermiSea.C48_true_means_success_refuted`, `P_NonVanishing.C49_sort_comparison`, `P_Ode.C51_history_free`, `P_Ode.C51_linear`, `P_Ode.C51_n_steps`, `P_Ode.C51_taylor`, `P_Ode.C52_multiply_assign`, `P_Ode.C52_step`, `P_TimeLoop.C53_times`, `P_Lattice.C55_arithmetic`, `P_Lattice.C55_minus_assign_refuted`, `P_Lattice.C55_order`, `P_Text.C56_all_data_lines_in_order`, `P_Text.C56_dos_comment_refuted`, `P_Text.C56_next_line_is_first_other_line`, `P_Text.C56_next_line_last_line`, `P_Text.C56_regex_match_is_language`, `P_Text.C56_skippable_iff_blank_or_comment`, `P_Text.C57_every_text_is_a_file`, `P_Text.C57_never_returns_refuted`, `P_Text.C57_stuck_stream_refuted`, `P_Text.C57_terminates_iff_data_remains`, `P_Io.C58_binary_writes_nothing`, `P_Io.C58_lines_can_be_read_back`, `P_Io.C58_reading_changes_nothing`, `P_Io.C58_round_trip_refuted`, `P_Io.C58_text_determines_elements`, `P_Io.C58_unreadable_file_refuted`, `P_Io.C58_written_lines`, `P_Io.C59_alignment`, `P_Io.C59_empty_description_hides_the_rest_refuted`, `P_Io.C59_header_is_skipped`, `P_Io.C59_header_lines`, `P_Io.C59_next_line_after_header`, `P_Io.C59_value_without_key_refuted`, `P_Io.C60_enough_measurements`, `P_Io.C60_fewer_measurements_never_returns_refuted`, `P_Io.C60_measurements_become_a_comment_refuted`, `P_Io.C60_new_file_is_one_line_refuted`, `P_Cli.C60_resume_never_returns_refuted`, `P_Io.C60_unterminated_last_line_repeated`, `P_Io.C60_zero`, `P_Io.C61_components_in_order_refuted`, `P_Io.C61_compose_concatenates`, `P_Io.C61_equal_components`, `P_Io.C61_last_component_everywhere`, `P_Number.C62_conjugate`, `P_Number.C62_integral`, `P_Number.C62_products`, `P_MatrixCheck.C63_init`, `P_MatrixCheck.C63_init_symmetric`, `P_DynamicsKinetic.C64_kinetic`, `P_Dynamics.C64_real_space`, `P_Ode.C65_norm_drift`, `P_DynamicsKinetic.C66_kinetic`, `P_DynamicsKinetic.C66_kinetic_step_norm`, `P_Dynamics.C66_real_space`, `P_Dynamics.C66_step_norm`, `P_Dynamics.C67_initial`, `P_DynamicsKinetic.C67_initial_kinetic`, `P_FermiJump.C69_fermi_jump`, `P_Checkpoint.C70_column_major_refuted`, `P_Checkpoint.C70_dimensions`, `P_Checkpoint.C70_insert_appends`, `P_Checkpoint.C70_sorts_by_the_other_index`, `P_Checkpoint.C71_missing_file`, `P_Checkpoint.C71_new_contents`, `P_Checkpoint.C71_old_contents_survives_a_crash`, `P_Checkpoint.C71_second_run_loses_the_backup_refuted`, `P_Checkpoint.C72_archive_complete_before_info`, `P_Checkpoint.C72_numbered_within_a_run`, `P_Checkpoint.C72_second_run_overwrites_refuted`, `P_Checkpoint.C72_stale_info_refuted`, `P_Checkpoint.C72_steps_are_the_call`, `P_Cli.C73_bad_line`, `P_Cli.C73_command_line_then_default`, `P_Cli.C73_given_twice`, `P_Cli.C73_missing_response_file_refuted`, `P_Cli.C73_precedence`, `P_Cli.C74_out_of_response_file_ignored_refuted`, `P_Cli.C74_rerun_has_the_same_values`, `P_Cli.C75_header_lines_are_comments`, `P_Cli.C75_header_lists_defaults_refuted`, `P_Cli.C75_header_lists_used_values`, `P_Cli.C76_files_after_start`, `P_Cli.C76_paths`, `P_Cli.C76_response_file_lost_refuted`, `P_Print.C80_hubbard`, `P_Print.C80_monomial`, `P_Print.C80_names_refuted`, `P_Print.C80_operator`, `P_Print.C80_symbolic_term`, `P_Print.C80_term`, `P_Commutators.C81_block`, `P_Commutators.C81_momentum_space`, `P_Commutators.C81_output`, `P_Commutators.C81_programs`, `P_Commutators.C81_real_space`, `P_EigenIo.C84_bad_entry_refuted`, `P_EigenIo.C84_headed`, `P_EigenIo.C84_huge_count_refuted`, `P_EigenIo.C84_huge_dimensions_refuted`, `P_EigenIo.C84_no_count_refuted`, `P_EigenIo.C84_not_read_back_refuted`, `P_EigenIo.C84_other_first_line`, `P_EigenIo.C84_read`, `P_EigenIo.C84_row_major_refuted`, `P_EigenIo.C84_short_file_refuted`, `P_Alias.C85_binary`, `P_Alias.C85_distinct`, `P_Alias.C85_self`, `P_Alias.C85_self_refuted`, `P_Alias.C85_term_binary`, `P_Alias.C85_term_distinct`, `P_Alias.C85_term_self`, `P_Index.C89_equality`, `P_Index.C89_kinds`, `P_Index.C89_monomial`, `P_Index.C89_no_clash`, `P_Index.C89_print`, `P_Index.C89_reserved_refuted`, `P_CommutateAlias.C97_element`, `P_CommutateAlias.C97_full_refuted`, `P_CommutateAlias.C97_outside`, `P_CommutateAlias.C97_reserved`, `P_Platform.C100_boost`, `P_Platform.C100_clang_gcc`, `P_Platform.C100_help`, `P_Platform.C100_intel_refuted`, `P_Platform.C100_log_lost_refuted`, `P_Platform.C100_logname_refuted`, `P_Platform.C100_start`, `P_Platform.C100_texts_distinct`, `P_Platform.C100_version`, `P_Platform.C100_versions_distinct`, `P_Platform.C101_distinct`, `P_Platform.C101_nul`, `P_Platform.C101_text`, `P_MatrixLog.C102_full`, `P_MatrixLog.C102_kinetic`, `P_MatrixLog.C102_wrap_refuted`, `P_MatrixLog.C102_zeros_refuted`, `P_Symmetry.C110_chain`, `P_Symmetry.C110_square`, `P_ParticleHole.C111_chain`, `P_ParticleHole.C111_square`, `P_LightCone.C115_chain_distance`, `P_LightCone.C115_square_distance`, `P_Rectangle2.C24_asymmetric_refuted`, `P_Rectangle2.C24_inside_iff`, `P_Rectangle2.C25_every_rectangle_refuted`, `P_Platform.C100_values`

## `ClassicalDedekindReals.sig_forall_dec`, `FunctionalExtensionality.functional_extensionality_dep`

`P_LatticeReal.C20_real_roundtrip`, `P_LatticeReal.C21_every_position_refuted`, `P_LatticeReal.C21_real_positions`, `P_LatticeReal.C22_real_closest`, `P_LatticeReal.C26_real_roundtrip`, `P_MatrixCheck.C38_hermitian_examples_refuted`, `P_TimeLoop.C53_end_refuted`, `P_TimeLoop.C53_exact`, `P_TimeLoop.C53_nontermination_refuted`, `P_TimeLoop.C53_passed`, `P_TimeLoop.C53_schedule`, `P_Number.C62_equality`, `P_Number.C62_tolerance`, `P_Positive.C68_nonnegative`, `P_DynamicsKinetic.C68_nonnegative_kinetic`, `P_Stability.C77_full`, `P_Stability.C77_kinetic`, `P_Heisenberg.C78_heisenberg_kinetic`, `P_Rounding.C91_exact`, `P_RoundedMeasurement2.C93_completes_one`, `P_RoundedMeasurement2.C93_completes_three`, `P_RoundedMeasurement2.C93_interleaving_one`, `P_RoundedMeasurement2.C93_interleaving_three`, `P_RoundedMeasurement.C93_one`, `P_RoundedMeasurement.C93_three`, `P_RoundedJump.C95_completes`, `P_RoundedJump.C95_interleaving`, `P_MatrixLog.C102_log`, `P_MatrixLog.C102_percent_refuted`, `P_Symmetry.C110_coefficients`, `P_Symmetry.C110_matrix`, `P_Symmetry.C110_solution`, `P_ParticleHole.C111_coefficients_kinetic`, `P_ParticleHole.C111_time_reversal`, `P_Parameters.C112_coefficients`, `P_Parameters.C112_sign`, `P_Parameters.C112_solution_scaling`, `P_Parameters.C112_solution_sign`, `P_LightCone.C115_coefficients`, `P_LightCone.C115_steps`, `P_Window.C116_coefficients`, `P_Window.C116_steps`, `P_TruncationStrict.C118_strict`, `P_WindowSquare.C119_steps`, `P_Closure.C120_closed`

## `ClassicalDedekindReals.sig_forall_dec`, `ClassicalDedekindReals.sig_not_dec`, `FunctionalExtensionality.functional_extensionality_dep`

`P_LatticeReal.C20_momentum_nearest`, `P_LatticeReal.C20_momentum_roundtrip`, `P_LatticeReal.C22_momentum_closest_below_edge`, `P_LatticeReal.C22_momentum_closest_refuted`, `P_LatticeReal.C26_momentum_roundtrip`, `P_LatticeReal.C26_momentum_value`, `P_LatticeReal.C26_zone_edge_refuted`, `P_Basis.C28_momentum_basis`, `P_Momentum.C35_first_row_exact`, `P_Momentum.C35_matrix`, `P_Momentum.C35_projection`, `P_Expectation.C41_rectangle_refuted`, `P_Expectation.C41_translation`, `P_NonVanishing.C49_delta_sign_refuted`, `P_NonVanishing.C49_support`, `P_NonVanishing.C49_values`, `P_ParticleNumber.C50_closed_form`, `P_ParticleNumber.C50_nonnegative`, `P_NonVanishing.C50_particle_number`, `P_Dispersion.C54_chain`, `P_Dispersion.C54_even`, `P_Dispersion.C54_nesting`, `P_Dispersion.C54_odd_refuted`, `P_Dispersion.C54_spectrum`, `P_Dispersion.C54_square`, `P_Dynamics.C64_momentum_space`, `P_Theory.C79_completes`, `P_Theory.C79_half_filling_refuted`, `P_Theory.C79_value`, `P_MomentumProgram.C82_center`, `P_MomentumProgram.C82_completes`, `P_Trivial.C83_particle_number`, `P_Trivial.C83_particle_number_refuted`, `P_DispersionProgram.C90_file`, `P_DispersionProgram.C90_shipped`, `P_DispersionProgram.C90_table`, `P_DoubleDispersion.C98_fermi_points`, `P_MatrixLog.C102_log_momentum`, `P_MatrixLog.C102_momentum`, `P_TheoryProgram.C105_ideal`, `P_TheoryProgram.C105_start`, `P_AtomicOperator.C109_heisenberg`, `P_JumpLimits.C109_jump`, `P_Atomic.C109_occupation`, `P_AtomicOperator.C109_operator`, `P_Atomic.C109_solution`, `P_ParticleHole.C111_particle_hole`, `P_ParticleHole.C111_phase`, `P_Parameters.C112_jump_1d`, `P_Parameters.C112_jump_2d`, `P_Parameters.C112_occupation`, `P_MomentumLimits.C113_atomic`, `P_MomentumLimits.C113_example`, `P_MomentumLimits.C113_free`, `P_MomentumLimits.C113_scaling`, `P_Rectangle2.C41_tall_refuted`, `P_Rectangle2.C41_wide_refuted`, `P_Closure.C120_distance`, `P_Closure.C120_nearest`

## `ClassicalDedekindReals.sig_forall_dec`, `ClassicalDedekindReals.sig_not_dec`, `Classical_Prop.classic`, `FunctionalExtensionality.functional_extensionality_dep`

`P_Expectation.C41_chain`, `P_Expectation.C41_rectangle`, `P_Expectation.C41_square`, `P_ShippedAverages.C68_shipped_averages_refuted`, `P_Stability.C78_exact_norm`, `P_Stability.C78_full`, `P_Stability.C78_kinetic`, `P_Stability.C78_solution`, `P_Heisenberg.C78_solution_kinetic`, `P_Theory.C79_infinite_chain`, `P_Theory.C79_programs`, `P_Theory.C79_ring`, `P_Theory.C79_ring_refuted`, `P_MomentumProgram.C82_convergence`, `P_Trivial.C83_lines`, `P_Programs.C86_full`, `P_Programs.C86_kinetic`, `P_Programs.C87_completes`, `P_Programs.C87_full`, `P_Programs.C87_kinetic`, `P_Programs.C87_kinetic_completes`, `P_JumpPrograms.C88_chain`, `P_JumpPrograms.C88_chain_completes`, `P_JumpPrograms.C88_square`, `P_JumpPrograms.C88_square_completes`, `P_Rounding.C91_full`, `P_Rounding.C91_full_error`, `P_Rounding.C91_kinetic`, `P_Rounding.C91_kinetic_error`, `P_LatticeDouble.C92_momentum_basis`, `P_LatticeDouble.C92_momentum_inverse`, `P_LatticeDouble.C92_momentum_lookup`, `P_LatticeDouble.C92_momentum_near`, `P_LatticeDouble.C92_real_inverse`, `P_LatticeDouble.C92_real_unit`, `P_RoundedMeasurement3.C93_assert_refuted`, `P_RoundedMeasurement2.C93_double_one`, `P_RoundedMeasurement2.C93_double_three`, `P_RoundedMeasurement2.C93_schedules_one`, `P_RoundedMeasurement2.C93_schedules_three`, `P_RoundedMeasurement4.C93_state_one`, `P_RoundedMeasurement4.C93_state_three`, `P_DoublePrograms.C94_coefficients_full`, `P_DoublePrograms.C94_coefficients_kinetic`, `P_DoublePrograms2.C94_completes`, `P_DoublePrograms.C94_full`, `P_DoublePrograms.C94_kinetic`, `P_DoublePrograms2.C94_kinetic_completes`, `P_DoublePrograms2.C94_table`, `P_RoundedJump.C95_jump`, `P_RoundedJump.C95_schedules`, `P_RoundedJump2.C95_state`, `P_DoubleJumpPrograms.C96_chain`, `P_DoubleJumpPrograms.C96_chain_completes`, `P_DoubleJumpPrograms2.C96_phases`, `P_DoubleJumpPrograms.C96_square`, `P_DoubleJumpPrograms.C96_square_completes`, `P_DoubleDispersion.C98_cosine`, `P_DoubleDispersion.C98_fermi_sea_refuted`, `P_DoubleDispersion.C98_occupation`, `P_DoubleDispersion.C98_table`, `P_DoubleMomentum.C99_fermi_sea_refuted`, `P_DoubleMomentum.C99_program`, `P_DoubleMomentum.C99_regular`, `P_DoubleDispersionProgram.C103_file`, `P_DoubleDispersionProgram.C103_power_refuted`, `P_DoubleTrivial.C104_lines`, `P_DoubleTrivial.C104_shipped`, `P_TheoryProgram.C105_completes`, `P_TheoryProgram.C105_file`, `P_TheoryProgram.C105_more_threads_refuted`, `P_DoubleExpectation.C106_chain`, `P_DoubleExpectation.C106_half_filling_refuted`, `P_DoubleExpectation2.C106_sine`, `P_DoubleExpectation2.C106_square`, `P_DoubleExpectation2.C106_square_table`, `P_DoubleExpectation.C106_table`, `P_DoubleExpectation2.C106_theory_program`, `P_DoubleExpectation.C106_theory_table`, `P_DoubleMain.C107_factors_1d`, `P_DoubleMain.C107_factors_2d`, `P_DoubleMain2.C107_full`, `P_DoubleMain2.C107_jump_1d`, `P_DoubleMain2.C107_jump_1d_completes`, `P_DoubleMain2.C107_jump_2d`, `P_DoubleMain2.C107_jump_2d_completes`, `P_DoubleMain2.C107_kinetic`, `P_DoubleMain.C107_square_table`, `P_DoubleMain2.C107_waves`, `P_OccupationFree.C108_decouples`, `P_OccupationDouble.C108_double`, `P_Occupation.C108_exact`, `P_OccupationFree.C108_free`, `P_OccupationDouble.C108_free_double`, `P_OccupationFree.C108_free_program`, `P_JumpLimits.C108_jump`, `P_JumpLimits.C108_jump_1d`, `P_LimitsDouble.C108_jump_1d_double`, `P_JumpLimits.C108_jump_2d`, `P_LimitsDouble.C108_jump_2d_double`, `P_JumpLimits.C108_jump_refuted`, `P_Occupation.C108_program`, `P_LimitsDouble.C109_double`, `P_JumpLimits.C109_jump_1d`, `P_LimitsDouble.C109_jump_1d_double`, `P_JumpLimits.C109_jump_2d`, `P_LimitsDouble.C109_jump_2d_double`, `P_Atomic.C109_program`, `P_Symmetry.C110_jump`, `P_Symmetry.C110_jump_2d`, `P_ParticleHoleDouble.C111_coefficients_kinetic_double`, `P_Parameters.C112_solution_attraction`, `P_MomentumLimits.C113_free_exact`, `P_TheoryValue.C114_constant`, `P_TheoryValue.C114_decay_refuted`, `P_TheoryValue.C114_example`, `P_TheoryValue.C114_file`, `P_TheoryValue.C114_normalised`, `P_LightCone.C115_exact`, `P_AttractionDouble.C112_attraction_double`, `P_SignDouble.C112_sign_double`, `P_LightConeDouble.C115_coefficients_double`, `P_WindowDouble.C116_coefficients_double`, `P_Grow.C117_chains`, `P_Truncation.C118_closed`, `P_TruncationDouble.C118_coefficients_double`, `P_Truncation.C118_motion`, `P_Truncation.C118_steps`, `P_Truncation.C118_truncation`, `P_WindowSquare.C119_squares`, `P_Ostream.C121_crowded`, `P_Ostream.C121_error`, `P_Ostream.C121_exact`, `P_Ostream.C121_nearest`, `P_Ostream.C121_order`, `P_Ostream.C121_resolved`, `P_Ostream.C121_word`, `P_OutputFile.C122_coefficients_read_back`, `P_OutputPrograms.C122_dispersion`, `P_OutputPrograms.C122_full_coefficients`, `P_OutputPrograms2.C122_full_occupation`, `P_OutputJump.C122_jump_chain`, `P_OutputJump.C122_jump_square`, `P_OutputPrograms.C122_kinetic_coefficients`, `P_OutputPrograms2.C122_kinetic_occupation`, `P_OutputMomentum.C122_momentum`, `P_OutputFile.C122_observable_read_back`, `P_OutputPrograms2.C122_theory`, `P_OutputFile.C122_times_distinct_refuted`, `P_OutputFile.C122_times_increase`, `P_OutputTrivial.C122_trivial`, `P_OutputFile.C122_trivial_read_back`, `P_ContinuityDouble.C123_coefficients`, `P_ContinuityKinetic.C123_kinetic`, `P_ContinuityKinetic.C123_occupation`, `P_Continuity.C123_solution`, `P_ContinuityDouble.C123_written`, `P_ContinuityTime.C123_numerals`, `P_ContinuityTime.C123_time`, `P_ContinuityFile.C123_coefficients_file`, `P_ContinuityFile.C123_occupation_file`
