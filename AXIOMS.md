# Axioms per theorem

Generated by tools/axioms.py from `Print Assumptions`. All axioms are those of Coq's standard library.

## Closed under the global context (no axioms)

* C01_empty_product_panics
* C01_lex_sorted_visits_once
* C01_product_enumerates_box
* C02_node_idx_defined_inside
* C02_node_idx_inverts_pos
* C02_other_ranks_rejected
* C02_pos_inverts_node_idx
* C03_wrap_identity_inside
* C03_wrap_image_independent
* C03_wrap_reduces_into_cell
* C04_freq_injective
* C04_freq_is_principal
* C05_conjugate_exists
* C05_conjugate_involutive
* C05_conjugate_negates_freq
* C06_real_amplitude_self_conjugate
* C06_unique_freq_one_per_pair
* C09_all_domains
* C09_large_domain_refuted
* C09_nearest_seed_partial
* C112_names
* C117_disjoint
* C117_grid_index
* C117_real_part_writes
* C117_real_writes
* C117_writes_outside
* C119_after_solve
* C119_panics
* C119_read_back
* C119_recorded
* C119_same_text
* C120_declared_values_refuted
* C120_files_exist
* C120_index_file
* C120_inline_items
* C120_references
* C121_attributes
* C121_comments
* C121_info
* C121_list
* C121_wide_number_refuted
* C122_crlf_refuted
* C122_read_back
* C122_same_text
* C122_save_and_load
* C13_copy_independent
* C14_adjacent_signs_refuted
* C14_empty_sum_panics
* C14_split_gives_signed_terms
* C15_canonical_text
* C15_order_is_total
* C15_same_factors_sorted
* C16_names_with_operators_rejected
* C16_operators_recovered
* C16_third_power_refuted
* C17_builder_reads_left_side
* C17_eq_number_finds_equation
* C17_sides_of_equation
* C19_bricks_read_own_data_partial
* C19_sync_is_current
* C22_derived_unique
* C25_consecutive_state
* C25_point_monitor
* C25_run_of_solve
* C31_first_save_completes
* C31_records_added
* C31_records_untouched_any_file
* C32_documented_join_refuted
* C34_domain_check_partial
* C34_same_dimension_domain_check
* C34_table_holds_a_domain
* C35_history_of_saves
* C35_load_returns_saved
* C35_prefixes_collide_refuted
* C37_coordinates_identify_row
* C37_load_returns_saved
* C37_longer_field_truncated_refuted
* C37_one_row_per_node
* C37_six_decimals_survive
* C38_entry_shows_field_at_epoch
* C38_index_refers_to_files_written
* C39_count_2d
* C39_count_3d_partial
* C39_count_3d_refuted
* C39_count_in_space_partial
* C39_count_in_the_plane
* C39_other_dimensions
* C39_signed_permutations_each_once
* C40_empty_panics
* C40_single_point
* C42_keys_distinct
* C50_all_comments_partial
* C50_attribute_tables
* C50_comment_96_panics
* C50_comment_complete_refuted
* C50_comment_of_simulation
* C50_comment_table_partial
* C50_comment_update
* C50_comment_update_refuted
* C50_default_simulation
* C50_info_count
* C50_info_extents
* C50_info_list_complete
* C50_info_names
* C50_list_comments_partial
* C50_list_comments_refuted
* C50_list_simulations
* C50_short_comment
* C50_short_comments
* C50_single_attribute_partial
* C50_single_text_refuted
* C50_unique_attributes
* C51_all_steps
* C51_extension
* C51_extension_once
* C52_all_fields_plotted
* C52_colour_range
* C52_contour_partial
* C52_contour_saved_partial
* C52_contour_saved_refuted
* C52_fields_option_refuted
* C52_grid_file
* C52_line_plot
* C52_line_rows
* C52_read_back
* C53_three_dimensions_refuted
* C53_two_dimensions_partial
* C76_advection_names
* C76_divgrad_names
* C76_later_registrations
* C77_currents_partial
* C79_new_solver
* C79_set_stepper
* C82_kinds
* C82_last_registration_partial
* C82_other_kind_refuted
* C82_variable_names
* C83_after_init
* C83_init_again
* C83_num_nodes
* C83_source_range
* C83_sources
* C83_summary

## `ClassicalDedekindReals.sig_forall_dec`

* C117_clear
* C11_no_transformation
* C13_complex_real_part
* C13_complex_round_trip
* C13_every_history
* C13_get_after_set
* C19_several_fields_refuted
* C19_term_fields_read_last
* C25_consecutive_epochs_refuted
* C30_pack_unpacked
* C30_unpack_packed
* C31_one_node_domain_refuted
* C31_other_simulations_untouched
* C31_same_number_drawn_refuted
* C31_saved_fields_read_back_partial
* C33_crash_between_fields_refuted
* C33_other_steps_survive
* C33_single_field_atomic_partial
* C33_whole_fields_partial
* C34_two_in_three_dimensions_refuted
* C45_cubic_partial
* C45_voigt_entries
* C45_voigt_major_symmetry
* C45_voigt_minor_symmetries
* C45_voigt_too_long_panics
* C50_attribute_tables_zero_refuted
* C51_default_step
* C51_export_fields
* C51_export_saved
* C51_export_series
* C51_missing_sample_refuted
* C58_elementwise
* C63_conductivity_is_symmetric
* C76_advection_accepted_partial
* C76_divgrad
* C76_second_divgrad_refuted
* C77_term_currents_refuted
* C80_copy_is_deep
* C80_new_field_partial
* C80_set_float_refuted

## `ClassicalDedekindReals.sig_forall_dec`, `FunctionalExtensionality.functional_extensionality_dep`

* C101_field
* C102_files
* C10_blur_is_weighted_mean
* C10_box_kernel_averages
* C10_box_window
* C10_constants_unchanged
* C10_linear
* C10_range_kept
* C10_sum_conserved
* C111_enough_digits
* C112_tables
* C112_wrong_domain
* C113_database
* C117_blur_real
* C117_blur_real_part
* C11_ball_bounds
* C11_box_bounds
* C11_draw_partial
* C11_identity_image
* C11_inside_ball
* C11_inside_box
* C12_append_order_2d_partial
* C12_append_order_partial
* C12_identity_neutral
* C12_scaling
* C12_translation
* C18_bricks_exist
* C19_product_brick
* C19_product_calculator
* C20_denum_is_sum
* C20_rhs_is_sum_then_modifiers
* C22_update_is_semi_implicit
* C23_stages_read_derived
* C24_terms_suffice
* C26_ends_and_centre
* C27_exact_solution
* C27_householder_denum
* C27_only_solution
* C28_real_space
* C28_reflection_partial
* C28_several_fields_refuted
* C40_every_octant_once
* C42_gradient
* C42_hessian
* C43_deriv_is_derivative
* C43_documented_polynomial
* C45_cubic_minor_symmetry_refuted
* C45_energy_is_invariant
* C45_isotropic_energy
* C45_isotropic_energy_positive
* C45_isotropic_same_in_all_directions
* C45_isotropic_symmetries
* C45_rotation_commutes_with_contraction
* C45_rotation_keeps_symmetries
* C45_rotations_compose
* C48_between_0_and_1_partial
* C48_never_above_1
* C48_non_increasing
* C48_non_negative_refuted
* C48_one_at_zero
* C48_order_one_is_linear
* C49_propagate
* C54_bcc_lattice
* C54_fcc_lattice
* C54_sc_lattice
* C54_triangular_refuted
* C54_volumes_partial
* C58_approximate_equality
* C58_divide
* C58_extremes
* C59_ideal_energy_derivative
* C60_documented_formula
* C60_one_at_threshold_refuted
* C63_documented_order_refuted
* C66_default_penalty
* C66_even_exponent_refuted
* C66_no_penalty_for_positive_values
* C66_penalty_is_derivative_partial
* C67_bulk_weight
* C67_exact_fit
* C67_fit_is_average_of_tensor
* C67_gradient
* C67_known_names
* C67_objective
* C67_reports_averages_partial
* C67_reports_fit_partial
* C67_single_mode_refuted
* C67_starting_point
* C67_unknown_name_panics
* C68_cells_of_the_box_are_visited
* C68_corners
* C70_small_cutoff_refuted
* C72_dot
* C72_indicator
* C75_positive_definite_resists
* C75_voigt_energy
* C75_voxels
* C76_advection
* C76_joined_names_refuted
* C76_second_advection_refuted
* C76_shadowed_velocity_refuted
* C78_affine_accepted_partial
* C78_difference_refuted
* C78_independent_accepted
* C78_init_accepts
* C78_one_field_rejected
* C78_one_frequency_refuted
* C78_scalar_coefficient_refuted
* C78_third_component_refuted
* C79_new_solver_state
* C79_registration_order
* C79_set_stepper_on_new_partial
* C79_set_stepper_restarts_refuted

## `ClassicalDedekindReals.sig_forall_dec`, `ClassicalDedekindReals.sig_not_dec`, `FunctionalExtensionality.functional_extensionality_dep`

* C07_assumed_of_transforms
* C07_real_symmetry_noncubic_refuted
* C07_real_symmetry_partial
* C07_transform_is_unitary
* C07_transform_round_trip
* C08_freq_names_mode_partial
* C08_plane_wave_partial
* C08_three_dimensions_iff_cubic
* C101_function_partial
* C101_function_rk4_partial
* C104_rests
* C105_finds_the_saddle
* C105_from_two_states
* C105_new_search
* C105_orientation
* C105_time_steps_leave_it
* C106_forces_agree
* C106_log
* C106_norms
* C106_records
* C106_same_search
* C106_zero_means_rest
* C107_exact_run
* C107_one_iteration_suffices
* C107_problem
* C108_guess_balances
* C108_run
* C108_step
* C108_zero_conserves
* C116_all_pass
* C116_euler_filter_last_independent
* C116_euler_filter_last_partial
* C116_euler_filter_last_refuted
* C116_implicit_no_effect_partial
* C116_implicit_no_effect_refuted
* C116_linear_modes
* C116_mode_removed
* C116_rk4_filter_last
* C116_same_factors
* C11_draw_leaks_refuted
* C12_angles_add
* C12_append_2d_refuted
* C12_constructors
* C12_rot_z_2d
* C12_rotations_keep_distances
* C12_rotations_turn
* C16_operators_multiply
* C18_constant_between_fields_refuted
* C18_constant_with_LA_refuted
* C18_constants_only_refuted
* C18_function_product_refuted
* C18_operator_before_constant_refuted
* C18_operator_before_later_field_refuted
* C18_panics_refuted
* C18_repeated_field_refuted
* C18_rhs_means_its_text_partial
* C18_similar_constant_refuted
* C21_other_order_refuted
* C21_own_equation_same_order_partial
* C22_euler_coupled_refuted
* C22_euler_documented_scheme_partial
* C22_euler_reads_derived
* C22_euler_sequential_scheme
* C22_euler_single_field
* C23_propagate_time
* C23_rk4_scheme_partial
* C23_solver_time_refuted
* C24_conservative_terms
* C24_euler_conserves_mean
* C24_euler_on_domains
* C24_rk4_conserves_mean
* C24_rk4_on_domains
* C25_euler_time_partial
* C25_rk4_time_refuted
* C25_solver_runs_euler
* C26_init
* C26_initial_orientation
* C26_length_at_least_minimum
* C26_length_starts
* C26_new_not_set_up
* C26_not_set_up
* C26_unit_orientation_every_step
* C29_own_force_partial
* C29_own_force_second_field_refuted
* C30_documented_scheme_refuted
* C30_new_time_refuted
* C30_step_partial
* C30_zero_residual_partial
* C41_cell_change_iff_symmetric_partial
* C41_cell_change_shear_refuted
* C41_hkl_vector
* C41_reciprocal_is_dual
* C42_energy_close_partial
* C42_mode_density
* C42_polynomial_is_average
* C42_solve_returns_best
* C43_split_adds_up_partial
* C43_split_for_every_prefactor
* C43_split_prefactor_refuted
* C44_at_least_every_peak
* C44_equals_one_peak
* C45_angles_add
* C45_rotation_matrices
* C45_sense_of_rotation_refuted
* C46_cubic_material_refuted
* C46_displacement_solves_equilibrium
* C46_isotropic_regular
* C46_strain_symmetric
* C46_stress_in_equilibrium_partial
* C46_zero_frequency
* C48_filter_keeps_mean
* C49_constant_ratio_conserves_partial
* C49_drift_bound_partial
* C49_euler_changes
* C49_euler_drift_partial
* C49_exact_conservation_refuted
* C49_first_two_steps_uncontrolled
* C49_multiplier_cancels_last_forcing
* C49_rk4_steady_partial
* C49_rk4_step_partial
* C49_run_in_time
* C49_runs_complete
* C49_volume_change
* C55_density_012_refuted
* C55_density_partial
* C55_density_right_iff
* C55_negative_index_panics
* C55_order_irrelevant
* C56_documented_force_refuted
* C56_force_partial
* C57_full_turn
* C57_no_new_values
* C57_rotate_source
* C59_flow_decreases_energy
* C59_implicit_and_explicit_agree
* C59_pair_energy_derivative
* C60_damps_partial
* C60_damps_refuted
* C60_low_frequencies_untouched
* C61_divgrad_and_hessian_partial
* C61_divgrad_even_refuted
* C61_euler_keeps_fields_real
* C61_hessian_even_refuted
* C61_package_terms_are_real
* C61_parsed_terms_are_real
* C61_real_iff_conjugate_amplitudes
* C61_rk4_keeps_fields_real
* C61_source_between_nodes_refuted
* C62_advection_is_minus_v_grad
* C62_divgrad_is_divergence_of_weighted_gradient
* C62_gradient_is_derivative
* C62_gradient_keeping_nyquist
* C62_interpolant_at_nodes
* C62_laplacian_is_sum_of_second_derivatives
* C62_squared_gradient_value
* C62_weighted_laplacian_value
* C63_charge_transport_is_ohms_law_partial
* C63_uniform_conductor_relaxes
* C64_source_acts_at_its_node
* C64_source_total
* C65_asymmetric_tensor_refuted
* C65_identity_is_laplacian
* C65_operator_of_symmetric_tensor
* C65_symbol_of_symmetric_tensor_partial
* C67_documented_width_refuted
* C67_peak_width
* C70_circle
* C71_no_tilt
* C71_other_dimensions_panic
* C71_tilt
* C71_values
* C72_argument_kept_refuted
* C72_evaluate_partial
* C72_needs_two
* C72_pure_phase
* C72_real
* C73_even_extent_refuted
* C73_first_step_refuted
* C73_out_of_plane_refuted
* C73_strain_unique
* C73_term_is_energy_derivative_partial
* C74_energy_partial
* C74_even_extent_refuted
* C74_fractional_refuted
* C74_uniform
* C75_inclusion_partial
* C75_matrix_only_partial
* C75_short_misfit
* C75_stiffness_in_place_refuted
* C77_covariance
* C77_documented_strength_refuted
* C77_white_noise_run
* C81_any_order_partial
* C81_late_field_refuted
* C84_derived
* C84_moved_euler
* C84_moved_rk4
* C84_terms
* C85_motion_euler
* C85_motion_rk4
* C85_reactions
* C85_terms
* C86_uniform_follows_the_ode
* C86_uniform_stays_uniform
* C87_constant_pulse_refuted
* C87_euler_step_partial
* C87_right_hand_sides
* C87_rk4_step
* C87_written_exists
* C87_wrong_order_refuted
* C88_steady_forever
* C88_steady_states
* C89_euler_closed_form
* C89_rk4_closed_form
* C89_symbol
* C90_average_kept
* C90_never_grows
* C91_solution_exists
* C92_parts_exist
* C97_implicit
* C99_continued_euler_partial
* C99_continued_rk4

## `ClassicalDedekindReals.sig_forall_dec`, `ClassicalDedekindReals.sig_not_dec`, `Classical_Prop.classic`, `FunctionalExtensionality.functional_extensionality_dep`

* C100_euler
* C100_rk4_frozen
* C100_rk4_partial
* C100_rk4_refuted
* C101_function_refuted
* C101_function_rk4_refuted
* C102_continued_euler_partial
* C102_continued_rk4_partial
* C102_imaginary_parts_refuted
* C103_allen_cahn
* C103_cahn_hilliard
* C103_energy
* C103_large_step_refuted
* C103_small_steps
* C106_norm_of_new_fields_refuted
* C107_error
* C107_stable
* C109_converges
* C109_error_bound
* C109_fixed_point
* C110_fourth_order_partial
* C110_solver_partial
* C110_time_dependent_refuted
* C111_disturbed
* C111_floating_point
* C111_initial_values
* C111_rounding
* C111_solutions
* C112_steppers
* C114_fixed_point_partial
* C114_second_order_partial
* C114_time_dependent_refuted
* C115_all_times_refuted
* C115_allen_cahn
* C115_bounded_runs
* C115_halving
* C115_invariant_region
* C115_runs_converge
* C115_short_time
* C116_filtered_mode_vanishes
* C116_no_convergence
* C118_end_time_partial
* C118_end_time_refuted
* C118_exact
* C118_forward
* C118_forward_limit
* C118_no_accumulation
* C26_length_never_grows
* C26_length_reached
* C26_length_stays_minimum
* C30_update_is_exact_solution
* C36_large_uniform_field_refuted
* C36_max_is_255_refuted
* C36_pixels_partial
* C43_expands_mixing_energy
* C44_between_0_and_1
* C44_one_at_peak_positions
* C44_predefined_lattices
* C44_temperature_damps
* C47_backward_inverts_forward
* C47_forward_increasing
* C47_forward_into_interval
* C47_forward_inverts_backward
* C48_argument_stays_below
* C48_highest_mode_removed_refuted
* C69_package_cells
* C69_periodic_crystal_partial
* C69_periodic_crystal_refuted
* C69_placed_cells
* C70_bounds
* C70_field
* C70_gaussian
* C89_rk4_order_refuted
* C91_error_bound
* C91_limit
* C92_euler_step
* C92_parts
* C92_sum_of_parts
* C93_euler
* C93_renamed_euler
* C93_renamed_rk4
* C93_rk4
* C94_euler
* C94_rk4
* C95_euler_refuted
* C95_rk4_partial
* C96_euler_partial
* C96_laplacian_keeps_total
* C96_linear_exchange_refuted
* C96_linear_exchange_rk4_refuted
* C96_rk4_partial
* C97_euler_partial
* C97_fractional_power_refuted
* C97_natural_powers
* C97_rk4_partial
* C97_whole_exponents
* C98_error_bound
* C98_limit
* C98_natural_powers
* C98_unique
* C98_whole_exponents
* C99_runs_complete
* C99_sources_refuted
