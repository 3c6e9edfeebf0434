{
 "claims": [
  {
   "property": "C01",
   "status": "proved",
   "theorems": [
    "C01_product_enumerates_box",
    "C01_lex_sorted_visits_once",
    "C01_empty_product_panics"
   ],
   "note": ""
  },
  {
   "property": "C02",
   "status": "proved",
   "theorems": [
    "C02_pos_inverts_node_idx",
    "C02_node_idx_defined_inside",
    "C02_node_idx_inverts_pos",
    "C02_other_ranks_rejected"
   ],
   "note": ""
  },
  {
   "property": "C03",
   "status": "proved",
   "theorems": [
    "C03_wrap_reduces_into_cell",
    "C03_wrap_image_independent",
    "C03_wrap_identity_inside"
   ],
   "note": ""
  },
  {
   "property": "C04",
   "status": "proved",
   "theorems": [
    "C04_freq_is_principal",
    "C04_freq_injective"
   ],
   "note": ""
  },
  {
   "property": "C05",
   "status": "proved",
   "theorems": [
    "C05_conjugate_involutive",
    "C05_conjugate_negates_freq",
    "C05_conjugate_exists"
   ],
   "note": ""
  },
  {
   "property": "C06",
   "status": "proved",
   "theorems": [
    "C06_unique_freq_one_per_pair",
    "C06_real_amplitude_self_conjugate"
   ],
   "note": "For extents up to 5*10^9, the limit of the code's tolerance 1e-10."
  },
  {
   "property": "C07",
   "status": "partial",
   "theorems": [
    "C07_assumed_of_transforms",
    "C07_transform_round_trip",
    "C07_transform_is_unitary",
    "C07_real_symmetry_partial",
    "C07_real_symmetry_noncubic_refuted"
   ],
   "note": "Round trip, linearity and Parseval proved for every domain; the symmetry of real fields holds for 2D and cubic domains and fails for other 3D domains (C07_real_symmetry_noncubic_refuted) because the transform is handed the extents in an order Freq and ConjugateNode do not use."
  },
  {
   "property": "C08",
   "status": "partial",
   "theorems": [
    "C08_freq_names_mode_partial",
    "C08_plane_wave_partial",
    "C08_three_dimensions_iff_cubic"
   ],
   "note": "True in 2D; in 3D true exactly for cubes (C08_three_dimensions_iff_cubic)."
  },
  {
   "property": "C09",
   "status": "partial",
   "theorems": [
    "C09_nearest_seed_partial",
    "C09_all_domains",
    "C09_large_domain_refuted"
   ],
   "note": "Proved for domains whose half diagonal is below sqrt(2^31-1); label 0 is given where all seeds are farther (C09_all_domains, C09_large_domain_refuted)."
  },
  {
   "property": "C10",
   "status": "proved",
   "theorems": [
    "C10_blur_is_weighted_mean",
    "C10_constants_unchanged",
    "C10_sum_conserved",
    "C10_range_kept",
    "C10_linear",
    "C10_box_kernel_averages",
    "C10_box_window"
   ],
   "note": "BoxKernel averages 2(Width/2+1)+1 nodes per axis, more than Width (C10_box_window)."
  },
  {
   "property": "C11",
   "status": "partial",
   "theorems": [
    "C11_draw_partial",
    "C11_no_transformation",
    "C11_identity_image",
    "C11_draw_leaks_refuted",
    "C11_inside_box",
    "C11_inside_ball",
    "C11_box_bounds",
    "C11_ball_bounds"
   ],
   "note": "Proved on 3D grids and for transformations whose first two rows do not read z; false on 2D grids otherwise (C11_draw_leaks_refuted)."
  },
  {
   "property": "C12",
   "status": "partial",
   "theorems": [
    "C12_append_order_partial",
    "C12_append_order_2d_partial",
    "C12_append_2d_refuted",
    "C12_constructors",
    "C12_identity_neutral",
    "C12_translation",
    "C12_scaling",
    "C12_rotations_keep_distances",
    "C12_angles_add",
    "C12_rot_z_2d",
    "C12_rotations_turn"
   ],
   "note": "Order of Append proved for 3D points and for 2D points when the second map does not read z; false otherwise (C12_append_2d_refuted). All other parts proved."
  },
  {
   "property": "C13",
   "status": "proved",
   "theorems": [
    "C13_every_history",
    "C13_get_after_set",
    "C13_copy_independent",
    "C13_complex_round_trip",
    "C13_complex_real_part"
   ],
   "note": "Dims is a value in the model; NewGrid keeps the caller's slice of dimensions."
  },
  {
   "property": "C14",
   "status": "proved",
   "theorems": [
    "C14_split_gives_signed_terms",
    "C14_adjacent_signs_refuted",
    "C14_empty_sum_panics"
   ],
   "note": "Adjacent signs are outside the grammar; the code drops the second one (C14_adjacent_signs_refuted)."
  },
  {
   "property": "C15",
   "status": "proved",
   "theorems": [
    "C15_canonical_text",
    "C15_same_factors_sorted",
    "C15_order_is_total"
   ],
   "note": ""
  },
  {
   "property": "C16",
   "status": "proved",
   "theorems": [
    "C16_operators_recovered",
    "C16_operators_multiply",
    "C16_names_with_operators_rejected",
    "C16_third_power_refuted"
   ],
   "note": "For terms whose body is a registered name; bodies that are products of bricks are part of C18."
  },
  {
   "property": "C17",
   "status": "proved",
   "theorems": [
    "C17_builder_reads_left_side",
    "C17_sides_of_equation",
    "C17_eq_number_finds_equation"
   ],
   "note": "For names that do not contain /dt."
  },
  {
   "property": "C18",
   "status": "partial",
   "theorems": [
    "C18_rhs_means_its_text_partial",
    "C18_repeated_field_refuted",
    "C18_similar_constant_refuted",
    "C18_operator_before_constant_refuted",
    "C18_constant_between_fields_refuted",
    "C18_operator_before_later_field_refuted",
    "C18_function_product_refuted",
    "C18_constant_with_LA_refuted",
    "C18_constants_only_refuted",
    "C18_panics_refuted",
    "C18_bricks_exist"
   ],
   "note": "Proved for every sum of the grammar good_equation (any number of equations, items, factors, exponents, operators, registered terms); outside it the code evaluates something else: one theorem C18_..._refuted per kind of deviation, among them products of constants alone (C18_constants_only_refuted)."
  },
  {
   "property": "C19",
   "status": "partial",
   "theorems": [
    "C19_bricks_read_own_data_partial",
    "C19_term_fields_read_last",
    "C19_several_fields_refuted",
    "C19_sync_is_current",
    "C19_product_calculator",
    "C19_product_brick"
   ],
   "note": "False when one term registers several new derived fields (C19_several_fields_refuted); all other histories are proved."
  },
  {
   "property": "C20",
   "status": "proved",
   "theorems": [
    "C20_rhs_is_sum_then_modifiers",
    "C20_denum_is_sum"
   ],
   "note": "For terms and sources that fill the slice they are given, as all terms of the library do."
  },
  {
   "property": "C21",
   "status": "partial",
   "theorems": [
    "C21_own_equation_same_order_partial",
    "C21_other_order_refuted"
   ],
   "note": "Proved when equations are added in the order of the fields; false otherwise (C21_other_order_refuted): steppers pair field i with equation i."
  },
  {
   "property": "C22",
   "status": "partial",
   "theorems": [
    "C22_euler_reads_derived",
    "C22_derived_unique",
    "C22_euler_sequential_scheme",
    "C22_euler_documented_scheme_partial",
    "C22_euler_single_field",
    "C22_update_is_semi_implicit",
    "C22_euler_coupled_refuted"
   ],
   "note": "The exact scheme is proved for every model (C22_euler_sequential_scheme); the documented one holds when no equation reads an earlier field and is false for coupled fields (C22_euler_coupled_refuted)."
  },
  {
   "property": "C23",
   "status": "partial",
   "theorems": [
    "C23_stages_read_derived",
    "C23_solver_time_refuted",
    "C23_rk4_scheme_partial",
    "C23_propagate_time"
   ],
   "note": "Scheme proved (all stages are evaluated at the time of the start of the step); time is right under Propagate of the stepper but does not move under the solver (C23_solver_time_refuted)."
  },
  {
   "property": "C24",
   "status": "proved",
   "theorems": [
    "C24_euler_on_domains",
    "C24_rk4_on_domains",
    "C24_euler_conserves_mean",
    "C24_rk4_conserves_mean",
    "C24_terms_suffice",
    "C24_conservative_terms"
   ],
   "note": "Transforms are any pair with the properties listed in good_transform, which the transform of the program has on every domain (C07_assumed_of_transforms); C24_euler_on_domains and C24_rk4_on_domains assume nothing about the transform."
  },
  {
   "property": "C25",
   "status": "partial",
   "theorems": [
    "C25_run_of_solve",
    "C25_euler_time_partial",
    "C25_rk4_time_refuted",
    "C25_solver_runs_euler",
    "C25_consecutive_state",
    "C25_consecutive_epochs_refuted",
    "C25_point_monitor"
   ],
   "note": "False parts: RK4 time stands still (C25_rk4_time_refuted), consecutive calls repeat epoch numbers (C25_consecutive_epochs_refuted)."
  },
  {
   "property": "C26",
   "status": "proved",
   "theorems": [
    "C26_not_set_up",
    "C26_new_not_set_up",
    "C26_unit_orientation_every_step",
    "C26_initial_orientation",
    "C26_init",
    "C26_length_starts",
    "C26_length_never_grows",
    "C26_length_at_least_minimum",
    "C26_length_reached",
    "C26_length_stays_minimum",
    "C26_ends_and_centre"
   ],
   "note": "The transform is any one with the properties proved in C07_transform_is_unitary."
  },
  {
   "property": "C27",
   "status": "proved",
   "theorems": [
    "C27_exact_solution",
    "C27_only_solution",
    "C27_householder_denum"
   ],
   "note": ""
  },
  {
   "property": "C28",
   "status": "partial",
   "theorems": [
    "C28_reflection_partial",
    "C28_real_space",
    "C28_several_fields_refuted"
   ],
   "note": "Proved for one field (any node count); with several fields each field is transformed with its own part of the orientation, which is not a unit vector (C28_several_fields_refuted)."
  },
  {
   "property": "C29",
   "status": "partial",
   "theorems": [
    "C29_own_force_partial",
    "C29_own_force_second_field_refuted"
   ],
   "note": "True of the first field for every model, false of the others (C29_own_force_second_field_refuted): the force of field 0 is used for all."
  },
  {
   "property": "C30",
   "status": "partial",
   "theorems": [
    "C30_unpack_packed",
    "C30_pack_unpacked",
    "C30_zero_residual_partial",
    "C30_step_partial",
    "C30_update_is_exact_solution",
    "C30_new_time_refuted",
    "C30_documented_scheme_refuted"
   ],
   "note": "Packing proved; a zero of the residual satisfies the exponential-integrator equation with the new fields but the old time (C30_new_time_refuted), which is not the documented scheme (C30_documented_scheme_refuted). The update is the exact solution unless 0 < |a| < 1e-5, where the code switches to a trapezoidal formula."
  },
  {
   "property": "C31",
   "status": "partial",
   "theorems": [
    "C31_other_simulations_untouched",
    "C31_records_untouched_any_file",
    "C31_saved_fields_read_back_partial",
    "C31_first_save_completes",
    "C31_records_added",
    "C31_same_number_drawn_refuted",
    "C31_one_node_domain_refuted"
   ],
   "note": "Proved for every history (any number of FieldDB objects and crashes) on a new file with domains of at least two nodes and one dimension; false when two runs draw the same random number (C31_same_number_drawn_refuted) and on one-node domains (C31_one_node_domain_refuted)."
  },
  {
   "property": "C32",
   "status": "partial",
   "theorems": [
    "C32_documented_join_refuted"
   ],
   "note": "False for every domain: positionId is the node index, positions.id starts at 1. C32_documented_join_refuted gives the exact result of the documented join and the join that is right, for every history."
  },
  {
   "property": "C33",
   "status": "partial",
   "theorems": [
    "C33_crash_between_fields_refuted",
    "C33_whole_fields_partial",
    "C33_other_steps_survive",
    "C33_single_field_atomic_partial"
   ],
   "note": "False for models with several fields (C33_crash_between_fields_refuted). Proved: whole fields at any crash point, other steps survive, single-field models are atomic."
  },
  {
   "property": "C34",
   "status": "partial",
   "theorems": [
    "C34_domain_check_partial",
    "C34_same_dimension_domain_check",
    "C34_table_holds_a_domain",
    "C34_two_in_three_dimensions_refuted"
   ],
   "note": "The exact acceptance condition is proved; it is equality of domains for equal dimension, and false when a 2D domain meets a 3D file (C34_two_in_three_dimensions_refuted)."
  },
  {
   "property": "C35",
   "status": "proved",
   "theorems": [
    "C35_load_returns_saved",
    "C35_history_of_saves",
    "C35_prefixes_collide_refuted"
   ],
   "note": "For one prefix; files of different prefixes can coincide (C35_prefixes_collide_refuted). Uint8IO uses the same file names as Float64IO."
  },
  {
   "property": "C36",
   "status": "partial",
   "theorems": [
    "C36_pixels_partial",
    "C36_max_is_255_refuted",
    "C36_large_uniform_field_refuted"
   ],
   "note": "Proved in IEEE binary64 arithmetic. False parts: the maximum is mapped to 254 for some fields (C36_max_is_255_refuted), uniform fields of large values give undefined bytes (C36_large_uniform_field_refuted)."
  },
  {
   "property": "C37",
   "status": "proved",
   "theorems": [
    "C37_one_row_per_node",
    "C37_coordinates_identify_row",
    "C37_load_returns_saved",
    "C37_six_decimals_survive",
    "C37_longer_field_truncated_refuted"
   ],
   "note": "encoding/csv is trusted to give back the records written; numbers are exact rationals. Only the first field's length is checked (C37_longer_field_truncated_refuted)."
  },
  {
   "property": "C38",
   "status": "proved",
   "theorems": [
    "C38_index_refers_to_files_written",
    "C38_entry_shows_field_at_epoch"
   ],
   "note": "The XML encoder is not modelled."
  },
  {
   "property": "C39",
   "status": "partial",
   "theorems": [
    "C39_count_in_the_plane",
    "C39_count_in_space_partial",
    "C39_other_dimensions",
    "C39_signed_permutations_each_once",
    "C39_count_3d_partial",
    "C39_count_3d_refuted",
    "C39_count_2d"
   ],
   "note": "EquivalentMiller and the 2D count are right for all indices; NumEquivalent3D is right exactly when not |H|=|L|<>|K| (C39_count_3d_refuted)."
  },
  {
   "property": "C40",
   "status": "proved",
   "theorems": [
    "C40_every_octant_once",
    "C40_single_point",
    "C40_empty_panics"
   ],
   "note": "The starting point must have at least one coordinate (C40_empty_panics)."
  },
  {
   "property": "C41",
   "status": "partial",
   "theorems": [
    "C41_reciprocal_is_dual",
    "C41_hkl_vector",
    "C41_cell_change_iff_symmetric_partial",
    "C41_cell_change_shear_refuted"
   ],
   "note": "Duality and Miller vectors proved in every dimension; CellChange is right to first order exactly for symmetric changes of the cell (C41_cell_change_iff_symmetric_partial, C41_cell_change_shear_refuted). The inverse returned by gonum is taken to be the inverse."
  },
  {
   "property": "C42",
   "status": "partial",
   "theorems": [
    "C42_mode_density",
    "C42_keys_distinct",
    "C42_polynomial_is_average",
    "C42_energy_close_partial",
    "C42_gradient",
    "C42_hessian",
    "C42_solve_returns_best"
   ],
   "note": "The polynomial of all terms is the quadrature average; gradient and Hessian proved. The terms below 1e-4 of the largest are dropped, so what is minimised equals the average only up to the stated bound."
  },
  {
   "property": "C43",
   "status": "partial",
   "theorems": [
    "C43_deriv_is_derivative",
    "C43_documented_polynomial",
    "C43_expands_mixing_energy",
    "C43_split_adds_up_partial",
    "C43_split_for_every_prefactor",
    "C43_split_prefactor_refuted"
   ],
   "note": "Derivative and expansion proved. The split adds up for Prefactor 1; for other prefactors the nonlinear part misses the Prefactor (C43_split_prefactor_refuted, C43_split_for_every_prefactor)."
  },
  {
   "property": "C44",
   "status": "proved",
   "theorems": [
    "C44_between_0_and_1",
    "C44_at_least_every_peak",
    "C44_equals_one_peak",
    "C44_temperature_damps",
    "C44_one_at_peak_positions",
    "C44_predefined_lattices"
   ],
   "note": "For peaks with positive PlaneDensity*NumPlanes, which the predefined lattices have."
  },
  {
   "property": "C45",
   "status": "partial",
   "theorems": [
    "C45_isotropic_symmetries",
    "C45_isotropic_same_in_all_directions",
    "C45_isotropic_energy",
    "C45_isotropic_energy_positive",
    "C45_voigt_entries",
    "C45_voigt_minor_symmetries",
    "C45_voigt_major_symmetry",
    "C45_voigt_too_long_panics",
    "C45_rotation_keeps_symmetries",
    "C45_rotations_compose",
    "C45_rotation_commutes_with_contraction",
    "C45_energy_is_invariant",
    "C45_rotation_matrices",
    "C45_angles_add",
    "C45_cubic_partial",
    "C45_cubic_minor_symmetry_refuted",
    "C45_sense_of_rotation_refuted"
   ],
   "note": "Isotropic and Voigt tensors, rotation, contraction and energy proved for all constants and orthogonal matrices. CubicMaterial lacks the minor symmetries (C45_cubic_minor_symmetry_refuted); RotationMatrix turns the other way about axis 1 (C45_sense_of_rotation_refuted)."
  },
  {
   "property": "C46",
   "status": "partial",
   "theorems": [
    "C46_displacement_solves_equilibrium",
    "C46_zero_frequency",
    "C46_strain_symmetric",
    "C46_stress_in_equilibrium_partial",
    "C46_isotropic_regular",
    "C46_cubic_material_refuted"
   ],
   "note": "Proved for every frequency whose components keep 1e-10 away from the Nyquist frequency, where Strain drops components, and tensors with the minor symmetry; false for CubicMaterial (C46_cubic_material_refuted). gonum's Solve is taken as an exact solver of regular systems."
  },
  {
   "property": "C47",
   "status": "proved",
   "theorems": [
    "C47_forward_into_interval",
    "C47_backward_inverts_forward",
    "C47_forward_inverts_backward",
    "C47_forward_increasing"
   ],
   "note": "The doc comment says +1 where the code (correctly) uses +0.5."
  },
  {
   "property": "C48",
   "status": "partial",
   "theorems": [
    "C48_one_at_zero",
    "C48_non_increasing",
    "C48_between_0_and_1_partial",
    "C48_never_above_1",
    "C48_non_negative_refuted",
    "C48_order_one_is_linear",
    "C48_filter_keeps_mean",
    "C48_argument_stays_below",
    "C48_highest_mode_removed_refuted"
   ],
   "note": "1 at zero, at most 1, non-increasing for every order; non-negative for orders 1-3, negative at the end of the table of order 4 (C48_non_negative_refuted). ApplyModalFilter passes |f|*2/pi, which stays below 3/5, so no mode is removed."
  },
  {
   "property": "C49",
   "status": "partial",
   "theorems": [
    "C49_multiplier_cancels_last_forcing",
    "C49_volume_change",
    "C49_drift_bound_partial",
    "C49_constant_ratio_conserves_partial",
    "C49_first_two_steps_uncontrolled",
    "C49_exact_conservation_refuted",
    "C49_run_in_time",
    "C49_runs_complete",
    "C49_propagate",
    "C49_euler_changes",
    "C49_euler_drift_partial",
    "C49_rk4_step_partial",
    "C49_rk4_steady_partial"
   ],
   "note": "Exactly conserved when forcing/indicator is constant, otherwise up to the stated bound; exact conservation is false (C49_exact_conservation_refuted), and the first two steps are uncontrolled. Proved for any number of fields: exact formula for the change in each Euler step with the drift bound, exact formula for an RK4 step, and exact conservation with RK4 when rate and indicator are steady (RK4 corrects with the indicator of its last stage only, so nothing stronger holds). Assumes that the multiplier term is the last of its equation, that no modifier acts on that equation and that its implicit terms vanish at zero frequency."
  },
  {
   "property": "C50",
   "status": "partial",
   "theorems": [
    "C50_list_simulations",
    "C50_default_simulation",
    "C50_comment_of_simulation",
    "C50_comment_update",
    "C50_list_comments_partial",
    "C50_list_comments_refuted",
    "C50_comment_update_refuted",
    "C50_comment_table_partial",
    "C50_short_comment",
    "C50_comment_96_panics",
    "C50_comment_complete_refuted",
    "C50_attribute_tables",
    "C50_attribute_tables_zero_refuted",
    "C50_single_attribute_partial",
    "C50_single_text_refuted",
    "C50_info_list_complete",
    "C50_info_extents",
    "C50_all_comments_partial",
    "C50_short_comments",
    "C50_info_names",
    "C50_info_count",
    "C50_unique_attributes"
   ],
   "note": "False parts: a simulation without a comment is listed with the comment of the line above (C50_list_comments_refuted), --new stores nothing when there is no comment (C50_comment_update_refuted), comments of 96 bytes panic (C50_comment_96_panics), the end of long comments is lost (C50_comment_complete_refuted), single text attributes are shown empty (C50_single_text_refuted), --simid 0 lists numbers of all simulations (C50_attribute_tables_zero_refuted)."
  },
  {
   "property": "C51",
   "status": "proved",
   "theorems": [
    "C51_export_series",
    "C51_missing_sample_refuted",
    "C51_export_fields",
    "C51_export_saved",
    "C51_default_step",
    "C51_all_steps",
    "C51_extension",
    "C51_extension_once"
   ],
   "note": "Missing samples are written as zero (C51_missing_sample_refuted); negative time steps panic. C51_extension is about appendFileExtension, which the program does not call."
  },
  {
   "property": "C52",
   "status": "partial",
   "theorems": [
    "C52_read_back",
    "C52_line_plot",
    "C52_line_rows",
    "C52_fields_option_refuted",
    "C52_all_fields_plotted",
    "C52_colour_range",
    "C52_contour_partial",
    "C52_contour_saved_partial",
    "C52_contour_saved_refuted",
    "C52_grid_file"
   ],
   "note": "Line plots proved for every SaveCsv file. The contour plot ignores its index table: it is right when x varies fastest, transposed or scrambled for SaveCsv files (C52_contour_saved_refuted). Option -d of lineplot is ignored (C52_fields_option_refuted). 2D files of Grid.SaveCsv cannot be read (C52_grid_file)."
  },
  {
   "property": "C53",
   "status": "partial",
   "theorems": [
    "C53_two_dimensions_partial",
    "C53_three_dimensions_refuted"
   ],
   "note": "True in two dimensions, false in three (C53_three_dimensions_refuted): the third coordinate varies slowest in memory."
  },
  {
   "property": "C54",
   "status": "partial",
   "theorems": [
    "C54_sc_lattice",
    "C54_fcc_lattice",
    "C54_bcc_lattice",
    "C54_volumes_partial",
    "C54_triangular_refuted"
   ],
   "note": "Proved for the cubic cells; false for Triangular2D (C54_triangular_refuted): its second vector is (a/2, a/2)."
  },
  {
   "property": "C55",
   "status": "partial",
   "theorems": [
    "C55_density_partial",
    "C55_order_irrelevant",
    "C55_density_right_iff",
    "C55_density_012_refuted",
    "C55_negative_index_panics"
   ],
   "note": "Right for components 0 and 1; with larger components the area of the intercept triangle is used and the result is too large (C55_density_right_iff, C55_density_012_refuted); negative components panic."
  },
  {
   "property": "C56",
   "status": "partial",
   "theorems": [
    "C56_force_partial",
    "C56_documented_force_refuted"
   ],
   "note": "False (C56_documented_force_refuted): the frequency of the force component is used for every j. C56_force_partial is the exact result."
  },
  {
   "property": "C57",
   "status": "proved",
   "theorems": [
    "C57_rotate_source",
    "C57_no_new_values",
    "C57_full_turn"
   ],
   "note": "The picture turns by minus the angle when axis 0 is x and axis 1 is y: node p reads the position turned by plus the angle."
  },
  {
   "property": "C58",
   "status": "proved",
   "theorems": [
    "C58_elementwise",
    "C58_divide",
    "C58_extremes",
    "C58_approximate_equality"
   ],
   "note": ""
  },
  {
   "property": "C59",
   "status": "proved",
   "theorems": [
    "C59_ideal_energy_derivative",
    "C59_pair_energy_derivative",
    "C59_implicit_and_explicit_agree",
    "C59_flow_decreases_energy"
   ],
   "note": "The ideal-mixture part of the flow statement needs Prefactor 1 (see C43)."
  },
  {
   "property": "C60",
   "status": "partial",
   "theorems": [
    "C60_low_frequencies_untouched",
    "C60_documented_formula",
    "C60_damps_partial",
    "C60_damps_refuted",
    "C60_one_at_threshold_refuted"
   ],
   "note": "The interpolant 2x^2-3x^3 is negative between 7m/9 and m and -1 at m, so modes there grow (C60_damps_refuted, C60_one_at_threshold_refuted)."
  },
  {
   "property": "C61",
   "status": "partial",
   "theorems": [
    "C61_real_iff_conjugate_amplitudes",
    "C61_euler_keeps_fields_real",
    "C61_rk4_keeps_fields_real",
    "C61_parsed_terms_are_real",
    "C61_package_terms_are_real",
    "C61_divgrad_and_hessian_partial",
    "C61_divgrad_even_refuted",
    "C61_hessian_even_refuted",
    "C61_source_between_nodes_refuted"
   ],
   "note": "Proved for Euler and RK4 and for the terms of the package except DivGrad and TensorialHessian with cross terms on even extents, which produce imaginary parts at the Nyquist frequency (C61_divgrad_even_refuted, C61_hessian_even_refuted), and sources between nodes (C61_source_between_nodes_refuted); both terms are real when every extent is odd."
  },
  {
   "property": "C62",
   "status": "proved",
   "theorems": [
    "C62_interpolant_at_nodes",
    "C62_gradient_is_derivative",
    "C62_gradient_keeping_nyquist",
    "C62_laplacian_is_sum_of_second_derivatives",
    "C62_divgrad_is_divergence_of_weighted_gradient",
    "C62_advection_is_minus_v_grad",
    "C62_weighted_laplacian_value",
    "C62_squared_gradient_value"
   ],
   "note": "Extents up to 5e9 so that the tolerance 1e-10 singles out the Nyquist frequency. DivGrad keeps the Nyquist frequency in the outer derivative."
  },
  {
   "property": "C63",
   "status": "partial",
   "theorems": [
    "C63_charge_transport_is_ohms_law_partial",
    "C63_uniform_conductor_relaxes",
    "C63_documented_order_refuted",
    "C63_conductivity_is_symmetric"
   ],
   "note": "Poisson's equation carries the regularisation 2 pi 1e-16 phi of the code. In 3D entries 3 and 4 of the conductivity are swapped with respect to the documentation (C63_documented_order_refuted)."
  },
  {
   "property": "C64",
   "status": "proved",
   "theorems": [
    "C64_source_acts_at_its_node",
    "C64_source_total"
   ],
   "note": ""
  },
  {
   "property": "C65",
   "status": "partial",
   "theorems": [
    "C65_symbol_of_symmetric_tensor_partial",
    "C65_operator_of_symmetric_tensor",
    "C65_asymmetric_tensor_refuted",
    "C65_identity_is_laplacian"
   ],
   "note": "Proved for symmetric tensors; the lower triangle is ignored, so the statement is false for other tensors (C65_asymmetric_tensor_refuted)."
  },
  {
   "property": "C66",
   "status": "partial",
   "theorems": [
    "C66_penalty_is_derivative_partial",
    "C66_no_penalty_for_positive_values",
    "C66_even_exponent_refuted",
    "C66_default_penalty"
   ],
   "note": "Proved for odd exponents (at x = 0 for exponents from 3); false for even exponents (C66_even_exponent_refuted)."
  },
  {
   "property": "C67",
   "status": "partial",
   "theorems": [
    "C67_starting_point",
    "C67_bulk_weight",
    "C67_fit_is_average_of_tensor",
    "C67_gradient",
    "C67_reports_fit_partial",
    "C67_reports_averages_partial",
    "C67_known_names",
    "C67_objective",
    "C67_exact_fit",
    "C67_unknown_name_panics",
    "C67_single_mode_refuted",
    "C67_peak_width",
    "C67_documented_width_refuted"
   ],
   "note": "In three dimensions the reported values are the averages the names stand for; what is minimised is the squared misfit plus a penalty only when there are fewer targets than modes. Panics with a single mode (C67_single_mode_refuted); the width formula in the comment is not the one used (C67_documented_width_refuted)."
  },
  {
   "property": "C68",
   "status": "proved",
   "theorems": [
    "C68_corners",
    "C68_cells_of_the_box_are_visited"
   ],
   "note": "Solve of gonum is represented by the inverse matrix."
  },
  {
   "property": "C69",
   "status": "partial",
   "theorems": [
    "C69_placed_cells",
    "C69_periodic_crystal_partial",
    "C69_package_cells",
    "C69_periodic_crystal_refuted"
   ],
   "note": "Proved for all cells of the package with a lattice parameter from 1/2 and boxes of whole cells, and for every cell whose coordinates are multiples of a length not below half of the third root of the volume; false in general, because cells closer than that to an upper side are dropped (C69_periodic_crystal_refuted). The exact set of placed cells is proved for every box."
  },
  {
   "property": "C70",
   "status": "proved",
   "theorems": [
    "C70_field",
    "C70_gaussian",
    "C70_circle",
    "C70_bounds",
    "C70_small_cutoff_refuted"
   ],
   "note": "For cutoffs from 1/2; with smaller ones the loop does not end (C70_small_cutoff_refuted). The circle kernel reaches one node beyond its radius (C70_circle)."
  },
  {
   "property": "C71",
   "status": "proved",
   "theorems": [
    "C71_tilt",
    "C71_no_tilt",
    "C71_values",
    "C71_other_dimensions_panic"
   ],
   "note": ""
  },
  {
   "property": "C72",
   "status": "partial",
   "theorems": [
    "C72_indicator",
    "C72_dot",
    "C72_evaluate_partial",
    "C72_real",
    "C72_pure_phase",
    "C72_needs_two",
    "C72_argument_kept_refuted"
   ],
   "note": "All but the last clause: the concentration passed in is replaced by its inverse transform (C72_argument_kept_refuted)."
  },
  {
   "property": "C73",
   "status": "partial",
   "theorems": [
    "C73_term_is_energy_derivative_partial",
    "C73_strain_unique",
    "C73_first_step_refuted",
    "C73_out_of_plane_refuted",
    "C73_even_extent_refuted"
   ],
   "note": "Proved once a step is finished, for odd extents (2D, cubes) and stresses that do not couple a 2D plane to the third axis. Refuted for the first step (the field is taken as zero) and for 2D misfits that tilt the third axis. False for even extents, where the strain of waves at the Nyquist frequency is dropped (C73_even_extent_refuted)."
  },
  {
   "property": "C74",
   "status": "partial",
   "theorems": [
    "C74_energy_partial",
    "C74_uniform",
    "C74_even_extent_refuted",
    "C74_fractional_refuted"
   ],
   "note": "Proved for indicators of zeros and ones and odd extents (2D, cubes); refuted for fractional indicators (C74_fractional_refuted) and even extents (C74_even_extent_refuted)."
  },
  {
   "property": "C75",
   "status": "partial",
   "theorems": [
    "C75_voxels",
    "C75_matrix_only_partial",
    "C75_inclusion_partial",
    "C75_short_misfit",
    "C75_stiffness_in_place_refuted",
    "C75_voigt_energy",
    "C75_positive_definite_resists"
   ],
   "note": "Voxels, Voigt input and the value without inclusion tensor for odd box sizes. With an inclusion tensor its stiffness is used outside too (C75_inclusion_partial, C75_stiffness_in_place_refuted). The perturbed displacements are covered by C56 only. The sfft transform is represented by the same DFT, its layout by a parameter."
  },
  {
   "property": "C76",
   "status": "partial",
   "theorems": [
    "C76_advection_names",
    "C76_advection",
    "C76_advection_accepted_partial",
    "C76_later_registrations",
    "C76_shadowed_velocity_refuted",
    "C76_second_advection_refuted",
    "C76_joined_names_refuted",
    "C76_divgrad",
    "C76_divgrad_names",
    "C76_second_divgrad_refuted"
   ],
   "note": "Proved for any history when no velocity has the name of a gradient and later names are new. False for a velocity called like a gradient (C76_shadowed_velocity_refuted), for a second advection of the same field (C76_second_advection_refuted: the first then reads data from before the update), for velocity names that join to the same text (C76_joined_names_refuted) and for a second DivGrad of the same field (C76_second_divgrad_refuted: both use the second function). Scalars as velocities are not modelled."
  },
  {
   "property": "C77",
   "status": "partial",
   "theorems": [
    "C77_currents_partial",
    "C77_term_currents_refuted",
    "C77_white_noise_run",
    "C77_covariance",
    "C77_documented_strength_refuted"
   ],
   "note": "Currents registered one by one are independent; registered with the term they are all the last one (C77_term_currents_refuted). The accumulated variance is 2 Strength T dt, so the documented strength holds only for dt = 1 (C77_documented_strength_refuted). The random numbers are any uncorrelated standardised ones."
  },
  {
   "property": "C78",
   "status": "partial",
   "theorems": [
    "C78_independent_accepted",
    "C78_init_accepts",
    "C78_affine_accepted_partial",
    "C78_one_field_rejected",
    "C78_difference_refuted",
    "C78_one_frequency_refuted",
    "C78_scalar_coefficient_refuted",
    "C78_third_component_refuted"
   ],
   "note": "Terms without bricks are accepted, and the exact condition for affine terms is proved. False in general: differences of fields and terms that vanish at the frequency (0.4, 0.4) pass (C78_difference_refuted, C78_one_frequency_refuted), constants of the model are rejected (C78_scalar_coefficient_refuted), terms that read the third frequency panic (C78_third_component_refuted)."
  },
  {
   "property": "C79",
   "status": "partial",
   "theorems": [
    "C79_new_solver",
    "C79_new_solver_state",
    "C79_set_stepper",
    "C79_set_stepper_on_new_partial",
    "C79_set_stepper_restarts_refuted",
    "C79_registration_order"
   ],
   "note": "All proved but the last clause: after steps or SetFilter, SetStepper sets the time to zero and drops the filter (C79_set_stepper_restarts_refuted)."
  },
  {
   "property": "C80",
   "status": "partial",
   "theorems": [
    "C80_new_field_partial",
    "C80_copy_is_deep",
    "C80_set_float_refuted"
   ],
   "note": "All proved but the last clause: SetFloat works on a copy and changes nothing (C80_set_float_refuted)."
  },
  {
   "property": "C81",
   "status": "partial",
   "theorems": [
    "C81_any_order_partial",
    "C81_late_field_refuted"
   ],
   "note": "Proved when the fields come first. A field added after an equation that uses it silently changes the product to 1 (C81_late_field_refuted)."
  },
  {
   "property": "C82",
   "status": "partial",
   "theorems": [
    "C82_variable_names",
    "C82_kinds",
    "C82_last_registration_partial",
    "C82_other_kind_refuted"
   ],
   "note": "Proved for terms of one kind. A name registered again as another kind keeps the first of implicit, explicit, mixed (C82_other_kind_refuted). C82_variable_names: AllVariableNames."
  },
  {
   "property": "C83",
   "status": "proved",
   "theorems": [
    "C83_num_nodes",
    "C83_sources",
    "C83_source_range",
    "C83_init_again",
    "C83_after_init",
    "C83_summary"
   ],
   "note": "The widths of the columns of the summary are those of the program; the statement is about the texts between the bars. C83_num_nodes: NumNodes."
  },
  {
   "property": "C84",
   "status": "proved",
   "theorems": [
    "C84_moved_euler",
    "C84_moved_rk4",
    "C84_terms",
    "C84_derived"
   ],
   "note": "The transform is the exact DFT. On other three-dimensional domains the transform has the wrong layout (C07, C08). DivGrad and user functions may depend on the position when that dependence is moved too."
  },
  {
   "property": "C85",
   "status": "proved",
   "theorems": [
    "C85_motion_euler",
    "C85_motion_rk4",
    "C85_terms",
    "C85_reactions"
   ],
   "note": "Domains as in C84; the exchanged axes are neighbours (others are compositions)."
  },
  {
   "property": "C86",
   "status": "proved",
   "theorems": [
    "C86_uniform_stays_uniform",
    "C86_uniform_follows_the_ode"
   ],
   "note": "The filter enters with its value at zero frequency. The fields are overwritten one after the other, as in the program: a later equation sees the new values of fields, and derived fields of the old ones."
  },
  {
   "property": "C87",
   "status": "partial",
   "theorems": [
    "C87_right_hand_sides",
    "C87_written_exists",
    "C87_euler_step_partial",
    "C87_rk4_step",
    "C87_wrong_order_refuted",
    "C87_constant_pulse_refuted"
   ],
   "note": "Proved for equations in the order of the fields, for Euler steps of the first field and RK4 steps of all fields. Later fields of an Euler step see the new values of the earlier ones (C22_euler_coupled_refuted). Equation number i drives field number i whatever its left-hand side (C87_wrong_order_refuted), and a constant rate is applied to the first node only (C87_constant_pulse_refuted). Registered terms bring at most one derived field (C19, C76)."
  },
  {
   "property": "C88",
   "status": "proved",
   "theorems": [
    "C88_steady_states",
    "C88_steady_forever"
   ],
   "note": "Without modal filter. The equations are in the order of the fields; in another order it is false (C87_wrong_order_refuted)."
  },
  {
   "property": "C89",
   "status": "proved",
   "theorems": [
    "C89_symbol",
    "C89_euler_closed_form",
    "C89_rk4_closed_form",
    "C89_rk4_order_refuted"
   ],
   "note": "Without modal filter, registered terms and sources; equations in the order of the fields. C89_rk4_order_refuted shows the last sentence: the error of one RK4 step for dc/dt = -c is at least h^2/18."
  },
  {
   "property": "C90",
   "status": "proved",
   "theorems": [
    "C90_never_grows",
    "C90_average_kept"
   ],
   "note": "For transforms that preserve inner products (the exact DFT of any domain, C07)."
  },
  {
   "property": "C91",
   "status": "proved",
   "theorems": [
    "C91_error_bound",
    "C91_limit",
    "C91_solution_exists"
   ],
   "note": "Real symbols; without modal filter, registered terms and sources; transforms that preserve inner products (the exact DFT of any domain, C07). Arithmetic is exact: rounding is not modelled."
  },
  {
   "property": "C92",
   "status": "proved",
   "theorems": [
    "C92_parts",
    "C92_parts_exist",
    "C92_sum_of_parts",
    "C92_euler_step"
   ],
   "note": "Without modal filter; equations in the order of the fields. C92_nonvacuous evaluates a step of two coupled fields in which the same field enters one equation with its old value in a product and with its new value alone."
  },
  {
   "property": "C93",
   "status": "proved",
   "theorems": [
    "C93_euler",
    "C93_rk4",
    "C93_renamed_euler",
    "C93_renamed_rk4"
   ],
   "note": "Equations in the order of the fields. Functions and registered terms correspond if they return the same values; RK4 with implicit terms that do not read fields (as in C87)."
  },
  {
   "property": "C94",
   "status": "proved",
   "theorems": [
    "C94_euler",
    "C94_rk4"
   ],
   "note": "Equations in the order of the fields; functions and registered terms that are mentioned must read only fields of the set. RK4 with implicit terms that do not read fields (as in C87)."
  },
  {
   "property": "C95",
   "status": "partial",
   "theorems": [
    "C95_rk4_partial",
    "C95_euler_refuted"
   ],
   "note": "True of RK4 (C95_rk4_partial), false of Euler (C95_euler_refuted): each field is stepped with the new values of the fields declared before it. C93_euler covers changes that keep the order of the fields."
  },
  {
   "property": "C96",
   "status": "partial",
   "theorems": [
    "C96_euler_partial",
    "C96_rk4_partial",
    "C96_laplacian_keeps_total",
    "C96_linear_exchange_refuted",
    "C96_linear_exchange_rk4_refuted"
   ],
   "note": "Proved for Euler if no product without Laplacian is a single field (C96_euler_partial) and for RK4 if none is linear in the field of its own equation (C96_rk4_partial). Otherwise false (C96_linear_exchange_refuted, C96_linear_exchange_rk4_refuted): a linear exchange between two fields is implicit in one equation and explicit in the other. Without modal filter; equations in the order of the fields; registered terms must carry a Laplacian."
  },
  {
   "property": "C97",
   "status": "partial",
   "theorems": [
    "C97_implicit",
    "C97_euler_partial",
    "C97_rk4_partial",
    "C97_natural_powers",
    "C97_whole_exponents",
    "C97_fractional_power_refuted"
   ],
   "note": "Proved if powers of real values that occur are real (C97_euler_partial, C97_rk4_partial), which holds for whole exponents (C97_natural_powers, C97_whole_exponents). False for fractional powers of negative values (C97_fractional_power_refuted). Two- and three-dimensional domains with the layout of C61; RK4 with implicit terms that do not read fields. With ImplicitEuler fields are always real (C97_implicit)."
  },
  {
   "property": "C98",
   "status": "proved",
   "theorems": [
    "C98_error_bound",
    "C98_limit",
    "C98_natural_powers",
    "C98_whole_exponents",
    "C98_unique"
   ],
   "note": "Equations of products (no registered terms), in the order of the fields, without modal filter; exact arithmetic; RK4 with implicit terms that do not read fields (trivial without registered terms). C98_unique: the equations determine the fields, so the limit does not depend on the choice of the solution."
  },
  {
   "property": "C99",
   "status": "partial",
   "theorems": [
    "C99_continued_euler_partial",
    "C99_continued_rk4",
    "C99_runs_complete",
    "C99_sources_refuted"
   ],
   "note": "RK4: proved for every model (C99_continued_rk4). Euler: proved if terms and sources do not depend on time (C99_continued_euler_partial); otherwise false because the clock of a new solver starts at 0 (C99_sources_refuted). Fields are handed over exactly (as complex numbers); C35 is about files and C102 combines both."
  },
  {
   "property": "C100",
   "status": "partial",
   "theorems": [
    "C100_euler",
    "C100_rk4_frozen",
    "C100_rk4_partial",
    "C100_rk4_refuted"
   ],
   "note": "Euler: proved (C100_euler). RK4: its clock stands still under Solve, so runs converge to the solution of the equations with the sources of time 0 (C100_rk4_frozen), hence to the solution if nothing depends on time (C100_rk4_partial), and not to the solution otherwise (C100_rk4_refuted, on every domain). Without registered terms and modal filter (as C98)."
  },
  {
   "property": "C101",
   "status": "partial",
   "theorems": [
    "C101_field",
    "C101_function_partial",
    "C101_function_rk4_partial",
    "C101_function_refuted",
    "C101_function_rk4_refuted"
   ],
   "note": "Fields: proved for every stepper (C101_field). Registered functions with Euler: the monitor holds a Fourier amplitude of the function before the last step of the epoch (C101_function_partial), for example zeros for a function that is 1 everywhere (C101_function_refuted). With RK4 it is the same amplitude of the function at the fields that the last stage of the last step predicts (C101_function_rk4_partial, C101_function_rk4_refuted), for models whose registered implicit terms do not depend on the fields."
  },
  {
   "property": "C102",
   "status": "partial",
   "theorems": [
    "C102_files",
    "C102_continued_euler_partial",
    "C102_continued_rk4_partial",
    "C102_imaginary_parts_refuted"
   ],
   "note": "The files: proved for every stepper and model (C102_files). Continuing: proved under the conditions of C97 (real fields stay real) and, for Euler, C99 (nothing depends on time); values are among those float64 patterns stand for (C102_continued_euler_partial, C102_continued_rk4_partial). False if fields become complex, because imaginary parts are not saved (C102_imaginary_parts_refuted)."
  },
  {
   "property": "C103",
   "status": "proved",
   "theorems": [
    "C103_energy",
    "C103_allen_cahn",
    "C103_cahn_hilliard",
    "C103_small_steps",
    "C103_large_step_refuted"
   ],
   "note": "C103_energy is the general statement (one exponent p for each field, no sources, no registered terms, no modal filter, values in a set on which the curvature is bounded); C103_allen_cahn and C103_cahn_hilliard give explicit step sizes for values between -b and b; C103_small_steps has no hypothesis about the run. Large steps do raise the energy, on every domain (C103_large_step_refuted). Exact arithmetic."
  },
  {
   "property": "C104",
   "status": "proved",
   "theorems": [
    "C104_rests"
   ],
   "note": "One field, default weight 1/2, coefficients of the implicit part independent of the fields, and a step size for which the implicit part can be solved (regular_step). The statement about the orientation needs a difference that is real in real space, which C97 gives for real models."
  },
  {
   "property": "C105",
   "status": "proved",
   "theorems": [
    "C105_orientation",
    "C105_finds_the_saddle",
    "C105_time_steps_leave_it",
    "C105_new_search",
    "C105_from_two_states"
   ],
   "note": "Step sizes below explicit bounds: dt*B < 1 and dt/tau*2B <= 1, where B bounds the growth rates. Exact arithmetic; the square root of the normalisation is the real one."
  },
  {
   "property": "C106",
   "status": "partial",
   "theorems": [
    "C106_same_search",
    "C106_records",
    "C106_zero_means_rest",
    "C106_forces_agree",
    "C106_norms",
    "C106_log",
    "C106_norm_of_new_fields_refuted"
   ],
   "note": "Proved but for the norms: FieldNorm belongs to the fields before the last step (C106_norm_of_new_fields_refuted) and FieldNormChange is the norm before minus the norm after the step before the last one, minus the whole norm after the first step (C106_norms). The comment on ForcePowerSpectrum describes a sum; the code gives a root mean square. Solve is modelled with the logger of SDD as callback."
  },
  {
   "property": "C107",
   "status": "proved",
   "theorems": [
    "C107_problem",
    "C107_exact_run",
    "C107_error",
    "C107_stable",
    "C107_one_iteration_suffices"
   ],
   "note": "The solver is a parameter: finds_zero and solves_to say what is asked of it, and C107_one_iteration_suffices gives one solver that meets it. Square layouts (C07) and real symbols, so that the real parts taken by the code lose nothing. Exact arithmetic."
  },
  {
   "property": "C108",
   "status": "proved",
   "theorems": [
    "C108_step",
    "C108_run",
    "C108_zero_conserves",
    "C108_guess_balances"
   ],
   "note": "conserved as in C24. C108_step states the change of the total for whatever the solver returns."
  },
  {
   "property": "C109",
   "status": "proved",
   "theorems": [
    "C109_error_bound",
    "C109_fixed_point",
    "C109_converges"
   ],
   "note": "The solver is a parameter; nearly_solves says what is asked of it and C109_fixed_point gives one that meets it (the Newton-Krylov solver itself belongs to another library). smooth as in C98, real_library and layout as in C97. Exact arithmetic."
  },
  {
   "property": "C110",
   "status": "partial",
   "theorems": [
    "C110_fourth_order_partial",
    "C110_solver_partial",
    "C110_time_dependent_refuted"
   ],
   "note": "False as stated when a source depends on time: the four stages all evaluate sources at the start of the step, and C110_time_dependent_refuted shows an error of exactly T^2/(2N) for dconc/dt = t. Proved for constant sources, natural powers of the fields and models without registered functions. With implicit terms the code itself announces first order (C89). Exact arithmetic."
  },
  {
   "property": "C111",
   "status": "proved",
   "theorems": [
    "C111_disturbed",
    "C111_rounding",
    "C111_initial_values",
    "C111_floating_point",
    "C111_enough_digits",
    "C111_solutions"
   ],
   "note": "C111_disturbed is the general statement; C111_rounding, C111_floating_point (Flocq's rounding to nearest, any precision, no overflow) and C111_initial_values are its consequences; C111_enough_digits shows that the condition on the digits can be met for every N. Rounding is of what a step leaves in the fields; errors inside a step count as disturbances of its result. C111_solutions: two solutions of the equations themselves differ by at most a constant times the difference of their initial values. Constants exist but are not computed, so nothing is claimed for one given precision and model. Registered terms and time step control are not covered, as in C98."
  },
  {
   "property": "C112",
   "status": "proved",
   "theorems": [
    "C112_tables",
    "C112_wrong_domain",
    "C112_names",
    "C112_steppers"
   ],
   "note": "C112_tables, C112_names and C112_wrong_domain; C112_steppers shows that Euler and RK4 keep the shape of the fields as C112_tables asks. The rational number printed for a real part may be off by eps (0 for float64 values). encoding/csv is trusted to give back the records (field names with any characters), as in C37. Imaginary parts are not saved."
  },
  {
   "property": "C113",
   "status": "proved",
   "theorems": [
    "C113_database"
   ],
   "note": "C113_database: the callbacks of a whole run of Solve on the database model of C31, with arbitrary calls of other objects in between (which must have or draw another number: C31_same_number_drawn_refuted shows what happens otherwise). One domain per file, at least two nodes (C31_one_node_domain_refuted). The SQL engine is trusted as in C31. Imaginary parts are not saved."
  },
  {
   "property": "C114",
   "status": "partial",
   "theorems": [
    "C114_second_order_partial",
    "C114_fixed_point_partial",
    "C114_time_dependent_refuted"
   ],
   "note": "False as stated when a source depends on time: both ends of the integral over a step use the source at the start of the step, and C114_time_dependent_refuted shows an error of exactly T^2/(2N) for dconc/dt = t although the residual is 0. Proved for constant sources, natural powers of the fields and models without registered functions, with implicit terms; real fields on domains whose frequency layout is square. The Newton-Krylov library enters as any solver with a bound on the residual; C114_fixed_point_partial gives one that meets the bound. Exact arithmetic."
  },
  {
   "property": "C115",
   "status": "proved",
   "theorems": [
    "C115_all_times_refuted",
    "C115_short_time",
    "C115_runs_converge",
    "C115_halving",
    "C115_bounded_runs",
    "C115_invariant_region",
    "C115_allen_cahn"
   ],
   "note": "Exact arithmetic; equations without registered terms whose powers, registered functions and sources are Lipschitz on bounded sets (the hypotheses of C98). RK4 for models whose registered functions are of the kind of C87 (field_independent). C115_all_times_refuted shows that the short time of C115_short_time cannot be dropped."
  },
  {
   "property": "C116",
   "status": "partial",
   "theorems": [
    "C116_euler_filter_last_independent",
    "C116_linear_modes",
    "C116_filtered_mode_vanishes",
    "C116_no_convergence",
    "C116_same_factors",
    "C116_all_pass",
    "C116_mode_removed",
    "C116_rk4_filter_last",
    "C116_euler_filter_last_partial",
    "C116_euler_filter_last_refuted",
    "C116_implicit_no_effect_partial",
    "C116_implicit_no_effect_refuted"
   ],
   "note": "Two parts are false and refuted: in Euler a later field is advanced with the already filtered earlier ones, so the filtered step of a model with two fields is not the filtered result of the step (C116_euler_filter_last_refuted; proved for one field, for several fields whose equations do not read fields updated before them, and for RK4 with any number of fields); and ImplicitEuler filters its first guess, which is visible when the solver stops early (C116_implicit_no_effect_refuted; proved for solvers whose result does not depend on the guess). SDD.SetFilter always panics and is not modelled."
  },
  {
   "property": "C117",
   "status": "proved",
   "theorems": [
    "C117_real_part_writes",
    "C117_real_writes",
    "C117_writes_outside",
    "C117_disjoint",
    "C117_blur_real_part",
    "C117_blur_real",
    "C117_grid_index",
    "C117_clear"
   ],
   "note": "Slices are windows of an array; the capacity of Go slices is not modelled, the wrappers never extend a slice."
  },
  {
   "property": "C118",
   "status": "partial",
   "theorems": [
    "C118_no_accumulation",
    "C118_forward",
    "C118_exact",
    "C118_end_time_partial",
    "C118_end_time_refuted",
    "C118_forward_limit"
   ],
   "note": "The last sentence is false in float64: 49 steps of length 1/49 end before 1 (C118_end_time_refuted); proved up to a relative error of 2^-51 (C118_end_time_partial). From 2^53 steps on there are steps that do not move the clock (C118_forward_limit). Binary64 operations are those of Flocq, with its proofs."
  },
  {
   "property": "C119",
   "status": "proved",
   "theorems": [
    "C119_read_back",
    "C119_same_text",
    "C119_panics",
    "C119_recorded",
    "C119_after_solve"
   ],
   "note": "encoding/json is modelled for strings, slices and structs; the text of a float64 is a parameter that is read back as the same value (writes_back). Names are in ASCII. The reader of JsonSpec.v follows RFC 8259."
  },
  {
   "property": "C120",
   "status": "partial",
   "theorems": [
    "C120_index_file",
    "C120_references",
    "C120_files_exist",
    "C120_inline_items",
    "C120_declared_values_refuted"
   ],
   "note": "The last sentence is false (C120_declared_values_refuted): the item of the times holds one value more than there are epochs but declares the number of dimensions, and origin and spacing hold three values but declare two in two dimensions; all other parts are proved. encoding/xml is modelled for the structs of xdmf.go, names are in ASCII, and encoding/xml replaces control characters. The reader of XmlSpec.v follows the XML recommendation for elements, attributes, references and text."
  },
  {
   "property": "C121",
   "status": "partial",
   "theorems": [
    "C121_comments",
    "C121_attributes",
    "C121_wide_number_refuted",
    "C121_info",
    "C121_list"
   ],
   "note": "Proved without restriction for comments and (with extents below 10^16) for info. For attributes proved if names and values have at most ten characters; false otherwise: every number from 1000 on is printed with eleven characters and moves the columns after it (C121_wide_number_refuted)."
  },
  {
   "property": "C122",
   "status": "partial",
   "theorems": [
    "C122_read_back",
    "C122_same_text",
    "C122_crlf_refuted",
    "C122_save_and_load"
   ],
   "note": "False for names with a carriage return before a line break, which comes back as a line break alone (C122_crlf_refuted); proved for all other names. csv.Writer is modelled for ASCII; the reader of CsvSpec.v follows RFC 4180 and the documentation of csv.Reader."
  }
 ]
}