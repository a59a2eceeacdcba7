{
 "claims": [
  {
   "property": "C01",
   "status": "proved",
   "theorems": [
    "C01_configuration_accepted",
    "C01_cutoff_zero_outside",
    "C01_cutoff_range",
    "C01_cutoff_positive_inside",
    "C01_cutoff_plateau",
    "C01_cutoff_at_zero",
    "C01_cutoff_nonincreasing"
   ],
   "note": ""
  },
  {
   "property": "C02",
   "status": "proved",
   "theorems": [
    "C02_cutoff_derivative",
    "C02_cutoff_fused"
   ],
   "note": ""
  },
  {
   "property": "C03",
   "status": "partial",
   "theorems": [
    "C03_setters_partial",
    "C03_setter_order_refuted"
   ],
   "note": "Proved for setting the radius before the parameter, which is the order used by all callers; C03_setter_order_refuted shows the full statement is false of the code: setCutoffRadius after setCutoffParameter leaves the inner radius stale."
  },
  {
   "property": "C04",
   "status": "partial",
   "theorems": [
    "C04_core_values",
    "C04_core_range_and_decay",
    "C04_core_le_one",
    "C04_core_derivative",
    "C04_core_polynomial_shape",
    "C04_compact_value",
    "C04_compact_fused_derivative",
    "C04_compact_df_sign",
    "C04_compact_df_refuted",
    "C04_screening",
    "C04_screening_units"
   ],
   "note": "Proved for core functions, CompactFunction values and fdf, screening. C04_compact_df_refuted: CompactFunction::df has the wrong sign (the symmetry functions use fdf, which is right)."
  },
  {
   "property": "C05",
   "status": "proved",
   "theorems": [
    "C05_pow_int"
   ],
   "note": "All int exponents except INT_MIN."
  },
  {
   "property": "C06",
   "status": "proved",
   "theorems": [
    "C06_tokens_exist_unique",
    "C06_reduce_tokens",
    "C06_split_reduce_tokens",
    "C06_reduce_idempotent",
    "C06_split_lossless",
    "C06_split_inverts_join",
    "C06_pad_fills"
   ],
   "note": ""
  },
  {
   "property": "C07",
   "status": "proved",
   "theorems": [
    "C07_register_bijection",
    "C07_order_irrelevant",
    "C07_elements_string_roundtrip",
    "C07_second_registration_rejected",
    "C07_duplicate_symbols_refuted",
    "C07_unknown_symbol_accepted_refuted"
   ],
   "note": "Proved for distinct known symbols as stated; the _refuted theorems record what happens for repeated symbols and for a single unknown symbol."
  },
  {
   "property": "C08",
   "status": "partial",
   "theorems": [
    "C08_atomic_number",
    "C08_symbol_from_number_partial",
    "C08_range",
    "C08_last_element_refuted"
   ],
   "note": "Inverse proved for all atomic numbers except 102, for which C08_last_element_refuted shows the code throws."
  },
  {
   "property": "C09",
   "status": "proved",
   "theorems": [
    "C09_load_contents",
    "C09_comments_irrelevant",
    "C09_get_value",
    "C09_get_values",
    "C09_keyword_exists",
    "C09_unknown_keyword_rejected",
    "C09_tab_line_refuted",
    "C09_carriage_return_refuted",
    "C09_reload_refuted"
   ],
   "note": "For files without carriage returns and without token-free lines containing tabs; outside that class the refuted theorems show the claim fails."
  },
  {
   "property": "C10",
   "status": "proved",
   "theorems": [
    "C10_critical_iff",
    "C10_problem_iff",
    "C10_unknown_counted"
   ],
   "note": "Critical count is zero iff no non-repeatable keyword repeats and no spellings are mixed."
  },
  {
   "property": "C11",
   "status": "proved",
   "theorems": [
    "C11_prune_reload",
    "C11_prune_text",
    "C11_write_reload"
   ],
   "note": ""
  },
  {
   "property": "C12",
   "status": "proved",
   "theorems": [
    "C12_scale_is_documented_formula",
    "C12_scale_unscale_inverse",
    "C12_range_mapped",
    "C12_factor_is_derivative",
    "C12_line_mixup_refuted"
   ],
   "note": ""
  },
  {
   "property": "C13",
   "status": "proved",
   "theorems": [
    "C13_warning_count",
    "C13_warning_log",
    "C13_stop_on_warning",
    "C13_statistics_of_history",
    "C13_order_irrelevant",
    "C13_reduction_over_ranks",
    "C13_sigma_is_sample_deviation",
    "C13_training_values_in_range"
   ],
   "note": ""
  },
  {
   "property": "C14",
   "status": "proved",
   "theorems": [
    "C14_set_get",
    "C14_get_stays_in_bounds",
    "C14_get_set",
    "C14_layout",
    "C14_positions_bijective"
   ],
   "note": "Real-valued weights; getNumConnections = number of positions."
  },
  {
   "property": "C15",
   "status": "proved",
   "theorems": [
    "C15_output_is_feed_forward_network",
    "C15_dEdG_is_gradient",
    "C15_clamping_point_refuted"
   ],
   "note": "Holds at every input at which no logistic/softplus neuron is exactly at its clamping point +-35 and no ReLU at 0; C15_clamping_point_refuted shows the derivative does not exist at such a point (the network output jumps). Only output neuron 0 is differentiated, as in the code."
  },
  {
   "property": "C16",
   "status": "proved",
   "theorems": [
    "C16_dEdc_is_gradient",
    "C16_dEdc_is_output_gradient"
   ],
   "note": "Same regularity condition as C15; for several outputs the code returns the gradient of their sum."
  },
  {
   "property": "C17",
   "status": "proved",
   "theorems": [
    "C17_dFdc_is_gradient"
   ],
   "note": "Networks with one output neuron (all networks built by the library); same regularity condition as C15."
  },
  {
   "property": "C18",
   "status": "proved",
   "theorems": [
    "C18_left_inverse",
    "C18_right_inverse",
    "C18_volume"
   ],
   "note": ""
  },
  {
   "property": "C19",
   "status": "proved",
   "theorems": [
    "C19_remap",
    "C19_inside_unchanged",
    "C19_far_atom_refuted"
   ],
   "note": "Restricted to fractional coordinates below 2^31 in magnitude; C19_far_atom_refuted: beyond that the int conversion in Atom/Structure remap is undefined behaviour."
  },
  {
   "property": "C20",
   "status": "proved",
   "theorems": [
    "C20_copies_terminate",
    "C20_copies_suffice",
    "C20_flat_cell_refuted"
   ],
   "note": "Non-degenerate cells; C20_flat_cell_refuted: with linearly dependent box vectors the loop never ends."
  },
  {
   "property": "C21",
   "status": "proved",
   "theorems": [
    "C21_neighbor_list_exact",
    "C21_always_finishes",
    "C21_unwrapped_refuted"
   ],
   "note": "Periodic structures whose atoms are inside the cell (as after remap, which readFromLines performs); C21_unwrapped_refuted shows atoms outside lose neighbors."
  },
  {
   "property": "C22",
   "status": "proved",
   "theorems": [
    "C22_symmetric",
    "C22_comparison"
   ],
   "note": ""
  },
  {
   "property": "C23",
   "status": "partial",
   "theorems": [
    "C23_counters",
    "C23_recompute_partial",
    "C23_recompute_counts_refuted"
   ],
   "note": "Counters proved for fresh structures. For recomputation after clearNeighborList, list, number and unique neighbors are proved to be reproduced; C23_recompute_counts_refuted shows the per-element counts are not reset, so the full statement is false of the code."
  },
  {
   "property": "C24",
   "status": "proved",
   "theorems": [
    "C24_cutoff_map",
    "C24_needs_sorted_list",
    "C24_stale_map_refuted"
   ],
   "note": "For a structure without cutoff map; C24_stale_map_refuted: the map is not cleared by clearNeighborList and keeps old counts."
  },
  {
   "property": "C25",
   "status": "proved",
   "theorems": [
    "C25_minimum_image_found",
    "C25_at_most_one_image",
    "C25_result_is_image",
    "C25_not_nearest_image_refuted"
   ],
   "note": "C25_not_nearest_image_refuted documents that beyond the check the convention need not return the nearest image."
  },
  {
   "property": "C26",
   "status": "proved",
   "theorems": [
    "C26_radial_functions"
   ],
   "note": "All four radial types; smoothness required only for the derivative part (hard cutoff excluded there)."
  },
  {
   "property": "C27",
   "status": "partial",
   "theorems": [
    "C27_angular_functions_partial",
    "C27_collinear_refuted"
   ],
   "note": "Proved for all five exponential and compact angular types under the stated conditions. C27_collinear_refuted: collinear pairs are skipped by the compact types although the window function does not vanish there; on the boundary of an exponential window the code divides by zero (excluded by a hypothesis)."
  },
  {
   "property": "C28",
   "status": "proved",
   "theorems": [
    "C28_neighbor_order",
    "C28_rigid_motion",
    "C28_derivatives_cancel"
   ],
   "note": "Symmetry function values under neighbor reordering and rigid motions, stored derivatives of each function sum to zero."
  },
  {
   "property": "C29",
   "status": "partial",
   "theorems": [
    "C29_groups_equal_individual_partial",
    "C29_cached_groups_partial",
    "C29_subtypes_refuted",
    "C29_negative_shift_refuted",
    "C29_rescaled_refuted"
   ],
   "note": "Proved for all eleven types, any number of functions and neighbours, any scaling, any sort order, with and without cache. Missing (excluded by hypotheses): zero zeta, lambda or scaling factor and negative shifts of exponential angular functions, compact angular functions with a non-positive outer radius, collinear pairs and pairs on the boundary of an exponential angular window, two narrow compact angular functions with the same interval but different subtypes, coinciding neighbours. Refuted: subtypes sharing an interval, negative shift, scaling set twice."
  },
  {
   "property": "C30",
   "status": "proved",
   "theorems": [
    "C30_order",
    "C30_sorting",
    "C30_groups"
   ],
   "note": ""
  },
  {
   "property": "C31",
   "status": "proved",
   "theorems": [
    "C31_length_unit"
   ],
   "note": ""
  },
  {
   "property": "C32",
   "status": "partial",
   "theorems": [
    "C32_cache_transparent_partial",
    "C32_slots",
    "C32_wrong_element_refuted",
    "C32_same_digits_refuted"
   ],
   "note": "Proved for exact texts and functions with slots for both or neither element. C32_wrong_element_refuted and C32_same_digits_refuted show the two ways in which the full statement fails."
  },
  {
   "property": "C33",
   "status": "proved",
   "theorems": [
    "C33_tables",
    "C33_no_clash"
   ],
   "note": ""
  },
  {
   "property": "C34",
   "status": "partial",
   "theorems": [
    "C34_energy_defined",
    "C34_energy_evaluated",
    "C34_forces_are_negative_gradient_partial",
    "C34_own_images_refuted",
    "C34_default_energy_evaluated",
    "C34_default_forces_are_negative_gradient_partial",
    "C34_groups_option_refuted"
   ],
   "note": "2G potential, both with symmetry functions evaluated one by one and with cache and groups as in the default build. Energy: full. Forces: whenever no atom sees its own periodic images or all functions are radial; C34_own_images_refuted shows that with angular functions the code's forces are not the gradient when an atom sees its own images. C34_groups_option_refuted: in builds with N2P2_NO_SF_GROUPS evaluateNNP uses groups which were never set up."
  },
  {
   "property": "C35",
   "status": "partial",
   "theorems": [
    "C35_forces_sum_to_zero_partial",
    "C35_default_forces_sum_to_zero_partial",
    "C35_own_images_refuted"
   ],
   "note": "Same conditions as C34 (differentiability not needed), for both evaluation paths; C35_own_images_refuted gives a small cell with a non-vanishing total force."
  },
  {
   "property": "C36",
   "status": "proved",
   "theorems": [
    "C36_structure_round_trip",
    "C36_property_round_trip",
    "C36_unknown_property",
    "C36_atom_quantities",
    "C36_energies_agree",
    "C36_geometry_consistent"
   ],
   "note": ""
  },
  {
   "property": "C37",
   "status": "partial",
   "theorems": [
    "C37_derivatives_scaled_partial",
    "C37_what_is_scaled",
    "C37_derivatives_scaled_refuted"
   ],
   "note": "False with neighbors: the derivatives stored at neighbors are scaled once per atom loop with a wrong factor (C37_derivatives_scaled_refuted); C37_what_is_scaled says what the conversion does in general, C37_derivatives_scaled_partial covers atoms without neighbors."
  },
  {
   "property": "C38",
   "status": "proved",
   "theorems": [
    "C38_offsets_exact",
    "C38_offsets_and_units"
   ],
   "note": ""
  },
  {
   "property": "C39",
   "status": "proved",
   "theorems": [
    "C39_metrics_of_complete_data_set",
    "C39_unassigned_structure_fails"
   ],
   "note": ""
  },
  {
   "property": "C40",
   "status": "proved",
   "theorems": [
    "C40_isolated",
    "C40_isolated_minimum",
    "C40_periodic",
    "C40_periodic_minimum",
    "C40_own_image_lowers_energy",
    "C40_own_images_refuted"
   ],
   "note": ""
  },
  {
   "property": "C41",
   "status": "proved",
   "theorems": [
    "C41_electronegativity",
    "C41_hardness_isolated",
    "C41_hardness_periodic",
    "C41_position_isolated",
    "C41_position_periodic"
   ],
   "note": ""
  },
  {
   "property": "C42",
   "status": "proved",
   "theorems": [
    "C42_isolated",
    "C42_periodic"
   ],
   "note": ""
  },
  {
   "property": "C43",
   "status": "proved",
   "theorems": [
    "C43_half_sphere",
    "C43_nothing_else",
    "C43_each_once",
    "C43_sphere_sum",
    "C43_terminates",
    "C43_second_setup_refuted"
   ],
   "note": ""
  },
  {
   "property": "C44",
   "status": "proved",
   "theorems": [
    "C44_answers",
    "C44_transparent"
   ],
   "note": ""
  },
  {
   "property": "C45",
   "status": "proved",
   "theorems": [
    "C45_covariance_standard",
    "C45_covariance_fading",
    "C45_information_step_standard",
    "C45_information_step_fading",
    "C45_information_standard",
    "C45_state_standard",
    "C45_state_fading"
   ],
   "note": ""
  },
  {
   "property": "C46",
   "status": "proved",
   "theorems": [
    "C46_learning_rate",
    "C46_process_noise_standard",
    "C46_process_noise_fading",
    "C46_forgetting",
    "C46_maximum_exceeded_refuted",
    "C46_minimum_undercut_refuted"
   ],
   "note": ""
  },
  {
   "property": "C47",
   "status": "proved",
   "theorems": [
    "C47_fixed_direction",
    "C47_adam",
    "C47_moments"
   ],
   "note": ""
  },
  {
   "property": "C48",
   "status": "proved",
   "theorems": [
    "C48_exactly_once",
    "C48_balanced",
    "C48_indices_increase",
    "C48_sequential_blocks",
    "C48_succeeds"
   ],
   "note": ""
  },
  {
   "property": "C49",
   "status": "proved",
   "theorems": [
    "C49_exact_size",
    "C49_round_trip",
    "C49_stale_atoms_refuted",
    "C49_nul_comment_refuted"
   ],
   "note": ""
  },
  {
   "property": "C50",
   "status": "proved",
   "theorems": [
    "C50_every_displacement_once",
    "C50_displacements"
   ],
   "note": ""
  },
  {
   "property": "C51",
   "status": "proved",
   "theorems": [
    "C51_complete_and_ordered",
    "C51_distributions",
    "C51_combine",
    "C51_combine_missing"
   ],
   "note": ""
  },
  {
   "property": "C52",
   "status": "proved",
   "theorems": [
    "C52_every_structure_in_one_set",
    "C52_candidate_lists",
    "C52_energies_once",
    "C52_force_components_once",
    "C52_charges_once",
    "C52_one_candidate_per_structure_4G",
    "C52_pattern_counts",
    "C52_succeeds"
   ],
   "note": ""
  },
  {
   "property": "C53",
   "status": "proved",
   "theorems": [
    "C53_schedule_complete",
    "C53_candidates_in_turn",
    "C53_every_candidate_once_per_cycle",
    "C53_sub_candidates_in_turn",
    "C53_structure_changes_after_group",
    "C53_shuffle_rearranges",
    "C53_sort_rearranges"
   ],
   "note": ""
  },
  {
   "property": "C54",
   "status": "proved",
   "theorems": [
    "C54_jacobian_complete",
    "C54_errors_complete",
    "C54_rows_distinct",
    "C54_rows_used",
    "C54_rows_in_range",
    "C54_parameters_distinct",
    "C54_parameters_in_range",
    "C54_parameters_used",
    "C54_charge_errors_refuted"
   ],
   "note": ""
  },
  {
   "property": "C55",
   "status": "partial",
   "theorems": [
    "C55_first_above_threshold",
    "C55_exhausted_partial",
    "C55_largest_error_used_refuted"
   ],
   "note": "Proved: first candidate above the threshold is used and search resumes behind it; with all trials exhausted the largest error is logged. Refuted of the code: that candidate is not the one used for the update (Training.cpp:2480-2493)."
  },
  {
   "property": "C56",
   "status": "partial",
   "theorems": [
    "C56_memory_fits",
    "C56_get_weights",
    "C56_set_weights",
    "C56_get_after_set",
    "C56_get_after_set_sizes",
    "C56_set_after_get",
    "C56_numeric_derivatives",
    "C56_numeric_networks_restored_partial",
    "C56_numeric_networks_unchanged_refuted"
   ],
   "note": "Round trips proved for both strategies and any elements. Numeric derivatives are central differences and the vector is restored, but the networks are left with the last weight moved by -delta (Training.cpp:3411,3446): C56_numeric_networks_unchanged_refuted."
  },
  {
   "property": "C57",
   "status": "proved",
   "theorems": [
    "C57_statistics",
    "C57_normalized_ref",
    "C57_normalized_force",
    "C57_force_mode_needs_forces",
    "C57_unknown_mode_rejected"
   ],
   "note": "Exact arithmetic. Modes ref and force; prediction enters as the energies and forces stored in the structures."
  },
  {
   "property": "C58",
   "status": "partial",
   "theorems": [
    "C58_atoms_registered",
    "C58_energy_and_forces",
    "C58_energies_add_up",
    "C58_per_atom_energies_partial",
    "C58_positions_and_tags_partial",
    "C58_tags_and_energies_refuted",
    "C58_positions_refuted"
   ],
   "note": "2G potential. Energy, forces, neighbors and sum of atomic energies for any ignored types; tags, positions and the per-atom energies read by pair_hdnnp are right if no local atom has an ignored type, and wrong otherwise (C58_tags_and_energies_refuted, C58_positions_refuted)."
  },
  {
   "property": "C59",
   "status": "proved",
   "theorems": [
    "C59_transfer",
    "C59_all_warnings_written",
    "C59_reset_sender_refuted"
   ],
   "note": ""
  },
  {
   "property": "C60",
   "status": "proved",
   "theorems": [
    "C60_lines_partitioned",
    "C60_log",
    "C60_blank_line_stops",
    "C60_every_file_processed_refuted"
   ],
   "note": ""
  },
  {
   "property": "C61",
   "status": "proved",
   "theorems": [
    "C61_times",
    "C61_misuse"
   ],
   "note": ""
  },
  {
   "property": "C62",
   "status": "partial",
   "theorems": [
    "C62_registered_map",
    "C62_round_trip",
    "C62_positions_kept",
    "C62_exact",
    "C62_data_set",
    "C62_set_refuted",
    "C62_tilted_cell_refuted",
    "C62_charged_cell_refuted",
    "C62_comment_refuted",
    "C62_long_comment_refuted"
   ],
   "note": "Proved for finite doubles, one-line comments up to 1014 characters and neutral cells; index and tag of atoms are renumbered, predicted values become reference values. The _refuted theorems show what is lost or unreadable outside: set membership, triclinic flag of cells with negative off-diagonal entries, charged periodic structures, comments with line breaks or above the buffer size."
  },
  {
   "property": "C63",
   "status": "partial",
   "theorems": [
    "C63_precondition_output",
    "C63_zero_bias",
    "C63_zero_output_weights",
    "C63_fan_in",
    "C63_glorot_bengio",
    "C63_nguyen_widrow_hidden",
    "C63_nguyen_widrow_output_refuted"
   ],
   "note": "Preconditioning and zero bias proved; C63_nguyen_widrow_output_refuted shows the Nguyen-Widrow scheme halves only some weights of output neuron 0."
  },
  {
   "property": "C64",
   "status": "proved",
   "theorems": [
    "C64_neuron_statistics"
   ],
   "note": ""
  },
  {
   "property": "C65",
   "status": "proved",
   "theorems": [
    "C65_written_rows",
    "C65_written_rows_restore",
    "C65_rows_labelled"
   ],
   "note": "File contents as real numbers: number formatting is not modelled."
  },
  {
   "property": "C66",
   "status": "partial",
   "theorems": [
    "C66_normalization_added_partial",
    "C66_normalization_replaced_partial",
    "C66_all_three_written_refuted"
   ],
   "note": "Proved if none or all of the keywords are present; with only some of them the others are lost: C66_all_three_written_refuted (Training.cpp:697). A keyword behind leading blanks is not recognised by the search either."
  },
  {
   "property": "C67",
   "status": "proved",
   "theorems": [
    "C67_read_back",
    "C67_relative_error",
    "C67_column_width"
   ],
   "note": "printf and atof modelled as correctly rounding (C standard, Annex F); negative zero, infinities and NaN left out."
  },
  {
   "property": "C68",
   "status": "proved",
   "theorems": [
    "C68_same_energy_and_forces",
    "C68_default_same_energy_and_forces"
   ],
   "note": "Both evaluation paths (one by one, and cached and grouped)."
  },
  {
   "property": "C69",
   "status": "partial",
   "theorems": [
    "C69_supercell_partial",
    "C69_default_supercell_partial",
    "C69_own_images_refuted"
   ],
   "note": "Energy and atomic energies proved for all cells; forces proved unless atoms see their own images while angular functions are used. That case is refuted (C69_own_images_refuted): there the forces in the cell differ from those in the supercell."
  },
  {
   "property": "C70",
   "status": "proved",
   "theorems": [
    "C70_groups_of_atoms",
    "C70_default_groups_of_atoms"
   ],
   "note": "Both evaluation paths."
  },
  {
   "property": "C71",
   "status": "partial",
   "theorems": [
    "C71_energy_derivatives",
    "C71_force_derivatives_partial",
    "C71_own_images_refuted",
    "C71_force_derivatives_balance",
    "C71_weight_derivatives_partial",
    "C71_jacobian_partial",
    "C71_parameters_vary",
    "C71_default_derivatives_partial",
    "C71_default_weight_derivatives_partial",
    "C71_default_jacobian_partial",
    "C71_default_parameters_vary"
   ],
   "note": "Energies: all structures. Forces (dPdc, calculateWeightDerivatives, Jacobian): unless atoms see their own images while angular functions are used; that case is refuted (C71_own_images_refuted): collectDGdxia includes own images, the predicted force does not. Short-range potentials (2G); both with and without groups."
  },
  {
   "property": "C72",
   "status": "proved",
   "theorems": [
    "C72_accepted",
    "C72_meaning_unique",
    "C72_functions",
    "C72_order_independent",
    "C72_order",
    "C72_values",
    "C72_usable",
    "C72_cutoff",
    "C72_cutoff_parameter_refuted",
    "C72_cutoff_parameter"
   ],
   "note": "Numbers as read by atof (correct rounding, no overflow). C72_cutoff_parameter_refuted: setupCutoff accepts a negative parameter; functions with a cutoff function are then rejected (C72_cutoff_parameter)."
  },
  {
   "property": "C73",
   "status": "proved",
   "theorems": [
    "C73_range",
    "C73_sensitivity",
    "C73_sensitivity_accepted"
   ],
   "note": "If every function were pruned the file has no symfunction_short line; the theorems suppose that at least one function is kept."
  },
  {
   "property": "C74",
   "status": "partial",
   "theorems": [
    "C74_architecture_partial",
    "C74_accepted",
    "C74_last_layer_refuted",
    "C74_output_activation_refuted",
    "C74_own_layers_refuted"
   ],
   "note": "Partial because the code ignores an element's own number of neurons for the last hidden layer and its own output activation (C74_last_layer_refuted, C74_output_activation_refuted; loop bounds Mode.cpp:1346 and 1370) and rejects an own number of hidden layers (C74_own_layers_refuted). Numbers of symmetry functions are inputs; they are below 2^31."
  },
  {
   "property": "C75",
   "status": "proved",
   "theorems": [
    "C75_isolated",
    "C75_unique",
    "C75_defined",
    "C75_total_force"
   ],
   "note": "Isolated structures with at least one atom and a determined charge distribution (chargeable); memory layout without N2P2_FULL_SFD_MEMORY; the linear solver is any solver that is exact on regular systems. Periodic structures: C40, C42 for given neighbor lists."
  },
  {
   "property": "C76",
   "status": "partial",
   "theorems": [
    "C76_round_trip",
    "C76_training_range",
    "C76_loaded_lines",
    "C76_swapped_elements_refuted",
    "C76_header_is_comment"
   ],
   "note": "Round trip, training range, soundness of loading and headers proved. The label check of loaded lines is an 'and' of two mismatches: lines of another element are accepted (C76_swapped_elements_refuted); proved is that the element or the index matches. Statistics of fewer than two values (printed as nan) are not modelled."
  },
  {
   "property": "C77",
   "status": "partial",
   "theorems": [
    "C77_round_trip",
    "C77_loaded_lines",
    "C77_truncated_file_refuted",
    "C77_hardness_refuted",
    "C77_hardness_partial",
    "C77_hardness_lines"
   ],
   "note": "Round trip and soundness of loading proved. Files with too few numbers are not rejected but undefined behaviour (C77_truncated_file_refuted), and the hardness is written with six digits only (C77_hardness_refuted, bounded in C77_hardness_partial)."
  },
  {
   "property": "C78",
   "status": "partial",
   "theorems": [
    "C78_optimal_parameters",
    "C78_fixed_cutoff",
    "C78_jackson",
    "C78_accepted",
    "C78_missing_charge_refuted",
    "C78_default_refuted",
    "C78_permittivity_refuted"
   ],
   "note": "Termination, precision and rejection proved for all three implementations. Not true with a permittivity in the settings: it does not reach the choice of the parameters (C78_permittivity_refuted). Settings accepted although every periodic structure then stops: C78_missing_charge_refuted, C78_default_refuted."
  },
  {
   "property": "C79",
   "status": "partial",
   "theorems": [
    "C79_history",
    "C79_list_reaches",
    "C79_units",
    "C79_units_rejected",
    "C79_training_refuted",
    "C79_after_failure_refuted"
   ],
   "note": "Proved for evaluation of structures one after the other. In training the parameters of the last structure are used for all (C79_training_refuted), and after an exception a second call returns without parameters (C79_after_failure_refuted)."
  },
  {
   "property": "C80",
   "status": "partial",
   "theorems": [
    "C80_hardness",
    "C80_hardness_files",
    "C80_widths",
    "C80_ewald",
    "C80_permittivity",
    "C80_screening",
    "C80_missing_width_refuted"
   ],
   "note": "All values proved to be those of the last line for the element. Elements without a line are not rejected but get zero (C80_missing_width_refuted)."
  },
  {
   "property": "C81",
   "status": "proved",
   "theorems": [
    "C81_selection",
    "C81_order",
    "C81_unique",
    "C81_accepted",
    "C81_lines"
   ],
   "note": "Proved for all settings, shuffles and update results of the modelled loop."
  },
  {
   "property": "C82",
   "status": "proved",
   "theorems": [
    "C82_ends",
    "C82_weights",
    "C82_comparison",
    "C82_neurons",
    "C82_growing"
   ],
   "note": "Contents of files are modelled as the list of epochs whose data they hold."
  },
  {
   "property": "C83",
   "status": "partial",
   "theorems": [
    "C83_start",
    "C83_noise",
    "C83_rate",
    "C83_accepted",
    "C83_metric",
    "C83_element_strategy_refuted"
   ],
   "note": "Parameters, sizes and per-epoch decay proved. Element-wise updates for potentials other than 2G are meant to be rejected but are accepted (C83_element_strategy_refuted). The case without any update per epoch (division by zero) is excluded."
  },
  {
   "property": "C84",
   "status": "partial",
   "theorems": [
    "C84_patterns",
    "C84_ratio_partial",
    "C84_ratio_refuted"
   ],
   "note": "Numbers of updates and patterns proved. The ratio of forces to energies is only met if energy_fraction is 1 (C84_ratio_partial, C84_ratio_refuted)."
  },
  {
   "property": "C85",
   "status": "partial",
   "theorems": [
    "C85_mapping",
    "C85_default_mapping",
    "C85_malformed_rejected",
    "C85_pair_coeff_partial",
    "C85_last_type_null_refuted",
    "C85_last_type_null_always",
    "C85_ready_for_use",
    "C85_shared_element_refuted",
    "C85_type_zero_refuted",
    "C85_contradiction_refuted",
    "C85_blank_mapping_refuted"
   ],
   "note": "pair_coeff with NULL for the last type is undefined behaviour (C85_last_type_null_refuted, holds for all such calls: C85_last_type_null_always); several types of one element are rejected if there are more types than elements (C85_shared_element_refuted); type 0, contradictory entries and blank texts are accepted."
  },
  {
   "property": "C86",
   "status": "partial",
   "theorems": [
    "C86_stop",
    "C86_inactive",
    "C86_summary",
    "C86_rate_partial",
    "C86_first_rate_refuted",
    "C86_no_limit_refuted",
    "C86_negative_limit_refuted",
    "C86_total_refuted"
   ],
   "note": "Stopping and summaries proved for all histories; the rate of the first summary is wrong (C86_first_rate_refuted), maxew 0 is logged as no limit (C86_no_limit_refuted), negative limits (C86_negative_limit_refuted), limit per process (C86_total_refuted)."
  },
  {
   "property": "C87",
   "status": "proved",
   "theorems": [
    "C87_symmetry_function_histograms",
    "C87_neighbor_statistics"
   ],
   "note": ""
  },
  {
   "property": "C88",
   "status": "partial",
   "theorems": [
    "C88_neighbor_file",
    "C88_environment",
    "C88_listed",
    "C88_single_element",
    "C88_columns_refuted"
   ],
   "note": "False with several elements: the neighbor comparison ignores the element, so the columns are ordered by distance only (C88_columns_refuted); the rest is proved (C88_neighbor_file, C88_environment, C88_single_element). The derivative files are not modelled."
  },
  {
   "property": "C89",
   "status": "proved",
   "theorems": [
    "C89_radial_distribution",
    "C89_outcome",
    "C89_at_cutoff_refuted",
    "C89_coordination_refuted"
   ],
   "note": "Proved for all data sets without a pair exactly at the cutoff; with such a pair the program ends with an exception (C89_outcome, C89_at_cutoff_refuted). The trapezoidal coordination number is not the mean number of neighbors (C89_coordination_refuted)."
  },
  {
   "property": "C90",
   "status": "proved",
   "theorems": [
    "C90_angular_distribution",
    "C90_integral",
    "C90_integral_refuted"
   ],
   "note": "The header text \"integral = 1\" is false if some structure has no such triple (C90_integral_refuted); proved otherwise."
  },
  {
   "property": "C91",
   "status": "partial",
   "theorems": [
    "C91_read_consistent",
    "C91_prediction",
    "C91_forces_partial",
    "C91_default_prediction",
    "C91_default_forces_partial"
   ],
   "note": "Energies, tables and reference data are proved in full (plain and default build); forces under the condition of C34 (no atom sees its own image, or only radial functions), which cannot be dropped (C34_own_images_refuted). Column headers and number formats of the tables are not modelled."
  },
  {
   "property": "C92",
   "status": "partial",
   "theorems": [
    "C92_setup",
    "C92_round_trip_partial",
    "C92_unrecognised_keyword",
    "C92_indented_refuted",
    "C92_incomplete_refuted"
   ],
   "note": "Round trip proved for files with keywords at the beginning of lines and all three or none given before; both conditions are needed (C92_unrecognised_keyword, C92_indented_refuted, C92_incomplete_refuted). Characters of other lines are covered by regular_line as in C09."
  },
  {
   "property": "C93",
   "status": "partial",
   "theorems": [
    "C93_xyz",
    "C93_poscar_partial",
    "C93_poscar_no_cell_refuted"
   ],
   "note": "XYZ complete. POSCAR proved for periodic structures; for others the exception is constructed but not thrown and a malformed file is written (C93_poscar_no_cell_refuted). printable: coordinates are doubles, fewer than 2^31 atoms."
  },
  {
   "property": "C94",
   "status": "proved",
   "theorems": [
    "C94_distributed",
    "C94_set_files"
   ],
   "note": "Offsets in real arithmetic; structures consistent with the element map, values representable (stored) and cells proper. How labels are chosen is C52."
  },
  {
   "property": "C95",
   "status": "partial",
   "theorems": [
    "C95_generators",
    "C95_same_on_all_processes",
    "C95_default",
    "C95_range",
    "C95_nguyen_widrow",
    "C95_old_weights",
    "C95_precondition",
    "C95_precondition_charge_refuted",
    "C95_process_count_refuted"
   ],
   "note": "Generators are arbitrary state machines. Preconditioning together with nguyen_widrow_weights_charge is silently ignored instead of refused (C95_precondition_charge_refuted); the initial weights for a given seed depend on the number of processes (C95_process_count_refuted). Output layer under Nguyen-Widrow: C63_nguyen_widrow_output_refuted."
  },
  {
   "property": "C96",
   "status": "proved",
   "theorems": [
    "C96_columns",
    "C96_name_decides",
    "C96_precision",
    "C96_known_properties"
   ],
   "note": "The error metrics are those of the complete data sets (C39); metrics of an empty test set (0/0 in the code) are outside the real-number model."
  },
  {
   "property": "C97",
   "status": "partial",
   "theorems": [
    "C97_statistics",
    "C97_file",
    "C97_neuron_value_refuted"
   ],
   "note": "The recorded value of a neuron behind the input layer is the argument of its activation function, not the neuron value named in the header; with a single value the standard deviation is not a number (C97_neuron_value_refuted)."
  },
  {
   "property": "C98",
   "status": "proved",
   "theorems": [
    "C98_files",
    "C98_header",
    "C98_errors",
    "C98_unassigned"
   ],
   "note": "Structures hold the predictions already; a structure of neither set is undefined behaviour (C98_unassigned)."
  },
  {
   "property": "C99",
   "status": "proved",
   "theorems": [
    "C99_report",
    "C99_second_order",
    "C99_no_warning",
    "C99_line"
   ],
   "note": "Energy and forces of a structure are arbitrary functions of the positions; at least one atom, delta not zero, fewer than 2^31 copies."
  },
  {
   "property": "C100",
   "status": "partial",
   "theorems": [
    "C100_elements",
    "C100_offsets",
    "C100_accepted",
    "C100_duplicate_symbol_refuted"
   ],
   "note": "Proved for distinct symbols; a symbol listed twice is accepted if number_of_elements counts the different symbols, and then elements are missing (C100_duplicate_symbol_refuted)."
  },
  {
   "property": "C101",
   "status": "proved",
   "theorems": [
    "C101_sensitivity",
    "C101_distribution",
    "C101_percent",
    "C101_file",
    "C101_prune_reads"
   ],
   "note": "Derivatives dEdG are given with the atoms; elements without atoms, or with all derivatives zero, give percentages that are not a number, which are outside of the reading theorem."
  },
  {
   "property": "C102",
   "status": "partial",
   "theorems": [
    "C102_cell",
    "C102_images",
    "C102_triclinic_partial",
    "C102_triclinic_refuted",
    "C102_charges_partial",
    "C102_charges_refuted"
   ],
   "note": "Cell, images and volume proved. The mark for triclinic cells ignores negative tilt factors and is never removed (C102_triclinic_refuted; C102_triclinic_partial states exactly when it is set). Charges are proved for systems without ignored types; otherwise they are assigned to wrong atoms (C102_charges_refuted)."
  },
  {
   "property": "C103",
   "status": "proved",
   "theorems": [
    "C103_normalized",
    "C103_distribution"
   ],
   "note": "Conversion factors and converted structures; the text of the written files is that of C62 and C66."
  },
  {
   "property": "C104",
   "status": "partial",
   "theorems": [
    "C104_pairs",
    "C104_differences",
    "C104_without_forces_partial",
    "C104_one_sided_refuted",
    "C104_reference_forces_refuted",
    "C104_selection",
    "C104_weights_refuted"
   ],
   "note": "Pairing, differences (both potentials with forces) and selection proved. Without forces comp.data keeps the reference forces (C104_without_forces_partial, C104_reference_forces_refuted); with forces in the first potential only a difference is reported for equal predictions (C104_one_sided_refuted); the weights file names are wrong (C104_weights_refuted)."
  },
  {
   "property": "C105",
   "status": "partial",
   "theorems": [
    "C105_rows",
    "C105_radial_partial",
    "C105_angular_partial",
    "C105_weighted_narrow",
    "C105_outside_refuted",
    "C105_degrees_refuted"
   ],
   "note": "Proved inside the support of compact functions; outside it their shape files contain values that are not part of the symmetry function (C105_outside_refuted). For weighted narrow Gaussian functions the radial column is that of an equilateral triangle (C105_weighted_narrow). The angle column is in radians, not degrees (C105_degrees_refuted)."
  }
 ]
}