# Formal model of n2p2 in Rocq (Coq 8.16.1)

This directory holds a machine-checked model of the C++ sources in `/repo`
(CompPhysVienna/n2p2) and proofs of the properties listed in
`properties.jsonl`.  `MANIFEST.json` maps each property to theorem names.

## Layout

* `rocq/theories/Base/`      general facts (finite sums of reals, folds, lists)
* `rocq/theories/Model/`     the model: definitions only, every definition cites
  the file and lines of `/repo` it models and says where it simplifies
* `rocq/theories/Spec/`      independent specifications used by the statements
* `rocq/theories/Proofs/`    lemmas
* `rocq/theories/Props/`     the property theorems only, each closed by `exact`,
  followed by `Print Assumptions`, with an `Example` showing that a concrete
  non-trivial case meets the hypotheses

Names: a theorem `Cnn_xxx` belongs to property Cnn.  The suffix `_partial` marks
a theorem that proves only part of the property.  The suffix `_refuted` marks a
theorem exhibiting an input for which the faithful model violates the
English property (i.e. a defect of the code); such a finding is described in
the section "Findings".

## Modelling conventions (trusted)

* `double` is modelled by the real numbers `R` of the Coq standard library (or,
  for matrix algebra, by an arbitrary mathcomp `realFieldType`).  Rounding, NaN
  and infinities are therefore not modelled; where a C++ division by zero could
  occur, the theorem carries the hypothesis that excludes it or the model
  returns a distinguished outcome.
* `std::size_t` is `nat` (no wrap-around) unless the comment says otherwise.
* `std::vector::at`, `std::map::at` and `throw` are modelled by `option` /
  result types, undefined behaviour by a separate `UB` outcome.
* Loops over containers are folds over lists; mutable members are record fields
  threaded through the fold.
* MPI processes are modelled as a list of per-rank states; collective calls are
  functions on that list; a schedule is a quantified interleaving where the
  property is about ordering.
* Random number generators are quantified streams.

## Plan per property

| Property | Modelled | Proof method |
|---|---|---|
| C01-C03 | CutoffFunction state, setters, all f/df/fdf variants | real analysis (Coquelicot `is_derive`), case analysis on types; setter order as state machine (refuted as stated) |
| C04 | CoreFunction, CompactFunction, ScreeningFunction | as C01/C02; `df` of CompactFunction refuted |
| C05 | pow_int loop on integers | loop invariant, induction on binary digits |
| C06 | split/trim/reduce on lists of characters | induction on strings |
| C07-C08 | ElementMap maps, periodic table | association lists, sortedness by atomic number |
| C09-C11 | Settings parser, lookup, sanity check, writer | induction on lines |
| C12-C13 | SymFnc scaling, statistics | field arithmetic, induction over histories |
| C14-C17 | NeuralNetwork as layer lists, all derivative routines | induction over layers, chain rule |
| C18-C20, C25 | Structure geometry (Vec3D, inverse box, remap, copies, minimum image) | field/nra, Cauchy-Schwarz for plane distances |
| C21-C24 | neighbour list loops and bookkeeping | invariants of folds; Permutation/Sorted |
| C26-C29, C31-C32 | symmetry function loops, groups, caches | fold = sum, derivative of finite sums |
| C30, C33 | Element grouping and memory tables | induction over lists |
| C34-C35 | Mode::calculateEnergy/Forces on top of symmetry functions and networks, one by one and with cache and groups | chain rule over finite sums; groups equal individual evaluation (C29) |
| C36-C39 | unit conversion, offsets, error metrics | field arithmetic, induction |
| C40-C42 | electrostatics with an exact linear solver as hypothesis | linear algebra / implicit differentiation |
| C43-C44 | KspaceGrid::setup, ErfcBuf | integer case analysis; memo invariant |
| C45-C47 | KalmanFilter (mathcomp matrices), GradientDescent | matrix algebra; induction over histories |
| C48-C51 | Dataset distribution, packing, numeric forces, file output | induction, fold invariants, schedule quantification |
| C52-C57 | Training set selection, schedules, layout, weights, normalisation | list induction, arithmetic |
| C58-C59 | InterfaceLammps | index maps; pack/unpack |
| C60 | nnp-select main loop | induction over lines |
| C61 | Stopwatch state machine | induction over call histories |
| C62 | Structure writer/reader, text with the numbers as in C67 | round trip by symbolic execution of the reader on the written lines |
| C63-C65 | connection modifications, neuron statistics, weights file of NeuralNetwork | loop invariants, induction over histories |
| C66 | rewriting of input.nn in dataSetNormalization | induction over lines |
| C67 | `%24.16E` and atof as correctly rounding conversions | Flocq: 17 digits determine a double |
| C68 | Evaluation model of C34 (both paths); "same system" as a relation between structures | matching of sites preserves environments; forces as an order independent, rotation equivariant sum over labelled environments |
| C69 | Same; explicit supercell | sites of the supercell correspond to sites of the cell by division with remainder; forces by translation symmetry (C68) and the sum over labelled environments; full claim false for angular functions in small cells (`C69_own_images_refuted`) |
| C70 | Same; two structures in the same box, no pair within reach | environments and their labels agree |
| C71 | collectDGdxia, dPdc, calculateWeightDerivatives, the Jacobian part of update, on top of the evaluation (C34) and the update plan (C54) | the stored derivatives of the symmetry functions turn the force into a sum over networks; each network's share is differentiated as in C15 and C16; sums over atoms by invariants; refuted for own images with angular functions |
| C72 | setupCutoff, setupSymmetryFunctions, addSymmetryFunction, the eleven setParameters, operator< and sorting, changeLengthUnit, setCutoffFunction | meaning of a line stated from the tables in the headers (Spec/SymLineSpec.v), shown equivalent to what the parser builds; order of lines by uniqueness of sorted lists for a strict weak order |
| C73 | pruneSymmetryFunctionsRange/Sensitivity, writePrunedSettingsFile, loading the result | the kept lines are the filtered lines (as in C11), C72 applied to both files and sortedness of a filtered list |
| C74 | Mode::setupNeuralNetwork up to the constructed networks, atoi, activationFromString | soundness by lemmas on loops over layers and lines (which entries they write), acceptance by progress lemmas; three refutations with a concrete settings file |
| C75 | Mode::evaluateNNP for HDNNP_4G on isolated structures: neighbor lists to the largest radius with cutoff maps, electronegativity networks, charge equilibration, short-range networks with the charge as last input, energies, calculateDChidr, lambda forces | stages (lists, functions, networks) reduced to lists of near neighbors, then the response theorem of C41/C42 along a path, with the derivative of each electronegativity and of the short-range energy from C14, C26 and C34 |
| C76 | Text of the scaling file: createFileHeader, writeSymmetryFunctionScaling, setupSymmetryFunctionScaling with keywords, comment lines, lines handed to elements and erased, setScalingType on words | text lemmas (words of a padded line, decimal integers, C67 for doubles), induction over elements and lines; soundness by inversion of the loops |
| C77 | Text of weights files: writeConnections, readColumnsFromFile, readNeuralNetworkWeights, hardness files | words of each row, C65 and C67, layout lemmas of C14; rounding to the nearest double for the hardness |
| C78 | EwaldSetup, EwaldTruncJackson, EwaldTruncKolafaFixR, EwaldTruncKolafaOptEta as functions on a state with the cached volume and number of atoms; loops with fuel | Newton's method on a convex function converges from the left, the fixed point iteration for the width is a contraction in the logarithm: every iteration ends for some number of rounds; error estimates of Kolafa and Perram by algebra on the final residuals |
| C79 | Sequence of calls of calculateParameters through calculateMaxCutoffRadiusOverall in evaluation and in training; toNormalizedUnits | the cache state is either fresh or that of a call with the same settings; covariance of every loop under a change of units |
| C80 | Mode::setupElectrostatics on the settings text and hardness files | induction over the lines of each keyword; inversion of the set-up |
| C81 | Training::setupSelectionMode, checkSelectionMode and the training loop | schedule as last entry begun (induction over the words); closed form of the loop state after n epochs |
| C82 | set-up of the output keywords, the writes of the loop and file names | closed form of the loop; injectivity of the names; content of a file as fold over the writes |
| C83 | setupTraining: updaters and their parameters, the loop's updates | inversion of the set-up; number of updates of the loop and the closed forms of C45-C47 |
| C84 | setupUpdatePlan and setEpochSchedule in the loop | rounding bounds; counting the steps of a shuffled schedule |
| C85 | PairHDNNP::coeff, init_style and InterfaceLammps::initialize (mapping text, default mapping, table of types, cutoff check), std::stoi | texts are written from lists of entries, reading inverts writing; fold over entries; link to the hypotheses of C58 |
| C86 | counters of PairHDNNP::handleExtrapolationWarnings on all processes over a sequence of time steps | induction over the steps with arbitrary initial counters |
| C87 | Dataset::writeSymmetryFunctionHistograms and writeNeighborHistogram over all processes; gsl_histogram from its documentation | search in increasing limits; fold of increments counts the values between limits; sums over processes |
| C88 | sortNeighborLists, writeNeighborLists, writeAtomicEnvironmentFile (values, not derivatives) | invariant: counters equal numbers of chosen neighbors; chosen ones are a prefix of the sorted list of each element; link to C21, C23 |
| C89 | nnp-dist: neighbor lists, pair histograms, normalisation, RDF files | histogram values as sums of indicator terms; labelled neighbor lists from C21; unlike pairs by the bijection (a, b, m) <-> (b, a, -m); induction over structures with the invariant that histograms are empty between structures |
| C90 | nnp-dist: angle histograms, ADF files | pairs of positions in the list against ordered pairs of different neighbors; Cauchy-Schwarz for the boundary bins; sums over bins |
| C91 | Prediction.cpp and the tables of nnp-predict on top of structure files, units, offsets and evaluation | any text read without error gives a consistent structure (induction over lines); conversion and evaluation composed; gradient by chain rule through the unit of length |
| C92 | loadSettingsFile, setupNormalization and the rewriting of input.nn by dataSetNormalization on top of the settings and printf models | case analysis of the keywords; entries of the rewritten lines computed from the code part of each line, values by the exact read-back of 16 digits |
| C93 | nnp-convert with writeToFileXyz, writeToFilePoscar, reset | formats specified as relations between lines and data; induction over structures read and atoms; numbers by exact read-back |
| C94 | Training::writeSetsToFiles with offsets, parts of Dataset::distributeStructures | induction over processes and structures, offset shifts cancel, reading back by the round trip of C62 |
| C95 | setupRandomNumberGenerator, initializeWeights, randomizeNeuralNetworkWeights | generators as arbitrary state machines; induction over processes, networks and draws, then layout (C14) and schemes (C63) |
| C96 | writeLearningCurve, Property::Property, physical, toPhysicalUnits | header names and row texts as lists over properties, metrics and sets; scaling of RMSE and MAE under unit conversion by induction over structures and atoms |
| C97 | writeNeuronStatistics, getNeuronStatistics | arrays as maps over the list of neuron positions; reduction over processes by induction, statistics of one process from C64 |
| C98 | calculateError as far as it writes, getEnergyLine, getForcesLines, getChargesLines | outcome of text; rows by induction on structures and processes, concatenation from the file combination (C51), errors from C39 |
| C99 | main of nnp-checkf on top of prepareNumericForces (C50), comments as text | collected arrays by induction on copies and processes; assignment loop invariant; accuracy by Taylor-Lagrange |
| C100 | setupElementMap, setupElements and the Element constructor on the settings model (C07, C09) | sorted registration list; last line by the fold lemma of C80; acceptance by induction on lines |
| C101 | sensitivity part of nnp-dataset and reading part of nnp-prune; processes as a list | counters after any atoms by induction; reduction by induction on processes; file text by field lemmas |
| C102 | setBoxVectors and getCharges of the LAMMPS interface; cell as state, calls in sequence | algebra of the cell matrix with the inverse of C18; flag by induction on the calls; charges from the stored atoms of C58 |
| C103 | main of nnp-norm without file texts; processes as a list | accumulators by induction, reduction to the concatenated data set, affine rules of mean and deviation |
| C104 | main of nnp-comp2: ranks after the two splits, message contents, differences, selection loop; texts not modelled | arithmetic of ranks, induction over atoms and structures; the three defects by witnesses |
| C105 | shape file rows, radial and angular part of all eleven types | comparison with the sums of SymSpec for one neighbour or one pair; defects by witnesses |

## Trusted base

### Kernel and axioms

The kernel of Coq 8.16.1 (checked in addition with `coqchk`), and the axioms that
`Print Assumptions` prints under each property theorem.  All of them come from
Coq's standard library:

* D = `ClassicalDedekindReals.sig_forall_dec`
* N = `ClassicalDedekindReals.sig_not_dec`
* F = `FunctionalExtensionality.functional_extensionality_dep`
* C = `Classical_Prop.classic`

D, N and F are the axioms on which the real numbers of the standard library rest;
C enters through lemmas of the standard library, Coquelicot and Flocq that use
classical logic.  No axiom, parameter or unproved lemma is added by this
development.  Per theorem:

* closed under the global context (no axioms):
  C76_header_is_comment, C48_exactly_once, C48_balanced, C48_indices_increase,
  C48_sequential_blocks, C48_succeeds, C50_displacements,
  C51_complete_and_ordered, C51_distributions, C51_combine,
  C51_combine_missing, C07_register_bijection, C07_order_irrelevant,
  C07_elements_string_roundtrip, C07_second_registration_rejected,
  C07_duplicate_symbols_refuted, C07_unknown_symbol_accepted_refuted,
  C08_atomic_number, C08_symbol_from_number_partial, C08_range,
  C08_last_element_refuted, C85_last_type_null_always, C86_rate_partial,
  C14_set_get, C14_layout, C14_positions_bijective, C65_rows_labelled,
  C66_normalization_added_partial, C66_normalization_replaced_partial,
  C66_all_three_written_refuted, C60_lines_partitioned, C60_log,
  C60_blank_line_stops, C60_every_file_processed_refuted,
  C53_schedule_complete, C53_shuffle_rearranges, C53_sort_rearranges,
  C09_load_contents, C09_comments_irrelevant, C09_get_value, C09_get_values,
  C09_keyword_exists, C09_unknown_keyword_rejected, C09_tab_line_refuted,
  C09_carriage_return_refuted, C09_reload_refuted, C10_critical_iff,
  C10_problem_iff, C10_unknown_counted, C11_prune_reload, C11_prune_text,
  C11_write_reload, C33_tables, C06_tokens_exist_unique, C06_reduce_tokens,
  C06_split_reduce_tokens, C06_reduce_idempotent, C06_split_lossless,
  C06_split_inverts_join, C06_pad_fills, C62_registered_map, C32_slots,
  C81_unique, C81_accepted, C49_exact_size, C49_round_trip, C54_rows_distinct,
  C54_rows_used, C54_rows_in_range, C54_parameters_distinct,
  C54_parameters_in_range, C54_parameters_used, C95_generators,
  C96_known_properties, C98_header, C104_pairs, C104_weights_refuted,
  C104_four_processes
* D:
  C58_atoms_registered, C14_get_stays_in_bounds, C14_get_set,
  C65_written_rows, C65_written_rows_restore, C56_memory_fits,
  C56_set_weights, C49_stale_atoms_refuted, C49_nul_comment_refuted,
  C102_charges_partial, C104_one_atom
* D, F:
  C87_symmetry_function_histograms, C87_neighbor_statistics, C88_environment,
  C88_single_element, C01_configuration_accepted, C50_every_displacement_once,
  C18_left_inverse, C18_right_inverse, C18_volume, C19_remap,
  C19_inside_unchanged, C19_far_atom_refuted, C25_result_is_image,
  C58_positions_and_tags_partial, C58_positions_refuted, C85_mapping,
  C85_default_mapping, C85_malformed_rejected, C85_pair_coeff_partial,
  C85_last_type_null_refuted, C85_ready_for_use, C85_shared_element_refuted,
  C85_type_zero_refuted, C85_contradiction_refuted, C85_blank_mapping_refuted,
  C86_stop, C86_inactive, C86_summary, C86_first_rate_refuted,
  C86_no_limit_refuted, C86_negative_limit_refuted, C86_total_refuted,
  C59_transfer, C59_all_warnings_written, C59_reset_sender_refuted,
  C22_comparison, C24_needs_sorted_list, C74_architecture_partial,
  C74_accepted, C74_last_layer_refuted, C74_output_activation_refuted,
  C74_own_layers_refuted, C12_scale_is_documented_formula,
  C12_scale_unscale_inverse, C12_range_mapped, C12_line_mixup_refuted,
  C13_warning_count, C13_warning_log, C13_stop_on_warning,
  C13_statistics_of_history, C13_order_irrelevant, C13_reduction_over_ranks,
  C13_training_values_in_range, C52_every_structure_in_one_set,
  C52_candidate_lists, C52_energies_once, C52_force_components_once,
  C52_charges_once, C52_one_candidate_per_structure_4G, C52_pattern_counts,
  C52_succeeds, C53_candidates_in_turn, C53_every_candidate_once_per_cycle,
  C53_sub_candidates_in_turn, C53_structure_changes_after_group,
  C55_first_above_threshold, C55_exhausted_partial,
  C55_largest_error_used_refuted, C94_distributed, C30_order, C30_sorting,
  C30_groups, C61_times, C61_misuse, C05_pow_int, C72_order,
  C73_sensitivity_accepted, C56_numeric_derivatives,
  C56_numeric_networks_restored_partial, C36_structure_round_trip,
  C36_property_round_trip, C36_unknown_property, C36_atom_quantities,
  C36_energies_agree, C37_derivatives_scaled_partial, C37_what_is_scaled,
  C37_derivatives_scaled_refuted, C38_offsets_exact, C38_offsets_and_units,
  C54_jacobian_complete, C54_errors_complete, C54_charge_errors_refuted,
  C95_range, C99_report, C102_cell, C102_triclinic_partial,
  C102_triclinic_refuted, C102_charges_refuted, C104_differences,
  C104_without_forces_partial, C104_one_sided_refuted,
  C104_reference_forces_refuted, C104_selection, C104_thresholds
* D, F, N:
  C88_neighbor_file, C88_listed, C88_columns_refuted,
  C39_metrics_of_complete_data_set, C39_unassigned_structure_fails,
  C20_copies_terminate, C20_copies_suffice, C20_flat_cell_refuted,
  C25_minimum_image_found, C25_at_most_one_image,
  C25_not_nearest_image_refuted, C43_half_sphere, C43_nothing_else,
  C43_each_once, C43_sphere_sum, C43_terminates, C43_second_setup_refuted,
  C21_neighbor_list_exact, C21_always_finishes, C21_unwrapped_refuted,
  C22_symmetric, C23_counters, C23_recompute_partial,
  C23_recompute_counts_refuted, C24_cutoff_map, C24_stale_map_refuted,
  C57_statistics, C57_normalized_ref, C57_normalized_force,
  C57_force_mode_needs_forces, C57_unknown_mode_rejected,
  C13_sigma_is_sample_deviation, C56_get_weights, C56_get_after_set,
  C56_get_after_set_sizes, C56_set_after_get,
  C56_numeric_networks_unchanged_refuted, C36_geometry_consistent,
  C45_covariance_standard, C45_covariance_fading,
  C45_information_step_standard, C45_information_step_fading,
  C45_information_standard, C45_state_standard, C45_state_fading,
  C46_forgetting, C47_adam, C47_moments, C96_name_decides, C98_errors,
  C101_sensitivity, C101_distribution, C101_percent, C102_images,
  C103_normalized, C103_distribution
* C, D, F, N:
  C93_xyz, C93_poscar_partial, C93_poscar_no_cell_refuted,
  C01_cutoff_zero_outside, C01_cutoff_range, C01_cutoff_positive_inside,
  C01_cutoff_plateau, C01_cutoff_at_zero, C01_cutoff_nonincreasing,
  C02_cutoff_derivative, C02_cutoff_fused, C03_setters_partial,
  C03_setter_order_refuted, C04_core_values, C04_core_range_and_decay,
  C04_core_le_one, C04_core_derivative, C04_core_polynomial_shape,
  C04_compact_value, C04_compact_fused_derivative, C04_compact_df_sign,
  C04_compact_df_refuted, C04_screening, C04_screening_units, C76_round_trip,
  C76_training_range, C76_loaded_lines, C76_swapped_elements_refuted,
  C77_round_trip, C77_loaded_lines, C77_truncated_file_refuted,
  C77_hardness_refuted, C77_hardness_partial, C89_radial_distribution,
  C89_outcome, C89_at_cutoff_refuted, C89_coordination_refuted,
  C90_angular_distribution, C90_integral, C90_integral_refuted, C40_isolated,
  C40_isolated_minimum, C40_periodic, C40_periodic_minimum,
  C40_own_image_lowers_energy, C40_own_images_refuted, C75_isolated,
  C75_unique, C75_defined, C75_total_force, C78_optimal_parameters,
  C78_fixed_cutoff, C78_jackson, C78_accepted, C78_missing_charge_refuted,
  C78_default_refuted, C78_permittivity_refuted, C79_history,
  C79_list_reaches, C79_units, C79_units_rejected, C79_training_refuted,
  C79_after_failure_refuted, C80_hardness, C80_hardness_files, C80_widths,
  C80_ewald, C80_permittivity, C80_screening, C80_missing_width_refuted,
  C34_energy_defined, C34_energy_evaluated,
  C34_forces_are_negative_gradient_partial, C34_own_images_refuted,
  C34_default_energy_evaluated,
  C34_default_forces_are_negative_gradient_partial, C34_groups_option_refuted,
  C35_forces_sum_to_zero_partial, C35_default_forces_sum_to_zero_partial,
  C35_own_images_refuted, C68_same_energy_and_forces,
  C68_default_same_energy_and_forces, C69_supercell_partial,
  C69_default_supercell_partial, C69_own_images_refuted, C70_groups_of_atoms,
  C70_default_groups_of_atoms, C44_answers, C44_transparent,
  C58_energy_and_forces, C58_energies_add_up, C58_per_atom_energies_partial,
  C58_tags_and_energies_refuted, C15_output_is_feed_forward_network,
  C15_dEdG_is_gradient, C15_clamping_point_refuted, C16_dEdc_is_gradient,
  C16_dEdc_is_output_gradient, C17_dFdc_is_gradient, C63_precondition_output,
  C63_zero_bias, C63_zero_output_weights, C63_fan_in, C63_glorot_bengio,
  C63_nguyen_widrow_hidden, C63_nguyen_widrow_output_refuted,
  C64_neuron_statistics, C92_setup, C92_round_trip_partial,
  C92_unrecognised_keyword, C92_indented_refuted, C92_incomplete_refuted,
  C91_read_consistent, C91_prediction, C91_forces_partial,
  C91_default_prediction, C91_default_forces_partial, C67_read_back,
  C67_relative_error, C67_column_width, C41_electronegativity,
  C41_hardness_isolated, C41_hardness_periodic, C41_position_isolated,
  C41_position_periodic, C42_isolated, C42_periodic, C12_factor_is_derivative,
  C94_set_files, C31_length_unit, C33_no_clash, C62_round_trip,
  C62_positions_kept, C62_exact, C62_data_set, C62_set_refuted,
  C62_tilted_cell_refuted, C62_charged_cell_refuted, C62_comment_refuted,
  C62_long_comment_refuted, C29_groups_equal_individual_partial,
  C29_cached_groups_partial, C29_subtypes_refuted, C29_negative_shift_refuted,
  C29_rescaled_refuted, C72_accepted, C72_meaning_unique, C72_functions,
  C72_order_independent, C72_values, C72_usable, C72_cutoff,
  C72_cutoff_parameter_refuted, C72_cutoff_parameter, C73_range,
  C73_sensitivity, C26_radial_functions, C27_angular_functions_partial,
  C27_collinear_refuted, C28_neighbor_order, C28_rigid_motion,
  C28_derivatives_cancel, C32_cache_transparent_partial,
  C32_wrong_element_refuted, C32_same_digits_refuted, C81_selection,
  C81_order, C81_lines, C82_ends, C82_weights, C82_comparison, C82_neurons,
  C82_growing, C83_start, C83_noise, C83_rate, C83_accepted, C83_metric,
  C83_element_strategy_refuted, C84_patterns, C84_ratio_partial,
  C84_ratio_refuted, C46_learning_rate, C46_process_noise_standard,
  C46_process_noise_fading, C46_maximum_exceeded_refuted,
  C46_minimum_undercut_refuted, C47_fixed_direction, C71_energy_derivatives,
  C71_force_derivatives_partial, C71_own_images_refuted,
  C71_force_derivatives_balance, C71_weight_derivatives_partial,
  C71_jacobian_partial, C71_parameters_vary, C71_default_derivatives_partial,
  C71_default_weight_derivatives_partial, C71_default_jacobian_partial,
  C71_default_parameters_vary, C95_same_on_all_processes, C95_default,
  C95_nguyen_widrow, C95_old_weights, C95_precondition,
  C95_precondition_charge_refuted, C95_process_count_refuted, C96_columns,
  C96_precision, C97_statistics, C97_file, C97_neuron_value_refuted,
  C98_files, C98_unassigned, C99_second_order, C99_no_warning, C99_line,
  C100_elements, C100_offsets, C100_accepted, C100_duplicate_symbol_refuted,
  C101_file, C101_prune_reads, C77_hardness_lines, C105_rows,
  C105_radial_partial, C105_angular_partial, C105_weighted_narrow,
  C105_outside_refuted, C105_degrees_refuted, C105_inside, C105_angle

### Hypotheses standing for code outside of the model

They appear in the theorem statements, not as axioms:

* linear solvers: `A.colPivHouseholderQr().solve(b)` and `A.inverse()` of Eigen are
  functions that return a solution / the inverse whenever the matrix is
  non-singular (`exact_solver`, `exact_inverse`; C40-C42, C45, C46);
* `std::sort` is any function returning a permutation sorted by the comparison,
  `std::shuffle` any function returning a permutation;
* random numbers are arbitrary sequences, the generators of C95 arbitrary state machines;
* MPI: messages between two processes arrive unchanged and in order, collective
  calls compute what the standard says; buffers are lists of typed items whose
  sizes are additive (C39, C48, C49, C51, C54, C59);
* `printf("%24.16E")` and `atof` are correctly rounding (C62, C67);
* the clock readings of Stopwatch are arbitrary (C61);
* `quantity` in C56 (value of energy or force for given weights) is an arbitrary
  function of the weights;
* the text put into a cache identifier (C32) is an arbitrary function of the
  symmetry function, injective on what the identifier describes for the positive
  theorem (`"%16.8E"` is not injective: C32_same_digits_refuted).

### Modelled

| Model file | Code |
|---|---|
| CoreFunction, CompactScreening, CutoffFunction | CoreFunction, CompactFunction, ScreeningFunction, CutoffFunction, complete |
| Strings | split, trim, reduce, pad, pow_int of utility.cpp |
| Printf | strpr with `%24.16E` and `%2s`, atof |
| ElementMap | ElementMap, complete |
| Settings | parser, look-up, sanity check, writer of Settings.cpp; pruning of Mode.cpp |
| Scaling | scaling of SymFnc.cpp, SymFncStatistics, scaling file and its reduction |
| NeuralNetwork | NeuralNetwork: connections, propagation, all derivatives, statistics, modifications, weight file as numbers |
| Geometry, NeighborList | cell geometry, neighbour list, cutoff map, bookkeeping of Structure.cpp and Atom.cpp |
| SymFunctions, SymSetup, SymCache, SymGroups | all eleven symmetry function types: evaluation, comparison, set-up, memory tables, caches, groups |
| Forces | energy and forces of 2G potentials (Mode.cpp, Atom.cpp) |
| GroupEvaluation | set-up and evaluation with cache and groups, and without set-up of groups (N2P2_NO_SF_GROUPS) |
| Units, Errors | unit conversion, energy offsets, error metrics |
| Kspace, Electrostatics | reciprocal grid, erfc buffer, charge equilibration, responses, 4G forces |
| Updaters | KalmanFilter, GradientDescent |
| Dataset, Transfer | distribution, MPI transfer, numeric forces, collective output, combineFiles |
| Selection, UpdatePlan, TrainWeights, Normalization | the parts of Training.cpp named in the files |
| LammpsInterface, LammpsWarnings | InterfaceLammps and pair_hdnnp for 2G potentials, extrapolation warnings |
| Select, Stopwatch, StructureFile | nnp-select, Stopwatch, readFromLines/readFromFile/writeToFile |
| Forces, GroupEvaluation (again) | invariance under relabelling and rigid motions, supercells, separated groups of atoms (C68-C70) are theorems about the same functions |
| WeightDerivatives | derivatives of energies and forces with respect to the weights: dEdc, dFdc of Mode/Atom/NeuralNetwork and dPdc of Training.cpp |
| SymLines | reading of `symfunction_short` lines by all symmetry function types, cutoff_type, sorting of symmetry functions, sensitivities |
| NetworkSetup | setupNeuralNetwork: topology keywords, global and per element |
| Evaluation4G | evaluateNNP for 4G potentials, isolated structures |
| DataFiles | scaling.data and weights files as text, hardness files |
| EwaldSetup | EwaldSetup, EwaldTruncJackson, EwaldTruncKolafaOptEta, EwaldTruncKolafaFixR, setupElectrostatics |
| TrainingSetup | setupTraining, setStage, training loop, selection schedules, weights file intervals |
| LammpsSetup, LammpsLimits | pair_hdnnp settings and coeff, emap, limits of extrapolation warnings |
| DataAnalysis | histograms, neighbor list and atomic environment files of Dataset.cpp |
| Distribution | nnp-dist |
| Prediction | Prediction.cpp and the tables of nnp-predict |
| NormalizationSetup | setupNormalization, rewriting of input.nn by dataSetNormalization |
| Convert | nnp-convert, writeToFileXyz, writeToFilePoscar |
| SetFiles | writeSetsToFiles and the energy offsets of distributeStructures |
| WeightInit | setupRandomNumberGenerator, initializeWeights, randomizeNeuralNetworkWeights |
| LearningCurve | writeLearningCurve, names of Training::Property |
| NeuronStats | writeNeuronStatistics |
| Comparison | calculateError (file output), getEnergyLine, getForcesLines, getChargesLines |
| ForceCheck | nnp-checkf (one structure: distribution, collection, comparison, lines) |
| ElementSetup | setupElementMap, setupElements, Element constructor |
| Sensitivity | nnp-dataset (sensitivity analysis and its files), nnp-prune (reading of sensitivity files) |
| LammpsCell | InterfaceLammps: setBoxVectors, getCharges |
| NormTool | nnp-norm: statistics, conversion factors, converted structures |
| Comp2 | nnp-comp2: pairs of processes, messages, differences, selection; names of weights files (setupNeuralNetworkWeights) |
| Shape | nnp-symfunc: writeSymmetryFunctionShape, calculateRadialPart, calculateAngularPart |

### Not modelled

* floating point rounding, NaN and infinities (except in Printf.v, where values
  are the doubles among the reals); overflow of integers unless stated;
* data races of the OpenMP regions (one was noticed while reading, see Findings);
* log and screen output, file headers, extrapolation warning texts;
* the virial and the 4G branch of the LAMMPS interface, the CabanaMD interface,
  PyNNP and the main functions of the remaining command line tools (nnp-train,
  nnp-scaling, nnp-norm2, nnp-prune beyond reading sensitivity files, nnp-atomenv,
  nnp-cutoff, nnp-dataset beyond its sensitivity analysis; nnp-select, nnp-dist,
  nnp-predict, nnp-checkf, nnp-convert, nnp-norm, nnp-comp2 and nnp-symfunc are modelled);
* derivative files of the atomic environment;
* evaluation of periodic 4G structures as a whole (C75 covers isolated ones; the
  periodic electrostatic parts are in C40-C44).

## Findings

Behaviour of the code at the pinned commit that contradicts the English property.
Those with a theorem name are proved about the model; the others were noticed
while reading and are not part of the model.

Proved:

* C03_setter_order_refuted: `setCutoffRadius` after `setCutoffParameter` leaves
  the inner radius stale.
* C04_compact_df_refuted: `CompactFunction::df` has the wrong sign (`fdf`, used by
  the symmetry functions, is right).
* C07_duplicate_symbols_refuted, C07_unknown_symbol_accepted_refuted: repeated
  symbols are registered twice, a single unknown symbol is accepted.
* C08_last_element_refuted: `symbolFromAtomicNumber(102)` throws.
* C09_tab_line_refuted, C09_carriage_return_refuted, C09_reload_refuted: a line
  of only tabs gives an entry with an empty keyword, carriage returns end up in
  values, loading twice accumulates entries.
* C12_line_mixup_refuted: the check of the scaling file accepts a line belonging to
  another symmetry function of the same element.
* C15_clamping_point_refuted: logistic and softplus neurons jump at the clamping
  point, the network output has no derivative there.
* C19_far_atom_refuted: undefined conversion to `int` for atoms 2^31 cells away.
* C20_flat_cell_refuted: calculatePbcCopies never ends for dependent box vectors.
* C21_unwrapped_refuted: atoms outside the cell lose neighbours.
* C23_recompute_counts_refuted, C24_stale_map_refuted: clearNeighborList keeps the
  counts per element and the cutoff map.
* C25_not_nearest_image_refuted: beyond the check the minimum image convention
  need not return the nearest image.
* C27_collinear_refuted: compact angular functions skip collinear triples.
* C29_subtypes_refuted, C29_negative_shift_refuted, C29_rescaled_refuted: groups
  reuse the radial part of a member with another subtype, ignore negative shifts,
  and multiply scaling factors set twice.
* C32_wrong_element_refuted, C32_same_digits_refuted: the cache slot of the wrong
  element is tested, and identifiers coincide for parameters equal to 9 digits.
* C34_groups_option_refuted: set-up of symmetry function groups is switched off by
  `N2P2_NO_SF_GROUPS`, but `Mode::evaluateNNP` (Mode.cpp:1983) tests
  `NNP_NO_SF_GROUPS`; a build with the documented option evaluates an empty list of
  groups, all symmetry functions are zero and the energy is wrong.
* C34_own_images_refuted, C35_own_images_refuted: force contributions of an atom's
  own periodic images are skipped.
* C37_derivatives_scaled_refuted: conversion of units rescales the derivatives of
  an atom once per neighbour.
* C40_own_images_refuted (with C40_own_image_lowers_energy): the periodic screening
  energy counts own images twice.
* C43_second_setup_refuted: a second setup appends to the reciprocal grid.
* C46_maximum_exceeded_refuted, C46_minimum_undercut_refuted: the learning rate
  passes its maximum, the process noise its minimum by one step.
* C49_stale_atoms_refuted, C49_nul_comment_refuted: receiving into a used structure
  keeps old atoms, a NUL cuts the comment.
* C54_charge_errors_refuted: charge errors of a 4G batch overwrite each other.
* C55_largest_error_used_refuted: with all trials used up the candidate tried last
  is used, not the one with the largest error.
* C56_numeric_networks_unchanged_refuted: dPdcN leaves the last weight perturbed.
* C58_tags_and_energies_refuted, C58_positions_refuted: ignored atom types shift
  tags, positions and per-atom energies.
* C59_reset_sender_refuted: a sender without warnings overwrites element and type in
  the receiver's lines.
* C60_every_file_processed_refuted: nnp-select throws at blank lines.
* C62_set_refuted, C62_tilted_cell_refuted, C62_charged_cell_refuted,
  C62_comment_refuted, C62_long_comment_refuted: what does not survive writing and
  reading a structure.
* C63_nguyen_widrow_output_refuted: the scheme for the output layer touches only
  some weights of output neuron 0.
* C66_all_three_written_refuted: normalization keywords are lost when only some
  are present before.
* C69_own_images_refuted, C71_own_images_refuted: the skipped contributions of own
  images make forces of a cell differ from those of its supercell, and derivatives
  of forces with respect to weights incomplete.
* C72_cutoff_parameter_refuted: a negative parameter passes the check of cutoff_type
  (no symmetry function with a cutoff function is made from it, C72_cutoff_parameter).
* C74_last_layer_refuted, C74_output_activation_refuted, C74_own_layers_refuted:
  element_nodes of the last hidden layer (Mode.cpp:1346) and element_activation of
  the output layer (Mode.cpp:1370) are ignored; element_hidden_layers different from
  the global number is rejected.
* C76_swapped_elements_refuted: a scaling file whose lines belong to other elements is
  accepted.
* C77_truncated_file_refuted: loading a weights file without its last line has
  undefined behaviour.  C77_hardness_refuted: the atomic hardness is written with too
  few digits to be restored exactly (C77_hardness_partial bounds the loss).
* C78_permittivity_refuted: `four_pi_epsilon` never reaches the choice of Ewald
  parameters.  C78_missing_charge_refuted: one word in `ewald_prec` is accepted with
  method 1, but no method is set up (null pointer).  C78_default_refuted: the same
  without `ewald_prec`, although a default is logged.
* C79_training_refuted: training uses the Ewald parameters of the last structure for
  all.  C79_after_failure_refuted: after a rejected volume a second call with the
  same volume returns silently.
* C80_missing_width_refuted: elements without `initial_hardness` or
  `fixed_gausswidth` silently get 0.
* C83_element_strategy_refuted: the check of the update strategy is done before the
  keyword is read.
* C84_ratio_refuted: `force_energy_ratio` ignores the energy fraction.
* C85_last_type_null_refuted (C85_last_type_null_always): `map[n]` is uninitialised
  (pair_hdnnp.cpp:198), so NULL for the last type is undefined.
  C85_shared_element_refuted: several types of one element are rejected if there are
  more types than elements.  C85_type_zero_refuted, C85_contradiction_refuted,
  C85_blank_mapping_refuted: such mappings are accepted.
* C86_no_limit_refuted, C86_negative_limit_refuted: `maxew 0` is logged as no limit
  but stops at the first warning, so does a negative one if warnings are shown.
  C86_first_rate_refuted: the first warnings per step are wrong.  C86_total_refuted:
  the limit holds per process.
* C88_columns_refuted: neighbors are sorted by distance only, so columns of the atomic
  environment file mix elements.
* C89_at_cutoff_refuted: a pair exactly at the cutoff ends nnp-dist with out_of_range.
  C89_coordination_refuted: the coordination number ignores the first bin.
* C90_integral_refuted: the integral is not 1 if some structure has no such triple.
* C92_indented_refuted, C92_incomplete_refuted: keywords that are indented or followed
  directly by a comment, or only some of the keywords, make training write a settings
  file that later runs reject.
* C93_poscar_no_cell_refuted: nonperiodic structures give a malformed POSCAR file
  (exception constructed but not thrown).
* C95_precondition_charge_refuted: the check for incompatible keywords looks only at
  nguyen_widrow_weights_short; with the charge variant precondition_weights is ignored.
  C95_process_count_refuted: the seed of the global generator is drawn after those of the
  other processes, so initial weights change with the number of processes.

* C97_neuron_value_refuted: the neuron statistics file announces minimum,
  maximum and mean of the neuron value, but for neurons behind the input layer
  the argument of the activation function is recorded. With one value in total the
  standard deviation is 0/0.
- C100 (C100_duplicate_symbol_refuted): a symbol listed twice in `elements` is not
  noticed when `number_of_elements` counts the different symbols: "H H O" with 2
  gives two elements H and none for O, whose index 2 is outside of the list.
- **C102_triclinic_refuted** (InterfaceLammps.cpp:371-379): the tilt factors are compared
  without absolute value, so a cell with negative tilt factors is not marked as
  triclinic, and the mark is never removed when a later cell is orthogonal.
- **C102_charges_refuted** (InterfaceLammps.cpp:632-635): charges are written at the
  position of the atom in the structure, not at its LAMMPS index; with atoms of
  ignored types the charges go to wrong atoms.
- **C104_weights_refuted** (nnp-comp2.cpp:171): the tool passes "nnp-data-1/weights.%03d.data"
  where a directory prefix is expected, so the format becomes
  "nnp-data-1/weights.%03d.dataweights.%03zu.data": one number is passed for two conversions
  and the weights files of the potential are not found.
- **C104_one_sided_refuted** (nnp-comp2.cpp:262-264, 315): if only the first potential uses
  forces, the shorter message leaves zeros in the buffer and the forces of the first potential
  are reported as differences, without an error.
- **C104_reference_forces_refuted** (nnp-comp2.cpp:271-300): if no potential uses forces,
  comp.data contains the reference forces of the data set in place of differences, and the
  selection mode compares them with the force threshold.
- **C105_outside_refuted** (CompactFunction.h:148-152, SymFncCompRad.cpp:210-215 and the
  other compact types): the parts of compact functions are evaluated without a check of the
  support, so shape files contain large values (-31 in the example) where the symmetry function
  is zero.
- **C105_degrees_refuted** (SetupAnalysis.cpp:37, 72, 88): the column "Angle in degrees" is in
  radians.

Noticed while reading, outside of the model:

* `runtime_error` constructed but not thrown: Settings.cpp:306;
  Structure.cpp:1478, 1537, 1580, 1591, 1613; Training.cpp:242, 250.
* OpenMP race on `Q` (Structure.cpp:721).
* Structure::reset does not reset all members.
* sortUpdateCandidates assigns instead of accumulating the charge error.
* The update log of a 2G force always names atom 0.
* `getConnectionOffsets` ignores the hardness slots; `weights.at(0)` is used under
  US_ELEMENT.
* setupUpdatePlan: a process with an empty batch in full mode takes `&front()` of
  an empty vector; MPI_Allreduce of `size_t` as MPI_INT (Training.cpp:2503).
* EwaldTruncJackson stores the volume before it throws; the truncation methods
  ignore changed settings; unknown names of the error method are silently ignored;
  the keyword for fourPiEps is never read.
* nnp-dist reads every structure into the same object; nnp-checkdw computes the
  analytic derivatives with the networks perturbed by dPdcN.
* nnp-dist: `argc == 4` passes the check although argv[4] is read; zero bins divide by
  zero; coinciding atoms give nan cast to size_t.
* nnp-predict: the force log line passes one argument too many to the format.
* nnp-convert: symbols repeated on the command line write their atoms twice;
  `strpr("%d", size_t)` here and in the data analysis.
* With normalize_data_set, conv_charge is not read in the training run but is in
  later ones.
* A structure file ending after one or two lattice lines without "end" is accepted as
  nonperiodic with a partial box; blank lines end with out_of_range.
* Histograms: one bin gives nan limits, zero bins wrap; the last bin of a symmetry
  function histogram holds only the maximum.  The derivative files of the atomic
  environment use the first neighbor entry with the index of the central atom.
* Training: kalman_etatau and kalman_etamax are used only if both are given;
  "write_x 0 100" writes nothing; negative epochs wrap; no updates per epoch divides
  by zero.
* Settings lines: compact subtypes beginning with "e" are accepted with the remainder
  ignored; element_* lines cannot be repeated (Settings.cpp:414-420); negative node
  numbers fail only at allocation; global_nodes without global_activation ends with
  out_of_range.
* SymFncExpAngn and SymFncExpAngnWeighted: operator== omits rs.
* evaluateNNP (HDNNP_Q): useDEdG without useForces reads unset data; changeLengthUnit
  twice compounds; calculateDAdrQ accumulates without zeroing; collectError is 0/0 for
  empty sets.
* InterfaceLammps: isTriclinic is never reset and not set for negative tilts.
* The cutoff map lacks the Ewald cutoff and the global maximum for elements with
  smaller cutoffs.
* combineFiles on a missing file throws after removing the earlier ones.
* Macros NNP_FULL_SFD_MEMORY and N2P2_FULL_SFD_MEMORY are both used; under the
  latter, dPdc calls collectDGdxia without its third argument.
