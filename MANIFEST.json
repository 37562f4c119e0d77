{
 "claims": [
  {
   "property": "C01",
   "status": "proved",
   "theorems": [
    "C01_occupation_assignment_roundtrip"
   ],
   "note": "Occupation/assignment conversions; negative occupation numbers excluded by the statement."
  },
  {
   "property": "C02",
   "status": "proved",
   "theorems": [
    "C02_assignment_to_occupation",
    "C02_default_modes",
    "C02_negative_modes",
    "C02_assignment_occupation_sorts"
   ],
   "note": "Full case analysis: explicit, default, negative number of modes, out-of-range and negative modes."
  },
  {
   "property": "C03",
   "status": "proved",
   "theorems": [
    "C03_possible_states_exact",
    "C03_degenerate",
    "C03_order"
   ],
   "note": "Enumeration, order and termination."
  },
  {
   "property": "C04",
   "status": "proved",
   "theorems": [
    "C04_lossy_states_exact"
   ],
   "note": "Enumeration, order and termination."
  },
  {
   "property": "C05",
   "status": "proved",
   "theorems": [
    "C05_dimension_counts_states"
   ],
   "note": "scipy's binom is taken as the exact binomial coefficient."
  },
  {
   "property": "C06",
   "status": "proved",
   "theorems": [
    "C06_lossy_inputs_exact",
    "C06_lossy_inputs_edge_cases",
    "C06_vacuum_refuted"
   ],
   "note": "Completeness under a collision-free hash on the candidates; the empty input returns itself for every k, so the documented particle number is refuted there (C06_vacuum_refuted)."
  },
  {
   "property": "C07",
   "status": "proved",
   "theorems": [
    "C07_state_types_exact",
    "C07_lossy_state_types_exact",
    "C07_no_modes"
   ],
   "note": "For at least one mode."
  },
  {
   "property": "C08",
   "status": "proved",
   "theorems": [
    "C08_number_of_state_types",
    "C08_number_of_k_partitions",
    "C08_zero"
   ],
   "note": "For all m, n."
  },
  {
   "property": "C09",
   "status": "proved",
   "theorems": [
    "C09_states_of_given_type",
    "C09_sum_over_types"
   ],
   "note": "scipy's factorial is exact in the model (it is a float in the code)."
  },
  {
   "property": "C10",
   "status": "proved",
   "theorems": [
    "C10_scattering_matrix"
   ],
   "note": "Dictionary lookups and index errors included."
  },
  {
   "property": "C11",
   "status": "proved",
   "theorems": [
    "C11_guan_codes"
   ],
   "note": "For arbitrary limits; the number of steps is part of the statement."
  },
  {
   "property": "C12",
   "status": "proved",
   "theorems": [
    "C12_ryser_permanent",
    "C12_fewer_outputs"
   ],
   "note": "Exact complex arithmetic; rounding is treated in C73."
  },
  {
   "property": "C13",
   "status": "proved",
   "theorems": [
    "C13_chin_huh_permanent",
    "C13_fewer_outputs"
   ],
   "note": "Exact complex arithmetic; rounding is treated in C73."
  },
  {
   "property": "C14",
   "status": "proved",
   "theorems": [
    "C14_classic_permanent",
    "C14_classic_edge_cases"
   ],
   "note": "Exact complex arithmetic; rounding is treated in C73."
  },
  {
   "property": "C15",
   "status": "proved",
   "theorems": [
    "C15_glynn_permanent",
    "C15_reflected_gray_code",
    "C15_glynn_vacuum"
   ],
   "note": "Under gray_ok for the index sequence of the package guancodes, met by the reflected code."
  },
  {
   "property": "C16",
   "status": "proved",
   "theorems": [
    "C16_factory_calculators_agree",
    "C16_unequal_numbers_refuted",
    "C16_factory_type"
   ],
   "note": "For unequal particle numbers the calculators disagree (C16_unequal_numbers_refuted)."
  },
  {
   "property": "C17",
   "status": "proved",
   "theorems": [
    "C17_guard"
   ],
   "note": "All combinations of mismatching sizes."
  },
  {
   "property": "C18",
   "status": "proved",
   "theorems": [
    "C18_history_independence"
   ],
   "note": "Histories of any length on one object."
  },
  {
   "property": "C19",
   "status": "proved",
   "theorems": [
    "C19_ryser_sub_permanents"
   ],
   "note": "Exact complex arithmetic."
  },
  {
   "property": "C20",
   "status": "proved",
   "theorems": [
    "C20_chin_huh_sub_permanents"
   ],
   "note": "Exact complex arithmetic."
  },
  {
   "property": "C21",
   "status": "proved",
   "theorems": [
    "C21_fixed_loss_probabilities"
   ],
   "note": "Under a collision-free hash on the sub-states of the input."
  },
  {
   "property": "C22",
   "status": "proved",
   "theorems": [
    "C22_fixed_loss_distribution"
   ],
   "note": "Under a collision-free hash; rounding is treated in C74."
  },
  {
   "property": "C23",
   "status": "proved",
   "theorems": [
    "C23_uniform_loss_probabilities",
    "C23_uniform_loss_distribution"
   ],
   "note": "Under a collision-free hash; rounding is treated in C74."
  },
  {
   "property": "C24",
   "status": "proved",
   "theorems": [
    "C24_transmissivity_one",
    "C24_transmissivity_zero"
   ],
   "note": "Both the probabilities and the distribution."
  },
  {
   "property": "C25",
   "status": "proved",
   "theorems": [
    "C25_weightless_toggle"
   ],
   "note": "The empty history is included."
  },
  {
   "property": "C26",
   "status": "proved",
   "theorems": [
    "C26_cumulative_search",
    "C26_selection_probability",
    "C26_numpy_choice_any_list",
    "C26_numpy_choice"
   ],
   "note": "Probability under a uniform draw, not only the selected index."
  },
  {
   "property": "C27",
   "status": "proved",
   "theorems": [
    "C27_gcc_exact",
    "C27_gcc_never_fails"
   ],
   "note": "Joint law of all samples of one call; random numbers exact and independent; rounding is treated in C75."
  },
  {
   "property": "C28",
   "status": "proved",
   "theorems": [
    "C28_gcc_shape",
    "C28_mode_assignment_shape",
    "C28_gcc_b_shape",
    "C28_uniform_losses_shape",
    "C28_gcc_b_uniform_losses_shape"
   ],
   "note": "Every run, of probability 0 included."
  },
  {
   "property": "C29",
   "status": "proved",
   "theorems": [
    "C29_gcc_history",
    "C29_mode_assignment_history",
    "C29_gcc_cache",
    "C29_mode_assignment_cache",
    "C29_gcc_b_history",
    "C29_gcc_b_uniform_losses_history",
    "C29_uniform_losses_history",
    "C29_collected_history"
   ],
   "note": "Histories of any length."
  },
  {
   "property": "C30",
   "status": "proved",
   "theorems": [
    "C30_mode_assignment_exact"
   ],
   "note": "Joint law; rounding is treated in C75."
  },
  {
   "property": "C31",
   "status": "proved",
   "theorems": [
    "C31_gcc_b_exact",
    "C31_gcc_b_never_fails"
   ],
   "note": "Joint law, including the tolerance of numpy's choice."
  },
  {
   "property": "C32",
   "status": "proved",
   "theorems": [
    "C32_uniform_losses_exact"
   ],
   "note": "Joint law."
  },
  {
   "property": "C33",
   "status": "proved",
   "theorems": [
    "C33_gcc_b_uniform_losses_exact",
    "C33_gcc_b_uniform_losses_never_fails",
    "C33_gcc_b_left_attribute"
   ],
   "note": "Joint law."
  },
  {
   "property": "C34",
   "status": "proved",
   "theorems": [
    "C34_collected_distribution",
    "C34_distribution_up_to_accuracy",
    "C34_unweighted_up_to_accuracy",
    "C34_unweighted_vacuum",
    "C34_full_accuracy",
    "C34_new_object"
   ],
   "note": "An invariant over all runs."
  },
  {
   "property": "C35",
   "status": "proved",
   "theorems": [
    "C35_svd_exists",
    "C35_lossy_net_exact",
    "C35_lossy_net_uniform",
    "C35_lossy_net_never_fails",
    "C35_lossy_net_construct"
   ],
   "note": "Given svd_ok; existence of such a decomposition is proved (C35_svd_exists)."
  },
  {
   "property": "C36",
   "status": "proved",
   "theorems": [
    "C36_upper_left_block",
    "C36_isometry",
    "C36_unitary_iff",
    "C36_always_unitary_refuted"
   ],
   "note": "Given svd_ok. Unitarity claimed by the documentation is refuted (C36_always_unitary_refuted)."
  },
  {
   "property": "C37",
   "status": "proved",
   "theorems": [
    "C37_lossy_network"
   ],
   "note": "Given svd_ok."
  },
  {
   "property": "C38",
   "status": "proved",
   "theorems": [
    "C38_exponential_exists",
    "C38_qft_unitary",
    "C38_qft_first_modes"
   ],
   "note": "Given cis_ok; existence over Coq's reals is proved (C38_exponential_exists)."
  },
  {
   "property": "C39",
   "status": "proved",
   "theorems": [
    "C39_phases"
   ],
   "note": "Given cis_ok."
  },
  {
   "property": "C40",
   "status": "proved",
   "theorems": [
    "C40_extracted_losses"
   ],
   "note": "Given svd_ok; the zero matrix has its own statement."
  },
  {
   "property": "C41",
   "status": "proved",
   "theorems": [
    "C41_lossy_state_split",
    "C41_lossy_state_samples",
    "C41_nonuniform_samples_refuted"
   ],
   "note": "The number of samples is not always the requested one (C41_nonuniform_samples_refuted)."
  },
  {
   "property": "C42",
   "status": "proved",
   "theorems": [
    "C42_new_object",
    "C42_accumulated_particles",
    "C42_same_on_every_call_refuted"
   ],
   "note": "Repeated calls add particles to the stored state; equality of calls is refuted (C42_same_on_every_call_refuted)."
  },
  {
   "property": "C43",
   "status": "proved",
   "theorems": [
    "C43_law",
    "C43_effective_matrix",
    "C43_exact_without_approximated_modes",
    "C43_exact_first_call",
    "C43_uniform_losses"
   ],
   "note": "Joint law for any distribution of phases."
  },
  {
   "property": "C44",
   "status": "proved",
   "theorems": [
    "C44_weights",
    "C44_distribution",
    "C44_distribution_bunched_refuted",
    "C44_bunched_raises"
   ],
   "note": "For bunched input parts the weights are not a distribution (C44_distribution_bunched_refuted)."
  },
  {
   "property": "C45",
   "status": "proved",
   "theorems": [
    "C45_new_object",
    "C45_wrong_level",
    "C45_exact_at_extreme_levels_refuted"
   ],
   "note": "Exactness at all extreme levels is refuted (C45_exact_at_extreme_levels_refuted)."
  },
  {
   "property": "C55",
   "status": "proved",
   "theorems": [
    "C55_shuffle",
    "C55_law"
   ],
   "note": "Joint law for any distribution of phases."
  },
  {
   "property": "C56",
   "status": "proved",
   "theorems": [
    "C56_modes_left_alone_refuted"
   ],
   "note": "Refuted by a witness valid for every draw (C56_modes_left_alone_refuted)."
  },
  {
   "property": "C46",
   "status": "proved",
   "theorems": [
    "C46_lists",
    "C46_lengths",
    "C46_triangle",
    "C46_events",
    "C46_dicts_agree",
    "C46_dict_events",
    "C46_dict_triangle"
   ],
   "note": "Any traversal order of the set of keys."
  },
  {
   "property": "C47",
   "status": "proved",
   "theorems": [
    "C47_minimal_samples",
    "C47_any_arguments",
    "C47_monotone"
   ],
   "note": "Over Coq's real numbers."
  },
  {
   "property": "C57",
   "status": "proved",
   "theorems": [
    "C57_error_bound",
    "C57_minimal_samples"
   ],
   "note": "Over Coq's real numbers; independent draws."
  },
  {
   "property": "C48",
   "status": "proved",
   "theorems": [
    "C48_factorisation",
    "C48_all_prime_refuted",
    "C48_outside"
   ],
   "note": "The claim that all returned factors are prime is refuted (C48_all_prime_refuted); division is exact in the model."
  },
  {
   "property": "C49",
   "status": "proved",
   "theorems": [
    "C49_frequencies",
    "C49_other_lengths",
    "C49_expectation",
    "C49_bounds",
    "C49_unbiased",
    "C49_default_outcomes",
    "C49_order_refuted",
    "C49_outcomes_stored",
    "C49_configured_number_ignored",
    "C49_no_samples",
    "C49_other_length_raises",
    "C49_bobs_sum_refuted"
   ],
   "note": "Any sampler; the order of outcomes (C49_order_refuted) and the sum for one strategy (C49_bobs_sum_refuted) are refuted."
  },
  {
   "property": "C59",
   "status": "proved",
   "theorems": [
    "C59_accuracy",
    "C59_minimal_samples",
    "C59_gcc_agrees_with_exact",
    "C59_uniform_losses_agrees_with_exact",
    "C59_calculate_distribution"
   ],
   "note": "Over Coq's real numbers."
  },
  {
   "property": "C50",
   "status": "proved",
   "theorems": [
    "C50_new_object",
    "C50_shape",
    "C50_no_particles_refuted",
    "C50_law",
    "C50_distribution"
   ],
   "note": "Joint law for any distribution of phases; without particles the code fails (C50_no_particles_refuted)."
  },
  {
   "property": "C51",
   "status": "proved",
   "theorems": [
    "C51_shape",
    "C51_law",
    "C51_outside"
   ],
   "note": "Joint law for any distribution of phases."
  },
  {
   "property": "C58",
   "status": "proved",
   "theorems": [
    "C58_one_particle_exact",
    "C58_positions_refuted"
   ],
   "note": "Refuted for particles not in the first modes (C58_positions_refuted)."
  },
  {
   "property": "C52",
   "status": "proved",
   "theorems": [
    "C52_type",
    "C52_value_semantics",
    "C52_calculator_unchanged",
    "C52_repeated_generation",
    "C52_generate_and_simulate",
    "C52_gcc_law",
    "C52_uniform_gcc_law",
    "C52_lossy_net_law",
    "C52_bobs_law",
    "C52_lossy_state_law",
    "C52_fixed_law",
    "C52_uniform_law",
    "C52_r_missing",
    "C52_configuration_matrix_ignored",
    "C52_independent_strategies_refuted",
    "C52_direct_construction"
   ],
   "note": "Histories over a heap of calculators; independence of the strategies of one type is refuted (C52_independent_strategies_refuted)."
  },
  {
   "property": "C53",
   "status": "proved",
   "theorems": [
    "C53_matrix",
    "C53_first_columns",
    "C53_too_many_particles",
    "C53_conversion",
    "C53_conversion_of_modes",
    "C53_positions_ignored",
    "C53_no_samples",
    "C53_sampler_exists",
    "C53_law",
    "C53_exact_for_first_modes",
    "C53_never_fails",
    "C53_positions_refuted",
    "C53_find_probabilities",
    "C53_find_probabilities_any_sampler",
    "C53_random_states_any_sampler",
    "C53_find_probabilities_terminates",
    "C53_find_probabilities_never_returns",
    "C53_find_probabilities_zero",
    "C53_random_states",
    "C53_random_states_terminates",
    "C53_random_states_never_returns",
    "C53_random_states_number_refuted"
   ],
   "note": "R's sampler is a parameter with a specification; positions of particles (C53_positions_refuted) and the number of states (C53_random_states_number_refuted) are refuted."
  },
  {
   "property": "C54",
   "status": "proved",
   "theorems": [
    "C54_transmissivities",
    "C54_eigenvalues",
    "C54_at_most_one",
    "C54_uniform"
   ],
   "note": "Given svd_ok."
  },
  {
   "property": "C60",
   "status": "proved",
   "theorems": [
    "C60_distribution_terminates",
    "C60_exact_distribution",
    "C60_unweighted_terminates",
    "C60_unweighted_exact",
    "C60_too_accurate",
    "C60_zero_transmissivity",
    "C60_missing_values"
   ],
   "note": "Ends with a probability tending to 1."
  },
  {
   "property": "C61",
   "status": "proved",
   "theorems": [
    "C61_distance",
    "C61_triangle",
    "C61_unitary",
    "C61_bounds",
    "C61_shapes",
    "C61_broadcast_refuted"
   ],
   "note": "numpy broadcasting breaks the metric for other shapes (C61_broadcast_refuted)."
  },
  {
   "property": "C62",
   "status": "proved",
   "theorems": [
    "C62_no_object",
    "C62_attributes",
    "C62_distribution_refuted"
   ],
   "note": "The constructor leaves attributes out; computing the distribution fails (C62_distribution_refuted)."
  },
  {
   "property": "C63",
   "status": "proved",
   "theorems": [
    "C63_initial_state",
    "C63_particles_refuted",
    "C63_probabilities",
    "C63_distribution",
    "C63_outcome_independent",
    "C63_normalisation_refuted",
    "C63_wrong_side_refuted"
   ],
   "note": "Attributes supplied by hand; particle number, normalisation and side of the phases are refuted."
  },
  {
   "property": "C64",
   "status": "proved",
   "theorems": [
    "C64_relabelled_permanent",
    "C64_relabelled_fixed",
    "C64_relabelled_uniform",
    "C64_relabelled_sampler",
    "C64_phases_fixed",
    "C64_phases_uniform",
    "C64_phases_sampler",
    "C64_reversed_permanent",
    "C64_reversed_probability"
   ],
   "note": "For the calculators and for the samplers."
  },
  {
   "property": "C65",
   "status": "proved",
   "theorems": [
    "C65_composition"
   ],
   "note": "Permanents over any field of characteristic 0 with norm; probabilities by amplitudes."
  },
  {
   "property": "C66",
   "status": "proved",
   "theorems": [
    "C66_fixed_losses_behind",
    "C66_uniform_losses_behind"
   ],
   "note": "Probabilities and sampler."
  },
  {
   "property": "C67",
   "status": "proved",
   "theorems": [
    "C67_fixed_mean",
    "C67_uniform_mean",
    "C67_sampler_mean",
    "C67_uniform_sampler_mean"
   ],
   "note": "Expectations, and averages over the samples."
  },
  {
   "property": "C68",
   "status": "proved",
   "theorems": [
    "C68_permanent",
    "C68_probability",
    "C68_sampler"
   ],
   "note": "Given cis_ok."
  },
  {
   "property": "C69",
   "status": "proved",
   "theorems": [
    "C69_permanent",
    "C69_probability",
    "C69_uniform_losses"
   ],
   "note": "Permanents, probabilities and the uniformly lossy distribution."
  },
  {
   "property": "C70",
   "status": "proved",
   "theorems": [
    "C70_fixed_losses",
    "C70_uniform_losses",
    "C70_sampler",
    "C70_uniform_sampler"
   ],
   "note": "Total variation distance; joint law of any number of samples."
  },
  {
   "property": "C71",
   "status": "proved",
   "theorems": [
    "C71_expectations",
    "C71_fixed_law",
    "C71_uniform_law",
    "C71_fixed_accuracy",
    "C71_lossless",
    "C71_bound_attained",
    "C71_uniform_accuracy",
    "C71_close_to_exact_sampler",
    "C71_reals"
   ],
   "note": "Averages over continuous phases as limits of averages over grids; cis_lipschitz and an archimedean field, met by the reals (C71_reals)."
  },
  {
   "property": "C72",
   "status": "proved",
   "theorems": [
    "C72_law",
    "C72_distribution",
    "C72_accuracy",
    "C72_close_to_exact_sampler",
    "C72_lower_bound",
    "C72_other_inputs_refuted"
   ],
   "note": "Averages as in C71; for other inputs the bound fails (C72_other_inputs_refuted)."
  },
  {
   "property": "C73",
   "status": "proved",
   "theorems": [
    "C73_exact_arithmetic",
    "C73_ryser",
    "C73_chin_huh",
    "C73_classic",
    "C73_glynn",
    "C73_any_calculator",
    "C73_first_order",
    "C73_agreement"
   ],
   "note": "Relative error at most u per operation, no overflow or underflow."
  },
  {
   "property": "C74",
   "status": "proved",
   "theorems": [
    "C74_exact_arithmetic",
    "C74_fixed_loss_probabilities",
    "C74_uniform_loss_probabilities",
    "C74_nonnegative",
    "C74_fixed_loss_distribution",
    "C74_uniform_loss_distribution"
   ],
   "note": "Relative error at most u per operation, no overflow or underflow."
  },
  {
   "property": "C75",
   "status": "proved",
   "theorems": [
    "C75_exact_arithmetic",
    "C75_sampler",
    "C75_mode_assignment_sampler",
    "C75_seldom_fails",
    "C75_selection_in_range",
    "C75_index_error_refuted"
   ],
   "note": "Relative error at most u per operation, any accurate sum, discrete random(); an IndexError is possible without further assumptions (C75_index_error_refuted)."
  },
  {
   "property": "C76",
   "status": "proved",
   "theorems": [
    "C76_exact_arithmetic",
    "C76_ryser",
    "C76_chin_huh",
    "C76_agreement"
   ],
   "note": "Relative error at most u per operation (no overflow or underflow), u <= 1/2."
  },
  {
   "property": "C77",
   "status": "proved",
   "theorems": [
    "C77_exact_arithmetic",
    "C77_binary_search",
    "C77_sampler",
    "C77_uniform_losses",
    "C77_seldom_fails"
   ],
   "note": "Relative error at most u per operation (no overflow or underflow), (9m+4)u <= 2^-27, discrete random numbers."
  },
  {
   "property": "C78",
   "status": "proved",
   "theorems": [
    "C78_real_operations",
    "C78_complex_operations",
    "C78_sharper",
    "C78_orders",
    "C78_binary_digits",
    "C78_permanents",
    "C78_samplers"
   ],
   "note": "The rounding has a bounded relative error (no overflow or underflow). The code of numpy is not part of the repository: that its complex operations, modulus, choice and powers are the modelled ones is an assumption."
  },
  {
   "property": "C79",
   "status": "proved",
   "theorems": [
    "C79_below_overflow",
    "C79_sub_below_overflow",
    "C79_wrong_sign_refuted",
    "C79_not_finite_refuted",
    "C79_no_particles_refuted"
   ],
   "note": "Only the sums of the states and the powers in the first multiplier wrap; all other arithmetic is exact. An infinite multiplier makes the result None (infinite or NaN). In this region the documented result is missed, which is what the refuted parts state."
  },
  {
   "property": "C80",
   "status": "proved",
   "theorems": [
    "C80_calculator",
    "C80_permanent",
    "C80_same_samples_A",
    "C80_same_samples_B",
    "C80_same_samples_uniform_B",
    "C80_history",
    "C80_exact",
    "C80_calculator_keeps_input_refuted"
   ],
   "note": "References are positions in a store from which nothing is removed. The samples returned are copies (tuple, array) and are values in the model. The uniform losses variant of version A and the other strategies are not in the model with references. The refuted part states what sampling changes in the calculator."
  },
  {
   "property": "C81",
   "status": "proved",
   "theorems": [
    "C81_draws_A",
    "C81_draws_B",
    "C81_draws_uniform_losses",
    "C81_passes",
    "C81_sub_passes"
   ],
   "note": "Draws are counted for every run that returns samples; for runs that raise nothing is claimed. Passes are those of the while loop of compute_permanent(s), counted as fuel of the model."
  },
  {
   "property": "C82",
   "status": "proved",
   "theorems": [
    "C82_states_of_type",
    "C82_states_of_type_refuted",
    "C82_dimension",
    "C82_dimension_refuted",
    "C82_prime_factors",
    "C82_prime_factors_refuted"
   ],
   "note": "Assumed of scipy and numpy: factorial is exact where n! is a float64 number and infinite from 2^1024 on, // is exact where the quotient is an integer and a float64 number, round is a nearest integer, / rounds to 53 binary digits, int(sqrt(n)) is exact below 2^52. The refuted parts state the limits."
  },
  {
   "property": "C83",
   "status": "proved",
   "theorems": [
    "C83_exact_arithmetic",
    "C83_dot",
    "C83_expanded_matrix",
    "C83_loss_cancellation",
    "C83_transmissivities",
    "C83_lossless_network",
    "C83_lossy_network",
    "C83_sampler",
    "C83_seldom_fails",
    "C83_continuity",
    "C83_sampler_given_matrix",
    "C83_construct",
    "C83_backward_stable",
    "C83_backward_sampler"
   ],
   "note": "Relative error at most u per operation (no overflow or underflow); the decomposition is assumed to be, up to d in each entry, the exact one of a network with losses M0 near the given matrix; (18m+4)u <= 2^-27; discrete random numbers."
  },
  {
   "property": "C84",
   "status": "proved",
   "theorems": [
    "C84_exact_arithmetic",
    "C84_sampler",
    "C84_seldom_fails",
    "C84_collected_distribution",
    "C84_distribution_up_to_accuracy",
    "C84_unweighted_up_to_accuracy",
    "C84_complete_list_stops",
    "C84_unweighted_empty"
   ],
   "note": "Relative error at most u per operation (no overflow or underflow); (2m+1+number of Guan codes)u <= 1/8; discrete random numbers; isclose(x, 0) is x <= tol."
  },
  {
   "property": "C85",
   "status": "proved",
   "theorems": [
    "C85_exact_arithmetic",
    "C85_lossless_network",
    "C85_new_object",
    "C85_probabilities",
    "C85_placing",
    "C85_fixed_sampler",
    "C85_fixed_always",
    "C85_uniform_sampler",
    "C85_uniform_always"
   ],
   "note": "Relative error at most u <= 1/8 per operation (no overflow or underflow; with uniform losses (9n+13)u <= 2^-27); the phases have a finite law; discrete random numbers for the particles."
  },
  {
   "property": "C86",
   "status": "proved",
   "theorems": [
    "C86_exact_arithmetic",
    "C86_new_object",
    "C86_network",
    "C86_weights",
    "C86_sampler",
    "C86_seldom_fails"
   ],
   "note": "Relative error at most u <= 1/8 per operation with (9k+4)u <= 2^-27 for the sizes k of the choices (no overflow or underflow); the phases have a finite law; discrete random numbers for the choices; shuffling is exact."
  },
  {
   "property": "C87",
   "status": "proved",
   "theorems": [
    "C87_exact_arithmetic",
    "C87_common_losses",
    "C87_network_left",
    "C87_new_object",
    "C87_choice",
    "C87_lossy_input",
    "C87_stable_decomposition",
    "C87_network",
    "C87_sampler",
    "C87_seldom_fails",
    "C87_near_network",
    "C87_from_the_network"
   ],
   "note": "Relative error at most u per operation with (9*2m+4)u <= 2^-27 (no overflow or underflow); every matrix close to a network has a computed decomposition close to that of a network close to it; the phases have a finite law; discrete random numbers for the choices."
  }
 ]
}