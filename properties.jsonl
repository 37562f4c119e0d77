{"id": "C01", "title": "Occupation -> assignment -> occupation round trip", "statement": "Converting a mode-occupation state to mode assignment and back, giving the number of modes, returns the original state; the intermediate assignment lists every mode index exactly as often as it is occupied, in non-decreasing order.", "quantifier": "every list of non-negative occupation numbers (at least one mode, any length, any numbers)", "why_tests_cant": "the claim ranges over infinitely many inputs; tests sample a handful of fixed sizes", "anchors": ["theboss/boson_sampling_utilities/boson_sampling_utilities.py: mode_occupation_to_mode_assignment, mode_assignment_to_mode_occupation"]}
{"id": "C02", "title": "Assignment -> occupation counts particles, and rejects bad modes", "statement": "mode_assignment_to_mode_occupation(a, m) returns the length-m vector whose i-th entry is the number of occurrences of i in a when all entries are in range; with m omitted it uses max(a)+1 modes; an entry >= m raises IndexError and an empty assignment with m omitted raises ValueError; negative entries follow Python's wrap-around.", "quantifier": "every assignment list (including negative and out-of-range modes) and every number of modes", "why_tests_cant": "the claim ranges over infinitely many inputs; tests sample a handful of fixed sizes", "anchors": ["theboss/boson_sampling_utilities/boson_sampling_utilities.py: mode_assignment_to_mode_occupation"]}
{"id": "C03", "title": "generate_possible_states enumerates the n-particle states exactly", "statement": "Without losses, the returned list contains every m-mode state with exactly n particles, nothing else, each once, in strictly descending lexicographic order; for n<0 or m<1 it is empty. The generation always terminates.", "quantifier": "every integer n and m", "why_tests_cant": "the claim ranges over infinitely many inputs; tests sample a handful of fixed sizes", "anchors": ["theboss/boson_sampling_utilities/boson_sampling_utilities.py: generate_possible_states, _generate_possible_n_particle_states"]}
{"id": "C04", "title": "generate_possible_states with losses enumerates all states with at most n particles", "statement": "With losses=True the list contains every m-mode state with at most n particles exactly once, ordered by particle number and, within it, in descending lexicographic order.", "quantifier": "every integer n and m", "why_tests_cant": "the claim ranges over infinitely many inputs; tests sample a handful of fixed sizes", "anchors": ["theboss/boson_sampling_utilities/boson_sampling_utilities.py: generate_possible_states"]}
{"id": "C05", "title": "bosonic_space_dimension is the number of generated states", "statement": "bosonic_space_dimension(n, m, losses) equals len(generate_possible_states(n, m, losses)).", "quantifier": "every n >= 0, m >= 1, both values of losses", "why_tests_cant": "the claim ranges over infinitely many inputs; tests sample a handful of fixed sizes", "anchors": ["theboss/boson_sampling_utilities/boson_sampling_utilities.py: bosonic_space_dimension, generate_possible_states"]}
{"id": "C06", "title": "generate_lossy_n_particle_input_states returns exactly the k-particle sub-states", "statement": "For an input with at least one particle, the returned list holds exactly the states that are mode-wise <= the input and have k particles, each once, provided the hash used for deduplication does not collide on them; soundness and absence of repetitions hold for any hash. For the empty input the function returns the empty input itself whatever k is asked for (a violation for k > 0).", "quantifier": "every input state, every number of particles left, every hash function", "why_tests_cant": "the claim ranges over infinitely many inputs; tests sample a handful of fixed sizes; hash collisions cannot be provoked by unit tests", "anchors": ["theboss/boson_sampling_utilities/boson_sampling_utilities.py: generate_lossy_n_particle_input_states"]}
{"id": "C07", "title": "generate_state_types enumerates state types exactly", "statement": "The returned list contains every non-increasing m-mode vector with n particles (with losses: at most n particles), each exactly once, and nothing else. For m = 0 it is empty.", "quantifier": "every m >= 0 and n >= 0, both values of losses", "why_tests_cant": "the claim ranges over infinitely many inputs; tests sample a handful of fixed sizes", "anchors": ["theboss/boson_sampling_utilities/boson_sampling_utilities.py: generate_state_types"]}
{"id": "C08", "title": "Number of state types is the length of the list of state types", "statement": "compute_number_of_state_types(m, n, losses) = len(generate_state_types(m, n, losses)); compute_number_of_k_element_integer_partitions_of_n(k, n) is the number of partitions of n into exactly k positive parts for n >= 1 (for n = 0 it is 1 for k = 1 and 0 otherwise).", "quantifier": "every m, n, k >= 0, both values of losses", "why_tests_cant": "the claim ranges over infinitely many inputs; tests sample a handful of fixed sizes", "anchors": ["theboss/boson_sampling_utilities/boson_sampling_utilities.py: compute_number_of_state_types, compute_number_of_k_element_integer_partitions_of_n"]}
{"id": "C09", "title": "Number of states of a given type", "statement": "compute_number_of_states_of_given_type(t) equals the number of distinct rearrangements of t, i.e. the number of states in generate_possible_states of that type; summing it over all state types gives bosonic_space_dimension.", "quantifier": "every state type (any length, any occupation numbers)", "why_tests_cant": "the claim ranges over infinitely many inputs; tests sample a handful of fixed sizes", "anchors": ["theboss/boson_sampling_utilities/boson_sampling_utilities.py: compute_number_of_states_of_given_type"]}
{"id": "C10", "title": "The effective scattering matrix repeats columns by input and rows by output", "statement": "calculate() returns the matrix whose (a,b) entry is U[row of the a-th output particle][column of the b-th input particle]; it is the empty list when either state has no particles.", "quantifier": "every matrix and every pair of states fitting it", "why_tests_cant": "the claim ranges over infinitely many inputs; tests sample a handful of fixed sizes", "anchors": ["theboss/boson_sampling_utilities/boson_sampling_utilities.py: EffectiveScatteringMatrixCalculator.calculate"]}
{"id": "C11", "title": "Guan code iteration visits every code exactly once by unit steps", "statement": "Iterating the Guan code update from the all-zero code visits every vector r with 0 <= r <= n (n the input state) exactly once, consecutive codes differ by exactly one in exactly one position, and then stops.", "quantifier": "every list of position limits", "why_tests_cant": "the claim ranges over infinitely many inputs; tests sample a handful of fixed sizes; the number of codes is exponential", "anchors": ["theboss/boson_sampling_utilities/permanent_calculators/bs_permanent_calculator_base.py: BSGuanCodeBasedPermanentCalculatorBase._update_guan_code", "theboss/boson_sampling_utilities/permanent_calculators/bs_submatrices_permanent_calculator_base.py: _update_guan_code"]}
{"id": "C12", "title": "Ryser calculator returns the permanent", "statement": "RyserPermanentCalculator.compute_permanent() returns the permanent of the effective scattering matrix whenever input and output states have the same number of particles.", "quantifier": "every square complex matrix, every pair of states of the matrix' size with equal particle numbers (bunched or not)", "why_tests_cant": "the claim ranges over infinitely many inputs; tests sample a handful of fixed sizes", "anchors": ["theboss/boson_sampling_utilities/permanent_calculators/ryser_permanent_calculator.py", "theboss/boson_sampling_utilities/permanent_calculators/bs_permanent_calculator_base.py: compute_permanent"]}
{"id": "C13", "title": "Chin-Huh calculator returns the permanent", "statement": "ChinHuhPermanentCalculator.compute_permanent() returns the permanent of the effective scattering matrix whenever input and output states have the same number of particles.", "quantifier": "every square complex matrix, every pair of states with equal particle numbers", "why_tests_cant": "the claim ranges over infinitely many inputs; tests sample a handful of fixed sizes", "anchors": ["theboss/boson_sampling_utilities/permanent_calculators/chin_huh_permanent_calculator.py", "theboss/boson_sampling_utilities/permanent_calculators/bs_permanent_calculator_base.py"]}
{"id": "C14", "title": "Classic calculator returns the permanent", "statement": "ClassicPermanentCalculator.compute_permanent() returns the permanent of the effective scattering matrix whenever both states have equally many particles, 1 for two vacua, 0 for an empty input and a non-empty output, and raises IndexError for a non-empty input and an empty output.", "quantifier": "every square complex matrix and pair of states", "why_tests_cant": "the claim ranges over infinitely many inputs; tests sample a handful of fixed sizes", "anchors": ["theboss/boson_sampling_utilities/permanent_calculators/classic_permanent_calculator.py"]}
{"id": "C15", "title": "Glynn calculator returns the permanent", "statement": "GlynnGrayPermanentCalculator.compute_permanent() returns the permanent of the effective scattering matrix for equal particle numbers, given that the update indices form a Gray code.", "quantifier": "every square complex matrix, every pair of states with equal particle numbers, every Gray-code index sequence", "why_tests_cant": "the claim ranges over infinitely many inputs; tests sample a handful of fixed sizes", "anchors": ["theboss/boson_sampling_utilities/permanent_calculators/glynn_gray_permanent_calculator.py"]}
{"id": "C16", "title": "All four permanent calculators agree, and the factory returns the requested one", "statement": "On any matrix and pair of states with equal particle numbers the calculators produced by BSPermanentCalculatorFactory for the four types return the same value; the factory builds the calculator of the requested type with the factory's current matrix and states and falls back to Chin-Huh for an unknown type. With different particle numbers the calculators disagree.", "quantifier": "every calculator type, matrix and pair of states, every history of setter calls on the factory", "why_tests_cant": "the claim ranges over infinitely many inputs; tests sample a handful of fixed sizes", "anchors": ["theboss/boson_sampling_utilities/permanent_calculators/bs_permanent_calculator_factory.py"]}
{"id": "C17", "title": "Guan-code calculators reject mismatched sizes", "statement": "compute_permanent() of the Ryser and Chin-Huh calculators raises AttributeError exactly when the matrix is not square, or the states have different lengths, or they are longer than the matrix.", "quantifier": "every matrix and pair of states", "why_tests_cant": "the claim ranges over infinitely many inputs; tests sample a handful of fixed sizes", "anchors": ["theboss/boson_sampling_utilities/permanent_calculators/bs_permanent_calculator_base.py: _can_calculation_be_performed"]}
{"id": "C18", "title": "Permanent calculators can be reused: results do not depend on history", "statement": "After any sequence of setter calls and computations on one calculator object, compute_permanent() returns what a freshly constructed calculator with the current matrix and states would return.", "quantifier": "every history of operations (set matrix, set input, set output, compute) on one calculator object", "why_tests_cant": "the property quantifies over all operation histories of a mutable object", "anchors": ["theboss/boson_sampling_utilities/permanent_calculators/bs_permanent_calculator_base.py", "theboss/boson_sampling_utilities/permanent_calculators/ryser_permanent_calculator.py", "theboss/boson_sampling_utilities/permanent_calculators/chin_huh_permanent_calculator.py"]}
{"id": "C19", "title": "Ryser sub-matrix calculator returns all sub-permanents", "statement": "BSCCRyserSubmatricesPermanentCalculator.compute_permanents()[i] is the permanent for the input with one particle removed from mode i (0 if mode i is empty), when the output has one particle less than the input.", "quantifier": "every matrix, every input with at least one particle, every output with one particle less", "why_tests_cant": "the claim ranges over infinitely many inputs; tests sample a handful of fixed sizes", "anchors": ["theboss/boson_sampling_utilities/permanent_calculators/bs_cc_ryser_submatrices_permanent_calculator.py", "theboss/boson_sampling_utilities/permanent_calculators/bs_submatrices_permanent_calculator_base.py"]}
{"id": "C20", "title": "Chin-Huh sub-matrix calculator returns all sub-permanents", "statement": "BSCCCHSubmatricesPermanentCalculator.compute_permanents()[i] is the permanent for the input with one particle removed from mode i (0 if mode i is empty), when the output has one particle less than the input.", "quantifier": "every matrix, every input with at least one particle, every output with one particle less", "why_tests_cant": "the claim ranges over infinitely many inputs; tests sample a handful of fixed sizes", "anchors": ["theboss/boson_sampling_utilities/permanent_calculators/bs_cc_ch_submatrices_permanent_calculator.py", "theboss/boson_sampling_utilities/permanent_calculators/bs_submatrices_permanent_calculator_base.py"]}
{"id": "C21", "title": "Fixed-losses calculator computes the lossy boson sampling probabilities", "statement": "calculate_probabilities_of_outcomes returns, for each outcome t with l particles, the hypergeometric mixture over l-particle sub-states T of the input of |Per(U_{t,T})|^2/(T! t!).", "quantifier": "every matrix, input state, number of particles left between 1 and n, and every list of outcomes", "why_tests_cant": "the claim ranges over infinitely many inputs; tests sample a handful of fixed sizes", "anchors": ["theboss/distribution_calculators/bs_distribution_calculator_with_fixed_losses.py"]}
{"id": "C22", "title": "Fixed-losses distribution is a probability distribution", "statement": "For a unitary interferometer the values returned by calculate_distribution are non-negative and sum to 1, in the order of get_outcomes_in_proper_order.", "quantifier": "every unitary matrix of any size, every input, every number of particles left", "why_tests_cant": "the claim ranges over infinitely many inputs; tests sample a handful of fixed sizes", "anchors": ["theboss/distribution_calculators/bs_distribution_calculator_with_fixed_losses.py: calculate_distribution, get_outcomes_in_proper_order"]}
{"id": "C23", "title": "Uniform-losses distribution is the binomial mixture and sums to 1", "statement": "For a unitary interferometer and transmissivity eta the uniform-losses calculator returns binom(n,l) eta^l (1-eta)^(n-l) times the fixed-loss probability for an outcome with l particles; values are non-negative for 0<=eta<=1 and sum to 1 over get_outcomes_in_proper_order.", "quantifier": "every unitary matrix, every input, every eta in [0,1]", "why_tests_cant": "the claim ranges over infinitely many inputs; tests sample a handful of fixed sizes", "anchors": ["theboss/distribution_calculators/bs_exact_distribution_with_uniform_losses.py"]}
{"id": "C24", "title": "Transmissivity 1 reduces uniform losses to the lossless experiment", "statement": "With eta = 1 the uniform-losses calculator gives probability 0 to every outcome with lost particles and the lossless boson sampling probability to the others; with eta = 0 it gives 1 to the vacuum and 0 to the rest.", "quantifier": "every matrix and input", "why_tests_cant": "the claim ranges over infinitely many inputs; tests sample a handful of fixed sizes", "anchors": ["theboss/distribution_calculators/bs_exact_distribution_with_uniform_losses.py"]}
{"id": "C25", "title": "Toggling weightless mode is reversible and only affects weights", "statement": "set_weightless(True) makes every non-vacuum outcome's value the unweighted fixed-loss probability; set_weightless(False) restores the weighted values; only the last call in any sequence of calls matters, and a new object is weighted.", "quantifier": "every sequence of set_weightless calls", "why_tests_cant": "ranges over all call histories", "anchors": ["theboss/distribution_calculators/bs_exact_distribution_with_uniform_losses.py: set_weightless"]}
{"id": "C26", "title": "Inverse-CDF selection samples index i with probability proportional to weight i", "statement": "Given a uniform variate u in [0,1), the cumulative search used by the strategies returns index i exactly when u lies in an interval of length weight_i/total; no index of weight 0 is ever returned.", "quantifier": "every non-negative weight list with positive total and every u in [0,1)", "why_tests_cant": "real-valued draws cannot be exhausted by tests", "anchors": ["theboss/simulation_strategies/generalized_cliffords_simulation_strategy.py: _sample_from_latest_pmf", "theboss/simulation_strategies/nonuniform_losses_approximation_strategy.py: choice", "theboss/simulation_strategies/generalized_cliffords_b_uniform_losses_simulation_strategy.py: _get_number_of_particles_left"]}
{"id": "C27", "title": "GCC strategy samples exactly from the boson sampling distribution", "statement": "For a unitary interferometer, simulate(s, k) of GeneralizedCliffordsSimulationStrategy returns k independent samples, each equal to t with probability |Per(U_{t,s})|^2/(s! t!).", "quantifier": "every unitary matrix, every input state, every number of samples, every prior state of the strategy object", "why_tests_cant": "a statistical test cannot establish equality of distributions for all matrices and inputs", "anchors": ["theboss/simulation_strategies/generalized_cliffords_simulation_strategy.py"]}
{"id": "C28", "title": "Samples are well-formed for every run of the random generator", "statement": "Whatever values the random generator yields, each sample returned by the GCC-type strategies has the input's number of modes, non-negative entries, and exactly the input's number of particles (at most, for lossy strategies); exactly samples_number samples are returned.", "quantifier": "every sequence of random draws, every matrix, input and samples_number", "why_tests_cant": "ranges over all random tapes", "anchors": ["theboss/simulation_strategies/generalized_cliffords_simulation_strategy.py", "theboss/simulation_strategies/generalized_cliffords_b_simulation_strategy.py", "theboss/simulation_strategies/generalized_cliffords_uniform_losses_simulation_strategy.py", "theboss/simulation_strategies/generalized_cliffords_b_uniform_losses_simulation_strategy.py"]}
{"id": "C29", "title": "GCC simulation is independent of the strategy object's history", "statement": "After any sequence of simulate and set_new_matrix calls, the behaviour of simulate depends only on the current matrix, the input state and the random draws: caches left by earlier calls never influence it, and within a call the cache never changes results. For the strategies with uniform losses also the transmissivity and the option for missing values matter, and the collected distributions are equally independent of the history.", "quantifier": "every history of calls on the strategy object, every random tape", "why_tests_cant": "quantifies over all call histories and tapes", "anchors": ["theboss/simulation_strategies/generalized_cliffords_simulation_strategy.py: simulate, _fill_r_sample, _calculate_new_layer_of_pmfs"]}
{"id": "C30", "title": "Mode-assignment GCC strategy samples the same distribution", "statement": "simulate of the mode-assignment variant returns samples in the occupation representation distributed as |Per(U_{t,s})|^2/(s! t!).", "quantifier": "every unitary matrix, every input state, every number of samples", "why_tests_cant": "the claim ranges over infinitely many inputs; tests sample a handful of fixed sizes", "anchors": ["theboss/simulation_strategies/mode_assignment_generalized_cliffords_simulation_strategy.py"]}
{"id": "C31", "title": "GCC version B samples exactly from the boson sampling distribution", "statement": "For a unitary interferometer, simulate(s, k) of GeneralizedCliffordsBSimulationStrategy returns k independent samples, each equal to t with probability |Per(U_{t,s})|^2/(s! t!).", "quantifier": "every unitary matrix, every input state, every number of samples", "why_tests_cant": "a statistical test cannot establish equality of distributions for all matrices and inputs", "anchors": ["theboss/simulation_strategies/generalized_cliffords_b_simulation_strategy.py"]}
{"id": "C32", "title": "GCC with uniform losses samples the exact uniformly-lossy distribution", "statement": "For a unitary interferometer and eta in [0,1], GeneralizedCliffordsUniformLossesSimulationStrategy samples t with exactly the probability given by the exact uniform-losses distribution calculator.", "quantifier": "every unitary matrix, input, eta in [0,1], number of samples", "why_tests_cant": "the claim ranges over infinitely many inputs; tests sample a handful of fixed sizes", "anchors": ["theboss/simulation_strategies/generalized_cliffords_uniform_losses_simulation_strategy.py"]}
{"id": "C33", "title": "GCC B with uniform losses samples the exact uniformly-lossy distribution", "statement": "For a unitary interferometer and eta in [0,1], GeneralizedCliffordsBUniformLossesSimulationStrategy samples t with exactly the probability given by the exact uniform-losses distribution calculator.", "quantifier": "every unitary matrix, input, eta in [0,1], number of samples", "why_tests_cant": "the claim ranges over infinitely many inputs; tests sample a handful of fixed sizes", "anchors": ["theboss/simulation_strategies/generalized_cliffords_b_uniform_losses_simulation_strategy.py"]}
{"id": "C34", "title": "Distribution collected while sampling with uniform losses is exact wherever it is filled", "statement": "At any moment of compute_distribution_up_to_accuracy each entry of the distribution is either its initial value or exactly the probability of the corresponding outcome under uniform losses.", "quantifier": "every sequence of random draws, every moment", "why_tests_cant": "the claim ranges over infinitely many inputs; tests sample a handful of fixed sizes", "anchors": ["theboss/simulation_strategies/generalized_cliffords_uniform_losses_simulation_strategy.py: compute_distribution_up_to_accuracy, _calculate_new_layer_of_pmfs"]}
{"id": "C35", "title": "Lossy-network GCC samples the physical distribution of the lossy network", "statement": "LossyNetworksGeneralizedCliffordsSimulationStrategy returns m-mode samples with at most n particles, distributed as the expanded 2m-mode lossless experiment with the m auxiliary modes traced out; for a matrix sqrt(eta) V this is the uniform-losses distribution of V.", "quantifier": "every sub-unitary matrix (given an exact SVD), every input", "why_tests_cant": "the claim ranges over infinitely many inputs; tests sample a handful of fixed sizes", "anchors": ["theboss/simulation_strategies/lossy_networks_generalized_cliffords_simulation_strategy.py", "theboss/boson_sampling_utilities/boson_sampling_utilities.py: prepare_interferometer_matrix_in_expanded_space"]}
{"id": "C36", "title": "The expanded matrix embeds the interferometer isometrically (but is not unitary)", "statement": "prepare_interferometer_matrix_in_expanded_space returns a 2m x 2m matrix whose upper-left block is the given matrix and whose first m columns are orthonormal, for every matrix with singular values at most 1. The docstring's claim that the returned matrix is unitary is false for lossy matrices.", "quantifier": "every square matrix with singular values in [0,1], every valid SVD of it", "why_tests_cant": "the claim ranges over infinitely many inputs; tests sample a handful of fixed sizes", "anchors": ["theboss/boson_sampling_utilities/boson_sampling_utilities.py: prepare_interferometer_matrix_in_expanded_space, _compute_loss_transfer_matrix_expansion"]}
{"id": "C37", "title": "Lossy network evolution of a state equals the plain matrix-vector product", "statement": "LossyNetworkSimulationStrategy(M).simulate(v) = LosslessNetworkSimulationStrategy(M).simulate(v) = M v.", "quantifier": "every square matrix (given an exact SVD) and every input vector", "why_tests_cant": "the claim ranges over infinitely many inputs; tests sample a handful of fixed sizes", "anchors": ["theboss/network_simulation_strategy/lossy_network_simulation_strategy.py", "theboss/network_simulation_strategy/lossless_network_simulation_strategy.py"]}
{"id": "C38", "title": "The QFT matrix is unitary and acts only on the first m modes", "statement": "compute_qft_matrix(n) is unitary; generate_qft_matrix_for_first_m_modes(m, M) is unitary, equals the QFT on the first m modes and the identity elsewhere.", "quantifier": "every n >= 1, every 0 <= m <= M", "why_tests_cant": "the claim ranges over infinitely many inputs; tests sample a handful of fixed sizes", "anchors": ["theboss/quantum_computations_utilities.py: compute_qft_matrix", "theboss/boson_sampling_utilities/boson_sampling_utilities.py: generate_qft_matrix_for_first_m_modes"]}
{"id": "C39", "title": "The random phases matrix is a diagonal unitary acting only on the first m modes", "statement": "generate_random_phases_matrix_for_first_m_modes(m, M) is diagonal, has unit-modulus entries on the first m modes and ones elsewhere, hence is unitary.", "quantifier": "every m <= M and every sequence of random draws", "why_tests_cant": "ranges over all random draws", "anchors": ["theboss/boson_sampling_utilities/boson_sampling_utilities.py: generate_random_phases_matrix_for_first_m_modes"]}
{"id": "C40", "title": "Extracting uniform losses preserves the interferometer", "statement": "In the non-uniform strategy the extracted matrix times sqrt(1 - uniform losses) equals the given matrix, the extracted losses are the minimum over channels and the remaining matrix has largest singular value 1.", "quantifier": "every non-zero sub-unitary matrix (given an exact SVD)", "why_tests_cant": "the claim ranges over infinitely many inputs; tests sample a handful of fixed sizes", "anchors": ["theboss/simulation_strategies/nonuniform_losses_approximation_strategy.py: _extract_losses_from_the_interferometer"]}
{"id": "C41", "title": "Number of samples returned by the approximate strategies", "statement": "LossyStateApproximationSimulationStrategy returns exactly samples_number samples for any number of threads, split so that thread loads differ by at most one. NonuniformLossesApproximationStrategy promises the specified number of samples but returns strictly more (T*(floor(s/T)+1) for T threads).", "quantifier": "every samples_number and thread count", "why_tests_cant": "the claim ranges over infinitely many inputs; tests sample a handful of fixed sizes", "anchors": ["theboss/simulation_strategies/lossy_state_approximated_simulation_strategy.py: _distribute_uniformly, simulate", "theboss/simulation_strategies/nonuniform_losses_approximation_strategy.py: simulate"]}
{"id": "C42", "title": "Repeated simulate calls on the non-uniform approximation strategy", "statement": "simulate should behave the same on every call; the code accumulates the number of particles of the approximated modes across calls, so a second call with the same input simulates more particles than the input has.", "quantifier": "every history of simulate calls", "why_tests_cant": "quantifies over call histories", "anchors": ["theboss/simulation_strategies/nonuniform_losses_approximation_strategy.py: simulate (_approximated_modes_particles_number)"]}
{"id": "C43", "title": "Law of the non-uniform losses strategy, and its exactness without approximated modes", "statement": "For every non-zero matrix M with M^* M <= 1 and every number k of approximated modes, each sample of the first simulate call of NonuniformLossesApproximationStrategy is distributed as follows, independently of the other samples: all particles of the approximated modes are put in one of them chosen uniformly, each particle is lost with the extracted uniform losses (losses up to 1e-8 count as none), and the rest goes through M divided by its extracted transmissivity, after random phases and a Fourier transform on the approximated modes. With k = 0 this is exactly the lossy distribution of M, and for M = sqrt(eta) V with V unitary the uniform-losses distribution of V. The same holds when at most one mode is approximated, or the approximated modes are empty.", "quantifier": "every such matrix, input, number of approximated modes, of threads and of samples", "why_tests_cant": "the claim ranges over infinitely many inputs; tests sample a handful of fixed sizes", "anchors": ["theboss/simulation_strategies/nonuniform_losses_approximation_strategy.py"]}
{"id": "C44", "title": "Lossy-state BOBS: loss weights of the non-approximated part", "statement": "The weights of the lossy variants of the non-approximated input part should form a probability distribution; this holds when no mode of that part holds more than one particle and fails for bunched inputs (0<eta<1), where sampling then raises ValueError.", "quantifier": "every input part, every eta", "why_tests_cant": "the claim ranges over infinitely many inputs; tests sample a handful of fixed sizes", "anchors": ["theboss/simulation_strategies/lossy_state_approximated_simulation_strategy.py: _prepare_not_approximated_lossy_mixed_state_parts_weights, _get_input_state_for_sampling"]}
{"id": "C45", "title": "Lossy-state BOBS at the extreme hierarchy levels", "statement": "With hierarchy level equal to the number of modes the strategy is documented to simulate exactly. It does not: with that level, and also with level 0 (the default of the configuration), one of the two parts stacked into the input of the helper is empty, numpy then makes the stacked array a float one, and range() over its entries raises TypeError, whatever is drawn.", "quantifier": "every unitary matrix, input without bunching in the non-approximated part, eta, positive number of samples", "why_tests_cant": "no test runs this strategy, and the claim is about every draw", "anchors": ["theboss/simulation_strategies/lossy_state_approximated_simulation_strategy.py: _get_input_state_for_sampling, _prepare_approximated_input_state, _simulate_in_parallel", "theboss/boson_sampling_utilities/boson_sampling_utilities.py: mode_occupation_to_mode_assignment"]}
{"id": "C55", "title": "Law of the lossy-state BOBS strategy", "statement": "For 0 < h < m, a unitary U and an input with no bunching in the first h modes, simulate returns exactly the requested number of independent samples; each is distributed as the output of U with its columns permuted by a uniformly drawn permutation, after random phases and a Fourier transform on the FIRST m-h modes, on the input whose first h modes lose each particle with probability 1-eta, and whose other modes have their remaining (binomially many) particles moved to mode h.", "quantifier": "every unitary, input, eta in [0,1], level 0 < h < m, number of threads and samples", "why_tests_cant": "the claim ranges over infinitely many inputs; tests sample a handful of fixed sizes", "anchors": ["theboss/simulation_strategies/lossy_state_approximated_simulation_strategy.py"]}
{"id": "C56", "title": "Lossy-state BOBS approximates the modes it is told to", "statement": "The modes h, h+1, ... are the approximated ones, so the phases and the Fourier transform should act on them and leave the particles of the first h modes alone. The code applies them to the first m-h modes, so the law of the samples differs from the intended one for every choice of the phases and permutation.", "quantifier": "every draw of phases and permutations (refuted by a witness)", "why_tests_cant": "a property of distributions, not of samples", "anchors": ["theboss/simulation_strategies/lossy_state_approximated_simulation_strategy.py: __init__, _get_matrix_for_approximate_sampling", "theboss/boson_sampling_utilities/boson_sampling_utilities.py: generate_qft_matrix_for_first_m_modes"]}
{"id": "C46", "title": "Total variation distance is a metric bounded by 1, and the two implementations agree", "statement": "count_total_variation_distance and its dictionary version are non-negative, symmetric, satisfy the triangle inequality, vanish exactly for equal distributions and are at most 1 on probability distributions; the dictionary version treats missing keys as 0 and agrees with the list version; lists of different lengths are rejected.", "quantifier": "every pair/triple of distributions", "why_tests_cant": "the claim ranges over infinitely many inputs; tests sample a handful of fixed sizes", "anchors": ["theboss/quantum_computations_utilities.py: count_total_variation_distance, count_total_variation_distance_dicts"]}
{"id": "C47", "title": "The minimal sample number achieves the requested accuracy", "statement": "With N = compute_minimal_number_of_samples_for_desired_accuracy(k, p, d), the error bound count_tv_distance_error_bound_of_experiment_results(k, N, p) is below d, and with any smaller positive number of samples it is at least d. For arbitrary arguments N - 1 is the quotient of the formula cut off towards zero.", "quantifier": "every outcome number k >= 0, error probability 0 < p <= 1 and distance d > 0", "why_tests_cant": "the claim ranges over infinitely many inputs; tests sample a handful of fixed sizes", "anchors": ["theboss/quantum_computations_utilities.py: compute_minimal_number_of_samples_for_desired_accuracy, count_tv_distance_error_bound_of_experiment_results"]}
{"id": "C57", "title": "The error bound on the total variation distance is sound", "statement": "For N independent draws from a distribution on k outcomes, the probability that the relative frequencies are at total variation distance at least count_tv_distance_error_bound_of_experiment_results(k, N, p) from the distribution is at most p; with the minimal number of samples for a distance d, the probability of a distance of at least d is at most p.", "quantifier": "every distribution on every finite list of outcomes, every N >= 1, 0 < p <= 1, d > 0", "why_tests_cant": "a statement about the probability of a rare event over all distributions; sampling can only estimate it for a few", "anchors": ["theboss/quantum_computations_utilities.py: count_tv_distance_error_bound_of_experiment_results, compute_minimal_number_of_samples_for_desired_accuracy"]}
{"id": "C48", "title": "get_prime_factors returns the prime factorisation (up to a trailing factor)", "statement": "For n >= 1 the product of the returned list is n and all entries but the last are primes in non-decreasing order, the last being 1 or a prime; the promise that all entries are prime fails (e.g. for 1 or 8 the list ends in 1).", "quantifier": "every n >= 1", "why_tests_cant": "the claim ranges over infinitely many inputs; tests sample a handful of fixed sizes", "anchors": ["theboss/quantum_computations_utilities.py: get_prime_factors"]}
{"id": "C49", "title": "Sample-based distribution reports relative frequencies", "statement": "calculate_approximate_distribution(k), on any strategy which does not raise, returns for each outcome the number of samples whose first matching outcome it is, divided by k. With exactly k samples drawn the entries are in [0,1] and sum to at most 1, to exactly 1 iff all samples are listed; independent samples give unbiased estimates. With the non-uniform losses strategy (which returns more samples than asked) the sum over all outcomes exceeds 1 in every run. calculate_distribution ignores the samples_number given to the constructor, get_outcomes_in_proper_order returns None unless outcomes were given, 0 samples give NaN, and outcomes of another length raise.", "quantifier": "every strategy, list of outcomes, sampler behaviour and number of samples", "why_tests_cant": "the claim ranges over infinitely many inputs; tests sample a handful of fixed sizes", "anchors": ["theboss/distribution_calculators/bs_sample_based_distribution_calculator.py", "theboss/boson_sampling_simulator.py: get_classical_simulation_results"]}
{"id": "C59", "title": "Sampled distributions agree with the exact calculators up to the error bound", "statement": "For a strategy returning k independent samples of a distribution on the outcomes, the probability that BSSampleBasedDistributionCalculator raises or returns a list at total variation distance at least count_tv_distance_error_bound_of_experiment_results(number of outcomes, k, p) from the distribution is at most p; with compute_minimal_number_of_samples_for_desired_accuracy samples the same holds for the desired distance. In particular for the generalised Cliffords strategy against BSDistributionCalculatorWithFixedLosses (no losses) and for the uniform-losses strategy B against the uniform-losses calculator, end to end.", "quantifier": "every unitary, input state, number of samples, error probability 0 < p <= 1", "why_tests_cant": "the probability of a rare event of a randomised program, for all experiments", "anchors": ["theboss/distribution_calculators/bs_sample_based_distribution_calculator.py", "theboss/quantum_computations_utilities.py: count_tv_distance_error_bound_of_experiment_results", "theboss/simulation_strategies/generalized_cliffords_simulation_strategy.py"]}
{"id": "C50", "title": "Law of the fixed-loss approximate sampler", "statement": "With l the number of photons left and n > 0 the particles of the input, simulate returns exactly the requested number of independent samples; given the phases each of the l particles lands in mode i independently with probability |evolved_i|^2 (and is lost with the rest). Samples have one entry per mode and at most l particles, exactly l for a unitary network with n <= m. Without input particles the probabilities are NaN and all l particles are put in mode 0.", "quantifier": "every sub-unitary matrix, input, l, number of samples, every sequence of random draws", "why_tests_cant": "ranges over all random draws and asks for an exact distribution", "anchors": ["theboss/simulation_strategies/fixed_loss_simulation_strategy.py"]}
{"id": "C51", "title": "Uniform-loss approximate sampler draws a binomial number of particles", "statement": "For eta in [0,1] UniformLossSimulationStrategy never raises and returns exactly samples_number independent samples with at most as many particles as the input; the number of particles left is binomial with parameter eta and given it a sample has the law of the fixed-loss sampler. With eta > 1 it raises as soon as there are particles.", "quantifier": "every sub-unitary matrix, eta, input, samples_number", "why_tests_cant": "the claim ranges over infinitely many inputs; tests sample a handful of fixed sizes", "anchors": ["theboss/simulation_strategies/uniform_loss_simulation_strategy.py"]}
{"id": "C58", "title": "When the fixed-loss approximation is exact", "statement": "For uncorrelated phases (such as independent uniform ones), one particle in each of the first n modes and one particle left, the approximation has exactly the law of boson sampling with n-1 particles lost. The sampler takes the particles to be in the first n modes whatever the input state says, so for other inputs it is wrong: one particle in the second of two modes is always found in the first mode behind the identity network.", "quantifier": "every network matrix, n <= m, every distribution of phases with uncorrelated phase factors (exactness); every phase (witness of the failure)", "why_tests_cant": "equality of distributions, over a continuum of phases", "anchors": ["theboss/simulation_strategies/fixed_loss_simulation_strategy.py: _prepare_initial_state"]}
{"id": "C52", "title": "Strategies built by the factory do not disturb the factory's calculator", "statement": "generate_strategy returns the strategy of the requested type (fixed loss for unmapped types) and leaves the factory's permanent calculator unchanged, so repeated generation yields equivalent strategies; constructing a lossy-network strategy directly replaces the caller's calculator matrix by the expanded one.", "quantifier": "every strategy type and history of factory operations", "why_tests_cant": "ranges over operation histories with object aliasing", "anchors": ["theboss/simulation_strategies/simulation_strategy_factory.py", "theboss/simulation_strategies/lossy_networks_generalized_cliffords_simulation_strategy.py: __init__"]}
{"id": "C53", "title": "R wrapper hands the first n columns to the R sampler and converts results faithfully", "statement": "The R matrix built from a numpy array has the same entries; each batch of 1-based modes returned by R is converted to the occupation of the 0-based modes; the positions of the particles in the input state are ignored (only their number matters). With R sampling correctly, the samples are independent and have the exact law for one particle in each of the first n modes. find_probabilities and find_probabilities_of_n_random_states return, when they return, distinct states with their probabilities for that input; they return with a probability tending to 1 if the requested outcomes (the requested number of states) have positive probability, and never or with probability 0 otherwise. The second one does not return the requested number of states: it goes on until the probabilities add up to 1.", "quantifier": "every matrix, input state and R result; every sampler meeting the specification of bosonSampler, every request and number of samples", "why_tests_cant": "the claim ranges over infinitely many inputs and over the random runs of unbounded loops", "anchors": ["theboss/simulation_strategies/cliffords_r_simulation_strategy.py"]}
{"id": "C54", "title": "Mode transmissivities recovered from the matrix", "statement": "get_modes_transmissivity_values_from_matrix returns m non-negative numbers in ascending order that are the eigenvalues of the conjugate transpose of the matrix times the matrix (the squares of its singular values), so their sum is the squared Frobenius norm of the matrix; all are 1 for a unitary matrix.", "quantifier": "every square matrix, every valid SVD", "why_tests_cant": "the claim ranges over infinitely many inputs; tests sample a handful of fixed sizes", "anchors": ["theboss/boson_sampling_utilities/boson_sampling_utilities.py: get_modes_transmissivity_values_from_matrix"]}
{"id": "C60", "title": "Collecting the distribution up to an accuracy ends, with the exact distribution at accuracy 1", "statement": "For accuracies up to 1, compute_distribution_up_to_accuracy has returned after k+1 rounds with probability at least 1 minus the sum of (1 - P t)^k over the outcomes of positive probability; asked for accuracy 1 it then returns the exact distribution. compute_unweighted_distribution_up_to_accuracy does so with eta^|t| times the sector probability of t, and its list holds the sector probabilities and 0 for the vacuum. Neither ends when it cannot: accuracies above 1, transmissivity 0 for the unweighted list, and the option missing_values_in_distribution with an outcome that is never reached (its entry stays -1).", "quantifier": "every unitary, input state, transmissivity in [0,1], accuracy and number of rounds", "why_tests_cant": "termination with probability tending to 1 of an unbounded random loop whose rounds share a growing cache", "anchors": ["theboss/simulation_strategies/generalized_cliffords_uniform_losses_simulation_strategy.py: compute_distribution_up_to_accuracy, compute_unweighted_distribution_up_to_accuracy"]}
{"id": "C61", "title": "The distance of matrices is the Frobenius metric", "statement": "count_distance_between_matrices returns, for matrices of the same shape, the square root of the sum of the squared absolute differences of the entries; it is symmetric, zero exactly for equal matrices, satisfies the triangle inequality, is unchanged by multiplying both matrices with a unitary from either side, and bounds the difference of the two matrices on every vector. Other shapes are rejected with ValueError only when numpy cannot broadcast them; a row, a column or a 1 x 1 matrix is silently broadcast, so that different matrices can have distance 0.", "quantifier": "every pair (triple) of complex matrices of every shape", "why_tests_cant": "the claim ranges over infinitely many inputs; tests sample a handful of fixed sizes", "anchors": ["theboss/quantum_computations_utilities.py: count_distance_between_matrices"]}
{"id": "C62", "title": "The approximated lossy distribution calculator can be constructed", "statement": "BSApproximatedLossyDistributionCalculator(configuration, permanent_calculator) should give a usable object. It never does: the constructor reads attributes that neither the class nor the configuration has and raises AttributeError (IndexError without a matrix). Objects exist only after two attributes have been added to the class and one to the configuration, and even then calculate_distribution raises AttributeError unless a fourth one is added.", "quantifier": "every configuration and permanent calculator", "why_tests_cant": "no test constructs the class; the claim is about every configuration", "anchors": ["theboss/distribution_calculators/bs_appriximated_distribution_from_separable_states_calculator.py: __init__, _prepare_initial_matrix, _prepare_initial_state, calculate_distribution"]}
{"id": "C63", "title": "What the approximated lossy distribution calculator computes once its attributes are supplied", "statement": "With the missing attributes supplied, the object bunches the particles of the first a-1 modes in mode a-1 but drops the particles mode a-1 held; if it held any, every probability raises UnboundLocalError. Otherwise calculate_probabilities_of_outcomes returns, in every run, the outcome probabilities of 100 lossy networks one after the other, each being the network with its losses divided out in the first a input modes, followed by random phases and the Fourier transform on the first a output modes. It should average them into a distribution: instead the list for all outcomes adds up to 100. It should apply the phases and the Fourier transform to the input: applied to the output, an outcome of certainty can get probability 0 in every run.", "quantifier": "every sub-unitary network, input state, number a >= 1 of approximated modes, every draw of the phases", "why_tests_cant": "the object cannot be constructed as shipped, and the claim is about every draw of the random phases", "anchors": ["theboss/distribution_calculators/bs_appriximated_distribution_from_separable_states_calculator.py"]}
{"id": "C64", "title": "Results do not depend on mode labels, on phases at the ports, or on the direction", "statement": "Putting the input modes and the output modes of a network in other orders, together with the states, changes no value of any permanent calculator, no probability of the exact calculators (fixed or uniform losses), and not how often the Clifford & Clifford sampler returns a list of outcomes. Phases in front of and behind the network change no probability of these calculators and not the law of the sampler. The conjugate transpose with input and output exchanged has the conjugate permanent, so without losses it gives the same probability.", "quantifier": "every matrix (unitary for the sampler), pair of permutations, phases, states, list of outcomes, loss parameter", "why_tests_cant": "relates results for different inputs: infinitely many triples of a network, a permutation and a state", "anchors": ["theboss/boson_sampling_utilities/permanent_calculators/*.py", "theboss/distribution_calculators/bs_distribution_calculator_with_fixed_losses.py", "theboss/distribution_calculators/bs_exact_distribution_with_uniform_losses.py", "theboss/simulation_strategies/generalized_cliffords_simulation_strategy.py"]}
{"id": "C65", "title": "Networks compose", "statement": "For two networks one after the other every permanent calculator returns the sum, over the states listed by generate_possible_states, of the product of the permanents of the two networks divided by the product of factorials of the state between them (the Cauchy-Binet formula), whatever methods are used for the three permanents.", "quantifier": "every pair of square matrices over any field of characteristic 0 with norm, all states", "why_tests_cant": "the claim ranges over infinitely many inputs; tests sample a handful of fixed sizes", "anchors": ["theboss/boson_sampling_utilities/permanent_calculators/*.py", "theboss/boson_sampling_utilities/boson_sampling_utilities.py: generate_possible_states"]}
{"id": "C66", "title": "Losses may be taken in front of the network or behind it", "statement": "The calculator with fixed losses (which averages over lossy inputs) returns for l particles what one gets by removing l' - l particles uniformly from the outcomes of the distribution it computes for l' >= l particles; the uniform-loss calculator with transmissivity e1*e2 returns what one gets by removing every particle with probability 1 - e2 from the outcomes of the distribution computed with e1.", "quantifier": "every unitary, input state, numbers of losses, transmissivities in [0,1]", "why_tests_cant": "an identity between two differently organised sums over lossy states", "anchors": ["theboss/distribution_calculators/bs_distribution_calculator_with_fixed_losses.py", "theboss/distribution_calculators/bs_exact_distribution_with_uniform_losses.py"]}
{"id": "C67", "title": "Mean particle numbers are those of classical particles", "statement": "The mean number of particles in output mode i of the distributions computed is sum_j s_j |U_ij|^2, times the fraction of particles left (fixed losses) or the transmissivity (uniform losses); the expected total over the samples of a call of the samplers is samples_number times this.", "quantifier": "every unitary, input state, mode, transmissivity, number of samples", "why_tests_cant": "the claim ranges over infinitely many inputs; tests sample a handful of fixed sizes", "anchors": ["theboss/distribution_calculators/bs_distribution_calculator_with_fixed_losses.py", "theboss/distribution_calculators/bs_exact_distribution_with_uniform_losses.py", "theboss/simulation_strategies/generalized_cliffords_simulation_strategy.py", "theboss/simulation_strategies/generalized_cliffords_b_uniform_losses_simulation_strategy.py"]}
{"id": "C68", "title": "Zero-transmission law of the Fourier network", "statement": "On the matrix of compute_qft_matrix(n), for an input that is unchanged by rotating the modes by q and an output t such that q * sum_i i t_i is not a multiple of n, every permanent calculator returns 0, the exact calculator returns probability 0, and no run of the sampler returns t (Hong-Ou-Mandel for n = 2).", "quantifier": "every n, q, input and output state", "why_tests_cant": "exact zeros; negative statement about every random run", "anchors": ["theboss/quantum_computations_utilities.py: compute_qft_matrix", "theboss/boson_sampling_utilities/permanent_calculators/*.py", "theboss/distribution_calculators/bs_distribution_calculator_with_fixed_losses.py", "theboss/simulation_strategies/generalized_cliffords_simulation_strategy.py"]}
{"id": "C69", "title": "Networks side by side are independent", "statement": "For a block-diagonal matrix of two networks the permanents multiply and vanish when particles change sides; the probabilities without losses and those with uniform losses multiply.", "quantifier": "every pair of square matrices, all states, every transmissivity", "why_tests_cant": "the claim ranges over infinitely many inputs; tests sample a handful of fixed sizes", "anchors": ["theboss/boson_sampling_utilities/permanent_calculators/*.py", "theboss/distribution_calculators/bs_distribution_calculator_with_fixed_losses.py", "theboss/distribution_calculators/bs_exact_distribution_with_uniform_losses.py"]}
{"id": "C70", "title": "Close networks have close distributions", "statement": "The distance of two unitary matrices returned by count_distance_between_matrices bounds the total variation distance of their output distributions: by l times the distance when l particles are left (n without losses), by n eta times the distance with uniform losses. The probability with which k samples pass any test changes by at most k times that.", "quantifier": "every pair of unitary matrices, all inputs, numbers of losses, transmissivities, numbers of samples, and all tests on samples", "why_tests_cant": "the claim ranges over infinitely many inputs; tests sample a handful of fixed sizes", "anchors": ["theboss/distribution_calculators/bs_distribution_calculator_with_fixed_losses.py", "theboss/distribution_calculators/bs_exact_distribution_with_uniform_losses.py", "theboss/simulation_strategies/generalized_cliffords_simulation_strategy.py", "theboss/simulation_strategies/generalized_cliffords_b_uniform_losses_simulation_strategy.py", "theboss/quantum_computations_utilities.py"]}
{"id": "C71", "title": "Accuracy of the approximating strategies with independent uniform random phases", "statement": "The strategies with fixed and with uniform losses that put the particles independently in a superposition of the first n modes with random phases. For phases drawn independently and uniformly, the law of the samples is that of l indistinguishable particles, each put in a uniformly chosen one of the first n modes, behind the network. When the input has one particle in each of the first n modes, its distance from the exact law is at most (and for the identity network equal to) the probability that two of l uniform choices among n agree, 1 - n(n-1)...(n-l+1)/n^l <= l(l-1)/(2n); with uniform losses it is at most eta^2 (n-1)/2. So k samples pass any test with a probability at most k eta^2 (n-1)/2 away from that of the exact sampler.", "quantifier": "every sub-unitary network, input with at most as many particles as modes, number left, transmissivity, number of samples and test", "why_tests_cant": "a statement on an average over continuously many phases; tests can only draw some", "anchors": ["theboss/simulation_strategies/fixed_loss_simulation_strategy.py", "theboss/simulation_strategies/uniform_loss_simulation_strategy.py"]}
{"id": "C72", "title": "Accuracy of the strategy with approximated modes, with independent uniform random phases", "statement": "NonuniformLossesApproximationStrategy.simulate with k > 0 approximated modes and phases drawn independently and uniformly. The law of the samples is that of the p particles of the approximated modes put independently and uniformly in these modes, as indistinguishable ones, and the particles of the other modes where they are, behind the lossy network. In the first call with one particle in each approximated mode, and a network which is sqrt(eta) times a sub-unitary one, twice the total variation distance to the exact law is at most (k-1) eta^2, whatever the other modes contain, and the samples pass any test with a probability within (k-1) eta^2 / 2 per sample of that for the exact sampler of the lossy network. For the identity network with transmissivity eta there is a lower bound for every input, from which the bound (k-1) eta^2 does not hold for one particle in two approximated modes.", "quantifier": "every sub-unitary network, number of approximated modes, input, number of earlier calls (law), number of samples and threads, test", "why_tests_cant": "a statement on an average over continuously many phases; tests can only draw some", "anchors": ["theboss/simulation_strategies/nonuniform_losses_approximation_strategy.py"]}
{"id": "C73", "title": "Rounding errors of the permanent calculators", "statement": "With any arithmetic whose operations have a relative error of at most u (floating point without overflow and underflow; a power like as many multiplications), the four permanent calculators, whatever the calls before, return without an exception a value whose distance to the permanent is at most ((1+u)^K - 1) a, where K counts the roundings on a path and a is an explicit power of the largest entry: n(n+1) roundings and a = n! mu^n for the recursive calculator (attained for one particle), explicit counts for Ryser, Chin-Huh and Glynn. The bound is at most 2 K u a when K u <= 1/2, and two calculators differ by at most twice the common bound. With exact operations they are the calculators of the other properties.", "quantifier": "every arithmetic of accuracy u, number field, matrix, input and output (any sizes), calculator, history", "why_tests_cant": "the claim ranges over all arithmetics and inputs; tests compare some values with a tolerance", "anchors": ["theboss/boson_sampling_utilities/permanent_calculators/ryser_permanent_calculator.py", "theboss/boson_sampling_utilities/permanent_calculators/chin_huh_permanent_calculator.py", "theboss/boson_sampling_utilities/permanent_calculators/bs_permanent_calculator_base.py", "theboss/boson_sampling_utilities/permanent_calculators/glynn_gray_permanent_calculator.py", "theboss/boson_sampling_utilities/permanent_calculators/classic_permanent_calculator.py"]}
{"id": "C74", "title": "Rounding errors of the exact distributions", "statement": "With arithmetics of accuracy u for complex and real numbers and a modulus of relative error u, the exact distribution calculators with a fixed number of losses and with uniform losses return, without an exception, probabilities within an explicit bound of the true ones, none of them negative if (n+2) u <= 1/2. For a unitary network the sum of all computed probabilities differs from 1, and the computed distribution from the true one, by at most an explicit multiple of the number of outcomes that vanishes with u. With exact operations they are the calculators of C21-C25.", "quantifier": "every arithmetic of accuracy u, network with entries at most mu (unitary network for the sums), input, number of losses, transmissivity in [0,1], list of outcomes, calculator and its history", "why_tests_cant": "the claim ranges over all arithmetics and inputs; tests compare some values with a tolerance", "anchors": ["theboss/distribution_calculators/bs_distribution_calculator_with_fixed_losses.py", "theboss/distribution_calculators/bs_exact_distribution_with_uniform_losses.py"]}
{"id": "C75", "title": "Rounding errors of the samplers", "statement": "Let the operations of the generalized Clifford-Clifford samplers (occupations or mode assignments) have relative errors of at most u, sum() errors of at most len roundings, random() return one of N equally likely multiples of 1/N, and let the stored matrix differ from a unitary matrix by at most eps in every entry. If (2 m + 1 + prod(s_i + 1)) u <= 1/8, the expectation of every test function with values in [0, 1] of the k samples returned differs from the expectation for k exact independent boson samples by at most k times an explicit bound gcc_error(u, eps, N, m, s), which vanishes with u, eps and 1/N; in particular all k samples are returned with at least the complementary probability. With exact operations the code is the one of the exact model. The selection stays in the list if sum() adds from left to right and the products with random() are rounded below; otherwise, with an accurate but differently rounded sum(), an IndexError is possible.", "quantifier": "every unitary matrix and perturbation, input, number of samples, arithmetic of the stated accuracy, summation algorithm, resolution of random()", "why_tests_cant": "quantifies over all roundings, all inputs and distributions of unbounded sample lists", "anchors": ["theboss/simulation_strategies/generalized_cliffords_simulation_strategy.py: _calculate_new_layer_of_pmfs, _sample_from_latest_pmf", "theboss/simulation_strategies/mode_assignment_generalized_cliffords_simulation_strategy.py"]}
{"id": "C76", "title": "Rounding errors of the sub-matrix permanents calculators", "statement": "With any arithmetic whose operations have a relative error of at most u <= 1/2, the two calculators of the permanents of all sub-matrices that lack one input particle (Ryser and Chin-Huh variants, used by version B of the samplers) return, whatever the state of the object before the call, one value per mode without an exception, each within ((1+u)^K - 1) a of the permanent, with an explicit number K of roundings on every path and an explicit scale a. This includes the divisions of the running product of binomial coefficients by quotients that are rounded themselves. The two variants differ by at most the sum of the bounds, and with exact operations they are the calculators of the exact model.", "quantifier": "every arithmetic of accuracy u, number field, matrix with entries at most mu, input and output with one particle fewer, calculator, history", "why_tests_cant": "the claim ranges over all arithmetics and inputs; tests compare some values with a tolerance", "anchors": ["theboss/boson_sampling_utilities/permanent_calculators/bs_submatrices_permanent_calculator_base.py", "theboss/boson_sampling_utilities/permanent_calculators/bs_cc_ryser_submatrices_permanent_calculator.py", "theboss/boson_sampling_utilities/permanent_calculators/bs_cc_ch_submatrices_permanent_calculator.py"]}
{"id": "C77", "title": "Rounding errors of version B of the samplers", "statement": "With any arithmetic, absolute value, sums and weights of accuracy u, a stored matrix that is up to eps a unitary matrix U, and numpy's choice with an accurate check sum, any search on the right side of the rounded cumulative sums (the binary search of numpy is one, and on sorted lists the only one) and one of N equally likely numbers, the expectation of every test with values in [0,1] over k samples of version B (0 when an exception is raised) differs from the one for k independent exact samples by at most k times an explicit bound that vanishes with u, eps and 1/N. With uniform losses the same holds with respect to the lossy distribution, the number of particles left being drawn from rounded binomial weights. In particular an exception, such as choice rejecting the rounded probabilities or too many particles being requested, has at most the probability of the bound. With exact operations the code is that of the exact model.", "quantifier": "every arithmetic of accuracy u with (9m+4)u <= 2^-27, every resolution N, input, unitary matrix, perturbation, history, number of samples, test, transmissivity", "why_tests_cant": "the claim is about laws of samples and ranges over all arithmetics; tests compare some frequencies with a tolerance", "anchors": ["theboss/simulation_strategies/generalized_cliffords_b_simulation_strategy.py", "theboss/simulation_strategies/generalized_cliffords_b_uniform_losses_simulation_strategy.py"]}
{"id": "C78", "title": "Operations built from a rounding of real numbers", "statement": "Whenever every real operation is the exact one followed by a rounding of relative error at most d with 24 d <= 1, the real operations, the complex operations as numpy computes them (componentwise sums, products from four real products, quotients after Smith, division by a converted integer, powers by multiplications in any order), the modulus, sums in any order, sums from left to right and the compensated sum of numpy's choice all have the accuracy 48 d that the theorems on rounding errors ask for. Roundings to p binary digits exist in every archimedean real closed field and have relative error at most 2^-p. So the permanent calculators and the samplers with these operations satisfy the error bounds without further assumptions on the complex operations.", "quantifier": "every rounding with 24 d <= 1, order of multiplications and sums, real and complex number, integer and exponent; for the consequences also every matrix, states, history, number of samples and test", "why_tests_cant": "accuracy of complex division and of sums in every order for all operands and roundings cannot be tested; tests run one arithmetic on a few numbers", "anchors": ["theboss/boson_sampling_utilities/permanent_calculators/bs_permanent_calculator_base.py", "theboss/boson_sampling_utilities/permanent_calculators/ryser_permanent_calculator.py", "theboss/simulation_strategies/generalized_cliffords_b_simulation_strategy.py"]}
{"id": "C79", "title": "Permanent calculators with states given as 64 bit integers", "statement": "For states given as numpy arrays of int64, whose sums and powers wrap around, the Ryser calculators (sums below 2^63) and the Chin-Huh calculators (at most 62 particles; 1 to 63 for the sub-matrix variant) return exactly what they return for lists of Python integers, including exceptions, for every object and history. Beyond that the Chin-Huh calculators fail: with 63 particles (64 in the sub-matrix variant) every result has the wrong sign, with more the divisor 2^n is zero and no result is finite, and the sub-matrix variant raises ValueError when there are no particles.", "quantifier": "every matrix, states, state of the calculator object, amount of fuel (loop steps) and number of particles below 2^63", "why_tests_cant": "the tests use a few particles only and never reach the limits; equality below them is a statement about infinitely many matrices, states and objects", "anchors": ["theboss/boson_sampling_utilities/permanent_calculators/chin_huh_permanent_calculator.py", "theboss/boson_sampling_utilities/permanent_calculators/bs_cc_ch_submatrices_permanent_calculator.py", "theboss/boson_sampling_utilities/permanent_calculators/ryser_permanent_calculator.py"]}
{"id": "C80", "title": "Arrays and lists as shared objects", "statement": "With arrays, lists, matrices and calculators as objects that are shared by reference and may be changed in place: a calculator returns the permanent of the present contents of the objects it refers to; versions A and B of the sampler (and B with uniform losses) draw exactly as the model in which everything is a value, although version B shares with the calculator a list that it changes in place; arrays and matrices that existed before a call, and all calculators other than the one of the sampler, are unchanged after it; in every program of a user the arrays and matrices of the user contain what the user wrote last and no reference is left without an object; the samples have the exact law of the present contents of matrix and array. Sampling does take the calculator over: after a call of version B its input state is the list of the sampler.", "quantifier": "every store with valid references, calculator, sampler object, array, number of samples, and every program of a user (any sequence of making, changing in place, sharing, computing and sampling)", "why_tests_cant": "aliasing shows only in particular histories of shared objects; tests build a fresh calculator and fresh arrays for each check", "anchors": ["theboss/boson_sampling_utilities/permanent_calculators/bs_permanent_calculator_base.py", "theboss/simulation_strategies/generalized_cliffords_simulation_strategy.py", "theboss/simulation_strategies/generalized_cliffords_b_simulation_strategy.py"]}
{"id": "C81", "title": "Cost of sampling and of the permanent calculators", "statement": "Random numbers drawn: k samples of n particles take exactly k n real numbers in version A of the sampler and its mode assignment variant, k n integers and k n real numbers in version B; with uniform losses version A takes one real number for every particle and one more for every particle left, version B one for every sample and an integer and a real number for every particle left. Passes: the loop of the Ryser and Chin-Huh calculators makes exactly prod (s_i + 1) passes, fewer do not suffice and more change nothing, and the same holds for the sub-matrix calculators with at least two particles.", "quantifier": "every matrix, input state, number of samples, sampler or calculator object with any history, and every sequence of random numbers that leads to samples", "why_tests_cant": "cost is a statement about all executions; tests check results, not how many random numbers or passes they take", "anchors": ["theboss/simulation_strategies/generalized_cliffords_simulation_strategy.py", "theboss/simulation_strategies/generalized_cliffords_b_simulation_strategy.py", "theboss/boson_sampling_utilities/permanent_calculators/ryser_permanent_calculator.py"]}
{"id": "C82", "title": "Counting functions in floating point", "statement": "compute_number_of_states_of_given_type divides scipy's factorials, which are float64 numbers: for state types of at most 22 modes the result is nevertheless the exact number of states; 22 is the limit, for every larger number of modes some state type gets a wrong result, and from 171 modes on no result is finite. bosonic_space_dimension rounds scipy's binomials: it returns the exact dimension, with and without losses, whenever the largest binomial times the relative error of binom is below 1/2, and it cannot return it when the dimension is odd and above 2^53, as for 31 particles in 33 modes. get_prime_factors, which divides and takes roots in floating point, returns below 2^52 exactly the list of the integer algorithm, and for twice an odd number above 2^53 a list whose product is another number.", "quantifier": "every state type and order of its values, every number of particles and modes, every factorial, division, binomial and rounding function with the stated properties", "why_tests_cant": "the tests compare a few small counts; that 22 modes are exactly the limit is a statement about all state types", "anchors": ["theboss/boson_sampling_utilities/boson_sampling_utilities.py", "theboss/quantum_computations_utilities.py"]}
{"id": "C83", "title": "Rounding errors of networks with losses", "statement": "With every operation, square root and sum of products carrying a relative error of at most u, and a singular value decomposition that is up to d in each entry the exact one of a network M0, prepare_interferometer_matrix_in_expanded_space returns a matrix that is in each entry within an explicit bound of a matrix E0 completing M0 to a lossless network. The bound is of the order of sqrt(u + d), because losses are roots of 1 - s^2, and this order is attained. The networks with and without losses map vectors with explicit errors. k samples of the strategy for networks with losses differ, in the expectation of any test, by at most k times an explicit bound from k exact independent samples of M0, and of the given matrix M if M and M0 are close; all samples are returned with a probability of at least 1 minus this bound. The same holds, with the errors added, for a matrix that is a network only up to e and every backward stable decomposition. With exact operations the model is that of C34 and C35.", "quantifier": "every network with losses, every input state, every number of samples, every arithmetic, square root, sum of products, summation and search with the stated accuracy, every decomposition within d", "why_tests_cant": "the tests run one rounding on a few matrices and cannot see how far the distribution sampled from is off", "anchors": ["theboss/boson_sampling_utilities/boson_sampling_utilities.py", "theboss/network_simulation_strategy/lossless_network_simulation_strategy.py", "theboss/network_simulation_strategy/lossy_network_simulation_strategy.py", "theboss/simulation_strategies/lossy_networks_generalized_cliffords_simulation_strategy.py"]}
{"id": "C84", "title": "Rounding errors of version A with uniform losses", "statement": "With every operation carrying a relative error of at most u, a stored matrix that is up to eps in each entry the unitary matrix U, and random() with N equally likely values, k samples of GeneralizedCliffordsUniformLossesSimulationStrategy differ, in the expectation of any test, by at most k times an explicit bound from k exact independent samples with uniform losses; all samples are returned with a probability of at least 1 minus this bound. However the random numbers fall, no error but that of a selection beyond the end of a list occurs, and in both lists of probabilities collected while sampling every entry is untouched or within an explicit bound of the exact probability; the same holds for the lists returned by the computations up to an accuracy, whose computed total is within the tolerance. Once every entry is accurate the computation ends, if the tolerance is not below an explicit bound. With exact operations the model is that of C32 and C34.", "quantifier": "every unitary matrix and nearby stored matrix, every input state, transmissivity and number of samples, every arithmetic and summation with the stated accuracy, every resolution of the random numbers", "why_tests_cant": "the tests compare frequencies with a wide tolerance and cannot see rounding errors that add up along a sample", "anchors": ["theboss/simulation_strategies/generalized_cliffords_uniform_losses_simulation_strategy.py"]}
{"id": "C85", "title": "Rounding errors of the strategies with independent particles", "statement": "With every operation, square root and sum of products carrying a relative error of at most u, phase factors computed up to c, a decomposition that is up to d the exact one of a network M0 (or a lossless network stored up to eps) and random numbers with N equally likely values, k samples of FixedLossSimulationStrategy differ, in the expectation of any test, by at most k l times an explicit bound from k exact independent samples with l independent particles; those of UniformLossSimulationStrategy differ by at most k times an explicit bound from exact samples with binomially distributed numbers of particles. The computed probabilities of the modes are nonnegative and within an explicit bound of the exact ones. However the random numbers fall no error is raised, every outcome has m modes and at most l particles (at most one more than n with uniform losses). With exact operations the model is that of C50 and C51.", "quantifier": "every network with losses and nearby stored matrix, every input state, number of particles left, transmissivity and number of samples, every arithmetic, square root and summation with the stated accuracy, every resolution of the random numbers", "why_tests_cant": "the tests compare frequencies with a wide tolerance and cannot see rounding errors or the resolution of the random numbers", "anchors": ["theboss/simulation_strategies/fixed_loss_simulation_strategy.py", "theboss/simulation_strategies/uniform_loss_simulation_strategy.py"]}
{"id": "C86", "title": "Rounding errors of the strategy with an approximated state", "statement": "With every operation, square root, sum and sum of products carrying a relative error of at most u, phase factors and roots of unity computed up to c, a network stored up to eps and random numbers with N equally likely values, k samples of LossyStateApproximationSimulationStrategy differ, in the expectation of any test, by at most k times an explicit bound from k exact independent samples of C55: the bound is that of the two choices of the input plus the mean over the inputs of the bound of version B for a network known up to the error of the two matrix products. The lists of possible inputs are exact, their weights have explicit relative errors, every network used for a sample is within an explicit bound of a unitary one, and all samples are returned with a probability of at least one minus the bound. With exact operations the pieces are those of the model of C55.", "quantifier": "every unitary network and nearby stored matrix, every input with at most one particle in each of the modes before the level, every level between the first and last mode, transmissivity, number of threads and of samples, every arithmetic, square root and summation with the stated accuracy, every finite law of the phases, every resolution of the random numbers", "why_tests_cant": "the tests compare frequencies with a wide tolerance and cannot see rounding errors or the resolution of the random numbers", "anchors": ["theboss/simulation_strategies/lossy_state_approximated_simulation_strategy.py", "theboss/quantum_computations_utilities.py"]}
{"id": "C87", "title": "Rounding errors of the strategy for losses that differ between the modes", "statement": "With every operation, square root, sum and sum of products carrying a relative error of at most u, phase factors and roots of unity computed up to c, decompositions of the networks computed up to d and random numbers with N equally likely values, the samples of NonuniformLossesApproximationStrategy (the strategy of C42 and C43, whatever the object did before) differ, in the expectation of any test, by at most their number times an explicit bound from as many exact independent samples of the law of C43: the bound is that of the choices of the particles left in each mode plus the mean over the inputs and over the particles left of the bound of the simulator of networks with losses. Removing the common losses gives losses and a network within explicit bounds of the exact ones as long as the bound of the divisor is at most half the transmissivity; the weights have explicit relative errors; every network used for a sample is within an explicit bound of an exact one; all samples are returned with a probability of at least one minus the bound. Every backward stable decomposition has the assumed accuracy. The exact laws for two networks with close entries are close, so that the samples of a new object are also within an explicit bound of exact ones for the network it was given. With exact operations the pieces are those of the model of C42 and C43.", "quantifier": "every network with losses, every input, every number of approximated modes, every number of threads and of samples, every earlier use of the object, every arithmetic, square root, summation and decomposition with the stated accuracy, every finite law of the phases, every resolution of the random numbers", "why_tests_cant": "the tests compare frequencies with a wide tolerance and cannot see rounding errors or the resolution of the random numbers", "anchors": ["theboss/simulation_strategies/nonuniform_losses_approximation_strategy.py", "theboss/quantum_computations_utilities.py"]}
