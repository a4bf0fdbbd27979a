{
 "claims": [
  {
   "property": "C01",
   "status": "proved",
   "theorems": [
    "C01_constructor",
    "C01_supervised_constructor",
    "C01_index_pairing",
    "C01_index_compose"
   ],
   "note": "Constructors and integer-array indexing of Data/SupervisedData; indices in range, as JAX clamps others."
  },
  {
   "property": "C02",
   "status": "proved",
   "theorems": [
    "C02_normalize",
    "C02_preserve_zeros",
    "C02_cancelling_weights_refuted"
   ],
   "note": "All weight vectors with non-zero sum; zero vector with preserve_zeros. C02_cancelling_weights_refuted records the false case: mixed-sign weights summing to zero become huge."
  },
  {
   "property": "C03",
   "status": "proved",
   "theorems": [
    "C03_points"
   ],
   "note": "All coresubsets over well-formed data with in-range indices."
  },
  {
   "property": "C04",
   "status": "partial",
   "theorems": [
    "C04_constructor_guard",
    "C04_constructor_bound",
    "C04_gkp_size",
    "C04_greedy_solvers_guard",
    "C04_refine_guard_refuted"
   ],
   "note": "Constructors/build, and reduce of KernelHerding, SteinThinning, GreedyKernelPoints, RPCholesky (C23) and RandomSample (C27). C04_refine_guard_refuted: refine can return a coreset larger than its data."
  },
  {
   "property": "C05",
   "status": "proved",
   "theorems": [
    "C05_column_mean",
    "C05_row_mean",
    "C05_full_mean",
    "C05_block_size_irrelevant",
    "C05_gramian_row_mean",
    "C05_row_mean_asymmetric_refuted",
    "C05_empty_rejected"
   ],
   "note": "All finite data and weights with non-zero sum, every block size; exact real arithmetic. The row mean needs a symmetric kernel (C05_row_mean_asymmetric_refuted); empty data raises ZeroDivisionError, not the intended ValueError."
  },
  {
   "property": "C06",
   "status": "proved",
   "theorems": [
    "C06_padding_mean"
   ],
   "note": "Zero-weight padding on either side, every axis and block size."
  },
  {
   "property": "C07",
   "status": "partial",
   "theorems": [
    "C07_matrix_entries",
    "C07_entry_shapes_partial",
    "C07_constant_product_refuted",
    "C07_operators"
   ],
   "note": "Entry positions for every kernel; scalar/vector shapes for every expression without a product by a number. C07_constant_product_refuted: 2*LinearKernel() has a divergence with one entry per dimension, so the full property is false. jax.grad is any function preserving length."
  },
  {
   "property": "C08",
   "status": "partial",
   "theorems": [
    "C08_gradients_partial",
    "C08_periodic_refuted",
    "C08_rational_quadratic_refuted"
   ],
   "note": "Every closed-form kernel and composition, at all points away from x = y (exponential, periodic) or equal coordinates (Laplacian); Poisson in one dimension. The property is false at x = y for the periodic kernel (C08_periodic_refuted) and for relative_weighting 0 (C08_rational_quadratic_refuted): NaN where the gradient is 0."
  },
  {
   "property": "C09",
   "status": "partial",
   "theorems": [
    "C09_divergence_partial",
    "C09_divergence_unique",
    "C09_periodic_error",
    "C09_periodic_refuted",
    "C09_first_power_refuted"
   ],
   "note": "Every closed-form kernel and composition with periodic output scale 1 and first powers taken off the zeros of the base. False otherwise: C09_periodic_error gives the exact error for the periodic kernel, C09_periodic_refuted and C09_first_power_refuted are witnesses."
  },
  {
   "property": "C10",
   "status": "proved",
   "theorems": [
    "C10_symmetry",
    "C10_documented_value",
    "C10_locally_periodic",
    "C10_bounds",
    "C10_poisson_bounds"
   ],
   "note": "Exact real arithmetic. Symmetry holds for arbitrary hyper-parameters; values and bounds for documented ones with non-zero period."
  },
  {
   "property": "C11",
   "status": "proved",
   "theorems": [
    "C11_algebra",
    "C11_base_kernels"
   ],
   "note": "Any two kernels whose Gramians are positive semi-definite, whatever they are built from; exact real arithmetic."
  },
  {
   "property": "C12",
   "status": "proved",
   "theorems": [
    "C12_mmd_value",
    "C12_mmd_pseudo_metric",
    "C12_clamp_needs_psd_refuted"
   ],
   "note": "Any kernel with non-negative quadratic forms, weights of either sign with non-zero sum; exact real arithmetic. C12_clamp_needs_psd_refuted shows the clamp matters for other kernels."
  },
  {
   "property": "C13",
   "status": "proved",
   "theorems": [
    "C13_mmd_depends_on_distributions_only",
    "C13_representation_changes"
   ],
   "note": "Equality for any two representations of the same distributions, for any kernel, plus the list of representation changes."
  },
  {
   "property": "C14",
   "status": "proved",
   "theorems": [
    "C14_jmmd_is_joint_mmd",
    "C14_jmmd_discrepancy",
    "C14_amcmd_value",
    "C14_amcmd_zero_on_identical",
    "C14_amcmd_symmetric",
    "C14_amcmd_rejects_negative_regularisation"
   ],
   "note": "JMMD for any symmetric kernels; AMCMD for PSD kernels, positive regularisation, assuming jnp.linalg.solve solved the two systems exactly."
  },
  {
   "property": "C15",
   "status": "proved",
   "theorems": [
    "C15_qp_weights_simplex",
    "C15_no_positive_component_refuted",
    "C15_mmd_weights_optimal_on_simplex"
   ],
   "note": "OSQP is an arbitrary function. C15_no_positive_component_refuted: with no positive component all weights are NaN. Optimality assumes OSQP's answer is exact."
  },
  {
   "property": "C16",
   "status": "partial",
   "theorems": [
    "C16_sbq_optimal_partial",
    "C16_weighted_data_refuted"
   ],
   "note": "Proved against the uniformly weighted data; C16_weighted_data_refuted: the optimiser ignores data weights, so the property is false for weighted data."
  },
  {
   "property": "C17",
   "status": "partial",
   "theorems": [
    "C17_herding_reduce",
    "C17_herding_refine",
    "C17_herding_probabilistic_partial",
    "C17_probabilistic_zero_weight_refuted",
    "C17_stein_refine"
   ],
   "note": "reduce and refine of KernelHerding in greedy mode and refine of SteinThinning: full property, any scatter order. Probabilistic mode: proved for positive data weights; C17_probabilistic_zero_weight_refuted: with a zero-weight row it samples from all-NaN probabilities."
  },
  {
   "property": "C18",
   "status": "proved",
   "theorems": [
    "C18_herding_greedy",
    "C18_rule_deterministic"
   ],
   "note": "KernelHerding.reduce, any non-zero total weight; ties go to the first index."
  },
  {
   "property": "C19",
   "status": "proved",
   "theorems": [
    "C19_refine_never_worse",
    "C19_iterations_never_worse"
   ],
   "note": "Greedy mode, exact arithmetic; symmetric kernel with constant diagonal on the data, uniform start weights."
  },
  {
   "property": "C20",
   "status": "partial",
   "theorems": [
    "C20_herding_padding",
    "C20_probabilistic_padding_refuted",
    "C20_stein_unregularised_padding_partial",
    "C20_stein_padding_partial",
    "C20_default_score_refuted"
   ],
   "note": "KernelHerding: full property in the deterministic mode; refuted in the probabilistic mode (C20_probabilistic_padding_refuted). SteinThinning: proved for a Stein kernel (regularised or not; zero-weight points assumed not to change gaussian_kde) and for any kernel without regularisation. C20_default_score_refuted: with its default settings SteinThinning is not padding invariant, because the default score matching ignores weights."
  },
  {
   "property": "C21",
   "status": "partial",
   "theorems": [
    "C21_rpcholesky_state_refuted",
    "C21_gkp_state",
    "C21_herding_state_reuse"
   ],
   "note": "KernelHerding and GreedyKernelPoints proved; C21_rpcholesky_state_refuted: RPCholesky returns the residual diagonal, so re-using its state changes the coreset."
  },
  {
   "property": "C22",
   "status": "partial",
   "theorems": [
    "C22_stein_greedy_partial",
    "C22_stein_greedy_unregularised_partial",
    "C22_stein_refine_never_worse_partial",
    "C22_conversion_refuted",
    "C22_stein_kernel_partial",
    "C22_score_matching_ignored_refuted"
   ],
   "note": "C22_stein_kernel_partial: the whole solver, given a Stein kernel, follows the published rule (jax.jacfwd assumed exact at the data points). C22_conversion_refuted: any other kernel is used as it is, not the Stein kernel it induces, so the full property is false."
  },
  {
   "property": "C23",
   "status": "proved",
   "theorems": [
    "C23_rpcholesky_pivots"
   ],
   "note": "Every kernel whose diagonal is non-negative or NaN, arbitrary off-diagonal values including infinities and NaN, with or without a re-used state; jr.choice is an arbitrary function returning an index of positive probability when there is one."
  },
  {
   "property": "C24",
   "status": "proved",
   "theorems": [
    "C24_returned_residual",
    "C24_factorisation"
   ],
   "note": "Every PSD kernel and pivot rule; exact real arithmetic. The hypothesis that the residual is not exhausted is the property's 'as long as pivots are positive'."
  },
  {
   "property": "C25",
   "status": "partial",
   "theorems": [
    "C25_reduce_unique_partial",
    "C25_refine_unique_partial",
    "C25_reduce_in_range_partial",
    "C25_small_batch_refuted",
    "C25_empty_place_refuted"
   ],
   "note": "Proved when at least coreset_size candidates are sampled per step, or refine starts from a full-size coreset (unique), and for the full candidate set (in range). The statement for any candidate batch size is false: C25_small_batch_refuted (fewer candidates than places: duplicate or -1), C25_empty_place_refuted (unique=False returns -1)."
  },
  {
   "property": "C26",
   "status": "proved",
   "theorems": [
    "C26_best_candidate",
    "C26_fit_is_ridge_regression",
    "C26_refine_never_worse"
   ],
   "note": "Best admissible candidate at each step, padding has no influence, refine on the full loss batch never increases the error. The least-squares solver is any function returning minimal-norm least-squares solutions of symmetric systems; single-column responses, as the code requires."
  },
  {
   "property": "C27",
   "status": "proved",
   "theorems": [
    "C27_random_sample"
   ],
   "note": "jr.choice is any function that returns draws in-range indices, distinct without replacement, and rejects oversize requests."
  },
  {
   "property": "C28",
   "status": "proved",
   "theorems": [
    "C28_halving_partitions",
    "C28_one_of_each_pair"
   ],
   "note": "Any arithmetic, kernel and random source: the swaps are arbitrary."
  },
  {
   "property": "C29",
   "status": "proved",
   "theorems": [
    "C29_best_candidate_improved",
    "C29_sized_distinct"
   ],
   "note": "PSD kernel with constant diagonal, positive weights, exact real arithmetic; size and distinctness need neither. math.floor(log2 n - log2 size) is any depth m with size * 2^m <= n."
  },
  {
   "property": "C30",
   "status": "proved",
   "theorems": [
    "C30_compress_sizes",
    "C30_compress_plus_plus"
   ],
   "note": "Positive weights, any real kernel; math.floor(math.log(n, 4)) is the exact integer logarithm."
  },
  {
   "property": "C31",
   "status": "partial",
   "theorems": [
    "C31_terminates_partial",
    "C31_base_solvers_partial",
    "C31_never_returns_refuted",
    "C31_returns_iff_partial",
    "C31_infinite_recursion_refuted"
   ],
   "note": "Proved when the data fit one leaf or 2*coreset_size <= leaf_size (exact log2). The full property is false: C31_never_returns_refuted and C31_infinite_recursion_refuted."
  },
  {
   "property": "C32",
   "status": "partial",
   "theorems": [
    "C32_provenance_partial"
   ],
   "note": "Proved for every base solver when no level pads; C33_no_padding_selected_partial covers padded runs whose leaves keep enough data points; otherwise false (C33_padding_selected_refuted)."
  },
  {
   "property": "C33",
   "status": "partial",
   "theorems": [
    "C33_no_padding_selected_partial",
    "C33_herding_partial",
    "C33_padding_selected_refuted"
   ],
   "note": "Proved when a leaf holding all padding would still contain coreset_size points; C33_padding_selected_refuted shows the full property is false."
  },
  {
   "property": "C34",
   "status": "proved",
   "theorems": [
    "C34_caratheodory",
    "C34_svd_null_basis"
   ],
   "note": "Non-negative data weights of positive total, any test functions; exact real arithmetic. The null-space routine is any function returning a basis of the left null space; C34_svd_null_basis shows the code's SVD routine is one when the SVD is exact and rcond lies below the positive singular values."
  },
  {
   "property": "C35",
   "status": "proved",
   "theorems": [
    "C35_padding",
    "C35_every_level",
    "C35_tree"
   ],
   "note": "Same assumptions on the data and null-space routine; ceil(log(n/m, factor)) is any integer not below the exact logarithm."
  },
  {
   "property": "C36",
   "status": "partial",
   "theorems": [
    "C36_caratheodory_modes",
    "C36_tree_modes_partial",
    "C36_tree_index_out_of_range_refuted",
    "C36_unknown_mode"
   ],
   "note": "Caratheodory: full property. Tree: proved up to validity of the zero-weight fill index; C36_tree_index_out_of_range_refuted shows that index can be padding, past the end of the data."
  },
  {
   "property": "C37",
   "status": "partial",
   "theorems": [
    "C37_masked_inverse_partial",
    "C37_range_finder",
    "C37_solve_partial",
    "C37_conventions",
    "C37_solve_stack",
    "C37_zero_matrix_refuted",
    "C37_negative_eigenvalue_refuted"
   ],
   "note": "Exact QR and eigendecomposition assumed (hypotheses). Partial because a retained zero eigenvalue gives NaN (C37_zero_matrix_refuted) and eigenvalues are compared with sign, so a large negative one is discarded (C37_negative_eigenvalue_refuted)."
  },
  {
   "property": "C38",
   "status": "partial",
   "theorems": [
    "C38_pointwise",
    "C38_constructor",
    "C38_monte_carlo",
    "C38_annchor",
    "C38_nystrom",
    "C38_too_many_points_partial",
    "C38_too_many_kernel_points_refuted",
    "C38_weights_refuted"
   ],
   "note": "Exact least squares assumed for the systems that occur (hypothesis), symmetric base kernel; ANNchor for non-negative kernels. Partial because Monte Carlo accepts n+1 kernel points and ANNchor any number (C38_too_many_kernel_points_refuted), and weights are ignored (C38_weights_refuted)."
  },
  {
   "property": "C39",
   "status": "proved",
   "theorems": [
    "C39_sample_batch_indices",
    "C39_zero_pad",
    "C39_leaves_repeat",
    "C39_leaves_repeat_empty_refuted",
    "C39_threshold"
   ],
   "note": "jr.split and jr.permutation are arbitrary functions returning n keys and a permutation. C39_leaves_repeat_empty_refuted records the leafless tree."
  },
  {
   "property": "C40",
   "status": "partial",
   "theorems": [
    "C40_delta_in_unit_interval_partial",
    "C40_delta_three_refuted"
   ],
   "note": "Proved for every n except 3; C40_delta_three_refuted: calculate_delta(3) > 1, so the property is false there. Exact real arithmetic."
  },
  {
   "property": "C41",
   "status": "proved",
   "theorems": [
    "C41_kde_score",
    "C41_ranks",
    "C41_constructor"
   ],
   "note": "Exact real arithmetic, so the density is positive everywhere; the true d-dimensional Gaussian normalisation is used in the specification."
  },
  {
   "property": "C42",
   "status": "proved",
   "theorems": [
    "C42_median_of_distances",
    "C42_invariances",
    "C42_single_point_refuted"
   ],
   "note": "Exact real arithmetic; C42_single_point_refuted: a single point gives NaN."
  },
  {
   "property": "C43",
   "status": "proved",
   "theorems": [
    "C43_solve_weights",
    "C43_solve_weights_pseudo"
   ],
   "note": "Coresubset and pseudo-coreset; the weight optimiser is an arbitrary function."
  },
  {
   "property": "C44",
   "status": "partial",
   "theorems": [
    "C44_supervised_selection_partial",
    "C44_greedy_supervised_refuted",
    "C44_kernel_thinning_supervised_refuted",
    "C44_compress_supervised_refuted",
    "C44_weight_optimisers_supervised_refuted",
    "C44_recombination_supervised_refuted"
   ],
   "note": "The property is false: C44_greedy_supervised_refuted shows KernelHerding and SteinThinning reject every supervised data set; KernelThinning and CompressPlusPlus never return a coreset for supervised data; both recombination solvers reject it. RandomSample and RPCholesky have the property (C44_supervised_selection_partial)."
  },
  {
   "property": "C45",
   "status": "proved",
   "theorems": [
    "C45_stein_symmetric",
    "C45_stein_documented",
    "C45_zero_score"
   ],
   "note": "Symmetry for any base kernel with consistent finite derivatives; the documented formula for every closed-form base."
  },
  {
   "property": "C46",
   "status": "proved",
   "theorems": [
    "C46_ksd_explicit_score",
    "C46_ksd_default_score",
    "C46_ksd_value",
    "C46_ksd_clamp_inactive"
   ],
   "note": "C46_ksd_value is generic in the Stein kernel, KDE log-density and score Laplacian; C46_ksd_explicit_score and C46_ksd_default_score are about the complete metric, for base kernels with closed-form derivatives that are smooth everywhere. gaussian_kde and jax.jacfwd are assumed to return numbers / derivatives."
  },
  {
   "property": "C47",
   "status": "proved",
   "theorems": [
    "C47_format_time"
   ],
   "note": "Exact real arithmetic; the final rounding to two digits is not modelled."
  },
  {
   "property": "C48",
   "status": "partial",
   "theorems": [
    "C48_swap_rule_partial",
    "C48_duplicate_freezes_refuted"
   ],
   "note": "Proved when no consecutive pair coincides in feature space. C48_duplicate_freezes_refuted: after a pair of equal points sigma is NaN and no later pair is ever swapped, so the property is false for data with duplicates."
  },
  {
   "property": "C49",
   "status": "proved",
   "theorems": [
    "C49_constructor_ranges"
   ],
   "note": "Real hyper-parameters; the type checks for integer fields are not modelled (integers here)."
  },
  {
   "property": "C50",
   "status": "partial",
   "theorems": [
    "C50_shipped_kernels_partial",
    "C50_two_dimensions_refuted"
   ],
   "note": "Proved for every expression, all Matern degrees included, with periodic and Poisson kernels on one-dimensional data. C50_two_dimensions_refuted: in two dimensions no periodic and no Poisson kernel is positive semi-definite, so the full property is false."
  },
  {
   "property": "C51",
   "status": "partial",
   "theorems": [
    "C51_nystrom_is_subset_average",
    "C51_nystrom_estimator_refuted"
   ],
   "note": "False of the code: C51_nystrom_is_subset_average proves that the result is the plain average over the selected points for every positive semi-definite kernel; C51_nystrom_estimator_refuted is a witness that this is not the Nystrom estimator."
  },
  {
   "property": "C52",
   "status": "partial",
   "theorems": [
    "C52_monte_carlo_one_point_refuted",
    "C52_nystrom_points",
    "C52_annchor_points_partial",
    "C52_annchor_negative_kernel_refuted"
   ],
   "note": "Proved for Nystrom and, for non-negative kernels, ANNchor (the selection rule is in C38_annchor). False for Monte Carlo, which uses one point less than requested (C38_monte_carlo) and none for one (C52_monte_carlo_one_point_refuted), and for ANNchor with negative kernel values (C52_annchor_negative_kernel_refuted)."
  },
  {
   "property": "C53",
   "status": "proved",
   "theorems": [
    "C53_explicit_score",
    "C53_default_score"
   ],
   "note": "Any kernel; data non-empty. The values of the induced Stein kernel are given for kernels with closed-form derivatives, where smooth (see C45)."
  },
  {
   "property": "C54",
   "status": "proved",
   "theorems": [
    "C54_stein_psd"
   ],
   "note": "For base kernels with closed-form derivatives that are smooth everywhere, x = y included: linear, polynomial, squared exponential, PCIMQ, rational quadratic, one-dimensional Poisson, and their sums, products and powers. The other kernels have no Stein kernel value at x = y."
  },
  {
   "property": "C55",
   "status": "partial",
   "theorems": [
    "C55_comparison_representation_partial",
    "C55_corrections_refuted",
    "C55_reference_padding_refuted"
   ],
   "note": "Proved for the comparison data with both corrections off; false with either correction (C55_corrections_refuted) and for the reference data with the default score (C55_reference_padding_refuted)."
  },
  {
   "property": "C56",
   "status": "proved",
   "theorems": [
    "C56_sqrt_kernel",
    "C56_integral_is_determined"
   ],
   "note": "The integral over R^d is the iterated improper Riemann integral; the C56_integral_is_determined theorem shows it is unique."
  },
  {
   "property": "C57",
   "status": "proved",
   "theorems": [
    "C57_kernel_thinning_scale",
    "C57_compress_scale",
    "C57_dimension_irrelevant"
   ],
   "note": "No assumption on kernels, data, coin flips or NaN; exact real arithmetic."
  },
  {
   "property": "C58",
   "status": "proved",
   "theorems": [
    "C58_herding_refine",
    "C58_herding_reduce",
    "C58_herding_reduce_iterative",
    "C58_stein_reduce",
    "C58_rpcholesky_reduce",
    "C58_greedy_kernel_points_refine",
    "C58_greedy_kernel_points_reduce",
    "C58_min_norm_homogeneous",
    "C58_kernel_thinning_reduce",
    "C58_compress_reduce",
    "C58_mmd"
   ],
   "note": "Exact real arithmetic with infinities and NaN. RPCholesky: the external draw is assumed to ignore the scale of its probabilities. GreedyKernelPoints: the least-squares solver is assumed homogeneous; MinimalEuclideanNormSolver is, if lstsq is."
  },
  {
   "property": "C59",
   "status": "partial",
   "theorems": [
    "C59_recommended_delta_partial",
    "C59_three_points_never_swap_refuted"
   ],
   "note": "Proved for all n except 3, for data without consecutive coinciding points (see C48). calculate_delta(3) exceeds 2, every threshold is then NaN and no pair is ever swapped (C59_three_points_never_swap_refuted)."
  },
  {
   "property": "C60",
   "status": "proved",
   "theorems": [
    "C60_probabilities",
    "C60_temperature_limits",
    "C60_cold_run"
   ],
   "note": "Exact arithmetic. The sampler has fixed randomness and is assumed to draw a row whose probability is close enough to one; inversion of the cumulative distribution does (C60_sampler). The whole-run theorem assumes positive weights (zero weights give NaN probabilities: C17_probabilistic_zero_weight_refuted) and strict greedy choices."
  },
  {
   "property": "C61",
   "status": "partial",
   "theorems": [
    "C61_one_iteration_is_reduce",
    "C61_schedule_needs_probabilistic",
    "C61_iterations_compose",
    "C61_valid_coreset_partial",
    "C61_iterations_never_worse",
    "C61_zero_iterations_refuted"
   ],
   "note": "Validity is proved from the first iteration on; num_iterations = 0 is accepted and returns copies of row 0 with weight zero (C61_zero_iterations_refuted). Probabilistic runs assume positive weights and temperatures and a sampler that returns rows of positive probability."
  },
  {
   "property": "C62",
   "status": "proved",
   "theorems": [
    "C62_network_differentiable",
    "C62_training_loss",
    "C62_expected_objective",
    "C62_expected_noise_conditioned_objective"
   ],
   "note": "Exact arithmetic; jax.jvp is assumed to return value and directional derivative of a differentiable function, softplus to be ln(1+exp x). The network's differentiability is proved, not assumed. The noise is an arbitrary fixed array."
  },
  {
   "property": "C63",
   "status": "partial",
   "theorems": [
    "C63_construction",
    "C63_training",
    "C63_no_epochs",
    "C63_empty_batch_refuted"
   ],
   "note": "batch_size = 0 is accepted although every loss is then NaN (C63_empty_batch_refuted); C63_training is stated for batch_size >= 1. Optimiser, initialisation and random draws are arguments."
  },
  {
   "property": "C64",
   "status": "partial",
   "theorems": [
    "C64_analytic_variance_partial",
    "C64_analytic_variance_refuted"
   ],
   "note": "False in general: C64_analytic_variance_refuted; proved when the two parts of the objective are not negatively correlated."
  },
  {
   "property": "C65",
   "status": "proved",
   "theorems": [
    "C65_herding_rate",
    "C65_shipped_kernels",
    "C65_unique_weighted_refuted"
   ],
   "note": "Exact arithmetic, unsupervised data. C65_unique_weighted_refuted shows that the condition on the weights is needed when unique=True. C65_shipped_kernels discharges positive semi-definiteness for the shipped kernels."
  },
  {
   "property": "C66",
   "status": "proved",
   "theorems": [
    "C66_stein_rate",
    "C66_regularised_stein_rate"
   ],
   "note": "Exact arithmetic, unsupervised data; the Stein kernel is the function given to the solver, the log density and Laplacian terms are given by their values on the data."
  },
  {
   "property": "C67",
   "status": "proved",
   "theorems": [
    "C67_halving_expected",
    "C67_fair_coins",
    "C67_duplicate_pair_refuted"
   ],
   "note": "One call of kt_half, exact arithmetic, unsupervised data. The uniform draws are independent across the pairs of one call (the key is split); the expectation is an iterated Riemann integral. C67_fair_coins computes the comparison value, C67_duplicate_pair_refuted shows that the pairs must be distinct."
  },
  {
   "property": "C68",
   "status": "proved",
   "theorems": [
    "C68_expected_error"
   ],
   "note": "Exact arithmetic, no solver state given. jax.random.choice is assumed to draw each index with probability proportional to its weight (draws_by_weight), independently across iterations; inversion of the cumulative weights is shown to meet this. The expectation is an iterated Riemann integral."
  },
  {
   "property": "C69",
   "status": "proved",
   "theorems": [
    "C69_exact_symmetry",
    "C69_bounds",
    "C69_small_length_scale_refuted",
    "C69_matern_degree_refuted"
   ],
   "note": "IEEE instance of the same model (Float.v, Flocq), rounding to nearest even, sums in any order. exp and power are arguments; C69_bounds assumes their sign and size (record elementary, met by an example). The two refuted theorems show that the provisos in the statement are needed: C69_small_length_scale_refuted, C69_matern_degree_refuted."
  },
  {
   "property": "C70",
   "status": "proved",
   "theorems": [
    "C70_rpcholesky",
    "C70_herding_refine",
    "C70_herding_reduce",
    "C70_stein_refine",
    "C70_stein_reduce",
    "C70_large_kernel_values_refuted"
   ],
   "note": "IEEE instance of the same model, rounding to nearest even, sums in any order; greedy herding (no temperature). The random choice of RPCholesky is an argument assumed to draw an index of positive weight when there is one (float_pick_ok, met by an example). The room condition is sufficient, not sharp; C70_large_kernel_values_refuted shows that some such condition is needed."
  },
  {
   "property": "C71",
   "status": "proved",
   "theorems": [
    "C71_mean_accurate",
    "C71_row_means_accurate",
    "C71_mmd_accurate",
    "C71_mmd_self",
    "C71_mmd_of_kernels",
    "C71_reordering_refuted",
    "C71_symmetry_refuted"
   ],
   "note": "IEEE instance of the same model, rounding to nearest even, sums in any order. Kernel values are the computed ones: the bound compares with the exact discrepancy of the computed kernel matrix. mean_room states the limits on size, exponent and number of roundings. The last sentence of the statement is C71_reordering_refuted and C71_symmetry_refuted."
  },
  {
   "property": "C72",
   "status": "proved",
   "theorems": [
    "C72_mmd_weights_not_worse",
    "C72_exact_not_worse",
    "C72_herding_then_weights",
    "C72_solving_forgets",
    "C72_weighted_data_refuted",
    "C72_sbq_refuted"
   ],
   "note": "Real arithmetic; OSQP is a contract (osqp_within: constraints up to tol, objective up to del of every simplex point), satisfied by a concrete inexact answer in C72_applies. Both exceptions in the last sentence of the statement are refutation theorems with exact solver answers."
  },
  {
   "property": "C73",
   "status": "proved",
   "theorems": [
    "C73_base_calls",
    "C73_depth",
    "C73_depth_31",
    "C73_levels",
    "C73_documented_rate_refuted",
    "C73_leaf_count_float"
   ],
   "note": "The calls are characterised observationally: two base solvers that agree on those sizes give the same result. leaf_size < 2*coreset_size is covered by C31 (never returns). The last sentence is C73_documented_rate_refuted."
  },
  {
   "property": "C74",
   "status": "proved",
   "theorems": [
    "C74_herding_refine",
    "C74_herding_reduce",
    "C74_herding_reduce_iterative",
    "C74_stein_reduce",
    "C74_rpcholesky",
    "C74_kernel_thinning",
    "C74_compress",
    "C74_greedy_kernel_points",
    "C74_mmd",
    "C74_weights",
    "C74_real_herding",
    "C74_real_stein",
    "C74_real_rpcholesky",
    "C74_real_thinning",
    "C74_translation",
    "C74_isometry",
    "C74_units",
    "C74_shipped_solvers",
    "C74_map_reduce",
    "C74_map_reduce_translation_refuted"
   ],
   "note": "The scikit-learn tree and the base solver of MapReduce enter as arguments that commute with the map; the last clause is C74_map_reduce_translation_refuted. KernelRecombination is not covered."
  },
  {
   "property": "C75",
   "status": "proved",
   "theorems": [
    "C75_kernel_thinning_depth",
    "C75_kernel_thinning_depth_powers",
    "C75_kernel_thinning_depth_refuted",
    "C75_no_halving",
    "C75_kernel_thinning",
    "C75_compress_depth",
    "C75_compress_depth_exact",
    "C75_tree_depth",
    "C75_tree_depth_refuted"
   ],
   "note": "Bounds of ln 2, ln 5 and ln 13 to 64 bits are computed inside Coq (LnBounds.v). The two failures are C75_kernel_thinning_depth_refuted with its consequence C75_no_halving, and C75_tree_depth_refuted."
  },
  {
   "property": "C76",
   "status": "proved",
   "theorems": [
    "C76_setup",
    "C76_valid_coresets",
    "C76_too_large",
    "C76_stein_choice",
    "C76_thinning_not_worse_than_random",
    "C76_iterative_not_worse_than_herding",
    "C76_leaf_size",
    "C76_dimension",
    "C76_single_row_refuted"
   ],
   "note": "Real arithmetic. The samplers, logarithms, the tree, jax.grad, jacfwd and gaussian_kde are arguments; what is assumed of them is externals_ok and density_ok, met by concrete ones in C76_applies. The last sentence is C76_single_row_refuted."
  },
  {
   "property": "C77",
   "status": "proved",
   "theorems": [
    "C77_same_data_sources",
    "C77_integer_weights",
    "C77_herding_representation",
    "C77_stein_representation",
    "C77_stein_regularised_representation",
    "C77_ties_refuted",
    "C77_merge_refuted"
   ],
   "note": "Real arithmetic. no_ties is a condition on the run on the first data set. The last sentence of the property is C77_ties_refuted and C77_merge_refuted."
  },
  {
   "property": "C78",
   "status": "proved",
   "theorems": [
    "C78_random_sample",
    "C78_random_sample_with_replacement",
    "C78_kernel_thinning",
    "C78_kernel_thinning_rate",
    "C78_weights_ignored_refuted"
   ],
   "note": "Real arithmetic. The distribution of jax.random.choice is a hypothesis (finite probability space, equal probabilities or independent draws). The ignored weights are C78_weights_ignored_refuted."
  },
  {
   "property": "C79",
   "status": "proved",
   "theorems": [
    "C79_map_reduce_accuracy",
    "C79_map_reduce_herding",
    "C79_weights_lost_refuted"
   ],
   "note": "Real arithmetic; the tree is an oracle that lists every row once. The last sentence of the property is C79_weights_lost_refuted."
  },
  {
   "property": "C80",
   "status": "proved",
   "theorems": [
    "C80_float_herding_greedy",
    "C80_float_herding_rate"
   ],
   "note": "IEEE arithmetic (Flocq), sums in any order; the kernel is a function returning floats, of which only the size and the distance to an exact kernel are assumed. The Gramian row mean is computed by the solver (no cached state)."
  },
  {
   "property": "C81",
   "status": "proved",
   "theorems": [
    "C81_float_stein",
    "C81_float_regularised_stein"
   ],
   "note": "IEEE arithmetic (Flocq), sums in any order; the kernel, the log density and the Laplacian term are functions returning floats, of which only the sizes and the distance of the kernel to an exact kernel are assumed."
  },
  {
   "property": "C82",
   "status": "proved",
   "theorems": [
    "C82_exact_sum_any_order",
    "C82_mean_two_backends",
    "C82_mmd_two_backends",
    "C82_not_bitwise_equal"
   ],
   "note": "An order of summation is a function that returns the value of some bracketing of some rearrangement of the list (SumSpec.v, class SumOrder). Equal lists get equal sums within one run. C82_not_bitwise_equal shows the difference is real."
  },
  {
   "property": "C83",
   "status": "proved",
   "theorems": [
    "C83_kernel_accurate",
    "C83_mmd_documented",
    "C83_herding_documented"
   ],
   "note": "exp is an external function; its accuracy (exp_accurate, FloatKernSpec.v) is a hypothesis, met by an explicit truncating exp. The constants derived from the length scale are computed in the format of the data; the code computes them in double precision before they are rounded, which is more accurate."
  },
  {
   "property": "C84",
   "status": "proved",
   "theorems": [
    "C84_normalize",
    "C84_qp_weights",
    "C84_overflow_refuted",
    "C84_exactly_one_refuted"
   ],
   "note": "Weights whose total is above a quarter of the overflow threshold are outside the statement; C84_overflow_refuted shows that they can all become zero, C84_exactly_one_refuted that the total is not exactly one."
  },
  {
   "property": "C85",
   "status": "proved",
   "theorems": [
    "C85_jmmd_accurate",
    "C85_jmmd_self",
    "C85_jmmd_documented",
    "C85_ksd_accurate"
   ],
   "note": "The Stein kernel, the log density and the Laplacian are given as floats: their own rounding is not covered for KSD. For JMMD with built-in kernels it is (C85_jmmd_documented)."
  },
  {
   "property": "C86",
   "status": "proved",
   "theorems": [
    "C86_caratheodory",
    "C86_negative_weight_refuted",
    "C86_padding_weight_refuted",
    "C86_tree_size_refuted"
   ],
   "note": "Covers Caratheodory recombination. C86_negative_weight_refuted, C86_padding_weight_refuted and C86_tree_size_refuted show what fails in binary32 with a correctly rounded decomposition."
  },
  {
   "property": "C87",
   "status": "proved",
   "theorems": [
    "C87_compound_accurate",
    "C87_mmd_compound",
    "C87_herding_compound",
    "C87_relative_error_refuted"
   ],
   "note": "Powers above three are left out because the order of the multiplications is then chosen by the compiler. The rational quadratic, Matern, periodic and Poisson kernels are not covered. C87_relative_error_refuted: the error is not relative to the value."
  },
  {
   "property": "C88",
   "status": "proved",
   "theorems": [
    "C88_mapreduce_float",
    "C88_herding",
    "C88_stein"
   ],
   "note": "Without the condition on the padding the statement is false already in exact arithmetic (C33_padding_selected_refuted)."
  },
  {
   "property": "C89",
   "status": "proved",
   "theorems": [
    "C89_reduce_unique",
    "C89_refine_unique",
    "C89_large_responses_refuted"
   ],
   "note": "C89_large_responses_refuted: with responses of 2^70 in binary32 the losses overflow and the same point is chosen twice although unique is set."
  },
  {
   "property": "C90",
   "status": "proved",
   "theorems": [
    "C90_thinning_valid",
    "C90_compress_valid",
    "C90_best_candidate",
    "C90_flat_pair_freezes_refuted",
    "C90_close_points_freeze_refuted"
   ],
   "note": "C90_flat_pair_freezes_refuted and C90_close_points_freeze_refuted: random halving is not random after a pair of points whose computed squared feature distance is not positive; for the squared exponential kernel in binary32 two points closer than 2^-12 length scales suffice."
  },
  {
   "property": "C91",
   "status": "proved",
   "theorems": [
    "C91_inherited_gradients",
    "C91_inherited_divergence",
    "C91_matern"
   ],
   "note": "The contract of jax.grad is assumed at the points used only: it is not met where an intermediate result such as a norm is not differentiable, as for Matern kernels at x = y."
  },
  {
   "property": "C92",
   "status": "proved",
   "theorems": [
    "C92_median_accurate",
    "C92_order"
   ],
   "note": ""
  },
  {
   "property": "C93",
   "status": "proved",
   "theorems": [
    "C93_build",
    "C93_build_errors",
    "C93_build_pseudo",
    "C93_data_errors",
    "C93_slice",
    "C93_compute_metric"
   ],
   "note": ""
  },
  {
   "property": "C94",
   "status": "proved",
   "theorems": [
    "C94_min_norm",
    "C94_regularised_exact",
    "C94_solvers_agree"
   ],
   "note": "jnp.linalg.lstsq is an oracle; its contract (minimal-norm least-squares solution in exact arithmetic) is assumed for the system at hand only."
  },
  {
   "property": "C95",
   "status": "partial",
   "theorems": [
    "C95_halving_unbiased_partial",
    "C95_reused_key_refuted"
   ],
   "note": "One halving is proved fair. Repeated halving is not (C95_reused_key_refuted): every call of kt_half starts from the solver's own key, so all levels use the same uniform numbers and, with two halvings, row 1 is never in the first part whatever the key. The draws of one call are taken as independent uniform numbers."
  },
  {
   "property": "C96",
   "status": "partial",
   "theorems": [
    "C96_random_sample_partial",
    "C96_with_replacement_partial",
    "C96_map_reduce_refuted"
   ],
   "note": "Proved for RandomSample alone. False inside MapReduce (C96_map_reduce_refuted): one key serves every leaf and every round, so with eight rows in two leaves row 0 is kept with probability 1/3 and row 4 with probability 1/6. The distribution of jr.choice is a hypothesis."
  },
  {
   "property": "C97",
   "status": "partial",
   "theorems": [
    "C97_score_at_data_partial",
    "C97_underflow_is_nan",
    "C97_far_query_refuted"
   ],
   "note": "Proved in every binary format for queries that are rows of the data, with a bound on the size. Refuted for other queries: where all kernel values underflow the score is NaN (C97_underflow_is_nan, any format), e.g. binary32, bandwidth 1, data 0, query 15."
  },
  {
   "property": "C98",
   "status": "proved",
   "theorems": [
    "C98_default_stein_kernel"
   ],
   "note": "Every binary format and summation order, all pairs of data rows, with an explicit bound. Assumes of exp only the facts in the record elementary."
  },
  {
   "property": "C99",
   "status": "partial",
   "theorems": [
    "C99_ksd_default_partial",
    "C99_padding_is_nan",
    "C99_ksd_far_origin",
    "C99_ksd_refuted",
    "C99_origin_row_partial"
   ],
   "note": "Proved, with an error bound, for block sizes that divide the number of rows. Refuted otherwise: zero rows of weight zero are added and the kernel density score at the origin may be NaN (C99_padding_is_nan for any kernel, C99_ksd_far_origin in any format, C99_ksd_refuted for three points near 100 with bandwidth 1 in binary32). For every block size if the zero row is a data point (C99_origin_row_partial)."
  },
  {
   "property": "C100",
   "status": "partial",
   "theorems": [
    "C100_stein_thinning_partial",
    "C100_default_stein_thinning_partial",
    "C100_far_origin",
    "C100_stein_thinning_refuted",
    "C100_any_block_partial",
    "C100_origin_row_partial"
   ],
   "note": "Proved for block sizes that divide the number of rows and the coreset size (C100_stein_thinning_partial for any kernel that is bounded on the data, C100_default_stein_thinning_partial for the default Stein kernel). Refuted otherwise: C100_far_origin in any format, C100_stein_thinning_refuted for three points near 100 in binary32, where the indices are all -1. For every block size if the kernel is bounded at the zero row too (C100_any_block_partial), in particular if the zero row is a data point (C100_origin_row_partial)."
  },
  {
   "property": "C101",
   "status": "partial",
   "theorems": [
    "C101_herding_partial",
    "C101_default_stein_herding_partial",
    "C101_far_origin",
    "C101_herding_refuted",
    "C101_any_block_partial",
    "C101_origin_row_partial"
   ],
   "note": "Proved for block sizes that divide the number of rows, the second one also the coreset size (C101_herding_partial for any kernel that is bounded on the data, C101_default_stein_herding_partial for the default Stein kernel). Refuted otherwise: C101_far_origin in any format, C101_herding_refuted for three points near 100 in binary32, where the indices are all -1 although unique=True. For every block size if the kernel is bounded at the zero row too (C101_any_block_partial), in particular if the zero row is a data point (C101_origin_row_partial)."
  }
 ]
}