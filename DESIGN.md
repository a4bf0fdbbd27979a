# Formal model of gchq/coreax in Rocq (Coq 8.16)

The model lives in `rocq/theories`. `properties.jsonl` lists the properties,
`MANIFEST.json` maps each of them to theorems.

## 1. How the code is modelled

* **Values.** Array entries are elements of a type `V` equipped with an operations
  record `FOps` (add, sub, mul, div, sqrt, <, NaN test, infinities). The main
  instance is `ext T` = finite value of `T`, `+inf`, `-inf` or `NaN`, with the IEEE
  rules for the special values and *exact* arithmetic on finite values. `T` is `R`
  (theorems) or `Q` (runnable examples and refutations). Rounding and overflow are
  therefore not modelled unless a theorem says so; NaN and infinity are, because the
  solvers rely on them.
* **Arrays** are lists. Gather clamps out-of-range and wraps negative indices and
  scatter drops out-of-range updates, as JAX does. Scatter with duplicate indices
  applies its updates in an arbitrary order given as an argument (any permutation).
* **Loops** (`fori_loop`, `scan`) are folds over `seq`; recursion whose termination
  is a property (MapReduce) is a fuelled function, and termination is a theorem.
* **Exceptions** are values of `result`.
* **External code** (OSQP, SVD, KD-tree, `jax.random`, `lstsq`, `eigh`,
  `gaussian_kde`) is an argument of the model; what a theorem needs of it is an
  explicit hypothesis of that theorem with a concrete instance beside it.
* **Calculus** (kernel gradients) uses `R` and Coquelicot's `is_derive`.

Model files contain definitions only, each citing file and lines in `/repo`. Proofs
are in `*Proofs.v`. `Prop*.v` files hold the property theorems, each followed by
`Print Assumptions` and an `Example` meeting its hypotheses.

## 2. Plan per property

| id | modelled | how proved |
|----|----------|------------|
| C01 | `Data`, `SupervisedData` constructors, indexing | list induction |
| C02 | `Data.normalize` with nan_to_num | real algebra on weights, ext values for zero sums |
| C03 | `Coresubset.points` | gather lemmas |
| C04 | coreset constructors, `tree_at` rebuild in solvers | case analysis; refuted for `refine` |
| C05 | `compute_mean`, `_block_data_convert` | blocked sum = plain sum, by induction on blocks |
| C06 | same | corollary of C05 |
| C07 | kernel expression tree with broadcasting values | structural induction; refuted for constants inside products |
| C08 | kernel expression tree, gradients | Coquelicot derivatives, structural induction |
| C09 | kernel expression tree, divergences | same; refuted for the periodic kernel with output_scale <> 1 |
| C10 | all scalar kernels | real analysis |
| C11 | kernel algebra | Schur product through Gram factorisation; exp as a limit |
| C12 | `MMD.compute` | quadratic forms of PSD kernels, Cauchy-Schwarz |
| C13 | same | sums over permutations etc. |
| C14 | `JMMD.compute`, `AMCMD.compute` | reduce to C12 / matrix identities |
| C15 | `solve_qp` post-processing, QP solver as argument | real algebra |
| C16 | `SBQWeightsOptimiser`, `_prepare_kernel_system` | completing the square; refuted for weighted data |
| C17 | `_greedy_kernel_selection`, `KernelHerding` | loop invariant |
| C18 | same | penalty invariant, then argmax specification |
| C19 | same + MMD | exchange argument, induction on steps |
| C20 | same, and `SteinThinning` with its conversion and regularisation | simulation between padded and unpadded runs; refuted for SteinThinning's default score |
| C21 | solver states | functional equality; refuted for RPCholesky |
| C22 | `SteinThinning` as a whole (conversion, Laplacian and density terms, selection) | as C17/C18, with C45 for the Stein kernel; refuted for kernels that need conversion |
| C23 | `RPCholesky.reduce` | loop invariant over ext values |
| C24 | same | Schur complement invariant over R |
| C25 | GreedyKernelPoints bookkeeping | loop invariant; refuted for small candidate batches |
| C26 | `_greedy_kernel_points_loss` | minimal norm least squares characterisation |
| C27 | `RandomSample` | sampler contract |
| C28 | `kt_half`, `kt_half_recursive` | Permutation by induction on pairs and depth |
| C29 | `KernelThinning.reduce` | argmin specification + C19 |
| C30 | `CompressPlusPlus.reduce` | induction on the level |
| C31 | `MapReduce.reduce`, `_jit_tree` sizes | well-founded measure; refuted for coreset_size > leaf_size/2 |
| C32 | `MapReduce.reduce` | induction on recursion |
| C33 | same with herding | refuted by a concrete run |
| C34 | `CaratheodoryRecombination` | elimination invariant over R |
| C35 | `TreeRecombination` | per-level invariant, counting argument |
| C36 | `_coresubset_nodes` | list lemmas |
| C37 | `_eigendecomposition_invert`, `_gaussian_range_finder`, `RandomisedEigendecompositionSolver`, `solve_stack` | spectral calculus with orthonormal columns; power iterations by induction; refuted for zero and for negative eigenvalues |
| C38 | `approximation.py`: all three approximate kernels, `_random_least_squares` | optimality of the fit; a fit with zero error exists, so the best one has zero error; refuted for too many kernel points and for weighted data |
| C39 | `util.py` helpers | list lemmas |
| C40 | `calculate_delta` over the extended reals with the exact logarithm | numerical bounds on ln ln 3 and ln ln 4, monotonicity; refuted at n = 3 |
| C41 | `KernelDensityMatching.match` | derivative of ln of a sum |
| C42 | `median_heuristic` | sorting lemmas |
| C43 | `solve_weights` | record equalities |
| C44 | leaf unpacking in solvers | refuted for herding; proved for the others |
| C45 | `SteinKernel` | algebra |
| C46 | `KSD.compute` with its conversion and corrections | sums over weighted points; the Stein kernel is positive semi-definite (C54), so the clamp only acts on the density term |
| C47 | `format_time` | real logarithm, case analysis |
| C48 | `kt_half` swap rule | invariant on sigma; refuted for coinciding pairs |
| C49 | kernel constructors (`__check_init__`) | case analysis over R, both directions |
| C50 | all scalar kernels and compositions | Schoenberg's theorem from scratch; Matern kernels as mixtures of squared exponentials; refuted in two dimensions for periodic and Poisson |
| C51 | `NystromApproximateKernel.gramian_row_mean` | equal anchors and training points: uniform coefficients fit exactly, and two exact fits agree everywhere for a positive semi-definite kernel; the property is refuted |
| C52 | the features of the three approximate kernels | invariant of the ANNchor loop; refuted for Monte Carlo |
| C53 | `convert_stein_kernel`, `KernelDensityMatching` | case analysis; C41 for the default score; C45 for the induced kernel |
| C54 | `SteinKernel` over the kernel expressions of C07-C10 | the Stein kernel is a limit of quadratic forms of the base kernel at shifted points: mean value theorem and joint continuity of the mixed derivatives |
| C55 | `KSD.compute` as a whole | value theorem of C46; refuted with either correction and for the default score |
| C56 | `SquaredExponentialKernel.get_sqrt_kernel` | the Gaussian integral is proved from the derivative of (integral)^2, then induction on the dimension |
| C57 | `KernelThinning` and `CompressPlusPlus` with two square root kernels | simulation: every balance, bound and probability of `kt_half` is homogeneous in the kernel |
| C58 | herding, Stein thinning, RPCholesky, greedy kernel points, kernel thinning, Compress++, MMD with two kernels | simulation: loop states are related by scaling (residual diagonals by c, Cholesky factors by sqrt c, coefficients by 1/c) |
| C59 | `calculate_delta` with `kt_half` | composition of C40 and C48; refuted at n = 3 |
| C60 | the probabilities `herding_select` hands to the sampler | softmax as exp(r_i / T) / sum; limits of finite sums of exponentials; agreement of the two loops step by step below a common temperature |
| C61 | `IterativeKernelHerding` on top of `herding_reduce_iterative` | unfolding, induction on iterations using the outcome of one refine; refuted for no iterations |
| C62 | `SSMModel`: `ScoreNetwork`, `_loss`, `_train_step`'s loss; `jvp` an argument with `jvp_spec` | forward differentiation of the network by induction on layers; bilinear forms under an expectation with identity second moment |
| C63 | `ssm_init`, `match_` with initialisation, optimiser and random draws as arguments | case analysis, unfolding of the training loop; refuted for empty batches |
| C64 | `loss_element` | variance of a sum; explicit two-dimensional counterexample with sign vectors |
| C65 | `herding_reduce`, `mmd_compute`, `cs_compute_metric` | the selection rule C18 makes the squared norm of (t+1)mu - sum phi grow by at most 4.5 kappa per step (averaging the scores over the data, or over the rows left); Minkowski |
| C66 | `stein_reduce` | the selection rule C22 and induction on the steps: C_t <= t^2 H + t kappa H_t with H_t the harmonic number |
| C67 | `kt_half` | the decisions as a function of the uniform numbers (C48); one-step identity for the squared norm of the imbalance; iterated integrals of step functions (`expect` in HalvingSpec) |
| C68 | `chol_reduce` | the weights given to the sampler are the residual diagonal (C24); one-step inequality for the captured part of the trace (Bessel, Cauchy-Schwarz), Jensen for the concave recursion a -> a - a^2/(r(a+B)), logarithmic potential; the residual diagonal is the squared distance to a span |
| C69 | the kernels of `KernelModel` with the IEEE instance of the arithmetic (`Float.v`: Flocq's `binary_float prec emax`) | exact identities of rounded operations (commutation, `b - a = -(a - b)`, lost signs of zeros); monotone rounding; overflow cases |
| C70 | `chol_reduce`, `herding_reduce/refine`, `stein_reduce/refine` with the IEEE instance (`Float.v`) | residual invariant (NaN or finite, zero at pivots); penalties bounded by the number of updates times 2^e so that they stay finite, `LoopProofs.v` loop invariant generic in the arithmetic; nan-aware arg max/min pick a finite entry |
| C71 | `compute_mean`, `mmd_compute` with the IEEE instance (`Float.v`) | forward error analysis: an approximation judgement `apx` (value, exact value, magnitude, number of roundings) closed under +, -, *, sums and weight normalisation (`FloatErr.v`), applied to the padded blocks (`FloatMean.v`); square root by |sqrt a - sqrt b| <= sqrt|a-b| |
| C72 | `cs_solve_weights`, `mmdw_solve`, `sbq_solve`, `mmd_compute` | convexity: the gradient at the clipped and normalised answer is bounded by kappa and epsilon, its 1-norm distance to the OSQP answer by 3 n tol (`WeightsProofs.v`) |
| C73 | `reduce_coreset`, `jit_tree`, `mr_nleaves` | the exponent of the leaf count decreases in every level; extensionality of the recursion in the base solver; Flocq error bounds for the quotient and an error contract for `math.log2` (`MapReduceDepth.v`, `MapReduceFloat.v`) |
| C74 | all kernel based solvers, MMD, weights, shipped kernels | parametricity of each model function in the row type: it commutes with every map of rows that keeps the kernel; any two data sets with equal Gramians are images of the same numbered rows; algebra of the kernel formulas (`InvProofs.v`, `InvProofs2.v`, `InvKernel.v`) |
| C75 | `kt_depth_computed`, `cp_log4_computed`, `rec_depth_computed` | error bounds of the rounded logarithm expressions against the gap between logarithms of different integers; certified 64 bit bounds of logarithms by repeated squaring on integers for the exact cases (`LnBounds.v`, `DepthProofs.v`, `DepthProofs2.v`) |
| C76 | `initialise_solvers`, `solve` | the theorems on each solver, transferred from vectors to rows; the table case by case (`BenchProofs.v`, `BenchProofs2.v`, `BenchSized.v`) |
| C77 | `KernelHerding`, `SteinThinning` | two greedy runs compared point by point; the remaining copies of a point are counted (`RepProofs.v`) |
| C78 | `RandomSample`, `KernelThinning` | finite probability spaces; counting the orderings that contain a row or a pair of rows (`SampleProofs.v`); C29 for kernel thinning |
| C79 | `MapReduce`, `_jit_tree`, `KernelHerding` | the data are a mixture of the leaves, triangle inequality at every level; from the second level on there is no padding (`MrRateProofs.v`, `MrRateProofs3.v`) |
| C80 | `KernelHerding.reduce` over floats | error analysis of the row means, of the running penalty and of the score; the maximum of the rounded scores is within twice the error of the best; the herding recursion absorbs the tolerance (`FloatRate.v` to `FloatRate4.v`) |
| C81 | `SteinThinning.reduce` over floats | as C80; the penalties are sums, so the tolerance grows with the square of the size (`FloatStein.v`, `FloatStein2.v`); the energy recursion of C66 absorbs the tolerance |
| C82 | orders of summation, `compute_mean`, `MMD.compute` | `FOps` has its own summation function; the float instance takes an arbitrary order (class `SumOrder`), and all float theorems are proved by induction over the way the sum is bracketed (`SumSpec.v`, `SumProofs.v`); two results are compared through the exact one |
| C83 | built-in kernels, `MMD.compute`, `KernelHerding` in floating point | the error of distances, the quotient by `2 l^2`, `exp` or the inverse square root and the final product is propagated with relative and absolute terms, overflow and underflow are treated as separate cases (`FloatKern.v`–`FloatKern5.v`); the bound is composed with C71, C80 and the positive semi-definiteness of the documented kernels (C50) |
| C84 | `Data.normalize`, `solve_qp` in floating point | the float sum of non-negative numbers is at least each of them, whatever the order, so quotients stay in [0, 1]; error of sum and quotient as in C71 (`FloatNorm.v`) |
| C85 | `JMMD.compute`, `KSD.compute` in floating point | vector-matrix products are rewritten as sums over pairs of points, errors as in C71 (`FloatJMMD.v`); composed with C83 for built-in kernels |
| C86 | recombination in floating point | the elimination loop is followed step by step (`FloatRec.v`): each step zeroes one weight exactly because `x - x = 0` and `0 * y = 0` in floating point, and never revives one; refutations by computation with a correctly rounded SVD |
| C87 | additive, product and power kernels in floating point | pairs (size, error) are propagated through rounded sums and products (`FloatComp.v`), by induction on the kernel; composed with C71, C80 and C83 |
| C88 | MapReduce in floating point | the proof of C33 with the arithmetic and the positivity of a weight as parameters (`FloatMR.v`); every part has at most `leaf_size` rows, so C70 applies to each leaf |
| C89 | greedy kernel points in floating point | the proofs of C25 with finiteness of a loss as a parameter (`FloatGKP.v`), and a bound on the losses (`FloatGKP2.v`); refutation by computation |
| C90 | kernel thinning and Compress++ in floating point | the proofs of C29 and C30 with the arithmetic as a parameter (`FloatKT.v`); the refinement step from C70, the comparison of candidates from C71; refutations by following the threshold of the swap test |
| C91 | inherited kernel derivatives | directly from the contract of `jax.grad`; Matern kernels as products of an exponential and a polynomial of the distance, a class closed under differentiation (`PropAuto.v`) |
| C92 | the median heuristic in floating point | sorting is a 1-Lipschitz operation: if two lists agree entry by entry up to a relative error, so do their order statistics (`FloatMed.v:sort_rel`); the rest is the rounding analysis of C71 followed by a square root |
| C93 | `cs_build`, `pc_build`, `make_data`, `make_supervised`, `d_take`, `cs_compute_metric` | case analysis over the kinds of arguments, against an inductive description of what an argument means (`PropBuild.v`) |
| C94 | `men_solve`, `red_solve` | the first-order condition of least squares along the defect itself; uniqueness of minimal-norm solutions (`PropMinNorm.v`) |
| C95 | `kt_half`, `kt_half_rec` | exchanging the two halves of every earlier pair turns each swap probability p into 1 - p, so the surplus of any quantity in a half is an odd functional of symmetric decisions and has expectation zero; the repeated statement is refuted (`PropUnbiased.v`) |
| C96 | `random_reduce`, `map_reduce` | the sums over all ordered draws of C78; the MapReduce statement is refuted by evaluating all twelve draws (`PropFair.v`) |
| C97 | Kernel density scores are numbers | `kdm_score` over IEEE floats with any summation order; at a row of the data the kernel value of the row with itself is the output scale, so the mean in the denominator is bounded below; elsewhere zero divided by zero |
| C98 | Default Stein kernels are numbers on the data | `convert_stein_kernel` and the `KStein` case of `methods` over IEEE floats; C97 bounds the two scores, each of the four terms is bounded by a power of two |
| C99 | Stein discrepancies are numbers for every block size | `ksd` over IEEE floats; without padding the zero row plays no part and C98 and C85 apply; with padding a NaN of the kernel at the zero row reaches the mean through every order of summation |
| C100 | `thin_reduce` over IEEE floats with the kernel of C98 | without padding the zero row plays no part, so the data can be replaced by row numbers (C74) and C70 applies; with padding every penalty is NaN and `nanargmin` returns -1 |
| C101 | `herding_reduce` over IEEE floats with the kernel of C98 | as C100: without padding the rows can be replaced by row numbers (C74) and C70 applies; with padding the Gramian row means are NaN, which stays in every step of the loop, and `nanargmax` returns -1 |

## 3. What is modelled and what is not

Modelled, function by function: `data.py` (constructors, indexing, normalize),
`coreset.py` (constructors, points, solve_weights), `util.py` (all numerical helpers),
`kernels/base.py` and `kernels/scalar_valued.py` (values, gradients, divergences,
operators, constructors, `compute_mean`, `gramian_row_mean`), `metrics.py` (MMD, KSD,
JMMD, AMCMD), `weights.py`, `solvers/coresubset.py` (KernelHerding, SteinThinning,
RPCholesky, RandomSample, GreedyKernelPoints, KernelThinning), `solvers/composite.py`
(MapReduce, CompressPlusPlus), `solvers/recombination.py`, `least_squares.py`, `approximation.py`, `score_matching.py`
(KernelDensityMatching, SlicedScoreMatching, convert_stein_kernel), `networks.py` (ScoreNetwork), `benchmark_util.py` (initialise_solvers, calculate_delta,
IterativeKernelHerding).

Not modelled: parameter initialisation and the optimiser of `SlicedScoreMatching` (arguments of
the model of its training loop), JIT timing utilities, floating point rounding and overflow
(except in C69 and later float theorems, which use the IEEE instance of `Float.v`: round to nearest even,
sums in an arbitrary order; XLA may also fuse multiply-add, which is not modelled),
device/memory behaviour, type annotations and `jaxtyping` run-time checks, and the
insides of external routines (OSQP, SVD, eigh, lstsq, KD-tree, `jax.random`,
`gaussian_kde`, `jax.grad`, `jax.jacfwd`, `jax.jvp`), which are arguments of the model.

## 4. Findings: properties that are false of the code

Each has a machine-checked witness; the theorem is named in parentheses.

* MapReduce can recurse forever when `2*coreset_size > leaf_size`
  (C31_never_returns_refuted, C31_infinite_recursion_refuted) and can return padding
  points (C33_padding_selected_refuted).
* RPCholesky: re-using the returned state changes the result
  (C21_rpcholesky_state_refuted).
* GreedyKernelPoints: a candidate batch smaller than the coreset gives duplicates or
  index -1 (C25_small_batch_refuted, C25_empty_place_refuted).
* `refine` skips the check that a coreset is no larger than the data
  (C04_refine_guard_refuted).
* Probabilistic herding can select zero-weight points
  (C17_probabilistic_zero_weight_refuted).
* `SupervisedData` is rejected by herding, Stein thinning, the weight optimisers,
  KernelThinning, Compress++ and both recombination solvers (the C44 theorems).
* Kernel thinning: one pair of equal points makes sigma NaN and no later pair is ever
  swapped (C48_duplicate_freezes_refuted).
* `calculate_delta(3)` exceeds 1 (C40_delta_three_refuted).
* `compute_mean(axis=0)` is only right for symmetric kernels
  (C05_row_mean_asymmetric_refuted); empty data is an error (C05_empty_rejected).
* Weight optimisers ignore the dataset's weights (C16_weighted_data_refuted); a QP
  solution without positive component gives NaN (C15_no_positive_component_refuted).
* `PeriodicKernel` divergence has an extra factor `output_scale` in one term
  (C09_periodic_error, C09_periodic_refuted), and its gradient is NaN at x = y where
  the true gradient is 0 (C08_periodic_refuted).
* `RationalQuadraticKernel(relative_weighting=0)` has NaN gradients at x = y
  (C08_rational_quadratic_refuted).
* `k ** 1` has a NaN divergence where k = 0 (C09_first_power_refuted).
* Products with a number have a divergence of shape (d,) (C07_constant_product_refuted).
* Periodic and Poisson kernels are not positive semi-definite in two dimensions
  (C50_two_dimensions_refuted).
* `RandomisedEigendecompositionSolver` returns NaN for the zero matrix
  (C37_zero_matrix_refuted) and drops negative eigenvalues however large they are
  (C37_negative_eigenvalue_refuted).
* `NystromApproximateKernel` fits the average over the selected points instead of the row
  mean of the data, so it returns that average (C51_nystrom_is_subset_average,
  C51_nystrom_estimator_refuted).
* `MonteCarloApproximateKernel` uses one kernel point less than requested
  (C38_monte_carlo, C52_monte_carlo_one_point_refuted); it accepts n + 1 points and ANNchor
  any number (C38_too_many_kernel_points_refuted).
* ANNchor's zero-initialised features hide negative similarities
  (C52_annchor_negative_kernel_refuted); approximate kernels ignore weights
  (C38_weights_refuted).
* The Laplace correction and the density term of KSD average over the comparison points
  without their weights, and its default score ignores the weights of the reference data:
  zero-weight points change the discrepancy (C55_corrections_refuted,
  C55_reference_padding_refuted).
* SteinThinning uses the kernel it is given instead of the Stein kernel it induces
  (C22_conversion_refuted). With its default settings it declares itself padding
  invariant but is not: the default score matching ignores weights, so zero-weight rows
  change the Laplacian term (C20_default_score_refuted).
* TreeRecombination's fill index can lie past the end of the data
  (C36_tree_index_out_of_range_refuted).
* `normalize` with weights summing to zero (C02_cancelling_weights_refuted),
  `tree_leaves_repeat` of a tree without leaves (C39_leaves_repeat_empty_refuted),
  `median_heuristic` of one point (C42_single_point_refuted).
* With the `calculate_delta(3)` above 2 the thresholds of kernel thinning are NaN, so it never
  swaps (C59_three_points_never_swap_refuted).
* `IterativeKernelHerding` and `reduce_iterative` with no iterations return copies of row 0
  with weight zero (C61_zero_iterations_refuted).
* `SlicedScoreMatching(batch_size=0)` passes validation; every training loss is then NaN
  (C63_empty_batch_refuted).
* The "analytic (reduced variance) objective" can have a larger variance than the plain one:
  1 against 0 in an example with sign vectors (C64_analytic_variance_refuted).
* `SlicedScoreMatching` draws the noise of noise conditioning from the constant key 0: the same
  array for every noise model and every training step, whatever `random_key` (visible in the
  model: `noise` depends on the shape only).
* `KernelHerding` with `unique=True` (the default) need not approach a data set with unequal
  weights, at any coreset size: the coreset's points have equal weights and cannot repeat
  (C65_unique_weighted_refuted: all 49 points selected, MMD 0.889 for kappa = 1).
* `KernelHerding(probabilistic=True)` is declared padding invariant but is not: with zero-weight
  rows the sampler receives NaN for every row (C20_probabilistic_padding_refuted).
* Kernel halving loses its guarantee when one pair consists of two equal points: nothing is swapped
  from there on and the halves can be worse than random ones (C67_duplicate_pair_refuted).
* Every call of `kt_half` starts from the solver's own `random_key`, so all levels and branches of
  `kt_half_recursive` compare the same uniform numbers. C67 is about one call; the independence
  between levels that the published analysis of the recursion uses does not hold.
* A positive length scale below about 2^-75 passes validation, but twice its square underflows to
  zero in binary32: the squared exponential kernel is NaN on the diagonal
  (C69_small_length_scale_refuted).
* Every `MaternKernel` of degree 18 or more is NaN on the diagonal in binary32, because a factorial
  overflows (C69_matern_degree_refuted).
* **Unique herding repeats points when kernel sums overflow.**  In binary32 with a constant kernel of
  value 2^127 the penalties overflow to infinity, so the infinite mark of the points already taken no longer
  separates them and a point is picked twice, with no error (C70_large_kernel_values_refuted).
* **MMD is only accurate to the square root of the rounding error.**  In binary32 `MMD.compute` between
  the points 0.1, 0.7, 0.3, 0.9 and a reordering of them is 0.00017 with the linear kernel
  (C71_reordering_refuted), and `compute(x, y)` may differ from `compute(y, x)` (C71_symmetry_refuted).
  C71_mmd_accurate gives the matching upper bound.
* **Solving weights can make a coreset worse.**  On weighted data MMDWeightsOptimiser ignores the data
  weights: a coreset with MMD exactly 0 gets a positive MMD (C72_weighted_data_refuted).
  SBQWeightsOptimiser returns weights that are optimal without normalisation, while MMD.compute
  normalises: an exact SBQ solution can increase the reported MMD (C72_sbq_refuted).
* **The documented shrink rate of MapReduce is wrong by a factor of up to two per level.**  Partitions
  hold more than leaf_size//2 rows, not leaf_size: 17 rows with leaf_size 4 and coreset_size 1 leave 8
  rows after the first level, not at most 17/4 (C73_documented_rate_refuted; C73_levels is the corrected rate).
* **MapReduce is not translation invariant.**  The padding rows at the origin are sorted into the tree and
  a base solver that ignores weights can select them, so moving all data by a constant changes the
  coreset although kernel, base solver and tree are translation invariant (C74_map_reduce_translation_refuted).
* **KernelThinning may skip a halving.**  `math.floor(math.log2(n) - math.log2(coreset_size))` is one too
  small for some n = coreset_size * 2^m, even with a correctly rounded log2.  For 26 rows and coreset size 13 it
  is 0: nothing is halved, and the candidates are the first 13 rows and a random sample
  (C75_kernel_thinning_depth_refuted, C75_no_halving).  Integer arithmetic, `(n // coreset_size).bit_length() - 1`,
  would be exact.
* **The recombination tree may have a superfluous level**, with tree_reduction_factor times as much padding:
  log(125, 5) is above 3 (C75_tree_depth_refuted).
* **The benchmark accepts a single training row.**  The median of no distances is NaN, and a NaN length scale
  passes the check of the kernel (C76_single_row_refuted).
* **Merging duplicate rows changes coresets.**  With the default `unique=True` a row of weight 10 can be chosen once,
  while two equal rows of weight 5 can both be chosen (C77_merge_refuted).  Ties are decided by the order of the rows
  (C77_ties_refuted).
* **`RandomSample` ignores the weights of the data by default.**  On weighted data the expected discrepancy of the
  default sample does not tend to zero as it grows; even a sample of all rows differs from the data
  (C78_weights_ignored_refuted).
* **`MapReduce` loses the weights of the data.**  The coresets of the leaves have unit weights, so leaves of different
  total weight count the same afterwards.  KernelHerding alone is accurate on data on which MapReduce with KernelHerding
  stays at an MMD of 0.98, however large the coreset (C79_weights_lost_refuted).
* **`Data.normalize` with large weights.**  If the weights are finite but their sum overflows, every normalised weight is
  0, with `preserve_zeros` and without, and no error is raised (C84_overflow_refuted).
* **Recombination returns negative weights.**  In binary32, with a correctly rounded SVD, Caratheodory recombination of the
  points -1, 0, 1 with weights 5, 2, 5 gives a weight of -2^-25 (C86_negative_weight_refuted).  The implicit mode pads with
  `argmin` of the weights, so it repeats the negative weight instead of adding zero weights (C86_padding_weight_refuted).
  Explicit `TreeRecombination` of -4, -3, -2, -1 with weights 1, 3, 9, 5 keeps four entries where at most two are documented
  (C86_tree_size_refuted).
* **Greedy kernel points repeats a point when the losses overflow.**  `unique=True` rules out a chosen point by adding infinity to its
  loss.  In binary32 with two points and responses of 2^70 every loss is minus infinity, the sum is NaN, and `argmin` prefers NaN:
  the result is the index 0 twice (C89_large_responses_refuted).  Selecting with `jnp.where(mask, inf, loss)` would avoid this.
* **Nearly equal points switch the randomisation of kernel thinning off.**  If the feature distance of a pair is computed as zero (or as
  the root of a negative number), the threshold `a` is zero or NaN, the quotient `sigma**2 / a**2` makes `sigma` NaN, and it stays NaN: no later
  pair is swapped, whatever the random numbers (C90_flat_pair_freezes_refuted).  This needs no duplicates: with the squared exponential kernel in binary32
  two points closer than about 2^-12 length scales suffice (C90_close_points_freeze_refuted).
* **Repeated halving reuses the same random numbers.** `kt_half_recursive` calls `kt_half` at every level and on every part with the same `self.random_key` (coresubset.py:1646), so the coin that decides the first pair is tossed once and used at every level. With two halvings row 1 is never in the first or the fourth part and row 0 never in the second or the third, whatever the key, for any data with distinct points; each should be there with probability one quarter. One halving alone is fair (C95).
* **MapReduce reuses one key for every leaf and every round.** The base solver is vmapped over the leaves and called again on their union with the same `random_key` (composite.py:147, 160-171). A random base solver therefore keeps the same positions in every leaf and again in the union: with RandomSample of size 2, leaf size 4 and eight rows in tree order, row 0 is kept with probability 1/3 and row 4 with probability 1/6 (C96).
* **Scores away from the data are NaN (C97).** `score_matching.py:404-436` divides the mean kernel gradient by the mean kernel value. Both underflow to zero when the query is about 15 bandwidths or more from every data point in single precision, and the score is then NaN in every coordinate, while the true score is a moderate number (-15 in the witness). A Stein kernel built from the score is NaN there too.
* **Block sizes turn a Stein discrepancy into NaN (C99).** `kernels/util.py:29-47` pads data to a multiple of the block size with zero rows of weight zero. `KSD` with the default score evaluates the kernel density score at the zero row, which is NaN when the data are some 15 bandwidths from the origin in single precision (C97), and zero times NaN is NaN. For the points 100, 101, 102 with bandwidth 1 the discrepancy of the data with themselves is a number with `block_size=1` and NaN with `block_size=2`.
* **Block sizes make Stein thinning select index -1 (C100).** The same padding enters the initial penalties of `_greedy_kernel_selection` (`coresubset.py:165-171`) when the coreset size is not a multiple of the block size. With a Stein kernel made by `convert_stein_kernel` and data some 15 bandwidths from the origin in single precision, every penalty is NaN and `nanargmin` returns -1. Without `unique` every index is -1; with it the first one is.
* **Block sizes make kernel herding select index -1 (C101).** `KernelHerding` with a Stein kernel made by `convert_stein_kernel` has the fault of C99 in `gramian_row_mean` (`coresubset.py:329`) when the number of rows is not a multiple of the block size. The row means are then NaN in every step, so every index is -1, even with `unique=True`. Both solvers are correct for every block size when the kernel is bounded at the zero row as well (C100_any_block_partial, C101_any_block_partial).

## 5. Trusted base

Coq's kernel; the standard library axioms below; the faithfulness of the definitions
to the lines they cite. No axiom is added, no kernel check is switched off. What
`Print Assumptions` lists, theorem by theorem (`classic` is
`Coq.Logic.Classical_Prop.classic`, the others are those of Coq's real numbers and
`functional_extensionality_dep`):

<!-- assumptions:begin -->
* **no axioms** ("Closed under the global context"): C38_pointwise, C38_constructor, C52_annchor_negative_kernel_refuted, C93_build, C93_build_errors, C93_build_pseudo, C93_data_errors, C93_slice, C93_compute_metric, C44_supervised_selection_partial, C01_constructor, C01_supervised_constructor, C01_index_pairing, C01_index_compose, C03_points, C04_constructor_guard, C04_constructor_bound, C43_solve_weights, C43_solve_weights_pseudo, C04_gkp_size, C25_empty_place_refuted, C21_gkp_state, C04_greedy_solvers_guard, C04_refine_guard_refuted, C74_map_reduce, C61_one_iteration_is_reduce, C61_schedule_needs_probabilistic, C61_iterations_compose, C28_halving_partitions, C28_one_of_each_pair, C44_kernel_thinning_supervised_refuted, C44_compress_supervised_refuted, C07_matrix_entries, C07_entry_shapes_partial, C07_constant_product_refuted, C07_operators, C37_solve_stack, C31_terminates_partial, C31_base_solvers_partial, C31_never_returns_refuted, C31_returns_iff_partial, C31_infinite_recursion_refuted, C32_provenance_partial, C33_padding_selected_refuted, C73_base_calls, C73_depth, C73_depth_31, C73_levels, C73_documented_rate_refuted, C44_weight_optimisers_supervised_refuted, C36_unknown_mode, C44_recombination_supervised_refuted, C63_construction, C63_training, C63_no_epochs, C53_explicit_score, C22_conversion_refuted, C22_score_matching_ignored_refuted, C39_sample_batch_indices, C39_zero_pad, C39_leaves_repeat, C39_leaves_repeat_empty_refuted, C42_single_point_refuted, C72_solving_forgets.
* `functional_extensionality_dep`: C74_herding_refine, C74_herding_reduce, C74_herding_reduce_iterative, C74_stein_reduce, C74_rpcholesky, C74_kernel_thinning, C74_compress, C74_greedy_kernel_points, C74_mmd, C74_weights, C74_map_reduce_translation_refuted.
* `functional_extensionality_dep`, `sig_forall_dec`: C26_fit_is_ridge_regression, C18_rule_deterministic, C67_fair_coins, C37_zero_matrix_refuted, C37_negative_eigenvalue_refuted, C13_representation_changes, C36_tree_index_out_of_range_refuted, C77_same_data_sources, C77_integer_weights.
* `functional_extensionality_dep`, `sig_forall_dec`, `sig_not_dec`: C38_monte_carlo, C38_annchor, C38_nystrom, C38_too_many_points_partial, C38_too_many_kernel_points_refuted, C51_nystrom_is_subset_average, C52_monte_carlo_one_point_refuted, C52_nystrom_points, C52_annchor_points_partial, C51_nystrom_estimator_refuted, C38_weights_refuted, C27_random_sample, C23_rpcholesky_pivots, C24_returned_residual, C24_factorisation, C21_rpcholesky_state_refuted, C02_normalize, C02_preserve_zeros, C02_cancelling_weights_refuted, C05_column_mean, C05_row_mean, C05_full_mean, C05_block_size_irrelevant, C05_gramian_row_mean, C05_row_mean_asymmetric_refuted, C05_empty_rejected, C06_padding_mean, C96_random_sample_partial, C96_with_replacement_partial, C25_reduce_unique_partial, C25_refine_unique_partial, C25_reduce_in_range_partial, C25_small_batch_refuted, C26_best_candidate, C26_refine_never_worse, C17_herding_reduce, C17_herding_refine, C17_herding_probabilistic_partial, C17_probabilistic_zero_weight_refuted, C17_stein_refine, C18_herding_greedy, C19_refine_never_worse, C19_iterations_never_worse, C20_herding_padding, C20_probabilistic_padding_refuted, C22_stein_greedy_partial, C22_stein_greedy_unregularised_partial, C22_stein_refine_never_worse_partial, C20_stein_unregularised_padding_partial, C21_herding_state_reuse, C44_greedy_supervised_refuted, C67_duplicate_pair_refuted, C74_real_herding, C74_real_stein, C74_real_rpcholesky, C74_real_thinning, C61_valid_coreset_partial, C61_iterations_never_worse, C61_zero_iterations_refuted, C29_best_candidate_improved, C29_sized_distinct, C30_compress_sizes, C30_compress_plus_plus, C48_duplicate_freezes_refuted, C49_constructor_ranges, C09_divergence_unique, C37_masked_inverse_partial, C37_range_finder, C37_solve_partial, C37_conventions, C33_no_padding_selected_partial, C33_herding_partial, C12_mmd_value, C12_mmd_pseudo_metric, C12_clamp_needs_psd_refuted, C13_mmd_depends_on_distributions_only, C14_jmmd_is_joint_mmd, C14_jmmd_discrepancy, C14_amcmd_value, C14_amcmd_zero_on_identical, C14_amcmd_symmetric, C14_amcmd_rejects_negative_regularisation, C15_qp_weights_simplex, C15_no_positive_component_refuted, C15_mmd_weights_optimal_on_simplex, C16_sbq_optimal_partial, C16_weighted_data_refuted, C46_ksd_value, C46_ksd_clamp_inactive, C94_min_norm, C94_regularised_exact, C94_solvers_agree, C79_map_reduce_accuracy, C79_map_reduce_herding, C79_weights_lost_refuted, C82_exact_sum_any_order, C65_herding_rate, C65_unique_weighted_refuted, C34_caratheodory, C34_svd_null_basis, C36_caratheodory_modes, C77_ties_refuted, C77_merge_refuted, C63_empty_batch_refuted, C78_random_sample, C78_random_sample_with_replacement, C78_kernel_thinning, C78_kernel_thinning_rate, C78_weights_ignored_refuted, C58_herding_refine, C58_herding_reduce, C58_herding_reduce_iterative, C58_stein_reduce, C58_rpcholesky_reduce, C58_greedy_kernel_points_refine, C58_greedy_kernel_points_reduce, C58_min_norm_homogeneous, C58_kernel_thinning_reduce, C58_compress_reduce, C58_mmd, C56_integral_is_determined, C57_kernel_thinning_scale, C57_compress_scale, C60_probabilities, C39_threshold, C42_median_of_distances, C42_invariances, C72_mmd_weights_not_worse, C72_exact_not_worse, C72_herding_then_weights, C72_weighted_data_refuted, C72_sbq_refuted.
* `classic`, `functional_extensionality_dep`, `sig_forall_dec`, `sig_not_dec`: C91_inherited_gradients, C91_inherited_divergence, C91_matern, C40_delta_in_unit_interval_partial, C40_delta_three_refuted, C59_recommended_delta_partial, C59_three_points_never_swap_refuted, C76_setup, C76_valid_coresets, C76_too_large, C76_stein_choice, C76_thinning_not_worse_than_random, C76_iterative_not_worse_than_herding, C76_leaf_size, C76_dimension, C76_single_row_refuted, C75_kernel_thinning_depth, C75_kernel_thinning_depth_powers, C75_kernel_thinning_depth_refuted, C75_no_halving, C75_kernel_thinning, C75_compress_depth, C75_compress_depth_exact, C75_tree_depth, C75_tree_depth_refuted, C96_map_reduce_refuted, C69_exact_symmetry, C69_bounds, C69_small_length_scale_refuted, C69_matern_degree_refuted, C87_compound_accurate, C87_mmd_compound, C87_herding_compound, C87_relative_error_refuted, C89_reduce_unique, C89_refine_unique, C89_large_responses_refuted, C70_rpcholesky, C70_herding_refine, C70_herding_reduce, C70_stein_refine, C70_stein_reduce, C70_large_kernel_values_refuted, C85_jmmd_accurate, C85_jmmd_self, C85_jmmd_documented, C85_ksd_accurate, C90_thinning_valid, C90_compress_valid, C90_best_candidate, C90_flat_pair_freezes_refuted, C90_close_points_freeze_refuted, C83_kernel_accurate, C83_mmd_documented, C83_herding_documented, C71_mean_accurate, C71_row_means_accurate, C71_mmd_accurate, C71_mmd_self, C71_mmd_of_kernels, C71_reordering_refuted, C71_symmetry_refuted, C88_mapreduce_float, C88_herding, C88_stein, C92_median_accurate, C92_order, C84_normalize, C84_qp_weights, C84_overflow_refuted, C84_exactly_one_refuted, C80_float_herding_greedy, C80_float_herding_rate, C86_caratheodory, C86_negative_weight_refuted, C86_padding_weight_refuted, C86_tree_size_refuted, C97_score_at_data_partial, C97_underflow_is_nan, C97_far_query_refuted, C81_float_stein, C81_float_regularised_stein, C67_halving_expected, C74_translation, C74_isometry, C74_units, C74_shipped_solvers, C48_swap_rule_partial, C08_gradients_partial, C08_periodic_refuted, C08_rational_quadratic_refuted, C09_divergence_partial, C09_periodic_error, C09_periodic_refuted, C09_first_power_refuted, C10_symmetry, C10_documented_value, C10_locally_periodic, C10_bounds, C10_poisson_bounds, C45_stein_symmetric, C45_stein_documented, C45_zero_score, C54_stein_psd, C46_ksd_explicit_score, C46_ksd_default_score, C55_comparison_representation_partial, C55_corrections_refuted, C55_reference_padding_refuted, C73_leaf_count_float, C82_mean_two_backends, C82_mmd_two_backends, C82_not_bitwise_equal, C99_ksd_default_partial, C99_padding_is_nan, C99_ksd_far_origin, C99_ksd_refuted, C100_stein_thinning_partial, C100_default_stein_thinning_partial, C100_far_origin, C100_stein_thinning_refuted, C101_herding_partial, C101_default_stein_herding_partial, C101_far_origin, C101_herding_refuted, C100_any_block_partial, C101_any_block_partial, C100_origin_row_partial, C101_origin_row_partial, C99_origin_row_partial, C68_expected_error, C11_algebra, C11_base_kernels, C50_shipped_kernels_partial, C50_two_dimensions_refuted, C65_shipped_kernels, C66_stein_rate, C66_regularised_stein_rate, C35_padding, C35_every_level, C35_tree, C36_tree_modes_partial, C77_herding_representation, C77_stein_representation, C77_stein_regularised_representation, C62_network_differentiable, C62_training_loss, C62_expected_objective, C62_expected_noise_conditioned_objective, C64_analytic_variance_partial, C64_analytic_variance_refuted, C41_kde_score, C41_ranks, C41_constructor, C53_default_score, C56_sqrt_kernel, C57_dimension_irrelevant, C98_default_stein_kernel, C60_temperature_limits, C60_cold_run, C22_stein_kernel_partial, C20_stein_padding_partial, C20_default_score_refuted, C95_halving_unbiased_partial, C95_reused_key_refuted, C47_format_time.
<!-- assumptions:end -->

## 6. How to read seeded/LOG.jsonl

Every line is one edit to a model definition in a scratch copy. `first_failing_lemmas`
are the lemmas or theorems whose own proof scripts stopped compiling.
`theorems_failed` are the property theorems among these, or which use one of these
lemmas, directly or not. So a theorem in that list lost its proof; that its statement
became false of the edited program is argued by `claim_broken`, not machine-checked,
and the list can include theorems that merely share a lemma with the broken claim.
The driver stops at the first property theorem of the claimed property that lost its
proof (for later entries: at a named theorem), so lists are not exhaustive.
