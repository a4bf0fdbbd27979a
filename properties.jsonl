{"id": "C01", "title": "Indexing keeps every point with its own weight and supervision", "statement": "For a (supervised) data set d built by the public constructor, len(d[idx]) = len(idx) and the i-th point, weight and supervision row of d[idx] are those of d at idx[i]; indexing twice is the same as indexing once with the composed indices; default weights are all one; a supervision array of a different length is rejected with ValueError.", "quantifier": "every data set, weight vector (or scalar weight), supervision array and in-range index vector", "why_tests_cant": "ranges over all data sets and index vectors; a test only sees a few shapes", "anchors": ["coreax/data.py::Data.__init__", "coreax/data.py::Data.__getitem__", "coreax/data.py::SupervisedData.__init__"]}
{"id": "C02", "title": "normalize turns weights into a distribution and keeps proportions", "statement": "If the weights do not sum to zero, normalize() returns weights that sum to one, keep the ratio between any two weights and leave points and supervision unchanged, and normalising again changes nothing; with preserve_zeros=True an all-zero weight vector stays all zero (rather than becoming NaN).", "quantifier": "every data set with finite weights", "why_tests_cant": "an equation over all weight vectors, including those with zero sum", "anchors": ["coreax/data.py::Data.normalize"]}
{"id": "C03", "title": "A coresubset's points are the original rows it names", "statement": "For a Coresubset with in-range indices, points[i] is the row (and supervision) indices[i] of the pre-coreset data and carries the coresubset's own i-th weight, never the original data weight; len(points) = len(indices).", "quantifier": "every data set and every in-range index vector", "why_tests_cant": "ranges over all index vectors and data sets", "anchors": ["coreax/coreset.py::Coresubset.points", "coreax/coreset.py::Coresubset.unweighted_indices"]}
{"id": "C04", "title": "No coreset larger than its data can be built", "statement": "The constructors and build() of PseudoCoreset and Coresubset raise ValueError exactly when there are more nodes than points in the pre-coreset data (with a Data/array argument of the right kind), and every Coresubset returned by a solver respects the same bound.", "quantifier": "every node set and data set; every solver call (refine included)", "why_tests_cant": "must hold for every caller and every refine input; solvers that rebuild a coreset in place skip the constructor", "anchors": ["coreax/coreset.py::AbstractCoreset.__check_init__", "coreax/coreset.py::PseudoCoreset.build", "coreax/coreset.py::Coresubset.build", "coreax/solvers/coresubset.py::_greedy_kernel_selection"]}
{"id": "C05", "title": "Blocked kernel means equal the plain weighted mean", "statement": "compute_mean(x, y, axis, block_size) equals the weighted average of the full kernel matrix over the chosen axis (rows, columns or both) with each side's weights normalised, whatever the block size (None, any integer including <=0 or larger than the data, a pair, partial last block).", "quantifier": "every symmetric kernel, data set pair, weights, axis and block size", "why_tests_cant": "the scan over padded blocks has to be right for every length/block-size combination", "anchors": ["coreax/kernels/base.py::ScalarValuedKernel.compute_mean", "coreax/kernels/util.py::_block_data_convert", "coreax/util.py::tree_zero_pad_leading_axis", "coreax/util.py::tree_leaves_repeat"]}
{"id": "C06", "title": "Zero-weight points never influence a kernel mean", "statement": "Appending any number of arbitrary points with weight zero to either argument leaves compute_mean unchanged (up to the extra entries of the un-reduced axis).", "quantifier": "every kernel, data set and padding", "why_tests_cant": "quantifies over every padding content; PaddingInvariantSolver and MapReduce rely on it", "anchors": ["coreax/kernels/base.py::ScalarValuedKernel.compute_mean", "coreax/kernels/util.py::_block_data_convert"]}
{"id": "C07", "title": "Kernel matrices are evaluated entry by entry, shape included", "statement": "compute(x, y), grad_x, grad_y and divergence_x_grad_y return, at position (i, j), the elementwise value at (x_i, y_j); compute and divergence entries are scalars and gradient entries have the dimension of the data, for every kernel expression built from public kernels and +, *, ** and constants.", "quantifier": "every kernel expression and every pair of point sets", "why_tests_cant": "the composed kernels form an infinite family", "anchors": ["coreax/util.py::pairwise", "coreax/kernels/base.py::ScalarValuedKernel.compute", "coreax/kernels/base.py::_Constant", "coreax/kernels/base.py::ProductKernel", "coreax/kernels/base.py::PowerKernel"]}
{"id": "C08", "title": "Hand-written kernel gradients are the true gradients", "statement": "For every kernel that ships a closed-form gradient and every sum, product and power of such kernels, grad_x_elementwise / grad_y_elementwise equal the mathematical partial derivatives of compute_elementwise wherever the kernel is differentiable.", "quantifier": "every hyper-parameter value, dimension, pair of points and composed kernel", "why_tests_cant": "equality of functions on a continuum, for an infinite family of kernels", "anchors": ["coreax/kernels/scalar_valued.py::LinearKernel", "coreax/kernels/scalar_valued.py::SquaredExponentialKernel", "coreax/kernels/scalar_valued.py::PCIMQKernel", "coreax/kernels/scalar_valued.py::RationalQuadraticKernel", "coreax/kernels/scalar_valued.py::PeriodicKernel", "coreax/kernels/base.py::ProductKernel", "coreax/kernels/base.py::PowerKernel", "coreax/kernels/base.py::AdditiveKernel"]}
{"id": "C09", "title": "Hand-written mixed divergences are the true divergences", "statement": "divergence_x_grad_y_elementwise equals sum_i d/dx_i d/dy_i of compute_elementwise for every kernel that ships a closed form and every sum, product and power of them.", "quantifier": "every hyper-parameter value, dimension, pair of points and composed kernel", "why_tests_cant": "equality of functions on a continuum; tests only use output_scale = 1 for some kernels", "anchors": ["coreax/kernels/scalar_valued.py::PeriodicKernel.divergence_x_grad_y_elementwise", "coreax/kernels/scalar_valued.py::PolynomialKernel", "coreax/kernels/scalar_valued.py::ExponentialKernel", "coreax/kernels/scalar_valued.py::LaplacianKernel", "coreax/kernels/scalar_valued.py::PoissonKernel", "coreax/kernels/base.py::ProductKernel", "coreax/kernels/base.py::PowerKernel"]}
{"id": "C10", "title": "Kernels are symmetric and bounded by their scale", "statement": "k(x,y) = k(y,x) for every shipped scalar kernel and every sum, product and power of them, and the value is the documented formula; the exponential, Laplacian, squared exponential, PCIMQ, rational quadratic and periodic kernels satisfy k(x,x) = output_scale and 0 < k(x,y) <= output_scale (Matern: output_scale squared; Poisson: between output_scale/(1+index)^2 and output_scale/(1-index)^2, the latter at x = y).", "quantifier": "every hyper-parameter value and pair of points", "why_tests_cant": "compute_mean(axis=0) and every metric silently assume symmetry of an open-ended family of kernels", "anchors": ["coreax/kernels/scalar_valued.py", "coreax/kernels/base.py::AdditiveKernel", "coreax/kernels/base.py::ProductKernel", "coreax/kernels/base.py::PowerKernel"]}
{"id": "C11", "title": "Kernel algebra preserves positive semi-definiteness", "statement": "If two kernels have positive semi-definite Gramians then so do their sum, product, non-negative constant multiples and powers; the linear, polynomial and squared exponential kernels are positive semi-definite.", "quantifier": "every finite point set and coefficient vector", "why_tests_cant": "quantifies over all finite point sets", "anchors": ["coreax/kernels/base.py::AdditiveKernel", "coreax/kernels/base.py::ProductKernel", "coreax/kernels/base.py::PowerKernel", "coreax/kernels/scalar_valued.py::LinearKernel", "coreax/kernels/scalar_valued.py::PolynomialKernel", "coreax/kernels/scalar_valued.py::SquaredExponentialKernel"]}
{"id": "C12", "title": "MMD is a pseudo-metric on weighted data sets", "statement": "For a symmetric positive semi-definite kernel MMD.compute is non-negative, symmetric, zero when both arguments carry the same distribution, satisfies the triangle inequality, and the internal max(0, .) clamp never changes the value.", "quantifier": "every kernel with PSD Gramians and all data sets with weights of non-zero sum", "why_tests_cant": "metric axioms quantify over all triples of data sets", "anchors": ["coreax/metrics.py::MMD.compute"]}
{"id": "C13", "title": "MMD does not depend on representation", "statement": "MMD.compute is unchanged by the block size, by rescaling all weights, by permuting points, by merging or splitting duplicate points, and by appending zero-weight points.", "quantifier": "every kernel, data set pair and representation change", "why_tests_cant": "quantifies over every re-representation of the data", "anchors": ["coreax/metrics.py::MMD.compute", "coreax/kernels/base.py::ScalarValuedKernel.compute_mean"]}
{"id": "C14", "title": "JMMD and AMCMD behave like discrepancies", "statement": "JMMD.compute equals the MMD of the joint (input, response) data under the product kernel, hence is non-negative, symmetric and zero on equal data; AMCMD.compute is non-negative, zero when the two data sets are identical and symmetric in them for a fixed weighting set.", "quantifier": "every pair of supervised data sets, kernels, regularisation values", "why_tests_cant": "equalities over all data sets and kernels", "anchors": ["coreax/metrics.py::JMMD.compute", "coreax/metrics.py::AMCMD.compute"]}
{"id": "C15", "title": "Solved QP weights are a probability vector", "statement": "Whatever primal vector the QP solver returns, the weights handed back are non-negative and, if any component was positive, sum to one.", "quantifier": "every primal vector of the external QP solver", "why_tests_cant": "the external solver is only approximate, so the guarantee must hold for each possible output", "anchors": ["coreax/weights.py::solve_qp", "coreax/weights.py::MMDWeightsOptimiser.solve"]}
{"id": "C16", "title": "SBQ weights are the unconstrained MMD optimum for the data set", "statement": "With exact linear algebra and a positive definite regularised Gramian, the SBQ weights minimise the (regularised) squared MMD between the weighted data set and the weighted coreset over all real weight vectors.", "quantifier": "every data set (weighted or not), coreset, kernel and alternative weight vector", "why_tests_cant": "optimality quantifies over all competing weight vectors", "anchors": ["coreax/weights.py::SBQWeightsOptimiser.solve", "coreax/weights.py::_prepare_kernel_system"]}
{"id": "C17", "title": "Kernel herding returns the requested number of distinct in-range indices", "statement": "KernelHerding.reduce returns exactly coreset_size indices, all naming positive-weight data points and, with unique=True, pairwise distinct, provided there are at least coreset_size positive-weight points; refine gives the same guarantee from any starting coresubset of in-range indices.", "quantifier": "every data set, kernel, starting coresubset, scatter order and selection mode (deterministic or probabilistic)", "why_tests_cant": "loop invariant over unbounded sizes and histories", "anchors": ["coreax/solvers/coresubset.py::KernelHerding.reduce", "coreax/solvers/coresubset.py::KernelHerding.refine", "coreax/solvers/coresubset.py::_greedy_kernel_selection"]}
{"id": "C18", "title": "Kernel herding follows its published greedy rule", "statement": "The T+1-th index returned by KernelHerding.reduce maximises mean_w k(x, .) - 1/(T+1) sum_{t<=T} k(x, x_t) over all admissible data points, where the mean is over the weighted data set.", "quantifier": "every data set, weights, kernel, block size and step T", "why_tests_cant": "requires relating incrementally updated penalties to the closed formula at each of unboundedly many steps", "anchors": ["coreax/solvers/coresubset.py::KernelHerding.refine", "coreax/solvers/coresubset.py::_greedy_kernel_selection"]}
{"id": "C19", "title": "Refining never makes a herded coreset worse", "statement": "For a symmetric kernel with constant diagonal and a full-size, uniformly weighted, duplicate-free coresubset of a positively weighted data set, KernelHerding.refine never increases the MMD to the data set, for any number of iterations; reduce_iterative with n iterations equals n refinements.", "quantifier": "every data set, kernel with constant diagonal, starting coresubset and iteration count", "why_tests_cant": "monotonicity along an unbounded sequence of exchanges", "anchors": ["coreax/solvers/coresubset.py::KernelHerding.refine", "coreax/solvers/coresubset.py::KernelHerding.reduce_iterative"]}
{"id": "C20", "title": "Padding-invariant solvers ignore zero-weight padding", "statement": "Appending zero-weight points to the data set does not change the indices selected by a solver that declares itself padding invariant (KernelHerding, SteinThinning).", "quantifier": "every data set, padding content and padding length", "why_tests_cant": "quantifies over every padding; MapReduce depends on it", "anchors": ["coreax/solvers/base.py::PaddingInvariantSolver", "coreax/solvers/coresubset.py::KernelHerding", "coreax/solvers/coresubset.py::SteinThinning"]}
{"id": "C21", "title": "Re-using a returned solver state does not change results", "statement": "Calling reduce/refine on the same data with the solver_state returned by an earlier call gives the same coreset as calling without it (KernelHerding, RPCholesky, GreedyKernelPoints).", "quantifier": "every data set and history of calls", "why_tests_cant": "quantifies over call histories", "anchors": ["coreax/solvers/coresubset.py::HerdingState", "coreax/solvers/coresubset.py::RPCholeskyState", "coreax/solvers/coresubset.py::GreedyKernelPointsState"]}
{"id": "C22", "title": "Stein thinning follows its published greedy rule", "statement": "SteinThinning.reduce returns coreset_size distinct in-range indices (unique=True), and the T-th one minimises k_p(x,x) + laplace - lambda T log p(x) + 2 sum k_p(x, x_t) for the Stein kernel k_p induced by the supplied kernel.", "quantifier": "every data set, kernel (Stein or not), score function, regulariser", "why_tests_cant": "the rule must hold at each step for every kernel, including kernels that must first be converted", "anchors": ["coreax/solvers/coresubset.py::SteinThinning.reduce", "coreax/solvers/coresubset.py::SteinThinning.refine", "coreax/score_matching.py::convert_stein_kernel"]}
{"id": "C23", "title": "RPCholesky samples distinct pivots even after convergence", "statement": "RPCholesky.reduce returns coreset_size in-range indices and, with unique=True, never repeats one, even when the residual diagonal reaches zero or becomes NaN part-way.", "quantifier": "every data set, kernel with non-negative diagonal and random key", "why_tests_cant": "includes the numerically degenerate histories where the residual vanishes", "anchors": ["coreax/solvers/coresubset.py::RPCholesky.reduce"]}
{"id": "C24", "title": "RPCholesky tracks the exact residual of its low-rank approximation", "statement": "As long as pivots are positive the tracked diagonal is diag(K - F F^T) for the columns built so far, the approximation reproduces K exactly on every pivot row, and for a PSD kernel the residual is non-negative so clipping never alters it.", "quantifier": "every PSD Gramian, pivot sequence and number of steps", "why_tests_cant": "loop invariant of an incremental factorisation", "anchors": ["coreax/solvers/coresubset.py::RPCholesky.reduce"]}
{"id": "C25", "title": "Greedy kernel points selects distinct in-range indices", "statement": "GreedyKernelPoints.reduce returns coreset_size indices in [0, n) and, with unique=True, distinct ones, for any candidate batch size.", "quantifier": "every data set, candidate batch size, loss values and random key", "why_tests_cant": "depends on every possible random candidate batch", "anchors": ["coreax/solvers/coresubset.py::GreedyKernelPoints.reduce", "coreax/solvers/coresubset.py::GreedyKernelPoints.refine", "coreax/solvers/coresubset.py::_setup_batch_solver", "coreax/solvers/coresubset.py::_update_candidate_coresets_and_coreset_indices"]}
{"id": "C26", "title": "Greedy kernel points adds the best candidate and never degrades", "statement": "At each step the candidate added has the lowest batched loss among admissible candidates; the padded -1 entries do not influence the loss; a full-batch refine never increases the loss of the coreset.", "quantifier": "every Gramian, responses, partial coreset", "why_tests_cant": "equality between a padded and an un-padded regression for all sizes", "anchors": ["coreax/solvers/coresubset.py::_greedy_kernel_points_loss", "coreax/solvers/coresubset.py::GreedyKernelPoints.refine"]}
{"id": "C27", "title": "Random sampling is distinct, in range and correctly sized", "statement": "RandomSample.reduce returns coreset_size in-range indices, distinct when unique=True, and raises ValueError when coreset_size exceeds the data.", "quantifier": "every data set, key and size", "why_tests_cant": "for each key", "anchors": ["coreax/solvers/coresubset.py::RandomSample.reduce"]}
{"id": "C28", "title": "Kernel halving partitions the data whatever the coin flips", "statement": "Recursive halving splits the first coreset_size * 2^m points into 2^m candidate coresets of exactly coreset_size indices that are disjoint and together cover all of those points, for every outcome of the random swaps.", "quantifier": "every data set, kernel, delta and random key", "why_tests_cant": "every swap history", "anchors": ["coreax/solvers/coresubset.py::KernelThinning.kt_half", "coreax/solvers/coresubset.py::KernelThinning.kt_half_recursive"]}
{"id": "C29", "title": "Kernel thinning returns the best candidate and only improves it", "statement": "KernelThinning.reduce returns coreset_size distinct in-range indices; the chosen candidate has minimal MMD among all halving candidates and the random baseline, and the final refined coreset is never worse than that baseline (constant-diagonal kernel, positive weights).", "quantifier": "every data set, kernel and random key", "why_tests_cant": "every random history", "anchors": ["coreax/solvers/coresubset.py::KernelThinning.reduce", "coreax/solvers/coresubset.py::KernelThinning.kt_choose", "coreax/solvers/coresubset.py::KernelThinning.kt_refine"]}
{"id": "C30", "title": "Compress++ sizes and distinctness", "statement": "For valid g and coreset_size, CompressPlusPlus.reduce recursively compresses 4^k points to 2^(g+k) distinct in-range indices and returns exactly coreset_size distinct in-range indices; invalid g or too large coreset_size raise ValueError.", "quantifier": "every data set size, g, coreset_size, and halving outcome", "why_tests_cant": "recursion of unbounded depth over random halvings", "anchors": ["coreax/solvers/coresubset.py::CompressPlusPlus.reduce"]}
{"id": "C31", "title": "MapReduce terminates with a coreset of the requested size", "statement": "For every base solver accepted by MapReduce (leaf_size > coreset_size) and every data set of at least coreset_size points, reduce terminates and returns coreset_size indices.", "quantifier": "every data set length, leaf_size, coreset_size accepted by the constructor", "why_tests_cant": "termination over all lengths; a diverging parameter set hangs rather than fails", "anchors": ["coreax/solvers/composite.py::MapReduce.__check_init__", "coreax/solvers/composite.py::MapReduce.reduce", "coreax/solvers/composite.py::_jit_tree"]}
{"id": "C32", "title": "MapReduce indices name the rows that were actually selected", "statement": "At every level of MapReduce the tracked index of each retained point names, in the original data set, the row that the base solver saw, so the returned coreset consists of the rows finally selected.", "quantifier": "every data set, tree partition, base solver and depth", "why_tests_cant": "composition of index maps through an unbounded recursion", "anchors": ["coreax/solvers/composite.py::MapReduce.reduce", "coreax/solvers/composite.py::_jit_tree"]}
{"id": "C33", "title": "MapReduce never selects its own padding", "statement": "The artificial zero points MapReduce adds to even out its leaves never enter the result: with a padding-invariant base solver, unique=True and positive weights, the returned indices are distinct.", "quantifier": "every data set length and leaf size", "why_tests_cant": "the leaking configurations only arise for particular lengths", "anchors": ["coreax/solvers/composite.py::MapReduce.reduce", "coreax/solvers/composite.py::_jit_tree", "coreax/solvers/coresubset.py::_greedy_kernel_selection"]}
{"id": "C34", "title": "Caratheodory recombination preserves mass and centre of mass", "statement": "CaratheodoryRecombination.reduce returns non-negative weights whose total and whose weighted mean of the test functions equal those of the normalised data, with at most rank-many non-zero weights, supported on linearly independent nodes.", "quantifier": "every data set with non-negative weights, test functions and valid null-space basis", "why_tests_cant": "invariant of an elimination loop of data-dependent length", "anchors": ["coreax/solvers/recombination.py::CaratheodoryRecombination.reduce", "coreax/solvers/recombination.py::CaratheodoryRecombination._eliminate", "coreax/solvers/recombination.py::_co_linearize"]}
{"id": "C35", "title": "Tree recombination preserves mass and centre of mass", "statement": "TreeRecombination.reduce preserves total mass and centre of mass at every tree level and ends with at most m non-zero weights after the predicted number of levels; its padding is non-negative and divides evenly.", "quantifier": "every data set, tree_reduction_factor >= 2, number of levels", "why_tests_cant": "invariant over levels; balance argument over all weight patterns", "anchors": ["coreax/solvers/recombination.py::TreeRecombination.reduce", "coreax/solvers/recombination.py::TreeRecombination._tree_reduce", "coreax/solvers/recombination.py::_prepare_tree", "coreax/solvers/recombination.py::_centroid"]}
{"id": "C36", "title": "Recombination modes drop no mass", "statement": "In every mode, the returned node set contains all non-zero-weight nodes, its extra entries have weight zero, and every returned index is a valid index of the data set.", "quantifier": "every weight vector, mode, data set", "why_tests_cant": "data dependent output sizes", "anchors": ["coreax/solvers/recombination.py::_coresubset_nodes", "coreax/solvers/recombination.py::RecombinationSolver.__check_init__"]}
{"id": "C37", "title": "Randomised eigendecomposition inversion is a regularised inverse", "statement": "With an exact eigendecomposition, the eigenvalue-masked inversion used by the least-squares solver inverts the matrix on the retained eigenspaces and is zero on the discarded ones; rcond and regularisation conventions (None, -1, negative regularisation) are honoured.", "quantifier": "every orthonormal eigendecomposition, rcond and right-hand side", "why_tests_cant": "algebraic identity for all matrices", "anchors": ["coreax/least_squares.py::_eigendecomposition_invert", "coreax/least_squares.py::RandomisedEigendecompositionSolver"]}
{"id": "C38", "title": "Approximate kernels agree with the exact kernel where they claim to", "statement": "An approximate kernel's pointwise values and gradients are those of its base kernel; the regression-based gramian_row_mean is exact whenever all points are used for training and the exact row mean lies in the feature span; too many kernel or training points raise ValueError.", "quantifier": "every data set, base kernel and random key", "why_tests_cant": "all keys and data sets", "anchors": ["coreax/approximation.py::ApproximateKernel", "coreax/approximation.py::_random_least_squares", "coreax/approximation.py::NystromApproximateKernel", "coreax/approximation.py::MonteCarloApproximateKernel", "coreax/approximation.py::ANNchorApproximateKernel"]}
{"id": "C39", "title": "Batch sampling and padding helpers", "statement": "sample_batch_indices returns num_batches rows of batch_size distinct in-range indices and rejects invalid sizes; tree_zero_pad_leading_axis keeps the original entries first and appends exactly the requested zeros; tree_leaves_repeat of a tree with at least one leaf returns exactly max(len, length) leaves; apply_negative_precision_threshold only changes values in (-|t|, 0), to zero.", "quantifier": "every argument", "why_tests_cant": "all sizes and keys", "anchors": ["coreax/util.py::sample_batch_indices", "coreax/util.py::tree_zero_pad_leading_axis", "coreax/util.py::tree_leaves_repeat", "coreax/util.py::apply_negative_precision_threshold"]}
{"id": "C40", "title": "calculate_delta yields a valid failure probability", "statement": "calculate_delta(n) lies in (0, 1] for every data set size n >= 1, as KernelThinning requires of its delta.", "quantifier": "every natural number n >= 1", "why_tests_cant": "all n; only one n is wrong", "anchors": ["coreax/benchmark_util.py::calculate_delta", "coreax/solvers/coresubset.py::KernelThinning.kt_half"]}
{"id": "C41", "title": "KDE score matching returns the score of the kernel density", "statement": "KernelDensityMatching.match returns the gradient of the log of the kernel density estimate at every point where it is positive.", "quantifier": "every data set and query point", "why_tests_cant": "derivative identity over a continuum", "anchors": ["coreax/score_matching.py::KernelDensityMatching.match"]}
{"id": "C42", "title": "Median heuristic is a geometric length scale", "statement": "For at least two points, median_heuristic returns the non-negative bandwidth b for which 2 b^2 is a median of the squared pairwise distances; it is invariant under permutation and translation of the data and scales linearly with it.", "quantifier": "every data set", "why_tests_cant": "all data sets", "anchors": ["coreax/kernels/util.py::median_heuristic"]}
{"id": "C43", "title": "Solving weights changes only the weights", "statement": "coreset.solve_weights returns a coreset with the same nodes/indices and the same pre-coreset data, whose weights are the solver's output.", "quantifier": "every coreset and weights optimiser", "why_tests_cant": "all coresets and optimisers", "anchors": ["coreax/coreset.py::PseudoCoreset.solve_weights", "coreax/coreset.py::Coresubset.solve_weights"]}
{"id": "C44", "title": "Solvers accept supervised data wherever they accept data", "statement": "The coresubset solvers typed over both Data and SupervisedData give the same indices for a supervised data set as for its inputs alone.", "quantifier": "every supervised data set and solver that does not use the supervision", "why_tests_cant": "for all data sets; depends on how many array leaves a data set has", "anchors": ["coreax/solvers/coresubset.py::_greedy_kernel_selection", "coreax/solvers/coresubset.py::KernelHerding", "coreax/solvers/coresubset.py::RandomSample", "coreax/solvers/coresubset.py::RPCholesky"]}
{"id": "C45", "title": "Stein kernels are symmetric and scale correctly", "statement": "For a symmetric base kernel with consistent gradients, the Stein kernel is symmetric in its arguments, and with a zero score it reduces to the divergence of the base kernel.", "quantifier": "every base kernel, score function and pair of points", "why_tests_cant": "all kernels and score functions", "anchors": ["coreax/kernels/scalar_valued.py::SteinKernel.compute_elementwise"]}
{"id": "C46", "title": "KSD value and block-size invariance", "statement": "KSD.compute equals the square root of the weighted mean of the induced Stein kernel over the comparison data, plus the Laplace correction and minus the entropic regularisation exactly when these are switched on, independently of the block size; for a positive semi-definite Stein kernel with both corrections off the clamp at zero never changes the value.", "quantifier": "every reference and comparison data set, Stein kernel, option combination and block size", "why_tests_cant": "The value is compared with hand-computed cases for a few data sets only; block partitions, weights and option combinations are unbounded.", "anchors": ["coreax/metrics.py:KSD.compute", "coreax/kernels/base.py:ScalarValuedKernel.compute_mean"]}
{"id": "C47", "title": "format_time reports the given time in a readable unit", "statement": "The number and unit printed by format_time denote the given time exactly before rounding; between one picosecond and one hundred seconds the number has one to three digits before the point, and from one hundred seconds on it is in minutes.", "quantifier": "every time", "why_tests_cant": "The unit boundaries are compared in the logarithmic domain; only a proof covers every value on either side of every boundary.", "anchors": ["coreax/util.py:format_time"]}
{"id": "C48", "title": "Kernel halving swaps with the documented probability", "statement": "KernelThinning.kt_half puts the second point of each consecutive pair into the first half exactly when the uniform draw for that pair is at most (1 - alpha/a)/2, where alpha is the documented sum over the points seen so far minus twice the sum over the points chosen so far, and a and sigma follow the documented recursion.", "quantifier": "every data set, kernel, delta and random key", "why_tests_cant": "The value depends on masks, scatters and the whole history of earlier random swaps; only an invariant relates it to the formula for every history.", "anchors": ["coreax/solvers/coresubset.py:KernelThinning.kt_half"]}
{"id": "C49", "title": "Kernel constructors accept exactly the documented hyper-parameters", "statement": "A kernel can be constructed exactly when its hyper-parameters lie in the documented ranges (positive length and output scales, non-negative constants and weightings, polynomial degree at least 2, Poisson index strictly between 0 and 1, power at least 1); otherwise ValueError is raised.", "quantifier": "every kernel class and every real hyper-parameter value", "why_tests_cant": "Tests try a few boundary values per class; the claim covers every real value of every field and both directions.", "anchors": ["coreax/kernels/scalar_valued.py::LinearKernel.__check_init__", "coreax/kernels/scalar_valued.py::PolynomialKernel.__check_init__", "coreax/kernels/scalar_valued.py::PoissonKernel.__check_init__", "coreax/kernels/base.py::PowerKernel.__check_init__", "coreax/kernels/base.py::_Constant.__check_init__"]}
{"id": "C50", "title": "Every shipped kernel is positive semi-definite", "statement": "For every shipped scalar kernel with documented hyper-parameters, and every sum, product and power of such kernels, k.compute(x, x) is a symmetric positive semi-definite matrix.", "quantifier": "every kernel expression, every hyper-parameter value in the documented ranges, every finite list of points of every dimension", "why_tests_cant": "An eigenvalue check covers one point set; kernel herding, MMD and the weight optimisers rely on positive semi-definiteness for all of them.", "anchors": ["coreax/kernels/scalar_valued.py", "coreax/kernels/base.py::ScalarValuedKernel.compute"]}
{"id": "C51", "title": "Nystrom row mean is the Nystrom estimator", "statement": "With as many training as kernel points, NystromApproximateKernel.gramian_row_mean is the Nystrom estimator built on the selected points: at every selected point it equals the exact row mean over the whole data set.", "quantifier": "every data set, positive semi-definite base kernel, random key and number of points", "why_tests_cant": "A test compares one approximation with a tolerance; which estimator is computed is a statement about all data sets and keys.", "anchors": ["coreax/approximation.py::NystromApproximateKernel.gramian_row_mean", "coreax/approximation.py::_random_least_squares"]}
{"id": "C52", "title": "Approximate kernels use the requested number of kernel points", "statement": "gramian_row_mean of an approximate kernel is a kernel expansion on exactly num_kernel_points different data points, fitted by least squares on exactly num_train_points different data points; ANNchor starts at the first data point and adds, one at a time, a point whose largest similarity to the points so far is smallest.", "quantifier": "every data set, base kernel, random key and number of points", "why_tests_cant": "off-by-one errors in the number of features change the approximation only slightly and hold for all sizes and keys", "anchors": ["coreax/approximation.py::MonteCarloApproximateKernel.gramian_row_mean", "coreax/approximation.py::ANNchorApproximateKernel.gramian_row_mean", "coreax/approximation.py::NystromApproximateKernel.gramian_row_mean"]}
{"id": "C53", "title": "Conversion to a Stein kernel uses the documented score function", "statement": "convert_stein_kernel returns a Stein kernel as it is when no score matching is given, otherwise replaces its score function by score_matching.match(x); any other kernel becomes the Stein kernel induced by it, with the given score matching or, by default, the score of the Gaussian kernel density estimate of x with the kernel's length scale (1 if it has none).", "quantifier": "every kernel expression, score matching object, data set and pair of query points", "why_tests_cant": "the induced kernel is a differential expression over a continuum of points, hyper-parameters and data sets", "anchors": ["coreax/score_matching.py::convert_stein_kernel", "coreax/score_matching.py::KernelDensityMatching.match", "coreax/kernels/scalar_valued.py::SteinKernel.compute_elementwise"]}
{"id": "C54", "title": "Stein kernels are positive semi-definite", "statement": "For every score function and every smooth base kernel built from shipped kernels (linear, polynomial, squared exponential, PCIMQ, rational quadratic, Poisson in one dimension, and +, *, ** of these), the matrix SteinKernel(base, score).compute(x, x) is symmetric positive semi-definite.", "quantifier": "every score function, kernel expression, list of points and vector", "why_tests_cant": "positive semi-definiteness ranges over all point sets of all sizes and all score functions; a test samples a few Gramians up to a tolerance", "anchors": ["coreax/kernels/scalar_valued.py::SteinKernel.compute_elementwise", "coreax/metrics.py::KSD.compute"]}
{"id": "C55", "title": "KSD depends on the weighted distributions only", "statement": "KSD.compute is unchanged by rescaling weights, permuting points, merging duplicates and appending zero-weight points, in the comparison data and in the reference data, with and without the Laplace correction and the entropic regularisation.", "quantifier": "every pair of weighted data sets, kernel, score matching object, flags and block size", "why_tests_cant": "ranges over all representations of all weighted data sets", "anchors": ["coreax/metrics.py::KSD.compute"]}
{"id": "C56", "title": "get_sqrt_kernel returns a square root kernel", "statement": "SquaredExponentialKernel.get_sqrt_kernel(dim) returns a kernel k_rt with k(x, y) equal to the integral over R^dim of k_rt(x, z) k_rt(z, y) dz, for all points x, y of dimension dim.", "quantifier": "every positive length scale and output scale, every dimension, every pair of points", "why_tests_cant": "an integral over all of R^dim, for every dimension and all parameters", "anchors": ["coreax/kernels/scalar_valued.py::SquaredExponentialKernel.get_sqrt_kernel"]}
{"id": "C57", "title": "Kernel thinning does not depend on the scale of the square root kernel", "statement": "Multiplying the square root kernel given to KernelThinning (alone or inside CompressPlusPlus) by a positive constant changes no coreset; in particular the dimension passed to get_sqrt_kernel, hard-wired in the benchmarks, is irrelevant.", "quantifier": "every data set, kernel, square root kernel (infinities and NaN included), delta, sequence of coin flips and positive factor", "why_tests_cant": "relates two runs for every data set, kernel, random stream and factor", "anchors": ["coreax/solvers/coresubset.py::KernelThinning.kt_half", "coreax/solvers/composite.py::CompressPlusPlus.reduce", "coreax/benchmark_util.py::initialise_solvers"]}
{"id": "C58", "title": "Coresets do not depend on the output scale of the kernel", "statement": "Multiplying the kernel by a positive constant changes no index selected by KernelHerding (refine, reduce and reduce_iterative; in probabilistic mode the temperature is rescaled with the kernel), SteinThinning without regularisation, RPCholesky, KernelThinning, CompressPlusPlus, and GreedyKernelPoints when its regularisation parameter is rescaled with the kernel; the returned solver states are rescaled accordingly and the MMD is multiplied by the square root of the constant.", "quantifier": "every data set, weights, kernel (infinities and NaN included), solver setting, cached state, random draw and positive factor", "why_tests_cant": "relates two runs for every data set, kernel, random stream and factor", "anchors": ["coreax/solvers/coresubset.py::KernelHerding", "coreax/solvers/coresubset.py::SteinThinning", "coreax/solvers/coresubset.py::RPCholesky", "coreax/solvers/coresubset.py::GreedyKernelPoints", "coreax/solvers/coresubset.py::KernelThinning", "coreax/metrics.py::MMD.compute"]}
{"id": "C59", "title": "Kernel thinning stays randomised with the recommended delta", "statement": "With delta = calculate_delta(n), for every data set size n, kernel thinning decides each pair of distinct points by the documented randomised swap rule with well-defined thresholds.", "quantifier": "every data set size, data set, kernel and random stream", "why_tests_cant": "all sizes and all random streams; an invalid delta silently turns every threshold into NaN", "anchors": ["coreax/benchmark_util.py::calculate_delta", "coreax/solvers/coresubset.py::KernelThinning"]}
{"id": "C60", "title": "Temperature limits of probabilistic herding", "statement": "With probabilistic=True KernelHerding draws from softmax(metric / T) over the rows that may still be selected. As T grows these probabilities tend to the uniform distribution on those rows; as T falls to 0 they concentrate evenly on the rows of highest metric, and a whole run of reduce equals the deterministic run for all small enough T when every greedy choice is strict.", "quantifier": "every kernel, positively weighted data set, penalty, temperature, loop step, and sampler that draws a row whose probability is close enough to one", "why_tests_cant": "limits in a real parameter, over all data and all random draws", "anchors": ["coreax/solvers/coresubset.py::KernelHerding.refine", "coreax/solvers/coresubset.py::KernelHerding.reduce"]}
{"id": "C61", "title": "Iterative kernel herding", "statement": "IterativeKernelHerding.reduce returns a coresubset of the requested size with rows of positive weight (distinct if unique) for every number of iterations; one deterministic iteration equals KernelHerding.reduce; one more iteration is one more refine with the key folded with the iteration number and the scheduled temperature; without probabilistic selection temperature, schedule and key have no effect and further iterations never increase the MMD (kernels with constant diagonal).", "quantifier": "every data set, kernel, number of iterations, temperature schedule, key and cached state", "why_tests_cant": "unbounded number of iterations and arbitrary random draws", "anchors": ["coreax/benchmark_util.py::IterativeKernelHerding.reduce", "coreax/solvers/coresubset.py::KernelHerding.reduce_iterative"]}
{"id": "C62", "title": "Sliced score matching minimises the score matching objective", "statement": "For every network and batch, the loss that SlicedScoreMatching minimises in a training step has as expectation over the random vectors the mean over the batch of div s + |s|^2/2, for both the plain and the analytic objective; with noise conditioning it is the sum over noise models of sigma_i^2 times that mean at the perturbed points, sigma_i = sigma * gamma^i.", "quantifier": "every network depth, width and parameters, batch, number of random vectors and of noise models, and every distribution of random vectors with identity second moment", "why_tests_cant": "an expectation over random vectors, for every network and data", "anchors": ["coreax/score_matching.py::SlicedScoreMatching._loss", "coreax/score_matching.py::SlicedScoreMatching._train_step", "coreax/networks.py::ScoreNetwork"]}
{"id": "C63", "title": "Sliced score matching construction and training", "statement": "SlicedScoreMatching can be constructed exactly with no learning_rate, a GradientTransformation and ints in the documented ranges; match() makes num_epochs optimiser steps from the initial network, each on batch_size rows of the data paired with their own random vectors and drawn with a fresh key, each with a well-defined loss, and returns a function acting row by row.", "quantifier": "every constructor argument, data set, key, optimiser and number of epochs", "why_tests_cant": "any number of epochs, any random draws, any optimiser", "anchors": ["coreax/score_matching.py::SlicedScoreMatching", "coreax/networks.py::create_train_state"]}
{"id": "C64", "title": "The analytic sliced score matching objective reduces the variance", "statement": "use_analytic=True, documented as the reduced variance objective, never has a larger variance over the random vectors than the plain objective.", "quantifier": "every network, point and distribution of random vectors", "why_tests_cant": "variance over all random vectors for every network", "anchors": ["coreax/score_matching.py::SlicedScoreMatching._loss"]}
{"id": "C65", "title": "Kernel herding coresets approach the data at rate 1/sqrt(m)", "statement": "For a positive semi-definite kernel with k(x,x) <= kappa on the data, KernelHerding.reduce (not probabilistic) with coreset size m returns a coreset whose compute_metric(MMD(kernel)) is at most 3.5*sqrt(kappa/m), when rows may repeat (unique=False, any non-negative weights) or the weights are equal (unique=True). The kernels the library ships qualify (in the dimensions where they are positive semi-definite). With unique=True and unequal weights there is no such guarantee.", "quantifier": "every data set, kernel, coreset size, block size and scatter order", "why_tests_cant": "a bound for every data set and every coreset size; tests compare one coreset with a random one", "anchors": ["coreax/solvers/coresubset.py::KernelHerding", "coreax/metrics.py::MMD", "coreax/coreset.py::AbstractCoreset.compute_metric"]}
{"id": "C66", "title": "Stein thinning coresets approach the best kernel Stein discrepancy", "statement": "For a positive semi-definite Stein kernel with k(x,x) <= kappa on the data, SteinThinning.reduce with coreset size m returns a coreset whose mean kernel value over pairs (squared kernel Stein discrepancy) exceeds that of the whole data set with equal weights (unique=True) or of any re-weighting of the rows (unique=False) by at most kappa*(1+ln m)/m; with regularisation kappa is increased by twice the bounds of the regularisation terms.", "quantifier": "every data set, kernel, coreset size, re-weighting, regularisation terms, scatter order", "why_tests_cant": "a bound over all data sets, sizes and competing weightings", "anchors": ["coreax/solvers/coresubset.py::SteinThinning"]}
{"id": "C67", "title": "Kernel halving is on average at least as good as keeping a random point of each pair", "statement": "For a KernelThinning solver with positive semi-definite square-root kernel k and 0 < delta <= 2, kt_half on 2n equally weighted points whose consecutive pairs are distinct in feature space returns two halves with the same MMD(k) to the data, and over independent uniform draws the expected squared MMD is at most what choosing the kept point of each pair by a fair coin gives (the sum of the squared pair distances over 4n^2), hence at most kappa/n when k(x,x) <= kappa. A pair of equal points voids the guarantee.", "quantifier": "every data set, kernel, delta, number of pairs; all values of the random draws", "why_tests_cant": "an average over all random draws, for every data set", "anchors": ["coreax/solvers/coresubset.py::KernelThinning.kt_half", "coreax/metrics.py::MMD", "coreax/coreset.py::AbstractCoreset.compute_metric"]}
{"id": "C68", "title": "RPCholesky coresets are near-optimal low-rank approximations in expectation", "statement": "For a positive semi-definite kernel, let r orthonormal directions leave at most B > 0 of the trace of the Gram matrix uncovered. If the coreset size m is at most the number of points and at least r/eps + r*ln(trace/(eps*B)), then RPCholesky.reduce returns a coreset such that, in expectation over the random draws, the summed squared feature-space distance of the data to the span of the coreset is at most (1+eps)*B.", "quantifier": "every data set, kernel, coreset size, family of directions, eps; all values of the random draws", "why_tests_cant": "an average over all random draws compared with the best rank-r approximation, for every data set", "anchors": ["coreax/solvers/coresubset.py::RPCholesky.reduce"]}
{"id": "C69", "title": "Kernels stay symmetric and bounded in floating point", "statement": "In IEEE arithmetic with round to nearest even, kernel.compute(x, y) and kernel.compute(y, x) are the identical floating point number for every kernel not built from a Stein kernel. The exponential, Laplacian, squared exponential, inverse multi-quadric and rational quadratic kernels give a finite value between 0 and the output scale for all finite points, and exactly the output scale when the points are equal, provided the divisor computed from the length scale neither underflows to zero nor overflows. Both provisos are needed: a tiny accepted length scale, or a Matern kernel of degree 18 or more, gives NaN on the diagonal.", "quantifier": "every binary format, every pair of points, every hyper-parameter, every composition of kernels; any exp, sin, cos and power functions (exp and power of the right sign and size for the bounds)", "why_tests_cant": "bitwise statements about all floating point inputs, including overflow, underflow, signed zeros and NaN", "anchors": ["coreax/kernels/scalar_valued.py::SquaredExponentialKernel.compute_elementwise", "coreax/kernels/scalar_valued.py::MaternKernel.compute_elementwise", "coreax/kernels/base.py::ScalarValuedKernel.compute", "coreax/util.py::squared_distance"]}
{"id": "C70", "title": "Coreset indices are valid and distinct in floating point", "statement": "In IEEE arithmetic with round to nearest even: RPCholesky.reduce returns the requested number of in-range indices, distinct if unique, for every kernel whose diagonal is NaN or finite and not negative. Greedy KernelHerding.reduce/refine and SteinThinning.reduce/refine (with or without regularisation) return the requested number of in-range indices of points of positive weight, distinct if unique, when the weights are finite and not negative, enough of them are positive, and the format has room for the sums: at most 2^a points with a+3 bits of precision, kernel values at most 2^e with e+3a+5 at most the maximal exponent. In binary32 this covers two million points and kernel values up to 2^60. Without the room for the sums it fails: a constant kernel of value 2^127 makes unique herding pick a point twice.", "quantifier": "every binary format, data set, weights, kernel, coreset size, block size, scatter order, cached state, regularisation terms; any choice function for RPCholesky", "why_tests_cant": "rounding, overflow and absorption for all inputs and sizes", "anchors": ["coreax/solvers/coresubset.py::KernelHerding.refine", "coreax/solvers/coresubset.py::SteinThinning.refine", "coreax/solvers/coresubset.py::RPCholesky.reduce", "coreax/solvers/coresubset.py::_greedy_kernel_selection"]}
{"id": "C71", "title": "MMD is accurate in floating point", "statement": "In IEEE arithmetic with round to nearest even, for non-empty data with finite non-negative weights of positive total and finite kernel values of size at most 2^e (within stated limits on sizes and exponents): kernel.compute_mean returns finite numbers within 3*N*2^(e-prec) of the exact weighted mean, where N counts the roundings and is about 2n+2m for data in one block. MMD.compute returns a finite non-negative number, never NaN, within 2*sqrt(D) of the exact value m and within 2*D/m, with D = 14*(N+2)*2^(e-prec). MMD.compute(x, x) with equal block sizes is exactly 0. The square root of the error cannot be avoided and two exact laws fail: in binary32 the MMD between four points and a reordering of them is 0.00017, and compute(x, y) may differ from compute(y, x).", "quantifier": "every binary format, data set, weights, kernel, block size", "why_tests_cant": "worst case over all rounding errors, sizes and block sizes", "anchors": ["coreax/metrics.py::MMD.compute", "coreax/kernels/base.py::ScalarValuedKernel.compute_mean", "coreax/kernels/util.py::_block_data_convert"]}
{"id": "C72", "title": "Solving weights does not make a coreset worse", "statement": "For unsupervised uniformly weighted data and a positive semi-definite kernel with k(x,x) <= kappa, coreset.solve_weights(MMDWeightsOptimiser(kernel)) keeps the coreset's points and data and returns non-negative weights summing to one, and the MMD that coreset.compute_metric(MMD(kernel)) reports afterwards satisfies mmd_after^2 <= mmd_before^2 + epsilon + 2*del + 12*n*tol*(kappa+epsilon), for every previous non-negative weights of positive total, if OSQP answered within constraint tolerance tol and objective tolerance del; with an exact answer and epsilon = 0 the reported MMD never increases. After KernelHerding the rate 49/4*kappa/n of C65 is kept up to the same slack. Previous coreset weights and the data weights have no influence and solving twice is the same as solving once, in any arithmetic. It does not hold for weighted data, nor for SBQWeightsOptimiser.", "quantifier": "all positive semi-definite kernels, data, coreset indices (repeated ones too), non-negative coreset weights, regularisation, block sizes and QP answers within any tolerance below 1", "why_tests_cant": "tests compare one solution on one data set with a reference; the claim compares with all weightings and bounds the effect of clipping and renormalising an inexact OSQP answer for any size", "anchors": ["coreax/weights.py:solve_qp", "coreax/weights.py:_prepare_kernel_system", "coreax/weights.py:MMDWeightsOptimiser.solve", "coreax/weights.py:SBQWeightsOptimiser.solve", "coreax/coreset.py:Coresubset.solve_weights", "coreax/coreset.py:AbstractCoreset.compute_metric", "coreax/metrics.py:MMD.compute"]}
{"id": "C73", "title": "MapReduce recursion is shallow and its base solver calls are small", "statement": "For leaf_size >= 2*coreset_size and a base solver that returns coreset_size points on every large enough data set, MapReduce.reduce only ever calls the base solver on data sets of more than coreset_size and at most leaf_size rows; it nests at most 1 + log2((n-1)/(leaf_size//2)) calls, so at most 31 for int32 addressable data, and at most k+1 if (coreset_size/(leaf_size//2))^k * n <= leaf_size; a larger recursion limit gives the same coreset. The number of partitions computed with floating point log2 is the exact one for up to 2^31 rows. The documented rate n_k <= (coreset_size/leaf_size)^k * n_0 does not hold.", "quantifier": "all data sets, base solvers, trees, leaf sizes, recursion limits and arithmetics; all log2 implementations with absolute error 2^-40 exact at powers of two", "why_tests_cant": "tests run a few small data sets; depth and call sizes for every n and leaf size need induction over the recursion", "anchors": ["coreax/solvers/composite.py:MapReduce.reduce", "coreax/solvers/composite.py:_jit_tree"]}
{"id": "C74", "title": "Coresets depend on the data only through kernel values", "statement": "Two data sets with the same weights and responses whose points have the same Gramian (kernel matrix) give the same result from KernelHerding (reduce, refine, reduce_iterative), SteinThinning (same regularisation values), RPCholesky, KernelThinning, CompressPlusPlus, GreedyKernelPoints, MMD and the weights optimisers: same indices, weights, cached state, or the same exception. In any arithmetic this needs the Gramians including the all-zero padding row to agree; in real arithmetic with finite kernel values the Gramian of the data suffices for the four kernel solvers. In particular translating all rows (kernel expressions in x-y), maps keeping Euclidean distances (kernels of the distance) and changing the unit of length together with the length scales leave the selection unchanged. MapReduce commutes with maps that keep the zero row; it is not invariant under translation, since its padding row takes part in the tree and in the base solver.", "quantifier": "all data sets, kernels, solver settings, random draws, block sizes, cached states, arithmetics", "why_tests_cant": "relates runs on every pair of data sets with equal Gramians; tests compare single runs", "anchors": ["coreax/solvers/coresubset.py:KernelHerding", "coreax/solvers/coresubset.py:SteinThinning", "coreax/solvers/coresubset.py:RPCholesky", "coreax/solvers/coresubset.py:KernelThinning", "coreax/solvers/coresubset.py:GreedyKernelPoints", "coreax/solvers/coresubset.py:CompressPlusPlus", "coreax/solvers/composite.py:MapReduce", "coreax/metrics.py:MMD", "coreax/weights.py:MMDWeightsOptimiser", "coreax/kernels/scalar_valued.py"]}
{"id": "C75", "title": "Loop depths from floating point logarithms", "statement": "For up to 2^31 rows and any log2 and log accurate to 2^-44, with all Python arithmetic rounded to doubles: KernelThinning never asks for more halvings than the data allows, the number it computes is floor(log2(n / coreset_size)) unless n is exactly coreset_size times a power of two, where it may be one less, and is exact for coreset sizes that are powers of two if log2 is exact there; KernelThinning.reduce still returns coreset_size distinct rows. CompressPlusPlus never asks for more than n rows, and with a correctly rounded log clips to the largest power of four for every n. Tree recombination is always deep enough, so its padding is never negative, and is at most one level too deep. The one-less case occurs with a correctly rounded log2: 26 rows and coreset_size 13 are not halved at all, the candidates are the first 13 rows and the random baseline. The level too many occurs too: 1250 nodes, 10 test functions, factor 5.", "quantifier": "all sizes up to 2^31, all factors, all library logarithms within the accuracy", "why_tests_cant": "the rounding of the logarithms decides at exact powers; tests use a few sizes", "anchors": ["coreax/solvers/coresubset.py:KernelThinning.reduce", "coreax/solvers/coresubset.py:CompressPlusPlus.reduce", "coreax/solvers/recombination.py:_prepare_tree"]}
{"id": "C76", "title": "The benchmark solvers", "statement": "initialise_solvers uses a Gaussian kernel whose bandwidth b makes 2 b^2 a median of the squared distances of the (at most 300) sampled training rows, raises ValueError if that median is zero, and otherwise returns nine named constructors; each raises ValueError for size 0 and builds a solver of the size given with that kernel. On data with positive weights and at least that many rows every solver returns exactly the requested number of different rows with weight one (Compress++ for the sizes it accepts; Stein Thinning, if the density estimate is finite and differentiable, by its documented greedy rule), and raises ValueError for more points than rows. For the same data, size and key Kernel Thinning has at most the MMD of Random Sample, and Iterative Herding at most that of Kernel Herding. leaf_size is ignored by Random Sample, RP Cholesky and Compress++; the other solvers need a size below it, do not change on data that fit into one leaf, and for sizes up to half of it return coresets of the requested size. The dimension 16 hard-wired into the square root kernel influences no coreset. A single training row is accepted and makes every kernel value NaN.", "quantifier": "all training rows, data, weights, sizes, keys, leaf sizes and external samplers meeting their contracts", "why_tests_cant": "the benchmark compares solvers on one data set; the guarantees are about every data set, size and random draw", "anchors": ["coreax/benchmark_util.py:initialise_solvers"]}
{"id": "C77", "title": "Coresets do not depend on how the data set is written down", "statement": "KernelHerding (greedy) and SteinThinning select the same points in the same order from two descriptions of the same data: the same rows of positive weight in another order, with all weights multiplied by a positive constant, or with extra rows of weight zero; and, if rows may be chosen repeatedly (unique=False), any two data sets with the same weighted distribution, for example integer weights instead of repeated rows. The only proviso is that no selected point ties with a different point along the run; the block sizes may differ. With regularisation the density estimate and Laplacian term must be the same functions of the point. With ties the order of the rows decides, and with unique=True merging equal rows changes the coreset.", "quantifier": "all kernels, points, non-negative weights, sizes, block sizes and scatter orders", "why_tests_cant": "a test can permute or reweight one data set; the claim is about every description of every data set", "anchors": ["coreax/solvers/coresubset.py:KernelHerding.reduce", "coreax/solvers/coresubset.py:SteinThinning.reduce", "coreax/data.py:Data"]}
{"id": "C78", "title": "Expected discrepancy of random samples and of kernel thinning", "statement": "Over the random choices of RandomSample, the squared MMD between the coreset and the data is on average, without replacement and unweighted, the squared MMD between all rows equally weighted and the data, plus (n-m)/(m(n-1)) times the difference between the mean of k(x,x) and the mean of k(x,y); with replacement the same with factor 1/m, and with random_weighted the first term vanishes and the means are weighted. KernelThinning, however its coins fall, has an expected squared MMD at most that of RandomSample (positive semi-definite kernel with constant diagonal, positive weights); on equally weighted data it is at most k(x,x)/m, so the probability of an MMD above eps is at most k(x,x)/(m eps^2). By default RandomSample does not use the weights of the data, so on weighted data the first term does not vanish, whatever the size. Weighted sampling without replacement is not covered.", "quantifier": "all kernels, data sets, sizes, probability spaces and coins", "why_tests_cant": "the claim is about an expectation over the random choices, for every data set", "anchors": ["coreax/solvers/coresubset.py:RandomSample.reduce", "coreax/solvers/coresubset.py:KernelThinning.reduce"]}
{"id": "C79", "title": "MapReduce keeps the discrepancy small on equally weighted data", "statement": "If the base solver selects m points within MMD eps of every equally weighted data set, then MapReduce (leaf_size at least 2m) on n equally weighted rows returns m rows within (1 + L) eps + 2 (padding/n) sqrt(kappa) of the data, where L = floor(log2((n-1)/(leaf_size//2))), kappa bounds k(x,x) and padding is the number of rows of weight zero added at the first level, provided that a leaf that received all the padding would still hold m rows. For KernelHerding, with or without repeated rows, eps is 3.5 sqrt(kappa/m). On weighted data no such bound holds: the coresets of the leaves have unit weights, so the weights of the leaves are lost and the discrepancy can stay near sqrt(kappa) however large m is.", "quantifier": "all kernels, data sets, sizes, leaf sizes, trees and base solvers", "why_tests_cant": "the claim is about every data set, every tree and every depth of the recursion", "anchors": ["coreax/solvers/composite.py:MapReduce.reduce", "coreax/solvers/composite.py:_jit_tree", "coreax/solvers/coresubset.py:KernelHerding.reduce"]}
{"id": "C80", "title": "KernelHerding converges in floating point arithmetic", "statement": "In any binary floating point format with rounding to nearest even, on n points with non-negative weights, KernelHerding.reduce returns m rows each of which is, among the allowed rows (positive weight; not yet chosen if unique), within tol of the best exact herding score given the earlier choices, where tol = 9 (2n+m+5) 2^(e-prec) + 4 eps, 2^e bounds the kernel values and eps the error of the computed kernel values. Hence the MMD between the data and the coreset, for the exact kernel, is at most 3.5 sqrt(kappa/m) + sqrt(2 tol) (when unique, for data whose positive weights are all equal). The sizes must leave room below the overflow threshold and 2n+m+5 roundings must be fewer than 2^(prec-1).", "quantifier": "all formats, kernels, data sets, weights, sizes, block sizes and scatter orders", "why_tests_cant": "rounding errors accumulate over the loop and differ for every input; a test sees one data set and one format", "anchors": ["coreax/solvers/coresubset.py:KernelHerding.reduce", "coreax/solvers/coresubset.py:_greedy_kernel_selection", "coreax/kernels/base.py:ScalarValuedKernel.gramian_row_mean"]}
{"id": "C81", "title": "SteinThinning in floating point arithmetic", "statement": "In any binary floating point format with rounding to nearest even, SteinThinning.reduce returns m rows each of which is, among the allowed rows (positive weight; not yet chosen if unique), within tol of the best exact score given the earlier choices, where tol = 4 (3m+1)(m+3) 2^(e-prec) + 4 m eps, 2^e bounds the kernel values and the regularisation terms, and eps the error of the computed kernel values; the regularisation terms are those the solver computed. Hence the squared kernel Stein discrepancy of the coreset is at most that of any re-weighting of the data (the equal weights, when unique) plus (kappa + tol)(1 + ln m)/m without regularisation, and (kappa + 2L + 2M + tol)(1 + ln m)/m when the Laplacian terms are at most L and m times the weighted log densities at most M.", "quantifier": "all formats, kernels, data sets, weights, sizes, regularisers, block sizes and scatter orders", "why_tests_cant": "rounding errors accumulate over the loop and differ for every input; a test sees one data set and one format", "anchors": ["coreax/solvers/coresubset.py:SteinThinning.reduce", "coreax/solvers/coresubset.py:SteinThinning.refine", "coreax/solvers/coresubset.py:_greedy_kernel_selection"]}
{"id": "C82", "title": "The order of summation", "statement": "The compiler may add up the entries of a sum in any order. In exact arithmetic every order gives the same value. In any binary floating point format, a mean of a kernel matrix or a maximum mean discrepancy computed twice, with two different orders of summation and two different block sizes, gives two finite numbers that differ by at most 6 L 2^(e-prec) (means) or 4 sqrt(14 (L+2) 2^(e-prec)) (discrepancies), where L bounds the roundings behind a term and 2^e the kernel values; the two results need not be equal to the last bit. The floating point guarantees C69, C70, C71, C80 and C81 hold for every order.", "quantifier": "all orders of summation, formats, kernels, weighted data sets and block sizes", "why_tests_cant": "the order is chosen by the compiler and the device; a test runs on one of them", "anchors": ["coreax/kernels/base.py:ScalarValuedKernel.compute_mean", "coreax/metrics.py:MMD.compute", "coreax/data.py:Data.normalize"]}
{"id": "C83", "title": "Built-in kernels, MMD and herding in floating point agree with the documented formulas", "statement": "In any binary floating point format, for every pair of finite points with n features, the computed value of the exponential, Laplacian, squared exponential and inverse multi-quadric kernels is a finite number within (6n + c + 75) 2^(e-prec) of the documented formula, even when the distance overflows or underflows; the length scale lies in a stated range, the output scale is at most 2^e, and the library's exp has an absolute error of c 2^-prec. Hence the maximum mean discrepancy computed from float data is within 2 sqrt(14 (L+2) 2^(e+1-prec)) + 2 sqrt((6n+c+75) 2^(e-prec)) of the one defined by the documented kernel, and a coreset of m points chosen by KernelHerding in floating point has a documented discrepancy of at most 7/2 sqrt(scale/m) plus a rounding term.", "quantifier": "all formats, orders of summation, dimensions, length and output scales in range, finite points, weighted data sets, block sizes and coreset sizes", "why_tests_cant": "the error bound is about every pair of floats, including overflow and underflow of the distance; tests compare a few values with a tolerance", "anchors": ["coreax/kernels/scalar_valued.py:ExponentialKernel", "coreax/kernels/scalar_valued.py:LaplacianKernel", "coreax/kernels/scalar_valued.py:SquaredExponentialKernel", "coreax/kernels/scalar_valued.py:PCIMQKernel", "coreax/metrics.py:MMD.compute", "coreax/solvers/coresubset.py:KernelHerding"]}
{"id": "C84", "title": "Normalised weights form a probability distribution in floating point", "statement": "In any binary floating point format, for n finite non-negative weights with a positive total of at most a quarter of the overflow threshold and 2(n+1) <= 2^prec, the weights returned by Data.normalize (with and without preserve_zeros) are numbers between 0 and 1, each within 2(n+1) 2^-prec (w_i/total + 2^(2-emax)) of w_i/total, in the same order as the given weights, with zero weights kept at zero, and their total is within 4(n+1) 2^-prec of one. The same holds of the weights returned by solve_qp for the positive parts of any finite solution returned by the external solver. The total is not exactly one in general, and if the sum of the weights overflows every weight is set to zero.", "quantifier": "all formats, orders of summation, numbers of points and weights in range, and all outputs of the external quadratic solver", "why_tests_cant": "the bound must hold for every list of float weights; tests compare a few sums with a tolerance", "anchors": ["coreax/data.py:Data.normalize", "coreax/weights.py:solve_qp", "coreax/weights.py:MMDWeightsOptimiser"]}
{"id": "C85", "title": "JMMD and KSD are accurate in floating point", "statement": "In any binary floating point format, JMMD.compute of two weighted supervised data sets returns a finite non-negative number within 2 sqrt(D), and within 2 D / m when the exact value m is positive, of the exact joint discrepancy for the two kernels as computed, where D = 14 (L+2) 2^(e-prec) for kernels up to 2^e in product and L at least four times the number of points plus five; JMMD of a data set with itself is exactly zero. With two of the built-in kernels the result is within a stated bound of the joint discrepancy of the documented formulas. KSD.compute, with or without the Laplacian and the entropic correction, satisfies the same bound against the exact mean of the Stein kernel plus the corrections divided by the square of the number of points, for every block size.", "quantifier": "all formats, orders of summation, weighted data sets, kernels with bounded values, corrections and block sizes", "why_tests_cant": "rounding errors are bounded for every float data set and every order of summation; tests compare a few values with a tolerance", "anchors": ["coreax/metrics.py:JMMD.compute", "coreax/metrics.py:KSD.compute"]}
{"id": "C86", "title": "Size and support of Caratheodory recombination in floating point", "statement": "In any binary floating point format, for n finite non-negative weights with a positive total of at most a quarter of the overflow threshold and 8(n+1) <= 2^prec, m test functions and any matrices of the right shape returned by the singular value decomposition, CaratheodoryRecombination always returns a coresubset whose indices refer to points of positive weight. If the weights it computes are finite, the explicit mode returns at most min(n, m+1) points and no zero weight, and the two implicit modes return the same points followed by copies of one point up to the fixed size, with zero weight whenever the computed weights are non-negative. Non-negativity itself does not survive rounding: with a correctly rounded decomposition a weight can be slightly negative, the implicit mode then repeats the negative weight as padding, and the explicit mode of TreeRecombination can return more than m+1 entries.", "quantifier": "all formats, orders of summation, data sets, weights in range, test functions and outputs of the singular value decomposition", "why_tests_cant": "the bound must hold for every float data set and every rounding of the decomposition; tests check a few data sets", "anchors": ["coreax/solvers/recombination.py:CaratheodoryRecombination.reduce", "coreax/solvers/recombination.py:TreeRecombination.reduce", "coreax/solvers/recombination.py:_coresubset_nodes"]}
{"id": "C87", "title": "Sums, products and powers of kernels are accurate in floating point", "statement": "In any binary floating point format, for points whose features are finite and at most 2^b in absolute value, a kernel built by addition, multiplication and powers up to three from constants, linear and polynomial kernels (degree up to three) and the exponential, Laplacian, squared exponential and inverse multiquadric kernels returns a finite number within an explicitly computed error of the documented formula, provided no intermediate bound reaches the overflow threshold; the error bound follows the structure of the kernel and is absolute. The MMD computed with such a kernel, and the MMD reached by kernel herding with it, satisfy the bounds of C71 and C80 with this error against the documented formula.", "quantifier": "all formats, orders of summation, kernel expressions, parameters and points in range, and all exp functions of the stated accuracy", "why_tests_cant": "the bound must hold for every composition of kernels and every pair of float points; tests evaluate a few", "anchors": ["coreax/kernels/base.py:AdditiveKernel.compute_elementwise", "coreax/kernels/base.py:ProductKernel.compute_elementwise", "coreax/kernels/base.py:PowerKernel.compute_elementwise", "coreax/kernels/scalar_valued.py:LinearKernel.compute_elementwise", "coreax/kernels/scalar_valued.py:PolynomialKernel.compute_elementwise", "coreax/metrics.py:MMD.compute", "coreax/solvers/coresubset.py:KernelHerding.reduce"]}
{"id": "C88", "title": "MapReduce never selects its own padding in floating point", "statement": "In any binary floating point format, with sums in any order, MapReduce over any base solver that picks distinct points of positive weight on data sets of at most leaf_size rows returns coreset_size distinct row numbers of the data set, each of weight one, and never a padding row, whenever no leaf can hold so much padding that fewer than coreset_size data points remain in it. KernelHerding and SteinThinning with unique=True are such solvers if the kernel values are at most 2^e and the number format has room for sums over leaf_size points. There is no condition on the number of data points.", "quantifier": "all binary formats, summation orders, data sets with positive finite weights, kernels bounded by 2^e, tree partitions, leaf sizes, block sizes, regularisers meeting their contract and recursion depths", "why_tests_cant": "Rounding, absorption and overflow depend on the values, the data set and the partition; tests try a few data sets in one format and one summation order.", "anchors": ["coreax/solvers/composite.py:MapReduce.reduce", "coreax/solvers/composite.py:_jit_tree", "coreax/solvers/coresubset.py:KernelHerding.reduce", "coreax/solvers/coresubset.py:SteinThinning.reduce"]}
{"id": "C89", "title": "Greedy kernel points selects distinct indices in floating point", "statement": "In any binary floating point format, GreedyKernelPoints with unique=True returns coreset_size distinct in-range indices, from reduce and from refine of distinct indices, provided at least coreset_size candidates are sampled per step or the coreset is full, and the kernel values (at most 2^e), the coefficients of the fits (at most 2^c) and the responses leave room for the sum of squared predictions below the overflow threshold.", "quantifier": "all binary formats, summation orders, data sets, responses and kernels within the bounds, least-squares solvers meeting the bound on their coefficients, random permutations and batch sizes", "why_tests_cant": "Already chosen points are ruled out by adding infinity to their loss, which only works while every loss is finite; tests use small responses.", "anchors": ["coreax/solvers/coresubset.py:GreedyKernelPoints.reduce", "coreax/solvers/coresubset.py:GreedyKernelPoints.refine", "coreax/solvers/coresubset.py:_update_candidate_coresets_and_coreset_indices", "coreax/solvers/coresubset.py:_greedy_kernel_points_loss"]}
{"id": "C90", "title": "Kernel thinning and Compress++ in floating point", "statement": "In any binary floating point format, with sums in any order and positive finite weights, KernelThinning returns coreset_size distinct in-range row numbers, each of weight one, or raises ValueError exactly when coreset_size exceeds the number of points; CompressPlusPlus accepts exactly the configurations it accepts in exact arithmetic and then returns coreset_size distinct in-range row numbers. Nothing is assumed of delta, of the square root kernel, of the logarithm or of the random numbers: they may be NaN. The candidate kernel thinning keeps has, in exact arithmetic, an MMD to the data at most 4*sqrt(14(4n+7)2^(e-prec)) larger than every other candidate, including the random baseline.", "quantifier": "all binary formats, summation orders, data sets, positive weights, kernels bounded by 2^e, square root kernels, random keys, recursion depths and oversampling factors", "why_tests_cant": "The halves depend on random swaps and on rounding; tests fix one seed and one data set.", "anchors": ["coreax/solvers/coresubset.py:KernelThinning.reduce", "coreax/solvers/coresubset.py:KernelThinning.kt_half_recursive", "coreax/solvers/coresubset.py:KernelThinning.kt_choose", "coreax/solvers/coresubset.py:KernelThinning.kt_refine", "coreax/solvers/coresubset.py:CompressPlusPlus.reduce"]}
{"id": "C91", "title": "Inherited kernel derivatives differentiate the kernel", "statement": "A kernel class that defines only its value (Matern, Stein) inherits grad_x_elementwise, grad_y_elementwise and divergence_x_grad_y_elementwise. For an arbitrary, not necessarily symmetric, function computed by the kernel near (x, y), these return its gradient in the first argument at x, its gradient in the second argument at y, and the sum over i of d/dx_i d/dy_i, wherever these exist and automatic differentiation is right. For Matern kernels they exist at all pairs of distinct points.", "quantifier": "all kernels of these classes, all points, all differentiable functions the kernel may compute", "why_tests_cant": "Tests compare with analytical gradients on a few symmetric kernels and points, where exchanging the arguments is hard to notice.", "anchors": ["coreax/kernels/base.py:ScalarValuedKernel.grad_x_elementwise", "coreax/kernels/base.py:ScalarValuedKernel.grad_y_elementwise", "coreax/kernels/base.py:ScalarValuedKernel.divergence_x_grad_y_elementwise", "coreax/kernels/scalar_valued.py:MaternKernel", "coreax/kernels/scalar_valued.py:SteinKernel"]}
{"id": "C92", "title": "Accuracy of the median heuristic in floating point", "statement": "For at least two points with d finite coordinates whose squared distances are at most a quarter of the overflow threshold, computed in any binary floating point format with enough precision for d coordinates and with sums in any order, median_heuristic returns a finite, non-negative number v with |v - b| <= 2(d+7)2^-prec (b + tiny), where b is the bandwidth of exact arithmetic: 2 b^2 is a median of the squared distances of the pairs of distinct points. tiny is of the order of the square root of the underflow threshold over the unit roundoff and accounts for squares that underflow. The value does not depend on the order of the points.", "quantifier": "every format, summation order, dimension, number of points >= 2 and data set within the stated range; every permutation", "why_tests_cant": "A rounding error can reorder the distances, so that the computed median is the distance of a different pair; a test on some data sets cannot exclude data on which the reordering costs more than the rounding of one distance.", "anchors": ["coreax/util.py:median_heuristic", "coreax/util.py:pairwise", "coreax/util.py:squared_distance"]}
{"id": "C93", "title": "Building from arrays, slicing and evaluating a metric", "statement": "Coresubset.build and PseudoCoreset.build return exactly the coreset their arguments mean: data sets are kept, an array of points or indices becomes a data set with unit weights, a pair of arrays of equal length becomes a supervised data set with unit weights. They raise ValueError exactly when there are more nodes than rows or the pair has different lengths, and TypeError for other objects; the constructors raise TypeError for anything but data sets. The constructors of Data and SupervisedData raise ValueError exactly when the weight array has neither one entry per row nor one entry in all, or the supervision has another length. A slice keeps the first rows with their weights and targets. compute_metric calls the metric with the original data first and the selected rows under the coreset's weights second.", "quantifier": "every argument of every kind, every length, every metric (symmetric or not)", "why_tests_cant": "The claims cover all combinations of argument kinds and lengths and an arbitrary metric; a symmetric metric such as MMD cannot reveal swapped arguments.", "anchors": ["coreax/coreset.py:Coresubset.build", "coreax/coreset.py:PseudoCoreset.build", "coreax/coreset.py:AbstractCoreset.compute_metric", "coreax/data.py:Data", "coreax/data.py:SupervisedData", "coreax/data.py:as_data"]}
{"id": "C94", "title": "The default least-squares solver solves the regularised equation", "statement": "MinimalEuclideanNormSolver.solve returns, column by column, the minimal-norm least-squares solution of (A + |reg| I) X = B; the sign of reg does not matter. If A is positive semi-definite and reg is not zero, the equation is solved exactly, by no other matrix, and every column of X is at most 1/|reg| times as long as the column of B. Where RandomisedEigendecompositionSolver meets the conditions under which it is exact, both solvers return the same matrix.", "quantifier": "every square array, target matrix, regularisation parameter and cut-off; every lstsq, QR and eigendecomposition routine that is exact on the system at hand", "why_tests_cant": "Existence, uniqueness and the bound are statements over all matrices and all candidate solutions; a test compares with one reference solution.", "anchors": ["coreax/least_squares.py:MinimalEuclideanNormSolver", "coreax/least_squares.py:RandomisedEigendecompositionSolver"]}
{"id": "C95", "title": "Random halving treats every row alike", "statement": "The parts that kernel thinning divides the data into are fair: after one halving every row is in each half with probability one half, so that the average of any quantity over a half has expectation equal to its average over the data; after m halvings every row is in each of the 2^m parts with probability 2^-m.", "quantifier": "every data set with distinct consecutive points, kernel, delta in (0,2], quantity measured on the rows; expectation over the uniform numbers drawn by the solver", "why_tests_cant": "A statement about probabilities over all keys and all data; a test runs a few keys.", "anchors": ["coreax/solvers/coresubset.py:KernelThinning.kt_half", "coreax/solvers/coresubset.py:KernelThinning.kt_half_recursive"]}
{"id": "C96", "title": "Random sampling treats every row alike", "statement": "A random sample estimates averages of the data without bias: the expectation of the average of any quantity over the sampled rows is its average over the data (the weighted average if sampling is weighted and with replacement), so without replacement every row is kept with probability coreset_size / n. The same holds when RandomSample is the base solver of MapReduce.", "quantifier": "every data set, sample size, quantity measured on the rows; expectation over the draws of jr.choice, uniform without replacement or independent with the given probabilities", "why_tests_cant": "A statement about probabilities over all keys; a test runs a few keys.", "anchors": ["coreax/solvers/coresubset.py:RandomSample.reduce", "coreax/solvers/composite.py:MapReduce.reduce"]}
{"id": "C97", "title": "Kernel density scores are numbers", "statement": "The score function returned by KernelDensityMatching(length_scale).match(X) returns finite floating point numbers (no NaN, no infinity) at every query point with finite coordinates.", "quantifier": "every binary floating point format, order of summation, data set, length scale and query, with coordinates, length scale and number of rows small enough that no intermediate size leaves the range of the format", "why_tests_cant": "the score is a quotient whose denominator, a mean of exponentials, is positive over the reals and may underflow to zero in floating point arithmetic; whether it does depends on the query, the data and the bandwidth jointly", "anchors": ["coreax/score_matching.py: KernelDensityMatching.match, score_function", "coreax/kernels/scalar_valued.py: SquaredExponentialKernel"]}
{"id": "C98", "title": "Default Stein kernels are numbers on the data", "statement": "Wrapping a squared exponential kernel with convert_stein_kernel(X, kernel, None), as KSD does by default, gives a Stein kernel whose value at any two rows of X is a finite floating point number, with a size bound in terms of the data, the bandwidth and the output scale.", "quantifier": "every binary floating point format, order of summation, data set X, bandwidth, output scale and pair of rows, in ranges where no intermediate size leaves the range of the format", "why_tests_cant": "the Stein kernel combines four terms with scores that are quotients of possibly tiny means; finiteness must hold for every data set and every pair of rows", "anchors": ["coreax/score_matching.py: convert_stein_kernel, KernelDensityMatching.match", "coreax/kernels/scalar_valued.py: SteinKernel, SquaredExponentialKernel"]}
{"id": "C99", "title": "Stein discrepancies are numbers for every block size", "statement": "KSD(kernel).compute(X, coreset) with a squared exponential kernel, the default score and a coreset of rows of X returns a finite number close to the exact discrepancy, whatever the block_size.", "quantifier": "every binary floating point format, order of summation, data set, weighted coreset of its rows, bandwidth, output scale and block size, in ranges where no intermediate size leaves the range of the format", "why_tests_cant": "block sizes change which padded rows the kernel is evaluated at; padded rows have weight zero, so they are harmless over the reals, but in floating point arithmetic a NaN at one of them is not removed by its weight, and whether it is NaN depends on where the data lie", "anchors": ["coreax/metrics.py: KSD.compute", "coreax/kernels/util.py: _block_data_convert", "coreax/kernels/base.py: ScalarValuedKernel.compute_mean", "coreax/score_matching.py: convert_stein_kernel"]}
{"id": "C100", "title": "Stein thinning with a default Stein kernel selects rows for every block size", "statement": "SteinThinning(kernel=convert_stein_kernel(X, squared exponential kernel, None), regularise=False).reduce(X) returns coreset_size indices of rows of X with positive weight, distinct if unique=True, whatever the block_size.", "quantifier": "every binary floating point format, order of summation, weighted data set X, bandwidth, output scale, coreset size and block size, in ranges where no intermediate size leaves the range of the format", "why_tests_cant": "whether a NaN enters the penalties depends jointly on the block size, the coreset size, the position of the data relative to the origin and the bandwidth; a test fixes all four", "anchors": ["coreax/solvers/coresubset.py: SteinThinning.reduce, _greedy_kernel_selection", "coreax/kernels/util.py: _block_data_convert", "coreax/score_matching.py: convert_stein_kernel"]}
{"id": "C101", "title": "Kernel herding with a default Stein kernel selects rows for every block size", "statement": "KernelHerding(kernel=convert_stein_kernel(X, squared exponential kernel, None)).reduce(X) returns coreset_size indices of rows of X with positive weight, distinct if unique=True, whatever the block_size.", "quantifier": "every binary floating point format, order of summation, weighted data set X, bandwidth, output scale, coreset size and block size, in ranges where no intermediate size leaves the range of the format", "why_tests_cant": "whether a NaN enters the Gramian row means depends jointly on the block size, the number of rows, the position of the data relative to the origin and the bandwidth; a test fixes all four", "anchors": ["coreax/solvers/coresubset.py: KernelHerding.reduce, _greedy_kernel_selection", "coreax/kernels/base.py: gramian_row_mean", "coreax/kernels/util.py: _block_data_convert", "coreax/score_matching.py: convert_stein_kernel"]}
