{"id": "C01", "title": "Returned optimum is the true best of the evaluated points", "statement": "Among all evaluated points, the point reported as best is feasible whenever a feasible point with an objective below +infinity exists, and no other point is strictly better: lower objective among feasible points, or lower total constraint violation when no point is feasible; ties go to the earliest point.", "quantifier": "every non-empty set of evaluated points, every number of constraints, every tolerance vector covering the constraints, all IEEE doubles that are not NaN", "why_tests_cant": "The claim is an optimality claim over all datasets, including ties, signed zeros, infinities and subnormal violations; tests only sample a few matrices.", "anchors": ["crates/ego/src/utils/find_result.rs:find_best_result_index", "crates/ego/src/utils/find_result.rs:cstr_sum"]}
{"id": "C02", "title": "Infinite objectives never make an infeasible point win", "statement": "If at least one evaluated point satisfies all constraints, the point reported as best satisfies all constraints, even when every feasible objective value is +infinity.", "quantifier": "every dataset with at least one feasible row, objectives allowed to be +infinity", "why_tests_cant": "Requires every dataset; the failing datasets (all feasible objectives infinite) are never generated by example tests.", "anchors": ["crates/ego/src/utils/find_result.rs:find_best_result_index"]}
{"id": "C03", "title": "Incremental best search equals full search", "statement": "Updating the best index only from the newly added rows gives exactly the index a search of the whole history from scratch would give.", "quantifier": "every history, every split into already-searched prefix and new rows, every tolerance vector, all non-NaN doubles", "why_tests_cant": "An equivalence between two algorithms over all histories and all split points.", "anchors": ["crates/ego/src/utils/find_result.rs:find_best_result_index_from", "crates/ego/src/utils/find_result.rs:find_best_result_index", "crates/ego/src/utils/find_result.rs:cstr_min"]}
{"id": "C04", "title": "Result comparison is a total preorder", "statement": "The comparison used to rank two results is reflexive, total and transitive, so that the best result does not depend on the order in which comparisons are made.", "quantifier": "all triples of result rows of non-NaN doubles with tolerance vector covering the constraints", "why_tests_cant": "Transitivity is a statement over all triples of float vectors.", "anchors": ["crates/ego/src/utils/find_result.rs:cstr_min"]}
{"id": "C05", "title": "Feasibility test agrees with the constraints", "statement": "A result is declared feasible if and only if every constraint value is at most its tolerance.", "quantifier": "every row of non-NaN doubles (objective, constraints) and tolerance vector; with NaN constraint values the equivalence fails and that failure is exhibited", "why_tests_cant": "Floating-point cancellation or underflow could turn a positive violation into a zero sum; ruling that out needs all pairs of doubles.", "anchors": ["crates/ego/src/utils/find_result.rs:is_feasible", "crates/ego/src/utils/find_result.rs:cstr_sum"]}
{"id": "C06", "title": "Accepted points keep their distance", "statement": "A proposed point is added to the history only if its L1 distance to every point already in the history, including those added before it in the same batch, is not below 100 machine epsilons.", "quantifier": "every history, every batch of proposals of any size, all doubles", "why_tests_cant": "Batches interact: a point must be tested against points accepted earlier in the same batch; all batches and orders matter.", "anchors": ["crates/ego/src/utils/misc.rs:is_update_ok", "crates/ego/src/utils/misc.rs:update_data"]}
{"id": "C07", "title": "History is append-only and aligned", "statement": "Adding proposals never changes, removes or reorders existing rows; inputs, outputs and constraint values always have the same number of rows; the returned indices are exactly the positions of the proposals appended, in increasing order.", "quantifier": "every history, every batch of proposals", "why_tests_cant": "Alignment must hold for every accept/reject pattern.", "anchors": ["crates/ego/src/utils/misc.rs:update_data"]}
{"id": "C08", "title": "An exact duplicate is never added twice", "statement": "A proposal equal to an evaluated point (finite components) is always rejected, and of two equal proposals in a batch at most one is added.", "quantifier": "every history, every batch, all finite doubles", "why_tests_cant": "Quantifies over all points and all batches.", "anchors": ["crates/ego/src/utils/misc.rs:is_update_ok", "crates/ego/src/utils/misc.rs:update_data"]}
{"id": "C09", "title": "Evaluation budget", "statement": "A run with initial design of n points, at most m iterations and q points per iteration never holds more than n + m*q points, and never performs more than m iterations.", "quantifier": "every objective function, every surrogate and infill-optimizer behaviour, every number of iterations, with or without trust region steps", "why_tests_cant": "Must hold for every behaviour of the surrogate and of the optimizer over the whole history of the run.", "anchors": ["crates/ego/src/solver/solver_impl.rs:ego_step", "crates/ego/src/solver/trego.rs:trego_step", "crates/ego/src/solver/egor_solver.rs:next_iter", "crates/ego/src/solver/egor_solver.rs:init"]}
{"id": "C10", "title": "Point counter is the history length", "statement": "At every moment of a run the counter of points equals the number of rows of the history, and the difference with the previous counter is the number of points added by the last iteration.", "quantifier": "all runs, all surrogate/optimizer behaviours, all iterations", "why_tests_cant": "An invariant over all reachable states.", "anchors": ["crates/ego/src/solver/solver_impl.rs:ego_step", "crates/ego/src/solver/trego.rs:trego_step", "crates/ego/src/solver/egor_state.rs:EgorState"]}
{"id": "C11", "title": "Reported best is the best of the whole history at every iteration", "statement": "After every iteration the recorded best index designates the best row of the whole history, for the stored objective and constraint values.", "quantifier": "all runs, all objective functions returning non-NaN values, all surrogate/optimizer behaviours", "why_tests_cant": "Invariant over all runs; involves virtual values being overwritten by actual ones in the right rows.", "anchors": ["crates/ego/src/solver/solver_impl.rs:ego_step", "crates/ego/src/solver/trego.rs:trego_step", "crates/ego/src/solver/egor_solver.rs:init", "crates/ego/src/solver/egor_state.rs:update"]}
{"id": "C12", "title": "Best value never gets worse", "statement": "The best result recorded after an iteration is never strictly worse than the best result recorded before it; once feasible it stays feasible and its objective never increases.", "quantifier": "all runs, all iterations", "why_tests_cant": "Monotonicity over unbounded executions.", "anchors": ["crates/ego/src/solver/solver_impl.rs:ego_step", "crates/ego/src/solver/trego.rs:trego_step"]}
{"id": "C13", "title": "Stored objective values are the true evaluations", "statement": "Every objective row stored in the history is the value returned by the user function at the corresponding input row; no surrogate-predicted value remains in the history after an iteration.", "quantifier": "all runs with batches of any size and any accept/reject pattern", "why_tests_cant": "The virtual (predicted) outputs of a batch are overwritten by position from the end; correctness depends on every accept/reject pattern.", "anchors": ["crates/ego/src/solver/solver_impl.rs:ego_step", "crates/ego/src/utils/misc.rs:update_data"]}
{"id": "C14", "title": "Stored constraint-function values are the true evaluations", "statement": "Every function-constraint row stored in the history is the unscaled value of the constraint functions at the corresponding input row.", "quantifier": "all runs and all constraint scalings", "why_tests_cant": "Depends on scaling computed from random samples in each iteration.", "anchors": ["crates/ego/src/solver/solver_impl.rs:select_next_points", "crates/ego/src/solver/solver_computations.rs:eval_problem_fcstrs"]}
{"id": "C15", "title": "Convergence stop after three empty attempts", "statement": "If an iteration proposes only rejected points three times in a row, the run stops with status converged and the history and best point are unchanged; otherwise at least one point is added and the retry counter is reset to three.", "quantifier": "every state, every sequence of proposals", "why_tests_cant": "Control flow depends on the whole sequence of proposals.", "anchors": ["crates/ego/src/solver/solver_impl.rs:ego_step", "crates/ego/src/solver/egor_solver.rs:ego_iteration"]}
{"id": "C16", "title": "Last improvement iteration is recorded", "statement": "After an iteration in which the best point changed to a newly added point, the state reports the current iteration as the iteration of last improvement.", "quantifier": "all states in which a newly added point becomes best, including the first added one", "why_tests_cant": "Boundary between design points and added points; all design sizes.", "anchors": ["crates/ego/src/solver/egor_state.rs:update", "crates/ego/src/solver/egor_state.rs:is_best"]}
{"id": "C17", "title": "Feasibility flag is monotone and sound", "statement": "The feasibility flag never goes back from true to false during a run, and once a feasible point exists after an iteration the flag is true.", "quantifier": "all runs", "why_tests_cant": "Invariant over all histories.", "anchors": ["crates/ego/src/solver/solver_impl.rs:ego_step", "crates/ego/src/solver/trego.rs:trego_step", "crates/ego/src/solver/egor_solver.rs:init"]}
{"id": "C18", "title": "Trust-region radius update", "statement": "The trust-region size is multiplied by gamma after a successful step, by beta after a failed local step, unchanged after a failed global step and at iteration 0; it therefore stays positive and equals sigma0*gamma^s*beta^f after s successes and f failed local steps.", "quantifier": "every sequence of step outcomes of any length", "why_tests_cant": "History-dependent formula over unbounded runs.", "anchors": ["crates/ego/src/solver/egor_solver.rs:trego_iteration"]}
{"id": "C19", "title": "Global steps are recurrent in trust-region mode", "statement": "In trust-region mode an iteration is a global step whenever its number is a multiple of n_local_steps+1, and local steps never occur more than n_local_steps in a row.", "quantifier": "all runs, all values of n_local_steps, all success patterns", "why_tests_cant": "Unbounded executions, all success patterns.", "anchors": ["crates/ego/src/solver/egor_solver.rs:trego_iteration"]}
{"id": "C20", "title": "Local search area is inside the domain", "statement": "In a trust-region step the local search box is contained in the domain box, contains the current best point and is never empty, provided the best point lies in the domain and the radii are non-negative.", "quantifier": "every domain, best point and pair of radii", "why_tests_cant": "All boxes and points, including on the boundary.", "anchors": ["crates/ego/src/solver/trego.rs:LocalLhsMultiStarter::multistart"]}
{"id": "C21", "title": "Warm start restores the saved history", "statement": "Restarting with warm start from the saved history file yields exactly the saved inputs and outputs without any new evaluation of the objective.", "quantifier": "every history, with and without constraint functions", "why_tests_cant": "Round trip over all histories and column layouts.", "anchors": ["crates/ego/src/solver/egor_solver.rs:init", "crates/ego/src/egor.rs:OptimizationObserver::observe_iter"]}
{"id": "C22", "title": "Crash and resume equals an uninterrupted run", "statement": "With hot start enabled, a run interrupted any number of times at arbitrary points between checkpoint writes and restarted ends with the same final state as an uninterrupted run.", "quantifier": "every crash schedule, every number of restarts, every deterministic objective and solver whose values are finite", "why_tests_cant": "All crash points and all numbers of restarts.", "anchors": ["crates/ego/src/utils/hot_start.rs:HotStartCheckpoint::save", "crates/ego/src/utils/hot_start.rs:HotStartCheckpoint::load", "crates/ego/src/egor.rs:Egor::run"]}
{"id": "C23", "title": "A crash during checkpointing does not lose the run", "statement": "A crash while the checkpoint is being written leaves a checkpoint from which the run can be resumed.", "quantifier": "every crash point inside the checkpoint write", "why_tests_cant": "Crash points cannot be enumerated by unit tests.", "anchors": ["crates/ego/src/utils/hot_start.rs:HotStartCheckpoint::save"]}
{"id": "C24", "title": "Extended iteration budget", "statement": "Restarting with an extension of n iterations allows exactly n more iterations than the checkpointed budget; k such restarts that each complete an iteration allow k*n more; without extension the budget is unchanged; a missing checkpoint starts a fresh run with the configured budget.", "quantifier": "every n, every number of restarts, every checkpoint", "why_tests_cant": "All restart histories.", "anchors": ["crates/ego/src/utils/hot_start.rs:HotStartMode", "crates/ego/src/utils/hot_start.rs:HotStartCheckpoint::load", "crates/ego/src/solver/egor_state.rs:extend_max_iters"]}
{"id": "C25", "title": "Accepted configurations do not crash on tolerances", "statement": "If the configuration is accepted by validation, the constraint tolerance vector covers all metamodelled and function constraints, so ranking results never reads past its end.", "quantifier": "every configuration accepted by validation, any number of constraint functions", "why_tests_cant": "All configurations.", "anchors": ["crates/ego/src/solver/egor_config.rs:check", "crates/ego/src/solver/egor_solver.rs:init", "crates/ego/src/utils/find_result.rs:cstr_sum"]}
{"id": "C26", "title": "Cooperative groups form a partition", "statement": "In CoEGO mode the variable groups of an iteration are pairwise disjoint and cover every variable exactly once; there are min(n_coop, dimension) groups, whose sizes differ by at most one.", "quantifier": "every dimension, every number of groups, every shuffle", "why_tests_cant": "All dimensions, group counts and permutations.", "anchors": ["crates/ego/src/solver/coego.rs:get_random_activity", "crates/ego/src/solver/coego.rs:strip"]}
{"id": "C27", "title": "Partial update touches only the active variables", "statement": "Writing optimized values into the active components and reading them back returns the values, and leaves all other components unchanged; reading a padded group ignores the padding.", "quantifier": "every vector, every duplicate-free group of in-range indices, any padding", "why_tests_cant": "All vectors and groups.", "anchors": ["crates/ego/src/solver/coego.rs:set_active_x", "crates/ego/src/solver/coego.rs:get_active_x", "crates/ego/src/solver/coego.rs:strip"]}
{"id": "C28", "title": "Cooperative gradient matches the active variables", "statement": "In CoEGO mode the k-th component of the gradient handed to the optimizer is the derivative with respect to the k-th active variable.", "quantifier": "every group produced by a shuffle", "why_tests_cant": "All shuffles; unit tests use sorted groups.", "anchors": ["crates/ego/src/solver/solver_infill_optim.rs:optimize_infill_criterion", "crates/ego/src/solver/solver_computations.rs:mean_cstr", "crates/ego/src/solver/coego.rs:set_active_x"]}
{"id": "C29", "title": "Casting yields admissible values", "statement": "After casting a relaxed point, every integer variable is an integer, every ordered variable belongs to its list, every categorical block is a one-hot mask, and continuous variables are unchanged.", "quantifier": "every specification list and every relaxed point of matching dimension without NaN", "why_tests_cant": "All mixed specifications and all points.", "anchors": ["crates/ego/src/gpmix/mixint.rs:cast_to_discrete_values_mut", "crates/ego/src/gpmix/mixint.rs:take_closest"]}
{"id": "C30", "title": "Casting is a projection", "statement": "Casting twice is casting once, and an admissible point is left unchanged.", "quantifier": "every specification and every point", "why_tests_cant": "Algebraic law over all inputs.", "anchors": ["crates/ego/src/gpmix/mixint.rs:cast_to_discrete_values_mut"]}
{"id": "C31", "title": "Casting moves to a nearest admissible value", "statement": "The ordered value chosen is at minimal distance (as computed in double precision; up to a relative error 2^-51 in exact arithmetic) among the list, the integer chosen is at distance at most one half, and the categorical level chosen has maximal weight.", "quantifier": "every list, every value", "why_tests_cant": "Optimality over all lists and values.", "anchors": ["crates/ego/src/gpmix/mixint.rs:take_closest", "crates/ego/src/gpmix/mixint.rs:cast_to_discrete_values_mut"]}
{"id": "C32", "title": "Folding and unfolding are inverse", "statement": "Unfolding categorical indexes into masks and folding back returns the original point.", "quantifier": "every specification, every admissible point", "why_tests_cant": "Round trip over all layouts; example tests only use layouts where two indexing errors stay hidden.", "anchors": ["crates/ego/src/gpmix/mixint.rs:fold_with_enum_index", "crates/ego/src/gpmix/mixint.rs:unfold_with_enum_mask"]}
{"id": "C33", "title": "Relaxed dimension bookkeeping", "statement": "The relaxed bounds matrix has one row per scalar variable and one per categorical level; this count equals the computed relaxed dimension, every point of the domain (integers between their limits, ordered values of the list, masks) lies within these bounds, and casting a point within these bounds gives a point of the domain.", "quantifier": "every specification", "why_tests_cant": "All specifications.", "anchors": ["crates/ego/src/gpmix/mixint.rs:as_continuous_limits", "crates/ego/src/gpmix/mixint.rs:compute_continuous_dim"]}
{"id": "C34", "title": "Latin hypercube stratification", "statement": "Each one-dimensional projection of a classic or centered Latin hypercube sample of n points has exactly one point in each of the n equal sections (in double precision, with the ends of the sections moved by at most 2^-52).", "quantifier": "every n, every dimension, every random draw and shuffle", "why_tests_cant": "All random draws and permutations.", "anchors": ["crates/doe/src/lhs.rs:_classic_lhs", "crates/doe/src/lhs.rs:_centered_lhs"]}
{"id": "C35", "title": "Optimized and maximin designs remain Latin hypercubes", "statement": "Maximin and ESE-optimized designs are still Latin hypercubes: each column is a permutation of the column of the starting design (ESE) or the design is one of the generated candidates (maximin).", "quantifier": "every starting design, every sequence of random swaps, acceptance thresholds and criterion values, any number of outer and inner loops", "why_tests_cant": "Invariant over arbitrarily long random executions.", "anchors": ["crates/doe/src/lhs.rs:_maximin_ese", "crates/doe/src/lhs.rs:_phip_swap", "crates/doe/src/lhs.rs:_maximin_lhs"]}
{"id": "C36", "title": "Optimized design is never worse than its start", "statement": "The design returned by ESE has a criterion value not above the starting one, and the maximin design has the largest minimal distance among the candidates drawn.", "quantifier": "all random executions", "why_tests_cant": "Optimality over all executions.", "anchors": ["crates/doe/src/lhs.rs:_maximin_ese", "crates/doe/src/lhs.rs:_maximin_lhs"]}
{"id": "C37", "title": "Incremental criterion is exact", "statement": "The criterion value computed incrementally for a swap of two coordinates equals the criterion recomputed from scratch on the swapped design (in real arithmetic).", "quantifier": "every design with distinct points, every pair of rows and column", "why_tests_cant": "Algebraic identity over all designs.", "anchors": ["crates/doe/src/lhs.rs:_phip_swap", "crates/doe/src/lhs.rs:_phip"]}
{"id": "C38", "title": "Sampling with one point terminates", "statement": "Every sampling method terminates and returns n rows for every n >= 1.", "quantifier": "every n >= 1, every kind of Latin hypercube", "why_tests_cant": "Termination claim for all n and random streams.", "anchors": ["crates/doe/src/lhs.rs:_phip_swap", "crates/doe/src/lhs.rs:_maximin_lhs"]}
{"id": "C39", "title": "Samples stay within bounds", "statement": "Every sample of every method lies within the given bounds.", "quantifier": "every method, every bounds with lower <= upper, every random draw in the unit interval", "why_tests_cant": "All draws and bounds.", "anchors": ["crates/doe/src/traits.rs:sample", "crates/doe/src/random.rs:normalized_sample", "crates/doe/src/lhs.rs:normalized_sample", "crates/doe/src/full_factorial.rs:normalized_sample"]}
{"id": "C40", "title": "Full factorial enumerates distinct grid points", "statement": "A full factorial request of n points returns n distinct points of a grid whose level counts differ by at most one between variables, in lexicographic order; the grid has at least n points, and when n is exactly the grid size every combination of levels appears.", "quantifier": "every n, every dimension >= 1", "why_tests_cant": "All n and dimensions.", "anchors": ["crates/doe/src/full_factorial.rs:normalized_sample"]}
{"id": "C41", "title": "Training data split partitions the rows", "statement": "The extraction of test points takes every quantile-th row, and test and training parts together contain every row exactly once.", "quantifier": "every number of rows and every positive quantile", "why_tests_cant": "All sizes and quantiles.", "anchors": ["crates/moe/src/algorithm.rs:extract_part"]}
{"id": "C42", "title": "Clustering is a partition of the training rows", "statement": "Sorting rows by cluster label puts every row in exactly one group, that of its label, keeping row order; the number of groups is the requested one.", "quantifier": "every data set, every labelling", "why_tests_cant": "All labellings.", "anchors": ["crates/moe/src/clustering.rs:sort_by_cluster"]}
{"id": "C43", "title": "Hard recombination uses the responsible expert", "statement": "With hard recombination the prediction at a point is exactly the prediction of the expert of the cluster with maximal responsibility at this point.", "quantifier": "every mixture, every batch of points", "why_tests_cant": "All mixtures and batches.", "anchors": ["crates/moe/src/algorithm.rs:predict_hard"]}
{"id": "C44", "title": "Smooth recombination is a convex combination", "statement": "With smooth recombination and responsibilities summing to one, the prediction lies between the smallest and largest expert predictions, and the variance is non-negative and at most the largest expert variance.", "quantifier": "every mixture and point where responsibilities are a probability vector", "why_tests_cant": "All mixtures and points.", "anchors": ["crates/moe/src/algorithm.rs:predict_smooth", "crates/moe/src/algorithm.rs:predict_var_smooth"]}
{"id": "C45", "title": "Responsibilities are a probability distribution", "statement": "At every point the cluster responsibilities are non-negative and sum to one.", "quantifier": "every mixture and every point of the space, however far from the clusters", "why_tests_cant": "All points; failing points are far from training data.", "anchors": ["crates/moe/src/gaussian_mixture.rs:compute_log_prob_resp"]}
{"id": "C46", "title": "Smooth recombination gradients are derivatives", "statement": "The gradients of the smooth prediction and of the smooth variance are the derivatives of the predicted value and variance, given that expert and responsibility gradients are derivatives.", "quantifier": "every mixture with differentiable experts and responsibilities, every point", "why_tests_cant": "Calculus identity over all functions.", "anchors": ["crates/moe/src/algorithm.rs:predict_gradients_smooth", "crates/moe/src/algorithm.rs:predict_var_gradients_smooth", "crates/moe/src/gaussian_mixture.rs:predict_single_probas_derivatives"]}
{"id": "C47", "title": "Responsibility derivatives follow the quotient rule", "statement": "The computed derivative of the responsibilities is the derivative of the normalized densities, and the derivatives over clusters sum to zero.", "quantifier": "all points and mixtures with positive total density", "why_tests_cant": "Calculus identity.", "anchors": ["crates/moe/src/gaussian_mixture.rs:predict_single_probas_derivatives"]}
{"id": "C48", "title": "Best expert selection is optimal", "statement": "The expert retained for a cluster has an error not above any other candidate expert, the first one in enumeration order in case of a tie.", "quantifier": "every non-empty list of candidate errors without NaN", "why_tests_cant": "Optimality over all candidate lists.", "anchors": ["crates/moe/src/algorithm.rs:find_best_expert", "crates/moe/src/expertise_macros.rs:compute_error"]}
{"id": "C49", "title": "Enough data makes every regression model eligible", "statement": "With sufficiently many samples in a cluster, linear and quadratic trend candidates are compared on their cross-validation error rather than discarded.", "quantifier": "every dimension and every number of samples", "why_tests_cant": "All sample sizes and dimensions.", "anchors": ["crates/moe/src/expertise_macros.rs:compute_error"]}
{"id": "C50", "title": "Cluster-size safeguard", "statement": "Training proceeds with a clustering only when each cluster holds enough points for the selected trend model.", "quantifier": "every clustering, dimension and trend", "why_tests_cant": "All cluster sizes and dimensions.", "anchors": ["crates/moe/src/algorithm.rs:check_number_of_points"]}
{"id": "C51", "title": "Normalization is invertible", "statement": "Normalized training data have zero mean in each column, and denormalizing returns the original data, constant columns included.", "quantifier": "every data matrix with at least two rows (real arithmetic)", "why_tests_cant": "All matrices.", "anchors": ["crates/gp/src/utils.rs:normalize"]}
{"id": "C52", "title": "Difference matrix enumerates each pair once", "statement": "The training difference structure lists every unordered pair of observations exactly once, n(n-1)/2 in total, with the componentwise absolute difference of the two observations.", "quantifier": "every number of observations >= 1 and every dimension", "why_tests_cant": "All sizes.", "anchors": ["crates/gp/src/utils.rs:DiffMatrix::_cross_diff"]}
{"id": "C53", "title": "Correlation matrix is symmetric with unit-plus-nugget diagonal", "statement": "The assembled correlation matrix is symmetric, has 1+nugget on the diagonal and the correlation of observations i and j at (i, j).", "quantifier": "every number of observations, every kernel", "why_tests_cant": "All sizes.", "anchors": ["crates/gp/src/algorithm.rs:reduced_likelihood", "crates/gp/src/utils.rs:DiffMatrix"]}
{"id": "C54", "title": "Correlation functions are correlations", "statement": "All kernels give values in (0, 1], exactly 1 at distance zero, and are even in every component of the difference.", "quantifier": "every kernel, every non-negative hyperparameter vector, every PLS weight matrix, every difference vector, every dimension", "why_tests_cant": "All inputs.", "anchors": ["crates/gp/src/correlation_models.rs:value"]}
{"id": "C55", "title": "Correlation jacobians are derivatives", "statement": "The jacobian of a kernel with respect to x is the partial derivative of the kernel value with respect to each component (where it is differentiable).", "quantifier": "every kernel, dimension, hyperparameters, weights, points", "why_tests_cant": "Calculus identity over all inputs; finite difference tests only sample points.", "anchors": ["crates/gp/src/correlation_models.rs:jacobian", "crates/gp/src/correlation_models.rs:valjac"]}
{"id": "C56", "title": "Trend model jacobians are derivatives", "statement": "The jacobian of the constant, linear and quadratic trends is the derivative of the trend basis, and the basis has 1, 1+n, 1+n+n(n+1)/2 functions.", "quantifier": "every dimension and every point", "why_tests_cant": "All dimensions.", "anchors": ["crates/gp/src/mean_models.rs:value", "crates/gp/src/mean_models.rs:jacobian"]}
{"id": "C57", "title": "Interpolation", "statement": "With a zero nugget, a trained Gaussian process predicts exactly the training outputs at the training inputs, with zero variance; with nugget g the deviation at training point i is g times the i-th weight times the output scale.", "quantifier": "every training set, trend and kernel for which the linear systems are solved exactly", "why_tests_cant": "All training sets.", "anchors": ["crates/gp/src/algorithm.rs:predict", "crates/gp/src/algorithm.rs:predict_var", "crates/gp/src/algorithm.rs:reduced_likelihood"]}
{"id": "C58", "title": "Predicted variance is non-negative", "statement": "Predicted variances are never negative, for full and sparse models and for mixtures of experts.", "quantifier": "every model and point", "why_tests_cant": "All models and points.", "anchors": ["crates/gp/src/algorithm.rs:predict_var", "crates/gp/src/sparse_algorithm.rs:predict_var", "crates/moe/src/algorithm.rs:predict_var_smooth"]}
{"id": "C59", "title": "Prediction gradients are derivatives", "statement": "The predicted gradient of a Gaussian process is the derivative of the predicted mean with respect to each input component, taking normalization into account.", "quantifier": "every trained model, every point where the kernel is differentiable", "why_tests_cant": "Calculus identity over all models.", "anchors": ["crates/gp/src/algorithm.rs:predict_jacobian", "crates/gp/src/algorithm.rs:predict_kth_derivatives"]}
{"id": "C60", "title": "Hyperparameter tuning setters keep the tuning mode", "statement": "Setting the initial guess or the bounds of the hyperparameters keeps the rest of the tuning specification, in particular the restriction to active components.", "quantifier": "every tuning specification and every new value", "why_tests_cant": "All setter sequences.", "anchors": ["crates/gp/src/parameters.rs:theta_init", "crates/gp/src/parameters.rs:theta_bounds"]}
{"id": "C61", "title": "Partial tuning only moves active hyperparameters within their own bounds", "statement": "With partial tuning, inactive hyperparameters keep their initial value and each active one is searched within its own bounds.", "quantifier": "every set and order of active indexes, all bounds, all optimizer results within the bounds they are given", "why_tests_cant": "All orders of active indexes.", "anchors": ["crates/gp/src/algorithm.rs:fit", "crates/gp/src/optimization.rs:prepare_multistart"]}
{"id": "C62", "title": "Multistart points are well-formed", "statement": "The hyperparameter multistart has n_start+1 starting points: the user's initial guess first, all the others within the (log10) bounds.", "quantifier": "every n_start, every guess, bounds and random draw", "why_tests_cant": "All inputs and draws.", "anchors": ["crates/gp/src/optimization.rs:prepare_multistart"]}
{"id": "C63", "title": "Expected improvement is non-negative and its gradient is its derivative", "statement": "The expected improvement is never negative, is zero when the variance vanishes, and its gradient is the derivative of its value, sigma weighting included, wherever the predicted variance is not exactly the threshold (machine epsilon) below which it is taken as zero.", "quantifier": "every mean, variance, best value, weight and differentiable model", "why_tests_cant": "Calculus and positivity over the reals.", "anchors": ["crates/ego/src/criteria/ei.rs:value", "crates/ego/src/criteria/ei.rs:grad"]}
{"id": "C64", "title": "Probability of feasibility and its gradient", "statement": "The probability of feasibility lies in [0, 1] and its gradient is its derivative, for any constraint tolerance; for several constraints the product rule holds.", "quantifier": "every mean, variance, tolerance, number of constraints", "why_tests_cant": "Calculus identity; tests only use zero tolerance.", "anchors": ["crates/ego/src/utils/cstr_pof.rs:pof", "crates/ego/src/utils/cstr_pof.rs:pof_grad", "crates/ego/src/utils/cstr_pof.rs:pofs_grad"]}
{"id": "C65", "title": "Upper trust bound gradient", "statement": "The gradient of the upper-trust-bound constraint is the derivative of its value in every component.", "quantifier": "every model, every dimension, every component", "why_tests_cant": "All dimensions.", "anchors": ["crates/ego/src/solver/solver_computations.rs:upper_trust_bound_cstr"]}
{"id": "C66", "title": "Multistart picks separated middle points within the domain", "statement": "Middle points proposed as starting points are midpoints of pairs of existing samples, hence lie within the domain box when samples do, and each is at least as close to its two generators as to any other sample or earlier selected start.", "quantifier": "every sample set and scaling", "why_tests_cant": "All sample sets.", "anchors": ["crates/ego/src/utils/start_points.rs:start_points"]}
{"id": "C67", "title": "Number of starting points", "statement": "The multistart always provides exactly the requested number of starting points.", "quantifier": "every sample set, dimension and number of starts", "why_tests_cant": "All sizes.", "anchors": ["crates/ego/src/solver/solver_computations.rs:MiddlePickerMultiStarter::multistart"]}
{"id": "C68", "title": "Sorting permutation is correct", "statement": "Sorting rows yields a permutation of the rows in the requested order, and applying the permutation moves rows without loss or duplication.", "quantifier": "every array and strict order", "why_tests_cant": "All arrays.", "anchors": ["crates/ego/src/utils/sort_axis.rs:sort_axis_by", "crates/ego/src/utils/sort_axis.rs:permute_axis"]}
{"id": "C69", "title": "Coverage and scores stay in range", "statement": "Empirical coverages are in [0, 1] and monotone in the interval width, and predictive coefficients Q2 are at most 1, reaching 1 only for exact predictions.", "quantifier": "all predictions, variances and targets", "why_tests_cant": "All data.", "anchors": ["crates/moe/src/metrics.rs:empirical_coverage", "crates/moe/src/metrics.rs:q2_k_score", "crates/gp/src/metrics.rs:q2_score"]}
{"id": "C70", "title": "Sparse model posterior variance", "statement": "The variance predicted by a sparse model with the VFE method is the posterior variance: it does not exceed the prior variance plus noise and tends to the prior variance when the noise grows.", "quantifier": "every inducing set, training set, noise level", "why_tests_cant": "All data and noise levels.", "anchors": ["crates/gp/src/sparse_algorithm.rs:vfe", "crates/gp/src/sparse_algorithm.rs:fitc", "crates/gp/src/sparse_algorithm.rs:predict_var"]}
{"id": "C71", "title": "Inducing points are training points", "statement": "Randomly selected inducing points are distinct rows of the training set, min(requested, available) in number.", "quantifier": "every training set, requested number and shuffle", "why_tests_cant": "All shuffles.", "anchors": ["crates/gp/src/sparse_algorithm.rs:make_inducings"]}
{"id": "C72", "title": "Sparse model accepts per-component bounds", "statement": "A sparse model with one initial value and one bound per hyperparameter component can be trained.", "quantifier": "every dimension >= 2", "why_tests_cant": "All dimensions and noise settings.", "anchors": ["crates/gp/src/sparse_algorithm.rs:fit"]}
{"id": "C73", "title": "Clustering schedule", "statement": "Surrogates are re-clustered at the first iteration and, with automatic clustering, exactly when the number of points is a multiple of ten that was just reached by adding points.", "quantifier": "all histories of point counts", "why_tests_cant": "All histories.", "anchors": ["crates/ego/src/solver/solver_impl.rs:have_to_recluster", "crates/ego/src/solver/solver_impl.rs:select_next_points"]}
{"id": "C74", "title": "Hyperparameter optimization schedule", "statement": "Hyperparameters are re-optimized exactly at the points whose running number is a multiple of q_optmod, hence at least once in any q_optmod consecutive proposals.", "quantifier": "every q_optmod >= 1, q_points, iteration", "why_tests_cant": "All iteration numbers.", "anchors": ["crates/ego/src/solver/solver_impl.rs:select_next_points"]}
{"id": "C75", "title": "Optimization history file", "statement": "The history written after k iterations has exactly k rows, the i-th row being the best cost and best parameters after iteration i; its objective column never worsens.", "quantifier": "all runs", "why_tests_cant": "All runs and lengths.", "anchors": ["crates/ego/src/egor.rs:OptimizationObserver::observe_iter"]}
{"id": "C76", "title": "Portfolio selection returns members", "statement": "Selecting from a portfolio of proposals returns at least one point, each being one of the portfolio proposals with its own outputs and constraint values, at most one per cluster.", "quantifier": "every portfolio and every clustering of it", "why_tests_cant": "All clusterings.", "anchors": ["crates/ego/src/utils/portfolio.rs:select_from_portfolio"]}
{"id": "C77", "title": "Improvement is only recorded when the best point changed", "statement": "An iteration that leaves the best point unchanged does not change the reported iteration of last improvement.", "quantifier": "all runs, all iterations, including the one that ends the run", "why_tests_cant": "Depends on stale counters left by an earlier iteration; all histories.", "anchors": ["crates/ego/src/solver/egor_state.rs:update", "crates/ego/src/solver/egor_state.rs:is_best"]}
{"id": "C78", "title": "A run stopped by the target has reached it with a feasible point", "statement": "When a run ends with status target reached, the best point has an objective at most the target and satisfies the constraints.", "quantifier": "all runs with a target", "why_tests_cant": "All histories and all orders of feasible and infeasible points.", "anchors": ["crates/ego/src/solver/egor_state.rs:terminate", "crates/ego/src/solver/egor_solver.rs:terminate", "crates/ego/src/solver/egor_state.rs:get_best_cost"]}
{"id": "C79", "title": "A checkpoint can always be reloaded", "statement": "The checkpoint written at the end of an iteration can be loaded by the next session, whatever values the objective returned.", "quantifier": "all runs, all objective values that are not NaN", "why_tests_cant": "Depends on values that appear anywhere in the history.", "anchors": ["crates/ego/src/utils/hot_start.rs:HotStartCheckpoint::save", "crates/ego/src/utils/hot_start.rs:HotStartCheckpoint::load"]}
{"id": "C80", "title": "The cooperative proposal is within bounds and carries its own criterion value", "statement": "The proposal assembled from the optimizations over the variable groups lies within the bounds of the search space; the value reported with it is the criterion at that proposal, unless every inner optimization failed, and then the proposal is the current best point; when they succeed every variable has the value found for its own group.", "quantifier": "every dimension, number of groups, shuffle, and every behaviour of the inner optimizer that respects the bounds it is given", "why_tests_cant": "All shuffles, all failures of inner optimizations.", "anchors": ["crates/ego/src/solver/solver_infill_optim.rs:optimize_infill_criterion", "crates/ego/src/solver/coego.rs:set_active_x"]}
{"id": "C81", "title": "Constraint functions are evaluated at complete points", "statement": "While a criterion is optimized, a constraint function given by the user is called with a complete point of the search space: the same point at which the criterion is evaluated.", "quantifier": "every variable group", "why_tests_cant": "Only fails in cooperative mode together with constraint functions.", "anchors": ["crates/ego/src/solver/solver_infill_optim.rs:optimize_infill_criterion"]}
{"id": "C82", "title": "No point is ever evaluated twice in a run", "statement": "In a whole run, no point added after the initial design is within the duplicate tolerance of any earlier point of the history; no finite point is evaluated twice.", "quantifier": "all runs: every objective, constraint function, surrogate and optimizer proposal, both modes, any number of iterations", "why_tests_cant": "The invariant ranges over all pairs of points of all histories; each iteration filters only its own batch.", "anchors": ["crates/ego/src/utils/misc.rs:update_data", "crates/ego/src/solver/egor_solver.rs:EgorSolver::next_iter"]}
{"id": "C83", "title": "Mixed-integer runs never evaluate the same design twice", "statement": "In a run with integer, ordered or categorical variables, no two points added by the optimizer are evaluated at the same user-space design.", "quantifier": "all variable specifications and all runs", "why_tests_cant": "Only some pairs of relaxed points collapse to the same design, and only when the optimizer proposes them.", "anchors": ["crates/ego/src/utils/misc.rs:update_data", "crates/ego/src/gpmix/mixint.rs:to_discrete_space"]}
{"id": "C84", "title": "Constraint functions receive user-space designs", "statement": "A constraint function given by the user is called with the same representation of the design as the objective function.", "quantifier": "all variable specifications and all points", "why_tests_cant": "Must hold for every specification; the examples use continuous variables only.", "anchors": ["crates/ego/src/solver/solver_impl.rs:EgorSolver::eval_fcstrs", "crates/ego/src/solver/egor_solver.rs:EgorSolver::next_iter"]}
{"id": "C85", "title": "The objective is evaluated at the nearest admissible user-space design", "statement": "The point given to the objective function is the user's form (one coordinate per variable, the level index for a categorical variable) of the nearest admissible point of the proposal; the conversion never panics.", "quantifier": "all variable specifications, all finite relaxed points", "why_tests_cant": "Specifications are unbounded; wrong levels only appear for layouts that examples do not use.", "anchors": ["crates/ego/src/gpmix/mixint.rs:to_discrete_space", "crates/ego/src/gpmix/mixint.rs:fold_with_enum_index"]}
{"id": "C86", "title": "Reported designs are exactly the evaluated designs", "statement": "The designs returned with the results are row by row those at which the objective was evaluated, and the returned best value is the objective at the returned best design.", "quantifier": "all variable specifications and layouts, all objectives, all runs and stopping points", "why_tests_cant": "Relates two separate conversions at every history of every run.", "anchors": ["crates/ego/src/egor.rs:Egor::run", "crates/ego/src/gpmix/mixint.rs:to_discrete_space"]}
{"id": "C87", "title": "Surrogate predictions depend only on the cast point", "statement": "Predictions of a mixed-integer surrogate at a relaxed point equal those of the underlying surrogate at its cast point; relaxed points with the same cast get the same prediction.", "quantifier": "all specifications, all relaxed points, every underlying predictor", "why_tests_cant": "Quantifies over all relaxed points of each cell and all predictors.", "anchors": ["crates/ego/src/gpmix/mixint.rs:MixintGpMixture", "crates/ego/src/gpmix/mixint.rs:cast_to_discrete_values"]}
{"id": "C88", "title": "The ask-and-tell service returns admissible designs", "statement": "Given user-space data, the service hands the relaxed form of the data to the solver and returns the user's form of the nearest admissible point of every proposal, without panicking.", "quantifier": "all specifications, all data sets, all proposals of the solver", "why_tests_cant": "Layouts of specifications are unbounded; the failing ones are not in the examples.", "anchors": ["crates/ego/src/solver/egor_service.rs:EgorServiceApi::suggest", "crates/ego/src/gpmix/mixint.rs:unfold_with_enum_mask"]}
{"id": "C89", "title": "The announced smoothing factor is the one applied", "statement": "The smoothing factor reported by the recombination mode of a mixture is the one used to compute its responsibilities, whether set at training or afterwards.", "quantifier": "every training outcome and every later change of the recombination mode", "why_tests_cant": "tests check a few trainings; the claim ranges over every configuration and change of mode", "anchors": ["crates/moe/src/algorithm.rs train set_recombination recombination", "crates/moe/src/gaussian_mixture.rs heaviside_factor"]}
{"id": "C90", "title": "A single hyperparameter value works for all kernels", "statement": "A hyperparameter specification accepted by the checks (one value, or one value per component) can be trained and used for predictions and gradients, whatever the kernel.", "quantifier": "every kernel, every input dimension, every accepted specification", "why_tests_cant": "the failing shapes are combinations of kernel, dimension and tuning mode that tests do not enumerate", "anchors": ["crates/gp/src/correlation_models.rs:CorrelationModel::value", "crates/gp/src/correlation_models.rs:CorrelationModel::jacobian", "crates/gp/src/algorithm.rs:GpValidParams::fit"]}
{"id": "C91", "title": "Predictions are best linear unbiased predictions", "statement": "The predicted mean is a weighted sum of the observed outputs that is exact on the trend functions, and no such sum has a smaller mean squared error under the trained correlations; the predicted variance is that error times the process variance.", "quantifier": "all trained processes, all kernels and trends, all points, all competing weights", "why_tests_cant": "minimality ranges over all weights, points and data sets", "anchors": ["crates/gp/src/algorithm.rs:GaussianProcess::predict", "crates/gp/src/algorithm.rs:GaussianProcess::predict_var", "crates/gp/src/algorithm.rs:reduced_likelihood"]}
{"id": "C92", "title": "Data following the trend are predicted exactly", "statement": "If the outputs are constant, or affine with a linear or quadratic trend, predictions equal that function everywhere, with zero variance.", "quantifier": "all data sets, all kernels, all points", "why_tests_cant": "ranges over all data sets and all prediction points", "anchors": ["crates/gp/src/algorithm.rs:GpValidParams::fit", "crates/gp/src/algorithm.rs:GaussianProcess::predict"]}
{"id": "C93", "title": "Predictions follow changes of output units", "statement": "Training on a y + b instead of y with the same hyperparameters gives predictions a m + b, variances a^2 v and the same likelihood.", "quantifier": "all data sets, all a <> 0 and b, all points", "why_tests_cant": "relates two trainings for all data and all units", "anchors": ["crates/gp/src/algorithm.rs:GpValidParams::fit", "crates/gp/src/utils.rs:NormalizedData"]}
{"id": "C94", "title": "Predictions do not depend on the order of observations", "statement": "Training on the same observations in another order, with the same hyperparameters, gives the same predictions and variances everywhere.", "quantifier": "all data sets, all permutations, all points", "why_tests_cant": "all permutations of all data sets", "anchors": ["crates/gp/src/algorithm.rs:GpValidParams::fit", "crates/gp/src/utils.rs:DiffMatrix::_cross_diff"]}
{"id": "C95", "title": "Predictions do not depend on input units", "statement": "Mapping every input column by an increasing affine function gives the same likelihood and the same predictions at mapped points.", "quantifier": "all data sets without constant column, all such maps", "why_tests_cant": "all data sets and all changes of units", "anchors": ["crates/gp/src/utils.rs:NormalizedData", "crates/gp/src/algorithm.rs:GpValidParams::fit"]}
{"id": "C96", "title": "Points of a batch are predicted independently", "statement": "Predicting a batch never fails on a trained process and gives for each point what predicting it alone gives.", "quantifier": "all trained processes, all batches", "why_tests_cant": "all batches and positions", "anchors": ["crates/gp/src/algorithm.rs:GaussianProcess::predict", "crates/gp/src/utils.rs:pairwise_differences"]}
{"id": "C97", "title": "Covariances of predictions agree with variances", "statement": "The covariance matrix of predictions is symmetric and its diagonal holds the predicted variances (before these are clamped at zero).", "quantifier": "all trained processes, all batches", "why_tests_cant": "all batches and pairs", "anchors": ["crates/gp/src/algorithm.rs:GaussianProcess::_compute_covariance"]}
{"id": "C98", "title": "Hyperparameters do not depend on the scheduling of threads", "statement": "The hyperparameters of a trained process are those of the best of the optimizations run in parallel, the first in order among equals, whatever the scheduling of the threads.", "quantifier": "every schedule, every set of results, every tuning specification", "why_tests_cant": "parallel reductions combine results in any grouping; tests see one schedule", "anchors": ["crates/gp/src/algorithm.rs:GpValidParams::fit", "crates/gp/src/optimization.rs:optimize_params"]}
{"id": "C99", "title": "Training does not decrease the likelihood", "statement": "The likelihood of the trained hyperparameters is at least the likelihood of the initial guess when the guess is in the search space.", "quantifier": "every likelihood function, every search space, every optimizer that does not end above its start, every schedule", "why_tests_cant": "all data and starts", "anchors": ["crates/gp/src/algorithm.rs:GpValidParams::fit", "crates/gp/src/optimization.rs:prepare_multistart"]}
{"id": "C100", "title": "Limit on likelihood evaluations", "statement": "One optimization of the hyperparameters uses at least 25 likelihood evaluations and at most the limit set by the user; a limit below 25 is replaced as documented.", "quantifier": "every limit and number of components", "why_tests_cant": "all limits", "anchors": ["crates/gp/src/parameters.rs:GpParams::max_eval", "crates/gp/src/algorithm.rs:GpValidParams::fit"]}
{"id": "C101", "title": "FITC predictions are the posterior of the FITC model", "statement": "Predictions of a sparse model trained with the FITC method are the mean and variance of a value given the training values, the covariance of the training values being the one seen through the inducing points completed on the diagonal by the unexplained variance and the noise; the noise is added to the predicted variance.", "quantifier": "every kernel, set of inducing points, training set, hyperparameters, noise and point", "why_tests_cant": "the equality of a product of Cholesky factors with a conditional distribution holds for every matrix", "anchors": ["crates/gp/src/sparse_algorithm.rs:fitc,predict,predict_var"]}
{"id": "C102", "title": "Sparse likelihoods are those of the documented models", "statement": "The likelihood of a sparse model is, up to the constant n ln(2 pi)/2, the logarithm of the density of the training values under the FITC model, and for the VFE method the variational lower bound.", "quantifier": "every kernel, inducing points, training set, hyperparameters and noise", "why_tests_cant": "the determinant computed through a small matrix equals that of the large one for all sizes", "anchors": ["crates/gp/src/sparse_algorithm.rs:fitc,vfe"]}
{"id": "C103", "title": "Sparse training succeeds on regular priors", "statement": "Training a sparse model with given hyperparameters does not panic when the prior covariance at the inducing points is positive definite and the noise positive.", "quantifier": "every such prior, training set and method", "why_tests_cant": "a panic on one matrix would be missed", "anchors": ["crates/gp/src/sparse_algorithm.rs:fitc,vfe"]}
{"id": "C104", "title": "Trajectories sampled from a sparse model follow its predictions", "statement": "Trajectories sampled from a sparse model have the predicted mean and the posterior covariance, like those of a full model.", "quantifier": "every sparse model and sampling points", "why_tests_cant": "distributions are not settled by samples", "anchors": ["crates/gp/src/sparse_algorithm.rs:_sample"]}
{"id": "C105", "title": "Tuning of a sparse model respects the request", "statement": "A fixed theta keeps its value, components excluded from the tuning keep theirs, and tuned theta, variance and noise stay in their search spaces.", "quantifier": "every request, optimizer that stays in its bounds, schedule and dimension", "why_tests_cant": "all likelihoods and schedules", "anchors": ["crates/gp/src/sparse_algorithm.rs:fit"]}
{"id": "C106", "title": "Dimensions of a sparse model", "statement": "The dimensions reported by a sparse model are the number of inputs and the number of outputs, which is one.", "quantifier": "every training set", "why_tests_cant": "sizes are unbounded", "anchors": ["crates/gp/src/sparse_algorithm.rs:dims"]}
{"id": "C107", "title": "Criteria are the probabilistic quantities they are named after", "statement": "The expected improvement at a point is the expectation, under the predictive normal distribution, of the decrease below the best value; the probability of feasibility is the probability, under the predictive distribution of the constraint, that it is at most its tolerance.", "quantifier": "every surrogate, best value, tolerance and point", "why_tests_cant": "an integral over all the outcomes is compared with a closed form at every point", "anchors": ["crates/ego/src/criteria/ei.rs:value", "crates/ego/src/utils/cstr_pof.rs:pof", "crates/ego/src/utils/misc.rs:norm_cdf,norm_pdf"]}
{"id": "C108", "title": "The inner optimizer is given the gradient of its objective", "statement": "The gradient of the objective handed to the inner optimizer, with its scaling, portfolio weight and feasibility factor, is the derivative of the objective's value.", "quantifier": "every surrogate, criterion, scale, weight, list of constraint surrogates and point", "why_tests_cant": "a derivative is a limit; finite differences at a few points settle nothing", "anchors": ["crates/ego/src/solver/solver_computations.rs:eval_infill_obj,eval_grad_infill_obj,eval_constrained_infill_obj,eval_grad_constrained_infill_obj"]}
{"id": "C109", "title": "LogEI is the logarithm of the expected improvement", "statement": "The LogEI criterion is the logarithm of the expected improvement and its gradient is the derivative of its value.", "quantifier": "every surrogate, best value and point", "why_tests_cant": "the identity between two different closed forms must hold over an unbounded range", "anchors": ["crates/ego/src/criteria/ei.rs:LogExpectedImprovement", "crates/ego/src/utils/logei_helper.rs:log_ei_helper,d_log_ei_helper"]}
{"id": "C110", "title": "LogEI is always a number", "statement": "The LogEI criterion, the default one, computed in floating point, is a number whatever the predicted mean and variance.", "quantifier": "every finite standardized improvement", "why_tests_cant": "overflow happens on a range that samples miss", "anchors": ["crates/ego/src/utils/logei_helper.rs:log_ei_helper,log1mexp,erfcx"]}
{"id": "C111", "title": "The constrained criterion prefers points more likely to be feasible", "statement": "Of two points with the same predicted objective, the one at least as likely to satisfy every constraint has an infill objective at most as large.", "quantifier": "every pair of points, criterion and list of constraints", "why_tests_cant": "a preference over all pairs of points", "anchors": ["crates/ego/src/solver/solver_computations.rs:eval_constrained_infill_obj", "crates/ego/src/utils/cstr_pof.rs:pofs,logpofs"]}
{"id": "C112", "title": "The inner optimizer is given the gradients of its constraints", "statement": "The gradients of the constraints handed to the inner optimizer, surrogates or functions, with their scales, are the derivatives of the constraint values.", "quantifier": "every surrogate or differentiable constraint function, scale and point", "why_tests_cant": "derivatives at every point", "anchors": ["crates/ego/src/solver/solver_computations.rs:mean_cstr,upper_trust_bound_cstr", "crates/ego/src/solver/solver_impl.rs:select_next_points"]}
{"id": "C113", "title": "Scaling factors normalize what they scale", "statement": "The scaling factors of the infill criterion and of the constraints are positive, and divide the values at the points they were computed from into [-1, 1].", "quantifier": "every surrogate and sample of points", "why_tests_cant": "a maximum over arbitrary samples", "anchors": ["crates/ego/src/solver/solver_computations.rs:compute_infill_obj_scale", "crates/ego/src/utils/misc.rs:compute_cstr_scales"]}
{"id": "C114", "title": "Virtual values of points chosen in parallel", "statement": "When several points are chosen in one iteration, the virtual outputs of a chosen point are, for the constant liar, the outputs of an observed point of least objective, and for the kriging believers the predictions of the surrogates, the objective being moved by three standard deviations for the upper and lower bound variants.", "quantifier": "every strategy, observed outputs and surrogates", "why_tests_cant": "all the histories of outputs", "anchors": ["crates/ego/src/solver/solver_impl.rs:compute_virtual_point"]}
{"id": "C115", "title": "Criteria follow changes of units", "statement": "When the objective is expressed in other units, multiplying values by a positive factor, the expected improvement is multiplied by the factor and the probability of feasibility is unchanged.", "quantifier": "every surrogate, point and positive factor", "why_tests_cant": "an invariance over all factors", "anchors": ["crates/ego/src/criteria/ei.rs:value", "crates/ego/src/utils/cstr_pof.rs:pof"]}
{"id": "C116", "title": "Reused hyperparameters are the latest", "statement": "When a surrogate is rebuilt without optimizing hyperparameters, it uses those of the surrogate of the same output trained just before.", "quantifier": "every configuration, builder and sequence of trainings", "why_tests_cant": "depends on the whole sequence of trainings of a run", "anchors": ["crates/ego/src/solver/solver_impl.rs:make_clustered_surrogate", "crates/ego/src/solver/solver_impl.rs:select_next_points"]}
{"id": "C117", "title": "Cooperative tuning uses every group", "statement": "In cooperative mode hyperparameters are tuned group by group and each further group never lowers the likelihood of the returned surrogate, for the objective and for each constraint.", "quantifier": "every set of groups, builder, data", "why_tests_cant": "needs any number of groups and any builder", "anchors": ["crates/ego/src/solver/solver_impl.rs:make_clustered_surrogate", "crates/ego/src/solver/coego.rs:set_partial_theta_tuning"]}
{"id": "C118", "title": "Requested hyperparameters are honoured", "statement": "Hyperparameters the user gives as fixed are those of every surrogate of the run, and given initial values and bounds are where the search starts and stays.", "quantifier": "every configuration and builder", "why_tests_cant": "tests read the log of one configuration", "anchors": ["crates/ego/src/solver/solver_impl.rs:make_clustered_surrogate", "crates/ego/src/solver/egor_config.rs:theta_tuning"]}
{"id": "C119", "title": "Default hyperparameter range", "statement": "Without bounds from the user, hyperparameters are searched in a proper interval of positive numbers that depends on the dimension and on the kernel; bounds from the user are used as given.", "quantifier": "every dimension, kernel selection and tuning", "why_tests_cant": "all dimensions and kernels", "anchors": ["crates/ego/src/utils/bounds.rs:theta_bounds", "crates/ego/src/utils/bounds.rs:special_bounds"]}
{"id": "C120", "title": "Run record is complete", "statement": "The recorded run lists every point of the history exactly once, in order, with its first output, split into the initial samples and one numbered batch per iteration, with matching totals.", "quantifier": "all runs, including trust-region steps and early ends", "why_tests_cant": "all histories", "anchors": ["crates/ego/src/utils/run_recorder.rs:init_run_info", "crates/ego/src/utils/run_recorder.rs:update_run_info", "crates/ego/src/solver/egor_solver.rs:next_iter"]}
{"id": "C121", "title": "Calibration score can be zero", "statement": "The integrated absolute error of the confidence intervals compares the coverage of the intervals with their nominal levels; a well calibrated model can reach a score of zero, in particular with the default leave-one-out cross-validation.", "quantifier": "every model, data set and number of folds", "why_tests_cant": "all data sets and models", "anchors": ["crates/moe/src/metrics.rs:iae_alpha_k_score", "crates/moe/src/metrics.rs:iae_alpha_score", "crates/moe/src/metrics.rs:iae_alpha"]}
{"id": "C122", "title": "Selected proposals keep their infill data", "statement": "The infill value and data returned with a selection of proposals are those of a selected proposal, and no isolated proposal is thrown away.", "quantifier": "every portfolio and every clustering of it", "why_tests_cant": "all clusterings and orders of a hash map", "anchors": ["crates/ego/src/utils/portfolio.rs:select_from_portfolio", "crates/ego/src/utils/portfolio.rs:cluster_as_indices"]}
{"id": "C123", "title": "Correlations are valid for every set of points", "statement": "Whatever the points, the weights and the nonnegative hyperparameters, the correlations computed by each of the four kernels give no weighted sum of values a negative variance, and a positive one when a positive nugget is added, even when points coincide.", "quantifier": "every kernel, number of inputs, projection, theta >= 0, finite set of points, weights", "why_tests_cant": "The claim is about all sets of points and all weights; it rests on analytic facts about each kernel (series and integral representations) that no finite set of points shows.", "anchors": ["crates/ego/src/solver/coego.rs", "crates/gp/src/utils.rs"]}
{"id": "C124", "title": "Training succeeds on every data set with a positive nugget", "statement": "Training a Gaussian process with given hyperparameters on two points or more, repeated points and constant columns included, does not fail in the factorization of the correlation matrix when the nugget is positive; the only other cause of failure is the reported conditioning of the trend.", "quantifier": "every data set, kernel, trend, theta >= 0, nugget > 0", "why_tests_cant": "Failure depends on the positive definiteness of a matrix built from arbitrary data.", "anchors": ["crates/gp/src/algorithm.rs", "crates/gp/src/utils.rs", "crates/ego/src/solver/coego.rs"]}
{"id": "C125", "title": "Covariances of predictions are valid", "statement": "The covariance matrix of predictions at any points is positive semidefinite, and the predicted variance is the process variance times the mean squared error of the prediction: the limit at zero never replaces a negative number in exact arithmetic.", "quantifier": "every trained process, set of points, weights, nugget >= 0", "why_tests_cant": "The sign of a quadratic form in arbitrary many points and weights is not settled by evaluations.", "anchors": ["crates/gp/src/algorithm.rs", "crates/ego/src/solver/coego.rs"]}
{"id": "C126", "title": "Sparse training always succeeds and variances stay in range", "statement": "With a positive nugget (and a positive noise for FITC), training a sparse model with given hyperparameters never panics, whatever the inducing and training points; with FITC the predicted variance is between the noise and the prior variance (or 1e-15 when that is larger) plus the noise; trajectories are sampled with a valid covariance.", "quantifier": "every kernel, data, inducing points, theta >= 0, variance >= 0, noise > 0, nugget > 0", "why_tests_cant": "It needs the positive definiteness of the prior covariance and a bound on what inducing points explain for all data.", "anchors": ["crates/gp/src/sparse_algorithm.rs", "crates/ego/src/solver/coego.rs"]}
{"id": "C127", "title": "Automatic number of clusters stays in range", "statement": "When the number of clusters is automatic, the number used is at least one and at most the requested maximum, or a tenth of the number of points plus one without a maximum, whatever the clusterings, trainings and predictions of the cross validation give.", "quantifier": "every data set, maximum, outcome of clusterings, trainings and predictions", "why_tests_cant": "The search stops early depending on errors of arbitrarily many trials; tests see a few data sets.", "anchors": ["crates/moe/src/clustering.rs:find_best_number_of_clusters", "crates/moe/src/algorithm.rs:train"]}
{"id": "C128", "title": "Automatic clustering selects the least cross-validation error", "statement": "The selected number of clusters passed the cross validation and its error with the selected recombination is the smallest among the numbers tried and the two recombinations, errors being measured alike; numbers are tried in increasing order until the maximum or until both errors fail to decrease twice in a row.", "quantifier": "every outcome of the cross validation of every number of clusters", "why_tests_cant": "It compares the result with every other candidate for all possible outcomes of the trials.", "anchors": ["crates/moe/src/clustering.rs:find_best_number_of_clusters"]}
{"id": "C129", "title": "Automatic clustering always answers", "statement": "The automatic choice of the number of clusters returns whatever the outcomes of clusterings, trainings and predictions: failures only rule a number of clusters out.", "quantifier": "every outcome of clusterings, trainings and predictions, every output values", "why_tests_cant": "Failures of the clustering and degenerate folds are hard to provoke and their combinations unbounded.", "anchors": ["crates/moe/src/clustering.rs:find_best_number_of_clusters"]}
{"id": "C130", "title": "Python get_result gives the best evaluation", "statement": "From the evaluations of the objective and constraints, the Python result is the best point: feasible when there is one, then with the lowest objective, otherwise with the least violation.", "quantifier": "every number of evaluations, constraints, values, tolerances", "why_tests_cant": "It must hold for every shape of the evaluations; the binding is tested on one unconstrained problem.", "anchors": ["python/src/egor.rs:get_result", "python/src/egor.rs:get_result_index", "crates/ego/src/utils/find_result.rs"]}
{"id": "C131", "title": "Python surrogate settings have their documented effect", "statement": "Each field of the Python surrogate configuration (models, projection, number of clusters, recombination, initial hyperparameters and bounds, restarts, evaluations) reaches the surrogates of Gpx and Egor with its documented meaning.", "quantifier": "every configuration", "why_tests_cant": "Settings combine; an ignored one shows no error.", "anchors": ["python/src/gp_config.rs:GpConfig", "python/src/gp_mix.rs:fit", "python/src/egor.rs:apply_config"]}
{"id": "C132", "title": "Python domain is the explored domain", "statement": "The values each variable may take during the optimization are exactly those of its description in Python: real limits, integers between limits, listed values, indices of tags or of a size.", "quantifier": "every list of variable descriptions, every value", "why_tests_cant": "It quantifies over all limits, including non-integer and very large ones for integer variables.", "anchors": ["python/src/domain.rs:parse", "python/src/domain.rs:xtypes_from_xspecs", "crates/ego/src/utils/misc.rs"]}
{"id": "C133", "title": "Reported trend, variance and likelihood are the maximum likelihood ones", "statement": "For the hyperparameters used, the reported trend coefficients and process variance give the observations the largest Gaussian density among all coefficients and variances, and the reported likelihood is the logarithm of this density up to a positive factor and a term depending on the outputs only: of two processes trained on the same outputs, the one with the larger reported likelihood has the larger maximal density.", "quantifier": "every training set, kernel, trend, hyperparameters, nugget, projection with an exact QR factorization and a positive variance, every other coefficients and variance", "why_tests_cant": "It compares with every other coefficient vector and variance; tests compare one likelihood with a stored value.", "anchors": ["crates/gp/src/algorithm.rs:reduced_likelihood", "crates/gp/src/algorithm.rs:fit"]}
{"id": "C134", "title": "Sampled trajectories follow the predictions", "statement": "Trajectories sampled from a Gaussian process at any points have, on average over standard normal draws, the predicted mean at each point, the predicted variance, and the predicted covariance between points; without nugget they pass through the training data.", "quantifier": "every trained dense Gaussian process, every finite set of points, both sampling methods, every average over uncorrelated standard draws", "why_tests_cant": "A test draws a few trajectories and plots them; the moments range over all draws, and all point sets.", "anchors": ["crates/gp/src/algorithm.rs:sample", "crates/gp/src/algorithm.rs:_sample", "crates/gp/src/algorithm.rs:_compute_covariance"]}
{"id": "C135", "title": "Prediction entry points agree", "statement": "The values and variances predicted together are those predicted by the separate functions, for Gaussian processes, smooth and hard mixtures; and a mixed-integer surrogate gives the same predictions through the surrogate interface and through the linfa interface.", "quantifier": "every trained model, every set of points, all variable types", "why_tests_cant": "Tests call each function on its own at a few points; agreement ranges over all models and points, in particular the discrete ones.", "anchors": ["crates/gp/src/algorithm.rs:predict_valvar", "crates/moe/src/algorithm.rs:predict_valvar_smooth", "crates/moe/src/algorithm.rs:predict_valvar_hard", "crates/ego/src/gpmix/mixint.rs:predict_inplace"]}
{"id": "C136", "title": "A saved model is read back", "statement": "Any trained model saved to a file, as JSON or binary, is read back by the loading function as the same model, hence with the same predictions; saving from Python returns False when it fails.", "quantifier": "all models (dense, sparse, mixtures, mixed-integer mixtures), both formats, all values of their numbers, all file names", "why_tests_cant": "Tests save one dense process and one mixture as JSON; the models, the formats and the values stored are unbounded.", "anchors": ["crates/moe/src/surrogates.rs:save", "crates/moe/src/surrogates.rs:load", "crates/moe/src/algorithm.rs:save", "crates/moe/src/algorithm.rs:load", "crates/ego/src/gpmix/mixint.rs:save", "crates/ego/src/gpmix/mixint.rs:load", "python/src/gp_mix.rs:save", "python/src/gp_mix.rs:load"]}
{"id": "C137", "title": "Samples of a mixed-integer context are designs the context can train on", "statement": "The points sampled through a mixed-integer context are designs as the user writes them, nearest to the points of the underlying continuous design, and a surrogate created by the same context can be trained on them, receiving exactly these nearest admissible points.", "quantifier": "every list of variables, every continuous design within the limits", "why_tests_cant": "Tests use one context with a fixed order of variables; the order and number of categorical variables are unbounded.", "anchors": ["crates/ego/src/gpmix/mixint.rs:create_lhs_sampling", "crates/ego/src/gpmix/mixint.rs:create_surrogate", "crates/doe/src/traits.rs:sample"]}
{"id": "C138", "title": "The inner optimization proposes the best of its runs", "statement": "Whatever the thread scheduling, the multistart optimization of the infill criterion proposes the first of its successful runs with the least criterion value, ignoring runs that fail or give NaN; the proposal is within the domain; both algorithms (Cobyla and Slsqp) are given the same constraints, relaxed by the user's tolerances; a run that ended at a feasible point is preferred to one that violates a constraint.", "quantifier": "every external optimizer that respects its bounds, all starts, schedulings, groups of variables, constraint values, scales and tolerances", "why_tests_cant": "Tests run whole optimizations on two functions; the schedulings, the outcomes of the runs and the scales are unbounded.", "anchors": ["crates/ego/src/optimizers/optimizer.rs:minimize", "crates/ego/src/solver/solver_infill_optim.rs:optimize_infill_criterion", "crates/ego/src/solver/coego.rs:get_active_x"]}
{"id": "C139", "title": "Local steps stay in the trust region", "statement": "In trust-region mode the point proposed by a local step is in the domain and in the trust region around the current best point.", "quantifier": "every domain, best point, size of the trust region, external optimizer respecting the bounds it is given, starts, scheduling", "why_tests_cant": "Tests check the optimum found on two functions; where local steps may go ranges over all optimizers and states.", "anchors": ["crates/ego/src/solver/trego.rs:trego_step", "crates/ego/src/solver/solver_infill_optim.rs:optimize_infill_criterion", "crates/ego/src/solver/egor_config.rs:TregoConfig"]}
{"id": "C140", "title": "User functions are only evaluated in the domain", "statement": "A run started from a design in the domain keeps and evaluates points of the domain only: the objective and constraint functions may do anything elsewhere without changing the run.", "quantifier": "every run of any length, with and without trust region, every optimizer respecting its bounds", "why_tests_cant": "Unbounded executions over all functions; tests only look at final results.", "anchors": ["crates/ego/src/solver/solver_impl.rs:ego_step", "crates/ego/src/solver/trego.rs:trego_step", "crates/ego/src/solver/solver_infill_optim.rs:optimize_infill_criterion", "crates/ego/src/solver/egor_solver.rs:init"]}
{"id": "C141", "title": "Gradients of sparse models are the derivatives of their predictions", "statement": "For a trained sparse Gaussian process, every component of predict_gradients is the partial derivative of the predicted value, and every component of predict_var_gradients the partial derivative of the predicted variance, up to a small relative error.", "quantifier": "every trained sparse model, correlation, hyperparameter, point and component", "why_tests_cant": "Tests compare with a finite difference of the same step at a few points of one model; accuracy depends on length scales and positions of the inducing points.", "anchors": ["crates/gp/src/sparse_algorithm.rs:predict_gradients", "crates/gp/src/sparse_algorithm.rs:predict_var_gradients"]}
{"id": "C142", "title": "A smooth mixture uses a factor selected on held-out data", "statement": "When a mixture is trained with smooth recombination and without a factor, the factor it uses is the one, among twenty values between 0.1 and 2.1, with the least error on data held out from the training of the experts compared, however the number of clusters is chosen.", "quantifier": "every training set, clustering, expert family, set of factors and way to choose the number of clusters", "why_tests_cant": "Tests train on a few functions and look at predictions; which factor was used and which rows the experts had seen is not observable in them.", "anchors": ["crates/moe/src/algorithm.rs:optimize_heaviside_factor", "crates/moe/src/algorithm.rs:train", "crates/moe/src/parameters.rs:NbClusters"]}
{"id": "C143", "title": "Training a mixture returns a model or an error", "statement": "Fitting a mixture of Gaussian processes, with any parameters and training data, returns a model or an error; it does not panic.", "quantifier": "every parameter set, training set and behaviour of clustering and experts", "why_tests_cant": "Tests use consistent parameters; panics come from combinations of parameters and from values that are not numbers.", "anchors": ["crates/moe/src/parameters.rs:check_ref", "crates/moe/src/algorithm.rs:train", "crates/moe/src/algorithm.rs:optimize_heaviside_factor"]}
{"id": "C144", "title": "A run goes on when the objective is not a number", "statement": "If the objective function returns NaN at some points (a simulation that fails without a fail-safe strategy), the run goes on: such a point is never reported as the best while another one is feasible with a number as objective, and no evaluation makes the run panic, in the initial design or later.", "quantifier": "every configuration, objective, initial design, reached state and evaluation of the proposals", "why_tests_cant": "Tests use objectives defined everywhere; where the NaN comes in the history, and whether there are constraints, changes the code that selects the best point.", "anchors": ["crates/ego/src/utils/find_result.rs:find_best_result_index", "crates/ego/src/utils/find_result.rs:find_best_result_index_from", "crates/ego/src/utils/find_result.rs:cstr_min", "crates/ego/src/solver/egor_solver.rs:init", "crates/ego/src/solver/solver_impl.rs:ego_step"]}
{"id": "C145", "title": "Training works in single as in double precision", "statement": "Gaussian processes are generic in the type of numbers: trained on f32 data, the optimizer of the likelihood is given the start, the bounds and the likelihood values of the problem, as with f64 data, whatever else is in memory.", "quantifier": "every array of numbers, every content of memory around it, every type of numbers accepted by the API", "why_tests_cant": "All tests and examples use f64; with f32 the values read depend on neighbouring memory, so no run of a test is representative.", "anchors": ["crates/gp/src/optimization.rs:into_f64", "crates/gp/src/optimization.rs:optimize_params", "crates/gp/src/algorithm.rs:fit", "crates/gp/src/sparse_algorithm.rs:fit"]}
{"id": "C146", "title": "Gradients of mixed-integer surrogates are derivatives of their predictions", "statement": "The gradient methods of a mixed-integer surrogate return, for each point, one column per component of the point, equal to the partial derivative of the prediction (or variance) of that surrogate with respect to this component.", "quantifier": "every list of variable types, every decorated surrogate, every point in unfolded or folded space", "why_tests_cant": "The mismatch only shows by comparing derivatives of a step function with the returned gradient at all points; shapes differ only with categorical variables in folded space.", "anchors": ["crates/ego/src/gpmix/mixint.rs:predict_gradients", "crates/ego/src/gpmix/mixint.rs:predict_var_gradients", "crates/ego/src/gpmix/mixint.rs:predict_valvar_gradients", "crates/ego/src/gpmix/mixint.rs:cast_to_discrete_values_mut"]}
{"id": "C147", "title": "A seed makes runs reproducible", "statement": "Two runs with the same configuration, the same functions and the same seed evaluate the same points, in the same order, and report the same result; so do two requests of suggestions with the same data.", "quantifier": "every seed, configuration, objective, number of iterations, and every pair of entropies of the operating system (unseeded generators, order of hash maps)", "why_tests_cant": "a test repeats a run a few times; it cannot try all the entropies, and default settings hide the unseeded generators", "anchors": ["crates/ego/src/solver/egor_solver.rs:init", "crates/ego/src/solver/solver_impl.rs:select_next_points", "crates/ego/src/solver/solver_impl.rs:suggest", "crates/moe/src/parameters.rs:new", "crates/gp/src/optimization.rs:prepare_multistart", "crates/ego/src/utils/portfolio.rs:cluster_as_indices"]}
{"id": "C148", "title": "Constraint functions may have no value at some points", "statement": "If a constraint function is NaN or infinite at some points of the domain, the run goes on, and points where it is NaN or violated are neither stored as satisfying it nor reported as the best while another point satisfies all constraints.", "quantifier": "every problem, proposals, sample of points used for the scaling, reached state", "why_tests_cant": "NaN and infinities reach the scaling factors and the ranking through any of the sampled or evaluated points; no finite set of tests covers where they occur", "anchors": ["crates/ego/src/solver/solver_computations.rs:compute_scaling", "crates/ego/src/solver/solver_computations.rs:eval_fcstrs", "crates/ego/src/solver/solver_impl.rs:select_next_points", "crates/ego/src/utils/find_result.rs:cstr_sum"]}
{"id": "C149", "title": "A seed makes the training of sparse mixtures reproducible", "statement": "Training a sparse mixture twice with the same seed, on the same data, gives the same inducing points and the same model, whatever seed is used.", "quantifier": "every seed, training set, number of inducing points, clusters and behaviour of the operating system generator", "why_tests_cant": "whether the seed is used depends on one bit of the generator, so that tests with a few seeds may all succeed", "anchors": ["python/src/sparse_gp_mix.rs:fit", "crates/moe/src/algorithm.rs:find_best_expert", "crates/gp/src/sparse_algorithm.rs:fit", "crates/gp/src/sparse_algorithm.rs:make_inducings"]}
{"id": "C150", "title": "Experts are trained with the settings of the mixture", "statement": "Each expert of a mixture, of full or sparse processes, is trained on the points of its cluster with the settings of the mixture: an allowed trend and correlation, the hyperparameter tuning given for its cluster (or the only one given), the number of starts, the maximum number of likelihood evaluations, the reduced dimension and, for sparse processes, the method and the inducing points.", "quantifier": "every mixture setting, list of tunings, training set, clustering and cluster", "why_tests_cant": "all combinations of settings, clusterings and types of process", "anchors": ["crates/moe/src/algorithm.rs:find_best_expert", "crates/moe/src/parameters.rs:GpMixtureParams", "crates/gp/src/sparse_parameters.rs:SgpParams"]}
{"id": "C151", "title": "The expected improvement is accurate in double precision", "statement": "Computed in doubles, the expected improvement of a point with a finite prediction of ordinary size is finite, never negative and close to the exact expected improvement of the predicted normal variable: within two millionths of it unless the prediction is more than 36 standard deviations above the best value.", "quantifier": "every finite best value and predicted value below 2^100, variance between the machine epsilon and 2^100, weight between 2^-20 and 2^20, and every libm accurate to four units in the last place", "why_tests_cant": "rounding errors and cancellation for all finite inputs, including values near the smallest doubles", "anchors": ["crates/ego/src/criteria/ei.rs:ExpectedImprovement::value", "crates/ego/src/utils/misc.rs:norm_cdf", "crates/ego/src/utils/misc.rs:norm_pdf"]}
{"id": "C152", "title": "Integer values are evenly represented in sampled designs", "statement": "In a Latin hypercube or random design of a space with integer variables, every value of an integer variable between its bounds is equally represented: it occurs equally often (up to rounding) in a Latin hypercube, and has the same chance in a random draw.", "quantifier": "every Latin hypercube of every number of points, every bounds, every draws and permutations, in exact arithmetic", "why_tests_cant": "the counts must be known for every design the generator can draw", "anchors": ["crates/ego/src/gpmix/mixint.rs:MixintSampling::sample", "crates/ego/src/gpmix/mixint.rs:as_continuous_limits", "crates/ego/src/gpmix/mixint.rs:cast_to_discrete_values_mut", "crates/doe/src/traits.rs:SamplingMethod::sample", "crates/doe/src/lhs.rs:Lhs::normalized_sample"]}
{"id": "C153", "title": "Factorial designs of integer variables have no repeated point", "statement": "A full factorial design of a space of integer variables, with no more points than the space has, never contains the same point twice.", "quantifier": "every list of integer variables and every number of points up to the size of the space", "why_tests_cant": "all numbers of variables, bounds and sizes", "anchors": ["crates/ego/src/gpmix/mixint.rs:MixintContext::create_ffact_sampling", "crates/ego/src/gpmix/mixint.rs:MixintSampling::sample", "crates/doe/src/full_factorial.rs:FullFactorial::normalized_sample"]}
{"id": "C154", "title": "Threads that share a sampling method each get a design", "statement": "Several threads may call the same sampling method (or clones of it) at the same time: each call ends with a design of the requested size and kind, whatever the others do, and the designs are those that the calls would give one after the other in some order.", "quantifier": "every number of threads, every requests, every schedule of the critical sections, every generator", "why_tests_cant": "all interleavings of the critical sections", "anchors": ["crates/doe/src/lhs.rs:RngRef", "crates/doe/src/lhs.rs:Lhs::normalized_sample", "crates/doe/src/lhs.rs:Lhs::_maximin_ese", "crates/doe/src/lhs.rs:Lhs::_maximin_lhs", "crates/doe/src/random.rs:Random::normalized_sample"]}
{"id": "C155", "title": "A clone of a seeded sampling method draws the same designs", "statement": "A clone of a sampling method built with a seeded generator gives the same designs as the original for the same requests, and using one does not affect the other.", "quantifier": "every generator, every sequence of requests on any number of methods", "why_tests_cant": "all histories of requests", "anchors": ["crates/doe/src/lhs.rs:Lhs", "crates/doe/src/lhs.rs:Lhs::new_with_rng", "crates/doe/src/random.rs:Random"]}
{"id": "C156", "title": "Cross-validation predicts every training point once", "statement": "A cross-validation score with k folds predicts every training point exactly once, with a model that was not trained on it, for every number of folds up to the number of points.", "quantifier": "every data set, every number of folds, every surrogate", "why_tests_cant": "all sizes and numbers of folds, in particular those that do not divide each other", "anchors": ["crates/moe/src/metrics.rs:GpMetrics::q2_k_score", "crates/moe/src/metrics.rs:GpMetrics::pva_k_score", "crates/moe/src/metrics.rs:GpMetrics::iae_alpha_k_score", "crates/gp/src/metrics.rs:CrossValScore", "crates/moe/src/expertise_macros.rs:compute_error", "crates/gpqa/src/main.rs:main"]}
{"id": "C157", "title": "More observations do not make a Gaussian process less certain", "statement": "Training a Gaussian process with the same trend, nugget and correlation function on the same observations and some more never increases the variance it predicts, at any point.", "quantifier": "every data set and every extension of it, every trend and kernel, every prediction point", "why_tests_cant": "all data sets, extensions and points", "anchors": ["crates/gp/src/algorithm.rs:GaussianProcess::predict_var", "crates/gp/src/algorithm.rs:GpValidParams::fit"]}
{"id": "C158", "title": "Sampling works in single precision", "statement": "With at least two points, every kind of Latin hypercube gives, in single as in double precision and for all random draws, a design with the requested shape and coordinates in the cube; in particular sampling does not panic.", "quantifier": "every number of points and of variables, every kind, all random draws", "why_tests_cant": "all random draws: rounding makes it fail for a few of them", "anchors": ["crates/doe/src/lhs.rs:Lhs::_maximin_ese", "crates/doe/src/lhs.rs:Lhs::_phip_swap", "crates/doe/src/lhs.rs:Lhs::_maximin_lhs", "crates/doe/src/utils.rs:pdist"]}
{"id": "C159", "title": "Builder options", "statement": "Whatever the sequence of builder calls, each option of an accepted configuration is the last value given for it or its documented default, whatever the order of the calls for different options; the configuration is accepted exactly when the tolerances are as many as the metamodelled constraints and the cooperative optimization is not combined with the reduction of dimension; a run with an accepted configuration starts.", "quantifier": "every sequence of builder calls with every argument, every search space", "why_tests_cant": "all sequences of calls: a dropped or overwritten option shows only in some orders", "anchors": ["crates/ego/src/solver/egor_config.rs:EgorConfig", "crates/ego/src/solver/egor_config.rs:EgorConfig::check", "crates/ego/src/solver/egor_config.rs:GpConfig", "crates/ego/src/egor.rs:EgorFactory::min_within_mixint_space", "crates/ego/src/solver/coego.rs:get_random_activity"]}
{"id": "C160", "title": "Options of the Python optimizer", "statement": "When minimize is called from Python, each option of the run is the one given to the constructor, and every documented combination of options is accepted and can be run; in particular tolerances, given for all the constraints or left to their default, with constraints approximated by surrogates and constraints given as functions.", "quantifier": "every value of the options, every number of constraints of both kinds, every evaluated data", "why_tests_cant": "all combinations of options: the bindings check none of them", "anchors": ["python/src/egor.rs:Egor::apply_config", "python/src/egor.rs:Egor::minimize", "python/src/egor.rs:Egor::cstr_tol", "crates/ego/src/solver/egor_config.rs:EgorConfig::check", "crates/ego/src/utils/find_result.rs:cstr_sum", "crates/ego/src/utils/hot_start.rs:HotStartMode"]}
{"id": "C161", "title": "Builder options of a Gaussian process", "statement": "Whatever the sequence of builder calls of a Gaussian process or of a sparse one, each option (mean, correlation, reduced dimension, restarts, evaluations, nugget, noise, inducing points, method, seed; for the hyperparameters the initial values, the bounds, whether they are fixed and which components are tuned) is the last value given for it, its default otherwise; the parameters are accepted exactly when the reduced dimension is consistent.", "quantifier": "every sequence of builder calls with every argument", "why_tests_cant": "all sequences of calls: what one call forgets of the previous ones shows only in some orders", "anchors": ["crates/gp/src/parameters.rs:GpParams", "crates/gp/src/parameters.rs:GpParams::theta_init", "crates/gp/src/parameters.rs:GpParams::theta_bounds", "crates/gp/src/sparse_parameters.rs:SgpParams"]}
{"id": "C162", "title": "Tolerances in the search of new points", "statement": "The optimization of the infill criterion searches the points the user allows: those where each constraint, approximated by a surrogate or given as a function, is not above its tolerance (cstr < cstr_tol instead of cstr < 0).", "quantifier": "every algorithm, every option of the optimizer, all constraints, tolerances, positive scales and points", "why_tests_cant": "all constraints and tolerances: results stay plausible when the tolerances are ignored", "anchors": ["crates/ego/src/optimizers/optimizer.rs:Optimizer::minimize", "crates/ego/src/optimizers/optimizer.rs:Optimizer::new", "crates/ego/src/solver/solver_infill_optim.rs:optimize_infill_criterion", "crates/ego/src/solver/solver_impl.rs:select_next_points"]}
{"id": "C163", "title": "Designs drawn from Python follow the descriptions", "statement": "Every method of sampling called from Python, with a number of samples and a list of descriptions of variables, returns an array with as many rows as samples and one column per variable, where each value is admitted by the description of its variable; the method asked for is the one used.", "quantifier": "every method, every list of descriptions with values, every number of samples, every seed, every continuous design within the limits", "why_tests_cant": "The composition of parsing, continuous sampling, rounding and folding must fit for all layouts of variables.", "anchors": ["python/src/sampling.rs:sampling", "python/src/sampling.rs:lhs", "crates/ego/src/gpmix/mixint.rs:create_lhs_sampling"]}
{"id": "C164", "title": "Every combination of values can be drawn", "statement": "Each combination of values the variables admit is a point of some design: no combination is excluded from sampling.", "quantifier": "every list of variables, every combination of admitted values, every method, number of samples and seed", "why_tests_cant": "A combination that never appears is only seen by quantifying over all designs.", "anchors": ["python/src/sampling.rs:sampling", "crates/ego/src/gpmix/mixint.rs:fold_with_enum_index", "crates/ego/src/gpmix/mixint.rs:MixintSampling"]}
{"id": "C165", "title": "Options of sparse processes built from Python", "statement": "A sparse process built from Python has the options given to its builder: the inducing points given (or, without them, the number of points to pick), the method, the correlations flagged, the number of starts, the number of components, the initial hyperparameters and their bounds, with the documented defaults; without inducing points, with unknown flags or with incomplete bounds the call raises.", "quantifier": "every combination of options, every training set for which training succeeds", "why_tests_cant": "It quantifies over all combinations of options, including absent ones.", "anchors": ["python/src/sparse_gp_mix.rs:fit", "crates/moe/src/algorithm.rs:find_best_expert", "crates/moe/src/parameters.rs:GpMixtureValidParams"]}
