{
 "claims": [
  {
   "property": "C01",
   "status": "proved",
   "theorems": [
    "C01_best_is_optimal",
    "C01_best_is_unique",
    "C01_any_values"
   ],
   "note": "on IEEE doubles; the hypothesis on infinite objectives is the one in the English claim; with constraints the search never fails, whatever values are NaN"
  },
  {
   "property": "C02",
   "status": "partial",
   "theorems": [
    "C02_infinite_objectives_refuted",
    "C02_feasible_wins_partial"
   ],
   "note": "finding: false when all feasible objectives are +infinity (witness); proved otherwise"
  },
  {
   "property": "C03",
   "status": "partial",
   "theorems": [
    "C03_incremental_is_full_partial",
    "C03_incremental_is_full_refuted",
    "C03_incremental_is_best"
   ],
   "note": "Finding: with feasible objectives all +infinity (see C02) the two searches may differ; equal otherwise. From the best row of the prefix the incremental search always gives the best row."
  },
  {
   "property": "C04",
   "status": "proved",
   "theorems": [
    "C04_total_preorder"
   ],
   "note": ""
  },
  {
   "property": "C05",
   "status": "partial",
   "theorems": [
    "C05_nan_constraint_refuted",
    "C05_feasible_iff_partial",
    "C05_feasible_no_excess"
   ],
   "note": "finding: a NaN constraint value counts as satisfied; proved without NaN"
  },
  {
   "property": "C06",
   "status": "proved",
   "theorems": [
    "C06_accepted_points_keep_distance"
   ],
   "note": "distance as computed in double precision"
  },
  {
   "property": "C07",
   "status": "proved",
   "theorems": [
    "C07_append_only_and_aligned"
   ],
   "note": ""
  },
  {
   "property": "C08",
   "status": "proved",
   "theorems": [
    "C08_no_duplicates"
   ],
   "note": ""
  },
  {
   "property": "C09",
   "status": "proved",
   "theorems": [
    "C09_never_panics",
    "C09_budget",
    "C09_stops"
   ],
   "note": "for every user function, surrogate/optimizer proposals (oracle) and mode; also: the run cannot panic and has stopped after max_iters+1 rounds"
  },
  {
   "property": "C10",
   "status": "partial",
   "theorems": [
    "C10_counter",
    "C10_last_added_partial",
    "C10_converged_refuted"
   ],
   "note": "counter = rows proved for all runs; finding: after a converged iteration the difference of counters is not the number of points added"
  },
  {
   "property": "C100",
   "status": "partial",
   "theorems": [
    "C100_budget_partial",
    "C100_documented_refuted"
   ],
   "note": "Finding: limits below 25 become 25, not 1000 as documented."
  },
  {
   "property": "C101",
   "status": "proved",
   "theorems": [
    "C101_fitc"
   ],
   "note": "predictions before the lower limit 1e-15; existence of the model is C103"
  },
  {
   "property": "C102",
   "status": "proved",
   "theorems": [
    "C102_fitc_likelihood",
    "C102_vfe_likelihood"
   ],
   "note": ""
  },
  {
   "property": "C103",
   "status": "proved",
   "theorems": [
    "C103_trains"
   ],
   "note": ""
  },
  {
   "property": "C104",
   "status": "partial",
   "theorems": [
    "C104_prior_partial",
    "C104_posterior_refuted",
    "C104_trajectories_partial",
    "C104_trajectories_refuted"
   ],
   "note": "Finding: trajectories of sparse models are sampled with the prior covariance around the predicted mean"
  },
  {
   "property": "C105",
   "status": "partial",
   "theorems": [
    "C105_bounds_partial",
    "C105_fixed_partial",
    "C105_inactive_refuted"
   ],
   "note": "Finding: partial tuning is full tuning (a warning is logged); the rest is proved when the optimizations succeed"
  },
  {
   "property": "C106",
   "status": "partial",
   "theorems": [
    "C106_inputs_partial",
    "C106_outputs_refuted"
   ],
   "note": "Finding: the number of outputs reported is the number of training points"
  },
  {
   "property": "C107",
   "status": "partial",
   "theorems": [
    "C107_expected_improvement_partial",
    "C107_weighted_partial",
    "C107_feasibility_partial",
    "C107_small_variance_refuted"
   ],
   "note": "Finding: below a variance of machine epsilon both are 0 whatever the mean. Equal to the expectations above it."
  },
  {
   "property": "C108",
   "status": "partial",
   "theorems": [
    "C108_infill_partial",
    "C108_constrained_partial",
    "C108_weight_refuted",
    "C108_no_surrogate_refuted"
   ],
   "note": "Finding: the portfolio weight enters the objective but not its gradient; with function constraints only and no feasible point the objective is constant but its gradient is that of the criterion. Right for unit weight and zero tolerances."
  },
  {
   "property": "C109",
   "status": "partial",
   "theorems": [
    "C109_value_partial",
    "C109_gradient_partial",
    "C109_asymptotic_partial",
    "C109_asymptotic_derivative",
    "C109_constants",
    "C109_no_variance_refuted"
   ],
   "note": "Exact above the variance threshold and above the asymptotic range (-1e6 standard deviations); within 3/u^2 (derivative: 2/|u|) in this range. Finding: below the variance threshold the value is constant but not the gradient."
  },
  {
   "property": "C11",
   "status": "proved",
   "theorems": [
    "C11_best_of_history"
   ],
   "note": ""
  },
  {
   "property": "C110",
   "status": "partial",
   "theorems": [
    "C110_number_refuted",
    "C110_far_partial",
    "C110_accurate_partial",
    "C110_far_accurate_partial",
    "C110_accurate_library"
   ],
   "note": "Finding: between 38 and 1e6 standard deviations of predicted degradation LogEI, the default criterion, is NaN: exp(u*u/2) overflows. Above -37, with a libm accurate to 4 ulp, it is finite and equal to the logarithm of the expected improvement up to 1e-6; below -1e6 it is a number, accurate to 1e-14 relative to u^2. Missing: (-38,-37), where erfc is subnormal."
  },
  {
   "property": "C111",
   "status": "partial",
   "theorems": [
    "C111_ei_partial",
    "C111_logei_partial",
    "C111_wb2_refuted"
   ],
   "note": "Finding: WB2 may be negative, then multiplying it by a larger probability of feasibility makes it worse."
  },
  {
   "property": "C112",
   "status": "partial",
   "theorems": [
    "C112_mean_partial",
    "C65_first_component_partial",
    "C112_function_partial",
    "C112_function_refuted",
    "C65_refuted"
   ],
   "note": "Finding: the value of a function constraint is divided by its scale but not its gradient; upper trust bound: see C65."
  },
  {
   "property": "C113",
   "status": "partial",
   "theorems": [
    "C113_criterion_partial",
    "C113_constrained_partial",
    "C113_constraint_partial",
    "C113_wb2s_partial",
    "C113_constraint_refuted"
   ],
   "note": "Finding: a constraint surrogate predicting 0 at the sampled points gets scale 0, by which it is then divided."
  },
  {
   "property": "C114",
   "status": "proved",
   "theorems": [
    "C114_constant_liar",
    "C114_kriging_believers"
   ],
   "note": ""
  },
  {
   "property": "C115",
   "status": "partial",
   "theorems": [
    "C115_units_partial",
    "C115_threshold_refuted"
   ],
   "note": "Finding: the variance threshold is absolute, so an objective in small units has no expected improvement."
  },
  {
   "property": "C116",
   "status": "partial",
   "theorems": [
    "C116_reuse_partial",
    "C116_latest_refuted"
   ],
   "note": "Finding: unless a single cluster is tuned cooperatively, hyperparameters reused are those of the last clustering: tunings done since are forgotten."
  },
  {
   "property": "C117",
   "status": "partial",
   "theorems": [
    "C117_objective_partial",
    "C117_constraint_last",
    "C117_constraint_refuted"
   ],
   "note": "Finding: when the clustering is kept, the surrogate of a constraint is the one tuned on the last group only."
  },
  {
   "property": "C118",
   "status": "partial",
   "theorems": [
    "C118_start_partial",
    "C118_fixed_refuted",
    "C118_auto_ignored"
   ],
   "note": "Finding: hyperparameters given as fixed are tuned; with automatic clustering the settings of the user have no effect on the first surrogate."
  },
  {
   "property": "C119",
   "status": "partial",
   "theorems": [
    "C119_interval",
    "C119_given",
    "C119_default",
    "C119_kernel_independent",
    "C119_kernel_refuted"
   ],
   "note": "Finding: the default range never depends on the kernel, as the influence factors always lie inside the default bounds (and Matern 5/2 is never tested)."
  },
  {
   "property": "C12",
   "status": "proved",
   "theorems": [
    "C12_never_worse"
   ],
   "note": "between any two moments of a run"
  },
  {
   "property": "C120",
   "status": "partial",
   "theorems": [
    "C120_record_partial",
    "C120_twice_refuted"
   ],
   "note": "Finding: an iteration that finds no new point records the points of the previous batch again."
  },
  {
   "property": "C121",
   "status": "partial",
   "theorems": [
    "C121_leave_one_out_refuted",
    "C121_score_partial"
   ],
   "note": "Finding: with leave-one-out folds each coverage is zero or one, so the score is at least 0.24 for every model; it only bounds the calibration error from above."
  },
  {
   "property": "C122",
   "status": "partial",
   "theorems": [
    "C122_value_refuted",
    "C122_value_partial",
    "C122_noise_refuted"
   ],
   "note": "Finding: value and data are always those of the first proposal, selected or not; proposals taken for noise are dropped once there are two clusters."
  },
  {
   "property": "C123",
   "status": "proved",
   "theorems": [
    "C123_semidefinite",
    "C123_definite"
   ],
   "note": "exact arithmetic"
  },
  {
   "property": "C124",
   "status": "proved",
   "theorems": [
    "C124_trains"
   ],
   "note": "exact arithmetic; given hyperparameters; the conditioning test is assumed to accept"
  },
  {
   "property": "C125",
   "status": "proved",
   "theorems": [
    "C125_covariance",
    "C125_variance"
   ],
   "note": "exact arithmetic"
  },
  {
   "property": "C126",
   "status": "proved",
   "theorems": [
    "C126_trains",
    "C126_fitc_variance",
    "C126_sample_covariance"
   ],
   "note": "exact arithmetic"
  },
  {
   "property": "C127",
   "status": "proved",
   "theorems": [
    "C127_range"
   ],
   "note": ""
  },
  {
   "property": "C128",
   "status": "partial",
   "theorems": [
    "C128_selection_partial",
    "C128_possible_refuted",
    "C128_recombination_refuted"
   ],
   "note": "Finding: when one cluster is not possible the answer may still be one cluster although another number is possible with smaller errors; errors of the hard recombination are divided by the sum of the outputs and those of the smooth one are not, so the choice depends on the units of the output. Proved when one cluster is possible, with the errors as measured."
  },
  {
   "property": "C129",
   "status": "partial",
   "theorems": [
    "C129_returns_partial",
    "C129_clustering_refuted",
    "C129_zero_refuted"
   ],
   "note": "Finding: a failing clustering, or a fold whose outputs are zero and exactly predicted, panics in the computation of the median."
  },
  {
   "property": "C13",
   "status": "proved",
   "theorems": [
    "C13_true_objectives",
    "C13_true_objectives_given_outputs"
   ],
   "note": "outputs supplied with the initial design are kept as given"
  },
  {
   "property": "C130",
   "status": "partial",
   "theorems": [
    "C130_best_partial",
    "C130_raises",
    "C130_constrained_refuted"
   ],
   "note": "Finding: with constraints, get_result and get_result_index raise unless there are exactly as many evaluations as columns (the array of function constraints is built with the number of columns as number of rows)."
  },
  {
   "property": "C131",
   "status": "partial",
   "theorems": [
    "C131_gpmix_partial",
    "C131_egor_partial",
    "C131_max_eval_refuted",
    "C131_n_start_refuted",
    "C131_smooth_refuted"
   ],
   "note": "Finding: Gpx ignores max_eval; Egor does not disable tuning for a negative n_start and does not optimize the smoothing factor."
  },
  {
   "property": "C132",
   "status": "partial",
   "theorems": [
    "C132_domain_partial",
    "C132_rows",
    "C132_nonempty",
    "C132_integer_refuted",
    "C132_large_refuted"
   ],
   "note": "Finding: non-integer limits of integer variables are truncated towards zero, possibly outside of the limits; integers beyond 32 bits are not among the values although the limits allow them."
  },
  {
   "property": "C133",
   "status": "proved",
   "theorems": [
    "C133_maximum_likelihood",
    "C133_ranking"
   ],
   "note": ""
  },
  {
   "property": "C134",
   "status": "partial",
   "theorems": [
    "C134_eigen_partial",
    "C134_interpolates",
    "C134_cholesky_partial",
    "C134_cholesky_panics",
    "C134_cholesky_refuted",
    "C134_eigen_refuted"
   ],
   "note": "Eigenvalue sampling: exact mean, covariance within 1e-9; Cholesky sampling: exact when the covariance is positive definite. Findings: the absolute threshold 1e-9 makes trajectories constant for outputs in small units; sample_chol panics as soon as one point is a training point when the nugget is 0. The eigendecomposition and the draws are arguments."
  },
  {
   "property": "C135",
   "status": "partial",
   "theorems": [
    "C135_gp",
    "C135_smooth",
    "C135_hard",
    "C135_linfa_partial",
    "C135_linfa_refuted",
    "C135_folded_refuted"
   ],
   "note": "The separate and joint predictions agree. Findings: linfa's predict on a mixed-integer surrogate does not project the points on the discrete values, and fails (panics) on folded points."
  },
  {
   "property": "C136",
   "status": "partial",
   "theorems": [
    "C136_round_trip_partial",
    "C136_faithful",
    "C136_zero_residuals",
    "C136_python_partial",
    "C136_sparse_refuted",
    "C136_mixture_refuted",
    "C136_infinite_refuted",
    "C136_python_refuted"
   ],
   "note": "Dense processes and mixtures are read back (in JSON: when all numbers are finite); whatever is read is what was saved. Findings: a saved sparse process cannot be loaded; the generic load function reads no mixture; a process trained on outputs the trend fits exactly (e.g. all zero) has an infinite likelihood, saved as null in JSON, and cannot be read back; Python save panics instead of returning False. Parsing errors of one unit in the last place are not modelled."
  },
  {
   "property": "C137",
   "status": "partial",
   "theorems": [
    "C137_relaxed",
    "C137_context_partial",
    "C137_context_refuted",
    "C137_level_refuted"
   ],
   "note": "Holds when at most the last variable is categorical with several levels. Findings: otherwise the context's samples are folded wrongly: training panics, or the level is another one than sampled."
  },
  {
   "property": "C138",
   "status": "partial",
   "theorems": [
    "C138_best_run",
    "C138_schedule",
    "C138_proposal",
    "C138_total",
    "C138_budget",
    "C138_same_constraints_partial",
    "C138_tolerance_refuted",
    "C138_zero_scale_refuted",
    "C138_feasible_refuted"
   ],
   "note": "The best run is selected independently of the scheduling and the proposal is in the domain. Findings: the inner optimizers always get zero tolerances instead of the user's; with a zero constraint scale every point is infeasible for them; the run is selected on the criterion alone, so an infeasible end point beats a feasible one."
  },
  {
   "property": "C139",
   "status": "partial",
   "theorems": [
    "C139_domain_partial",
    "C139_starts_partial",
    "C139_region_refuted"
   ],
   "note": "The proposal is in the domain, and only depends on the optimizer from starts in the trust region. Finding: only the starting points are in the trust region; the optimizer gets the bounds of the whole domain, and any point of the domain can be proposed, whatever the size of the trust region."
  },
  {
   "property": "C14",
   "status": "partial",
   "theorems": [
    "C14_scaled_refuted",
    "C14_stored_constraints_partial",
    "C14_unit_scales_partial"
   ],
   "note": "finding: global steps store constraint-function values divided by a scaling factor"
  },
  {
   "property": "C140",
   "status": "proved",
   "theorems": [
    "C140_domain"
   ],
   "note": "Calls of the constraint functions by the external optimizer during the inner optimization are not part of the claim; initial designs sampled by the library may exceed the domain by rounding (C39)."
  },
  {
   "property": "C141",
   "status": "partial",
   "theorems": [
    "C141_nearby_partial",
    "C141_variance_partial",
    "C141_squared_exponential",
    "C141_scale_refuted"
   ],
   "note": "Each component is the exact derivative at a point closer than 6.1e-6 along that component (absolute exponential: no inducing point that close; variance: on one side of its lower limit 1e-15), and for the squared exponential correlation an explicit error bound holds. Finding: the step is absolute, inputs are not normalized, so models of short length scales get gradients wrong by any factor. Real arithmetic: cancellation in the differences is not modelled. The cast of single precision values to f64 by reinterpretation reads out of bounds and is not modelled."
  },
  {
   "property": "C142",
   "status": "partial",
   "theorems": [
    "C142_factors",
    "C142_factor_partial",
    "C142_auto_one",
    "C142_auto_refuted",
    "C142_held_out_refuted",
    "C142_null_inputs_refuted"
   ],
   "note": "With a fixed number of clusters above one, the factor in use has the least error on the validation rows among twenty equally spaced in [0.1, 2.1] (one when all errors are below 1e-6). Finding: with an automatic number of clusters, a smooth mixture is trained with factor one and no optimization, contrary to the documentation. Finding: experts compared are trained on all rows, those used for validation included. Finding: errors are divided by the norm of the validation inputs; when these are null all errors are infinite and the factor is 0.1. Clustering, experts, predictions and the norm are arguments."
  },
  {
   "property": "C143",
   "status": "partial",
   "theorems": [
    "C143_returns_partial",
    "C143_sizes_refuted",
    "C143_auto_refuted",
    "C143_null_inputs_refuted"
   ],
   "note": "No panic with one tuning, or as many as clusters, some trend and correlation allowed, as many outputs as inputs (below 2^24), and numbers as errors of factors; clustering and training of experts do not panic by hypothesis. Findings: numbers of tunings and clusters that do not match panic instead of reporting an error; several tunings with an automatic number of clusters panic; null validation inputs that are exactly predicted (error 0/0) panic."
  },
  {
   "property": "C144",
   "status": "partial",
   "theorems": [
    "C144_infeasible_partial",
    "C144_design_partial",
    "C144_design_refuted",
    "C144_step_refuted"
   ],
   "note": "With constraints, NaN objectives at points that violate them are harmless in both searches of the best point, and an initial design starts whatever objectives are NaN, with a feasible best point if there is one with a number. Finding: without constraints one NaN in the initial design makes the run panic, and so does an evaluation giving NaN at all new points of a step."
  },
  {
   "property": "C145",
   "status": "partial",
   "theorems": [
    "C145_double_partial",
    "C145_bounds_refuted",
    "C145_start_refuted",
    "C145_value_refuted"
   ],
   "note": "Proved for f64. Finding: numbers are converted by reading eight bytes at their address, past the end of an f32. In single precision, bounds of all components but the last are reversed when they are on both sides of 1 (the default ones are), starts take the sign of the next component, and the likelihood read depends on the bytes that follow it. Layout of pairs (first component first) and byte order are assumed."
  },
  {
   "property": "C146",
   "status": "partial",
   "theorems": [
    "C146_continuous_partial",
    "C146_integer_refuted",
    "C146_ordered_refuted",
    "C146_categorical_refuted",
    "C146_folded_refuted"
   ],
   "note": "Proved for continuous variables: as a function of such a component the prediction is that of the decorated surrogate, at whose cast point the gradient is returned. Findings: along an integer variable the prediction is constant around each integer, along an ordered variable around each value and along a column of a categorical variable as long as the same column is the greatest, but the returned component is the slope of the decorated surrogate; in folded space the gradient has one column per level of the categorical variables instead of one per variable."
  },
  {
   "property": "C147",
   "status": "partial",
   "theorems": [
    "C147_seeded_partial",
    "C147_design",
    "C147_suggest_partial",
    "C147_run",
    "C147_clusters_refuted",
    "C147_auto_refuted",
    "C147_starts_refuted",
    "C147_order_refuted"
   ],
   "note": "Finding: the seed does not reach the surrogates. The generator used for clustering comes from the entropy of the operating system (with several clusters two runs with the same seed may differ), the single random start of the hyperparameters does too (n_start = 1), and the portfolio lists its proposals in the order of a hash map. Proved: with one cluster, another number of starts and no portfolio the run only depends on the seed; the initial design always does."
  },
  {
   "property": "C148",
   "status": "partial",
   "theorems": [
    "C148_scales_partial",
    "C148_run_partial",
    "C148_sampled_refuted",
    "C148_infinite_refuted",
    "C148_reported_refuted"
   ],
   "note": "With numbers at the sampled points the run goes on whatever the evaluated constraints are, and scaling factors are the largest absolute values. Findings: NaN at a sampled point is a panic; an infinite value there cancels the constraint (finite violations are stored as 0); a point whose constraints are NaN is reported as the best when its objective is the lowest."
  },
  {
   "property": "C149",
   "status": "partial",
   "theorems": [
    "C149_reproducible_partial",
    "C149_seed_refuted",
    "C149_half"
   ],
   "note": "Finding: the seed of an expert is drawn as an optional integer, which is absent for half of the states of the generator; the inducing points are then taken from the operating system. So it is for the seeds 1, 2, 3, 5, 8, 9 and 42, but not 0, 4, 6, 7. Reproducible for the other seeds (or given inducing points) unless there is exactly one start. The generators of rand_xoshiro and rand are modelled bit by bit."
  },
  {
   "property": "C15",
   "status": "proved",
   "theorems": [
    "C15_three_empty_attempts"
   ],
   "note": ""
  },
  {
   "property": "C150",
   "status": "partial",
   "theorems": [
    "C150_full_partial",
    "C150_sparse_partial",
    "C150_tunings_refuted",
    "C150_max_eval_refuted",
    "C150_trend_refuted"
   ],
   "note": "Holds of full processes. Findings: in a sparse mixture the first tuning is used for all clusters, the maximum number of evaluations is ignored (up to 1000 are used), and no training succeeds without the constant trend."
  },
  {
   "property": "C151",
   "status": "partial",
   "theorems": [
    "C151_accurate_partial",
    "C151_bounded_partial",
    "C151_none",
    "C151_library",
    "C151_sign_refuted"
   ],
   "note": "Accurate and positive up to 36 standard deviations of degradation; finite everywhere. Finding: 38.46 standard deviations above the best value the computed expected improvement is negative (about -1e-322) even with a correctly rounded libm, because half of three smallest doubles rounds up; it is never below -2^-900 deviations. Predictions and weights outside the stated sizes are not covered."
  },
  {
   "property": "C152",
   "status": "partial",
   "theorems": [
    "C152_even_refuted",
    "C152_counts_partial",
    "C152_random_refuted",
    "C152_centered"
   ],
   "note": "Finding: the relaxed interval of an integer variable ends at its bounds instead of half a unit beyond, so each bound gets half the share of an inner value: exactly k rows against 2k in every Latin hypercube of 2k(hi-lo) points. For every Latin hypercube the counts are known up to two rows, every value occurs from 2(hi-lo)+1 points on, and a centered design with one point per value takes each value once."
  },
  {
   "property": "C153",
   "status": "partial",
   "theorems": [
    "C153_distinct_refuted",
    "C153_distinct_partial"
   ],
   "note": "Finding: the numbers of levels are balanced without regard to the numbers of values, so 16 points of [0,1]x[0,9] contain 8 repeated points. Proved without repetition when every variable has at least m values and there are at most m^nx points."
  },
  {
   "property": "C154",
   "status": "partial",
   "theorems": [
    "C154_threads_partial",
    "C154_sequential_partial",
    "C154_interleaved_refuted",
    "C154_poison_refuted",
    "C154_hang_refuted"
   ],
   "note": "Finding: an optimized design of 0 points panics while the generator is locked, after which every call on the method or a clone panics; of 1 point it never ends and blocks all others. Finding: maximin calls release the lock between candidates, so concurrent calls can give designs that no order of the calls gives. Proved for requests of two points or more: under every schedule no call panics, every design returned is a Latin hypercube of the requested size, and every call ends after 3001 of its own turns; classic, centered and random calls always behave as in some sequential order."
  },
  {
   "property": "C155",
   "status": "partial",
   "theorems": [
    "C155_clone_refuted",
    "C155_twins_partial",
    "C155_new_partial"
   ],
   "note": "Finding: a clone shares the generator of the original behind an Arc, so that the two draw different designs and each use of one changes the other. Proved: methods built separately from equal generators give equal designs to equal requests, whatever is asked of other methods in between."
  },
  {
   "property": "C156",
   "status": "partial",
   "theorems": [
    "C156_folds_partial",
    "C156_unseen",
    "C156_score",
    "C156_leave_one_out",
    "C156_ignored_refuted",
    "C156_perfect_refuted",
    "C156_panics_refuted",
    "C156_tool_partial",
    "C156_selection_partial"
   ],
   "note": "Finding: when k does not divide the number of points, the last (n mod k) points are never predicted: the scores do not depend on the predictions there, and a surrogate with any error there can have Q2 = 1. Fewer than two folds or more folds than points panic. Proved: every fold holds its validation rows out, the other points are validated exactly once, all of them when k divides n (leave-one-out); same for the folds that select trends and correlations."
  },
  {
   "property": "C157",
   "status": "partial",
   "theorems": [
    "C157_relative_partial",
    "C157_variance_refuted"
   ],
   "note": "Finding: the variance is scaled by the process variance estimated again from the outputs, so it may grow: with equal outputs it is zero everywhere, and one observation of another output makes it positive everywhere. Proved: the variance relative to the process variance never grows, for every trend (the weights stay unbiased under the other normalization), in exact arithmetic."
  },
  {
   "property": "C158",
   "status": "partial",
   "theorems": [
    "C158_classic_partial",
    "C158_maximin_partial",
    "C158_maximin_doubles_partial",
    "C158_optimized_partial",
    "C158_optimized_refuted"
   ],
   "note": "Finding: the optimized design (the default kind) can panic with ordinary draws: the incremental criterion cancels, is negative, and its tenth root is not a number; witness with three points at distances 0.056, 0.61 and 0.66 in single precision, for a correctly rounded power function. Proved: the classic, centered and maximin kinds always give a design in the cube, in single precision, and the maximin kind a Latin hypercube in doubles; the optimized kind, when it returns, permutes the columns of its start. Missing: which draws make the optimized kind return, in finite precision (in exact arithmetic: all, C38)."
  },
  {
   "property": "C159",
   "status": "partial",
   "theorems": [
    "C159_options",
    "C159_order",
    "C159_check",
    "C159_run_partial",
    "C159_run_refuted"
   ],
   "note": "Finding: coego(CoegoStatus::Enabled(0)) is accepted, and every run then panics (remainder by zero) when the groups of variables are made. Proved: the value of every option after any sequence of calls, the independence of the order, the exact acceptance condition, and that all other accepted configurations make their groups."
  },
  {
   "property": "C16",
   "status": "partial",
   "theorems": [
    "C16_first_added_refuted",
    "C16_last_improvement_partial"
   ],
   "note": "finding: off by one, the first added point is not recognised as an improvement"
  },
  {
   "property": "C160",
   "status": "partial",
   "theorems": [
    "C160_options_partial",
    "C160_accepts_partial",
    "C160_constraints_refuted",
    "C160_no_tolerances_refuted"
   ],
   "note": "Finding: with both metamodelled constraints and constraint functions, the documented tolerances (given for all constraints, or the default) are always rejected, because the check wants as many as the metamodelled constraints; tolerances of that length are accepted, but the first ranking of a new point reads past them and panics. So no value of cstr_tol works with both kinds of constraints. Proved: the options of every run that starts, and the acceptance of all documented options when there is one kind of constraints."
  },
  {
   "property": "C161",
   "status": "partial",
   "theorems": [
    "C161_options",
    "C161_sparse",
    "C161_check",
    "C161_tuned_partial",
    "C161_tuned_refuted"
   ],
   "note": "Finding: theta_init and theta_bounds turn a partial tuning into a full one: components excluded from the tuning before are all tuned, whatever the values. Proved: all the other options after any sequence of calls, for both builders, the exact acceptance condition, and the tuned components when neither method is called after a partial tuning."
  },
  {
   "property": "C162",
   "status": "partial",
   "theorems": [
    "C162_constraints_partial",
    "C162_inside_partial",
    "C162_tolerances_refuted"
   ],
   "note": "Finding: no method of the optimizer facade sets its tolerances, which stay zero: for every tolerances but zero there are constraints for which the explored points are not the allowed ones (points allowed by a positive tolerance are left out, points forbidden by a negative one are searched). Proved: the points searched are exactly those where all constraints are not positive, for both algorithms; with tolerances that are not negative they are all allowed."
  },
  {
   "property": "C163",
   "status": "proved",
   "theorems": [
    "C163_sampling",
    "C163_methods"
   ],
   "note": "Descriptions following the documentation (see C132), with finite limits, at least one value and at most 2^53 levels. The continuous methods are any function giving as many points as asked for within the limits."
  },
  {
   "property": "C164",
   "status": "partial",
   "theorems": [
    "C164_reachable_partial",
    "C164_levels_refuted"
   ],
   "note": "Finding: with two variables of two tags no design, whatever the method, the number of points and the seed, has a point with the second tag of both: the level of a categorical variable is read at the wrong columns when another one precedes it. Proved when at most one categorical variable has several levels: every list of admitted points is drawn from some continuous design."
  },
  {
   "property": "C165",
   "status": "proved",
   "theorems": [
    "C165_settings",
    "C165_refused",
    "C165_accepts"
   ],
   "note": "Given both inducing points and their number, the number is ignored. The seed is in C147."
  },
  {
   "property": "C17",
   "status": "proved",
   "theorems": [
    "C17_flag_monotone",
    "C17_flag_complete",
    "C17_flag_sound"
   ],
   "note": ""
  },
  {
   "property": "C18",
   "status": "partial",
   "theorems": [
    "C18_initial_size",
    "C18_size_step",
    "C18_previous_step_flag",
    "C18_closed_form",
    "C18_underflow_refuted",
    "C18_positive_partial"
   ],
   "note": "step rule proved on doubles, closed form in real arithmetic; finding: in double precision the size underflows to 0 for beta <= 1/2; positivity proved for factors > 1/2"
  },
  {
   "property": "C19",
   "status": "proved",
   "theorems": [
    "C19_multiple_is_global",
    "C19_global_recurrent"
   ],
   "note": ""
  },
  {
   "property": "C20",
   "status": "proved",
   "theorems": [
    "C20_local_area"
   ],
   "note": ""
  },
  {
   "property": "C21",
   "status": "partial",
   "theorems": [
    "C21_warm_start_partial",
    "C21_constraint_functions_refuted",
    "C21_warm_start_panics_refuted"
   ],
   "note": "finding: with constraint functions the saved constraint columns are read back as outputs; proved without constraint functions"
  },
  {
   "property": "C22",
   "status": "proved",
   "theorems": [
    "C22_crash_resume"
   ],
   "note": "float text round trip of the JSON library is in the trusted base"
  },
  {
   "property": "C23",
   "status": "partial",
   "theorems": [
    "C23_crash_in_save_partial",
    "C23_crash_in_save_refuted"
   ],
   "note": "finding: the previous checkpoint is truncated before the new one is written"
  },
  {
   "property": "C24",
   "status": "proved",
   "theorems": [
    "C24_extension",
    "C24_extensions_add_up",
    "C24_no_extension",
    "C24_number",
    "C24_missing_checkpoint"
   ],
   "note": ""
  },
  {
   "property": "C25",
   "status": "partial",
   "theorems": [
    "C25_checked_tolerances_partial",
    "C25_function_constraints_refuted"
   ],
   "note": "finding: the check ignores constraint functions"
  },
  {
   "property": "C26",
   "status": "proved",
   "theorems": [
    "C26_partition"
   ],
   "note": ""
  },
  {
   "property": "C27",
   "status": "proved",
   "theorems": [
    "C27_partial_update"
   ],
   "note": ""
  },
  {
   "property": "C28",
   "status": "partial",
   "theorems": [
    "C28_increasing_group_partial",
    "C28_shuffled_group_refuted"
   ],
   "note": "finding: gradient components are in increasing order of the variables, the optimizer variables in shuffled order"
  },
  {
   "property": "C29",
   "status": "proved",
   "theorems": [
    "C29_admissible"
   ],
   "note": ""
  },
  {
   "property": "C30",
   "status": "proved",
   "theorems": [
    "C30_projection",
    "C30_admissible_unchanged"
   ],
   "note": "unchanged as numbers (a list may hold both zeros)"
  },
  {
   "property": "C31",
   "status": "proved",
   "theorems": [
    "C31_nearest",
    "C31_nearest_exact"
   ],
   "note": ""
  },
  {
   "property": "C32",
   "status": "partial",
   "theorems": [
    "C32_unfold_panics_refuted",
    "C32_unfold_wrong_value_refuted",
    "C32_fold_wrong_level_refuted",
    "C32_fold_partial",
    "C32_round_trip_partial"
   ],
   "note": "finding: columns are indexed by variable instead of by block; folding proved for layouts with at most one multi-level categorical variable, round trip when it is the last one"
  },
  {
   "property": "C33",
   "status": "proved",
   "theorems": [
    "C33_dimension",
    "C33_domain_within",
    "C33_cast_within"
   ],
   "note": ""
  },
  {
   "property": "C34",
   "status": "proved",
   "theorems": [
    "C34_classic",
    "C34_centered",
    "C34_classic_doubles",
    "C34_centered_doubles"
   ],
   "note": "exact arithmetic and doubles (up to 2^53 points)"
  },
  {
   "property": "C35",
   "status": "proved",
   "theorems": [
    "C35_optimized_columns",
    "C35_maximin_candidate",
    "C35_optimized_latin",
    "C35_optimized_latin_doubles",
    "C35_maximin_latin",
    "C35_maximin_latin_doubles"
   ],
   "note": ""
  },
  {
   "property": "C36",
   "status": "proved",
   "theorems": [
    "C36_optimized_not_worse",
    "C36_maximin_largest"
   ],
   "note": "in exact arithmetic"
  },
  {
   "property": "C37",
   "status": "proved",
   "theorems": [
    "C37_incremental_exact"
   ],
   "note": "in exact arithmetic, as stated"
  },
  {
   "property": "C38",
   "status": "partial",
   "theorems": [
    "C38_one_point_loops_refuted",
    "C38_one_point_panics_refuted",
    "C38_rows_partial",
    "C38_second_row_partial"
   ],
   "note": "finding: with one point the optimized design loops for ever and the maximin design panics; proved for two points or more"
  },
  {
   "property": "C39",
   "status": "partial",
   "theorems": [
    "C39_above_bound_refuted",
    "C39_exact_partial",
    "C39_normalized_partial",
    "C39_normalized_doubles_partial",
    "C39_doubles_partial",
    "C39_random_partial"
   ],
   "note": "finding: in double precision the largest value can exceed the upper bound by rounding (bounds -0.1, 0.2); proved in exact arithmetic, and in doubles for the lower bound, for exact widths, and with an error bound otherwise; normalized random designs have the shape asked and every design in the cube is the result of some draws"
  },
  {
   "property": "C40",
   "status": "proved",
   "theorems": [
    "C40_full_factorial",
    "C40_full_factorial_doubles"
   ],
   "note": "completeness of the grid in exact arithmetic"
  },
  {
   "property": "C41",
   "status": "partial",
   "theorems": [
    "C41_split_partial",
    "C41_row_in_both_parts_refuted"
   ],
   "note": "finding: indexes go through single precision; with more than 2^24 rows a row can be in both parts. Proved below 2^24 rows."
  },
  {
   "property": "C42",
   "status": "proved",
   "theorems": [
    "C42_clusters",
    "C42_training"
   ],
   "note": ""
  },
  {
   "property": "C43",
   "status": "proved",
   "theorems": [
    "C43_hard",
    "C43_training_point",
    "C43_density"
   ],
   "note": "C43_density is in real arithmetic; in doubles all responsibilities may underflow far away and the first cluster is used"
  },
  {
   "property": "C44",
   "status": "proved",
   "theorems": [
    "C44_convex"
   ],
   "note": ""
  },
  {
   "property": "C45",
   "status": "partial",
   "theorems": [
    "C45_constructed",
    "C45_far_away_refuted",
    "C45_distribution_partial"
   ],
   "note": "finding: where the mixture density is below 2^-52 the responsibilities are not normalized and predictions vanish"
  },
  {
   "property": "C46",
   "status": "partial",
   "theorems": [
    "C46_variance_gradient_panics_refuted",
    "C46_variance_gradient_value_refuted",
    "C46_gradients_partial",
    "C46_variance_gradient_error_partial"
   ],
   "note": "finding: with two clusters or more the variance gradient panics unless as many features as clusters, and is wrong in that case"
  },
  {
   "property": "C47",
   "status": "proved",
   "theorems": [
    "C47_quotient"
   ],
   "note": ""
  },
  {
   "property": "C48",
   "status": "proved",
   "theorems": [
    "C48_best",
    "C48_exists"
   ],
   "note": "the cross-validation error is an oracle"
  },
  {
   "property": "C49",
   "status": "partial",
   "theorems": [
    "C49_no_sample_is_enough_refuted",
    "C49_one_dimension_partial"
   ],
   "note": "finding: the number of folds (at most 5) is compared with 3 or 4 times the dimension instead of the number of samples"
  },
  {
   "property": "C50",
   "status": "partial",
   "theorems": [
    "C50_too_few_points_refuted",
    "C50_cluster_sizes_partial"
   ],
   "note": "finding: the number of array elements is compared instead of the number of rows"
  },
  {
   "property": "C51",
   "status": "proved",
   "theorems": [
    "C51_normalization"
   ],
   "note": ""
  },
  {
   "property": "C52",
   "status": "proved",
   "theorems": [
    "C52_difference_matrix"
   ],
   "note": ""
  },
  {
   "property": "C53",
   "status": "proved",
   "theorems": [
    "C53_correlation_matrix",
    "C53_training_iff"
   ],
   "note": ""
  },
  {
   "property": "C54",
   "status": "proved",
   "theorems": [
    "C54_kernels"
   ],
   "note": "hyperparameters not negative for the bounds"
  },
  {
   "property": "C55",
   "status": "proved",
   "theorems": [
    "C55_jacobian",
    "C55_abs_no_derivative"
   ],
   "note": ""
  },
  {
   "property": "C56",
   "status": "proved",
   "theorems": [
    "C56_trend",
    "C56_jacobian"
   ],
   "note": ""
  },
  {
   "property": "C57",
   "status": "proved",
   "theorems": [
    "C57_interpolation"
   ],
   "note": "exact arithmetic; the QR factorization of the library is assumed exact"
  },
  {
   "property": "C58",
   "status": "partial",
   "theorems": [
    "C58_gp_variance",
    "C58_gp_valvar",
    "C44_convex",
    "C58_sparse_variance",
    "C58_negative_noise_refuted"
   ],
   "note": "Finding: a fixed noise variance given below zero is accepted and makes the predicted variance of a sparse model negative; proved for full models, smooth mixtures and sparse models with a noise >= 0 (any estimated noise is)"
  },
  {
   "property": "C59",
   "status": "partial",
   "theorems": [
    "C59_mean_gradient",
    "C59_var_gradient",
    "C59_single_theta_refuted",
    "C59_kth_partial",
    "C59_kth_refuted"
   ],
   "note": "finding: predict_kth_derivatives returns 2 theta instead of theta^2 times the kernel term"
  },
  {
   "property": "C60",
   "status": "partial",
   "theorems": [
    "C60_setters_partial",
    "C60_active_refuted"
   ],
   "note": "Finding: setting the initial values or the bounds of a partially tuned theta makes it fully tuned. Proved: the setters change only what they set, in the other modes."
  },
  {
   "property": "C61",
   "status": "partial",
   "theorems": [
    "C61_inactive",
    "C61_own_bounds_partial",
    "C61_full_bounds_partial",
    "C61_order_refuted",
    "C61_failed_refuted"
   ],
   "note": "Finding: active components not listed in increasing order are searched within the bounds of other components; finding: when all the optimizations fail theta is 10 whatever the bounds. Proved for increasing lists when one optimization succeeds; inactive components are always kept."
  },
  {
   "property": "C62",
   "status": "partial",
   "theorems": [
    "C62_starts_partial",
    "C62_exist_partial",
    "C62_point_refuted",
    "C62_guess_outside_refuted",
    "C62_sparse_refuted"
   ],
   "note": "Finding: bounds reduced to a point panic with one restart; the guess is used as first start even out of bounds; starts of the variance and noise of sparse models are drawn in the search space of theta"
  },
  {
   "property": "C63",
   "status": "proved",
   "theorems": [
    "C63_nonnegative",
    "C63_positive",
    "C63_no_variance",
    "C63_gradient"
   ],
   "note": "Over exact reals with the exact error function; the predicted variance is compared with machine epsilon as in the code."
  },
  {
   "property": "C64",
   "status": "partial",
   "theorems": [
    "C64_range",
    "C64_gradient_partial",
    "C64_exactly_partial",
    "C64_tolerance_refuted"
   ],
   "note": "Finding: the gradient of the probability of feasibility uses the mean instead of the mean minus the tolerance; it is wrong as soon as the tolerance is not zero (default 1e-4) and the variance varies. Right for zero tolerances and any number of constraints."
  },
  {
   "property": "C65",
   "status": "partial",
   "theorems": [
    "C65_first_component_partial",
    "C65_refuted"
   ],
   "note": "Finding: every component of the gradient of the upper trust bound uses the derivative of the variance in the first component. Right in the first component."
  },
  {
   "property": "C66",
   "status": "proved",
   "theorems": [
    "C66_computed",
    "C66_exact",
    "C66_complete",
    "C66_inside",
    "C66_inside_doubles",
    "C66_number"
   ],
   "note": "C66_computed holds in any arithmetic; the domain in exact arithmetic and in double precision for bounds below 2^1021."
  },
  {
   "property": "C67",
   "status": "partial",
   "theorems": [
    "C67_global_partial",
    "C67_lhs_partial",
    "C67_local_partial",
    "C67_one_start_refuted",
    "C67_zero_refuted"
   ],
   "note": "Finding: with one start the local step of the trust region method panics (a maximin Latin hypercube of one point), and so does the global step without middle points; with none the global step still makes one. Exactly the requested number from one (global) or two (local, or without middle points) on, all in the domain and in the trust region."
  },
  {
   "property": "C68",
   "status": "proved",
   "theorems": [
    "C68_sorted",
    "C68_accepted",
    "C68_refused",
    "C68_permute",
    "C68_size",
    "C68_rows"
   ],
   "note": ""
  },
  {
   "property": "C69",
   "status": "proved",
   "theorems": [
    "C69_coverage_range",
    "C69_coverage_monotone",
    "C69_coverage_one",
    "C69_q2_le",
    "C69_q2_exact",
    "C69_q2_defined",
    "C69_pva",
    "C69_iae_range"
   ],
   "note": "exact arithmetic; the split into folds is the external library's, taken as given"
  },
  {
   "property": "C70",
   "status": "partial",
   "theorems": [
    "C70_vfe_partial",
    "C70_variance_refuted"
   ],
   "note": "Finding: the VFE variance subtracts the explained correction instead of adding it; it is 2(sigma2 - qpp) - v instead of v, hence never above v, clamped at 1e-15, and does not tend to the prior variance. The mean is proved to be the posterior mean."
  },
  {
   "property": "C71",
   "status": "proved",
   "theorems": [
    "C71_inducings"
   ],
   "note": ""
  },
  {
   "property": "C72",
   "status": "partial",
   "theorems": [
    "C72_bounds_refuted",
    "C72_fixed_refuted",
    "C72_accepted_partial"
   ],
   "note": "Finding: training panics for any search space whose number of intervals is not one, for a fixed theta of several values, and for a fixed theta with one restart; a single interval is accepted"
  },
  {
   "property": "C73",
   "status": "proved",
   "theorems": [
    "C73_first",
    "C73_trainings",
    "C73_schedule"
   ],
   "note": ""
  },
  {
   "property": "C74",
   "status": "partial",
   "theorems": [
    "C74_schedule_partial",
    "C74_often",
    "C74_effect",
    "C74_recluster_refuted"
   ],
   "note": "Finding: a training that re-clusters tunes hyperparameters whatever its number; trainings for the other weights of a portfolio never do. Exact otherwise, and at least one of any q_optmod consecutive proposals tunes."
  },
  {
   "property": "C75",
   "status": "partial",
   "theorems": [
    "C75_rows",
    "C75_monotone_partial",
    "C75_worse_refuted",
    "C75_resume_refuted"
   ],
   "note": "Finding: the objective column gets worse when the best point becomes feasible, and a resumed run starts a new, shorter history. One row per iteration with the best outputs and inputs; monotone once feasible."
  },
  {
   "property": "C76",
   "status": "proved",
   "theorems": [
    "C76_selection",
    "C76_every_cluster"
   ],
   "note": "the density clustering is external: any labelling, any order of the hash map"
  },
  {
   "property": "C77",
   "status": "partial",
   "theorems": [
    "C77_no_improvement_refuted",
    "C77_no_improvement_partial"
   ],
   "note": "finding: the converged iteration can be recorded as last improvement"
  },
  {
   "property": "C78",
   "status": "partial",
   "theorems": [
    "C78_target_infeasible_refuted",
    "C78_target_stop_partial"
   ],
   "note": "finding: the target stop ignores feasibility"
  },
  {
   "property": "C79",
   "status": "partial",
   "theorems": [
    "C79_finite_reload_partial",
    "C79_infinite_refuted"
   ],
   "note": "finding: JSON has no infinity, an infinite objective makes the checkpoint unreadable"
  },
  {
   "property": "C80",
   "status": "proved",
   "theorems": [
    "C80_cooperative_proposal",
    "C80_every_variable"
   ],
   "note": ""
  },
  {
   "property": "C81",
   "status": "partial",
   "theorems": [
    "C81_full_group_partial",
    "C81_groups_refuted"
   ],
   "note": "finding: in cooperative mode constraint functions receive only the variables of the group"
  },
  {
   "property": "C82",
   "status": "proved",
   "theorems": [
    "C82_run_distances",
    "C82_never_twice"
   ],
   "note": ""
  },
  {
   "property": "C83",
   "status": "partial",
   "theorems": [
    "C83_same_design_refuted",
    "C83_continuous_partial"
   ],
   "note": "finding: duplicates are detected on relaxed points only; proved without discrete variables"
  },
  {
   "property": "C84",
   "status": "partial",
   "theorems": [
    "C84_relaxed_input_refuted",
    "C84_continuous_partial"
   ],
   "note": "finding: constraint functions receive the relaxed point"
  },
  {
   "property": "C85",
   "status": "partial",
   "theorems": [
    "C85_total",
    "C85_wrong_level_refuted",
    "C85_evaluated_design_partial"
   ],
   "note": "finding: wrong level with two multi-level categorical variables; proved for all layouts with at most one"
  },
  {
   "property": "C86",
   "status": "proved",
   "theorems": [
    "C86_reported_designs"
   ],
   "note": ""
  },
  {
   "property": "C87",
   "status": "proved",
   "theorems": [
    "C87_cast_invariance"
   ],
   "note": ""
  },
  {
   "property": "C88",
   "status": "partial",
   "theorems": [
    "C88_service_panics_refuted",
    "C88_service_partial"
   ],
   "note": "finding: panics when a scalar follows a categorical variable; proved for layouts with at most one, last, categorical variable"
  },
  {
   "property": "C89",
   "status": "partial",
   "theorems": [
    "C89_factor_refuted",
    "C89_set_recombination_refuted",
    "C89_given_clustering_refuted",
    "C89_trained_partial",
    "C89_training_depth",
    "C89_announced"
   ],
   "note": "finding: changing the mode after training, or giving a clustering, announces a factor that is not applied"
  },
  {
   "property": "C90",
   "status": "partial",
   "theorems": [
    "C90_accepted_partial",
    "C90_dimension",
    "C90_rejected",
    "C90_fixed_refuted",
    "C90_partial_tuning_refuted",
    "C90_kpls_refuted",
    "C59_single_theta_refuted"
   ],
   "note": "Finding: one fixed value panics with the absolute exponential kernel in dimension 2 and more, and in gradients of Matern kernels; partial tuning with one initial value panics; with a dimension reduction, initial values accepted by the checks panic."
  },
  {
   "property": "C91",
   "status": "proved",
   "theorems": [
    "C91_best_linear_unbiased"
   ],
   "note": "exact arithmetic; the QR factorization of the library is assumed exact"
  },
  {
   "property": "C92",
   "status": "proved",
   "theorems": [
    "C92_constant_data",
    "C92_affine_data"
   ],
   "note": ""
  },
  {
   "property": "C93",
   "status": "proved",
   "theorems": [
    "C93_output_units",
    "C93_likelihood"
   ],
   "note": "fixed hyperparameters"
  },
  {
   "property": "C94",
   "status": "proved",
   "theorems": [
    "C94_order"
   ],
   "note": "fixed hyperparameters"
  },
  {
   "property": "C95",
   "status": "proved",
   "theorems": [
    "C95_input_units"
   ],
   "note": "fixed hyperparameters and weights"
  },
  {
   "property": "C96",
   "status": "proved",
   "theorems": [
    "C96_batch"
   ],
   "note": ""
  },
  {
   "property": "C97",
   "status": "proved",
   "theorems": [
    "C97_covariance"
   ],
   "note": ""
  },
  {
   "property": "C98",
   "status": "partial",
   "theorems": [
    "C98_schedule_partial",
    "C98_best_partial",
    "C98_failed_refuted"
   ],
   "note": "Finding: when every optimization fails the result depends on the schedule. Proved when one succeeds."
  },
  {
   "property": "C99",
   "status": "proved",
   "theorems": [
    "C99_improves"
   ],
   "note": ""
  }
 ]
}