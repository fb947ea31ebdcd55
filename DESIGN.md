# Formal model of egobox in Rocq (Coq 8.16.1)

The model lives in `rocq/theories`. Each area has

* `X_Model.v`: executable Gallina definitions, each citing the file and lines of `/repo` it models;
* `X_Spec.v` (or the head of the property file): the small, independent specification;
* `X_Proofs.v`: lemmas;
* `Properties_X.v`: the property theorems `Cnn_...`, with `Print Assumptions` beneath and an `Example` showing that a
  concrete, non-trivial case meets the hypotheses.

A theorem suffixed `_refuted` exhibits a witness on which the *faithful* model violates the English property:
it is a finding about the code. A theorem suffixed `_partial` proves part of the English property; the note of the property in
`MANIFEST.json` says what is missing. A property the code violates keeps its English statement, has the status
`partial`, and lists the refutation together with the strongest true restriction.

## Number models

| Model | Used for | What it captures / loses |
|---|---|---|
| `f64` = Flocq `BinarySingleNaN.binary_float 53 1024`, round to nearest even | selection of the best point, history, casts, trust region, designs and starting points (second instance), LogEI special cases | exact IEEE-754 binary64: rounding, overflow, subnormals, signed zero, infinities, one NaN (payloads are not modelled) |
| `R` (Coq reals, Coquelicot derivatives and integrals) | kernels, trends, Gaussian processes, tuning, sparse processes, criteria, mixtures, metrics | exact real arithmetic: rounding is not modelled |
| `arith A`, a record of operations | designs of experiments, starting points | one text of the model, instantiated with `R` and with `f64` |
| `Q`/`Z`/`nat` | indexes, counters, mixed-integer levels | exact; `usize`/`u64` wrap-around and single-precision indexes modelled only where stated |

## Modelling conventions

* `Array2` is a `list` of rows or a function of two indexes with explicit sizes; `Array1` a `list` or a function. `&mut` arguments become
  returned values.
* `unwrap`, out-of-range indexing, `assert!`, `panic!`, `% 0` become an explicit result (`None`).
* Random draws and shuffles are arguments (a list of draws, a permutation of the indices): theorems quantify over all of them.
* User functions, surrogate training, infill optimizers, clusterings and hash-map orders are arbitrary functions given as arguments (oracles):
  theorems quantify over all of them; any assumption made on them is a visible hypothesis of the theorem.
* rayon's `reduce` is any binary tree over the results in order, with any number of identities.
* `argmin`'s `Executor` is an external dependency: the run loop (load checkpoint; `init` if `iter = 0`; loop: terminated? ->
  stopping tests -> `next_iter` -> `update` -> observers -> `increment_iter` -> checkpoint) is modelled from its documented behaviour.

## Plan per property

* **C01-C05** `find_result.rs` (FindResult). The four functions on `f64` with NaN panics; the specification is the strict order
  "feasible first, then objective"; induction on rows.
* **C06-C08** `misc.rs` (UpdateData). `is_update_ok`, `update_data` on `f64`; induction on the batch.
* **C09-C17, C77, C78, C82** `egor_solver.rs`, `solver_impl.rs`, `egor_state.rs` (Ego). State machine over the data part of the state with
  oracles for proposals and user functions; an invariant of all reachable states proved by induction over the run.
* **C18-C20** `trego.rs` (Trego). Radius and phase schedule as a fold over outcomes, in doubles and in exact arithmetic; local area.
* **C21-C24, C79** warm and hot start (Restart). Codec of the saved designs; small-step model of the checkpoint file with crash
  points; a resumed run reaches the states of the uninterrupted one.
* **C25** configuration check and tolerance indexing (Restart/Ego). Decision procedure against reachable index panics.
* **C26-C28, C80, C81** `coego.rs` (Coego). Lists of indices under any permutation, cooperative loop with an arbitrary optimizer.
* **C29-C33, C83-C88** `mixint.rs`, `mixint_sampler`, `egor_service.rs` (Mixint). Cast, fold and unfold by layout of the variables, on doubles;
  structural induction on layouts.
* **C34-C40** `lhs.rs`, `full_factorial.rs`, `random.rs`, `traits.rs` (Doe). Any permutation and draws; the annealing of the optimized design is a loop
  with an arbitrary random source; `phi_p` increments proved equal to recomputation.
* **C41-C50, C89** `moe` (Moe, Gmx). Splits as lists of labels, Gaussian mixtures over `R` with Coquelicot derivatives, selection of experts
  with an error oracle.
* **C51-C59, C90-C97** `gp/algorithm.rs`, `correlation_models.rs`, `mean_models.rs`, `utils.rs` (Kern, Gp). Kernels and trends with their derivatives;
  training with an explicit Cholesky factorization and substitutions (proved correct), QR as an oracle with its defining equations;
  predictions proved to be the best linear unbiased ones by minimization over all unbiased linear predictors.
* **C60-C62, C98-C100** `parameters.rs`, `optimization.rs` (Tune). Tuning specification, multistart, reduction over any tree, optimizer oracle.
* **C70-C72, C101-C106** `sparse_algorithm.rs` (Sgp). FITC and VFE against the posterior of the documented models, by the Woodbury identities.
* **C63-C65, C107-C115** `criteria/*.rs`, `cstr_pof.rs`, `logei_helper.rs`, `solver_computations.rs` (Normal, Crit, CritF64). The normal
  distribution is built in Coq from its integral (no axiom); criteria are related to expectations as improper integrals, gradients to
  derivatives; LogEI in double precision with the documented special cases of libm.
* **C66, C67** `start_points.rs` and the three multistarts (Start). Generic arithmetic; induction on the sorted pairs.
* **C73, C74, C116-C119** `make_clustered_surrogate`, `bounds.rs` (Sched). Training schedules along a run, with an arbitrary surrogate builder.
* **C75, C120** observer and run recorder (Hist). The run of Ego with two more components, invariant by induction.
* **C68, C69, C76, C121, C122** `sort_axis.rs`, `metrics.rs`, `portfolio.rs` (Misc). Lists, permutations, sums.
* **C123-C126** Positive semidefiniteness of the four kernels (Kern_Pd, Pd_Proofs), for the kernel, process and sparse models already written.
  A kernel is shown to keep positive semidefiniteness by products: rank-one terms, sums, limits (squared exponential: power series),
  minimum kernel (absolute exponential), integrals of products (Matern); then block matrices of prediction and training points.
* **C127-C129** `clustering.rs` (Nbc). The search with the clusterings, trained mixtures and predictions as arguments; invariant of the loop,
  specification of the median by counting.
* **C130-C132** `python/src` (Py). Translations of the bindings; real-number meaning of doubles for truncated limits.
* **C133** `gp/algorithm.rs`, `reduced_likelihood` (Lik). Density of the Gaussian vector of the observations, as a specification independent of the code;
  the quadratic form splits at the generalized least squares coefficients, then ln t <= t - 1.
* **C134** `gp/algorithm.rs`, `sample` (Traj). Averages over draws as linear functionals with uncorrelated standard coordinates; moments by linearity,
  dropped eigenvalues bounded by the threshold.
* **C135, C137** entry points of predictions and samplings of contexts (Entry), on the models of Gp, Moe, Gmx and Mixint.
* **C136** saving and loading (Persist). Files as tagged lists of numbers where JSON writes non-finite ones as null; the tail of the likelihood
  in double precision.
* **C138** the inner optimization (Inner): the facade around the external optimizers, constraints as given to them, the
  reduction over the runs for any cut chosen by the scheduler (double precision), composed with the groups of C80.
* **C139, C140** local steps and the domain (Domain): the proposal of a local step; runs with functions that agree on the domain are
  equal, by induction over the executor with the proposals of C138.
- **C141** — sparse gradients as central differences (SgpGrad_Model). Mean value theorem: the returned component is the exact partial derivative within one step (every correlation, mean and variance); three derivatives of a Gaussian give an explicit bound for the squared exponential; a one-point model with a short length refutes any relative accuracy.
- **C142** — the smoothing factor (Mix_Model over the training model of C42): unfolding of the training path; the argmin over the factors gives the least error; the rows of the clusters are a permutation of all rows, so validation rows are among them.
- **C143** — panics of the training of mixtures: each step of the training returns `Ok` or `Err` under stated conditions on parameters; trainings that panic refute the rest.
- **C144** — objectives that are not numbers (Nan, over the searches of C01/C02 and the run of C11): rows with NaN objective and violated constraints are exchanged with numbers, which leaves both searches unchanged; without constraints the `argmin` of ndarray-stats fails on NaN.
- **C145** — conversions by pointer casts (Single_Model): memory as bytes, numbers as the bit patterns of Flocq's IEEE754.Bits. In double precision reading is the inverse of writing; in single precision the upper word of what is read is the next number of the array.
- **C146** — gradients of mixed-integer surrogates (over Mixint_Model): the cast is split at one scalar variable; rounding is constant around an integer, the closest ordered value around each value (distances computed in doubles), the greatest column of a group as long as it stays the greatest; lengths of unfolded rows.
- **C147** — seeds (Seed_Model over the run of C11, the schedule of C73, the training of C42 and the tuning of C61): every source of randomness is an argument, either derived from the seed or taken from the operating system; equality of runs by extensionality from the trainings up; a small world in which entropy changes the points refutes the rest.
- **C109, C110 (accuracy)** — LogEi_Const, LogEi_Real, LogEi_Proofs: Mills-ratio bounds of the normal tail by monotonicity; forward error analysis of the helper in binary64 with a libm whose functions are accurate to 2^-50; constants and the few numerical facts by the `interval` tactic; the correctly rounded functions meet the hypothesis.
- **C148** — constraint functions without a value (Scale_Model over the run of C11): the scaling factors as the maximum of ndarray-stats, which fails on NaN; the quotients in [-1, 1] by monotonicity of rounding; a proposal whose factors do not exist is a batch on which the step panics.
- **C149** — seeds of sparse mixtures (Rng_Model): SplitMix64, xoshiro256+ and rand's optional integers bit by bit on `N`, checked on published outputs; the shuffle, the rest of the training and the operating system's generator are arguments. The drawn seed is absent exactly when the first output is below 2^63.
- **C150** — settings of experts (Expert_Model, on top of Moe_Model.train): the records of settings, their setters and the order of calls; an expert is its settings and its rows, whether a training succeeds is an argument. Proved from the structure of a successful training; refuted for sparse processes.
- **C151** — expected improvement in doubles (EiF64_Model, Flocq): rounding errors followed through the square root, the quotient, erfc and exp with relative bounds kept down to 2^-1022 where u·cdf and pdf nearly cancel (Mills' ratio); the conditioning of the exact function by the mean value theorem. The accuracy of libm is a hypothesis, met by the correctly rounded library; the negative value is computed with that library.
- **C152** — `MixDoe_Model.v` takes a normalized design, scales it to the relaxed limits of integer variables and rounds it
  (halves away from zero), in exact arithmetic; `MixDoe_Spec.v` counts the rows with a value. From the Latin property of C34
  and C35 (one row per section) the rows of a value are the sections that fall in its unit interval, counted exactly when the
  number of points is a multiple of twice the range and up to two rows otherwise. The claim is refuted for all such designs.
- **C153** — same model with the full factorial design of C40: level counts by the loop invariant "no level count exceeds m",
  then levels at least one unit apart round to different integers. The claim is refuted by a design computed in doubles.
- **C154** — `DoeConc_Model.v`: a call is a resumption, a sequence of critical sections on the lock of the generator (free, poisoned, or
  held for ever), and a schedule picks the thread that runs its next section. Proof: an invariant over all schedules (number of sections
  left, no panic, final design Latin by C34–C36); calls with one section by reducing every schedule to the order of first turns. The
  poisoning and the endless call are proved for all generators and arithmetics; the lost sequential order by a computed schedule. The
  parallel loops run inside a section have one row (`cdist` of one point), so rayon runs them on the calling thread.
- **C155** — same model; a method is the number of its lock, `clone` copies the number. Refuted by a computed pair of draws; methods with
  their own locks by induction on the history of requests.
- **C156** — `CrossVal_Model.v`: linfa's `fold` (chunks rotated by swaps) and `iter_fold` (blocks exchanged in place and back), and the Q2
  score on them. Proof: loop invariant on the order of the chunks; permutations. The rows lost by the integer division are characterized
  exactly, and the scores shown independent of them.
- **C157** — two fits, the second with more rows (More_Spec: same rows first, same correlation of any two points in user units). The weights of the first, extended by zeros, are unbiased for the second (affine change of coordinates, all three trends) and have the same squared error, so the minimum (C125) is not larger. Refuted for the variance itself: constant outputs give zero (C92), nugget > 0 and another output a positive process variance.
- **C158** — the sampling model of Doe_Model instantiated with binary32 (Flocq); designs are drawn in doubles and cast. Distances of finite points are never NaN (sign and NaN propagation lemmas for any precision), so the maximin loop answers. Refutation: a correctly rounded power function is any function satisfying powf_rounded (one exists, C158_example); its seven values on the witness are determined by interval arithmetic, the rest is computed.
- **C159** — the configuration record, one constructor for each builder method, and the check. The specification reads the sequence of calls only: the last value given for an option. One general lemma (a field set by one kind of call) gives the 29 fields.
- **C160** — the calls made by the Python bindings, as a list, so that C159 applies; the ranking of new points (FindResult_Model) with the tolerances of the run for the second finding.
- **C161** — the parameter records of crates/gp and their builder methods, over the tuning of Tune_Model; same specification as C159 (the last value given), by induction on the sequence of calls.
- **C162** — the optimizer facade (record, setters, constraints given to Cobyla and Slsqp with their sign conventions) and the list of constraints built by the infill optimization, in reals. By induction on the setters the tolerances stay zero; the refutation is for all tolerances that are not all zero.
- **C163** — sampling from Python: the composition of parsing (Py_Model), a continuous design within the limits (an argument), rounding and folding (Mixint_Model). Folding gives one admitted value per variable whatever the columns levels are read at.
- **C164** — same model: the converse of C163, by running sampling on the relaxed points themselves; refuted for two categorical variables for all designs.
- **C165** — the Python builder of sparse processes over the training of mixtures (Expert_Model): the options are read back on every trained process with the theorem of C150 for sparse processes; wrong options give no model.

None of the properties is considered inexpressible. For properties about random generators only the effect of the draws is
modelled, not their distribution.

## Modelled and not modelled

Modelled, function by function (the comments give lines): `crates/ego/src/{egor_solver, solver_impl, egor_state, coego, trego,
solver_computations}` (selection, history, schedules, scaling, virtual points, starting points), `crates/ego/src/utils/{find_result, misc,
cstr_pof, logei_helper, start_points, sort_axis, portfolio, bounds, hot_start, run_recorder}`, `crates/ego/src/criteria`,
`crates/ego/src/gpmix/mixint.rs`, `crates/doe/src`, `crates/gp/src/{algorithm, sparse_algorithm, correlation_models, mean_models, optimization,
parameters, sparse_parameters, utils, metrics}`, `crates/moe/src/{algorithm, clustering, gaussian_mixture, metrics, parameters}`,
`crates/ego/src/optimizers/optimizer.rs`, `crates/moe/src/surrogates.rs`, `python/src/{domain, gp_config, gp_mix (settings), sparse_gp_mix (settings), sampling, egor (settings, results)}`.

Taken as oracles (arguments of the model; hypotheses on them are visible): user functions; COBYLA/SLSQP optimizers; the QR
factorization (hypothesis: orthonormal columns times upper triangular); the conditioning tests on singular values; k-means and expectation-maximization;
DBSCAN; cross-validation errors; the partial least squares weights; random generators; thread scheduling; order of hash maps; the
surrogate builder in the scheduling part; libm (with its documented special cases, or an accuracy of 2^-50, and concrete functions showing that both are consistent).

Not modelled: the `blas` feature; logging, timing and file names; argument parsing; the rest of the Python bindings; parallel scheduling other than
reductions; serialization formats (the text round trip of finite doubles by serde_json is trusted; infinite values and NaN are modelled);
rounding in the areas listed above with number model `R`;
memory exhaustion and integer overflow of `usize`.

External libraries are not in the repository; their modelled behaviour is taken from their published sources and documentation, and is part
of the trusted reading: the loop of argmin's executor and its checkpoints, the seeding and draws of rand and rand_xoshiro (integer arithmetic of the
generator and of the ranges), the poisoning rule of the standard library's `RwLock`, the folds of linfa, the errors of ndarray-stats on NaN and empty
arrays, the shape checks of ndarray, the sign conventions of constraints in cobyla (not negative) and slsqp (not positive), and what
bincode and serde_json refuse to read back.

`slice::sort_by` is modelled by a stable insertion sort, which gives the same result when the comparison is a strict weak order.

## Trusted base

* Coq 8.16.1 kernel (and `coqchk`). No axiom, parameter or hypothesis is added by the development.
* The reading of the Rust code embodied in the `_Model.v` files, and of the libraries it calls as listed above.
* The standard-library axioms printed by `Print Assumptions` beneath every theorem. They come in the following sets; A, B and C are
  due to the real numbers of the standard library (doubles inherit them through Flocq):
  * **0**: closed under the global context;
  * **A**: `ClassicalDedekindReals.sig_forall_dec`, `FunctionalExtensionality.functional_extensionality_dep`;
  * **B**: A and `ClassicalDedekindReals.sig_not_dec`;
  * **C**: B and `Classical_Prop.classic`;
  * **D**: C and the primitive machine integers of the standard library with their specification
    (Coq.Numbers.Cyclic.Int63), used by the interval arithmetic that bounds the constants of LogEI:
    `PrimInt63.add`, `PrimInt63.addc`, `PrimInt63.addcarryc`, `PrimInt63.addmuldiv`, `PrimInt63.compare`, `PrimInt63.div`, `PrimInt63.diveucl`, `PrimInt63.diveucl_21`, `PrimInt63.eqb`, `PrimInt63.head0`, `PrimInt63.int`, `PrimInt63.land`, `PrimInt63.leb`, `PrimInt63.lor`, `PrimInt63.lsl`, `PrimInt63.lsr`, `PrimInt63.ltb`, `PrimInt63.lxor`, `PrimInt63.mod`, `PrimInt63.mul`, `PrimInt63.mulc`, `PrimInt63.sub`, `PrimInt63.subc`, `PrimInt63.subcarryc`, `PrimInt63.tail0`, `Uint63.add_spec`, `Uint63.addc_def_spec`, `Uint63.addcarryc_def_spec`, `Uint63.addmuldiv_def_spec`, `Uint63.compare_def_spec`, `Uint63.div_spec`, `Uint63.diveucl_21_spec`, `Uint63.diveucl_def_spec`, `Uint63.eqb_correct`, `Uint63.eqb_refl`, `Uint63.head0_spec`, `Uint63.land_spec`, `Uint63.leb_spec`, `Uint63.lor_spec`, `Uint63.lsl_spec`, `Uint63.lsr_spec`, `Uint63.ltb_spec`, `Uint63.lxor_spec`, `Uint63.mod_spec`, `Uint63.mul_spec`, `Uint63.mulc_spec`, `Uint63.of_to_Z`, `Uint63.sub_spec`, `Uint63.subc_def_spec`, `Uint63.subcarryc_def_spec`, `Uint63.tail0_spec`.

| File | Set | Theorems |
|---|---|---|
| Coego | 0 | C26_partition C27_partial_update C80_cooperative_proposal C80_every_variable C81_full_group_partial |
| Coego | A | C28_increasing_group_partial |
| Coego | C | C28_shuffled_group_refuted C81_groups_refuted |
| Config | C | C159_options C159_order C159_check C159_run_refuted C159_run_partial C160_options_partial C160_accepts_partial C160_constraints_refuted C160_no_tolerances_refuted |
| Crit | A | C112_function_partial C113_constraint_partial C113_constraint_refuted |
| Crit | B | C63_no_variance C65_first_component_partial C65_refuted C112_mean_partial C112_function_refuted C113_wb2s_partial C114_constant_liar C114_kriging_believers C115_units_partial |
| Crit | C | C63_nonnegative C63_positive C63_gradient C107_expected_improvement_partial C107_weighted_partial C107_feasibility_partial C107_small_variance_refuted C64_range C64_gradient_partial C64_exactly_partial C64_tolerance_refuted C108_infill_partial C108_constrained_partial C108_weight_refuted C108_no_surrogate_refuted C109_value_partial C109_gradient_partial C109_no_variance_refuted C111_ei_partial C111_logei_partial C111_wb2_refuted C113_criterion_partial C113_constrained_partial C115_threshold_refuted |
| CritF64 | C | C110_number_refuted C110_far_partial |
| CrossVal | 0 | C156_folds_partial C156_unseen C156_leave_one_out C156_panics_refuted C156_tool_partial C156_selection_partial |
| CrossVal | A | C156_ignored_refuted C156_score C156_perfect_refuted |
| Doe | 0 | C35_optimized_columns C35_maximin_candidate C38_one_point_loops_refuted C38_one_point_panics_refuted C38_second_row_partial |
| Doe | A | C39_random_partial |
| Doe | C | C34_classic C34_centered C34_classic_doubles C34_centered_doubles C35_optimized_latin C35_optimized_latin_doubles C35_maximin_latin C35_maximin_latin_doubles C36_optimized_not_worse C36_maximin_largest C37_incremental_exact C38_rows_partial C39_above_bound_refuted C39_exact_partial C39_normalized_partial C39_normalized_doubles_partial C39_doubles_partial C40_full_factorial C40_full_factorial_doubles |
| DoeConc | 0 | C154_sequential_partial C154_poison_refuted C154_hang_refuted C155_twins_partial C155_new_partial |
| DoeConc | C | C154_threads_partial C154_interleaved_refuted C155_clone_refuted |
| DoeSingle | C | C158_classic_partial C158_maximin_partial C158_maximin_doubles_partial C158_optimized_partial |
| DoeSingle | D | C158_optimized_refuted |
| Domain | C | C139_domain_partial C139_starts_partial C139_region_refuted C140_domain |
| Ego | A | C18_closed_form |
| Ego | C | C09_never_panics C09_budget C09_stops C10_counter C10_last_added_partial C10_converged_refuted C11_best_of_history C12_never_worse C13_true_objectives C13_true_objectives_given_outputs C14_scaled_refuted C14_stored_constraints_partial C14_unit_scales_partial C15_three_empty_attempts C16_first_added_refuted C16_last_improvement_partial C17_flag_monotone C17_flag_complete C17_flag_sound C18_initial_size C18_size_step C18_previous_step_flag C18_underflow_refuted C18_positive_partial C19_multiple_is_global C19_global_recurrent C20_local_area C77_no_improvement_refuted C77_no_improvement_partial C78_target_infeasible_refuted C78_target_stop_partial C82_run_distances C82_never_twice |
| EiF64 | C | C151_none |
| EiF64 | D | C151_accurate_partial C151_bounded_partial C151_library C151_sign_refuted |
| Entry | 0 | C135_hard |
| Entry | B | C135_gp |
| Entry | C | C135_smooth C135_linfa_partial C135_linfa_refuted C135_folded_refuted C137_relaxed C137_context_partial C137_context_refuted C137_level_refuted |
| Expert | C | C150_full_partial C150_sparse_partial C150_trend_refuted C150_max_eval_refuted C150_tunings_refuted |
| FindResult | C | C01_best_is_optimal C01_best_is_unique C01_any_values C02_infinite_objectives_refuted C02_feasible_wins_partial C03_incremental_is_full_refuted C03_incremental_is_full_partial C03_incremental_is_best C04_total_preorder C05_nan_constraint_refuted C05_feasible_iff_partial C05_feasible_no_excess |
| Gp | A | C52_difference_matrix C56_trend |
| Gp | B | C51_normalization C53_correlation_matrix C55_jacobian C56_jacobian C58_gp_variance C58_gp_valvar |
| Gp | C | C53_training_iff C54_kernels C55_abs_no_derivative C57_interpolation C59_mean_gradient C59_var_gradient C59_single_theta_refuted C59_kth_partial C59_kth_refuted C91_best_linear_unbiased C92_constant_data C92_affine_data C93_output_units C93_likelihood C94_order C95_input_units C96_batch C97_covariance |
| Hist | C | C75_rows C75_monotone_partial C75_worse_refuted C75_resume_refuted C120_record_partial C120_twice_refuted |
| Inner | C | C138_best_run C138_schedule C138_proposal C138_total C138_budget C138_same_constraints_partial C138_tolerance_refuted C138_zero_scale_refuted C138_feasible_refuted |
| Lik | C | C133_maximum_likelihood C133_ranking |
| LogEi | C | C109_asymptotic_partial C109_asymptotic_derivative |
| LogEi | D | C109_constants C110_accurate_partial C110_far_accurate_partial C110_accurate_library |
| Misc | 0 | C68_sorted C68_accepted C68_refused C68_permute C68_size C68_rows C76_selection C76_every_cluster C122_value_refuted C122_value_partial C122_noise_refuted |
| Misc | A | C69_q2_le C69_q2_exact C69_q2_defined |
| Misc | B | C69_coverage_range C69_coverage_monotone C69_coverage_one C69_iae_range C121_leave_one_out_refuted C121_score_partial |
| Misc | C | C69_pva |
| Mix | C | C142_factors C142_factor_partial C142_auto_one C142_auto_refuted C142_held_out_refuted C142_null_inputs_refuted C143_returns_partial C143_sizes_refuted C143_auto_refuted C143_null_inputs_refuted |
| MixDoe | C | C152_even_refuted C152_counts_partial C152_random_refuted C152_centered C153_distinct_refuted C153_distinct_partial |
| MixGrad | C | C146_continuous_partial C146_integer_refuted C146_ordered_refuted C146_categorical_refuted C146_folded_refuted |
| Mixint | C | C29_admissible C30_projection C30_admissible_unchanged C31_nearest C31_nearest_exact C32_unfold_panics_refuted C32_unfold_wrong_value_refuted C32_fold_wrong_level_refuted C32_fold_partial C32_round_trip_partial C33_dimension C33_domain_within C33_cast_within C83_same_design_refuted C83_continuous_partial C84_relaxed_input_refuted C84_continuous_partial C85_total C85_wrong_level_refuted C85_evaluated_design_partial C86_reported_designs C87_cast_invariance C88_service_panics_refuted C88_service_partial |
| Moe | 0 | C42_clusters C48_exists C49_one_dimension_partial |
| Moe | C | C41_split_partial C41_row_in_both_parts_refuted C42_training C43_hard C43_training_point C43_density C44_convex C45_constructed C45_far_away_refuted C45_distribution_partial C47_quotient C46_gradients_partial C46_variance_gradient_panics_refuted C46_variance_gradient_value_refuted C46_variance_gradient_error_partial C48_best C49_no_sample_is_enough_refuted C50_too_few_points_refuted C50_cluster_sizes_partial C89_trained_partial C89_set_recombination_refuted C89_announced C89_factor_refuted C89_given_clustering_refuted C89_training_depth |
| More | C | C157_relative_partial C157_variance_refuted |
| Nan | C | C144_infeasible_partial C144_design_partial C144_design_refuted C144_step_refuted |
| Nbc | C | C127_range C128_selection_partial C128_possible_refuted C128_recombination_refuted C129_returns_partial C129_clustering_refuted C129_zero_refuted |
| Opt | A | C162_constraints_partial C162_inside_partial C162_tolerances_refuted |
| Params | A | C161_options C161_sparse C161_check C161_tuned_refuted C161_tuned_partial |
| Pd | C | C123_semidefinite C123_definite C124_trains C125_covariance C125_variance C126_trains C126_fitc_variance C126_sample_covariance |
| Persist | 0 | C136_round_trip_partial C136_faithful C136_sparse_refuted C136_mixture_refuted C136_infinite_refuted C136_python_partial C136_python_refuted |
| Persist | C | C136_zero_residuals |
| Py | 0 | C131_gpmix_partial C132_rows C132_nonempty |
| Py | C | C130_best_partial C130_raises C130_constrained_refuted C131_egor_partial C131_max_eval_refuted C131_n_start_refuted C131_smooth_refuted C132_domain_partial C132_large_refuted C132_integer_refuted |
| PySampling | C | C163_sampling C163_methods C164_reachable_partial C164_levels_refuted |
| PySparse | C | C165_settings C165_refused C165_accepts |
| Restart | C | C21_warm_start_partial C21_constraint_functions_refuted C21_warm_start_panics_refuted C22_crash_resume C23_crash_in_save_partial C23_crash_in_save_refuted C79_finite_reload_partial C79_infinite_refuted C24_extension C24_extensions_add_up C24_no_extension C24_number C24_missing_checkpoint C25_checked_tolerances_partial C25_function_constraints_refuted |
| Rng | 0 | C149_half C149_reproducible_partial C149_seed_refuted |
| Scale | C | C148_scales_partial C148_run_partial C148_sampled_refuted C148_infinite_refuted C148_reported_refuted |
| Sched | 0 | C73_first C73_trainings C74_schedule_partial C74_often |
| Sched | A | C74_effect C74_recluster_refuted C116_reuse_partial C116_latest_refuted C117_objective_partial C117_constraint_last C117_constraint_refuted C118_start_partial C118_fixed_refuted C118_auto_ignored |
| Sched | B | C119_interval C119_given C119_default C119_kernel_independent C119_kernel_refuted |
| Sched | C | C73_schedule |
| Seed | C | C147_seeded_partial C147_design C147_suggest_partial C147_run C147_clusters_refuted C147_auto_refuted C147_starts_refuted C147_order_refuted |
| Sgp | 0 | C71_inducings |
| Sgp | C | C101_fitc C103_trains C102_fitc_likelihood C102_vfe_likelihood C70_vfe_partial C70_variance_refuted C58_sparse_variance C58_negative_noise_refuted C72_bounds_refuted C72_fixed_refuted C72_accepted_partial C105_bounds_partial C105_fixed_partial C105_inactive_refuted C62_sparse_refuted C104_prior_partial C104_posterior_refuted C106_inputs_partial C106_outputs_refuted |
| SgpGrad | C | C141_nearby_partial C141_variance_partial C141_squared_exponential C141_scale_refuted |
| Single | C | C145_double_partial C145_bounds_refuted C145_start_refuted C145_value_refuted |
| Start | 0 | C66_computed C66_number |
| Start | C | C66_exact C66_complete C66_inside C66_inside_doubles C67_global_partial C67_local_partial C67_lhs_partial C67_one_start_refuted C67_zero_refuted |
| Traj | C | C134_cholesky_partial C134_cholesky_panics C134_cholesky_refuted C134_eigen_partial C134_interpolates C134_eigen_refuted C104_trajectories_partial C104_trajectories_refuted |
| Tune | 0 | C60_setters_partial C100_budget_partial C100_documented_refuted C90_dimension |
| Tune | C | C60_active_refuted C61_inactive C61_own_bounds_partial C61_full_bounds_partial C61_order_refuted C61_failed_refuted C62_starts_partial C62_exist_partial C62_point_refuted C62_guess_outside_refuted C98_schedule_partial C98_best_partial C98_failed_refuted C99_improves C90_accepted_partial C90_rejected C90_fixed_refuted C90_partial_tuning_refuted C90_kpls_refuted |
| UpdateData | C | C06_accepted_points_keep_distance C07_append_only_and_aligned C08_no_duplicates |
