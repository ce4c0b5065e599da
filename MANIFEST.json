{
 "claims": [
  {
   "property": "C01",
   "status": "proved",
   "theorems": [
    "C01_best_pair"
   ],
   "note": "All executions (any sequence of steps, termination checks, parameter changes, resets) of the CBO model without NaN objective values."
  },
  {
   "property": "C02",
   "status": "proved",
   "theorems": [
    "C02_best_is_minimum",
    "C02_best_never_increases"
   ],
   "note": "Same executions as C01; minimum taken over the logged evaluations of the run."
  },
  {
   "property": "C03",
   "status": "proved",
   "theorems": [
    "C03_nan_hides_better_refuted",
    "C03_nan_breaks_best_pair_refuted"
   ],
   "note": "REFUTED for objectives with NaN: two explicit executions."
  },
  {
   "property": "C04",
   "status": "proved",
   "theorems": [
    "C04_exactly_max_it_steps",
    "C04_at_most_max_it_steps",
    "C04_no_criterion_never_stops"
   ],
   "note": "Exact for max_it alone, upper bound with further built-in criteria, non-termination without criterion; any scheduler that only changes parameters."
  },
  {
   "property": "C05",
   "status": "proved",
   "theorems": [
    "C05_active_runs"
   ],
   "note": "Any list of criteria, custom ones included."
  },
  {
   "property": "C06",
   "status": "proved",
   "theorems": [
    "C06_terminated_run_frozen",
    "C06_terminated_positions_fixed"
   ],
   "note": ""
  },
  {
   "property": "C07",
   "status": "proved",
   "theorems": [
    "C07_active_set_shrinks"
   ],
   "note": "Built-in per-run criteria; positive diff_tol; dt >= 0; the scheduler keeps dt >= 0."
  },
  {
   "property": "C08",
   "status": "proved",
   "theorems": [
    "C08_construction",
    "C08_step",
    "C08_termination",
    "C08_optimize"
   ],
   "note": "Consensus per run or per particle, no correction; step, construction, termination check and whole optimize loop."
  },
  {
   "property": "C09",
   "status": "proved",
   "theorems": [
    "C09_step_never_raises"
   ],
   "note": "No correction; one consensus point per run, or one per particle (PolarCBO) with partial or no batching."
  },
  {
   "property": "C10",
   "status": "proved",
   "theorems": [
    "C10_budget_respected",
    "C10_budget_used_up"
   ],
   "note": ""
  },
  {
   "property": "C11",
   "status": "proved",
   "theorems": [
    "C11_counters_add_up"
   ],
   "note": ""
  },
  {
   "property": "C12",
   "status": "proved",
   "theorems": [
    "C12_heaviside_counters_refuted"
   ],
   "note": "REFUTED: exact deviation of the counters for every reachable state; equality iff M = 1."
  },
  {
   "property": "C13",
   "status": "proved",
   "theorems": [
    "C13_batch_size",
    "C13_batches_valid",
    "C13_concat_duplicates_refuted"
   ],
   "note": "Resample batches have no duplicates; 'concat' batches may (explicit execution, C13_concat_duplicates_refuted)."
  },
  {
   "property": "C14",
   "status": "proved",
   "theorems": [
    "C14_concat_fair",
    "C14_resample_epochs"
   ],
   "note": "All interleavings of steps with termination checks, parameter changes and resets."
  },
  {
   "property": "C15",
   "status": "proved",
   "theorems": [
    "C15_positions_bounded",
    "C15_post_process_values",
    "C15_in_range_unchanged",
    "C15_idempotent"
   ],
   "note": "The bound holds after every successful step of the CBO model; coordinates are exact reals or IEEE special values."
  },
  {
   "property": "C16",
   "status": "proved",
   "theorems": [
    "C16_nan_survives_refuted"
   ],
   "note": "REFUTED: exact behaviour of the copy_nan_to_num=True variant."
  },
  {
   "property": "C17",
   "status": "proved",
   "theorems": [
    "C17_history"
   ],
   "note": "Names with a value known to the model (known_names in HistSpec.v); history['x'][0] is by value here, its aliasing is C18."
  },
  {
   "property": "C18",
   "status": "proved",
   "theorems": [
    "C18_first_entry",
    "C18_initial_ensemble_kept_refuted",
    "C18_dynamics",
    "C18_later_entries"
   ],
   "note": "REFUTED: history['x'][0] is the live array, so the first in-place update overwrites it (proved for every run, with the exact content); intact for dynamics that rebind x. Modelled with a memory of buffers; the copy function is assumed to copy (np.copy)."
  },
  {
   "property": "C19",
   "status": "proved",
   "theorems": [
    "C19_trackers",
    "C19_independent_records_refuted",
    "C19_other_names_raise"
   ],
   "note": "REFUTED: with a shared extra_tracks list each of the k dynamics records k times (also the earlier ones), and a dynamic built with other names makes earlier ones raise."
  },
  {
   "property": "C20",
   "status": "proved",
   "theorems": [
    "C20_reset",
    "C20_reset_not_fresh_refuted"
   ],
   "note": "REFUTED (that reset restores the initial state): exact effect of reset, and it never equals a fresh construction once a finite energy was seen."
  },
  {
   "property": "C21",
   "status": "proved",
   "theorems": [
    "C21_time",
    "C21_max_time"
   ],
   "note": "Exact real arithmetic for t."
  },
  {
   "property": "C22",
   "status": "proved",
   "theorems": [
    "C22_multiply",
    "C22_multiply_shrink",
    "C22_capped",
    "C22_others_untouched",
    "C22_minimum_not_enforced"
   ],
   "note": "Closed form needs maximum >= 0 (any sign of the value); parameters alpha, sigma, lamda, dt."
  },
  {
   "property": "C23",
   "status": "proved",
   "theorems": [
    "C23_in_order",
    "C23_empty",
    "C23_nested",
    "C23_parameters_only"
   ],
   "note": ""
  },
  {
   "property": "C24",
   "status": "proved",
   "theorems": [
    "C24_stops",
    "C24_bracket"
   ],
   "note": ""
  },
  {
   "property": "C25",
   "status": "proved",
   "theorems": [
    "C25_accuracy",
    "C25_roots_kept"
   ],
   "note": ""
  },
  {
   "property": "C26",
   "status": "proved",
   "theorems": [
    "C26_runs_not_independent_refuted"
   ],
   "note": "REFUTED: for every iteration limit and tolerance, two explicit runs."
  },
  {
   "property": "C27",
   "status": "proved",
   "theorems": [
    "C27_alpha_floor",
    "C27_alpha_range",
    "C27_target_reached",
    "C27_target_missed_refuted"
   ],
   "note": "REFUTED: floor for every state, and energies missing the target for every N >= 2, eta in (1/N,1). Positive part: for one run a solution inside the bracket is met up to the tolerance or the bisection resolution."
  },
  {
   "property": "C28",
   "status": "proved",
   "theorems": [
    "C28_gap",
    "C28_range",
    "C28_alpha_zero",
    "C28_shift",
    "C28_nonincreasing"
   ],
   "note": "Energies may also be +inf (for alpha > 0), one being finite."
  },
  {
   "property": "C29",
   "status": "proved",
   "theorems": [
    "C29_gibbs_mean",
    "C29_weights",
    "C29_check_never_raises",
    "C29_all_infinite"
   ],
   "note": "Exact real arithmetic; logsumexp is log of the sum of exponentials; all energies +inf gives NaN (C29_all_infinite)."
  },
  {
   "property": "C30",
   "status": "proved",
   "theorems": [
    "C30_hull",
    "C30_box",
    "C30_single"
   ],
   "note": ""
  },
  {
   "property": "C31",
   "status": "proved",
   "theorems": [
    "C31_shift",
    "C31_permutation",
    "C31_affine",
    "C31_alpha_zero",
    "C31_rescale"
   ],
   "note": ""
  },
  {
   "property": "C32",
   "status": "proved",
   "theorems": [
    "C32_weight_bound",
    "C32_distance",
    "C32_limit"
   ],
   "note": "Exact real arithmetic."
  },
  {
   "property": "C33",
   "status": "proved",
   "theorems": [
    "C33_weighted_mean",
    "C33_hull",
    "C33_constant_kernel",
    "C33_kernels",
    "C33_symmetric",
    "C33_self",
    "C33_taz_refuted",
    "C33_taz_value"
   ],
   "note": "Gaussian, Laplace, Constant and InverseQuadratic kernels for all kappa > 0 or +inf; REFUTED for Taz (C33_taz_refuted). kernel_factor > 0."
  },
  {
   "property": "C34",
   "status": "proved",
   "theorems": [
    "C34_works_iff_refuted",
    "C34_value",
    "C34_mixes_refuted"
   ],
   "note": "REFUTED: exact condition M = 1 or M = N, exact value of the covariance, and mixing of runs for every M = N >= 2."
  },
  {
   "property": "C35",
   "status": "proved",
   "theorems": [
    "C35_contraction",
    "C35_box",
    "C35_default_post"
   ],
   "note": "Exact real arithmetic; any schedule of alpha and termination checks between the steps."
  },
  {
   "property": "C36",
   "status": "proved",
   "theorems": [
    "C36_absorbing",
    "C36_agreed",
    "C36_default_post",
    "C36_constant_noise_refuted",
    "C36_covariance_noise",
    "C36_covariance_step_ok"
   ],
   "note": "Isotropic and anisotropic noise for whole executions of the state machine; covariance noise for iterated array-level steps (all runs active, unbatched); constant noise refuted."
  },
  {
   "property": "C37",
   "status": "proved",
   "theorems": [
    "C37_heavi_side",
    "C37_heavi_side_reg",
    "C37_limit",
    "C37_infinite",
    "C37_level_refuted"
   ],
   "note": "heavi_side: unbatched or full update with batches (otherwise see C69), all runs active; heavi_side_reg: unbatched. REFUTED in the limit for particles level with the consensus."
  },
  {
   "property": "C38",
   "status": "proved",
   "theorems": [
    "C38_energy_shift",
    "C38_translation",
    "C38_session_energy_shift",
    "C38_session_translation"
   ],
   "note": "Built-in termination criteria; the energy tolerance is shifted too. The session theorems (Props_Coord.v) also cover corrections and commuting post-processing."
  },
  {
   "property": "C39",
   "status": "proved",
   "theorems": [
    "C39_floats",
    "C39_psd",
    "C39_root",
    "C39_root_eigenvalues",
    "C39_positive_part",
    "C39_covariance"
   ],
   "note": "Exact real arithmetic; np.linalg.eigh enters through its contract (orthogonal eigendecomposition)."
  },
  {
   "property": "C40",
   "status": "proved",
   "theorems": [
    "C40_memory_best",
    "C40_monotone",
    "C40_best_energy"
   ],
   "note": "Assumes exact arithmetic on the evaluated points (exact_log): y + 1*(x-y) = x and y + 0*(x-y) = y; with floats both hold up to rounding only."
  },
  {
   "property": "C41",
   "status": "proved",
   "theorems": [
    "C41_first_step",
    "C41_best_particle_refuted"
   ],
   "note": "REFUTED: C01 fails for CBOMemory; C41_first_step gives the pairing for every execution, the witness has an arbitrary gap."
  },
  {
   "property": "C42",
   "status": "proved",
   "theorems": [
    "C42_first_step",
    "C42_best_particle_refuted"
   ],
   "note": "REFUTED: C01 fails for PSO; as C41, with the position before the move."
  },
  {
   "property": "C43",
   "status": "proved",
   "theorems": [
    "C43_repels",
    "C43_first_step_refuted",
    "C43_factor"
   ],
   "note": "REFUTED: the drift points away from the consensus, for every finite ensemble and every reachable particle at rest."
  },
  {
   "property": "C44",
   "status": "proved",
   "theorems": [
    "C44_raises",
    "C44_memory_batch_raises",
    "C44_otherwise_works"
   ],
   "note": "The raise is proved for all executions, configurations and draws; CBOMemory additionally raises for every batch size 1 < b < N; all remaining steps succeed."
  },
  {
   "property": "C45",
   "status": "proved",
   "theorems": [
    "C45_drift_constrained_raises",
    "C45_hypersurface_raises",
    "C45_drift_constrained_moves_all_refuted",
    "C45_hypersurface_moves_all_refuted",
    "C45_reg_combination_raises",
    "C45_reg_combination_shape",
    "C45_frozen_refuted"
   ],
   "note": "REFUTED: terminated runs move. The partial-activity crash and the contamination are proved for all constraints and surfaces. sigma_indep = 0. RegCombinationCBO: schedulers changing lamda are not modelled together with the dynamic."
  },
  {
   "property": "C46",
   "status": "proved",
   "theorems": [
    "C46_step_refuted",
    "C46_execution_refuted"
   ],
   "note": "REFUTED: positions never change except by post-processing. sigma_indep = 0."
  },
  {
   "property": "C47",
   "status": "proved",
   "theorems": [
    "C47_fires_exactly",
    "C47_raises_for_several_runs",
    "C47_first_check",
    "C47_raises_for_polar",
    "C47_never_before_patience_after_reset_refuted"
   ],
   "note": "One run: fires exactly when the last patience consensus energies are finite with std below the threshold. Raises for two or more active runs and for polar consensus. REFUTED after reset: the memory is stale. Exact real arithmetic for np.std."
  },
  {
   "property": "C48",
   "status": "proved",
   "theorems": [
    "C48_moments",
    "C48_bias_correction",
    "C48_uninterrupted",
    "C48_missed_batch",
    "C48_mini_batches_refuted",
    "C48_step",
    "C48_never_raises",
    "C48_second_moment_nonneg",
    "C48_after_reset_refuted"
   ],
   "note": "REFUTED after reset (C48_after_reset_refuted) and for partial updates from mini-batches (C48_mini_batches_refuted)."
  },
  {
   "property": "C49",
   "status": "proved",
   "theorems": [
    "C49_elastic_net",
    "C49_l2",
    "C49_nonsmooth_barrier",
    "C49_log_barrier",
    "C49_simplex",
    "C49_simplex_boundary_refuted",
    "C49_entropy_shift",
    "C49_ball",
    "C49_hyperplane",
    "C49_sphere",
    "C49_square",
    "C49_stiefel"
   ],
   "note": "ElasticNet needs lamda >= 0. REFUTED on the boundary of the simplex (C49_simplex_boundary_refuted); exact for coordinates >= 1e-32. Exact real arithmetic. weighted_L2 is not modelled here."
  },
  {
   "property": "C50",
   "status": "proved",
   "theorems": [
    "C50_ball",
    "C50_hyperplane",
    "C50_sphere",
    "C50_square",
    "C50_stiefel",
    "C50_log_barrier",
    "C50_nonsmooth_barrier",
    "C50_simplex",
    "C50_entropy",
    "C50_ball_idempotent",
    "C50_hyperplane_idempotent",
    "C50_sphere_idempotent",
    "C50_square_idempotent"
   ],
   "note": "Finite dual points, exact arithmetic; SVD by contract; sphere and square for non-zero dual points."
  },
  {
   "property": "C51",
   "status": "proved",
   "theorems": [
    "C51_square_small_refuted",
    "C51_square_large_refuted",
    "C51_hyperplane_default_refuted",
    "C51_log_barrier_zero_refuted"
   ],
   "note": "REFUTED: the defects hold for all parameters named."
  },
  {
   "property": "C52",
   "status": "proved",
   "theorems": [
    "C52_default_is_cbo",
    "C52_feasible_points",
    "C52_ball",
    "C52_simplex",
    "C52_dual",
    "C52_feasible",
    "C52_terminated",
    "C52_identity_is_cbo",
    "C52_identity_step",
    "C52_clipping_refuted"
   ],
   "note": "REFUTED for the default map when post-processing clips a particle (C52_clipping_refuted). Feasibility is proved for any mirror map whose grad_conj has range in the set."
  },
  {
   "property": "C53",
   "status": "proved",
   "theorems": [
    "C53_projection_on_surface",
    "C53_projection_nearest",
    "C53_tangent",
    "C53_projection_matrix",
    "C53_sphere_gradient",
    "C53_sphere_laplacian",
    "C53_plane_gradient",
    "C53_runs_on_surface",
    "C53_runs_default_post_processing",
    "C53_centre_refuted"
   ],
   "note": "Sphere, plane, Stiefel (numpy svd is an oracle with its contract). REFUTED at the centre of the sphere: NaN, thrown to the clipping threshold by the default post-processing. Initial positions are not projected. The Laplacian of the Stiefel distance is covered by C103_stiefel_isotropic."
  },
  {
   "property": "C54",
   "status": "proved",
   "theorems": [
    "C54_value",
    "C54_grad",
    "C54_hessian",
    "C54_grad_squared",
    "C54_hessian_squared",
    "C54_multi_grad",
    "C54_multi_hessian",
    "C54_nonsymmetric_refuted"
   ],
   "note": "REFUTED for non-symmetric quadrics (every such A). Exact real arithmetic; directional derivatives in every direction."
  },
  {
   "property": "C55",
   "status": "proved",
   "theorems": [
    "C55_sphere",
    "C55_sphere_divisor",
    "C55_sphere_singular_points",
    "C55_sphere_singular",
    "C55_plane",
    "C55_quadric",
    "C55_quadric_iff",
    "C55_quadric_nonsymmetric_refuted",
    "C55_feasible",
    "C55_linearised",
    "C55_linearised_sphere_regular",
    "C55_multi_linearised",
    "C55_hessian_unique",
    "C55_multi_none_refuted",
    "C55_multi_call_hessian",
    "C55_multi_implicit",
    "C55_multi_implicit_other"
   ],
   "note": "numpy.linalg.solve is an oracle with the contract M y = v. REFUTED for non-symmetric quadrics; sphere singular points characterised. MultiConstraint: all lists of constraints; REFUTED: solve_Id_hessian_squared_sum without constraints returns the number 0."
  },
  {
   "property": "C56",
   "status": "proved",
   "theorems": [
    "C56_update",
    "C56_lamda_bounds",
    "C56_theta_refuted",
    "C56_means"
   ],
   "note": "Exact real arithmetic. REFUTED for theta: no bound."
  },
  {
   "property": "C57",
   "status": "proved",
   "theorems": [
    "C57_pointwise",
    "C57_matrix",
    "C57_vector",
    "C57_counter",
    "C57_check_1D",
    "C57_check_2D",
    "C57_check_counts",
    "C57_promote",
    "C57_init_f",
    "C57_init_f_accepts",
    "C57_all_pointwise_accepted_refuted"
   ],
   "note": "Promotion is pointwise and counted; the constructor check is characterised. REFUTED: '1D'/'2D' objectives are rejected for ensembles with more than three axes."
  },
  {
   "property": "C58",
   "status": "proved",
   "theorems": [
    "C58_shapes",
    "C58_accepts",
    "C58_none",
    "C58_drawn",
    "C58_user_array_kept"
   ],
   "note": "All shapes; the user's array is never changed (memory model of Alias.v). copy is assumed to copy; axis-free arrays raise ValueError."
  },
  {
   "property": "C59",
   "status": "proved",
   "theorems": [
    "C59_loss_update"
   ],
   "note": ""
  },
  {
   "property": "C60",
   "status": "proved",
   "theorems": [
    "C60_stagnation",
    "C60_patience_refuted"
   ],
   "note": "REFUTED as documented: C60_stagnation is the exact rule for all call sequences, C60_patience_refuted selects a run at the second call for every patience."
  },
  {
   "property": "C61",
   "status": "proved",
   "theorems": [
    "C61_resampling",
    "C61_repeated_calls",
    "C61_no_rules_raise"
   ],
   "note": "Custom rules are arbitrary functions of the state; apply_resampling is the default one."
  },
  {
   "property": "C62",
   "status": "proved",
   "theorems": [
    "C62_evaluation",
    "C62_value",
    "C62_distance"
   ],
   "note": "Criteria are arbitrary functions returning the selected runs; norms are arbitrary functions of the rows."
  },
  {
   "property": "C63",
   "status": "proved",
   "theorems": [
    "C63_defined_2",
    "C63_defined_d",
    "C63_camel",
    "C63_rosenbrock",
    "C63_himmelblau",
    "C63_himmelblau_four",
    "C63_himmelblau_listed",
    "C63_rastrigin",
    "C63_ackley",
    "C63_easom",
    "C63_snowflake",
    "C63_quadratic"
   ],
   "note": "Real arithmetic. Himmelblau: the listed decimals approximate the exact minimisers; Rosenbrock needs b >= 0, Rastrigin A >= 0, Ackley A, b >= 0 (with > 0 for uniqueness)."
  },
  {
   "property": "C64",
   "status": "proved",
   "theorems": [
    "C64_bukin",
    "C64_drop_wave",
    "C64_himmelblau",
    "C64_rosenbrock",
    "C64_rastrigin"
   ],
   "note": "The wrong documented minima are proved wrong and the right ones proved."
  },
  {
   "property": "C65",
   "status": "proved",
   "theorems": [
    "C65_flatten",
    "C65_default_names",
    "C65_unflatten",
    "C65_sizes",
    "C65_unknown_name",
    "C65_repeated_names_refuted"
   ],
   "note": "Parameters must not be repeated in the list of names (C65_repeated_names_refuted)."
  },
  {
   "property": "C66",
   "status": "proved",
   "theorems": [
    "C66_frames",
    "C66_terminated_refuted",
    "C66_zero_limit_refuted"
   ],
   "note": "REFUTED after terminations (C66_terminated_refuted) and for limits equal to 0. Drawing itself is not modelled; the points drawn are in C112 and C128."
  },
  {
   "property": "C67",
   "status": "proved",
   "theorems": [
    "C67_noise",
    "C67_correction",
    "C67_termination",
    "C67_constraints",
    "C67_mirror",
    "C67_sdf_reg",
    "C67_callables",
    "C67_others",
    "C67_documented_refuted"
   ],
   "note": "REFUTED for the documented values None and 'none'. That constructors may reject keyword arguments is not modelled."
  },
  {
   "property": "C68",
   "status": "proved",
   "theorems": [
    "C68_saved_points"
   ],
   "note": "No correction; consensus per run or (with partial/no batching) per particle."
  },
  {
   "property": "C69",
   "status": "proved",
   "theorems": [
    "C69_heaviside_raises_refuted",
    "C69_heaviside_works"
   ],
   "note": "REFUTED (that the correction works for partially terminated ensembles): raises exactly in the stated cases."
  },
  {
   "property": "C70",
   "status": "proved",
   "theorems": [
    "C70_polar_full_update_refuted"
   ],
   "note": "REFUTED: raises in every reachable state with an active run."
  },
  {
   "property": "C71",
   "status": "proved",
   "theorems": [
    "C71_covariance_works_iff_refuted"
   ],
   "note": "REFUTED: exact condition."
  },
  {
   "property": "C72",
   "status": "proved",
   "theorems": [
    "C72_rotation",
    "C72_session_rotation",
    "C72_anisotropic_refuted"
   ],
   "note": "Built-in termination criteria; identity post-processing for the execution theorem, any commuting one for the session theorem. REFUTED for anisotropic noise (C72_anisotropic_refuted)."
  },
  {
   "property": "C73",
   "status": "proved",
   "theorems": [
    "C73_terminated_run_refuted"
   ],
   "note": "REFUTED: proved for every execution and every terminated run."
  },
  {
   "property": "C74",
   "status": "proved",
   "theorems": [
    "C74_best_consensus_refuted",
    "C74_best_consensus_raises",
    "C74_best_consensus_all_active"
   ],
   "note": "REFUTED: wrong attribution and IndexError, for every state. While all runs are active the stored consensus is the best of the calls."
  },
  {
   "property": "C75",
   "status": "proved",
   "theorems": [
    "C75_pointwise",
    "C75_fewer_runs_refuted"
   ],
   "note": "REFUTED: for every ensemble with fewer runs."
  },
  {
   "property": "C76",
   "status": "proved",
   "theorems": [
    "C76_mirror_best",
    "C76_adam_best",
    "C76_drift_constrained_best",
    "C76_hypersurface_best",
    "C76_reg_combination_best"
   ],
   "note": "RegCombinationCBO: penalty weights fixed at their initial value; sigma_indep = 0; HyperSurfaceCBO and RegCombinationCBO with one consensus point per run."
  },
  {
   "property": "C77",
   "status": "proved",
   "theorems": [
    "C77_p_4th_order",
    "C77_unimodal",
    "C77_bimodal",
    "C77_banana",
    "C77_nd_sinus",
    "C77_accelerated_sinus",
    "C77_accelerated_sinus_values",
    "C77_michalewicz"
   ],
   "note": "Real arithmetic; minima for p_4th_order and Unimodal, bounds for the others."
  },
  {
   "property": "C78",
   "status": "proved",
   "theorems": [
    "C78_mccormick",
    "C78_eggholder",
    "C78_eggholder_lines",
    "C78_holder_table",
    "C78_cross_in_tray",
    "C78_mccormick_second"
   ],
   "note": "REFUTED documentation: no global minimum on the plane; second McCormick minimum wrong."
  },
  {
   "property": "C79",
   "status": "proved",
   "theorems": [
    "C79_check_3D",
    "C79_pointwise_3D",
    "C79_1D"
   ],
   "note": "squeeze modelled on n-dimensional arrays; the function of one point is arbitrary."
  },
  {
   "property": "C80",
   "status": "proved",
   "theorems": [
    "C80_minima",
    "C80_default",
    "C80_rastrigin",
    "C80_ackley",
    "C80_array_refuted",
    "C80_list_refuted"
   ],
   "note": "REFUTED: centres cannot be given. Values proved whenever an evaluation succeeds. Only two-dimensional arrays z."
  },
  {
   "property": "C81",
   "status": "proved",
   "theorems": [
    "C81_moments",
    "C81_contraction",
    "C81_defaults_refuted"
   ],
   "note": "REFUTED for the default parameters. Expectation = any normalised linear functional on functions of the draws (covers every probability measure with second moments). No correction."
  },
  {
   "property": "C82",
   "status": "proved",
   "theorems": [
    "C82_init",
    "C82_moments",
    "C82_documented_factor_refuted"
   ],
   "note": "REFUTED documentation of the noise factor. eigh is an oracle with its contract (symmetric eigendecomposition) as hypothesis; covariance noise."
  },
  {
   "property": "C83",
   "status": "proved",
   "theorems": [
    "C83_step",
    "C83_off",
    "C83_idle",
    "C83_fuel",
    "C83_never_returns_refuted",
    "C83_best_pair_refuted",
    "C83_frozen_refuted"
   ],
   "note": "REFUTED: returns, moves active runs only, best pair. The loop is fuel-indexed; None = still running. Full batches for the step theorem."
  },
  {
   "property": "C84",
   "status": "proved",
   "theorems": [
    "C84_best_of_the_past",
    "C84_infeasible_for_ever",
    "C84_present_objective_refuted",
    "C84_scheduler"
   ],
   "note": "REFUTED: best_particle for the present objective. The change of the weights is arbitrary (shape kept); the scheduler's is shown to be one. Values must not be NaN."
  },
  {
   "property": "C85",
   "status": "proved",
   "theorems": [
    "C85_hyperplane",
    "C85_hyperplane_number",
    "C85_hyperplane_default_refuted",
    "C85_zero_normal",
    "C85_sphere",
    "C85_l1",
    "C85_l0",
    "C85_l0_zero",
    "C85_l0_small_refuted",
    "C85_quadric",
    "C85_quadric_defaults_refuted",
    "C85_quadric_distance_refuted"
   ],
   "note": "REFUTED: default hyperplane, L0 tolerance, quadric as a distance. One particle with finite coordinates."
  },
  {
   "property": "C86",
   "status": "proved",
   "theorems": [
    "C86_drift_constrained",
    "C86_hypersurface",
    "C86_reg_combination",
    "C86_reg_combination_many_constraints_refuted",
    "C86_mirror"
   ],
   "note": "REFUTED: several constraints in RegCombinationCBO. The first three with all runs active (C45 has the other cases); MirrorCBO without correction."
  },
  {
   "property": "C87",
   "status": "proved",
   "theorems": [
    "C87_value_l2",
    "C87_value_elastic_net",
    "C87_value_log_barrier",
    "C87_value_nonsmooth_barrier",
    "C87_value_entropy",
    "C87_value_ball",
    "C87_gradient_l2",
    "C87_gradient_elastic_net",
    "C87_gradient_log_barrier",
    "C87_gradient_nonsmooth_barrier",
    "C87_gradient_weighted_l2",
    "C87_gradient_entropy_refuted",
    "C87_conjugate_l2",
    "C87_conjugate_elastic_net",
    "C87_conjugate_log_barrier",
    "C87_conjugate_nonsmooth_barrier",
    "C87_conjugate_ball",
    "C87_conjugate_entropy_refuted",
    "C87_conjugate_entropy_none",
    "C87_weighted_l2_refuted",
    "C87_bregman_l2",
    "C87_bregman_elastic_net",
    "C87_bregman_log_barrier",
    "C87_bregman_nonsmooth_barrier",
    "C87_bregman_entropy_refuted",
    "C87_bregman_array_refuted",
    "C87_hessian_log_barrier",
    "C87_hessian_nonsmooth_barrier",
    "C87_hessian_weighted_l2",
    "C87_hessian_l2_refuted",
    "C87_ball_center_refuted"
   ],
   "note": "REFUTED for Entropy, the Hessian of L2, grad_conj of weighted_L2, NonsmoothBarrier on arrays, ProjectionBall with a centre. Gradients of ElasticNet and NonsmoothBarrier at points without zero coordinates; finite points."
  },
  {
   "property": "C88",
   "status": "proved",
   "theorems": [
    "C88_ball",
    "C88_hyperplane",
    "C88_simplex",
    "C88_one_step",
    "C88_stays",
    "C88_best",
    "C88_best_infeasible_refuted",
    "C88_sphere_origin_refuted"
   ],
   "note": "REFUTED for the best particle when initial particles are outside the set, and for the sphere at the origin. Proved for particles in all cases, and for the best particle when the initial particles are in the set; finite draws and parameters, no correction."
  },
  {
   "property": "C89",
   "status": "proved",
   "theorems": [
    "C89_decay",
    "C89_tail",
    "C89_factor",
    "C89_default_post"
   ],
   "note": "Step by step means (upper bounds), the run active in each step; no correction, full batches. Gaussian draws are one law with these moments; probability measures are an instance of `average`, not constructed."
  },
  {
   "property": "C90",
   "status": "proved",
   "theorems": [
    "C90_limit"
   ],
   "note": "The run is active in every step; no correction, full batches, finite draws."
  },
  {
   "property": "C91",
   "status": "proved",
   "theorems": [
    "C91_consensus_in",
    "C91_invariant",
    "C91_worst_energy",
    "C91_jensen",
    "C91_gibbs_energy",
    "C91_average",
    "C91_convexity_needed",
    "C91_quasi"
   ],
   "note": "No correction (heavi_side); finite objective and draws for the statements on runs."
  },
  {
   "property": "C92",
   "status": "proved",
   "theorems": [
    "C92_update_norm",
    "C92_diff_tol",
    "C92_diff_tol_each",
    "C92_drift_mean",
    "C92_diff_tol_stops",
    "C92_diff_tol_terminates"
   ],
   "note": "drift_mean and termination for full batches without correction; schedulers that change alpha only."
  },
  {
   "property": "C93",
   "status": "proved",
   "theorems": [
    "C93_row_is_model",
    "C93_losses",
    "C93_prediction",
    "C93_accuracy",
    "C93_accuracy_range",
    "C93_batching",
    "C93_empty",
    "C93_labels_needed_refuted"
   ],
   "note": "Accuracy for finite scores and forward passes that treat images independently (a network in training mode with batch norm does not). REFUTED for labels not matching the images: one image with two labels has accuracy 2."
  },
  {
   "property": "C94",
   "status": "proved",
   "theorems": [
    "C94_default",
    "C94_large_energies_refuted",
    "C94_rescaled"
   ],
   "note": "Finite energies; overflow not modelled; logsumexp as max, exp, sum, log. REFUTED for the default: weights do not sum to 1 for large alpha*energy."
  },
  {
   "property": "C95",
   "status": "proved",
   "theorems": [
    "C95_steps",
    "C95_off_by_one",
    "C95_tenth_refuted",
    "C95_stalls_refuted"
   ],
   "note": "Time and all scalars in rounded arithmetic; particle operations are parameters. REFUTED: ceil(T/dt) steps in floating point (11 instead of 10 for dt=0.1, T=1); termination for T > 2^53 dt."
  },
  {
   "property": "C96",
   "status": "proved",
   "theorems": [
    "C96_uniform",
    "C96_uniform_moments",
    "C96_normal",
    "C96_normal_moments",
    "C96_unknown",
    "C96_ensemble",
    "C96_own"
   ],
   "note": "np.random draws and np.linalg.svd are parameters with contracts; real arithmetic. Note: the two methods return different shapes for a shape (N,d)."
  },
  {
   "property": "C97",
   "status": "proved",
   "theorems": [
    "C97_exponential",
    "C97_exponential_torch",
    "C97_torch_bounded",
    "C97_torch_is_numpy",
    "C97_torch_large",
    "C97_torch_ess",
    "C97_torch_ess_range"
   ],
   "note": "Signs independent of the magnitudes is the assumption on the draws; dtype conversion and devices not modelled."
  },
  {
   "property": "C98",
   "status": "proved",
   "theorems": [
    "C98_mixture",
    "C98_det",
    "C98_accepts",
    "C98_defaults",
    "C98_bounds",
    "C98_single",
    "C98_surplus_refuted",
    "C98_single_run_refuted",
    "C98_array_centre_refuted",
    "C98_bimodal"
   ],
   "note": "scipy's multivariate_normal modelled from its eigendecomposition (eigh a parameter with its contract); densities do not underflow. REFUTED: unequal numbers of means and covariances; '3D' use with M=1 or N=1; array centres."
  },
  {
   "property": "C99",
   "status": "proved",
   "theorems": [
    "C99_alpha_float",
    "C99_alpha_int_refuted",
    "C99_alpha_constructed",
    "C99_alpha_stays_zero",
    "C99_alpha_zero_mean",
    "C99_numpy_alpha_refuted",
    "C99_short_alpha_refuted",
    "C99_float",
    "C99_pso_float",
    "C99_cbo_int_refuted",
    "C99_optimize_int_refuted",
    "C99_memory_int_refuted",
    "C99_pso_integers_refuted",
    "C99_pso_velocity_refuted",
    "C99_pso_frozen_refuted",
    "C99_memory_value_refuted"
   ],
   "note": "element types DInt/DFloat; truncation towards zero, no overflow of the 64-bit integers. REFUTED: integer ensembles (alpha truncated; CBO, CBOMemory raise; PSO truncates velocities and memory), numpy scalars and flat arrays as alpha."
  },
  {
   "property": "C100",
   "status": "proved",
   "theorems": [
    "C100_isolated",
    "C100_seed_without_ensemble_refuted",
    "C100_no_seed_refuted",
    "C100_global_sampler_refuted",
    "C100_check_draws",
    "C100_check_changes_run_refuted",
    "C100_batches_refuted",
    "C100_same_batch_refuted",
    "C100_executions",
    "C100_one_draw"
   ],
   "note": "CBO without resampling and without the independent noise of DriftConstrainedCBO (which draws from np.random whatever the seed). REFUTED: seed without ensemble, check_f_dims without effect on the run, batches depending on the seed."
  },
  {
   "property": "C101",
   "status": "proved",
   "theorems": [
    "C101_returns_best",
    "C101_print_int",
    "C101_print_zero_refuted",
    "C101_default_alpha",
    "C101_default_cap",
    "C101_none_alpha",
    "C101_effective_alpha",
    "C101_effective_total",
    "C101_calls_accumulate",
    "C101_reset_restores_refuted",
    "C101_default_termination",
    "C101_no_max_it",
    "C101_unknown_schedule",
    "C101_unknown_rejected_refuted",
    "C101_cbs_same_schedules_refuted",
    "C101_cbs_default",
    "C101_fresh_draws",
    "C101_memory_fresh_draws"
   ],
   "note": "CBO without correction where the number of steps is counted; printing itself is not modelled. REFUTED: print_int=0 prints nothing, reset restores alpha, an unknown schedule is rejected, CBS accepts the schedules of CBO."
  },
  {
   "property": "C102",
   "status": "proved",
   "theorems": [
    "C102_units",
    "C102_stops_together",
    "C102_threshold",
    "C102_fixed_threshold_refuted",
    "C102_time_step_one"
   ],
   "note": "Real arithmetic, CBO without drift correction. REFUTED: the fixed default threshold of post_process_default is unit-free."
  },
  {
   "property": "C103",
   "status": "proved",
   "theorems": [
    "C103_total",
    "C103_step",
    "C103_isotropic",
    "C103_first_order",
    "C103_anisotropic_refuted",
    "C103_constant_refuted",
    "C103_stiefel_isotropic",
    "C103_plane_isotropic",
    "C103_plane_anisotropic_refuted",
    "C103_consensus_stays",
    "C103_plane_consensus_refuted",
    "C103_lamda_refuted"
   ],
   "note": "Real arithmetic; noise laws enter by their mean and covariance. REFUTED: correction of anisotropic and of constant noise on the sphere, correction of anisotropic noise on planes, consensus states on planes, lamda."
  },
  {
   "property": "C104",
   "status": "proved",
   "theorems": [
    "C104_relabelled",
    "C104_stops_together",
    "C104_best",
    "C104_best_particle_refuted"
   ],
   "note": "Real arithmetic, CBO without drift correction. REFUTED: with ties in the energy the reported best particle depends on the order."
  },
  {
   "property": "C105",
   "status": "proved",
   "theorems": [
    "C105_step",
    "C105_bounded",
    "C105_first_step",
    "C105_contraction_refuted",
    "C105_dt_refuted",
    "C105_absorbing_refuted"
   ],
   "note": "Real arithmetic, finite drifts. REFUTED: that the drift step scales with dt, that it contracts towards the consensus point for small dt, and that consensus states are absorbing."
  },
  {
   "property": "C106",
   "status": "proved",
   "theorems": [
    "C106_dichotomy",
    "C106_step",
    "C106_recovers_refuted"
   ],
   "note": "Real arithmetic with NaN and infinities, CBO without drift correction. REFUTED: that a run recovers from an undefined objective value."
  },
  {
   "property": "C107",
   "status": "proved",
   "theorems": [
    "C107_infinite_kappa",
    "C107_energy_shift",
    "C107_translation",
    "C107_rotation"
   ],
   "note": "Real arithmetic. PolarCBO without drift correction; the Taz kernel is not included (it mixes runs, see C33)."
  },
  {
   "property": "C108",
   "status": "proved",
   "theorems": [
    "C108_who_sees_whom",
    "C108_apart_is_absorbing",
    "C108_rest",
    "C108_regions",
    "C108_clusters_are_independent"
   ],
   "note": "Real arithmetic. The Taz kernel, which couples the runs, is not part of this property."
  },
  {
   "property": "C109",
   "status": "proved",
   "theorems": [
    "C109_cbs",
    "C109_root_unique",
    "C109_any_eigendecomposition",
    "C109_hull",
    "C109_hyperplanes",
    "C109_default_clips",
    "C109_isometries",
    "C109_affine_mean",
    "C109_affine_covariance"
   ],
   "note": "Real arithmetic, unbatched, all runs active, points are vectors; eigh is a parameter with its contract. The isometry statement is for identity post-processing."
  },
  {
   "property": "C110",
   "status": "proved",
   "theorems": [
    "C110_pso_spreads",
    "C110_pso_clips",
    "C110_pso_leaves",
    "C110_memory_hull"
   ],
   "note": "Real arithmetic, unbatched (batch_size = N), noise parameters sigma = sigma_memory = 0, no correction term."
  },
  {
   "property": "C111",
   "status": "proved",
   "theorems": [
    "C111_energy_shift",
    "C111_translation",
    "C111_rotation"
   ],
   "note": "Real arithmetic; custom termination callables are excluded; PSO needs m + gamma*dt different from 0."
  },
  {
   "property": "C112",
   "status": "proved",
   "theorems": [
    "C112_arrows_point_at_consensus",
    "C112_picture_mixes_runs",
    "C112_picture_raises",
    "C112_picture_of_run_refuted",
    "C112_first_picture",
    "C112_history_shows_same",
    "C112_history_shows_same_refuted"
   ],
   "note": "Real arithmetic for the arrow tips. REFUTED: with stopped runs the picture mixes two runs or raises; with save_int > 1 history pictures pair consensus points with older particles."
  },
  {
   "property": "C113",
   "status": "proved",
   "theorems": [
    "C113_coordinates",
    "C113_coordinates_memory",
    "C113_irrelevant",
    "C113_irrelevant_memory",
    "C113_isotropic_refuted"
   ],
   "note": "Real arithmetic; update norms are not compared and diff_tol is excluded, because norms do depend on the other coordinates. REFUTED for isotropic noise."
  },
  {
   "property": "C114",
   "status": "proved",
   "theorems": [
    "C114_mirror_shift",
    "C114_adam_shift",
    "C114_dc_shift",
    "C114_hyper_shift",
    "C114_reg_shift",
    "C114_adam_translation",
    "C114_dc_translation",
    "C114_reg_translation",
    "C114_mirror_rotation",
    "C114_dc_rotation",
    "C114_hyper_rotation",
    "C114_reg_rotation",
    "C114_adam_rotation_refuted",
    "C114_hyper_translation_refuted"
   ],
   "note": "Real arithmetic. REFUTED: rotations of AdamCBO (C114_adam_rotation_refuted; coordinate-wise quotients). REFUTED: translations along a plane on which HyperSurfaceCBO runs (C114_hyper_translation_refuted; dt*consensus term). Translations are not claimed for MirrorCBO (mirror map)."
  },
  {
   "property": "C115",
   "status": "proved",
   "theorems": [
    "C115_mirror",
    "C115_adam",
    "C115_hyper",
    "C115_drift_constrained",
    "C115_reg_combination"
   ],
   "note": "The restriction to one run or no termination checks is needed: with some of several runs stopped, the three constrained variants raise (see the claim on partially terminated ensembles)."
  },
  {
   "property": "C116",
   "status": "proved",
   "theorems": [
    "C116_no_influence",
    "C116_quiet",
    "C116_best",
    "C116_header",
    "C116_energies",
    "C116_every_step",
    "C116_times",
    "C116_f_min",
    "C116_current_energy_refuted"
   ],
   "note": "Texts and number formatting are not modelled, only the kind of line and its values; times are exact reals. REFUTED: f_min is not the energy of the current ensemble but of the one before the last step."
  },
  {
   "property": "C117",
   "status": "proved",
   "theorems": [
    "C117_history",
    "C117_same_index_refuted",
    "C117_positions",
    "C117_move",
    "C117_resample_x",
    "C117_resampling_moves_refuted",
    "C117_resample_y",
    "C117_dual_shift",
    "C117_exact_additions"
   ],
   "note": "Resets (which stop the tracking of y) are not part of these sessions. C117_dual_shift assumes exact additions (C117_exact_additions: vectors of floats over the reals). REFUTED: entry k of history['y'] does not belong to entry k of history['x']; resampling x of a MirrorCBO can be without any effect one step later."
  },
  {
   "property": "C118",
   "status": "proved",
   "theorems": [
    "C118_step",
    "C118_consensus",
    "C118_noise",
    "C118_flattening",
    "C118_polar_gauss",
    "C118_polar_gauss_kernel",
    "C118_polar_other_raises",
    "C118_polar_refuted",
    "C118_update_diff_vector",
    "C118_diff_tol_vector",
    "C118_drift_mean_vector",
    "C118_update_diff_shape",
    "C118_drift_mean_shape",
    "C118_diff_tol_raises",
    "C118_diff_tol_refuted",
    "C118_num_eval",
    "C118_promoted_vector",
    "C118_promoted_accepted",
    "C118_promoted_refuted"
   ],
   "note": "Full batches and all runs active; corrections, best particles and histories other than drift_mean are not part of this model. REFUTED: three of the kernels, diff_tol, drift_mean, num_eval and the promotion of objectives for particles with two or more axes."
  },
  {
   "property": "C119",
   "status": "proved",
   "theorems": [
    "C119_gaussian",
    "C119_laplace",
    "C119_constant",
    "C119_constant_refuted",
    "C119_inverse_quadratic",
    "C119_inverse_quadratic_refuted",
    "C119_monotone",
    "C119_weights",
    "C119_kappa_zero",
    "C119_kernel_in_use",
    "C119_constructed_kernel",
    "C119_kappa_refuted",
    "C119_names",
    "C119_unknown_name",
    "C119_modes",
    "C119_alpha_mode_refuted"
   ],
   "note": "Exact real arithmetic; the Taz kernel (see C33) is only part of the name table. REFUTED: documented value of the constant kernel at distance kappa, documented formula of the inverse quadratic kernel, documented factor of the mode 'alpha', effect of assigning dyn.kappa."
  },
  {
   "property": "C120",
   "status": "proved",
   "theorems": [
    "C120_cbo",
    "C120_memory",
    "C120_mirror",
    "C120_dc",
    "C120_hyper",
    "C120_reg",
    "C120_adam_energy",
    "C120_adam_direction",
    "C120_heavi",
    "C120_fixed_eps_refuted"
   ],
   "note": "Exact real arithmetic; the unit of time is covered for CBO only (C102). REFUTED: heavi_side_reg_correction with the same eps in both units."
  },
  {
   "property": "C121",
   "status": "proved",
   "theorems": [
    "C121_vectors_refuted",
    "C121_vectors_raise",
    "C121_scalar",
    "C121_rows",
    "C121_matrices",
    "C121_separate",
    "C121_shared",
    "C121_others_repaired_refuted",
    "C121_move",
    "C121_zero_update_refuted",
    "C121_is_cbo"
   ],
   "note": "Only the arrays named by x and y are modelled as memory. REFUTED: d x d matrices are accepted for d-dimensional particles; a zero update leaves the particles; other maps repair NaN dual points."
  },
  {
   "property": "C122",
   "status": "proved",
   "theorems": [
    "C122_accepts",
    "C122_consensus_refuted",
    "C122_torch_accepts",
    "C122_values",
    "C122_torch_values",
    "C122_numpy",
    "C122_torch",
    "C122_torch_consensus_refuted",
    "C122_torch_consensus",
    "C122_torch_seed_refuted",
    "C122_torch_seed",
    "C122_torch_device_refuted"
   ],
   "note": "Positional arguments other than the objective are not modelled. REFUTED: all dynamics accept compute_consensus; torch versions use the torch consensus, the seed and the device for drawn particles."
  },
  {
   "property": "C123",
   "status": "proved",
   "theorems": [
    "C123_contraction",
    "C123_limit",
    "C123_partial_refuted",
    "C123_batch_of_one"
   ],
   "note": "Exact arithmetic, CBO without correction. REFUTED: noise-free CBO with default mini-batches converges to one point."
  },
  {
   "property": "C124",
   "status": "proved",
   "theorems": [
    "C124_move",
    "C124_step",
    "C124_contraction",
    "C124_meeting_refuted",
    "C124_hull_refuted"
   ],
   "note": "CBO without correction, all particles updated, no overflow. REFUTED: exact contraction and invariance of the hull in double precision."
  },
  {
   "property": "C125",
   "status": "proved",
   "theorems": [
    "C125_formulas",
    "C125_scaled",
    "C125_snowflake_refuted",
    "C125_ackley",
    "C125_ackley_refuted",
    "C125_rastrigin",
    "C125_rastrigin_refuted",
    "C125_rastrigin_original_refuted",
    "C125_cross_in_tray",
    "C125_cross_in_tray_refuted"
   ],
   "note": "Real arithmetic. REFUTED for Rastrigin, cross_in_tray, Ackley with A other than 20 and snowflake with its default alpha."
  },
  {
   "property": "C126",
   "status": "proved",
   "theorems": [
    "C126_base",
    "C126_own",
    "C126_cbo",
    "C126_unique",
    "C126_documented_refuted",
    "C126_actual",
    "C126_memory_actual",
    "C126_pso_actual",
    "C126_keywords_refuted"
   ],
   "note": "Constructors as in C122; defaults compared as source text. REFUTED for CBO, CBOMemory and PSO."
  },
  {
   "property": "C127",
   "status": "proved",
   "theorems": [
    "C127_construction",
    "C127_mirror",
    "C127_adam",
    "C127_drift_constrained",
    "C127_hypersurface",
    "C127_reg_combination",
    "C127_memory_construction",
    "C127_memory"
   ],
   "note": "Both sequences of steps are assumed not to raise (C115 says when they do not); the number of evaluations is not compared; MirrorCBO without drift correction."
  },
  {
   "property": "C128",
   "status": "proved",
   "theorems": [
    "C128_curve",
    "C128_contour",
    "C128_contour_raises",
    "C128_first_picture",
    "C128_picture",
    "C128_consensus_on_graph_refuted",
    "C128_no_drift",
    "C128_evaluations"
   ],
   "note": "REFUTED: consensus on the graph (C128_consensus_on_graph_refuted). Grids in exact arithmetic; drawing itself is external; the picture theorem is for CBO without correction with all runs active."
  },
  {
   "property": "C129",
   "status": "proved",
   "theorems": [
    "C129_drift_constrained_plane",
    "C129_reg_combination_plane",
    "C129_reg_combination_ensemble",
    "C129_reg_combination_stable",
    "C129_reg_approaches_plane_refuted",
    "C129_reg_bounded_violation_refuted",
    "C129_reg_combination_sphere",
    "C129_reg_approaches_sphere_refuted",
    "C129_drift_constrained_sphere",
    "C129_drift_constrained_centre_refuted"
   ],
   "note": "REFUTED inside spheres for DriftConstrainedCBO (C129_drift_constrained_centre_refuted) and for RegCombinationCBO (C129_reg_approaches_plane_refuted, C129_reg_bounded_violation_refuted, C129_reg_approaches_sphere_refuted). Exact arithmetic; post-processing without effect (no clipping); the linear solver is any correct one."
  },
  {
   "property": "C130",
   "status": "proved",
   "theorems": [
    "C130_mirror_absorbing",
    "C130_dual_agreement_refuted",
    "C130_dual_speed",
    "C130_stuck_at_boundary"
   ],
   "note": "REFUTED for dual points (C130_dual_agreement_refuted: positions agree, dual points differ for ever). Exact arithmetic; noise other than constant; finite objective values, draws and dual points."
  }
 ]
}