{
 "claims": [
  {
   "property": "C01",
   "status": "proved",
   "theorems": [
    "C01_interlace_layout",
    "C01_interlace_rejects",
    "C01_state_vector"
   ],
   "note": "Layout and strided slices for any number of arrays and any element type; unequal lengths raise."
  },
  {
   "property": "C02",
   "status": "proved",
   "theorems": [
    "C02_interlace_matrix_blocks",
    "C02_interlace_matrix_outer",
    "C02_interlace_matrix_psd"
   ],
   "note": "Strided blocks, outer products and quadratic forms of interlace_matrix."
  },
  {
   "property": "C03",
   "status": "proved",
   "theorems": [
    "C03_insert_array",
    "C03_insert_tuple"
   ],
   "note": "Array and tuple forms of insert at position 0."
  },
  {
   "property": "C04",
   "status": "proved",
   "theorems": [
    "C04_ioup",
    "C04_matern"
   ],
   "note": "IOUP and Matern priors; means, covariance blocks and cross blocks of one prediction."
  },
  {
   "property": "C05",
   "status": "proved",
   "theorems": [
    "C05_parabola_path"
   ],
   "note": "End points, derivative as taken by jax.jacfwd, and integral, per coordinate."
  },
  {
   "property": "C06",
   "status": "proved",
   "theorems": [
    "C06_coefficients_law",
    "C06_path_law"
   ],
   "note": "Second moments of the coefficients, and of increment and area of the evaluated path; expectation over keys."
  },
  {
   "property": "C07",
   "status": "proved",
   "theorems": [
    "C07_coarse_matches_fine",
    "C07_coarse_unique"
   ],
   "note": "Same increment and integral as the piecewise fine path; the pair with that property is unique."
  },
  {
   "property": "C08",
   "status": "proved",
   "theorems": [
    "C08_aggregated_law"
   ],
   "note": "Expectation operator of independent sub-keys, every N and dimension."
  },
  {
   "property": "C09",
   "status": "proved",
   "theorems": [
    "C09_endpoint_and_defect",
    "C09_path",
    "C09_area_refuted"
   ],
   "note": "Expected statement refuted for the area coefficient (eps_1); exact defect proved, also for the evaluated path; eps_0 proved."
  },
  {
   "property": "C10",
   "status": "proved",
   "theorems": [
    "C10_fine_coefficients",
    "C10_fine_coefficients_refuted"
   ],
   "note": "Expected statement refuted; the returned pair evaluates right after multiplying the second member by sqrt 6."
  },
  {
   "property": "C11",
   "status": "proved",
   "theorems": [
    "C11_conversions_inverse"
   ],
   "note": "Both orders, for all drifts and diffusions."
  },
  {
   "property": "C12",
   "status": "proved",
   "theorems": [
    "C12_correction_formula",
    "C12_correction_columns",
    "C12_additive_noise",
    "C12_scalar",
    "C12_diagonal",
    "C12_linear_coordinates"
   ],
   "note": "Componentwise formula, column form, additive, scalar and diagonal cases, linear changes of coordinates."
  },
  {
   "property": "C13",
   "status": "proved",
   "theorems": [
    "C13_aligned_grids"
   ],
   "note": "Every N including 0."
  },
  {
   "property": "C14",
   "status": "proved",
   "theorems": [
    "C14_interval_ode"
   ],
   "note": "Every interval, polymorphic in the carried state of the integrator."
  },
  {
   "property": "C15",
   "status": "proved",
   "theorems": [
    "C15_causal",
    "C15_restart"
   ],
   "note": "Causality and restart."
  },
  {
   "property": "C16",
   "status": "proved",
   "theorems": [
    "C16_pure_noise_ekf0",
    "C16_pure_noise_euler"
   ],
   "note": "Every N, M, delta, dimension, prior scale, both filter modes; Euler's defect exact."
  },
  {
   "property": "C17",
   "status": "proved",
   "theorems": [
    "C17_euler_recursion",
    "C17_euler_linear",
    "C17_euler_scalar",
    "C17_euler_quadrature"
   ],
   "note": "Recursion, linear fields (matrix power), scalar fields, quadrature; every N including 0."
  },
  {
   "property": "C18",
   "status": "proved",
   "theorems": [
    "C18_euler_order1"
   ],
   "note": "Global error bound in the maximum norm for Lipschitz fields, with its exponential form."
  },
  {
   "property": "C19",
   "status": "proved",
   "theorems": [
    "C19_pathwise_recursion",
    "C19_pathwise_length",
    "C19_key_recursion"
   ],
   "note": "Pathwise and keyed entry points, both flags; wrong number of increments raises."
  },
  {
   "property": "C20",
   "status": "proved",
   "theorems": [
    "C20_key_is_pathwise",
    "C20_standard_flag",
    "C20_noise_free_is_euler"
   ],
   "note": "Keyed = pathwise on the same draws; flag = pre-scaling; noise-free = euler."
  },
  {
   "property": "C21",
   "status": "proved",
   "theorems": [
    "C21_chunked"
   ],
   "note": "Any list of chunks."
  },
  {
   "property": "C22",
   "status": "proved",
   "theorems": [
    "C22_ibm_closed_form"
   ],
   "note": "Every N, h, flag, initial state and increments."
  },
  {
   "property": "C23",
   "status": "proved",
   "theorems": [
    "C23_linear_moments",
    "C23_gbm_moments"
   ],
   "note": "Linear drift with constant diffusion, and geometric Brownian motion in any dimension; expectation over keys."
  },
  {
   "property": "C24",
   "status": "proved",
   "theorems": [
    "C24_caller_array_kept",
    "C24_caller_array_refuted",
    "C24_caller_array_exact"
   ],
   "note": "Expected statement refuted for NumPy buffers with standard=True; exact behaviour proved; holds otherwise."
  },
  {
   "property": "C25",
   "status": "proved",
   "theorems": [
    "C25_additive_noise"
   ],
   "note": "All drifts, dimensions, draws; any sigma with diagonal sigma sigma^T."
  },
  {
   "property": "C26",
   "status": "proved",
   "theorems": [
    "C26_exact_difference",
    "C26_mean_bias",
    "C26_textbook_mean",
    "C26_textbook_step_refuted"
   ],
   "note": "Expected statement refuted; exact difference and mean bias proved."
  },
  {
   "property": "C27",
   "status": "proved",
   "theorems": [
    "C27_joint_covariance",
    "C27_closed_form"
   ],
   "note": "Covariances defined from the kernel min(s,t) by iterated integrals."
  },
  {
   "property": "C28",
   "status": "proved",
   "theorems": [
    "C28_hypoelliptic_covariance"
   ],
   "note": "Congruence with the Brownian covariance; positive semi-definite."
  },
  {
   "property": "C29",
   "status": "proved",
   "theorems": [
    "C29_hypoelliptic_step",
    "C29_linear_drift_hypoelliptic",
    "C29_linear_drift_diag"
   ],
   "note": "Generator form for every draw; linear drift for both schemes."
  },
  {
   "property": "C30",
   "status": "proved",
   "theorems": [
    "C30_predict_sqrt"
   ],
   "note": "Every QR routine meeting the contract; such routines are shown to exist (Lapack.v)."
  },
  {
   "property": "C31",
   "status": "proved",
   "theorems": [
    "C31_update_sqrt",
    "C31_defined"
   ],
   "note": "Same mean, factors of the same covariances, NaN together; defined exactly when S is positive definite."
  },
  {
   "property": "C32",
   "status": "proved",
   "theorems": [
    "C32_ekf_sqrt",
    "C32_ekf_sqrt_state"
   ],
   "note": "Whole runs, with and without the calibration outputs."
  },
  {
   "property": "C33",
   "status": "proved",
   "theorems": [
    "C33_predict_psd",
    "C33_update_psd",
    "C33_ekf_psd"
   ],
   "note": "Plain mode; in square-root mode covariances are factor times transpose by construction."
  },
  {
   "property": "C34",
   "status": "proved",
   "theorems": [
    "C34_optimal"
   ],
   "note": "For every expectation operator whose errors have covariances P and R and are uncorrelated."
  },
  {
   "property": "C35",
   "status": "proved",
   "theorems": [
    "C35_filter",
    "C35_solver"
   ],
   "note": "Any observation model, both modes; for the solvers the derivative state is the field at the prediction (EKF1: plus its linearisation)."
  },
  {
   "property": "C36",
   "status": "proved",
   "theorems": [
    "C36_residual",
    "C36_ekf0_jacobian",
    "C36_ekf1_jacobian",
    "C36_true_jacobian"
   ],
   "note": "Every field and number of states; EKF1's is the Jacobian of the observation where the field has partial derivatives."
  },
  {
   "property": "C37",
   "status": "proved",
   "theorems": [
    "C37_ekf0_pec",
    "C37_heun"
   ],
   "note": "Every field, dimension, N, step and prior scale, both filter modes."
  },
  {
   "property": "C38",
   "status": "proved",
   "theorems": [
    "C38_ekf0_cov",
    "C38_sample_law"
   ],
   "note": "Filter covariance, and mean and covariance of the returned sample."
  },
  {
   "property": "C39",
   "status": "proved",
   "theorems": [
    "C39_ekf0_order2"
   ],
   "note": "Explicit constant, maximum norm."
  },
  {
   "property": "C40",
   "status": "proved",
   "theorems": [
    "C40_scale",
    "C40_scale_sqrt"
   ],
   "note": "Plain and square-root mode, including the calibration outputs."
  },
  {
   "property": "C41",
   "status": "proved",
   "theorems": [
    "C41_mle_maximises",
    "C41_quadratic",
    "C41_inverse",
    "C41_recalibration",
    "C41_outcome"
   ],
   "note": "Strict unique maximiser when some residual is nonzero; otherwise the likelihood decreases in s and 0 is returned. C41_outcome: exactly when it raises, is NaN or returns."
  },
  {
   "property": "C42",
   "status": "proved",
   "theorems": [
    "C42_same_state",
    "C42_last_outputs"
   ],
   "note": "State unchanged; last residual and last innovation covariance in closed form, both modes."
  },
  {
   "property": "C43",
   "status": "proved",
   "theorems": [
    "C43_shapes",
    "C43_values",
    "C43_ibm_refuted"
   ],
   "note": "Expected statement refuted: covariance first, residual second, for all inputs; closed form with the integrated Brownian prior."
  },
  {
   "property": "C44",
   "status": "proved",
   "theorems": [
    "C44_ekf0_factor",
    "C44_ekf1_factor",
    "C44_alg3_factor",
    "C44_agree",
    "C44_same_noise_refuted",
    "C44_one_step"
   ],
   "note": "Expected statement refuted; the square-root mode with noise V is the plain mode with V V^T, all solvers."
  },
  {
   "property": "C45",
   "status": "proved",
   "theorems": [
    "C45_sample_ignored",
    "C45_no_key",
    "C45_law_of_run",
    "C45_ibm_run",
    "C45_ibm_call"
   ],
   "note": "One call and whole sde_solver runs, any choice of sampling keys."
  },
  {
   "property": "C46",
   "status": "proved",
   "theorems": [
    "C46_output_law",
    "C46_output2_law",
    "C46_ekf0",
    "C46_ekf1"
   ],
   "note": "Outputs given the filter state, and runs of ekf0 and ekf1; every expectation with standard normal moments."
  },
  {
   "property": "C47",
   "status": "proved",
   "theorems": [
    "C47_no_prior_refuted",
    "C47_alg3_default"
   ],
   "note": "Expected statement refuted for ekf0 and ekf1 (all inputs); proved for ekf0_2 and ekf1_2."
  },
  {
   "property": "C48",
   "status": "proved",
   "theorems": [
    "C48_initial_mean",
    "C48_exact_iff",
    "C48_parabola",
    "C48_time_dependent_refuted",
    "C48_initial_cov",
    "C48_initial_cov_refuted",
    "C48_ekf1_runs",
    "C48_ekf0_runs"
   ],
   "note": "Expected statement refuted: exact if and only if the field's time derivative vanishes (parabola ODE: sigma b = 0); covariance right only in dimension 1."
  },
  {
   "property": "C49",
   "status": "proved",
   "theorems": [
    "C49_ibm_exact"
   ],
   "note": "Entrywise, every order, step and dimension; matrix exponential defined by its series."
  },
  {
   "property": "C50",
   "status": "proved",
   "theorems": [
    "C50_split"
   ],
   "note": "Every real s and t."
  },
  {
   "property": "C51",
   "status": "proved",
   "theorems": [
    "C51_cholesky"
   ],
   "note": "Positive definite by controllability; Cholesky routine as a contract."
  },
  {
   "property": "C52",
   "status": "proved",
   "theorems": [
    "C52_A",
    "C52_Q_refuted",
    "C52_Q_iff",
    "C52_split_iff"
   ],
   "note": "Expected statement refuted: Q is the transition covariance, and steps can be split, exactly when theta = 0; A is right for every theta."
  },
  {
   "property": "C53",
   "status": "proved",
   "theorems": [
    "C53_exact",
    "C53_split",
    "C53_psd"
   ],
   "note": "Matrix exponential and covariance integral, step splitting, (semi-)definiteness."
  },
  {
   "property": "C54",
   "status": "proved",
   "theorems": [
    "C54_char",
    "C54_char_refuted",
    "C54_char_iff",
    "C54_branches_iff"
   ],
   "note": "Expected statement refuted: characteristic polynomial (z+1/lam)^(k+1), right exactly for lam = 1; branches agree exactly for length = sqrt 3."
  },
  {
   "property": "C55",
   "status": "proved",
   "theorems": [
    "C55_psd",
    "C55_xi",
    "C55_exact"
   ],
   "note": "Every number of nodes for positive semi-definiteness, at least two for exactness."
  },
  {
   "property": "C56",
   "status": "proved",
   "theorems": [
    "C56_predict",
    "C56_uncorrelated",
    "C56_copies",
    "C56_matern",
    "C56_returns"
   ],
   "note": "Any list of transitions, empty list rejected; d copies give the kron prior."
  },
  {
   "property": "C57",
   "status": "proved",
   "theorems": [
    "C57_predict",
    "C57_rejected",
    "C57_no_cholesky"
   ],
   "note": "Predictions, rejection, and absence of a Cholesky factor."
  },
  {
   "property": "C58",
   "status": "proved",
   "theorems": [
    "C58_initial_law",
    "C58_parabola_law",
    "C58_initial_psd"
   ],
   "note": "Stated for any coefficients with the stated first and second moments and for the package's own; expectations are abstract positive linear functionals."
  },
  {
   "property": "C59",
   "status": "proved",
   "theorems": [
    "C59_same_field"
   ],
   "note": ""
  },
  {
   "property": "C60",
   "status": "proved",
   "theorems": [
    "C60_runs_refuted",
    "C60_outcome"
   ],
   "note": "Expected behaviour refuted; C60_outcome gives the exact exception for every input. The exception is raised at call time (missing keyword xi), whatever the values."
  },
  {
   "property": "C61",
   "status": "proved",
   "theorems": [
    "C61_recursion",
    "C61_exception",
    "C61_algorithm4"
   ],
   "note": "Exceptions are raised while jax.lax.scan traces the body (also for N = 0); the trace is modelled by one call at the initial state."
  },
  {
   "property": "C62",
   "status": "proved",
   "theorems": [
    "C62_progress_accounting"
   ],
   "note": "Events of the decorated scan: one Define first, one Close last, exact total, never below the iterations done, at most 1999 updates."
  },
  {
   "property": "C63",
   "status": "proved",
   "theorems": [
    "C63_progress_transparent"
   ],
   "note": "Carry and outputs unchanged by the decorator."
  },
  {
   "property": "C64",
   "status": "proved",
   "theorems": [
    "C64_ibm",
    "C64_double_ibm",
    "C64_gbm"
   ],
   "note": ""
  },
  {
   "property": "C65",
   "status": "proved",
   "theorems": [
    "C65_ibm",
    "C65_fhn"
   ],
   "note": ""
  },
  {
   "property": "C66",
   "status": "proved",
   "theorems": [
    "C66_exact_difference",
    "C66_mean_refuted",
    "C66_mean_error"
   ],
   "note": "Expected statement refuted; exact difference for all constants."
  },
  {
   "property": "C67",
   "status": "proved",
   "theorems": [
    "C67_reduced_ignores_G_E",
    "C67_reduced_drift",
    "C67_reduced_drift_refuted",
    "C67_reduced_noise",
    "C67_noise",
    "C67_reduced_mean",
    "C67_reduced_mean_error",
    "C67_mean_difference",
    "C67_variance_difference",
    "C67_mean_refuted",
    "C67_mean_error",
    "C67_variance_default",
    "C67_variance_refuted"
   ],
   "note": "Expected statements refuted; exact differences for all constants and initial states."
  },
  {
   "property": "C68",
   "status": "proved",
   "theorems": [
    "C68_same_draw",
    "C68_separate_draws_refuted",
    "C68_correlation"
   ],
   "note": "Expected statement refuted: same matrix for every key; correlation 1 where separate draws give 0."
  },
  {
   "property": "C69",
   "status": "proved",
   "theorems": [
    "C69_gbm_step",
    "C69_independent_coordinates_refuted"
   ],
   "note": "Expected statement refuted; exact step for geometric Brownian motions of any dimension."
  },
  {
   "property": "C70",
   "status": "proved",
   "theorems": [
    "C70_hypoelliptic_numbers",
    "C70_diag_numbers"
   ],
   "note": "Both directions, via the Cholesky contract."
  },
  {
   "property": "C71",
   "status": "proved",
   "theorems": [
    "C71_fhn_variance",
    "C71_default"
   ],
   "note": ""
  },
  {
   "property": "C72",
   "status": "proved",
   "theorems": [
    "C72_harmonic_variance",
    "C72_noise"
   ],
   "note": ""
  },
  {
   "property": "C73",
   "status": "proved",
   "theorems": [
    "C73_ekf0_jacobian",
    "C73_ekf1_jacobian",
    "C73_residual"
   ],
   "note": "Jacobian entries are partial derivatives (Coquelicot Derive); no differentiability is assumed because every identity is between functions of one variable."
  },
  {
   "property": "C74",
   "status": "proved",
   "theorems": [
    "C74_ekf0",
    "C74_ekf1",
    "C74_ode_run",
    "C74_alg3_run"
   ],
   "note": "Any positive definite prior; ekf0 accepts two or three states per coordinate only (C48)."
  },
  {
   "property": "C75",
   "status": "proved",
   "theorems": [
    "C75_returns",
    "C75_exact"
   ],
   "note": "About the call with xi = 0, not the shipped one (C60 shows that the shipped call raises)."
  },
  {
   "property": "C76",
   "status": "proved",
   "theorems": [
    "C76_initial_law",
    "C76_same_run"
   ],
   "note": "Any expectation operator under which X has the given moments; P00 positive semi-definite, prior and noise accepted."
  },
  {
   "property": "C77",
   "status": "proved",
   "theorems": [
    "C77_ekf0",
    "C77_ekf1"
   ],
   "note": "Values, NaN and exceptions agree; two-state priors given explicitly (the defaults differ, C47)."
  },
  {
   "property": "C78",
   "status": "proved",
   "theorems": [
    "C78_linear",
    "C78_quadratic"
   ],
   "note": "Without a sampling key; the noise, if any, is positive semi-definite in plain mode."
  },
  {
   "property": "C79",
   "status": "proved",
   "theorems": [
    "C79_recursion",
    "C79_one_step",
    "C79_stable",
    "C79_ekf0_unstable"
   ],
   "note": "Order 1 integrated Brownian prior, no noise, no sampling key; EKF0's growth is stated for N+2 steps."
  },
  {
   "property": "C80",
   "status": "proved",
   "theorems": [
    "C80_covariance",
    "C80_shift",
    "C80_matern"
   ],
   "note": "Entrywise bounds; the true covariance is Coquelicot's integral of expm L L^T expm^T. The Matern matrix bounded here is the one the code uses (C54 shows its coefficients are not Matern's)."
  },
  {
   "property": "C81",
   "status": "proved",
   "theorems": [
    "C81_mean",
    "C81_lyapunov",
    "C81_variance"
   ],
   "note": "Node count is a parameter (1000 in the code)."
  },
  {
   "property": "C82",
   "status": "proved",
   "theorems": [
    "C82_best_parabola"
   ],
   "note": "Second moments only: any probability model with the Brownian moments."
  },
  {
   "property": "C83",
   "status": "proved",
   "theorems": [
    "C83_split"
   ],
   "note": ""
  },
  {
   "property": "C84",
   "status": "proved",
   "theorems": [
    "C84_ekf0_subsystem",
    "C84_related",
    "C84_product",
    "C84_permutation"
   ],
   "note": "Mean output (no key); priors with zero shift and covariance/matrix of the form 1 (x) M, as IOUP and Matern produce; no observation noise; two or three states."
  },
  {
   "property": "C85",
   "status": "proved",
   "theorems": [
    "C85_diag_run",
    "C85_hypo_run",
    "C85_diag_moments",
    "C85_hypo_moments"
   ],
   "note": "Recursion for every drift and diffusion; moments for linear drift and constant diffusion (the hypoelliptic scheme needs its covariance positive definite)."
  },
  {
   "property": "C86",
   "status": "proved",
   "theorems": [
    "C86_output_law"
   ],
   "note": "For the call with xi = 0 supplied (marginal_xi); the shipped call raises, see C60."
  },
  {
   "property": "C87",
   "status": "proved",
   "theorems": [
    "C87_brownian_refuted",
    "C87_law"
   ],
   "note": "For the call with xi = 0 supplied; constant diffusion, integrated Brownian prior of scale sg (default 1), no observation noise."
  },
  {
   "property": "C88",
   "status": "proved",
   "theorems": [
    "C88_pairs",
    "C88_additive",
    "C88_multiplicative_refuted"
   ],
   "note": "Multiplicative noise refuted; the scripts say that they assume additive noise."
  },
  {
   "property": "C89",
   "status": "proved",
   "theorems": [
    "C89_same_path",
    "C89_total"
   ],
   "note": "All inputs."
  },
  {
   "property": "C90",
   "status": "proved",
   "theorems": [
    "C90_raises",
    "C90_reference",
    "C90_standard",
    "C90_reference_refuted"
   ],
   "note": "One dimension, as in the script."
  },
  {
   "property": "C91",
   "status": "proved",
   "theorems": [
    "C91_step",
    "C91_gap",
    "C91_formula_refuted"
   ],
   "note": "The reference step; the filter run beside it is that of sde_solver."
  },
  {
   "property": "C92",
   "status": "proved",
   "theorems": [
    "C92_law",
    "C92_stacking",
    "C92_exact",
    "C92_covariance_refuted"
   ],
   "note": "Covariance refuted; exact covariance and exact condition proved."
  },
  {
   "property": "C93",
   "status": "proved",
   "theorems": [
    "C93_driver",
    "C93_estimate",
    "C93_scale",
    "C93_outcome",
    "C93_right",
    "C93_calibrated_refuted"
   ],
   "note": "The recalibration step is refuted for the script's scale sqrt(10); exact outcome for every scale."
  },
  {
   "property": "C94",
   "status": "proved",
   "theorems": [
    "C94_saved",
    "C94_paired",
    "C94_pairing_refuted"
   ],
   "note": "Pairing refuted; what is saved is proved for every input."
  },
  {
   "property": "C95",
   "status": "proved",
   "theorems": [
    "C95_curves"
   ],
   "note": "All inputs."
  },
  {
   "property": "C96",
   "status": "proved",
   "theorems": [
    "C96_numbers",
    "C96_noise",
    "C96_mixed_orders"
   ],
   "note": "Failures are outcomes of the model (Raise, Nan)."
  },
  {
   "property": "C97",
   "status": "proved",
   "theorems": [
    "C97_step",
    "C97_law",
    "C97_covariance",
    "C97_exact",
    "C97_exact_refuted"
   ],
   "note": ""
  },
  {
   "property": "C98",
   "status": "proved",
   "theorems": [
    "C98_pathwise",
    "C98_mean",
    "C98_bound",
    "C98_bound_refuted"
   ],
   "note": ""
  },
  {
   "property": "C99",
   "status": "proved",
   "theorems": [
    "C99_euler",
    "C99_ekf0",
    "C99_nilpotent",
    "C99_euler_noise",
    "C99_ibm"
   ],
   "note": "Whole-run mean and covariance of linear equations with M Euler or M EKF0 steps per interval; closed forms for pure noise and for A^2 = 0, including the integrated Brownian motion of the repository."
  },
  {
   "property": "C100",
   "status": "proved",
   "theorems": [
    "C100_one_step",
    "C100_order2"
   ],
   "note": "Order two for EKF1 with constants fixed before field, step and step count; the reported covariance is of order h^2; one step in closed form."
  },
  {
   "property": "C101",
   "status": "proved",
   "theorems": [
    "C101_any",
    "C101_euler",
    "C101_ekf0"
   ],
   "note": "Pathwise global error of the driver for additive noise: any accurate integrator (Gronwall), Euler sub-steps and EKF0 sub-steps."
  },
  {
   "property": "C102",
   "status": "proved",
   "theorems": [
    "C102_law_refuted",
    "C102_law",
    "C102_one",
    "C102_area"
   ],
   "note": "Expected law refuted for every sample count; exact moments of the coefficients and of the area proved."
  },
  {
   "property": "C103",
   "status": "proved",
   "theorems": [
    "C103_exact",
    "C103_unconverted",
    "C103_law",
    "C103_gaussian",
    "C103_unconverted_refuted",
    "C103_euler"
   ],
   "note": ""
  },
  {
   "property": "C104",
   "status": "proved",
   "theorems": [
    "C104_ibm",
    "C104_harmonic",
    "C104_gbm",
    "C104_fhn",
    "C104_harmonic3",
    "C104_harmonic3_default",
    "C104_expansions_refuted"
   ],
   "note": ""
  },
  {
   "property": "C105",
   "status": "proved",
   "theorems": [
    "C105_reference",
    "C105_strong",
    "C105_once",
    "C105_twice"
   ],
   "note": ""
  },
  {
   "property": "C106",
   "status": "proved",
   "theorems": [
    "C106_value",
    "C106_law",
    "C106_law_fine",
    "C106_law_brownian",
    "C106_tolerance"
   ],
   "note": ""
  },
  {
   "property": "C107",
   "status": "proved",
   "theorems": [
    "C107_exponential",
    "C107_sin",
    "C107_tolerance"
   ],
   "note": ""
  },
  {
   "property": "C108",
   "status": "proved",
   "theorems": [
    "C108_exact",
    "C108_any",
    "C108_euler"
   ],
   "note": ""
  },
  {
   "property": "C109",
   "status": "proved",
   "theorems": [
    "C109_default_refuted",
    "C109_weak",
    "C109_tolerance",
    "C109_alg3"
   ],
   "note": ""
  },
  {
   "property": "C110",
   "status": "proved",
   "theorems": [
    "C110_ekf1",
    "C110_ekf0",
    "C110_ekf0_refuted",
    "C110_algorithm2_refuted"
   ],
   "note": ""
  },
  {
   "property": "C111",
   "status": "proved",
   "theorems": [
    "C111_heun",
    "C111_linear",
    "C111_weak",
    "C111_second_order_refuted",
    "C111_tolerance",
    "C111_ibm"
   ],
   "note": ""
  },
  {
   "property": "C112",
   "status": "proved",
   "theorems": [
    "C112_fhn_rest",
    "C112_synaptic_rest",
    "C112_reduced_rest_refuted",
    "C112_ibm_path",
    "C112_double_ibm_path",
    "C112_oscillators",
    "C112_gbm",
    "C112_noise",
    "C112_starts"
   ],
   "note": ""
  },
  {
   "property": "C113",
   "status": "proved",
   "theorems": [
    "C113_noise_free",
    "C113_coordinates",
    "C113_coordinates_ekf0",
    "C113_coordinates_ibm",
    "C113_coordinates_em",
    "C113_time_unit",
    "C113_time_unit_ekf0",
    "C113_time_unit_em"
   ],
   "note": ""
  },
  {
   "property": "C114",
   "status": "proved",
   "theorems": [
    "C114_weak",
    "C114_test",
    "C114_stability"
   ],
   "note": ""
  },
  {
   "property": "C115",
   "status": "proved",
   "theorems": [
    "C115_covariance",
    "C115_oscillator",
    "C115_equation",
    "C115_stationary_iff"
   ],
   "note": ""
  },
  {
   "property": "C116",
   "status": "proved",
   "theorems": [
    "C116_mean",
    "C116_synaptic",
    "C116_test",
    "C116_mean_refuted",
    "C116_synaptic_full"
   ],
   "note": ""
  },
  {
   "property": "C117",
   "status": "proved",
   "theorems": [
    "C117_linear",
    "C117_diag",
    "C117_hypo",
    "C117_tests"
   ],
   "note": ""
  }
 ]
}