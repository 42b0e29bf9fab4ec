{
 "claims": [
  {
   "property": "C01",
   "status": "proved",
   "theorems": [
    "C01_GS_marginals",
    "C01_GS_ordered_law",
    "C01_GS_set_law",
    "C01_GS_never_fails",
    "C01_GS_valid_items"
   ],
   "note": "exact law of mode 'GS' of proj_dpp_sampler_kernel, real symmetric K, exact arithmetic"
  },
  {
   "property": "C02",
   "status": "proved",
   "theorems": [
    "C02_Chol_marginals",
    "C02_Chol_ordered_law",
    "C02_Chol_set_law",
    "C02_Chol_never_fails",
    "C02_Chol_valid_items"
   ],
   "note": "mode 'Chol', same statements"
  },
  {
   "property": "C03",
   "status": "proved",
   "theorems": [
    "C03_Schur_marginals",
    "C03_Schur_ordered_law",
    "C03_Schur_set_law",
    "C03_Schur_never_fails",
    "C03_Schur_valid_items"
   ],
   "note": "mode 'Schur', same statements"
  },
  {
   "property": "C04",
   "status": "proved",
   "theorems": [
    "C04_GS_marginals",
    "C04_GS_ordered_law",
    "C04_GS_set_law",
    "C04_GS_never_fails",
    "C04_GS_valid_items",
    "C04_GS_bis_marginals",
    "C04_GS_bis_ordered_law",
    "C04_GS_bis_set_law",
    "C04_GS_bis_never_fails",
    "C04_GS_bis_valid_items"
   ],
   "note": "modes 'GS' and 'GS_bis' of proj_dpp_sampler_eig"
  },
  {
   "property": "C05",
   "status": "proved",
   "theorems": [
    "C05_KuTa12_marginals",
    "C05_KuTa12_ordered_law",
    "C05_KuTa12_set_law",
    "C05_KuTa12_never_fails",
    "C05_KuTa12_valid_items"
   ],
   "note": "mode 'KuTa12'; scipy qr is any routine meeting qr_contract (orthonormal basis of the column span); Gram-Schmidt is shown to meet it"
  },
  {
   "property": "C06",
   "status": "proved",
   "theorems": [
    "C06_marginals",
    "C06_point_law",
    "C06_never_fails",
    "C06_increasing_items"
   ],
   "note": ""
  },
  {
   "property": "C07",
   "status": "proved",
   "theorems": [
    "C07_marginals",
    "C07_point_law",
    "C07_never_fails",
    "C07_distinct_items",
    "C07_projection_spectrum"
   ],
   "note": ""
  },
  {
   "property": "C08",
   "status": "proved",
   "theorems": [
    "C08_L_ensemble_law",
    "C08_normaliser_positive",
    "C08_never_fails",
    "C08_generic_kernel_law"
   ],
   "note": ""
  },
  {
   "property": "C09",
   "status": "proved",
   "theorems": [
    "C09_table_entries",
    "C09_table_shape",
    "C09_generating_polynomial"
   ],
   "note": ""
  },
  {
   "property": "C10",
   "status": "proved",
   "theorems": [
    "C10_law",
    "C10_never_fails",
    "C10_valid",
    "C10_refuses_iff",
    "C10_rank_exact"
   ],
   "note": "k >= 1; size 0 is C51. The rank test uses the tolerance of numpy.linalg.matrix_rank, modelled with eps >= 0 a parameter."
  },
  {
   "property": "C11",
   "status": "proved",
   "theorems": [
    "C11_never_fails",
    "C11_k_dpp_law",
    "C11_valid",
    "C11_normalisation"
   ],
   "note": "law by Cauchy-Binet (proved in CauchyBinet.v); every phase-2 mode; a cached table of a larger size is allowed"
  },
  {
   "property": "C12",
   "status": "proved",
   "theorems": [
    "C12_size_too_large",
    "C12_unknown_mode",
    "C12_kernel_succeeds_iff",
    "C12_eig_unknown_mode"
   ],
   "note": "kernel dispatcher: succeeds iff mode known and size<=rank; the eig dispatcher does not check the size (its caller does)"
  },
  {
   "property": "C13",
   "status": "partial",
   "theorems": [
    "C13_add_probability_partial",
    "C13_delete_probability_partial",
    "C13_exchange_probability_partial",
    "C13_exchange_detailed_balance_partial",
    "C13_add_delete_balance_iff_partial",
    "C13_refuted"
   ],
   "note": "Refuted for the code as written (the delete acceptance uses size/(N-size+1) instead of its inverse): C13_refuted exhibits L=ones(2,2) where neither balance nor stationarity holds. Proved: exact probabilities of all three moves, reversibility of exchange moves, and the exact set of (S,S+t) pairs for which add/delete balance holds."
  },
  {
   "property": "C14",
   "status": "proved",
   "theorems": [
    "C14_detailed_balance",
    "C14_dpp_stationary",
    "C14_never_fails"
   ],
   "note": ""
  },
  {
   "property": "C15",
   "status": "proved",
   "theorems": [
    "C15_detailed_balance",
    "C15_k_dpp_stationary",
    "C15_never_fails"
   ],
   "note": ""
  },
  {
   "property": "C16",
   "status": "proved",
   "theorems": [
    "C16_AED_states_valid",
    "C16_AD_states_valid",
    "C16_E_states_valid"
   ],
   "note": "For E the theorem is for T_max=None: with T_max the array is padded by zero rows (C18_refuted)."
  },
  {
   "property": "C17",
   "status": "proved",
   "theorems": [
    "C17_AED_length",
    "C17_AD_length",
    "C17_E_length",
    "C17_E_zero"
   ],
   "note": ""
  },
  {
   "property": "C18",
   "status": "partial",
   "theorems": [
    "C18_refuted",
    "C18_elapsed_at_least_partial"
   ],
   "note": "Refuted: the comparison with T_max is reversed, so any T_max larger than the elapsed time stops the chain after one iteration (E pads with rows of zeros). The partial theorem gives the only situation in which T_max does not cut the chain."
  },
  {
   "property": "C19",
   "status": "proved",
   "theorems": [
    "C19_AED_valid",
    "C19_AD_E_valid",
    "C19_AED_success_probability",
    "C19_AD_E_success_probability",
    "C19_only_ValueError",
    "C19_size_too_large"
   ],
   "note": "q_AED/q_AD_E are the acceptance probabilities of a single uniform trial; the theorem C19_*_success_probability shows that 99, not 100, trials are examined."
  },
  {
   "property": "C20",
   "status": "proved",
   "theorems": [
    "C20_sample_exact",
    "C20_sample_exact_k_dpp",
    "C20_sample_mcmc",
    "C20_sample_mcmc_k_dpp",
    "C20_history",
    "C20_run_returns",
    "C20_run_total"
   ],
   "note": ""
  },
  {
   "property": "C21",
   "status": "proved",
   "theorems": [
    "C21_history",
    "C21_compute_K",
    "C21_compute_L",
    "C21_compute_L_refuses",
    "C21_constructor"
   ],
   "note": "eigh is any routine meeting eigh_contract (EighEx.v proves the real spectral theorem and builds one); the gram-factor parametrisation with d < N needs full row rank (the code divides by the square roots of the eigenvalues of L_dual)"
  },
  {
   "property": "C22",
   "status": "partial",
   "theorems": [
    "C22_never_fails_partial",
    "C22_law_partial",
    "C22_after_history_partial",
    "C22_larger_size_refuted",
    "C22_projection_correlation",
    "C22_projection_correlation_never_fails",
    "C22_projection_correlation_other_size",
    "C22_projection_likelihood",
    "C22_projection_likelihood_never_fails"
   ],
   "note": "False for increasing sizes: C22_larger_size_refuted (IndexError with probability one). C22_after_history_partial: exact k-DPP law after every history whose k-DPP calls all had size >= k; C22_projection_*: projection kernels (correlation: size = rank, any other size raises ValueError; likelihood: every size <= rank), any history."
  },
  {
   "property": "C23",
   "status": "partial",
   "theorems": [
    "C23_modes_interfere_refuted",
    "C23_rescaled_information_refuted",
    "C23_single_mode_partial",
    "C23_vfx_draws_partial"
   ],
   "note": "False as stated (refuted): after one successful call in mode vfx (alpha) every call in mode alpha (vfx) fails with AttributeError (C23_modes_interfere_refuted), and a DPP call after a k-DPP call samples with constants precomputed for size k (C23_rescaled_information_refuted). Proved instead: after any history that uses at most one of the two modes the next call in that mode never meets the clash (C23_single_mode_partial, C23_vfx_draws_partial). Inner samplers are arbitrary programs."
  },
  {
   "property": "C24",
   "status": "proved",
   "theorems": [
    "C24_vfx_size",
    "C24_vfx_failure",
    "C24_alpha_size",
    "C24_alpha_failure",
    "C24_sample_exact_k_dpp"
   ],
   "note": "Arbitrary inner samplers and precomputation; failures other than ValueError are excluded only when the inner samplers do not raise and the cache comes from the same mode (see C23)."
  },
  {
   "property": "C25",
   "status": "partial",
   "theorems": [
    "C25_refuses_with_ValueError_partial",
    "C25_accepts_documented",
    "C25_refuses_undocumented",
    "C25_projection_flag_refuted",
    "C25_foreign_parameter_refuted",
    "C25_unknown_keys_refuted",
    "C25_None_refuted"
   ],
   "note": "False as stated in three ways, each refuted: a non-boolean projection flag raises AttributeError; unknown keys, parameters of the other kernel type and parameters equal to None are accepted. Proved: accepted => documented kernel type with at least one of its parameters; undocumented => ValueError; with a boolean flag every refusal is a ValueError."
  },
  {
   "property": "C26",
   "status": "proved",
   "theorems": [
    "C26_wilson",
    "C26_sample"
   ],
   "note": "graph given by its edge list (nodes 0..n, the samplers index lists by nodes) and lists of neighbours; no self-loops, no repeated edges, connected; the while loop is run for any number of iterations (None = still running); no exception is possible; also for UST.sample from any object state"
  },
  {
   "property": "C27",
   "status": "proved",
   "theorems": [
    "C27_aldous_broder",
    "C27_sample"
   ],
   "note": "graph given by its edge list (nodes 0..n, the samplers index lists by nodes) and lists of neighbours; no self-loops, no repeated edges, connected; the while loop is run for any number of iterations (None = still running); no exception is possible; also for UST.sample from any object state"
  },
  {
   "property": "C28",
   "status": "proved",
   "theorems": [
    "C28_permutation",
    "C28_never_fails",
    "C28_uniform"
   ],
   "note": "law stated in exact arithmetic; rng.randint is uniform"
  },
  {
   "property": "C29",
   "status": "proved",
   "theorems": [
    "C29_insertion_tableau",
    "C29_recording_tableau",
    "C29_same_shape"
   ],
   "note": "over any totally ordered type (floats without NaN are covered by the order, not by their arithmetic)"
  },
  {
   "property": "C30",
   "status": "proved",
   "theorems": [
    "C30_injective",
    "C30_bijective"
   ],
   "note": "injectivity and, more, surjectivity onto all pairs (semistandard, standard) of the same shape"
  },
  {
   "property": "C31",
   "status": "proved",
   "theorems": [
    "C31_schensted",
    "C31_first_row",
    "C31_diagram"
   ],
   "note": "also the stronger statement on each entry of the first row"
  },
  {
   "property": "C32",
   "status": "proved",
   "theorems": [
    "C32_points"
   ],
   "note": ""
  },
  {
   "property": "C33",
   "status": "proved",
   "theorems": [
    "C33_descents",
    "C33_law",
    "C33_virtual_descents"
   ],
   "note": "also the full law of DescentProcess.sample as a count over permutations; positions of the virtual process are 0-based in the code, the model keeps this"
  },
  {
   "property": "C34",
   "status": "proved",
   "theorems": [
    "C34_carries",
    "C34_sample",
    "C34_never_fails",
    "C34_bad_base"
   ],
   "note": "base >= 1; base 0 raises ValueError as soon as a digit is drawn (C34_bad_base)"
  },
  {
   "property": "C35",
   "status": "proved",
   "theorems": [
    "C35_ordering",
    "C35_first",
    "C35_total",
    "C35_degrees"
   ],
   "note": "compute_ordering for every N and d; the floating point floor(N**(1/d)) is a parameter fl, assumed to satisfy N <= (fl+1)^d and fl < 32768 (int16)."
  },
  {
   "property": "C36",
   "status": "partial",
   "theorems": [
    "C36_no_overflow_partial",
    "C36_overflow_refuted"
   ],
   "note": "Refuted in general (C36_overflow_refuted: the int16 cast wraps for d = 1 and 32768 <= N < 65536 and the ordering is empty); C36_no_overflow_partial proves it when the layer fits in int16."
  },
  {
   "property": "C37",
   "status": "partial",
   "theorems": [
    "C37_terminates_iff",
    "C37_refuted"
   ],
   "note": "False of the code; C37_terminates_iff is the exact characterisation in exact arithmetic over any archimedean real closed field, C37_refuted the concrete non-termination."
  },
  {
   "property": "C38",
   "status": "partial",
   "theorems": [
    "C38_reduce_lambda",
    "C38_bless_partial",
    "C38_bless_exceptions",
    "C38_single_iteration"
   ],
   "note": "C38_reduce_lambda is unconditional. C38_bless_partial needs nb_iter_bless >= 2; C38_single_iteration shows what happens for nb_iter_bless = 1 (the claim fails when rls_oversample_param > 1). np.geomspace is an arbitrary list."
  },
  {
   "property": "C39",
   "status": "proved",
   "theorems": [
    "C39_none",
    "C39_is_in_01",
    "C39_is_geq_0",
    "C39_is_equal_to_O_or_1"
   ],
   "note": "Exact characterisation of the three checks, None passed through."
  },
  {
   "property": "C40",
   "status": "partial",
   "theorems": [
    "C40_is_symmetric_partial",
    "C40_not_square",
    "C40_is_projection_partial",
    "C40_is_orthonormal_columns_partial",
    "C40_accepts",
    "C40_accepts_columns",
    "C40_symmetric_refuted",
    "C40_projection_refuted",
    "C40_orthonormal_refuted"
   ],
   "note": "False as stated (refuted): only the leading 20x20 block is compared (C40_symmetric_refuted, 21x21), is_projection only compares column norms with the diagonal (C40_projection_refuted), is_orthonormal_columns only looks at 5 columns (C40_orthonormal_refuted). Proved: the exact condition that is tested, non-square matrices are refused, valid inputs are accepted."
  },
  {
   "property": "C41",
   "status": "proved",
   "theorems": [
    "C41_gamma_support",
    "C41_gamma_total",
    "C41_gamma_beta_invalid"
   ],
   "note": ""
  },
  {
   "property": "C42",
   "status": "proved",
   "theorems": [
    "C42_beta_support",
    "C42_beta_total",
    "C42_beta_invalid"
   ],
   "note": ""
  },
  {
   "property": "C43",
   "status": "proved",
   "theorems": [
    "C43_circular_unitary",
    "C43_circular_support",
    "C43_circular_valid",
    "C43_circular_invalid"
   ],
   "note": ""
  },
  {
   "property": "C44",
   "status": "proved",
   "theorems": [
    "C44_gibbs_conditionals",
    "C44_polynomial_a",
    "C44_polynomial_b",
    "C44_instance"
   ],
   "note": "all runs; the logarithm is an arbitrary function in the statement, J is the tridiagonal matrix with sqrt(b)"
  },
  {
   "property": "C45",
   "status": "partial",
   "theorems": [
    "C45_proposal",
    "C45_move",
    "C45_balance_iff",
    "C45_refuted",
    "C45_gaussian_wrong_law",
    "C45_flat_partial",
    "C45_corrected"
   ],
   "note": "The claim is false of the code: the two squared proposal residuals are subtracted in the wrong order (l.326-332). C45_balance_iff says exactly for which pairs of states detailed balance holds; C45_refuted exhibits a violation with the library's default potential type and sigma=0.01; C45_gaussian_wrong_law identifies the law the code really samples for V = k x^2/2; C45_flat_partial and C45_corrected are what is true."
  },
  {
   "property": "C46",
   "status": "proved",
   "theorems": [
    "C46_envelope_quartic",
    "C46_envelope_gamma",
    "C46_law_quartic",
    "C46_law_gamma",
    "C46_mass_quartic",
    "C46_mass_gamma",
    "C46_gamma_support"
   ],
   "note": "The uniform draws are in the open unit interval; the root finding (numpy roots, brentq, newton) is not modelled: b and a are arbitrary with b<0<a (2b > -mode for the generalised gamma), and the mode is assumed to be the stationary point."
  },
  {
   "property": "C47",
   "status": "proved",
   "theorems": [
    "C47_acceptance",
    "C47_law",
    "C47_proposal"
   ],
   "note": "Acceptance probability and conditioning proved for arbitrary points and features; the law for a finitely supported reference measure (an exact quadrature); the proposal mixture with dominating bounds. Jacobi polynomials and the beta sampler of numpy/scipy are parameters. The probability that no trial loop is exhausted is exact; after a failure message nothing is claimed (the row of phi is left unnormalised)."
  },
  {
   "property": "C48",
   "status": "partial",
   "theorems": [
    "C48_history_append_only_partial",
    "C48_failure_keeps_history",
    "C48_sample_partial",
    "C48_sample_beta4",
    "C48_params_describe",
    "C48_init_wf",
    "C48_run_wf",
    "C48_outcome",
    "C48_ginibre_banded",
    "C48_size_refuted",
    "C48_negative_beta_refuted",
    "C48_constructor_partial"
   ],
   "note": "Refuted as stated: the full models with beta=4 return and record 2N points while size_N is N (C48_size_refuted); a negative beta raises AttributeError in the constructor (C48_negative_beta_refuted); LinAlgError is possible in the full Jacobi model. Proved: exact success condition of every call (C48_outcome), parameters describing the sample (C48_params_describe), size and support outside full beta=4 (C48_sample_partial), append-only history unless normalize_points is applied to a recorded Hermite/Laguerre array."
  },
  {
   "property": "C49",
   "status": "proved",
   "theorems": [
    "C49_uniform",
    "C49_spanning_tree",
    "C49_always",
    "C49_matrix_tree",
    "C49_unknown_mode"
   ],
   "note": "Law of the appended graph from any object reached by samplings; scipy.linalg.qr is an oracle satisfying its contract (met by Gram-Schmidt, gs_qr_contract). Also the matrix-tree theorem for the incidence matrix used. C49_unknown_mode records that an unknown mode raises TypeError, not ValueError."
  },
  {
   "property": "C50",
   "status": "partial",
   "theorems": [
    "C50_states_are_bases_partial",
    "C50_T_max_rows",
    "C50_T_max_refuted"
   ],
   "note": "Refuted with T_max: rows after the interruption are rows of zeros (C50_T_max_refuted, C50_T_max_rows describes the rows exactly). Proved without T_max (or when it never triggers). The LP solver contract (a vertex of the feasible polytope) is a hypothesis; independence of the columns is derived from it."
  },
  {
   "property": "C51",
   "status": "partial",
   "theorems": [
    "C51_success_probability_partial",
    "C51_size_zero_refuted"
   ],
   "note": "False of the code: k=0 reads E_poly[-1] and then stores into an empty array (IndexError). C51_size_zero_refuted proves it can never succeed when some eigenvalue is >= 1; C51_success_probability_partial gives the exact probability of success."
  },
  {
   "property": "C52",
   "status": "partial",
   "theorems": [
    "C52_E_boundary",
    "C52_AED_full",
    "C52_AED_crash_probability"
   ],
   "note": "The property is refuted; the theorems give the exact survival probability (E) and a positive lower bound on the crash probability (AED)."
  },
  {
   "property": "C53",
   "status": "proved",
   "theorems": [
    "C53_never_fails",
    "C53_marginals",
    "C53_point_law",
    "C53_L_ensemble",
    "C53_after_any_history"
   ],
   "note": "exact arithmetic; modes GS_bis/KuTa12 are excluded when a dense projection correlation kernel is given without its spectrum (the code raises ValueError there, C12); recursion limit >= 10"
  },
  {
   "property": "C54",
   "status": "partial",
   "theorems": [
    "C54_first_call_partial",
    "C54_second_call_refuted"
   ],
   "note": "False as stated (refuted): the eigen-decomposition is cached before the check, so the first call raises ValueError (C54_first_call_partial) but the second returns a sample with probability one (C54_second_call_refuted)."
  },
  {
   "property": "C55",
   "status": "partial",
   "theorems": [
    "C55_descent_intensity",
    "C55_carries_intensity",
    "C55_virtual_intensity",
    "C55_virtual_intensity_refuted",
    "C55_virtual_refuted"
   ],
   "note": "Descent and carries proved. False for the virtual descent process: its intensity is q - q^2/2 with q = 2 x_0 (1-x_0), equal to the advertised value only for x_0 in {1/2, 1} (C55_virtual_intensity, C55_virtual_intensity_refuted)."
  },
  {
   "property": "C56",
   "status": "proved",
   "theorems": [
    "C56_plancherel_law",
    "C56_enumeration"
   ],
   "note": "rng.poisson is the argument N; f_lambda is given by any duplicate-free enumeration of the standard tableaux of shape lambda, shown to exist"
  },
  {
   "property": "C57",
   "status": "proved",
   "theorems": [
    "C57_upper",
    "C57_lower",
    "C57_sample"
   ],
   "note": "1/tau - P(still running) <= P(T) <= 1/tau for every spanning tree T, every root argument, every number of iterations; with C59 the limit law is uniform; nb_spanning_trees counts subsets of edges"
  },
  {
   "property": "C58",
   "status": "proved",
   "theorems": [
    "C58_upper",
    "C58_lower",
    "C58_sample"
   ],
   "note": "1/tau - P(still running) <= P(T) <= 1/tau for every spanning tree T, every root argument, every number of iterations; with C59 the limit law is uniform"
  },
  {
   "property": "C59",
   "status": "proved",
   "theorems": [
    "C59_aldous_broder",
    "C59_sample_ab",
    "C59_wilson",
    "C59_rate",
    "C59_sample"
   ],
   "note": "explicit geometric bound for both samplers, C59_rate: the rate is < 1"
  },
  {
   "property": "C60",
   "status": "proved",
   "theorems": [
    "C60_normal_moments",
    "C60_normal_total",
    "C60_normal_invalid"
   ],
   "note": ""
  },
  {
   "property": "C61",
   "status": "proved",
   "theorems": [
    "C61_hermite_squares",
    "C61_jacobi_one",
    "C61_hermite_full",
    "C61_laguerre_full",
    "C61_jacobi_full",
    "C61_circular_full",
    "C61_full_invalid_beta",
    "C61_circular_invalid_mode"
   ],
   "note": ""
  },
  {
   "property": "C62",
   "status": "partial",
   "theorems": [
    "C62_display_after_success_partial",
    "C62_display_pure",
    "C62_normalize_pure_partial",
    "C62_failed_call_refuted",
    "C62_normalize_refuted"
   ],
   "note": "Refuted as stated: a failing call updates params before raising, so the previous sample is displayed with the parameters of the failed call (C62_failed_call_refuted), and normalize_points mutates a recorded Hermite/Laguerre array (C62_normalize_refuted). Proved: right after a success the displayed points are the documented normalisation; display is pure."
  },
  {
   "property": "C63",
   "status": "proved",
   "theorems": [
    "C63_recorded_in_support",
    "C63_from_constructor"
   ],
   "note": ""
  },
  {
   "property": "C64",
   "status": "proved",
   "theorems": [
    "C64_never_raises",
    "C64_stays_in_zonotope"
   ],
   "note": ""
  },
  {
   "property": "C65",
   "status": "partial",
   "theorems": [
    "C65_init_terminates_iff",
    "C65_init_refuted"
   ],
   "note": "Refuted: from x_0 = 0 with A = [1 2] the initialisation runs forever for every solver (C65_init_refuted). C65_init_terminates_iff characterises termination: one round suffices, or it never ends."
  },
  {
   "property": "C66",
   "status": "proved",
   "theorems": [
    "C66_detailed_balance",
    "C66_target_is_projection_dpp"
   ],
   "note": ""
  },
  {
   "property": "C67",
   "status": "proved",
   "theorems": [
    "C67_constructor",
    "C67_run",
    "C67_exact_unsupported"
   ],
   "note": ""
  },
  {
   "property": "C68",
   "status": "partial",
   "theorems": [
    "C68_exact_mode_well_posed",
    "C68_gamma_method_exact",
    "C68_sextic_refuted",
    "C68_double_well_refuted"
   ],
   "note": "refuted for the code in MALA mode: for V = x^6 the cubic term of the conditional is ignored when shape < 1 (C68_sextic_refuted), for V = x^4 - x^2 numpy is asked for a negative scale (C68_double_well_refuted). Proved: in exact mode all laws asked for are in the supported families, and the method selected has the right law there"
  },
  {
   "property": "C69",
   "status": "partial",
   "theorems": [
    "C69_loop_partial",
    "C69_gives_up",
    "C69_refuted"
   ],
   "note": "False of the code. C69_loop_partial: if one of the first 100 iterations accepts, the first accepted proposal is returned; C69_gives_up: otherwise the 100th, rejected, proposal is returned; C69_refuted: draws in (0,1) that reach this case for exp(-x^4)."
  },
  {
   "property": "C70",
   "status": "proved",
   "theorems": [
    "C70_bracket"
   ],
   "note": ""
  },
  {
   "property": "C71",
   "status": "proved",
   "theorems": [
    "C71_bounds",
    "C71_never_negative",
    "C71_exact"
   ],
   "note": "Exact arithmetic; the SVD based inverse square root is the inverse of the matrix."
  },
  {
   "property": "C72",
   "status": "partial",
   "theorems": [
    "C72_vfx_law_partial",
    "C72_vfx_intensity",
    "C72_vfx_law_exact",
    "C72_vfx_refuted"
   ],
   "note": "False of the code as stated: np.ceil in the intensity of the Poisson law multiplies the kernel by the ratio ceil(q e^(s/q)) / (q e^(s/q)) > 1 (C72_vfx_refuted is a concrete counterexample, L = [[1]]). C72_vfx_law_partial gives the exact law (DPP of the rescaled kernel), the law of the number of rejections and the absence of exceptions; C72_vfx_intensity bounds the ratio, C72_vfx_law_exact says when it is 1. Hypotheses: exact arithmetic, contracts of eigh, qr and brentq, no eigenvalue below the rounding threshold of stable_filter."
  },
  {
   "property": "C73",
   "status": "proved",
   "theorems": [
    "C73_vfx_kdpp_law",
    "C73_vfx_kdpp_positive"
   ],
   "note": "Conditional law stated by cross-multiplication. Same hypotheses as C72."
  },
  {
   "property": "C74",
   "status": "partial",
   "theorems": [
    "C74_alpha_raises_iff",
    "C74_alpha_law_partial",
    "C74_alpha_calls_independent",
    "C74_alpha_refuted"
   ],
   "note": "False of the code as stated: the check `acc_thresh >= 0` rejects the legitimate value 0, so a round raises ValueError with positive probability for L = I_4 with the default r_func (C74_alpha_refuted). C74_alpha_raises_iff characterises the inputs for which an exception is possible: some multiset of items has acceptance probability exactly 1. On all other inputs (hypothesis `strict`, met e.g. by L = 2 I_2, Example alpha_strict) the full statement is proved: C74_alpha_law_partial, C74_alpha_calls_independent. eigh/qr are contracts, brentq returns a positive number, real numbers without rounding, n*eps < 1."
  },
  {
   "property": "C75",
   "status": "proved",
   "theorems": [
    "C75_alpha_kdpp_law",
    "C75_alpha_kdpp_positive"
   ],
   "note": "Under the hypothesis that the check of C74 cannot raise for the rescalings the search can visit (relation `reach`); Example alpha_k_strict shows that L = 2 I_2, k = 1 with the default r_func meets it for every search interval. Conditional law stated by cross-multiplication."
  },
  {
   "property": "C76",
   "status": "proved",
   "theorems": [
    "C76_descent_one_dependent",
    "C76_carries_one_dependent",
    "C76_virtual_one_dependent",
    "C76_descent_stationary",
    "C76_carries_stationary",
    "C76_virtual_stationary",
    "C76_descent_run",
    "C76_carries_run",
    "C76_virtual_run"
   ],
   "note": "Model ExoticModel.v (descent_sample, carries_sample, virtual_descent_sample: the law of the list returned by sample(size)). Independence, stationarity and the run probabilities are stated on the probability that the returned list contains given positions, for all sizes and sets. Positions range over 1..n-1 (0..n-1 for the virtual descents: the code indexes from 0)."
  },
  {
   "property": "C77",
   "status": "proved",
   "theorems": [
    "C77_descent_dpp",
    "C77_carries_dpp",
    "C77_virtual_dpp",
    "C77_kernels_exist",
    "C77_kernel_unique"
   ],
   "note": "Inclusion probabilities of any sorted set S equal the minor of the explicit kernel; the sequence k is characterised by the convolution identity in the hypothesis, C77_kernels_exist shows such sequences exist and C77_kernel_unique that they are unique, so the hypothesis names the inverse power series. Example C77_instance evaluates two inclusion probabilities."
  },
  {
   "property": "C78",
   "status": "proved",
   "theorems": [
    "C78_hermite_pairs",
    "C78_laguerre_pairs",
    "C78_jacobi_pairs"
   ],
   "note": "For any draws, eigenvalue routine any function meeting the LAPACK contract (eigvalsh: the roots with multiplicity of the characteristic polynomial of a Hermitian matrix; eigvals: same for general matrices). Proof by Kramers degeneracy for pencils (P_Full4.v, Kramers.v: the determinant of an antisymmetric matrix over an integral domain is a square up to squares). C78_instance, C78_jacobi_instance show satisfiability."
  },
  {
   "property": "C79",
   "status": "proved",
   "theorems": [
    "C79_Chol_complex_ordered_law",
    "C79_Chol_complex_set_law",
    "C79_Chol_complex_marginals",
    "C79_Chol_complex_never_fails",
    "C79_Chol_complex_valid_items"
   ],
   "note": "exact arithmetic over the complex numbers of any real closed field. C79_example instantiates it on I - vv*/3, v=(1,i,1)"
  },
  {
   "property": "C80",
   "status": "partial",
   "theorems": [
    "C80_GS_real_set_law_partial",
    "C80_GS_complex_refuted"
   ],
   "note": "False: c is an array of floats (l.200), so l.214 drops imaginary parts. C80_GS_complex_refuted: for K = I - vv*/3, v=(1,i,1), no sample is ever returned (rng.choice raises ValueError at the second draw with probability one). Proved for kernels with zero imaginary part (C80_GS_real_set_law_partial)."
  },
  {
   "property": "C81",
   "status": "proved",
   "theorems": [
    "C81_law_is_det",
    "C81_exists",
    "C81_point_law",
    "C81_marginals",
    "C81_never_fails",
    "C81_increasing_items",
    "C81_descent_process",
    "C81_carries_process",
    "C81_virtual_descent_process"
   ],
   "note": "real kernels, exact arithmetic; C81_exists characterises the kernels in scope, C81_instance exhibits a nonsymmetric one"
  },
  {
   "property": "C82",
   "status": "proved",
   "theorems": [
    "C82_generic_same_sample",
    "C82_generic_LU",
    "C82_generic_probability",
    "C82_generic_never_fails",
    "C82_Chol_same_sample",
    "C82_Chol_factor",
    "C82_Chol_probability",
    "C82_Chol_complex_same_sample",
    "C82_Chol_complex_factor"
   ],
   "note": "The upper triangle of the array returned by proj_dpp_sampler_kernel_Chol is not part of the statement (the code leaves old kernel entries there). Possible outcomes are those along positive-probability branches; the generic sampler on a zero pivot (numpy nan/inf) is the exception ZeroDivisionError in the model and returns nothing. Exact arithmetic."
  },
  {
   "property": "C83",
   "status": "proved",
   "theorems": [
    "C83_law_is_det",
    "C83_exists",
    "C83_hermitian",
    "C83_point_law",
    "C83_marginals",
    "C83_never_fails",
    "C83_increasing_items",
    "C83_projection",
    "C83_agrees_with_Chol"
   ],
   "note": "Direct calls of the function (FiniteDPP refuses complex Hermitian kernels, whose transpose differs from the kernel). rng.rand() < A[j,j] with a complex right-hand side is numpy's lexicographic comparison: up to a null event it compares with the real part. Exact arithmetic."
  },
  {
   "property": "C84",
   "status": "proved",
   "theorems": [
    "C84_rows",
    "C84_plactic"
   ],
   "note": ""
  },
  {
   "property": "C85",
   "status": "proved",
   "theorems": [
    "C85_greene",
    "C85_avoiding",
    "C85_determined",
    "C85_diagram"
   ],
   "note": ""
  },
  {
   "property": "C86",
   "status": "proved",
   "theorems": [
    "C86_AD_irreducible",
    "C86_AD_converges",
    "C86_AD_unique"
   ],
   "note": ""
  },
  {
   "property": "C87",
   "status": "proved",
   "theorems": [
    "C87_E_irreducible",
    "C87_E_converges",
    "C87_E_unique"
   ],
   "note": ""
  }
 ]
}