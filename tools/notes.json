{
 "C01": {
  "note": "exact law of mode 'GS' of proj_dpp_sampler_kernel, real symmetric K, exact arithmetic"
 },
 "C02": {
  "note": "mode 'Chol', same statements"
 },
 "C03": {
  "note": "mode 'Schur', same statements"
 },
 "C04": {
  "note": "modes 'GS' and 'GS_bis' of proj_dpp_sampler_eig"
 },
 "C05": {
  "note": "mode 'KuTa12'; scipy qr is any routine meeting qr_contract (orthonormal basis of the column span); Gram-Schmidt is shown to meet it"
 },
 "C12": {
  "note": "kernel dispatcher: succeeds iff mode known and size<=rank; the eig dispatcher does not check the size (its caller does)"
 },
 "C51": {
  "status": "partial",
  "note": "False of the code: k=0 reads E_poly[-1] and then stores into an empty array (IndexError). C51_size_zero_refuted proves it can never succeed when some eigenvalue is >= 1; C51_success_probability_partial gives the exact probability of success."
 },
 "C10": {
  "note": "k >= 1; size 0 is C51. The rank test uses the tolerance of numpy.linalg.matrix_rank, modelled with eps >= 0 a parameter."
 },
 "C11": {
  "note": "law by Cauchy-Binet (proved in CauchyBinet.v); every phase-2 mode; a cached table of a larger size is allowed"
 },
 "C13": {
  "status": "partial",
  "note": "Refuted for the code as written (the delete acceptance uses size/(N-size+1) instead of its inverse): C13_refuted exhibits L=ones(2,2) where neither balance nor stationarity holds. Proved: exact probabilities of all three moves, reversibility of exchange moves, and the exact set of (S,S+t) pairs for which add/delete balance holds."
 },
 "C18": {
  "status": "partial",
  "note": "Refuted: the comparison with T_max is reversed, so any T_max larger than the elapsed time stops the chain after one iteration (E pads with rows of zeros). The partial theorem gives the only situation in which T_max does not cut the chain."
 },
 "C52": {
  "status": "partial",
  "note": "The property is refuted; the theorems give the exact survival probability (E) and a positive lower bound on the crash probability (AED)."
 },
 "C16": {
  "note": "For E the theorem is for T_max=None: with T_max the array is padded by zero rows (C18_refuted)."
 },
 "C19": {
  "note": "q_AED/q_AD_E are the acceptance probabilities of a single uniform trial; the theorem C19_*_success_probability shows that 99, not 100, trials are examined."
 },
 "C22": {
  "status": "partial",
  "note": "False for increasing sizes: C22_larger_size_refuted (IndexError with probability one). C22_after_history_partial: exact k-DPP law after every history whose k-DPP calls all had size >= k; C22_projection_*: projection kernels (correlation: size = rank, any other size raises ValueError; likelihood: every size <= rank), any history."
 },
 "C21": {
  "note": "eigh is any routine meeting eigh_contract (EighEx.v proves the real spectral theorem and builds one); the gram-factor parametrisation with d < N needs full row rank (the code divides by the square roots of the eigenvalues of L_dual)"
 },
 "C53": {
  "note": "exact arithmetic; modes GS_bis/KuTa12 are excluded when a dense projection correlation kernel is given without its spectrum (the code raises ValueError there, C12); recursion limit >= 10"
 },
 "C23": {
  "status": "partial",
  "note": "False as stated (refuted): after one successful call in mode vfx (alpha) every call in mode alpha (vfx) fails with AttributeError (C23_modes_interfere_refuted), and a DPP call after a k-DPP call samples with constants precomputed for size k (C23_rescaled_information_refuted). Proved instead: after any history that uses at most one of the two modes the next call in that mode never meets the clash (C23_single_mode_partial, C23_vfx_draws_partial). Inner samplers are arbitrary programs."
 },
 "C24": {
  "note": "Arbitrary inner samplers and precomputation; failures other than ValueError are excluded only when the inner samplers do not raise and the cache comes from the same mode (see C23)."
 },
 "C25": {
  "status": "partial",
  "note": "False as stated in three ways, each refuted: a non-boolean projection flag raises AttributeError; unknown keys, parameters of the other kernel type and parameters equal to None are accepted. Proved: accepted => documented kernel type with at least one of its parameters; undocumented => ValueError; with a boolean flag every refusal is a ValueError."
 },
 "C39": {
  "note": "Exact characterisation of the three checks, None passed through."
 },
 "C40": {
  "status": "partial",
  "note": "False as stated (refuted): only the leading 20x20 block is compared (C40_symmetric_refuted, 21x21), is_projection only compares column norms with the diagonal (C40_projection_refuted), is_orthonormal_columns only looks at 5 columns (C40_orthonormal_refuted). Proved: the exact condition that is tested, non-square matrices are refused, valid inputs are accepted."
 },
 "C54": {
  "status": "partial",
  "note": "False as stated (refuted): the eigen-decomposition is cached before the check, so the first call raises ValueError (C54_first_call_partial) but the second returns a sample with probability one (C54_second_call_refuted)."
 },
 "C28": {
  "note": "law stated in exact arithmetic; rng.randint is uniform"
 },
 "C33": {
  "note": "also the full law of DescentProcess.sample as a count over permutations; positions of the virtual process are 0-based in the code, the model keeps this"
 },
 "C34": {
  "note": "base >= 1; base 0 raises ValueError as soon as a digit is drawn (C34_bad_base)"
 },
 "C55": {
  "status": "partial",
  "note": "Descent and carries proved. False for the virtual descent process: its intensity is q - q^2/2 with q = 2 x_0 (1-x_0), equal to the advertised value only for x_0 in {1/2, 1} (C55_virtual_intensity, C55_virtual_intensity_refuted)."
 },
 "C29": {
  "note": "over any totally ordered type (floats without NaN are covered by the order, not by their arithmetic)"
 },
 "C30": {
  "note": "injectivity and, more, surjectivity onto all pairs (semistandard, standard) of the same shape"
 },
 "C31": {
  "note": "also the stronger statement on each entry of the first row"
 },
 "C32": {
  "note": ""
 },
 "C56": {
  "note": "rng.poisson is the argument N; f_lambda is given by any duplicate-free enumeration of the standard tableaux of shape lambda, shown to exist"
 },
 "C35": {
  "note": "compute_ordering for every N and d; the floating point floor(N**(1/d)) is a parameter fl, assumed to satisfy N <= (fl+1)^d and fl < 32768 (int16)."
 },
 "C36": {
  "status": "partial",
  "note": "Refuted in general (C36_overflow_refuted: the int16 cast wraps for d = 1 and 32768 <= N < 65536 and the ordering is empty); C36_no_overflow_partial proves it when the layer fits in int16."
 },
 "C47": {
  "note": "Acceptance probability and conditioning proved for arbitrary points and features; the law for a finitely supported reference measure (an exact quadrature); the proposal mixture with dominating bounds. Jacobi polynomials and the beta sampler of numpy/scipy are parameters. The probability that no trial loop is exhausted is exact; after a failure message nothing is claimed (the row of phi is left unnormalised)."
 },
 "C49": {
  "note": "Law of the appended graph from any object reached by samplings; scipy.linalg.qr is an oracle satisfying its contract (met by Gram-Schmidt, gs_qr_contract). Also the matrix-tree theorem for the incidence matrix used. C49_unknown_mode records that an unknown mode raises TypeError, not ValueError."
 },
 "C26": {
  "note": "graph given by its edge list (nodes 0..n, the samplers index lists by nodes) and lists of neighbours; no self-loops, no repeated edges, connected; the while loop is run for any number of iterations (None = still running); no exception is possible; also for UST.sample from any object state"
 },
 "C27": {
  "note": "graph given by its edge list (nodes 0..n, the samplers index lists by nodes) and lists of neighbours; no self-loops, no repeated edges, connected; the while loop is run for any number of iterations (None = still running); no exception is possible; also for UST.sample from any object state"
 },
 "C57": {
  "note": "1/tau - P(still running) <= P(T) <= 1/tau for every spanning tree T, every root argument, every number of iterations; with C59 the limit law is uniform; nb_spanning_trees counts subsets of edges"
 },
 "C58": {
  "note": "1/tau - P(still running) <= P(T) <= 1/tau for every spanning tree T, every root argument, every number of iterations; with C59 the limit law is uniform"
 },
 "C59": {
  "note": "explicit geometric bound for both samplers, C59_rate: the rate is < 1"
 },
 "C48": {
  "status": "partial",
  "note": "Refuted as stated: the full models with beta=4 return and record 2N points while size_N is N (C48_size_refuted); a negative beta raises AttributeError in the constructor (C48_negative_beta_refuted); LinAlgError is possible in the full Jacobi model. Proved: exact success condition of every call (C48_outcome), parameters describing the sample (C48_params_describe), size and support outside full beta=4 (C48_sample_partial), append-only history unless normalize_points is applied to a recorded Hermite/Laguerre array."
 },
 "C62": {
  "status": "partial",
  "note": "Refuted as stated: a failing call updates params before raising, so the previous sample is displayed with the parameters of the failed call (C62_failed_call_refuted), and normalize_points mutates a recorded Hermite/Laguerre array (C62_normalize_refuted). Proved: right after a success the displayed points are the documented normalisation; display is pure."
 },
 "C50": {
  "status": "partial",
  "note": "Refuted with T_max: rows after the interruption are rows of zeros (C50_T_max_refuted, C50_T_max_rows describes the rows exactly). Proved without T_max (or when it never triggers). The LP solver contract (a vertex of the feasible polytope) is a hypothesis; independence of the columns is derived from it."
 },
 "C65": {
  "status": "partial",
  "note": "Refuted: from x_0 = 0 with A = [1 2] the initialisation runs forever for every solver (C65_init_refuted). C65_init_terminates_iff characterises termination: one round suffices, or it never ends."
 },
 "C44": {
  "note": "all runs; the logarithm is an arbitrary function in the statement, J is the tridiagonal matrix with sqrt(b)"
 },
 "C68": {
  "status": "partial",
  "note": "refuted for the code in MALA mode: for V = x^6 the cubic term of the conditional is ignored when shape < 1 (C68_sextic_refuted), for V = x^4 - x^2 numpy is asked for a negative scale (C68_double_well_refuted). Proved: in exact mode all laws asked for are in the supported families, and the method selected has the right law there"
 },
 "C45": {
  "status": "partial",
  "note": "The claim is false of the code: the two squared proposal residuals are subtracted in the wrong order (l.326-332). C45_balance_iff says exactly for which pairs of states detailed balance holds; C45_refuted exhibits a violation with the library's default potential type and sigma=0.01; C45_gaussian_wrong_law identifies the law the code really samples for V = k x^2/2; C45_flat_partial and C45_corrected are what is true."
 },
 "C69": {
  "status": "partial",
  "note": "False of the code. C69_loop_partial: if one of the first 100 iterations accepts, the first accepted proposal is returned; C69_gives_up: otherwise the 100th, rejected, proposal is returned; C69_refuted: draws in (0,1) that reach this case for exp(-x^4)."
 },
 "C46": {
  "note": "The uniform draws are in the open unit interval; the root finding (numpy roots, brentq, newton) is not modelled: b and a are arbitrary with b<0<a (2b > -mode for the generalised gamma), and the mode is assumed to be the stationary point."
 },
 "C37": {
  "status": "partial",
  "note": "False of the code; C37_terminates_iff is the exact characterisation in exact arithmetic over any archimedean real closed field, C37_refuted the concrete non-termination."
 },
 "C38": {
  "status": "partial",
  "note": "C38_reduce_lambda is unconditional. C38_bless_partial needs nb_iter_bless >= 2; C38_single_iteration shows what happens for nb_iter_bless = 1 (the claim fails when rls_oversample_param > 1). np.geomspace is an arbitrary list."
 },
 "C71": {
  "note": "Exact arithmetic; the SVD based inverse square root is the inverse of the matrix."
 },
 "C72": {
  "status": "partial",
  "note": "False of the code as stated: np.ceil in the intensity of the Poisson law multiplies the kernel by the ratio ceil(q e^(s/q)) / (q e^(s/q)) > 1 (C72_vfx_refuted is a concrete counterexample, L = [[1]]). C72_vfx_law_partial gives the exact law (DPP of the rescaled kernel), the law of the number of rejections and the absence of exceptions; C72_vfx_intensity bounds the ratio, C72_vfx_law_exact says when it is 1. Hypotheses: exact arithmetic, contracts of eigh, qr and brentq, no eigenvalue below the rounding threshold of stable_filter."
 },
 "C73": {
  "note": "Conditional law stated by cross-multiplication. Same hypotheses as C72."
 },
 "C74": {
  "status": "partial",
  "note": "False of the code as stated: the check `acc_thresh >= 0` rejects the legitimate value 0, so a round raises ValueError with positive probability for L = I_4 with the default r_func (C74_alpha_refuted). C74_alpha_raises_iff characterises the inputs for which an exception is possible: some multiset of items has acceptance probability exactly 1. On all other inputs (hypothesis `strict`, met e.g. by L = 2 I_2, Example alpha_strict) the full statement is proved: C74_alpha_law_partial, C74_alpha_calls_independent. eigh/qr are contracts, brentq returns a positive number, real numbers without rounding, n*eps < 1."
 },
 "C75": {
  "note": "Under the hypothesis that the check of C74 cannot raise for the rescalings the search can visit (relation `reach`); Example alpha_k_strict shows that L = 2 I_2, k = 1 with the default r_func meets it for every search interval. Conditional law stated by cross-multiplication."
 },
 "C76": {
  "note": "Model ExoticModel.v (descent_sample, carries_sample, virtual_descent_sample: the law of the list returned by sample(size)). Independence, stationarity and the run probabilities are stated on the probability that the returned list contains given positions, for all sizes and sets. Positions range over 1..n-1 (0..n-1 for the virtual descents: the code indexes from 0)."
 },
 "C77": {
  "note": "Inclusion probabilities of any sorted set S equal the minor of the explicit kernel; the sequence k is characterised by the convolution identity in the hypothesis, C77_kernels_exist shows such sequences exist and C77_kernel_unique that they are unique, so the hypothesis names the inverse power series. Example C77_instance evaluates two inclusion probabilities."
 },
 "C78": {
  "note": "For any draws, eigenvalue routine any function meeting the LAPACK contract (eigvalsh: the roots with multiplicity of the characteristic polynomial of a Hermitian matrix; eigvals: same for general matrices). Proof by Kramers degeneracy for pencils (P_Full4.v, Kramers.v: the determinant of an antisymmetric matrix over an integral domain is a square up to squares). C78_instance, C78_jacobi_instance show satisfiability."
 },
 "C79": {
  "note": "exact arithmetic over the complex numbers of any real closed field. C79_example instantiates it on I - vv*/3, v=(1,i,1)"
 },
 "C80": {
  "status": "partial",
  "note": "False: c is an array of floats (l.200), so l.214 drops imaginary parts. C80_GS_complex_refuted: for K = I - vv*/3, v=(1,i,1), no sample is ever returned (rng.choice raises ValueError at the second draw with probability one). Proved for kernels with zero imaginary part (C80_GS_real_set_law_partial)."
 },
 "C81": {
  "note": "real kernels, exact arithmetic; C81_exists characterises the kernels in scope, C81_instance exhibits a nonsymmetric one"
 },
 "C82": {
  "note": "The upper triangle of the array returned by proj_dpp_sampler_kernel_Chol is not part of the statement (the code leaves old kernel entries there). Possible outcomes are those along positive-probability branches; the generic sampler on a zero pivot (numpy nan/inf) is the exception ZeroDivisionError in the model and returns nothing. Exact arithmetic."
 },
 "C83": {
  "note": "Direct calls of the function (FiniteDPP refuses complex Hermitian kernels, whose transpose differs from the kernel). rng.rand() < A[j,j] with a complex right-hand side is numpy's lexicographic comparison: up to a null event it compares with the real part. Exact arithmetic."
 },
 "C84": {
  "note": ""
 },
 "C85": {
  "note": ""
 },
 "C86": {
  "note": ""
 },
 "C87": {
  "note": ""
 }
}