{"id": "C01", "title": "Projection DPP, kernel GS mode: the sampler has exactly the DPP law", "statement": "Sampling a projection DPP(K) from its kernel with mode 'GS' never fails and the returned set X satisfies P(T subset of X) = det K_T for every set T; with an explicit size k <= rank the probability of returning the ordered sample (y1..yk) is det K_{y1..yk} (r-k)!/r! (the k-DPP(K) law).", "quantifier": "every N, every symmetric idempotent K, every rank/size, every set T, all random draws", "why_tests_cant": "a sampling law is a statement about all random draws and all kernels at once; a test can only compare empirical frequencies on a few kernels, with statistical error", "anchors": ["dppy/exact_sampling.py: proj_dpp_sampler_kernel, proj_dpp_sampler_kernel_GS"]}
{"id": "C02", "title": "Projection DPP, kernel Cholesky mode has the same law", "statement": "Mode 'Chol' (swap-based in-place Cholesky) returns each ordered sample (y1..yk) with probability det K_{y} (r-k)!/r!, i.e. the same law as mode 'GS', never fails, and the returned indices are original item labels (the row/column swaps are undone correctly).", "quantifier": "every N, every symmetric idempotent K, every size, all random draws", "why_tests_cant": "a sampling law is a statement about all random draws and all kernels at once; a test can only compare empirical frequencies on a few kernels, with statistical error; an indexing error after a swap only shows for particular pivot sequences", "anchors": ["dppy/exact_sampling.py: proj_dpp_sampler_kernel_Chol"]}
{"id": "C03", "title": "Projection DPP, kernel Schur mode has the same law", "statement": "Mode 'Schur' (incremental inverse of K_Y by the block-inverse/Woodbury update, with its special cases for the first and second items) returns each ordered sample with probability det K_{y} (r-k)!/r! and never fails.", "quantifier": "every N, every symmetric idempotent K, every size, all random draws", "why_tests_cant": "a sampling law is a statement about all random draws and all kernels at once; a test can only compare empirical frequencies on a few kernels, with statistical error", "anchors": ["dppy/exact_sampling.py: proj_dpp_sampler_kernel_Schur"]}
{"id": "C04", "title": "Projection DPP from eigenvectors, GS and GS_bis modes", "statement": "Given a matrix V with orthonormal columns, phase 2 of the spectral sampler with mode 'GS' or 'GS_bis' samples the projection DPP of kernel V V^T: ordered outputs have probability det(V V^T)_Y (r-k)!/r!, indices are distinct and in range, and no draw makes it fail.", "quantifier": "every N, every r, every V with V^T V = I, every size, all random draws", "why_tests_cant": "a sampling law is a statement about all random draws and all kernels at once; a test can only compare empirical frequencies on a few kernels, with statistical error", "anchors": ["dppy/exact_sampling.py: proj_dpp_sampler_eig, proj_dpp_sampler_eig_GS, proj_dpp_sampler_eig_GS_bis"]}
{"id": "C05", "title": "Projection DPP from eigenvectors, KuTa12 mode", "statement": "Mode 'KuTa12' (pick an item proportionally to squared row norms, then project the span on the orthogonal of e_i and re-orthonormalise by QR) has the same law as mode 'GS', for every QR routine that returns an orthonormal basis of the column span.", "quantifier": "every V with orthonormal columns, every size, every QR routine meeting its contract, all random draws", "why_tests_cant": "a sampling law is a statement about all random draws and all kernels at once; a test can only compare empirical frequencies on a few kernels, with statistical error", "anchors": ["dppy/exact_sampling.py: proj_dpp_sampler_eig_KuTa12"]}
{"id": "C06", "title": "Generic kernel sampler: marginals equal the minors of K", "statement": "For every symmetric K with 0 <= K <= I, the LU/conditional sampler used when only the kernel K is known returns X with P(T subset of X) = det K_T for every T; it never divides by zero on a path of positive probability; and P(X = S) = |det(K - I_{S^c})|.", "quantifier": "every N, every symmetric K with spectrum in [0,1], every T, all random draws", "why_tests_cant": "a sampling law is a statement about all random draws and all kernels at once; a test can only compare empirical frequencies on a few kernels, with statistical error", "anchors": ["dppy/exact_sampling.py: dpp_sampler_generic_kernel", "dppy/finite_dpps.py: FiniteDPP.sample_exact"]}
{"id": "C07", "title": "Spectral sampler for generic DPPs: marginals equal the minors of K", "statement": "For K = sum_i lambda_i v_i v_i^T with orthonormal v_i and lambda_i in [0,1], Bernoulli selection of eigenvectors followed by the projection sampler returns X with P(T subset of X) = det K_T for every T.", "quantifier": "every N, every eigendecomposition, every T, all random draws of both phases", "why_tests_cant": "a sampling law is a statement about all random draws and all kernels at once; a test can only compare empirical frequencies on a few kernels, with statistical error", "anchors": ["dppy/exact_sampling.py: dpp_sampler_eig, dpp_eig_vecs_selector", "dppy/finite_dpps.py: FiniteDPP.sample_exact"]}
{"id": "C08", "title": "Likelihood kernels: P(X = S) = det L_S / det(I+L)", "statement": "A DPP specified by its likelihood kernel L (or by eigenvalues gamma_i of L, converted to gamma/(1+gamma)) is sampled so that P(X = S) = det L_S / det(I + L).", "quantifier": "every N, every symmetric PSD L with a given eigendecomposition, every S", "why_tests_cant": "a sampling law is a statement about all random draws and all kernels at once; a test can only compare empirical frequencies on a few kernels, with statistical error", "anchors": ["dppy/finite_dpps.py: FiniteDPP.sample_exact, compute_K", "dppy/exact_sampling.py: dpp_sampler_eig"]}
{"id": "C09", "title": "Elementary symmetric polynomials table", "statement": "The table returned for eigenvalues l_1..l_N and size k holds in entry [i,n] the elementary symmetric polynomial e_i(l_1,...,l_n): the sum over all i-subsets of {1..n} of the products.", "quantifier": "every list of real values, every size, every entry", "why_tests_cant": "equality with a sum over exponentially many subsets at every size", "anchors": ["dppy/exact_sampling.py: elementary_symmetric_polynomials"]}
{"id": "C10", "title": "k-DPP eigenvector selection: exactly k distinct indices with the right law", "statement": "For k >= 1, phase 1 of the k-DPP sampler always returns exactly k distinct indices on every path, never one with eigenvalue 0, and returns the index set J with probability prod_{j in J} lambda_j / e_k(lambda); it refuses (ValueError) exactly when k exceeds the number of eigenvalues above numpy's rank tolerance max(lambda)*N*eps.", "quantifier": "every list of nonnegative eigenvalues, every k >= 1, every cached polynomial table of size >= k, all random draws", "why_tests_cant": "a sampling law is a statement about all random draws and all kernels at once; a test can only compare empirical frequencies on a few kernels, with statistical error", "anchors": ["dppy/exact_sampling.py: k_dpp_eig_vecs_selector, elementary_symmetric_polynomials"]}
{"id": "C11", "title": "k-DPP law: P(X = S) = det L_S / e_k(L)", "statement": "Exact k-DPP sampling from the eigendecomposition of L returns a set of exactly k distinct items and returns the set S with probability det L_S / e_k(eigenvalues of L).", "quantifier": "every N, k, every eigendecomposition of a PSD L with rank >= k, every S, all draws", "why_tests_cant": "a sampling law is a statement about all random draws and all kernels at once; a test can only compare empirical frequencies on a few kernels, with statistical error", "anchors": ["dppy/finite_dpps.py: FiniteDPP.sample_exact_k_dpp", "dppy/exact_sampling.py: k_dpp_eig_vecs_selector, proj_dpp_sampler_eig"]}
{"id": "C12", "title": "Kernel size check and mode dispatch of projection sampling", "statement": "Requesting more items than the rank raises ValueError and nothing is sampled; an unknown mode raises ValueError; otherwise size defaults to rank.", "quantifier": "every kernel rank, size request and mode string", "why_tests_cant": "the failing combinations depend on truthiness of size and on early returns", "anchors": ["dppy/exact_sampling.py: proj_dpp_sampler_kernel, proj_dpp_sampler_eig"]}
{"id": "C13", "title": "AED chain (add-exchange-delete) leaves the DPP invariant", "statement": "The transition of the add/exchange/delete MCMC sampler satisfies detailed balance with respect to pi(S) proportional to det L_S.", "quantifier": "every N, every PSD L, every pair of states", "why_tests_cant": "a sampling law is a statement about all random draws and all kernels at once; a test can only compare empirical frequencies on a few kernels, with statistical error; a wrong acceptance ratio still yields plausible samples", "anchors": ["dppy/mcmc_sampling.py: add_exchange_delete_sampler"]}
{"id": "C14", "title": "AD chain (add-delete) leaves the DPP invariant", "statement": "The transition of the add/delete MCMC sampler satisfies detailed balance with respect to pi(S) proportional to det L_S, hence the DPP(L) law is stationary.", "quantifier": "every N, every PSD L, every pair of states", "why_tests_cant": "a sampling law is a statement about all random draws and all kernels at once; a test can only compare empirical frequencies on a few kernels, with statistical error", "anchors": ["dppy/mcmc_sampling.py: add_delete_sampler"]}
{"id": "C15", "title": "E chain (basis exchange) leaves the k-DPP invariant", "statement": "The transition of the exchange MCMC sampler for k-DPPs satisfies detailed balance with respect to pi(S) proportional to det L_S on sets of size k.", "quantifier": "every N, k, every PSD L, every pair of states", "why_tests_cant": "a sampling law is a statement about all random draws and all kernels at once; a test can only compare empirical frequencies on a few kernels, with statistical error", "anchors": ["dppy/mcmc_sampling.py: basis_exchange_sampler"]}
{"id": "C16", "title": "MCMC chains stay inside the state space", "statement": "Starting from a set of distinct in-range items with positive minor, every element of the returned AED/AD/E chain is again a set of distinct in-range items with positive minor, and E keeps the cardinality.", "quantifier": "every kernel, every initial set, every chain length, all proposals and acceptance draws", "why_tests_cant": "an invariant over unboundedly many random transitions", "anchors": ["dppy/mcmc_sampling.py: add_exchange_delete_sampler, add_delete_sampler, basis_exchange_sampler"]}
{"id": "C17", "title": "MCMC chain length and what is stored", "statement": "An AED/AD call with nb_iter=n returns max(1,n) states (E: exactly n rows, IndexError for n=0) whose first element is s_init; the full chain is appended once to the list of samples and the call returns its last element (see C20).", "quantifier": "every nb_iter, every draw sequence", "why_tests_cant": "boundary behaviour at every n including 0 and 1", "anchors": ["dppy/mcmc_sampling.py: dpp_sampler_mcmc, add_exchange_delete_sampler, add_delete_sampler, basis_exchange_sampler", "dppy/finite_dpps.py: FiniteDPP.sample_mcmc"]}
{"id": "C18", "title": "T_max is a time budget", "statement": "Passing T_max larger than the running time does not shorten the chain.", "quantifier": "every kernel, nb_iter and clock history", "why_tests_cant": "needs quantification over clock readings", "anchors": ["dppy/mcmc_sampling.py: add_exchange_delete_sampler, add_delete_sampler, basis_exchange_sampler, zonotope_sampler"]}
{"id": "C19", "title": "MCMC initialisation returns a valid state or raises", "statement": "The automatic initialisation either returns a set of distinct items with minor > tolerance (of the requested size for k-DPPs) or raises ValueError after a bounded number of trials; it never returns an invalid state.", "quantifier": "every kernel, size, sequence of trial subsets", "why_tests_cant": "the failing branch needs an adversarial sequence of random trials", "anchors": ["dppy/mcmc_sampling.py: initialize_AED_sampler, initialize_AD_and_E_sampler"]}
{"id": "C20", "title": "FiniteDPP history: samples are recorded exactly once", "statement": "Every successful sample_exact / sample_exact_k_dpp / sample_mcmc call appends exactly one entry to list_of_samples (the entry returned to the caller) and a failed call appends nothing; flush_samples empties it; no call removes or reorders earlier entries.", "quantifier": "every sequence of API calls on a FiniteDPP object, every oracle behaviour", "why_tests_cant": "quantifies over histories including the internal re-entrant computations that call the sampler again after computing eigendecompositions", "anchors": ["dppy/finite_dpps.py: FiniteDPP.sample_exact, sample_exact_k_dpp, sample_mcmc, flush_samples"]}
{"id": "C21", "title": "FiniteDPP caching: kernels and spectra are computed once and never change", "statement": "Once a kernel K, L, L_dual, or a spectral decomposition is available on a FiniteDPP object, no later API call changes it, and all of them describe the same DPP (K = L(I+L)^-1, eigenpairs diagonalise the kernel).", "quantifier": "every constructor parameter kind, every sequence of API calls", "why_tests_cant": "consistency over all call histories, reached by mutual recursion between compute_K and compute_L", "anchors": ["dppy/finite_dpps.py: FiniteDPP.compute_K, compute_L, sample_exact, sample_exact_k_dpp"]}
{"id": "C22", "title": "k-DPP calls with changing sizes", "statement": "sample_exact_k_dpp may be called repeatedly on the same object with different sizes; each call samples the k-DPP of the requested size k (P(S) = det L_S / e_k(L) for |S| = k). REFUTED in general: the table of symmetric polynomials cached by a first call of size k1 is never enlarged (size_k_dpp is assigned before it is compared), so a later call of a larger size raises IndexError with probability 1. Proved: the law after any history whose earlier k-DPP calls had sizes >= k, and without restriction for projection kernels.", "quantifier": "every history of requested sizes", "why_tests_cant": "depends on the history of earlier calls (cached table)", "anchors": ["dppy/finite_dpps.py: FiniteDPP.sample_exact_k_dpp, flush_samples"]}
{"id": "C23", "title": "Intermediate-sampling caches of different modes do not interfere", "statement": "Exact sampling with mode 'vfx' or 'alpha', for DPPs and k-DPPs, may be interleaved in any order on the same object.", "quantifier": "every interleaving of sample_exact / sample_exact_k_dpp calls with modes vfx and alpha", "why_tests_cant": "depends on call history through a shared cache", "anchors": ["dppy/finite_dpps.py: FiniteDPP.sample_exact, sample_exact_k_dpp", "dppy/exact_sampling.py: dpp_vfx_sampler, alpha_dpp_sampler, k_dpp_vfx_sampler, alpha_k_dpp_sampler", "dppy/intermediate_sampling.py: vfx_sampling_precompute_constants, alpha_dpp_sampling_precompute_constants"]}
{"id": "C24", "title": "Intermediate k-DPP samplers never return a sample of the wrong size", "statement": "k-DPP sampling with mode 'vfx' or 'alpha' returns only samples with exactly the requested number of items; when the rejection budget is exhausted it raises ValueError.", "quantifier": "every oracle behaviour of the inner DPP sampler, every size and budget", "why_tests_cant": "quantifies over all outcomes of unboundedly many rejection rounds", "anchors": ["dppy/exact_sampling.py: k_dpp_vfx_sampler, alpha_k_dpp_sampler"]}
{"id": "C25", "title": "FiniteDPP constructor accepts exactly the coherent argument combinations", "statement": "The constructor accepts a kernel_type in {correlation, likelihood}, a boolean projection flag and parameter keys valid for that kernel type, and rejects everything else with ValueError.", "quantifier": "every kernel_type string, projection value and set of keyword keys", "why_tests_cant": "combinatorial space of argument combinations", "anchors": ["dppy/finite_dpps.py: FiniteDPP.__init__, __check_args_coherence"]}
{"id": "C26", "title": "Wilson's algorithm returns a spanning tree of the graph", "statement": "UST sampling with mode 'Wilson' returns, for every connected graph without self-loops and every sequence of random steps for which it terminates, a connected acyclic subgraph covering all nodes with N-1 edges all belonging to the graph.", "quantifier": "every connected simple graph, every root, every random walk", "why_tests_cant": "quantifies over unboundedly long random walks with loops being erased", "anchors": ["dppy/exotic_dpps_core.py: ust_sampler_wilson", "dppy/exotic_dpps.py: UST.sample"]}
{"id": "C27", "title": "Aldous-Broder returns a spanning tree of the graph", "statement": "UST sampling with mode 'Aldous-Broder' returns, for every connected graph with at least one edge and every terminating walk, a spanning tree (first-entrance edges).", "quantifier": "every connected graph, every root, every random walk", "why_tests_cant": "quantifies over unboundedly long random walks", "anchors": ["dppy/exotic_dpps_core.py: ust_sampler_aldous_broder", "dppy/exotic_dpps.py: UST.sample"]}
{"id": "C28", "title": "uniform_permutation is exactly uniform", "statement": "The Fisher-Yates routine returns a permutation of 0..N-1 for every draw and each of the N! permutations is produced by exactly one draw vector, so the law is uniform.", "quantifier": "every N, every draw vector, every permutation", "why_tests_cant": "N! outcomes at every N", "anchors": ["dppy/exotic_dpps_core.py: uniform_permutation"]}
{"id": "C29", "title": "RSK produces a pair (semistandard P, standard Q) of the same shape", "statement": "For every input sequence RSK returns tableaux P and Q of the same partition shape; P has weakly increasing rows and strictly increasing columns and contains exactly the input multiset; Q is standard (contains 0..n-1 or 1..n once each, increasing along rows and columns).", "quantifier": "every finite sequence (with or without repetitions)", "why_tests_cant": "invariant of an unboundedly iterated insertion", "anchors": ["dppy/exotic_dpps_core.py: RSK"]}
{"id": "C30", "title": "RSK is invertible", "statement": "Two different sequences never give the same pair (P,Q).", "quantifier": "every pair of finite sequences", "why_tests_cant": "injectivity over an infinite domain", "anchors": ["dppy/exotic_dpps_core.py: RSK"]}
{"id": "C31", "title": "First row of RSK and longest increasing subsequences", "statement": "The length of the first row equals the length of a longest weakly increasing subsequence of the input (Schensted).", "quantifier": "every finite sequence", "why_tests_cant": "a maximum over exponentially many subsequences", "anchors": ["dppy/exotic_dpps_core.py: RSK", "dppy/exotic_dpps.py: PoissonizedPlancherel.sample"]}
{"id": "C32", "title": "Poissonized Plancherel points are a valid particle configuration", "statement": "The sample lambda_i - i + 1/2 is strictly decreasing with all points distinct half-integers, for every RSK shape.", "quantifier": "every permutation / every Poisson draw", "why_tests_cant": "all sizes", "anchors": ["dppy/exotic_dpps.py: PoissonizedPlancherel.sample"]}
{"id": "C33", "title": "Descent process returns exactly the descent set", "statement": "DescentProcess.sample returns in increasing order exactly the (1-based) positions i such that sigma(i) > sigma(i+1); the virtual descent process returns exactly the positions its definition prescribes.", "quantifier": "every size and permutation / every coin sequence", "why_tests_cant": "all sizes and permutations", "anchors": ["dppy/exotic_dpps.py: DescentProcess.sample, VirtualDescentProcess.sample"]}
{"id": "C34", "title": "Carries process returns exactly the carries", "statement": "CarriesProcess.sample returns in increasing order exactly the positions at which a carry occurs when the drawn digits are added up in the given base.", "quantifier": "every base, size and digit sequence", "why_tests_cant": "all digit sequences", "anchors": ["dppy/exotic_dpps.py: CarriesProcess.sample"]}
{"id": "C35", "title": "compute_ordering enumerates multi-indices layer by layer", "statement": "compute_ordering(N,d) returns N distinct d-tuples of nonnegative integers, starting at the zero tuple, sorted by max-degree, and complete: every tuple with smaller max than a listed one is listed.", "quantifier": "every N >= 1 and d >= 1", "why_tests_cant": "all N and d", "anchors": ["dppy/multivariate_jacobi_ope.py: compute_ordering"]}
{"id": "C36", "title": "compute_ordering does not overflow", "statement": "The multi-indices returned are the mathematical ones for every N and d.", "quantifier": "every N and d, including N large enough for a fixed-width integer type to wrap", "why_tests_cant": "the failing inputs are too large to test", "anchors": ["dppy/multivariate_jacobi_ope.py: compute_ordering"]}
{"id": "C37", "title": "bless: the initial dictionary loop terminates", "statement": "The initialisation of the leverage-score dictionary (the loop that decreases the first regularisation until the expected size exceeds 10) terminates for every data set and parameters. (Refuted: it terminates exactly when rls_oversample_param times the number of points with positive self-similarity exceeds 10; with the default factor 4 it never ends on two points.)", "quantifier": "every non-empty data set, oversampling factor and kernel with non-negative diagonal", "why_tests_cant": "non-termination cannot be observed by a test", "anchors": ["dppy/bless.py: bless, bless_size"]}
{"id": "C38", "title": "bless dictionaries stay well formed", "statement": "Every dictionary produced by the Bless iterations holds at least one index, in-range strictly increasing indices, rows equal to the data rows at these indices, and probabilities in (0,1] equal to the oversampled, capped leverage-score estimates; otherwise the call raises ValueError. (For bless this needs at least two regularisations: with nb_iter_bless=1 the returned dictionary stores the oversampling factor itself as a probability, and with an empty list IndexError is raised.)", "quantifier": "every data set, parameters, and random draws, all iterations", "why_tests_cant": "invariant over unboundedly many iterations", "anchors": ["dppy/bless.py: reduce_lambda, bless"]}
{"id": "C39", "title": "Sampler input checks of the utility predicates", "statement": "is_in_01, is_geq_0, is_equal_to_O_or_1 accept exactly the arrays all of whose entries satisfy the named condition up to the documented tolerance and return the array unchanged.", "quantifier": "every array", "why_tests_cant": "all arrays", "anchors": ["dppy/utils.py: is_in_01, is_geq_0, is_equal_to_O_or_1"]}
{"id": "C40", "title": "is_symmetric / is_projection / is_orthonormal_columns reject bad inputs", "statement": "A matrix that is not symmetric (resp. not a projection, not orthonormal columns) is rejected with ValueError.", "quantifier": "every matrix of every size", "why_tests_cant": "the check only looks at a leading block, so the failing inputs are large", "anchors": ["dppy/utils.py: is_symmetric, is_projection, is_orthonormal_columns"]}
{"id": "C41", "title": "Gamma (Laguerre) tridiagonal model has nonnegative spectrum", "statement": "The tridiagonal sampler of the Laguerre ensemble returns N nonnegative points, for every draw; their product is the product of the odd Gamma draws and their sum the sum of all Gamma draws (with shapes beta/2 (N-1-i) + shape and beta/2 (N-1-i)); invalid beta raises ValueError.", "quantifier": "every size, all nonnegative chi-square draws", "why_tests_cant": "all sizes and draws", "anchors": ["dppy/random_matrices.py: mu_ref_gamma_sampler_tridiag"]}
{"id": "C42", "title": "Beta (Jacobi) tridiagonal model has spectrum in [0,1]", "statement": "The tridiagonal sampler of the Jacobi ensemble returns N points of [0,1], for all draws in [0,1]; the products of the points and of their complements to 1 are the stated functions of the Beta draws; invalid beta raises ValueError.", "quantifier": "every size, all draws in [0,1]", "why_tests_cant": "all sizes and draws", "anchors": ["dppy/random_matrices.py: mu_ref_beta_sampler_tridiag"]}
{"id": "C43", "title": "Circular quindiagonal model has unimodular spectrum", "statement": "The quindiagonal matrix built for the circular ensemble is unitary with bandwidth 2, so the N points returned have modulus one, for all Gaussian draws that are not identically zero; a nonpositive beta raises ValueError.", "quantifier": "every size, all draws in the closed unit disk", "why_tests_cant": "all sizes and draws", "anchors": ["dppy/random_matrices.py: mu_ref_unif_unit_circle_sampler_quindiag"]}
{"id": "C44", "title": "Gibbs conditionals of the polynomial-potential tridiagonal sampler", "statement": "In every run of the Gibbs sampler of a beta ensemble with polynomial potential V, each one-dimensional law that is sampled (or targeted by the MALA chain, started at the current value) is the conditional law of that Jacobi coefficient given the current values of all the others, under the joint density prod b_i^(beta(N-i)/2-1) exp(-beta N/2 Tr V(J)); the polynomials used agree with Tr V(J) up to a term that does not depend on the coefficient.", "quantifier": "every beta, every accepted potential, every size, number of passes, sampling mode, and every sequence of draws", "why_tests_cant": "a polynomial identity in unboundedly many variables", "anchors": ["dppy/beta_ensemble_polynomial_potential_core.py: polynomial_in_negative_log_conditional_a_coef, polynomial_in_negative_log_conditional_b_coef", "dppy/beta_ensemble_polynomial_potential.py: BetaEnsemblePolynomialPotential"]}
{"id": "C45", "title": "MALA step leaves its target invariant", "statement": "The Metropolis-adjusted Langevin step used inside the Gibbs sampler satisfies detailed balance for its target density exp(-V). (Refuted for the code, whose correction term has the reversed sign: see C45_refuted, C45_gaussian_wrong_law; it does hold exactly for the pairs of states where the gap of C45_balance_iff vanishes, and for every pair with the corrected sign, C45_corrected.)", "quantifier": "every smooth potential, step size and pair of states", "why_tests_cant": "a sampling law is a statement about all random draws and all kernels at once; a test can only compare empirical frequencies on a few kernels, with statistical error", "anchors": ["dppy/beta_ensemble_polynomial_potential_core.py: sampler_mala"]}
{"id": "C46", "title": "Rejection sampler for the log-concave conditionals: domination and law of the accepted proposals", "statement": "In the rejection sampler for densities proportional to exp(-(al x^4 + be x^2 + ga x)) or x^(shape-1) exp(-(be x^2 + ga x)), the envelope dominates the target density at every point of the support whatever b<0<a the numerical root search returned, the normalisation constant is the integral of the envelope, the proposals stay in the support, and the probability that an iteration is accepted with a proposal in an interval is the integral of the target density over this interval up to one constant.", "quantifier": "every convex quartic or generalised gamma density with shape > 1, every mode and b<0<a, every interval, all uniform draws", "why_tests_cant": "domination at every real point and a law over all draws", "anchors": ["dppy/beta_ensemble_polynomial_potential_core.py: sampler_exact_convex_quartic"]}
{"id": "C47", "title": "Multivariate Jacobi OPE chain-rule sampling", "statement": "The proposal/acceptance values in chain-rule sampling of the multivariate Jacobi ensemble are the normalised Schur complements of the kernel at the points already accepted; the acceptance ratio lies in [0,1].", "quantifier": "every N, dimension and points", "why_tests_cant": "all point configurations", "anchors": ["dppy/multivariate_jacobi_ope.py: MultivariateJacobiOPE.sample, sample_chain_rule_proposal"]}
{"id": "C48", "title": "Beta ensemble objects: parameters and history", "statement": "After every successful sample call the size/parameters of the object describe the returned sample (size_N points; reference parameters and matrix sizes tied by k = beta/2 (M-N+1)) and exactly one sample is appended; a call succeeds exactly on valid parameters, otherwise it raises ValueError and leaves the history unchanged.", "quantifier": "every sequence of API calls", "why_tests_cant": "depends on call histories and failing calls in between", "anchors": ["dppy/beta_ensembles.py: BetaEnsemble, HermiteEnsemble, LaguerreEnsemble, JacobiEnsemble, CircularEnsemble, GinibreEnsemble"]}
{"id": "C49", "title": "UST from the DPP kernel is uniform on spanning trees", "statement": "The projection kernel of the transfer-current theorem built for a connected graph gives every spanning tree the same probability and every other edge set probability 0, so the DPP-based UST modes are uniform.", "quantifier": "every connected graph, every edge set", "why_tests_cant": "a sampling law is a statement about all random draws and all kernels at once; a test can only compare empirical frequencies on a few kernels, with statistical error", "anchors": ["dppy/exotic_dpps.py: UST.compute_kernel, UST.sample"]}
{"id": "C50", "title": "Zonotope chain states are bases", "statement": "Every row of the chain returned by zonotope_sampler is a strictly increasing list of r distinct column indices whose columns of the feature matrix are linearly independent; the chain has nb_iter rows.", "quantifier": "every feature matrix, linear objective, starting point of the zonotope, solver returning vertices, nb_iter, all draws", "why_tests_cant": "invariant over an unbounded chain", "anchors": ["dppy/mcmc_sampling.py: zonotope_sampler, extract_basis"]}
{"id": "C51", "title": "k-DPP of size 0 is the empty set", "statement": "Requesting a k-DPP sample of size 0 returns the empty set with probability one.", "quantifier": "every list of nonnegative eigenvalues, all random draws", "why_tests_cant": "the failure is a negative-index access that only some draws reach", "anchors": ["dppy/exact_sampling.py:k_dpp_eig_vecs_selector", "dppy/finite_dpps.py:sample_exact_k_dpp"]}
{"id": "C52", "title": "Exchange-based MCMC chains do not crash", "statement": "A valid AED or E chain never raises. REFUTED: E started on the empty set or on the whole ground set survives n iterations only with probability 2^-n (ValueError on the empty population otherwise); AED raises as soon as it tries to move from the whole ground set, which it reaches with positive probability whenever det L > 0.", "quantifier": "every PSD L, every initial state, every number of iterations", "why_tests_cant": "needs the exact probability of rare transitions over all kernels and chain lengths", "anchors": ["dppy/mcmc_sampling.py: add_exchange_delete_sampler, basis_exchange_sampler"]}
{"id": "C53", "title": "sample_exact samples the described DPP after any history of calls", "statement": "For a FiniteDPP object built from any coherent parametrisation (K, eigendecomposition of K, A_zono, L, eigendecomposition of L, gram factor, eval_L), after any sequence of method calls (successful or failed), sample_exact with any valid mode (GS, Chol, Schur, GS_bis, KuTa12) never raises and returns the set S with probability det-law of the DPP: inclusion probabilities det K_T, and det L_S / det(I+L) when L exists.", "quantifier": "every parametrisation, every kernel, every history of calls and their random outcomes, every valid mode", "why_tests_cant": "exact probabilities over all kernels and all call histories", "anchors": ["dppy/finite_dpps.py: FiniteDPP.__init__, sample_exact, compute_K, compute_L", "dppy/exact_sampling.py"]}
{"id": "C54", "title": "An invalid correlation kernel is rejected at every call", "statement": "Sampling a FiniteDPP built from a correlation kernel with an eigenvalue outside [0,1] (beyond the tolerance 1e-8) raises ValueError and records no sample, each time it is called.", "quantifier": "every symmetric matrix with a bad eigenvalue, every eigenvector-based mode, every number of attempts", "why_tests_cant": "the check happens after the eigen-decomposition has been cached, so only call histories reveal it", "anchors": ["dppy/finite_dpps.py: FiniteDPP.sample_exact l.436-440", "dppy/utils.py: is_in_01"]}
{"id": "C55", "title": "Advertised intensity of the 1-dependent processes", "statement": "For the carries, descent and virtual descent processes, the probability that a position is in the sample is the constant intensity the class advertises for comparison in its plots (1/2 (1 - 1/base), 1/2 and 1/2 (1 - x_0^2) respectively).", "quantifier": "every base, every x_0 in [0,1], every size and position", "why_tests_cant": "a probability over all permutations/digit vectors/coins, for every parameter; the repository only exercises the default x_0", "anchors": ["dppy/exotic_dpps.py: CarriesProcess, DescentProcess, VirtualDescentProcess"]}
{"id": "C56", "title": "Plancherel law of the Young diagram", "statement": "Conditionally on the Poisson size N, the Young diagram appended by PoissonizedPlancherel.sample has the Plancherel law: each partition lambda of N has probability f_lambda^2 / N!, where f_lambda is the number of standard tableaux of shape lambda.", "quantifier": "every N, every partition lambda", "why_tests_cant": "a probability over N! permutations for every N", "anchors": ["dppy/exotic_dpps.py: PoissonizedPlancherel.sample", "dppy/exotic_dpps_core.py: RSK, uniform_permutation"]}
{"id": "C57", "title": "Wilson's algorithm draws a uniform spanning tree", "statement": "For a connected simple graph and any choice of root, the probability that UST sampling with mode 'Wilson' returns a given spanning tree within n loop iterations is at most 1/(number of spanning trees) and misses it by at most the probability of not having terminated.", "quantifier": "every connected simple graph, every root, every spanning tree, every number of loop iterations", "why_tests_cant": "a sampling law is a statement about all random walks of unbounded length at once; a test can only compare empirical frequencies on a few graphs", "anchors": ["dppy/exotic_dpps_core.py: ust_sampler_wilson"]}
{"id": "C58", "title": "Aldous-Broder draws a uniform spanning tree", "statement": "For a connected simple graph and any root, the probability that UST sampling with mode 'Aldous-Broder' returns a given spanning tree within n loop iterations is at most 1/(number of spanning trees) and misses it by at most the probability of not having terminated.", "quantifier": "every connected simple graph, every root, every spanning tree, every number of loop iterations", "why_tests_cant": "a sampling law is a statement about all random walks of unbounded length at once; a test can only compare empirical frequencies on a few graphs", "anchors": ["dppy/exotic_dpps_core.py: ust_sampler_aldous_broder"]}
{"id": "C59", "title": "The random walk samplers of spanning trees terminate almost surely", "statement": "The probability that ust_sampler_wilson or ust_sampler_aldous_broder has not terminated after n loop iterations decreases geometrically to 0.", "quantifier": "every connected simple graph, every root", "why_tests_cant": "non-termination cannot be observed by a test", "anchors": ["dppy/exotic_dpps_core.py: ust_sampler_wilson, ust_sampler_aldous_broder"]}
{"id": "C60", "title": "Hermite tridiagonal sampler: number and moments of the points", "statement": "The tridiagonal sampler of the Hermite ensemble returns exactly N points whose sum is the sum of the Gaussian draws and whose sum of squares is the sum of the squared Gaussian draws plus twice the sum of the Gamma draws; it fails exactly for a nonpositive beta or a negative scale.", "quantifier": "every size, beta, location and scale, all draws", "why_tests_cant": "an identity for all sizes and draws", "anchors": ["dppy/random_matrices.py: mu_ref_normal_sampler_tridiag"]}
{"id": "C61", "title": "Full matrix models: number and range of the points", "statement": "Whenever hermite/laguerre/jacobi/circular_sampler_full return, they return N points (2N for beta = 4) that are real / nonnegative / in [0,1] / of modulus one, with the first moments given by the matrix drawn (sum of the points; for the Hermite model also the sum of their squares in terms of every draw; for the Jacobi model with N = 1 the points themselves, the ratio of the sums of squares of all the draws of the two matrices); an unsupported beta or Haar mode raises ValueError.", "quantifier": "every size, beta, Gaussian draws, and every eigen-solver and QR meeting its documented contract", "why_tests_cant": "the support holds for every draw of a continuous matrix; a test sees finitely many draws", "anchors": ["dppy/random_matrices.py: hermite_sampler_full, laguerre_sampler_full, jacobi_sampler_full, circular_sampler_full, ginibre_sampler_full"]}
{"id": "C62", "title": "Beta ensembles: recorded samples and displayed points", "statement": "The points shown by plot/hist with normalization are the documented normalisation of the last sample for the parameters that produced it, and normalising or displaying never alters the recorded samples.", "quantifier": "every sequence of API calls on an object, including failing ones, and all draws", "why_tests_cant": "depends on call histories and failing calls in between", "anchors": ["dppy/beta_ensembles.py: normalize_points, plot, hist, sample_full_model, sample_banded_model"]}
{"id": "C63", "title": "Beta ensembles: every recorded sample lies in the support", "statement": "After any history of calls on a beta ensemble object, every recorded sample consists of points of the support of the reference measure (real line, half line, [0,1], unit circle).", "quantifier": "every class, every sequence of API calls, and all draws", "why_tests_cant": "unbounded histories and all real draws", "anchors": ["dppy/beta_ensembles.py: BetaEnsemble and subclasses, dppy/random_matrices.py"]}
{"id": "C64", "title": "Zonotope chain stays in the zonotope and never fails", "statement": "Started at a point of the zonotope, the chain of zonotope_sampler stays in the zonotope, along the drawn directions, and never raises.", "quantifier": "every feature matrix, starting point in the zonotope, nb_iter >= 1, all nonzero directions and uniform draws, every LP solver meeting its contract", "why_tests_cant": "invariant over an unbounded chain and all real draws", "anchors": ["dppy/mcmc_sampling.py: zonotope_sampler"]}
{"id": "C65", "title": "Zonotope initialisation terminates", "statement": "zonotope_sampler ends its initialisation for every starting point of the zonotope.", "quantifier": "every feature matrix and starting point, every deterministic LP solver meeting its contract", "why_tests_cant": "non-termination cannot be observed by a test", "anchors": ["dppy/mcmc_sampling.py: zonotope_sampler"]}
{"id": "C66", "title": "Zonotope chain: detailed balance and target", "statement": "The moves of zonotope_sampler satisfy detailed balance for the density proportional to the volume of the tile containing the point, and det(A_B)^2/det(A A^T) is the probability of B under the projection DPP with kernel A^T(AA^T)^-1 A.", "quantifier": "every feature matrix, direction, pair of points, every LP solver meeting its contract", "why_tests_cant": "a sampling law is a statement about all draws and all kernels", "anchors": ["dppy/mcmc_sampling.py: zonotope_sampler"]}
{"id": "C67", "title": "Polynomial-potential ensembles: constructor, order of the updates, returned spectra", "statement": "The constructor accepts exactly beta > 0 and V of even degree <= 6 without x^5 term and with non-negative leading coefficient (otherwise ValueError), and forgets the constant term; a run refreshes a_1, b_1, a_2, ..., a_N cyclically, never raises outside the exact mode, raises ValueError before drawing anything in exact mode exactly when V is not supported, and returns the spectrum of the Jacobi matrix of the last values (and of the values at the end of each pass).", "quantifier": "every beta, potential, size, number of passes, mode and draws", "why_tests_cant": "all histories of draws, unboundedly many updates", "anchors": ["dppy/beta_ensemble_polynomial_potential.py: BetaEnsemblePolynomialPotential.__init__, sample_mcmc"]}
{"id": "C68", "title": "The b-coefficients are sampled from the law that is asked for", "statement": "Each conditional law of a b-coefficient asked for by the Gibbs sampler is sampled exactly by the method selected (gamma variable, gamma with rejection, truncated Gaussian, or log-concave envelope), whose parameters are valid.", "quantifier": "every accepted potential, every run", "why_tests_cant": "the law of a rejection sampler for all parameters reachable in unboundedly many runs", "anchors": ["dppy/beta_ensemble_polynomial_potential_core.py: sampler_exact_convex_quartic, gen_gamma_alpha_lt_1_sampler, trunc_gaussian_sampler", "dppy/beta_ensemble_polynomial_potential.py: sample_mcmc"]}
{"id": "C69", "title": "The log-concave sampler returns an accepted proposal", "statement": "The value returned by the log-concave rejection sampler is always an accepted proposal shifted by the mode, hence an exact draw. (Refuted for the code: after 100 rejections it prints a message and returns the last rejected proposal.)", "quantifier": "every density of the family and every sequence of uniform draws", "why_tests_cant": "the failing executions have exponentially small probability: a test never sees them", "anchors": ["dppy/beta_ensemble_polynomial_potential_core.py: sampler_exact_convex_quartic"]}
{"id": "C70", "title": "bless_size returns an ordered bracket", "statement": "The two regularisations returned by bless_size satisfy 1 <= lam_min <= lam_max <= trace/(size-1), and the dictionary is well formed, so that the search interval for the rescaling is never empty.", "quantifier": "every data set, target size, parameters and random draws", "why_tests_cant": "all histories of the unboundedly many iterations and draws", "anchors": ["dppy/bless.py: bless_size"]}
{"id": "C71", "title": "Leverage score estimates of Bless are never negative", "statement": "For a positive semi-definite kernel the estimates of the ridge leverage scores lie between 0 and k(x,x)/lam, so the exceptions 'Some estimated RLS is negative' and 'Some estimated probability is negative' are never raised, and with the whole data set as dictionary they are exactly the diagonal of K (K + lam I)^-1.", "quantifier": "every positive semi-definite kernel, dictionary with positive probabilities, regularisation and point", "why_tests_cant": "universally quantified over kernels and dictionaries", "anchors": ["dppy/bless.py: estimate_rls_bless, reduce_lambda"]}
{"id": "C72", "title": "Law of the DPP-VFX sampler", "statement": "One call of the DPP-VFX rejection loop returns, conditionally on not giving up, a set of distinct items distributed according to the L-ensemble DPP(alpha L), where alpha is the rescaling factor of the preprocessing; the number of rejections is geometric and independent of the sample, and no spurious exception is raised.", "quantifier": "every positive semi-definite likelihood kernel, dictionary, rescaling, q_func and max_iter", "why_tests_cant": "equality of probability laws over an unbounded (Poisson) number of intermediate points", "anchors": ["dppy/intermediate_sampling.py: vfx_sampling_precompute_constants, vfx_sampling_do_sampling_loop", "dppy/exact_sampling.py: dpp_vfx_sampler"]}
{"id": "C73", "title": "Law of the k-DPP VFX sampler", "statement": "The k-DPP sampler built on DPP-VFX by rejecting the samples of the wrong cardinality returns, conditionally on not giving up, a sample of the k-DPP of the original likelihood kernel L (the rescaling and the rounding of the Poisson intensity cancel), and succeeds with positive probability whenever some set of size k has positive weight.", "quantifier": "every positive semi-definite likelihood kernel, k, dictionary, rescaling, q_func, max_iter and max_iter_size_rejection", "why_tests_cant": "equality of probability laws", "anchors": ["dppy/exact_sampling.py: k_dpp_vfx_sampler", "dppy/intermediate_sampling.py: vfx_sampling_do_sampling_loop"]}
{"id": "C74", "title": "Law of the alpha-DPP sampler", "statement": "One call of the alpha-DPP rejection loop returns, conditionally on not giving up, a set of distinct items distributed according to the L-ensemble DPP(alpha L), where alpha is the rescaling factor of the preprocessing, whatever leverage scores were cached by the previous calls; the samples of successive calls that share the cache are independent with the same law; no spurious exception is raised.", "quantifier": "every positive semi-definite likelihood kernel, dictionary and probabilities, rescaling, r_func, max_iter, and every sequence of calls", "why_tests_cant": "equality of probability laws over an unbounded (Poisson) number of intermediate points, for every history of calls", "anchors": ["dppy/intermediate_sampling.py: alpha_dpp_sampling_precompute_constants, alpha_dpp_sampling_do_sampling_loop, estimate_rls_from_weighted_dict_eigendecomp", "dppy/exact_sampling.py: alpha_dpp_sampler"]}
{"id": "C75", "title": "Law of the k-DPP alpha sampler", "statement": "The alpha sampler of k-DPPs (rejection of the samples of the wrong cardinality, with a binary search of the rescaling that depends on the past samples, and the early_stop option) returns, conditionally on not giving up, a sample of the k-DPP of the original likelihood kernel L, and succeeds with positive probability as soon as two rounds are allowed (one with early_stop) and some set of size k has positive weight.", "quantifier": "every positive semi-definite likelihood kernel, k, dictionary, initial search interval, r_func, max_iter, early_stop and max_iter_size_rejection", "why_tests_cant": "equality of probability laws for an adaptive stopping rule", "anchors": ["dppy/exact_sampling.py: alpha_k_dpp_sampler", "dppy/intermediate_sampling.py: alpha_dpp_sampling_do_sampling_loop"]}
{"id": "C76", "title": "Carries, descent and virtual descent processes are 1-dependent and stationary", "statement": "For the three 1-dependent processes, the events that a sample contains A and that it contains B are independent as soon as no point of A equals or is adjacent to a point of B; the probability that a sample contains A depends only on A up to translation (and not on the size of the simulated window); and the probability that a sample contains l consecutive given positions is 1/(l+1)! (descents), binom(b, l+1)/b^(l+1) (carries in base b), q^l ((1-q)/l! + q/(l+1)!) with q = 2 x_0 (1 - x_0) (virtual descents).", "quantifier": "every size, base b > 0, x_0 in [0, 1], every pair of sets of positions and every run", "why_tests_cant": "independence and equality of laws for every size and every set of positions", "anchors": ["dppy/exotic_dpps.py: CarriesProcess.sample", "dppy/exotic_dpps.py: DescentProcess.sample", "dppy/exotic_dpps.py: VirtualDescentProcess.sample", "docs/exotic_dpps/1_dependent_processes.rst"]}
{"id": "C77", "title": "Carries, descent and virtual descent processes are determinantal", "statement": "The probability that a sample contains a set S of positions is the principal minor, indexed by S, of the nonsymmetric translation-invariant kernel K(x, y) = -k(y + 1 - x) (0 when x > y + 1), where k is the inverse of the power series of the run probabilities of the process (descents 1/(l+1)!, carries binom(b, l+1)/b^(l+1), virtual descents q^l((1-q)/l! + q/(l+1)!)); such a k exists and is unique.", "quantifier": "every size, base, x_0 in [0,1] and every finite set of positions", "why_tests_cant": "equality of all inclusion probabilities with determinants", "anchors": ["dppy/exotic_dpps.py: CarriesProcess.sample", "dppy/exotic_dpps.py: DescentProcess.sample", "dppy/exotic_dpps.py: VirtualDescentProcess.sample", "docs/exotic_dpps/1_dependent_processes.rst"]}
{"id": "C78", "title": "Quaternionic full matrix models return every point twice", "statement": "With beta = 4 the full matrix samplers of the Hermite, Laguerre and Jacobi ensembles return 2N values which are N points each repeated twice, whatever the Gaussian draws.", "quantifier": "every N (and M, M_1, M_2) and every value of the Gaussian draws", "why_tests_cant": "Kramers degeneracy must hold for every matrix of draws", "anchors": ["dppy/random_matrices.py: hermite_sampler_full", "dppy/random_matrices.py: laguerre_sampler_full", "dppy/random_matrices.py: jacobi_sampler_full"]}
{"id": "C79", "title": "Cholesky sampler on complex Hermitian projection kernels", "statement": "Called with a complex Hermitian projection kernel K, the Cholesky kernel sampler (mode Chol) returns, without ever failing, rank(K) (or size) distinct items; the probability of an ordered sample is its principal minor divided by the falling factorial of the rank, that of a set S of the requested size is det(K_S)/binom(rank, size), and for a full sample P(T included) = det(K_T).", "quantifier": "every N, every complex Hermitian idempotent N x N kernel, every size up to the rank, every set of items, all runs", "why_tests_cant": "needs the exact law of a randomised algorithm over all complex kernels; conjugations misplaced in one of the swaps only change the law for non-real kernels", "anchors": ["dppy/exact_sampling.py: proj_dpp_sampler_kernel_Chol"]}
{"id": "C80", "title": "GS sampler on complex Hermitian projection kernels", "statement": "Called with a complex Hermitian projection kernel, the Gram-Schmidt kernel sampler (mode GS) samples the projection DPP like it does for real kernels.", "quantifier": "every complex Hermitian projection kernel and size", "why_tests_cant": "law of a randomised algorithm over all kernels; tests use real kernels only", "anchors": ["dppy/exact_sampling.py: proj_dpp_sampler_kernel_GS"]}
{"id": "C81", "title": "Generic kernel sampler on nonsymmetric kernels", "statement": "For every real kernel K, symmetric or not, for which a DPP exists (some probability on sets has inclusion probabilities det K_T), the generic kernel sampler never fails and returns a set distributed exactly according to that DPP: P(X = S) is the signed determinant of K - I_{S^c} and P(T included in X) = det K_T, items in increasing order. A DPP with kernel K exists iff these signed determinants are nonnegative. In particular, run on the nonsymmetric kernels of the descent, carries and virtual descent processes it has the law of the dedicated samplers.", "quantifier": "every N, every real N x N kernel (no symmetry) that is the correlation kernel of some random set; every set of items", "why_tests_cant": "exact law of a randomised algorithm for all kernels, including the boundary cases where a pivot vanishes", "anchors": ["dppy/exact_sampling.py: dpp_sampler_generic_kernel", "dppy/exotic_dpps.py: DescentProcess.sample", "dppy/exotic_dpps.py: CarriesProcess.sample", "dppy/exotic_dpps.py: VirtualDescentProcess.sample"]}
{"id": "C82", "title": "Factorizations returned with the samples", "statement": "The array that dpp_sampler_generic_kernel returns next to the sample X is the in-place LU factorization of K - I_{X^c} (unit lower triangular part times upper triangular part), for every matrix K and every sequence of draws; for a kernel that has a DPP the product of the absolute values of its diagonal is the probability of X, and the pair is always returned. The array that proj_dpp_sampler_kernel_Chol returns next to the sample holds in its lower triangle the Cholesky factor of the submatrix K_X (rows and columns in the order of the draws), for real symmetric and complex Hermitian projections; the probability of the ordered sample is the product of the squared diagonal entries over the falling factorial of the rank. The samples have the laws stated in C02, C06, C79 and C81.", "quantifier": "all matrices K (generic sampler), all real symmetric and complex Hermitian projections (Cholesky sampler), all sizes up to the rank, all sequences of draws", "why_tests_cant": "A test factors the arrays of a few samples; the identity must hold for every kernel and along every branch of the random draws.", "anchors": ["dppy/exact_sampling.py: dpp_sampler_generic_kernel", "dppy/exact_sampling.py: proj_dpp_sampler_kernel_Chol"]}
{"id": "C83", "title": "Generic sampler on complex kernels", "statement": "dpp_sampler_generic_kernel called with a complex correlation kernel K that has a DPP (in particular every Hermitian K with spectrum in [0,1], such as a complex Hermitian projection) never fails, returns an increasing list of items, includes every set T with probability det K_T, and returns each set S with the probability given by the signed determinant of K - I_{S^c}. A DPP with kernel K exists exactly when all these signed determinants are real and nonnegative. On complex Hermitian projections it has the same law as the Cholesky sampler.", "quantifier": "all complex matrices K admitting a DPP, Hermitian or not, all sizes, all draws", "why_tests_cant": "Every test uses real kernels; the comparison of a real draw with a complex pivot and the law of the result concern all complex kernels and all draws.", "anchors": ["dppy/exact_sampling.py: dpp_sampler_generic_kernel"]}
{"id": "C84", "title": "Number of rows of RSK and longest decreasing subsequences", "statement": "The number of rows of the tableau RSK inserts a sequence into is the length of a longest strictly decreasing subsequence of the sequence; read row by row from the bottom, the tableau is a word Knuth equivalent to the sequence.", "quantifier": "every finite sequence over every ordered set", "why_tests_cant": "a maximum over exponentially many subsequences, for sequences of every length", "anchors": ["dppy/exotic_dpps_core.py: RSK", "dppy/exotic_dpps.py: PoissonizedPlancherel.sample"]}
{"id": "C85", "title": "Row lengths of RSK: Greene's theorem", "statement": "For every k, the first k rows of the tableau RSK inserts a sequence into together hold as many items as a largest union of k disjoint weakly increasing subsequences, equivalently a longest subsequence that contains no strictly decreasing subsequence of more than k items. These numbers determine the shape, and they describe every diagram PoissonizedPlancherel.sample appends to list_of_young_diag.", "quantifier": "every finite sequence over every ordered set, every k; every run of PoissonizedPlancherel.sample", "why_tests_cant": "a maximum over exponentially many families of subsequences, for sequences of every length", "anchors": ["dppy/exotic_dpps_core.py: RSK", "dppy/exotic_dpps.py: PoissonizedPlancherel.sample"]}
{"id": "C86", "title": "AD chain converges to the DPP", "statement": "From every valid initial state, the add/delete MCMC sampler reaches every set of positive minor with positive probability, and the law of its state after n iterations approaches the DPP(L) law geometrically: on every event the two probabilities differ by at most (1-d)^(n div 2N), with 0 < d <= 1 independent of the initial state, of n and of the event. The DPP(L) law is the only law on the valid states that one iteration of the sampler leaves invariant.", "quantifier": "every N > 0, every PSD L, every valid initial state, every number of iterations, every event", "why_tests_cant": "convergence is a statement about the limit of the law of the state over all random draws, for every kernel and every start; a test can only compare finitely many finite runs", "anchors": ["dppy/mcmc_sampling.py: add_delete_sampler"]}
{"id": "C87", "title": "E chain converges to the k-DPP", "statement": "From every valid initial state of size k, the exchange MCMC sampler reaches every set of size k and positive minor with positive probability within k iterations, and the law of its state after n iterations approaches the k-DPP law geometrically: on every event the two probabilities differ by at most (1-d)^(n div k), with 0 < d <= 1 independent of the initial state, of n and of the event. The k-DPP law is the only law on the valid states of size k that one iteration of the sampler leaves invariant.", "quantifier": "every N, every 0 < k < N, every PSD L, every valid initial state of size k, every number of iterations, every event", "why_tests_cant": "convergence is a statement about the limit of the law of the state over all random draws, for every kernel and every start; a test can only compare finitely many finite runs", "anchors": ["dppy/mcmc_sampling.py: basis_exchange_sampler"]}
