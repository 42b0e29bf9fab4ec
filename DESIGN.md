# Formal model of DPPy in Rocq: design

Source: `/repo/dppy` (read as text, never run). Model: `/verif/rocq/theories`.

## 1. Modelling conventions

* **Numbers.** numpy floats are modelled by exact elements of an ordered field:
  a mathcomp `realFieldType` where the code only uses `+ - * /` and comparisons, a
  `rcfType` (real closed field) where it uses `sqrt`, or Coq's `R` where it uses `exp`/`log`.
  Rounding is *not* modelled.  Kernels are real, except in C79, C80, C82 and C83, which treat the
  kernel samplers on complex (Hermitian) kernels.
* **Randomness.** Two styles.
  * *Laws*: programs are terms of a free monad (`Prob.v`) with constructors `Ret`, `Raise`,
    `Flip p` (`rng.rand() < p`) and `Choice pop w` (`rng.choice(pop, p=w)`, which raises `ValueError`
    when a weight is negative or the weights do not sum to 1, like numpy).  `E m f` is the expectation of `f`
    over normal results (raised executions contribute 0), `Pr m Q` its indicator version.
    "Never fails" is `E m 1 = 1`.
  * *Safety for every draw*: the draws are an explicit argument (a list, or a function), universally quantified.
* **Exceptions** are values (`Raise e`, `inr e`, `Err e`).
* **Loops** are structural recursion on the iteration count, or fuel with a distinguished out-of-fuel result for
  `while` loops, whose termination is either excluded by hypothesis ("on every terminating run") or itself the subject.
* **External numerical routines** (`eigh`, `qr`, `linprog`, ...) are section variables/oracles with a stated contract.
* **Every definition in a model file cites file and lines.**  Specifications are in `*Spec*.v` files / clearly marked sections and
  do not use model helpers.
* `P_*.v` files contain only property theorems (`exact lemma`) + `Print Assumptions` + `Example`s.

## 2. Plan per property

(Status is tracked in MANIFEST.json; the plan below was written before the proofs.)

| id | model | proof idea |
|---|---|---|
| C01 | GS loop over arrays in `prog` | residual kernel after picking y is the Schur complement, again a projection, trace-1; det chain rule |
| C02 | in-place Cholesky with swaps | simulation with the residual-kernel chain (permutation bookkeeping invariant) |
| C03 | Schur mode with `K_inv` updates | invariant `K_inv = (K_Y)^-1`, `schur_comp = residual diagonal` |
| C04 | eig GS / GS_bis | residual kernel of `V V^T`; GS_bis invariant on orthogonalised rows |
| C05 | KuTa12 with QR oracle | `V V^T` after the step is the Schur complement |
| C06 | generic LU sampler | `a det(A - uv/a) = a det A + det[[0,v],[u,A]]`, induction; invariant 0<=K<=I |
| C07 | selector + phase 2 | det affine in each eigenvalue |
| C08 | K from L | C07 + inclusion-exclusion / direct expansion |
| C09 | table recursion | induction, equals sum over subsets |
| C10 | selector loop | induction on n downward |
| C11 | C10 + C04 | Cauchy-Binet |
| C12 | dispatchers | case analysis |
| C13 | AED transition probabilities | expected to be **refuted** (acceptance ratio of deletions) |
| C14,C15 | AD, E transition | detailed balance, case analysis |
| C16,C17,C18,C19 | chain functions with draw oracles | induction over iterations; T_max expected **refuted** |
| C20-C23 | FiniteDPP as a state machine | invariant over operation lists; C22/C23 expected **refuted** |
| C24 | loops with inner sampler oracle | induction over rejection rounds |
| C25 | constructor decision logic | case analysis |
| C26,C27 | graph walks with an oracle of steps | invariant: visited set is a tree |
| C28 | Fisher-Yates | bijection draw vectors <-> permutations |
| C29-C32 | RSK on lists | insertion invariants; reverse insertion; Schensted |
| C33,C34 | list functions | specification of filtered index lists |
| C35,C36 | ordering | layers; C36 expected **refuted** (int16) |
| C37,C38 | bless loops | termination analysis, C37 expected **refuted**; invariant |
| C39,C40 | utils predicates | C40 expected **refuted** for large matrices |
| C41-C43 | tridiagonal / quindiagonal builders | factorisations |
| C44 | conditionals of Tr V(J) | polynomial identities |
| C45 | MALA | expected **refuted**; corrected version proved |
| C46 | rejection envelope | concavity |
| C47 | chain rule of the Jacobi OPE | Schur complements / Gram-Schmidt |
| C48 | ensembles as state machines | case analysis over histories |
| C49 | transfer-current kernel | total unimodularity |
| C50 | zonotope chain | invariant |
| C51 | selector with k = 0 | expected **refuted**: `E_poly[-1]` and store into an empty array |
| C52 | exchange chains, `det` ratio | probability of the failing branch; expected **refuted** |
| C53 | FiniteDPP state machine | C07/C08/C11 + the invariant of C21 |
| C54 | FiniteDPP error path | expected **refuted**: the spectrum is cached before the check |
| C55 | descent / carries / virtual descent | counting of permutations / digits; expected **refuted** for the virtual process |
| C56 | RSK of a uniform permutation | bijection of C30 + C28 |
| C57 | Wilson's algorithm, all runs | harmonic function, see section 6 |
| C58 | Aldous-Broder, all runs | stationary law of rooted trees, see section 6 |
| C59 | both walks | potential that decreases with probability >= 1/n at each step |
| C60-C61 | tridiagonal / full matrix models | traces, factorisations, SVD-free positivity |
| C62-C63 | beta ensembles as state machines | case analysis over histories |
| C64-C66 | zonotope hit-and-run | LP contract; symmetric proposal |
| C67-C68 | polynomial potential classes | case analysis; polynomial identities; expected **refuted** in MALA mode |
| C69 | 100-trial loops | expected **refuted** |
| C70-C71 | bless | order of the bracket; Schur complements of `K + lam I` |
| C72-C73 | DPP-VFX: Poisson programs (`PProg.v`), expectation as a series | `E det(I + weighted sample) = det(I+L)`-type identities (`DetExp.v`), then geometric rejection; C72 expected **refuted** (`ceil`) |
| C74-C75 | alpha-DPP: thinned Poisson vectors, cache invariant | product form of thinned Poisson laws, multilinear minors; adaptive search: the value of a run is a combination of the sample found so far and of the k-DPP; C74 expected **refuted** (`acc_thresh >= 0`) |
| C76-C77 | carries / descent / virtual descent: 1-dependence, stationarity, determinantal kernel | transfer recursions on run lengths (`OneDep.v`): inclusion probabilities factor over runs; block permutations for descents, digit-order counting for carries, hidden-bit recursion for virtual descents; determinant of the Hessenberg kernel by expansion along the runs |
| C78 | beta = 4 full models return pairs | Kramers degeneracy: A^T J = J A, determinant of an antisymmetric polynomial matrix is a square up to squares (`Kramers.v`), multiplicities |
| C79 | Cholesky kernel sampler on complex Hermitian projections | `cproj_dpp_sampler_kernel_Chol` with the conjugations of l.120-150 (`ProjCplx.v`); minors over any field (`MinorF.v`); the array invariant of C02 with conjugates; chain rule over `complex R` |
| C80 | GS kernel sampler on complex kernels: refuted | `cproj_dpp_sampler_kernel_GS` keeps real parts (float array c); explicit 3 x 3 counterexample; positive statement for real entries |
| C81 | generic kernel sampler on nonsymmetric kernels | same model as C06; the signed determinants q_js(A, S) are additive when an item is forgotten, so nonnegativity is inherited by subsets and by the residual matrices (`GenNonsym.v`); Moebius uniqueness identifies them with the law; corollary with C77 |
| C82 | factorizations returned with the samples | `Factors.v`: the loops of the generic and Cholesky samplers with both results; invariant: partial product of the unit-lower and upper parts plus the trailing block is K minus the diagonal of the rejected items; Cholesky: same invariant as C79 plus row products of the finished columns; real case embedded in the complex one |
| C83 | generic sampler on complex kernels | `GenCplx.v`: the loop over complex entries, branch with probability Re A_jj; port of C81 to complex minors; `HermGen.v`: Hermitian forms bounded by 0 and 1 are inherited by the residual matrices, so the signed determinants are nonnegative; projections are such kernels, same law as C79 |
| C84 | number of rows of RSK | `Knuth.v`: every insertion step is a chain of Knuth relations, so the sequence is Knuth equivalent to the reading word of its tableau; Knuth relations transport strictly decreasing subsequences with their lengths; in the reading word a decreasing subsequence takes one item per row, and the first column is one |
| C85 | Greene's theorem | `Greene.v`: subsequences without a long decreasing subsequence are transported along Knuth relations (exchange argument), bounded in a reading word by induction on the columns, and coloured greedily by k increasing subsequences; converse by pigeonhole |
| C86 | AD chain converges | `Doeblin.v`: contraction of the oscillation for a finite chain that charges every state in m steps; `PosMinor.v`: sets of positive minor are the independent sets of a matroid; every state reaches the empty set by deletions and every other state by additions, laziness fills the remaining steps of 2N; uniqueness: the contraction applied to the set where another invariant law exceeds the DPP |
| C87 | exchange chain converges | the same with the basis exchange property of `PosMinor.v` (kernel vectors of the PSD matrix): each exchange brings the state closer to the target, k steps suffice |

## 3. Trusted base

* The Coq 8.16.1 kernel (`coqc`; no kernel check is switched off, no plugin is loaded besides those of the standard distribution and
  of the installed libraries: ssreflect, ring/field/lia/lra, mathcomp algebra-tactics and zify, whose results are all checked by the kernel).
* The reading of the Python code recorded in the comments of the model files, and the conventions of section 1.
* The axioms printed by `Print Assumptions` (each `P_*.v` file ends with the commands for its theorems):
  * every theorem of every file except the ones listed below: **"Closed under the global context"** (no axiom at all; the numbers are
    elements of an arbitrary `rcfType` / `realFieldType`, never of an axiomatised type);
  * `P_Mala.v` (C45_*) and `P_Dev12.v` (C46_*, C69_*) use Coq's classical reals `R` (and Coquelicot for integrals and derivatives, which adds no axiom):
    `ClassicalDedekindReals.sig_not_dec`, `ClassicalDedekindReals.sig_forall_dec`,
    `FunctionalExtensionality.functional_extensionality_dep`, `Classical_Prop.classic` - all four from the standard library.
  * `P_Vfx.v` (C72_*, C73_*), `P_AlphaDpp.v`, `P_AlphaEx.v` (C74_*) and `P_AlphaK.v` (C75_*) use `R` as a real closed field of mathcomp (`Rstruct.v`, a choice
    structure on `R`): the four axioms above and `ClassicalEpsilon.constructive_indefinite_description`, also from the standard library.
* No `Axiom`, `Parameter`, section-less `Variable`/`Hypothesis`, `Admitted`, functor or module type is defined.

## 4. What is modelled and what is not

| file of /repo/dppy | modelled | not modelled |
|---|---|---|
| `exact_sampling.py` | all projection samplers (`GS`, `Chol`, `Schur`, `GS_bis`, `KuTa12`), generic kernel sampler, `dpp_eig_vecs_selector`, `elementary_symmetric_polynomials`, `elem_symm_poly_selector`, dispatchers, control flow of the vfx/alpha drivers and their k-DPP loops | complex kernels (except modes Chol and GS of the projection kernel sampler), floating point, progress messages |
| `finite_dpps.py` | `FiniteDPP` as a state machine: constructor, `sample_exact`, `sample_exact_k_dpp`, `sample_mcmc`, `sample_mcmc_k_dpp` (dispatch, caches, history), `compute_K/L`, `flush_samples` | `plot_kernel`, `info` |
| `mcmc_sampling.py` | initialisers, AED/AD/E chains with `T_max`, zonotope chain, `extract_basis` | the LP solver (contract only) |
| `exotic_dpps.py`, `exotic_dpps_core.py` | carries / descent / virtual descent, poissonised Plancherel, RSK, uniform permutation, UST (Wilson, Aldous-Broder, kernel) | plotting, `networkx` drawing, the limit shape |
| `beta_ensembles.py`, `random_matrices.py` | classes as state machines, full matrix models, tri/quindiagonal models, normalisation of points | `hist`/`plot`, equilibrium densities; `eigvalsh` etc. are contracts |
| `beta_ensemble_polynomial_potential*.py` | constructor, update order, conditionals, exact samplers (log-concave rejection, generalised gamma), MALA step | numerical root finding (`brentq`, `newton`, `roots`) |
| `multivariate_jacobi_ope.py` | `compute_ordering`, chain rule sampler with rejection, proposal mixture | values of Jacobi polynomials and of the Bernstein-type bounds (parameters with a contract) |
| `bless.py` | `estimate_rls_bless`, `reduce_lambda`, `bless`, `bless_size` | floating point, progress bars |
| `intermediate_sampling.py` | C23, C24: control flow and caches; C72-C75: both preprocessings for an arbitrary dictionary (phase 2), both rejection loops with Poisson/binomial draws, leverage-score estimates, thinning, acceptance and phase 4, the caches handed from call to call, the k-DPP loops | floating point, the random dictionary itself (an arbitrary list, see C38/C71 for `bless`), `brentq` (contract) |
| `utils.py` | `is_symmetric`, `is_projection`, `is_orthonormal_columns`, `is_in_01`, `is_geq_0`, `is_full_row_rank`, `det_ST`, `evaluate_L_diagonal`, SVD pinv helper | warnings, `check_random_state` |

Oracles with a contract: `scipy.linalg.eigh`, `scipy.linalg.qr`, `eigvalsh`/`eigvals`/`svd` of the matrix models, `cvxopt` LP, `numpy` random
primitives (`rand`, `choice`, `randint`, `poisson`, `gamma`, `normal`), numerical root finding.  For `eigh` and `qr` a routine meeting the contract is built in Coq
(`EighEx.v`, `QRex.v`), so the contracts are satisfiable.

## 5. Deviations of the code from its documentation that were found (each is a `_refuted` theorem)

* C13: the acceptance ratio of deletions in the add-exchange-delete chain is inverted; the DPP is not stationary.
* C18/C50: the comparison with `T_max` is reversed; E and zonotope chains are padded with rows of zeros.
* C22: a larger `size` after a smaller one raises `IndexError` (cached table too small).
* C23: vfx and alpha caches clash (`AttributeError`); constants rescaled for a k-DPP are reused for a DPP.
* C25: constructor accepts unknown keys / `None` parameters; non-boolean flag raises `AttributeError`.
* C36: int16 wrap of `compute_ordering`.  C37/C38: `bless` initialisation may not terminate; `nb_iter_bless = 1`.
* C40: symmetric / projection / orthonormality checks are only partial.
* C45: MALA correction has the wrong sign.  C48/C62: `beta=4` double points, parameters of failing calls, mutation of recorded samples.
* C51: `size=0` raises `IndexError`.  C52: exchange chains may crash.  C54: an invalid kernel is accepted by the second call.
* C55: intensity of the virtual descent process.  C65: zonotope initialisation may not terminate.
* C68/C69: wrong conditional for a sextic potential with shape < 1; unaccepted proposal returned after 100 trials.
* C72: `np.ceil` of the Poisson intensity makes DPP-VFX sample from a DPP with a larger kernel than the advertised one.
* C74: the check `acc_thresh >= 0` of alpha-DPP raises on legitimate draws (L = I_4 with the default parameters).

## 6. Two longer arguments

**C57 (Wilson).** Fix a spanning tree `T` and the root `r`.  A state of the loop is the grown tree with vertex set `C`, and the current loop-erased path
`y_0 ... y_k` from the branch start.  Define `hW(state)` = 0 if some branch edge is not in `T`, and otherwise the product of (i) the conditional probability that the loop-erased walk
continued from the current path ends as the path of `T` climbing from `y_0` to `C`, and (ii) the probability for the remaining vertices, which is a ratio of
determinants of graph Laplacians restricted to complements of vertex sets (`LapLin.v`: Green function of the walk killed on `C`, as a Schur complement).  `hW` is harmonic for one loop iteration
(`WilsonLaw.v`), it is 1 on finished states whose tree is `T` and 0 on other finished states, and lies in [0,1]; hence after any number of iterations
`P(T) <= hW(initial)`, and `hW(initial) = 1/tau` because the product of the Laplacian ratios telescopes to `1/det(reduced Laplacian)` whatever the order of the branches
(`LapTree.v`, matrix-tree theorem).  Summing over trees, `P(T) >= 1/tau - P(still running)`; C59 makes the last term tend to 0 geometrically.

**C58 (Aldous-Broder).** For a stationary walk `X_0, ..., X_L` the first-entrance tree of the *reversed* walk is obtained by the move `mv`: the root walks one step and the old root gets an edge to it.
This move is a Markov chain on rooted spanning trees, and the law giving a rooted tree the weight deg(root) is invariant under it: a tree with root r has deg(r) predecessors, one for each possible parent edge of r in the predecessor (`AbLaw.v`).
Reversibility of the walk turns this into: started at the stationary law of vertices, the first-entrance tree after `L` steps completed from a stationary rooted tree has the stationary law, uniform over trees
given the root.  Restricting to the event that the walk has covered the graph gives `P(T and covered) <= 1/tau` for each start vertex, and the lower bound follows as for C57.
