(** * PolyPotModel: model of dppy/beta_ensemble_polynomial_potential.py (constructor and sample_mcmc) and of
    dppy/beta_ensemble_polynomial_potential_core.py (the two conditional polynomials).

    Numbers are exact (a real closed field).  A [np.poly1d] is a mathcomp polynomial.  The one dimensional samplers are
    requests made to the environment: a run is driven by the list of the numbers they return, and the model records for each
    request which coefficient is being refreshed and which law is asked for (the samplers themselves are in Dev12Model.v).
    scipy.linalg.eigvalsh_tridiagonal is an oracle.  Not modelled: the equilibrium densities, the histograms and the printed
    messages. *)
From mathcomp Require Import all_ssreflect all_algebra all_real_closed.
From Verif Require Import Prob.
Set Implicit Arguments. Unset Strict Implicit. Unset Printing Implicit Defensive.
Import Order.Theory GRing.Theory Num.Theory.
Local Open Scope ring_scope.

Section PolyPot.
Variable R : rcfType.

(** numpy indexing of a vector, negative indices count from the end (all the indices used are in range) *)
Definition np_get (l : seq R) (k : int) : R :=
  match k with Posz n => l`_n | Negz n => l`_(size l - n.+1) end.

(** np.poly1d(l): highest degree first;  V.order *)
Definition poly1d (l : seq R) : {poly R} := Poly (rev l).
Definition order (V : {poly R}) : nat := (size V).-1.

(** polynomial_in_negative_log_conditional_a_coef (core l.340-412) *)
Definition P_a_cond (i : nat) (a_ b_ : seq R) (V : {poly R}) : {poly R} + exn :=
  let a k := np_get a_ k in
  let b k := np_get b_ k in
  let im1 := (i%:Z - 1)%R in let i0 := i%:Z in let i1 := (i%:Z + 1)%R in let i2 := (i%:Z + 2)%R in
  if (7 < order V)%N then inr ValueError else                                     (* l.342-347; len(V) is the order *)
  let P := 0 in                                                                   (* l.349 *)
  let i_2 := (maxn 0 (i - 2))%:Z in                                               (* l.350 *)
  let P := if V`_1 != 0 then P + V`_1 *: poly1d [:: 1; 0] else P in               (* l.352-356 *)
  let P := if V`_2 != 0 then P + V`_2 *: poly1d [:: 1; 0; 0] else P in            (* l.358-363 *)
  let P := if V`_3 != 0 then P + V`_3 *: poly1d                                   (* l.365-371 *)
             [:: 1; 0; 3%:R * (b im1 + b i0); 0] else P in
  let P := if V`_4 != 0 then P + V`_4 *: poly1d                                   (* l.373-380 *)
             [:: 1; 0; 4%:R * (b im1 + b i0);
                 4%:R * (a im1 * b im1 + a i1 * b i0); 0] else P in
  let P := if V`_5 != 0 then P + V`_5 *: poly1d                                   (* l.382-392 *)
             [:: 1; 0; 5%:R * (b im1 + b i0);
                 5%:R * (a im1 * b im1 + a i1 * b i0);
                 5%:R * (b im1 * (a im1 ^+ 2 + b i_2)
                         + (b im1 + b i0) ^+ 2
                         + b i0 * (a i1 ^+ 2 + b i1)); 0] else P in
  let P := if V`_6 != 0 then P + V`_6 *: poly1d                                   (* l.394-410 *)
             [:: 1; 0; 6%:R * (b im1 + b i0);
                 6%:R * (a im1 * b im1 + a i1 * b i0);
                 3%:R * (2%:R * b im1 * (a im1 ^+ 2 + b i_2)
                         + 3%:R * (b im1 + b i0) ^+ 2
                         + 2%:R * b i0 * (a i1 ^+ 2 + b i1));
                 6%:R * (a i_2 * b i_2 * b im1
                         + a im1 * b im1 * (a im1 ^+ 2 + 2%:R * (b i_2 + b im1 + b i0))
                         + a i1 * b i0 * (a i1 ^+ 2 + 2%:R * (b im1 + b i0 + b i1))
                         + a i2 * b i0 * b i1); 0] else P in
  inl P.

(** polynomial_in_negative_log_conditional_b_coef (core l.415-471) *)
Definition P_b_cond (i : nat) (a_ b_ : seq R) (V : {poly R}) : {poly R} + exn :=
  let a k := np_get a_ k in
  let b k := np_get b_ k in
  let im2 := (i%:Z - 2)%R in
  let im1 := (i%:Z - 1)%R in let i0 := i%:Z in let i1 := (i%:Z + 1)%R in let i2 := (i%:Z + 2)%R in
  if (7 < order V)%N then inr ValueError else                                     (* l.417-422 *)
  let P := 0 in                                                                   (* l.424 *)
  let P := if V`_2 != 0 then P + V`_2 *: poly1d [:: 2%:R; 0] else P in            (* l.426-430 *)
  let P := if V`_3 != 0 then P + V`_3 *: poly1d [:: 3%:R * (a i0 + a i1); 0] else P in   (* l.432-436 *)
  let P := if V`_4 != 0 then P + V`_4 *: poly1d                                   (* l.438-444 *)
             [:: 2%:R; 4%:R * (a i0 ^+ 2 + a i0 * a i1 + a i1 ^+ 2 + b im1 + b i1); 0] else P in
  let P := if V`_5 != 0 then P + V`_5 *: poly1d                                   (* l.446-453 *)
             [:: 5%:R * (a i0 + a i1);
                 5%:R * (a i0 ^+ 3 + a i0 ^+ 2 * a i1 + a i0 * a i1 ^+ 2 + a i1 ^+ 3
                         + b im1 * (a im1 + 2%:R * a i0 + a i1)
                         + b i1 * (a i0 + 2%:R * a i1 + a i2)); 0] else P in
  let P := if V`_6 != 0 then P + V`_6 *: poly1d                                   (* l.455-469 *)
             [:: 2%:R;
                 3%:R * (3%:R * a i0 ^+ 2 + 4%:R * a i0 * a i1 + 3%:R * a i1 ^+ 2 + 2%:R * (b im1 + b i1));
                 6%:R * (a i0 ^+ 4 + a i0 ^+ 3 * a i1 + a i0 ^+ 2 * a i1 ^+ 2
                         + a i0 * a i1 ^+ 3 + a i1 ^+ 4
                         + b im1 * (a im1 ^+ 2 + a im1 * a i1 + a i1 ^+ 2
                                    + a i0 * (2%:R * a im1 + 3%:R * a i0 + 2%:R * a i1)
                                    + b im2 + b im1 + b i1)
                         + b i1 * (a i0 ^+ 2 + a i0 * a i2 + a i2 ^+ 2
                                   + a i1 * (2%:R * a i0 + 3%:R * a i1 + 2%:R * a i2)
                                   + b i1 + b i2)); 0] else P in
  inl P.

(** The laws asked for, and the coefficient being refreshed. *)
Inductive coef := CoefA of nat | CoefB of nat.
Inductive request :=
  | ExactQuartic (P : {poly R})                 (* sampler_exact_convex_quartic(P): density exp(-P(x)) *)
  | Mala (x0 : R) (steps : nat) (P : {poly R})  (* sampler_mala(x0, P): started at x0, target exp(-P(x)) *)
  | ExactGamma (shape : R) (P : {poly R}).      (* sampler_exact_convex_quartic(P, shape): x^(shape-1) exp(-P(x)), x > 0 *)

Inductive gprog (A : Type) :=
  | GRet of A
  | GRaise of exn
  | GDraw of coef & request & (R -> gprog A).
Arguments GRaise {A}.

Fixpoint gbind A B (m : gprog A) (f : A -> gprog B) : gprog B :=
  match m with
  | GRet x => f x
  | GRaise e => GRaise e
  | GDraw c q k => GDraw c q (fun x => gbind (k x) f)
  end.
Definition glift A (r : A + exn) : gprog A := match r with inl x => GRet x | inr e => GRaise e end.

(** sampler_exact_convex_quartic with a shape (core l.207-229): the method that is selected *)
Inductive gamma_method :=
  | GammaCall (shape scale : R)                 (* rng.gamma(shape, scale) (l.209-210) *)
  | GammaReject (shape scale c : R)             (* gen_gamma_alpha_lt_1_sampler (l.150-168): X ~ rng.gamma(shape, scale), kept
                                                   when log U < - c X^2 *)
  | TruncGauss (b mu var : R)                   (* trunc_gaussian_sampler (l.131-147): X ~ N(b, var), kept when
                                                   log U < -(b - mu)(X - b)/var and X > b *)
  | Devroye (shape : R) (P : {poly R}).         (* the envelope of [Dev12] (l.229-310), see Dev12Model.v *)
Definition select_method (shape : R) (P : {poly R}) : gamma_method :=
  if P`_2 == 0 then GammaCall shape (1 / P`_1)                                    (* l.209-210 *)
  else if shape < 1 then GammaReject shape (1 / P`_1) P`_2                        (* l.213-215, 157, 159 *)
  else if shape == 1 then TruncGauss 0 (- 2%:R^-1 * P`_1 / P`_2) (2%:R^-1 / P`_2) (* l.217-222 *)
  else Devroye shape P.                                                           (* l.224-229 *)
(** numpy rejects a negative scale: rng.gamma raises ValueError *)
Definition gamma_raises (scale : R) : bool := scale < 0.

(** Constructor (l.22-57).  [self.V[0] = 0] (l.47-49). *)
Definition init (beta : R) (V : {poly R}) : {poly R} + exn :=
  if ~~ (0 < beta) then inr ValueError                                            (* l.27-28 *)
  else if (7 < order V)%N then inr ValueError                                     (* l.30-36 *)
  else if V`_5 != 0 then inr ValueError                                           (* l.38-39 *)
  else if odd (order V) then inr ValueError                                       (* l.41-42 *)
  else if V`_(order V) < 0 then inr ValueError                                    (* l.44-45 *)
  else inl (if V`_0 != 0 then V - (V`_0)%:P else V).                                (* l.47-49 *)

(** One pass of the Gibbs sampler over the index i (l.164-185) *)
Definition gibbs_step (beta : R) (V : {poly R}) (exact : bool) (mala_steps N : nat) (i : nat) (st : seq R * seq R)
    : gprog (seq R * seq R) :=
  let: (a, b) := st in
  gbind (glift (P_a_cond i a b V)) (fun P =>
  let P_a_i := (2%:R^-1 * beta * N%:R) *: P in                                    (* l.167 *)
  GDraw (CoefA i) (if exact then ExactQuartic P_a_i else Mala a`_i mala_steps P_a_i) (fun x =>   (* l.168-177 *)
  let a := set_nth 0 a i x in
  if (i < N)%N then                                                               (* l.180 *)
    gbind (glift (P_b_cond i a b V)) (fun P =>
    let P_b_i := (2%:R^-1 * beta * N%:R) *: P in                                  (* l.181 *)
    GDraw (CoefB i) (ExactGamma (2%:R^-1 * beta * (N - i)%N%:R) P_b_i) (fun y =>  (* l.182-185 *)
    GRet (a, set_nth 0 b i y)))
  else GRet (a, b))).

Fixpoint gibbs_indices beta V exact steps N (idx : seq nat) st : gprog (seq R * seq R) :=
  if idx is i :: idx' then
    gbind (gibbs_step beta V exact steps N i st) (gibbs_indices beta V exact steps N idx')
  else GRet st.

(** [out] is what is recorded after each pass (l.187-195) *)
Fixpoint gibbs_passes (T : Type) beta V exact steps N (out : seq R * seq R -> T) (p : nat) st (acc : seq T)
    : gprog ((seq R * seq R) * seq T) :=
  if p is p'.+1 then
    gbind (gibbs_indices beta V exact steps N (iota 1 N) st) (fun st =>           (* l.164 *)
    gibbs_passes beta V exact steps N out p' st (rcons acc (out st)))
  else GRet (st, acc).

(** scipy.linalg.eigvalsh_tridiagonal(a[1:N+1], sqrt(b[1:N])) *)
Variable eigvalsh_tridiagonal : seq R -> seq R -> seq R.
Definition eig_of (N : nat) (st : seq R * seq R) : seq R :=
  eigvalsh_tridiagonal (take N (drop 1 st.1)) [seq Num.sqrt x | x <- take N.-1 (drop 1 st.2)].

(** even_coefs_V = V.coef[::-1][2::2] (l.141) *)
Definition even_coefs (V : {poly R}) : seq R := [seq V`_k | k <- iota 2 (size V - 2) & ~~ odd k].

(** sample_mcmc (l.86-202); [chain] is return_chain_of_eig_vals, the returned pair is (final spectrum, chain of spectra) *)
Definition sample_mcmc (beta : R) (V : {poly R}) (N nb_gibbs_passes : nat) (exact : bool) (mala_steps : nat)
    : gprog (seq R * seq (seq R)) :=
  if exact && (V`_3 != 0) then GRaise ValueError                                  (* l.134-136 *)
  else if exact && (5 <= order V)%N then GRaise ValueError                        (* l.138-139 *)
  else if exact && ~~ all (fun c => 0 <= c) (even_coefs V) then GRaise ValueError (* l.141-148 *)
  else
  let st := (nseq (N + 3) 0, nseq (N + 3) 0) in                                   (* l.153 *)
  gbind (gibbs_passes beta V exact mala_steps N (eig_of N) nb_gibbs_passes st [::]) (fun r =>
  GRet (eig_of N r.1, r.2)).                                                      (* l.197-202 *)

End PolyPot.
