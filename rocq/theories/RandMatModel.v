(** * RandMatModel: model of the tridiagonal / quindiagonal matrix models of dppy/random_matrices.py.

    One dimensional numpy arrays are sequences.  The draws of the random generator are oracles: the [k]-th vectorised call
    of [rng.gamma] in the function returns at index [i] the value [gamma k i shape_i scale].  The calls to
    scipy.linalg.eigvalsh_tridiagonal and scipy.linalg.eigvals are oracles whose contract ("the roots of the
    characteristic polynomial, with multiplicity") is a hypothesis of the theorems.
    Rounding is not modelled.  The samplers *_full (l.25, 92, 165, 263, 370) are modelled in FullMatModel.v. *)
From mathcomp Require Import all_ssreflect all_algebra.
From mathcomp.real_closed Require Import complex.
From Verif Require Import Prob.
Set Implicit Arguments. Unset Strict Implicit. Unset Printing Implicit Defensive.
Import Order.Theory GRing.Theory Num.Theory.
Local Open Scope ring_scope.

Section Tri.
Variable R : rcfType.

(** [np.arange(n - 1, -1, step=-1)] : n-1, ..., 0 (l.145, l.234, l.340) *)
Definition arange_down (n : nat) : seq nat := rev (iota 0 n).

(** numpy slices [v[1:]] and [v[:-1]] *)
Definition sl_1_end A (v : seq A) := behead v.
Definition sl_beg_m1 A (v : seq A) := take (size v).-1 v.
(** elementwise [u + v], [u * v], [1 - v], [c + v] *)
Definition vadd (u v : seq R) := [seq p.1 + p.2 | p <- zip u v].
Definition vmul (u v : seq R) := [seq p.1 * p.2 | p <- zip u v].
Definition vcompl (v : seq R) := [seq 1 - x | x <- v].
Definition vshift (c : R) (v : seq R) := [seq x + c | x <- v].
Definition vsqrt (v : seq R) := [seq Num.sqrt x | x <- v].
(** [x = np.zeros(size); x[1:] = v] *)
Definition zeros_then (n : nat) (v : seq R) : seq R := if n is _.+1 then 0 :: v else [::].

(** The symmetric tridiagonal matrix with diagonal [d] and off diagonal [e]. *)
Definition tridiag (n : nat) (d e : seq R) : 'M[R]_n :=
  \matrix_(i, j) if (i == j :> nat) then nth 0 d i
                 else if (j == i.+1 :> nat) then nth 0 e i
                 else if (i == j.+1 :> nat) then nth 0 e j else 0.

(** scipy.linalg.eigvalsh_tridiagonal *)
Variable eigvalsh_tridiagonal : seq R -> seq R -> seq R.
(** numpy's RandomState: normal(loc, scale, size) , gamma(shape, scale), beta(a, b) *)
Variable normal : nat -> nat -> R -> R -> R.
Variable gamma : nat -> nat -> R -> R -> R.
Variable betad : nat -> nat -> R -> R -> R.

(** [rng.gamma(shape=v, scale=s)] raises ValueError on a negative shape or scale. *)
Definition rng_gamma (k : nat) (v : seq R) (s : R) : seq R + exn :=
  if has (fun a => a < 0) v || (s < 0) then inr ValueError
  else inl (mkseq (fun i => gamma k i (nth 0 v i) s) (size v)).
(** [rng.beta(u, v)] raises ValueError unless all parameters are positive. *)
Definition rng_beta (k : nat) (u v : seq R) : seq R + exn :=
  if has (fun a => a <= 0) u || has (fun a => a <= 0) v then inr ValueError
  else inl (mkseq (fun i => betad k i (nth 0 u i) (nth 0 v i)) (size u)).
(** [rng.normal(loc, scale, size)] raises ValueError on a negative scale. *)
Definition rng_normal (k : nat) (loc scale : R) (n : nat) : seq R + exn :=
  if scale < 0 then inr ValueError else inl (mkseq (fun i => normal k i loc scale) n).

Definition rb A B (m : A + exn) (f : A -> B + exn) : B + exn := match m with inl a => f a | inr e => inr e end.

(** mu_ref_normal_sampler_tridiag (l.61-86) *)
Definition mu_ref_normal_sampler_tridiag (loc scale beta : R) (size : nat) : seq R + exn :=
  if ~~ (0 < beta) then inr ValueError else                                      (* l.77-78 *)
  let b_2_Ni := [seq 2%:R^-1 * beta * k%:R | k <- rev (iota 1 size.-1)] in       (* l.81 *)
  rb (rng_normal 0 loc scale size) (fun alpha_coef =>                            (* l.83 *)
  rb (rng_gamma 1 b_2_Ni (scale ^+ 2)) (fun beta_coef =>                         (* l.84 *)
  inl (eigvalsh_tridiagonal alpha_coef (vsqrt beta_coef)))).                     (* l.86 *)

(** mu_ref_gamma_sampler_tridiag (l.131-159) *)
Definition mu_ref_gamma_sampler_tridiag (shape scale beta : R) (size : nat) : seq R + exn :=
  if ~~ (0 < beta) then inr ValueError else                                      (* l.141-142 *)
  let b_2_Ni := [seq 2%:R^-1 * beta * k%:R | k <- arange_down size] in           (* l.145 *)
  rb (rng_gamma 0 (vshift shape b_2_Ni) scale) (fun xi_odd =>                    (* l.148 *)
  rb (rng_gamma 1 (sl_beg_m1 b_2_Ni) scale) (fun draws =>                        (* l.152 *)
  let xi_even := zeros_then size draws in                                        (* l.151-152 *)
  let alpha_coef := vadd xi_even xi_odd in                                       (* l.155 *)
  let beta_coef := vmul (sl_beg_m1 xi_odd) (sl_1_end xi_even) in                 (* l.157 *)
  inl (eigvalsh_tridiagonal alpha_coef (vsqrt beta_coef)))).                     (* l.159 *)

(** mu_ref_beta_sampler_tridiag (l.214-257) *)
Definition mu_ref_beta_sampler_tridiag (a b beta : R) (size : nat) : seq R + exn :=
  if ~~ (0 < beta) then inr ValueError else                                      (* l.230-231 *)
  let b_2_Ni := [seq 2%:R^-1 * beta * k%:R | k <- arange_down size] in           (* l.234 *)
  rb (rng_beta 0 (vshift a b_2_Ni) (vshift b b_2_Ni)) (fun c_odd =>              (* l.237 *)
  rb (rng_beta 1 (sl_beg_m1 b_2_Ni) (vshift b (vshift a (sl_1_end b_2_Ni)))) (fun draws => (* l.241 *)
  let c_even := zeros_then size draws in                                         (* l.240-241 *)
  let xi_odd := vmul (vcompl c_even) c_odd in                                    (* l.244 *)
  let xi_even := zeros_then size (vmul (vcompl (sl_beg_m1 c_odd)) (sl_1_end c_even)) in (* l.248-249 *)
  let alpha_coef := vadd xi_even xi_odd in                                       (* l.253 *)
  let beta_coef := vmul (sl_beg_m1 xi_odd) (sl_1_end xi_even) in                 (* l.255 *)
  inl (eigvalsh_tridiagonal alpha_coef (vsqrt beta_coef)))).                     (* l.257 *)
End Tri.

Section Quin.
Variable R : rcfType.
Notation C := (complex R).
Local Open Scope complex_scope.

(** A diagonal block: a scalar (1x1) or a 2x2 matrix. *)
Inductive block := B1 of C | B2 of C & C & C & C.
Definition bsize (b : block) : nat := if b is B1 _ then 1 else 2.
Definition bentry (b : block) (i j : nat) : C :=
  match b with
  | B1 x => x
  | B2 x00 x01 x10 x11 => if i == 0%N then (if j == 0%N then x00 else x01) else (if j == 0%N then x10 else x11)
  end.

(** scipy.sparse.block_diag: entry (i, j) of the block diagonal matrix. *)
Fixpoint bd (bs : seq block) (i j : nat) : C :=
  match bs with
  | [::] => 0
  | b :: bs' =>
      if (i < bsize b)%N && (j < bsize b)%N then bentry b i j
      else if (bsize b <= i)%N && (bsize b <= j)%N then bd bs' (i - bsize b) (j - bsize b)
      else 0
  end.
Definition bd_size (bs : seq block) : nat := sumn (map bsize bs).

(** [xs[::2]] and [xs[1::2]] *)
Fixpoint evens A (s : seq A) : seq A := if s is x :: s' then x :: odds s' else [::]
with odds A (s : seq A) : seq A := if s is _ :: s' then evens s' else [::].

(** la.norm(g) of a real vector *)
Definition vnorm (g : seq R) : R := Num.sqrt (\sum_(x <- g) x ^+ 2).

(** alpha[i] of l.341-342, from the gaussian vector [g = rng.randn(nu + 1)]. *)
Definition verblunsky (g : seq R) : C := (nth 0 g 0 +i* nth 0 g 1) / (vnorm g)%:C.

(** scipy.linalg.eigvals of a square complex matrix *)
Variable eigvals : forall n, 'M[C]_n -> seq C.
(** [rng.randn(n)] at iteration i of the loop l.340 *)
Variable randn : nat -> nat -> seq R.

Definition sq_abs (z : C) : R := complex.Re z ^+ 2 + complex.Im z ^+ 2.

(** xi[i] of l.346-348 *)
Definition xi (a : C) : block :=
  let rho := Num.sqrt (1 - sq_abs a) in                                          (* l.344 *)
  B2 a^* rho%:C rho%:C (- a).

(** the matrices L and M (l.353-362), as lists of blocks *)
Definition quin_L (size : nat) (alpha : seq C) : seq block :=
  let xis := [seq xi a | a <- take size.-1 alpha] in
  if odd size then evens xis ++ [:: B1 (nth 0 alpha size.-1)^* ]                 (* l.359 *)
  else evens xis.                                                                (* l.354 *)
Definition quin_M (size : nat) (alpha : seq C) : seq block :=
  let xis := [seq xi a | a <- take size.-1 alpha] in
  if odd size then B1 1 :: odds xis                                              (* l.361 *)
  else B1 1 :: odds xis ++ [:: B1 (nth 0 alpha size.-1)^* ].                     (* l.356 *)

(** L.dot(M).toarray() (l.364) *)
Definition quindiag (size : nat) (alpha : seq C) : 'M[C]_size :=
  (\matrix_(i < size, j < size) bd (quin_L size alpha) i j) *m (\matrix_(i < size, j < size) bd (quin_M size alpha) i j).

(** mu_ref_unif_unit_circle_sampler_quindiag (l.323-364).  [beta] is an integer here: a non integer [beta] raises
    ValueError at l.333 like a nonpositive one. *)
Definition mu_ref_unif_unit_circle_sampler_quindiag (beta : int) (size : nat) : seq C + exn :=
  if ~~ (0 < beta) then inr ValueError else                                      (* l.333-335 *)
  let nus := [seq 1 + absz beta * k | k <- rev (iota 0 size)]%N in               (* l.340 *)
  let alpha := mkseq (fun i => verblunsky (randn i (nth 0%N nus i).+1)) size in  (* l.337-342 *)
  inl (eigvals (quindiag size alpha)).
End Quin.
