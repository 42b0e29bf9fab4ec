(** * MalaModel: model of sampler_mala (dppy/beta_ensemble_polynomial_potential_core.py l.313-337) over the real numbers of
    the standard library.

    A np.poly1d is the list of its coefficients, constant term first.  The draws rng.randn(), rng.rand() are arguments.
    [np.log(0) = -inf] is not modelled: the theorems assume that the uniform draws are positive. *)
From Coq Require Import Reals List Lra.
Import ListNotations.
Open Scope R_scope.

(** V(x), V.deriv(m=1) *)
Fixpoint peval (p : list R) (x : R) : R := match p with [] => 0 | c :: p' => c + x * peval p' x end.
Fixpoint pderiv_from (k : nat) (p : list R) : list R :=
  match p with [] => [] | c :: p' => INR k * c :: pderiv_from (S k) p' end.
Definition pderiv (p : list R) : list R := match p with [] => [] | _ :: p' => pderiv_from 1 p' end.

Section Mala.
Variables (V : list R) (sigma : R).
Let d1_V := pderiv V.                                                             (* l.320 *)

(** the proposal (l.325) *)
Definition mala_proposal (x z : R) : R := x - 0.5 * sigma ^ 2 * peval d1_V x + sigma * z.
(** the acceptance level (l.324, 326-332) *)
Definition mala_acceptance (x y : R) : R :=
  peval V x - peval V y
  + 0.5 / sigma ^ 2 * ((x - y + 0.5 * sigma ^ 2 * peval d1_V y) ^ 2 - (y - x + 0.5 * sigma ^ 2 * peval d1_V x) ^ 2).
(** one step with the draws z (normal) and u (uniform) (l.322-335) *)
Definition mala_step (x z u : R) : R :=
  let y := mala_proposal x z in
  if Rlt_dec (ln u) (mala_acceptance x y) then y else x.
(** sampler_mala (l.313-337) *)
Fixpoint sampler_mala (x : R) (draws : list (R * R)) : R :=
  match draws with [] => x | (z, u) :: ds => sampler_mala (mala_step x z u) ds end.
End Mala.
