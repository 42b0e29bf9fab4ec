(** * ExpBounds: 4 < e^2 < 8.  No code of DPPy is modelled here. *)
From Coq Require Import Reals Lra ssreflect.
Local Open Scope R_scope.
Lemma e2R : 4 < exp 2 < 8.
Proof.
have h (x : R) : (1 + x <= exp x) by exact: exp_ineq1_le.
have d (x : R) : (exp (x + x) = exp x * exp x) by exact: exp_plus.
have c2 : (exp 2 * exp (-2) = 1) by rewrite -exp_plus Rplus_opp_r exp_0.
have l1 : (3/2 <= exp (1/2)) by have := h (1/2); lra.
have l2 : (9/4 <= exp 1).
  have := d (1/2); have -> : (1/2+1/2 = 1) by lra.
  move=> ->; nra.
have l3 : (4 < exp 2).
  have := d 1; have -> : (1+1 = 2) by lra.
  move=> ->; nra.
have u1 : (31/32 <= exp (-1/32)) by have := h (-1/32); lra.
have u2 : (938/1000 <= exp (-1/16)).
  have := d (-1/32); have -> : (-1/32+-1/32 = -1/16) by lra.
  move=> ->; nra.
have u3 : (879/1000 <= exp (-1/8)).
  have := d (-1/16); have -> : (-1/16+-1/16 = -1/8) by lra.
  move=> ->; nra.
have u4 : (772/1000 <= exp (-1/4)).
  have := d (-1/8); have -> : (-1/8+-1/8 = -1/4) by lra.
  move=> ->; nra.
have u5 : (595/1000 <= exp (-1/2)).
  have := d (-1/4); have -> : (-1/4+-1/4 = -1/2) by lra.
  move=> ->; nra.
have u6 : (354/1000 <= exp (-1)).
  have := d (-1/2); have -> : (-1/2+-1/2 = -1) by lra.
  move=> ->; nra.
have u7 : (1251/10000 <= exp (-2)).
  have := d (-1); have -> : (-1+-1 = -2) by lra.
  move=> ->; nra.
have u8 : (exp 2 < 8) by nra.
by split.
Qed.

