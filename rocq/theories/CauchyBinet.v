(** * CauchyBinet: principal minors of a weighted sum of rank-one matrices. *)
From Coq Require Import String.
From mathcomp Require Import all_ssreflect all_algebra.
From mathcomp.algebra_tactics Require Import ring.
From Verif Require Import Prob Minor Kdpp.
Set Implicit Arguments. Unset Strict Implicit. Unset Printing Implicit Defensive.
Import Order.Theory GRing.Theory Num.Theory.
Local Open Scope ring_scope.

Section CB.
Variable R : rcfType.

(** rank-one update of a determinant *)
Lemma det_rank1 n (M : 'M[R]_n) (u : 'cV[R]_n) (v : 'rV[R]_n) :
  \det (M + u *m v) = \det M + \sum_p \sum_q u p 0 * v 0 q * cofactor M p q.
Proof.
have -> : \sum_p \sum_q u p 0 * v 0 q * cofactor M p q = (v *m \adj M *m u) 0 0.
  rewrite mxE; apply: eq_bigr => p _; rewrite mxE big_distrl /=.
  by apply: eq_bigr => q _; rewrite mxE; fixeq; ring.
pose P (A : 'M[R]_n) := \det (A + u *m v) = \det A + (v *m \adj A *m u) 0 0.
rewrite -/(P M).
have unitP (A : 'M[R]_n) : A \in unitmx -> P A.
  move=> Au; rewrite /P.
  have dA : \det A != 0 by move: Au; rewrite unitmxE unitfE.
  have h1 : \det (block_mx (- 1)%:M v u A) = - \det (A + u *m v).
    rewrite det_bord_schur ?oppr_eq0 ?oner_eq0 // mulN1r; congr (- \det _).
    by rewrite invrN invr1 scaleNr scale1r opprK.
  have h2 : block_mx (- 1)%:M v u A *m block_mx 1%:M 0 (- (invmx A *m u)) 1%:M
          = block_mx ((- 1)%:M - v *m (invmx A *m u)) v 0 A.
    rewrite mulmx_block !mulmx1 !mulmx0 !add0r !mulmxN.
    by rewrite mulmxA [A *m _]mulmxA mulmxV // mul1mx subrr.
  have := congr1 determinant h2; rewrite det_mulmx h1 det_lblock det_ublock !det1 !mulr1.
  rewrite det_mx11 => e.
  have hX : (v *m (invmx A *m u)) 0 0 = (\det A)^-1 * (v *m \adj A *m u) 0 0.
    by rewrite /invmx Au -scalemxAl -scalemxAr mulmxA [LHS]mxE.
  have hs (x y : 'M[R]_1) : (x - y) 0 0 = x 0 0 - y 0 0 by rewrite !mxE.
  have h11 : ((- 1)%:M : 'M[R]_1) 0 0 = - 1 by rewrite !mxE eqxx mulr1n.
  rewrite -[LHS]opprK e hs hX h11; by rewrite mulrBl mulN1r mulrAC mulVf // mul1r opprB opprK addrC.
(* generic case: M + t I is invertible for all but finitely many t *)
pose F (t : R) := \det (M + t%:M + u *m v) - \det (M + t%:M) - (v *m \adj (M + t%:M) *m u) 0 0.
suff : F 0 = 0.
  rewrite /F /P -scalemx1 scale0r addr0 => /eqP; rewrite subr_eq0 subr_eq => /eqP ->.
  by rewrite addrC.
pose Mp : 'M[{poly R}]_n := map_mx polyC M + 'X%:M.
pose up : 'cV[{poly R}]_n := map_mx polyC u.
pose vp : 'rV[{poly R}]_n := map_mx polyC v.
pose Fp : {poly R} := \det (Mp + up *m vp) - \det Mp - (vp *m \adj Mp *m up) 0 0.
pose Dp : {poly R} := \det Mp.
have MpE t : map_mx (horner_eval t) Mp = M + t%:M.
  apply/matrixP => i j; rewrite !mxE /horner_eval hornerD hornerC hornerMn hornerX; by [].
have uvE t : map_mx (horner_eval t) up = u /\ map_mx (horner_eval t) vp = v.
  by split; apply/matrixP => i j; rewrite !mxE /horner_eval hornerC.
have FpE t : Fp.[t] = F t.
  have [uE vE] := uvE t.
  rewrite /Fp /F -/(horner_eval t _) !rmorphB /= -!det_map_mx map_mxD map_mxM uE vE MpE.
  congr (_ - _).
  have <- : (map_mx (horner_eval t) (vp *m \adj Mp *m up)) 0 0 = (v *m \adj (M + t%:M) *m u) 0 0.
    by rewrite !map_mxM uE vE map_mx_adj MpE.
  by rewrite [RHS]mxE.
have DpE t : Dp.[t] = \det (M + t%:M).
  by rewrite /Dp -/(horner_eval t _) -det_map_mx MpE.
have D0 : Dp != 0.
  have -> : Dp = char_poly (- M).
    rewrite /Dp /char_poly /char_poly_mx; congr (\det _).
    by rewrite /Mp addrC; congr (_ + _); apply/matrixP => i j; rewrite !mxE polyCN opprK.
  exact/monic_neq0/char_poly_monic.
have FD : Fp * Dp = 0.
  apply/eqP; apply: contraT => nz.
  have [t] : exists t, ~~ root (Fp * Dp) t.
    have [t _ Ht] : exists2 t, t \in [seq i%:R | i <- iota 0 (size (Fp * Dp))] & ~~ root (Fp * Dp) t.
      apply/allPn; apply/negP => al.
      have := max_poly_roots nz al; rewrite size_map size_iota ltnn.
      rewrite map_inj_uniq ?iota_uniq; first by move=> /(_ isT).
      by move=> a b /eqP; rewrite eqr_nat => /eqP.
    by exists t.
  rewrite rootM negb_or => /andP[rF rD].
  case/negP: rF; rewrite /root FpE /F.
  have := unitP (M + t%:M); rewrite unitmxE unitfE -DpE => -> //.
  by rewrite DpE; apply/eqP; ring.
move/eqP: FD; rewrite mulf_eq0 (negbTE D0) orbF => /eqP F0.
by rewrite -FpE F0 horner0.
Qed.

Lemma rank_sum1 n (I : Type) (s : seq I) (u : I -> 'cV[R]_n) (v : I -> 'rV[R]_n) :
  (\rank (\sum_(i <- s) u i *m v i)%R <= size s)%N.
Proof.
elim: s => [|i s IH]; first by rewrite big_nil mxrank0.
rewrite big_cons; apply: (leq_trans (@mxrank_add _ _ _ (u i *m v i) (\sum_(j <- s) u j *m v j))).
apply: (@leq_add _ _ 1 (size s)) => //.
exact: leq_trans (mxrankM_maxl _ _) (rank_leq_col _).
Qed.

Lemma det_low n (I : Type) (s : seq I) (u : I -> 'cV[R]_n) (v : I -> 'rV[R]_n) :
  (size s < n)%N -> \det (\sum_(i <- s) u i *m v i) = 0.
Proof.
move=> sn; apply/eqP; apply: contraT; rewrite -unitfE -unitmxE => /mxrank_unit e.
by have := rank_sum1 s u v; rewrite e leqNgt sn.
Qed.

(** Cauchy-Binet, in the form det(sum_i l_i u_i v_i) = sum_{|A|=k} prod_A l_i det(sum_{i in A} u_i v_i) *)
Lemma cauchy_binet lam k n (u : nat -> 'cV[R]_k) (v : nat -> 'rV[R]_k) :
  \det (\sum_(i < n) nth 0 lam i *: (u i *m v i)) = W lam k n (fun J => \det (\sum_(i <- J) u i *m v i)).
Proof.
elim: n k u v => [|n IH] [|k] u v; first by rewrite W0 !det_mx00.
- by rewrite WS0 big_ord0 det0.
- by rewrite W0 !det_mx00.
rewrite big_ord_recr /= W_rec -IH scalemxAl det_rank1; congr (_ + _).
have cof (M : 'M[R]_k.+1) : \sum_p \sum_q (nth 0 lam n *: u n) p 0 * v n 0 q * cofactor M p q
   = nth 0 lam n * \sum_p \sum_q u n p 0 * v n 0 q * cofactor M p q.
  rewrite [RHS]big_distrr; apply: eq_bigr => p _; rewrite [RHS]big_distrr; apply: eq_bigr => q _ /=.
  by rewrite mxE !mulrA.
rewrite {}cof; congr (_ * _).
have cofE p q : cofactor (\sum_(i < n) nth 0 lam i *: (u i *m v i)) p q =
   W lam k n (fun J => cofactor (\sum_(i <- J) u i *m v i) p q).
  pose u' i := row' p (u i); pose v' i := col' q (v i).
  rewrite /cofactor /W; under [RHS]eq_bigr do rewrite mulrCA; rewrite -[RHS]big_distrr /=; congr (_ * _).
  have -> : row' p (col' q (\sum_(i < n) nth 0 lam i *: (u i *m v i))) = \sum_(i < n) nth 0 lam i *: (u' i *m v' i).
    apply/matrixP => a b; rewrite !mxE !summxE; apply: eq_bigr => i _; rewrite !mxE; congr (_ * _).
    by apply: eq_bigr => c _; rewrite !mxE.
  rewrite (IH _ u' v'); apply: eq_bigr => A _; congr (_ * \det _).
  apply/matrixP => a b; rewrite !mxE !summxE; apply: eq_bigr => i _; rewrite !mxE.
  by apply: eq_bigr => c _; rewrite !mxE.
transitivity (\sum_p \sum_q W lam k n (fun J => u n p 0 * v n 0 q * cofactor (\sum_(i <- J) u i *m v i) p q)).
  apply: eq_bigr => p _; apply: eq_bigr => q _; rewrite cofE /W big_distrr /=.
  by apply: eq_bigr => A _; rewrite mulrCA.
rewrite /W; under eq_bigr do rewrite exchange_big /=; rewrite exchange_big /=.
apply: eq_bigr => A /eqP cA; under eq_bigr do rewrite -mulr_sumr; rewrite -mulr_sumr; congr (_ * _).
rewrite -cats1 big_cat /= big_seq1 det_rank1 det_low ?add0r // size_vals cA //.
Qed.

End CB.
