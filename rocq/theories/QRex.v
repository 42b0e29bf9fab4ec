(** * QRex: Gram-Schmidt satisfies the contract assumed of [scipy.linalg.qr] (non-vacuity of C05). *)
From mathcomp Require Import all_ssreflect all_algebra.
From Verif Require Import Prob ProjKuTa.
Set Implicit Arguments. Unset Strict Implicit. Unset Printing Implicit Defensive.
Import Order.Theory GRing.Theory Num.Theory.
Local Open Scope ring_scope.

Section QR.
Variables (R : rcfType) (N : nat).

Fixpoint gsrows (r : nat) : 'M[R]_(r, N) -> 'M[R]_(r, N) :=
  if r is r'.+1 then fun A : 'M[R]_(1 + r', N) =>
    let Q := gsrows (dsubmx A) in
    let u := usubmx A - usubmx A *m Q^T *m Q in
    col_mx ((Num.sqrt ((u *m u^T) 0 0))^-1 *: u) Q
  else fun A => A.

Lemma gsrowsS r (A : 'M[R]_(1 + r, N)) : @gsrows (1 + r) A =
    let Q := gsrows (dsubmx A) in
    let u := usubmx A - usubmx A *m Q^T *m Q in
    col_mx ((Num.sqrt ((u *m u^T) 0 0))^-1 *: u) Q.
Proof. by []. Qed.

Lemma sq_row_eq0 (u : 'rV[R]_N) : (u *m u^T) 0 0 = 0 -> u = 0.
Proof.
rewrite mxE => /eqP; rewrite psumr_eq0 => [|i _]; last by rewrite mxE -expr2 sqr_ge0.
move=> /allP h; apply/rowP => i; have := h i (mem_index_enum i).
by rewrite /= !mxE -expr2 sqrf_eq0 => /eqP.
Qed.

Lemma sq_row_ge0 (u : 'rV[R]_N) : 0 <= (u *m u^T) 0 0.
Proof. by rewrite mxE sumr_ge0 // => i _; rewrite mxE -expr2 sqr_ge0. Qed.

Lemma gsrowsP r (A : 'M[R]_(r, N)) : row_free A ->
  gsrows A *m (gsrows A)^T = 1%:M /\ (gsrows A :=: A)%MS.
Proof.
elim: r A => [|r IH] A fA.
  by split; [apply/matrixP => -[]|].
rewrite -[r.+1]/(1 + r)%N in A fA *; rewrite gsrowsS; cbv zeta.
set a := usubmx A; set B := dsubmx A.
have AE : A = col_mx a B by rewrite vsubmxK.
have fB : row_free B.
  apply/row_freeP; move: fA => /row_freeP[C AC].
  exists (rsubmx C); move: AC; rewrite AE -[C in LHS]hsubmxK mul_col_row.
  by move/(congr1 drsubmx); rewrite block_mxKdr scalar_mx_block block_mxKdr.
have [QQ QB] := IH B fB.
set Q := gsrows B in QQ QB *.
set u := a - _; set s := Num.sqrt _.
have uQ : u *m Q^T = 0 by rewrite mulmxBl -mulmxA QQ mulmx1 subrr.
have u0 : u != 0.
  apply: contraTneq fA => /eqP; rewrite subr_eq0 => /eqP aE.
  have aB : (a <= B)%MS by rewrite -QB aE submxMl.
  rewrite /row_free AE -addsmxE (addsmx_idPr aB) neq_ltn ltnS.
  by rewrite (rank_leq_row B).
have n0 : 0 < (u *m u^T) 0 0.
  by rewrite lt_neqAle sq_row_ge0 andbT; apply: contra u0 => /eqP/esym/sq_row_eq0 ->.
have s0 : s != 0 by rewrite sqrtr_eq0 -ltNge.
have Qu : Q *m u^T = 0 by rewrite -[Q]trmxK -trmx_mul uQ trmx0.
split.
  rewrite tr_col_mx mul_col_row -!scalemxAl linearZ /= -!scalemxAr uQ Qu QQ !scaler0.
  rewrite scalar_mx_block; congr block_mx; rewrite [u *m _]mx11_scalar !scale_scalar_mx; congr (_%:M).
  by rewrite mulrA -invfM -expr2 sqr_sqrtr ?ltW // mulVf // gt_eqF.
apply/eqmxP; rewrite [in X in (_ == X)%MS]AE; apply/andP; split; rewrite col_mx_sub; apply/andP; split.
- apply: scalemx_sub; rewrite addmx_sub //; first by rewrite -addsmxE addsmxSl.
  by rewrite eqmx_opp; apply: (submx_trans (submxMl _ _)); rewrite QB -addsmxE addsmxSr.
- by rewrite QB -addsmxE addsmxSr.
- have -> : a = s *: (s^-1 *: u) + a *m Q^T *m Q by rewrite scalerA divff // scale1r subrK.
  rewrite -addsmxE addmx_sub //; first by apply: scalemx_sub; exact: addsmxSl.
  by apply: (submx_trans (submxMl _ _)); exact: addsmxSr.
- by rewrite -QB -addsmxE addsmxSr.
Qed.

Definition gs_qr (r : nat) (W : 'M[R]_(N, r)) : 'M[R]_(N, r) := (gsrows W^T)^T.

Lemma gs_qr_contract : qr_contract gs_qr.
Proof.
move=> r W fW; have [h1 h2] := gsrowsP fW.
by rewrite /gs_qr trmxK; split=> //; apply/eqmxP.
Qed.
End QR.
