(** * LEnsemble: the law of a DPP in terms of its likelihood kernel L. *)
From mathcomp Require Import all_ssreflect all_algebra.
From mathcomp.algebra_tactics Require Import ring.
From Verif Require Import Prob Minor Chain ChainCons ExactModel GenKernel Spectral P_Gen.
Set Implicit Arguments. Unset Strict Implicit. Unset Printing Implicit Defensive.
Import Order.Theory GRing.Theory Num.Theory.
Local Open Scope ring_scope.

Section LEns.
Variables (R : rcfType) (N : nat).
Implicit Types (K L : 'M[R]_N).

Lemma kern_dpp_kernel lam (vs : seq 'cV[R]_N) : size lam = size vs ->
  (colmx vs)^T *m colmx vs = 1%:M -> all (fun l => 0 <= l <= 1) lam -> is_dpp_kernel (kern lam vs).
Proof.
move=> sz o l01; split; first exact: kern_sym.
move=> v; rewrite kern_qf //.
have li (i : 'I_(size vs)) : 0 <= nth 0 lam i <= 1 by apply: (allP l01); rewrite mem_nth // sz.
apply/andP; split; first by apply: sumr_ge0 => i _; have /andP[? ?] := li i; rewrite mulr_ge0 // sqr_ge0.
apply: le_trans (parseval v o); apply: ler_sum => i _.
by have /andP[? ?] := li i; rewrite -[X in _ <= X]mul1r ler_wpmul2r // sqr_ge0.
Qed.

Lemma kern_psd gam (vs : seq 'cV[R]_N) js : size gam = size vs -> all (fun g => 0 <= g) gam ->
  psd_on js (kern gam vs).
Proof.
move=> sz g0; split=> [i k _ _|v _]; first by rewrite -{1}(kern_sym gam vs) mxE.
rewrite qfE kern_qf //; apply: sumr_ge0 => i _; rewrite mulr_ge0 ?sqr_ge0 //.
by apply: (allP g0); rewrite mem_nth // sz.
Qed.

(** |det (K - I_{S^c})| = |det L_S| |det (I - K)| when K = L (I - K) *)
Lemma det_minusI K L (S : {set 'I_N}) : L *m (1%:M - K) = K ->
  `|\det (K - \matrix_(i, j) ((i == j) && (i \notin S))%:R)| = `|pmS L S| * `|\det (1%:M - K)|.
Proof.
move=> LK.
pose Q : 'M[R]_N := \matrix_(i, k) (if i \in S then L i k else (i == k)%:R).
pose d : 'rV[R]_N := \row_i (if i \in S then 1 else -1).
have -> : K - \matrix_(i, j) ((i == j) && (i \notin S))%:R = diag_mx d *m Q *m (1%:M - K).
  rewrite -mulmxA mul_diag_mx; apply/matrixP => i k; rewrite [RHS]mxE [X in _ = X * _]mxE.
  rewrite [in LHS]mxE [X in _ + X = _]mxE [X in _ - X = _]mxE.
  have [iS|iS] := boolP (i \in S).
    rewrite andbF subr0 mul1r -{1}LK !mxE; apply: eq_bigr => j _; by rewrite !mxE iS.
  rewrite andbT mulN1r mxE (bigD1 i) //= big1 => [|j ji].
    by rewrite !mxE (negPf iS) eqxx mul1r addr0 opprB.
  by rewrite !mxE (negPf iS) eq_sym (negPf ji) mul0r.
rewrite !det_mulmx !normrM -(@pm_idrows _ _ Q L S) => [|i k]; last by rewrite mxE.
rewrite det_diag normr_prod big1 ?mul1r // => i _; rewrite mxE.
by case: ifP => _; rewrite ?normrN normr1.
Qed.

Lemma kern_inv gam (vs : seq 'cV[R]_N) : size gam = size vs -> all (fun g => 0 <= g) gam ->
  (colmx vs)^T *m colmx vs = 1%:M ->
  let K := kern [seq g / (1 + g) | g <- gam] vs in let L := kern gam vs in
  L *m (1%:M - K) = K /\ (1%:M + L) *m (1%:M - K) = 1%:M.
Proof.
move=> sz g0 o K L.
have sz' : size [seq g / (1 + g) | g <- gam] = size vs by rewrite size_map.
have LK : L *m K = kern [seq g * (g / (1 + g)) | g <- gam] vs.
  rewrite /L /K kern_mul //; congr kern; elim: gam {sz g0 sz' K L} => //= g gam IH; by rewrite IH.
have e : L = K + L *m K.
  rewrite LK /L -[gam in LHS]map_id; apply: kern_lin => g gg.
  have g1 : 1 + g != 0 by rewrite gt_eqF // ltr_paddr ?ltr01 //; exact: (allP g0).
  by fixeq; field.
have e1 : L *m (1%:M - K) = K by rewrite mulmxBr mulmx1 {1}e addrK.
by split=> //; rewrite mulmxDl e1 mul1mx subrK.
Qed.

Lemma det_ge0 gam (vs : seq 'cV[R]_N) (S : {set 'I_N}) : size gam = size vs -> all (fun g => 0 <= g) gam ->
  0 <= pmS (kern gam vs) S.
Proof. by move=> sz g0; apply: psd_minor_ge0; [exact: enum_uniq|exact: kern_psd]. Qed.

Lemma det_IL gam (vs : seq 'cV[R]_N) : size gam = size vs -> all (fun g => 0 <= g) gam ->
  (colmx vs)^T *m colmx vs = 1%:M -> 0 < \det (1%:M + kern gam vs).
Proof.
move=> sz g0 o; have [_ e] := kern_inv sz g0 o.
have nz : \det (1%:M + kern gam vs) != 0.
  apply: contra_eq_neq (congr1 determinant e) => z; by rewrite det_mulmx z mul0r det1 eq_sym oner_eq0.
rewrite lt_neqAle eq_sym nz /= -det_mxsub_enum; apply: psd_minor_ge0; first exact: enum_uniq.
have [sK pK] := @kern_psd gam vs (enum 'I_N) sz g0.
split=> [i k ii kk|v v0]; first by rewrite !mxE eq_sym (sK i k).
rewrite qfE mulmxDr mulmxDl mulmx1 mxE addr_ge0 //; last by rewrite -qfE pK.
by rewrite mxE sumr_ge0 // => i _; rewrite !mxE -expr2 sqr_ge0.
Qed.

Lemma L_point gam (vs : seq 'cV[R]_N) (S : {set 'I_N}) : size gam = size vs -> all (fun g => 0 <= g) gam ->
  (colmx vs)^T *m colmx vs = 1%:M ->
  `|\det (kern [seq g / (1 + g) | g <- gam] vs - \matrix_(i, j) ((i == j) && (i \notin S))%:R)| =
  pmS (kern gam vs) S / \det (1%:M + kern gam vs).
Proof.
move=> sz g0 o; have [e1 e2] := kern_inv sz g0 o.
have p := det_IL sz g0 o.
rewrite (det_minusI S e1) (ger0_norm (det_ge0 S sz g0)); congr (_ * _).
have := congr1 determinant e2; rewrite det_mulmx det1 => e3.
have -> : \det (1%:M - kern [seq g / (1 + g) | g <- gam] vs) = (\det (1%:M + kern gam vs))^-1.
  by apply: (@mulfI _ (\det (1%:M + kern gam vs))); rewrite ?gt_eqF // e3 divff // gt_eqF.
by rewrite ger0_norm // invr_ge0 ltW.
Qed.

Lemma gam01 (gam : seq R) : all (fun g => 0 <= g) gam -> all (fun l => 0 <= l <= 1) [seq g / (1 + g) | g <- gam].
Proof.
move=> /allP g0; apply/allP => x /mapP[g /g0 /= gg ->].
have g1 : 0 < 1 + g by rewrite ltr_paddr ?ltr01.
by rewrite divr_ge0 ?(ltW g1) //= ler_pdivr_mulr // mul1r ler_addr ler01.
Qed.

End LEns.
