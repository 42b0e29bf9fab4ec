(** * P_Factors: C82, the arrays returned together with the samples.

    dpp_sampler_generic_kernel and proj_dpp_sampler_kernel_Chol return a pair: the sample and the array in which the
    factorization was computed.  [unit_lower A] has ones on the diagonal and the strictly lower part of A, [upper A] the upper
    part of A with the diagonal; [lower n A] is the lower triangular part, with the diagonal, of the n x n corner of A. *)
From Coq Require Import String.
From mathcomp Require Import all_ssreflect all_algebra all_fingroup.
From mathcomp.real_closed Require Import complex.
From Verif Require Import Prob Minor MinorF Chain ExactModel ChainCons ProjGS ProjAll ProjCplx P_Proj P_ProjC GenKernel GenNonsym P_Gen P_GenNonsym Factors.
Set Implicit Arguments. Unset Strict Implicit. Unset Printing Implicit Defensive.
Import Order.Theory GRing.Theory Num.Theory.
Local Open Scope ring_scope.
Local Arguments conjc : simpl never.

Section LU.
Variables (R : rcfType) (N : nat).
Implicit Types K A : 'M[R]_N.

(** the first component of the pair has the law of the sampler of C06 and C81 *)
Theorem C82_generic_same_sample K (f : seq 'I_N -> R) :
  E (dpp_sampler_generic_kernel_full K) (fun r => f r.1) = E (dpp_sampler_generic_kernel K) f.
Proof. exact: loopA_fst. Qed.

(** "the in-place LU factorization of K - I_{X^c}": for every matrix K, whatever the draws *)
Theorem C82_generic_LU K X A : possible (dpp_sampler_generic_kernel_full K) (inl (X, A)) ->
  unit_lower A *m upper A = K - \matrix_(i, j) ((i == j) && (i \notin X))%:R.
Proof. exact: generic_LU. Qed.

Lemma det_LU A : \det (unit_lower A *m upper A) = \prod_i A i i.
Proof.
rewrite det_mulmx det_trig; last first.
  by apply/is_trig_mxP => i j ij; rewrite mxE -val_eqE (ltn_eqF ij) ltnNge ltnW.
rewrite big1 => [|i _]; last by rewrite mxE eqxx.
rewrite mul1r -det_tr det_trig => [|].
  by apply: eq_bigr => i _; rewrite !mxE leqnn.
by apply/is_trig_mxP => i j ij; rewrite !mxE leqNgt ij.
Qed.

(** the log-likelihood of the sample is the sum of the logs of the absolute pivots: P(X) = prod |A_ii| *)
Theorem C82_generic_probability K p X A : dpp_law K p -> possible (dpp_sampler_generic_kernel_full K) (inl (X, A)) ->
  p (items X) = \prod_i `|A i i|.
Proof.
move=> P pX; have p0 := P.1 (items X).
rewrite -[LHS]ger0_norm // (C81_law_is_det P) /det_law normrM normrX normrN1 expr1n mul1r -normr_prod -det_LU (C82_generic_LU pX).
congr `|\det (_ - _)|; apply/matrixP => i j; by rewrite !mxE inE.
Qed.

(** for a kernel which has a DPP, the pair is always returned *)
Theorem C82_generic_never_fails K p : dpp_law K p -> total (dpp_sampler_generic_kernel_full K) /\
  forall e, ~ possible (dpp_sampler_generic_kernel_full K) (inr e).
Proof.
move=> P; have t : total (dpp_sampler_generic_kernel_full K).
  by rewrite /total (C82_generic_same_sample K (fun _ => 1)); exact: (C81_never_fails P).1.
by split=> // e; exact: total_no_raise.
Qed.
End LU.

Section Chol.
Variables (R : rcfType) (N : nat).

(** real kernels *)
Theorem C82_Chol_same_sample (K : 'M[R]_N) size (f : seq nat -> R) :
  E (proj_dpp_sampler_kernel_Chol_full K size) (fun r => f r.1) = E (proj_dpp_sampler_kernel_Chol K size) f.
Proof. exact: kCholA_fst. Qed.

(** "in-place Cholesky factorization of K_X": rows and columns of K in the order in which the items were drawn *)
Theorem C82_Chol_factor (K : 'M[R]_N) size X A : isproj K -> size_ok size (\rank K) ->
  possible (proj_dpp_sampler_kernel_Chol_full K size) (inl (X, A)) ->
  exists ys : seq 'I_N, [/\ X = [seq val y | y <- ys], seq.size ys = (if size is Some k then k else \rank K) &
    lowerR (seq.size ys) A *m (lowerR (seq.size ys) A)^T = mxsub (tnth (in_tuple ys)) (tnth (in_tuple ys)) K].
Proof. exact: Chol_factorR. Qed.

Theorem C82_Chol_probability (K : 'M[R]_N) size X A : isproj K -> size_ok size (\rank K) ->
  possible (proj_dpp_sampler_kernel_Chol_full K size) (inl (X, A)) ->
  Pr (proj_dpp_sampler_kernel K "Chol" size) (fun Y => Y == X) =
  \prod_(i < seq.size X) A i i ^+ 2 / (\rank K ^_ seq.size X)%:R.
Proof.
move=> P sz pX; have [ys [-> sy F]] := C82_Chol_factor P sz pX.
rewrite (C02_Chol_ordered_law P ys sz) size_map -{1}sy eqxx; congr (_ / _).
rewrite /Minor.pm -F det_mulmx det_tr det_trig; last first.
  by apply/is_trig_mxP => i j ij; rewrite mxE leqNgt ij.
by rewrite -big_split; apply: eq_bigr => i _; rewrite mxE leqnn expr2.
Qed.

(** complex Hermitian kernels *)
Theorem C82_Chol_complex_same_sample (K : 'M[complex R]_N) size (f : seq nat -> R) :
  E (cproj_dpp_sampler_kernel_Chol_full K size) (fun r => f r.1) = E (cproj_dpp_sampler_kernel_Chol K size) f.
Proof. exact: cCholA_fst. Qed.

Theorem C82_Chol_complex_factor (K : 'M[complex R]_N) size X A : hproj K -> size_ok size (\rank K) ->
  possible (cproj_dpp_sampler_kernel_Chol_full K size) (inl (X, A)) ->
  exists ys : seq 'I_N, [/\ X = [seq val y | y <- ys], seq.size ys = (if size is Some k then k else \rank K) &
    lower (seq.size ys) A *m (map_mx (@conjc R) (lower (seq.size ys) A))^T = mxsub (tnth (in_tuple ys)) (tnth (in_tuple ys)) K].
Proof. exact: Chol_factor. Qed.
End Chol.

(** the hypotheses are met: a nonsymmetric kernel with a DPP, and the rank 2 projection of C01 *)
Example C82_generic_instance (R : rcfType) : exists (K : 'M[R]_2) p X A, [/\ dpp_law K p, K^T <> K,
  possible (dpp_sampler_generic_kernel_full K) (inl (X, A)) & p (items X) = \prod_i `|A i i|].
Proof.
have [K [p [P nK]]] := C81_instance R.
have [[X A] pX] := possible_ex (C82_generic_never_fails P).1.
by exists K, p, X, A; split=> //; exact: C82_generic_probability pX.
Qed.

Example C82_Chol_instance (R : rcfType) : exists X A,
  possible (proj_dpp_sampler_kernel_Chol_full (Kex R) None) (inl (X, A)) /\ seq.size X = 2%N.
Proof.
have t : total (proj_dpp_sampler_kernel_Chol_full (Kex R) None).
  by rewrite /total (C82_Chol_same_sample (Kex R) None (fun _ => 1)); exact: (C02_Chol_never_fails (Kex_proj R) (size := None) isT).1.
have [[X A] pX] := possible_ex t; exists X, A; split=> //.
by have [ys [-> sy _]] := C82_Chol_factor (Kex_proj R) (size := None) isT pX; rewrite size_map sy Kex_rank.
Qed.

Print Assumptions C82_generic_same_sample.
Print Assumptions C82_generic_LU.
Print Assumptions C82_generic_probability.
Print Assumptions C82_generic_never_fails.
Print Assumptions C82_Chol_same_sample.
Print Assumptions C82_Chol_factor.
Print Assumptions C82_Chol_probability.
Print Assumptions C82_Chol_complex_same_sample.
Print Assumptions C82_Chol_complex_factor.
