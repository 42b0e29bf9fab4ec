(** * P_Spectral: properties C07 (spectral sampler) and C08 (likelihood kernels). *)
From Coq Require Import String.
From mathcomp Require Import all_ssreflect all_algebra.
From mathcomp.algebra_tactics Require Import ring.
From Verif Require Import Prob Minor Chain ChainCons ExactModel ProjGS ProjKuTa ProjAll GenKernel Spectral LEnsemble QRex P_Proj P_Gen.
Set Implicit Arguments. Unset Strict Implicit. Unset Printing Implicit Defensive.
Import Order.Theory GRing.Theory Num.Theory.
Local Open Scope ring_scope.

Section Spec.
Variables (R : rcfType) (N : nat).
(** any QR routine returning an orthonormal basis of the column span (only used by mode KuTa12) *)
Variable qr : forall r : nat, 'M[R]_(N, r) -> 'M[R]_(N, r).
Hypothesis qrP : qr_contract qr.

(** [spectral_decomposition A lam vs]: A = V diag(lam) V^T where the columns vs of V are orthonormal
    (V may have fewer than N columns: the missing eigenvalues are 0). *)
Definition spectral_decomposition (A : 'M[R]_N) (lam : seq R) (vs : seq 'cV[R]_N) : Prop :=
  [/\ size lam = size vs, (colmx vs)^T *m colmx vs = 1%:M &
      A = colmx vs *m diag_mx (\row_(i < size vs) nth 0 lam i) *m (colmx vs)^T].

Section K.
Variables (K : 'M[R]_N) (lam : seq R) (vs : seq 'cV[R]_N) (mode : string).
Hypothesis dec : spectral_decomposition K lam vs.
Hypothesis md : mode = "GS"%string \/ mode = "GS_bis"%string \/ mode = "KuTa12"%string.

Theorem C07_marginals (T : {set 'I_N}) : all (fun l => 0 <= l <= 1) lam ->
  Pr (dpp_sampler_eig qr lam vs mode) (fun X => T \subset items X) = pmS K T.
Proof. by case: dec => sz o -> l01; rewrite -kernE //; exact: spectral_marginal. Qed.

Theorem C07_point_law (S : {set 'I_N}) : all (fun l => 0 <= l <= 1) lam ->
  Pr (dpp_sampler_eig qr lam vs mode) (fun X => items X == S) =
  `|\det (K - \matrix_(i, j) ((i == j) && (i \notin S))%:R)|.
Proof.
case: dec => sz o KE l01; rewrite -(C06_point_law (K := K)).
  by apply: same_marginals => T; rewrite C07_marginals // C06_marginals // KE -kernE //; exact: kern_dpp_kernel.
by rewrite KE -kernE //; exact: kern_dpp_kernel.
Qed.

Theorem C07_never_fails :
  total (dpp_sampler_eig qr lam vs mode) /\ forall e, ~ possible (dpp_sampler_eig qr lam vs mode) (inr e).
Proof.
case: dec => sz o _; have t : total (dpp_sampler_eig qr lam vs mode) by exact: spectral_total.
by split=> // e; exact: total_no_raise.
Qed.

Theorem C07_distinct_items X : possible (dpp_sampler_eig qr lam vs mode) (inl X) -> uniq X.
Proof. by case: dec => sz o _; exact: spectral_uniq. Qed.

(** projection kernels with known spectrum skip phase 1: same law *)
Theorem C07_projection_spectrum (T : {set 'I_N}) : all (fun l => (l == 0) || (l == 1)) lam ->
  Pr (dpp_sampler_eig_proj qr lam vs mode) (fun X => T \subset items X) = pmS K T.
Proof.
case: dec => sz o -> l01; rewrite -kernE // /dpp_sampler_eig_proj.
rewrite (eig_marginal qrP (ortho_sub (mask_subseq _ _) o) md) colmx_gram; congr pmS.
move: {o} sz l01; move: lam vs; elim=> [|l lam' IH] [|v vs'] //= ; first by rewrite big_nil.
have h0 : (2%:R^-1 < 0 :> R) = false by apply/negbTE; rewrite -leNgt invr_ge0 ler0n.
have h1 : (2%:R^-1 < 1 :> R) by rewrite invf_lt1 ?ltr0n // ltr1n.
move=> [sz] /andP[/orP[/eqP ->|/eqP ->] l01]; rewrite ?h0 ?h1 ?scale0r ?add0r ?scale1r; first exact: IH.
by rewrite big_cons IH.
Qed.
End K.

Section L.
Variables (L : 'M[R]_N) (gam : seq R) (vs : seq 'cV[R]_N) (mode : string).
Hypothesis dec : spectral_decomposition L gam vs.
Hypothesis g0 : all (fun g => 0 <= g) gam.
Hypothesis md : mode = "GS"%string \/ mode = "GS_bis"%string \/ mode = "KuTa12"%string.

Theorem C08_L_ensemble_law (S : {set 'I_N}) :
  Pr (dpp_sampler_eig_L qr gam vs mode) (fun X => items X == S) = pmS L S / \det (1%:M + L).
Proof.
case: dec => sz o ->; rewrite -kernE // -L_point //.
rewrite -(@C07_point_law (kern [seq g / (1 + g) | g <- gam] vs) [seq g / (1 + g) | g <- gam] vs mode) //; last exact: gam01.
by split=> //; rewrite ?size_map // kernE // size_map.
Qed.

Theorem C08_normaliser_positive : 0 < \det (1%:M + L) /\ forall S : {set 'I_N}, 0 <= pmS L S.
Proof. by case: dec => sz o ->; rewrite -kernE //; split=> [|S]; [exact: det_IL|exact: det_ge0]. Qed.

Theorem C08_never_fails :
  total (dpp_sampler_eig_L qr gam vs mode) /\ forall e, ~ possible (dpp_sampler_eig_L qr gam vs mode) (inr e).
Proof.
case: dec => sz o _.
have t : total (dpp_sampler_eig_L qr gam vs mode) by apply: spectral_total.
by split=> // e; exact: total_no_raise.
Qed.

(** the same law when K = L (I + L)^-1 is handed to the generic kernel sampler (mode 'Chol') *)
Theorem C08_generic_kernel_law (S : {set 'I_N}) :
  Pr (dpp_sampler_generic_kernel (L *m invmx (1%:M + L))) (fun X => items X == S) = pmS L S / \det (1%:M + L).
Proof.
case: dec => sz o ->; rewrite -kernE //.
have [e1 e2] := kern_inv sz g0 o.
have u : (1%:M + kern gam vs) \in unitmx by rewrite unitmxE unitfE gt_eqF // det_IL.
have -> : kern gam vs *m invmx (1%:M + kern gam vs) = kern [seq g / (1 + g) | g <- gam] vs.
  have -> : invmx (1%:M + kern gam vs) = 1%:M - kern [seq g / (1 + g) | g <- gam] vs.
    by rewrite -[LHS]mulmx1 -[X in _ *m X = _]e2 mulKmx.
  exact: e1.
rewrite C06_point_law ?L_point //; apply: kern_dpp_kernel; rewrite ?size_map //; exact: gam01.
Qed.
End L.
End Spec.

(** Non-vacuity: the kernel I/2 + (3/2) e_0 e_0^T etc.: spectrum (1/3, 1) on the orthonormal frame Vex *)
Section Example.
Variable R : rcfType.
Definition vex : seq 'cV[R]_3 := [:: col 0 (Vex R); col 1 (Vex R)].
Definition lex : seq R := [:: 3%:R^-1; 1].
Lemma vex_ortho : (colmx vex)^T *m colmx vex = 1%:M.
Proof.
have dE (i j : 'I_2) : dot (col i (Vex R)) (col j (Vex R)) = (i == j)%:R.
  have := congr1 (fun M : 'M_2 => M i j) (Vex_ortho R); rewrite !mxE => <-.
  by rewrite /dot mxE; apply: eq_bigr => k _; rewrite !mxE.
by apply/ortho_list; rewrite /vex /= !dE !eqxx.
Qed.
Example C07_instance : exists K, spectral_decomposition K lex vex /\ all (fun l : R => 0 <= l <= 1) lex.
Proof.
exists (colmx vex *m diag_mx (\row_(i < size vex) nth 0 lex i) *m (colmx vex)^T); split; first by split=> //; exact: vex_ortho.
by rewrite /= invr_ge0 ler0n invf_le1 ?ltr0n // ler1n ler01 lexx.
Qed.
End Example.

Print Assumptions C07_marginals.
Print Assumptions C08_L_ensemble_law.
Print Assumptions C08_generic_kernel_law.
