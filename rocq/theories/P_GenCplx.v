(** * P_GenCplx: C83, dpp_sampler_generic_kernel on complex kernels.

    [pmS K T]: the (complex) principal minor det K_T; [x%:C%C]: the real number x seen as a complex number.
    [cdpp_law K p]: p is the law of a random set of items with correlation kernel K (P(T included in X) = det K_T for all T).
    [hkernel K]: K is Hermitian and 0 <= v* K v <= v* v for every complex vector v (spectrum in [0, 1]). *)
From mathcomp Require Import all_ssreflect all_algebra.
From mathcomp.real_closed Require Import complex.
From mathcomp.algebra_tactics Require Import ring.
From Verif Require Import Prob MinorF ExactModel ChainCons GenKernel ProjGS ProjAll ProjCplx P_ProjC GenCplx HermGen.
Set Implicit Arguments. Unset Strict Implicit. Unset Printing Implicit Defensive.
Import Order.Theory GRing.Theory Num.Theory.
Local Open Scope ring_scope.
Local Arguments conjc : simpl never.

Section Law.
Variables (R : rcfType) (N : nat).
Notation C := (complex R).

Definition cdpp_law (K : 'M[C]_N) (p : {set 'I_N} -> R) : Prop :=
  (forall S, 0 <= p S) /\ forall T : {set 'I_N}, (\sum_(S : {set 'I_N} | T \subset S) p S)%:C%C = pmS K T.

Definition hkernel (K : 'M[C]_N) : Prop := (forall i j, K j i = conjc (K i j)) /\
  forall v : 'I_N -> C, 0 <= \sum_i \sum_k conjc (v i) * K i k * v k <= \sum_i conjc (v i) * v i.

Definition cdet_law (K : 'M[C]_N) (S : {set 'I_N}) : C :=
  (-1) ^+ #|~: S| * \det (K - \matrix_(i, j) ((i == j) && (i \notin S))%:R).

Lemma cqv_det K S : qv (enum 'I_N) K S = cdet_law K S.
Proof.
rewrite /qv /cdet_law /sg; congr (_ ^+ _ * _).
  by rewrite -size_filter cardE; congr size; rewrite [enum 'I_N]enumT; apply: eq_filter => i; rewrite [RHS]in_setC.
by rewrite /pm -[RHS](det_mxsub_enum (minusI K S)).
Qed.

Lemma cdet_law_incl K (T : {set 'I_N}) : \sum_(S : {set 'I_N} | T \subset S) cdet_law K S = pmS K T.
Proof.
have u : uniq (enum (~: T) ++ enum T).
  by rewrite cat_uniq !enum_uniq andbT; apply/hasPn => i; rewrite mem_enum /= mem_enum in_setC negbK.
have full i : i \in enum (~: T) ++ enum T by rewrite mem_cat !mem_enum in_setC orNb.
rewrite /pmS -(qv_incl K u); apply: eq_big => [S|S _].
  have -> : [set i in enum T] = T by apply/setP => i; rewrite inE mem_enum.
  have -> : [set i in enum (~: T) ++ enum T] = setT by apply/setP => i; rewrite in_set full in_setT.
  by rewrite subsetT andbT.
rewrite -cqv_det; apply: qv_perm; apply: uniq_perm => //; first exact: enum_uniq.
by move=> i; rewrite full mem_enum.
Qed.

Theorem C83_law_is_det K p : cdpp_law K p -> forall S, (p S)%:C%C = cdet_law K S.
Proof.
move=> [_ inc]; apply: (incl_inj (p := fun S => (p S)%:C%C)) => T.
by rewrite cdet_law_incl -inc raddf_sum.
Qed.

(** a DPP with kernel K exists exactly when these numbers are real and nonnegative *)
Theorem C83_exists K : (exists p, cdpp_law K p) <-> (forall S, 0 <= cdet_law K S).
Proof.
split=> [[p P] S|h]; first by rewrite -(C83_law_is_det P) lecR P.1.
have e S : cdet_law K S = (complex.Re (cdet_law K S))%:C%C by rewrite RRe_real // ger0_real.
exists (fun S => complex.Re (cdet_law K S)); split=> [S|T]; first by rewrite -lecR -e.
by rewrite raddf_sum -cdet_law_incl; apply: eq_bigr => S _; rewrite [RHS]e.
Qed.

(** Hermitian kernels with spectrum in [0, 1] *)
Theorem C83_hermitian K : hkernel K -> exists p, cdpp_law K p.
Proof.
move=> [sK h]; apply/C83_exists => S; rewrite -cqv_det.
have cn (b : bool) : conjc (b%:R : C) = b%:R by case: b; rewrite ?conjc1 ?conjc0.
apply: hcontr_valid (enum_uniq _) _ S; split.
  by split=> [i k _ _|v _]; [exact: sK | have /andP[] := h v].
split=> [i k _ _|v _]; first by rewrite !mxE rmorphB /= cn -sK eq_sym.
have /andP[_] := h v; rewrite -subr_ge0; congr (0 <= _).
rewrite /hf -sumrB; apply: eq_bigr => i _.
transitivity (\sum_k ((i == k)%:R * (conjc (v i) * v k) - conjc (v i) * K i k * v k)).
  rewrite sumrB; congr (_ - _); rewrite (bigD1 i) //= eqxx mul1r big1 ?addr0 // => k ki.
  by rewrite eq_sym (negPf ki) mul0r.
apply: eq_bigr => k _; rewrite !mxE mulrBr mulrBl; congr (_ - _).
by rewrite mulrA [_ * conjc _]mulrC.
Qed.

Variables (K : 'M[C]_N) (p : {set 'I_N} -> R).
Hypothesis P : cdpp_law K p.

Lemma claw_valid : valid (enum 'I_N) K.
Proof. by move=> S; rewrite cqv_det -(C83_law_is_det P) lecR P.1. Qed.

Theorem C83_point_law (S : {set 'I_N}) : Pr (cdpp_sampler_generic_kernel K) (fun X => items X == S) = p S.
Proof.
transitivity (Pr (cdpp_sampler_generic_kernel K) (fun X => X == enum S)); last first.
  have e : enum S = [seq i <- enum 'I_N | i \in S] by rewrite enumT.
  apply: (@complexI R); rewrite /Pr e -[real_complex _ (E _ _)]/((E _ _)%:C%C) (vgen_point S (srt_enum N) claw_valid).
  by rewrite cqv_det -(C83_law_is_det P).
apply: eq_E_possible => X pX.
have sX : subseq X (enum 'I_N) by exact: gen_sorted pX.
congr (_%:R); apply: congr1; apply/eqP/eqP => [<-|->]; last by apply/setP => i; rewrite inE mem_enum.
have -> : enum (items X) = [seq i <- enum 'I_N | i \in X].
  by rewrite enumT; apply: eq_filter => i; rewrite /= inE.
exact: (subseq_uniqP (enum_uniq _) sX).
Qed.

Theorem C83_marginals (T : {set 'I_N}) :
  (Pr (cdpp_sampler_generic_kernel K) (fun X => T \subset items X))%:C%C = pmS K T.
Proof.
rewrite -P.2 -(eq_bigr _ (fun S _ => C83_point_law S)) /Pr -E_sum; congr (_%:C%C); apply: eq_E => X.
rewrite (big_mkcond (fun S : {set 'I_N} => T \subset S)) (bigD1 (items X)) //= eqxx big1 ?addr0.
  by case: (T \subset items X).
by move=> S; rewrite eq_sym => /negbTE ->; case: ifP.
Qed.

Theorem C83_never_fails :
  total (cdpp_sampler_generic_kernel K) /\ forall e, ~ possible (cdpp_sampler_generic_kernel K) (inr e).
Proof.
have t : total (cdpp_sampler_generic_kernel K).
  by apply: (@complexI R); exact: (vgen_total (srt_enum N) claw_valid).
by split=> // e; exact: total_no_raise.
Qed.

Theorem C83_increasing_items X : possible (cdpp_sampler_generic_kernel K) (inl X) -> sorted ltn [seq val i | i <- X].
Proof.
move=> pX; have sX : subseq X (enum 'I_N) by exact: gen_sorted pX.
apply: (subseq_sorted ltn_trans (map_subseq val sX)).
by rewrite val_enum_ord iota_ltn_sorted.
Qed.
End Law.

(** Hermitian projections (C79) are Hermitian kernels: on these the generic sampler and the Cholesky sampler have the same law *)
Section Proj.
Variables (R : rcfType) (N : nat) (K : 'M[complex R]_N).

Lemma hproj_form (L : 'M[complex R]_N) (v : 'I_N -> complex R) : hproj L -> 0 <= \sum_i \sum_k conjc (v i) * L i k * v k.
Proof.
move=> P.
have -> : \sum_i \sum_k conjc (v i) * L i k * v k = \sum_l (\sum_k L l k * v k) * conjc (\sum_k L l k * v k).
  transitivity (\sum_i \sum_k \sum_l (conjc (v i) * L i l) * (L l k * v k)).
    apply: eq_bigr => i _; apply: eq_bigr => k _; rewrite -(hproj_mul i k P) mulr_sumr mulr_suml.
    by apply: eq_bigr => l _; rewrite !mulrA.
  under eq_bigr do rewrite exchange_big /=.
  rewrite exchange_big /=; apply: eq_bigr => l _.
  rewrite rmorph_sum mulrC mulr_suml; apply: eq_bigr => i _.
  by rewrite mulr_sumr; apply: eq_bigr => k _; rewrite rmorphM /= -P.1 [conjc _ * _]mulrC.
by apply: sumr_ge0 => l _; rewrite mulc_conj sqc_ge0.
Qed.

Theorem C83_projection : hproj K -> hkernel K.
Proof.
move=> P; split=> [|v]; first exact: P.1.
rewrite hproj_form //=.
have P' : hproj (1%:M - K).
  split=> [i j|]; last by rewrite mulmxBl mul1mx mulmxBr mulmx1 P.2 subrr subr0.
  by rewrite !mxE rmorphB /= -P.1 eq_sym; case: (i == j); rewrite ?conjc1 ?conjc0.
rewrite -subr_ge0; have := hproj_form v P'; congr (0 <= _).
rewrite -sumrB; apply: eq_bigr => i _.
transitivity (\sum_k ((i == k)%:R * (conjc (v i) * v k) - conjc (v i) * K i k * v k)).
  by apply: eq_bigr => k _; rewrite !mxE mulrBr mulrBl; congr (_ - _); rewrite mulrA [_ * conjc _]mulrC.
rewrite sumrB; congr (_ - _); rewrite (bigD1 i) //= eqxx mul1r big1 ?addr0 // => k ki.
by rewrite eq_sym (negPf ki) mul0r.
Qed.
Theorem C83_agrees_with_Chol (S : {set 'I_N}) : hproj K ->
  Pr (cdpp_sampler_generic_kernel K) (fun X => items X == S) =
  Pr (cproj_dpp_sampler_kernel_Chol K None) (fun X => set_of N X == S).
Proof.
move=> P; apply: (C83_point_law (p := fun S => Pr (cproj_dpp_sampler_kernel_Chol K None) (fun X => set_of N X == S))).
split=> [S'|T]; first by apply: E_ge0 => X; rewrite ler0n.
rewrite -(C79_Chol_complex_marginals P) /Pr -E_sum; congr (_%:C%C); apply: eq_E => X.
rewrite (big_mkcond (fun S : {set 'I_N} => T \subset S)) (bigD1 (set_of N X)) //= eqxx big1 ?addr0.
  by case: (T \subset set_of N X).
by move=> S'; rewrite eq_sym => /negbTE ->; case: ifP.
Qed.
End Proj.

(** the hypotheses are met by a kernel which is not real: the rank 2 projection of C80 *)
Example C83_instance (R : rcfType) : hkernel (KC R) /\ exists i j, complex.Im (KC R i j) != 0.
Proof.
have [P _ _ _ _] := C80_GS_complex_refuted R; split; first exact: C83_projection.
exists ord0, (lift ord0 ord0).
have -> : KC R ord0 (lift ord0 ord0) = - conjc ('i%C) * (3%:R^-1)%:C%C.
  rewrite mxE /vC [_ == _]/= sub0r [_ == _]/= [(_ == 1)%N]/= mul1r mulNr.
  have -> : (3%:R^-1)%:C%C = 3%:R^-1 :> complex R by rewrite fmorphV rmorph_nat.
  by [].
rewrite /conjc /= opprK mulr0 add0r mul1r invr_eq0 pnatr_eq0 //.
Qed.

Print Assumptions C83_law_is_det.
Print Assumptions C83_exists.
Print Assumptions C83_hermitian.
Print Assumptions C83_point_law.
Print Assumptions C83_marginals.
Print Assumptions C83_never_fails.
Print Assumptions C83_increasing_items.
Print Assumptions C83_projection.
Print Assumptions C83_agrees_with_Chol.
Print Assumptions C83_instance.
