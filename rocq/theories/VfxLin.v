(** * VfxLin: minors of weighted submatrices and the law of phase 4 of the intermediate samplers. *)
From Coq Require Import Reals String.
From mathcomp Require Import all_ssreflect all_algebra.
From Verif Require Import Prob Minor ChainCons ExactModel ProjKuTa P_Proj Spectral P_Spectral P_Mcmc SpecLemmas McmcModel Mcmc Finite Rstruct PProg DetExp VfxModel.
Set Implicit Arguments. Unset Strict Implicit. Unset Printing Implicit Defensive.
Import Order.Theory GRing.Theory Num.Theory.
Local Open Scope ring_scope.

Section Sub.
Variable F : rcfType.

Lemma pm_nth m N (K : 'M[F]_N) (zs : seq 'I_N) (x0 : 'I_N) : size zs = m ->
  pm K zs = \det (\matrix_(i < m, j < m) K (nth x0 zs i) (nth x0 zs j)).
Proof. by move=> <-; congr (\det _); apply/matrixP => i j; rewrite !mxE !(tnth_nth x0). Qed.

Lemma pm_sub N M (f : 'I_M -> 'I_N) (K : 'M[F]_N) (ys : seq 'I_M) : pm (\matrix_(i, j) K (f i) (f j)) ys = pm K (map f ys).
Proof.
case: ys => [|y ys]; first by rewrite !pm_nil.
rewrite (@pm_nth (size (y :: ys)) N K _ (f y)) ?size_map // (pm_nth _ y (erefl (size (y :: ys)))).
by congr (\det _); apply/matrixP => i j; rewrite !mxE !(nth_map y).
Qed.

Lemma pm_scale N (w : 'I_N -> F) (K : 'M[F]_N) ys : pm (\matrix_(i, j) (w i * K i j * w j)) ys = (\prod_(y <- ys) w y ^+ 2) * pm K ys.
Proof.
pose dw : 'rV[F]_(size ys) := \row_i w (tnth (in_tuple ys) i).
rewrite /pm (_ : mxsub _ _ _ = diag_mx dw *m mxsub (tnth (in_tuple ys)) (tnth (in_tuple ys)) K *m diag_mx dw).
  rewrite !det_mulmx det_diag mulrAC; congr (_ * _).
    by rewrite -big_split /= [RHS]big_tnth; apply: eq_bigr => i _; rewrite mxE expr2.
by apply/matrixP => i j; rewrite mul_diag_mx mul_mx_diag !mxE.
Qed.

Lemma pmS_sub N (u : seq 'I_N) (K : 'M[F]_N) (A : {set 'I_N}) : uniq u -> A \subset items u ->
  pmS (\matrix_(i, j) K (tnth (in_tuple u) i) (tnth (in_tuple u) j)) [set j | tnth (in_tuple u) j \in A] = pmS K A.
Proof.
move=> uu Au; rewrite /pmS pm_sub; apply: pm_perm; apply: uniq_perm.
- by rewrite map_inj_uniq ?enum_uniq //; apply/tuple_uniqP.
- exact: enum_uniq.
move=> x; rewrite mem_enum; apply/mapP/idP => [[j]|xA]; first by rewrite mem_enum inE => h ->.
have xu : x \in u by have := subsetP Au x xA; rewrite inE.
have /tnthP[j xE] : x \in in_tuple u by [].
by exists j => //; rewrite mem_enum inE -xE.
Qed.
End Sub.

Lemma E_Ret (A : Type) (a : A) (f : A -> R) : E (Ret (R := RR) a) f = f a. Proof. by []. Qed.

Section Phase4.
Variables (n : nat) (L : 'M[R]_n).
Variable eigh : forall m : nat, 'M[R]_m -> seq R * seq 'cV[R]_m.
Variable qr : forall N r : nat, 'M[R]_(N, r) -> 'M[R]_(N, r).
Hypothesis eighP : @eigh_contract RR eigh.
Hypothesis qrP : forall N, @qr_contract RR N (@qr N).
Notation item := 'I_n.

Lemma tnth_inj (u : seq item) : uniq u -> injective (tnth (in_tuple u)).
Proof.
by move=> uu; apply/tuple_uniqP.
Qed.

Lemma phase4_law (u : seq item) (Lt : 'M[R]_(size u)) (A : {set item}) : uniq u -> @is_psd RR _ Lt ->
  Pr (phase4 eigh qr Lt) (fun X => items X == A) =
  if A \subset items u then pmS (R := RR) Lt [set j | tnth (in_tuple u) j \in A] / \det (1%:M + Lt) else 0.
Proof.
move=> uu [sL qL]; have := eighP sL; rewrite /phase4; case: (eigh Lt) => ev U /= [_ sd].
have e0 : all (fun g : RR => 0 <= g) ev by exact: sd_psd sd _.
rewrite /Pr E_bind; under eq_E do rewrite E_Ret; case: ifP => Au; last first.
  rewrite -[RHS](E_zero (dpp_sampler_eig_L (qr (N := size u)) ev U "GS")); apply: eq_E => X /=.
  rewrite (_ : _ == _ = false) //; apply: contraFF Au => /eqP <-.
  by apply/subsetP => x; rewrite !inE => /mapP[j _ ->]; exact: mem_tnth.
rewrite -(C08_L_ensemble_law (@qrP (size u)) sd e0 (or_introl erefl)); apply: eq_E => X; congr (_%:R); congr nat_of_bool.
apply/eqP/eqP => [<-|/setP h].
  by apply/setP => j; rewrite !inE mem_map //; exact: tnth_inj.
apply/setP => x; rewrite inE; apply/mapP/idP => [[j jX ->]|xA]; first by have := h j; rewrite !inE jX => /esym.
have /tnthP[j xE] : x \in in_tuple u by have := subsetP Au x xA; rewrite inE.
by exists j => //; have := h j; rewrite !inE -xE xA.
Qed.

Lemma phase4_total (u : seq item) (Lt : 'M[R]_(size u)) : @is_psd RR _ Lt -> total (phase4 eigh qr Lt).
Proof.
move=> [sL qL]; have := eighP sL; rewrite /phase4; case: (eigh Lt) => ev U /= [_ sd].
have e0 : all (fun g : RR => 0 <= g) ev by exact: sd_psd sd _.
by rewrite /total E_bind; have [t _] := C08_never_fails (@qrP (size u)) sd (or_introl erefl).
Qed.

Lemma phase4_uniq (u : seq item) (Lt : 'M[R]_(size u)) : uniq u -> @is_psd RR _ Lt ->
  Pr (phase4 eigh qr Lt) (fun X => ~~ (uniq X && all (mem u) X)) = 0.
Proof.
move=> uu [sL qL]; have := eighP sL; rewrite /phase4; case: (eigh Lt) => ev U /= [_ [sz o _]].
rewrite /Pr E_bind; under eq_E do rewrite E_Ret; rewrite -[RHS](E_zero (dpp_sampler_eig_L (qr (N := size u)) ev U "GS")).
apply: eq_E_possible => X pX; rewrite (_ : _ && _ = true) //; apply/andP; split.
  rewrite map_inj_uniq; last exact: tnth_inj.
  by apply: spectral_uniq pX => //; left.
by apply/allP => x /mapP[j _ ->]; exact: mem_tnth.
Qed.
End Phase4.
