(** * P_Vfx: DPP-VFX (intermediate_sampling.py, exact_sampling.py l.735-776, l.960-1026). *)
From Coq Require Import Reals String Lra FunctionalExtensionality.
From Coquelicot Require Import Series.
From mathcomp Require Import all_ssreflect all_algebra zify.
From mathcomp.algebra_tactics Require Import ring.
From Verif Require Import Prob Minor ChainCons ExactModel ProjKuTa P_Proj Spectral P_Spectral P_Mcmc SpecLemmas McmcModel Mcmc Finite Rstruct PProg DetExp VfxModel VfxLin EighEx QRex VfxCore VfxLaw VfxPre ExpBounds.
Set Implicit Arguments. Unset Strict Implicit. Unset Printing Implicit Defensive.
Import Order.Theory GRing.Theory Num.Theory.
Local Open Scope ring_scope.

Section Vfx.
Variables (n : nat) (L : 'M[R]_n).
Variable eigh : forall m : nat, 'M[R]_m -> seq R * seq 'cV[R]_m.
Variable qr : forall N r : nat, 'M[R]_(N, r) -> 'M[R]_(N, r).
Hypothesis eighP : @eigh_contract RR eigh.
Hypothesis qrP : forall N, @qr_contract RR N (@qr N).
Variable eps : R.
Hypothesis eps0 : 0 <= eps.
Hypothesis pL : @is_psd RR n L.
Variable brentq : (R -> R) -> option R.
Hypothesis brentqP : forall f a, brentq f = Some a -> 0 < a <= 1.
Variable q_func : R -> R.
Hypothesis q_funcP : forall s, 0 < s -> 0 < q_func s.

(** the preprocessing ended without an exception, for some dictionary D; no eigenvalue of I + A is below the rounding threshold *)
Variables (D : seq 'I_n) (desired : option R) (I : @vinfo n).
Hypothesis wc : (1 + \tr L) * (size D)%:R * eps < 1.
Hypothesis pre : vfx_precompute L eigh eps D desired brentq q_func = inl I.

Let PRE := vfx_pre_cert eighP eps0 pL brentqP wc pre.
Let a0 : 0 < v_alpha I. Proof. by case: PRE => /andP[]. Qed.
Let cert : certified L (v_alpha I) (v_rls I) (v_z I) (v_logdet I). Proof. by case: PRE. Qed.
Let sE : v_s I = \sum_j v_rls I j. Proof. by case: PRE. Qed.
Let s0 : 0 < v_s I. Proof. by case: PRE. Qed.
Let q0 : 0 < v_q I. Proof. by case: PRE => _ _ _ h ->; exact: q_funcP. Qed.

(** the actual mean number of points divided by the intended one, q exp(s/q) *)
Definition intensity_ratio : R := ceil (v_q I * exp (v_s I / v_q I)) / (v_q I * exp (v_s I / v_q I)).

Lemma kappaE : intensity_ratio = vkappa I.
Proof.
rewrite /intensity_ratio /vkappa /vlam /vx invfM mulrA mulrAC; congr (_ * _); congr (_ * _).
apply: (mulfI (x := exp (v_s I / v_q I))); first by rewrite gt_eqF // exp_gt0.
by rewrite divff ?gt_eqF ?exp_gt0 // mulrC expN.
Qed.

Theorem C72_vfx_law_partial : let kL := (intensity_ratio * v_alpha I) *: L in
  exists2 rho, 0 <= rho < 1 & forall M (A : {set 'I_n}),
  [/\ PPr (vfx_do_sampling_loop L eigh qr I M) (fun o => items o.1 == A) = (1 - rho ^+ M) * (pmS (R := RR) kL A / \det (1%:M + kL)),
      PE (vfx_do_sampling_loop L eigh qr I M) (fun _ => 1) = 1 - rho ^+ M,
      PPr (vfx_do_sampling_loop L eigh qr I M) (fun o => uniq o.1) = 1 - rho ^+ M &
      forall j, PPr (vfx_do_sampling_loop L eigh qr I M) (fun o => (items o.1 == A) && (o.2 == j)) =
        if (j < M)%N then rho ^+ j * (1 - rho) * (pmS (R := RR) kL A / \det (1%:M + kL)) else 0].
Proof.
rewrite kappaE /=; exists (vrho L eigh qr I).
  by rewrite (vrho_ge0 L eigh qr I) /= (vrho_lt1 eighP qrP a0 cert sE s0 q0).
move=> M A; split.
- exact: loop_set.
- exact: loop_fail.
- rewrite -(loop_fail eighP qrP a0 cert sE s0 q0 M); apply: eq_loop => // [a|a|X j ->] //; rewrite ?lexx ?ler01 //.
  exact: b01.
- move=> j; rewrite (loop_rej eighP qrP a0 cert sE s0 q0); case: ifP => // _; rewrite -[RHS]mulrA; congr (_ * _).
  have D0 := psd_det1 (kL_psd a0 cert q0).
  have -> : 1 - vrho L eigh qr I = vC I * \det (1%:M + (vkappa I * v_alpha I) *: L).
    by rewrite (vrhoE eighP qrP a0 cert sE s0 q0); ring.
  rewrite pmS_scale.
  have D1 : \det (1%:M + (vkappa I * v_alpha I) *: L) != 0 by rewrite gt_eqF.
  by move: (\det _) (_ ^+ _) (pmS _ _) (vC I) D1 => d x y z D1; field.
Qed.

(** the law would be the advertised one, DPP(alpha L), if the mean number of points were not rounded to an integer *)
Theorem C72_vfx_intensity : 1 <= intensity_ratio < 1 + (v_q I * exp (v_s I / v_q I))^-1.
Proof.
have l0 : 0 < v_q I * exp (v_s I / v_q I) by rewrite mulr_gt0 ?exp_gt0.
rewrite kappaE (vkappa_ge1 q0) /= -kappaE /intensity_ratio ltr_pdivr_mulr // mulrDl mul1r mulVf ?gt_eqF //; exact: ceil_lt.
Qed.

Theorem C72_vfx_law_exact (m : nat) : v_q I * exp (v_s I / v_q I) = m%:R -> intensity_ratio = 1.
Proof.
move=> mE; have l0 : 0 < v_q I * exp (v_s I / v_q I) by rewrite mulr_gt0 ?exp_gt0.
suff h : ceil (v_q I * exp (v_s I / v_q I)) = v_q I * exp (v_s I / v_q I) by rewrite /intensity_ratio h divff ?gt_eqF.
have h1 := ceil_ge (v_q I * exp (v_s I / v_q I)); have h2 := ceil_lt (v_q I * exp (v_s I / v_q I)).
move: h1 h2; rewrite {}mE /ceil; set z := Int_part _ => h1 h2.
rewrite -[LHS]/(Ropp (IZR z)) -INRE INR_IZR_INZ -opp_IZR; congr IZR.
move/RleP: h1; move/RltP: h2; rewrite -[- IZR z]/(Ropp (IZR z)) -INRE INR_IZR_INZ -opp_IZR -RplusE -plus_IZR => h2 h1.
by have := lt_IZR _ _ h2; have := le_IZR _ _ h1; lia.
Qed.

(** ** k-DPP by rejection on the size: exact *)
Lemma k_vfx M k rounds : let run := k_vfx_loop L eigh qr I k M rounds in exists c,
  [/\ (0 < M)%N -> (0 < rounds)%N -> 0 < c,
    forall B, PPr run (fun X => items X == B) = if #|B| == k then c * pmS (R := RR) L B else 0 &
    PE run (fun _ => 1) = c * \sum_(B : {set 'I_n} | #|B| == k) pmS (R := RR) L B].
Proof.
move=> run; pose c := (\sum_(j < rounds) vbeta L eigh qr I M k ^+ j) * (1 - vrho L eigh qr I ^+ M) * (vkappa I * v_alpha I) ^+ k /
   \det (1%:M + (vkappa I * v_alpha I) *: L).
have e B : PPr run (fun X => items X == B) = if #|B| == k then c * pmS (R := RR) L B else 0.
  rewrite (k_loop_law eighP qrP a0 cert sE s0 q0); case: eqP => // Bk; rewrite pmS_scale Bk /c.
  by move: (\sum_(j < _) _) (1 - vrho _ _ _ _ ^+ _) ((vkappa I * _) ^+ k) (pmS _ _) (\det _)^-1 => x1 x2 x3 x4 x5; ring.
have t : PE run (fun _ => 1) = c * \sum_(B : {set 'I_n} | #|B| == k) pmS (R := RR) L B.
  rewrite (@eq_PE _ _ _ (fun X => \sum_(B : {set 'I_n}) (items X == B)%:R)).
    rewrite PE_sum; last by move=> B X; exact: b01.
    under eq_bigr do rewrite -/(PPr _ _) e.
    by rewrite -big_mkcond /= big_distrr.
  by move=> X; rewrite (bigD1 (items X)) //= eqxx big1 ?addr0 // => B; rewrite eq_sym => /negbTE ->.
exists c; split=> // M0 r0; rewrite divr_gt0 ?(psd_det1 (kL_psd a0 cert q0)) // !mulr_gt0 //.
- case: rounds r0 {run e t c} => // r _; rewrite big_ord_recl expr0 ltr_paddr ?ltr01 //; apply: sumr_ge0 => j _; rewrite exprn_ge0 //.
  by have [/andP[]] := PE_bnd (vfx_do_sampling_loop L eigh qr I M) ler01 (fun o => b01 (size o.1 != k)).
- rewrite subr_gt0 exprn_ilt1 ?(vrho_ge0 L eigh qr I) ?(vrho_lt1 eighP qrP a0 cert sE s0 q0) //; lia.
- by rewrite exprn_gt0 // mulr_gt0 // (lt_le_trans ltr01) // vkappa_ge1.
Qed.

Theorem C73_vfx_kdpp_law M k rounds (A : {set 'I_n}) :
  PPr (k_vfx_loop L eigh qr I k M rounds) (fun X => items X == A) * (\sum_(B : {set 'I_n} | #|B| == k) pmS (R := RR) L B) =
  if #|A| == k then PE (k_vfx_loop L eigh qr I k M rounds) (fun _ => 1) * pmS (R := RR) L A else 0.
Proof.
have [c [_ -> ->]] := k_vfx M k rounds; case: ifP => _; last by rewrite mul0r.
by rewrite mulrAC.
Qed.

(** the probability of returning a sample is positive when some minor of size k is *)
Theorem C73_vfx_kdpp_positive M k rounds (B : {set 'I_n}) : #|B| = k -> 0 < pmS (R := RR) L B -> (0 < M)%N -> (0 < rounds)%N ->
  0 < PE (k_vfx_loop L eigh qr I k M rounds) (fun _ => 1).
Proof.
move=> Bk B0 M0 r0; have [c [c0 _ ->]] := k_vfx M k rounds; rewrite mulr_gt0 ?c0 // (bigD1 B) ?Bk //= ltr_paddr //.
have [sL qL] := pL; have := @eigh0P RR n L sL; case: (eigh0 L) => ev U [_ sd].
have e0 : all (fun g : RR => 0 <= g) ev by exact: sd_psd sd _.
by have [_ h] := C08_normaliser_positive sd e0; apply: sumr_ge0 => X _; exact: h.
Qed.
End Vfx.

(** ** a concrete run: one item, L = [[1]] *)
Section Example.
Variable eigh : forall m : nat, 'M[R]_m -> seq R * seq 'cV[R]_m.
Hypothesis eighP : @eigh_contract RR eigh.

Lemma eigh1 m (M : 'M[R]_m) (x : R) : m = 1%N -> (forall i j, M i j = x) ->
  exists v : 'cV[R]_m, eigh M = ([:: x], [:: v]) /\ forall i, v i 0 ^+ 2 = 1.
Proof.
move=> m1 ME; have sM : M^T = M by apply/matrixP => i j; rewrite mxE !ME.
have := eighP sM; case: (eigh M) => g vs /= [szv0 [szg0 o dE]].
have szv : size vs = 1%N := etrans szv0 m1; have szg : size g = 1%N := etrans szg0 szv; clear szv0 szg0.
case: vs szv o dE => [//|v [|//]] _ o dE; case: g szg dE => [//|y [|//]] _ dE.
have v1 : forall i, v i 0 ^+ 2 = 1.
  move=> i; have := congr1 (fun A : 'M[R]_1 => A 0 0) o; rewrite mxE [RHS]mxE eqxx => e; rewrite -[RHS]/(true%:R) -e.
  subst m; rewrite big_ord_recl big_ord0 addr0 !mxE (tnth_nth 0) /= expr2 (ord1 i) //.
exists v; split=> //; have i : 'I_m by rewrite m1; exact: ord0.
congr ([:: _], _); rewrite -(ME i i) dE mxE big_ord_recl big_ord0 addr0 mul_mx_diag !mxE (tnth_nth 0) /=.
by rewrite mulrAC -expr2 v1 mul1r.
Qed.

Variable eps : R.
Hypothesis eps0 : 0 <= eps.
Hypothesis eps1 : eps < 2%:R^-1.
Definition L1 : 'M[R]_1 := 1%:M.
Let eps2 : eps < 1. Proof. by apply: lt_trans eps1 _; rewrite invf_lt1 ?ltr0n // ltr1n. Qed.

Lemma filter1 m (x : R) (v : 'cV[R]_m) : 0 < x -> stable_filter eps [:: x] [:: v] = inl ([:: x], [:: v]).
Proof.
move=> x0; apply: filter_all => // y; rewrite inE => /eqP ->; split=> //.
by rewrite /thresh big_cons big_nil /= mulr1 gtr0_norm // (max_idPl (ltW x0)) gtr_pmulr.
Qed.

Lemma pre1 brentq : exists2 I : vinfo 1, vfx_precompute L1 eigh eps [:: ord0] None brentq (fun s => s * s) = inl I &
  [/\ v_alpha I = 1, v_s I = 2%:R^-1 & v_q I = 4%:R^-1].
Proof.
have K1 i j : evalL L1 [:: ord0] [:: ord0] i j = 1 by rewrite !mxE !ord1.
have [v [eK v1]] := @eigh1 _ _ 1 erefl K1; rewrite /vfx_precompute /vfx_B_bar eK filter1 ?ltr01 //.
set X := inv_root _ _ *m _.
have X1 i j : X i j ^+ 2 = 1.
  rewrite mxE big_ord_recl big_ord0 addr0 !mxE exprMn !ord1 mulr1n expr1n mulr1 exprMn (tnth_nth 0) /= v1 mulr1.
  by rewrite exprVn rsqrt_sqr ?invr1 ?ler01.
have A1 i j : (X *m X^T + 1%:M) i j = 2%:R.
  by rewrite mxE mxE big_ord_recl big_ord0 addr0 [X^T _ _]mxE !ord1 -expr2 X1 mxE.
have [w [eA w1]] := @eigh1 _ _ 2%:R erefl A1; rewrite eA (_ : has _ _ = false); last by rewrite /= orbF -[1]/(1%:R) ler_nat.
have t1 : \sum_(j < 1) L1 j j = 1 by rewrite big_ord_recl big_ord0 addr0 mxE.
have t2 : \sum_(j < 1) \sum_(i < 1) X i j ^+ 2 = 1 by rewrite big_ord_recl big_ord0 addr0 big_ord_recl big_ord0 addr0 X1.
rewrite t1 t2 subrr add0r big_seq1.
have n20 : 0 < 2%:R :> R by rewrite ltr0n.
have e2 : [seq x + (1^-1 - 1) | x <- [:: (2%:R : R)]] = [:: 2%:R] by rewrite /= invr1 subrr addr0.
rewrite e2 ltNge divr_ge0 ?(ltW n20) //=; last by rewrite subr_ge0 -[1]/(1%:R) ler_nat.
have e3 : [seq Num.max x 0 | x <- [:: (2%:R : R)]] = [:: 2%:R] by rewrite /= (max_idPl (ltW n20)).
rewrite /estimate_embedded e3 filter1 //.
set rls := fun j : 'I_1 => _.
have r1 j : rls j = 2%:R^-1.
  rewrite /rls !mulr1 big_ord_recl big_ord0 addr0 X1 mxE ord1 mulr1n subrr add0r big_ord_recl big_ord0 addr0.
  rewrite mxE big_ord_recl big_ord0 addr0 mxE !exprMn X1 mulr1 (tnth_nth 0) /= w1 mulr1 exprVn rsqrt_sqr //; exact: ltW.
have i20 : 0 < 2%:R^-1 :> R by rewrite invr_gt0.
have sr : \sum_j rls j = 2%:R^-1 by rewrite big_ord_recl big_ord0 addr0 r1.
rewrite (_ : [forall j, _] = true); last by apply/forallP => j; have := r1 j; rewrite /rls => ->; rewrite ltW.
rewrite sr ltNge (ltW i20) /= big_seq1 mul1r ltNge.
have -> : 0 <= ln 2%:R by rewrite leNgt -exp_lt1 exp_ln' // -leNgt -[1]/(1%:R) ler_nat.
rewrite /=; eexists; first by [].
by split=> //=; rewrite -invfM -natrM.
Qed.

Lemma e2_bounds : 4%:R < exp 2%:R < 8%:R.
Proof.
have [l3 u8] := e2R.
have n2 : (2%:R : R) = 2%coqR by rewrite -INRE /=; lra.
have n4 : (4%:R : R) = 4%coqR by rewrite -INRE /=; lra.
have n8 : (8%:R : R) = 8%coqR by rewrite -INRE /=; lra.
by apply/andP; split; apply/RltP; rewrite ?n2 ?n4 ?n8.
Qed.

Lemma L1_psd : @is_psd RR 1 L1.
Proof.
split; first exact: trmx1.
by move=> v; rewrite mulmx1 mxE; apply: sumr_ge0 => k _; rewrite [v^T _ _]mxE -expr2 sqr_ge0.
Qed.

Variable qr : forall N r : nat, 'M[R]_(N, r) -> 'M[R]_(N, r).
Hypothesis qrP : forall N, @qr_contract RR N (@qr N).

(** with the default q_func, the probability of the sample {0} is not the advertised 1/2 *)
Theorem C72_vfx_refuted brentq M : (forall f a, brentq f = Some a -> 0 < a <= 1) -> (0 < M)%N ->
  exists2 I : vinfo 1, vfx_precompute L1 eigh eps [:: ord0] None brentq (fun s => s * s) = inl I &
  v_alpha I = 1 /\
  PPr (vfx_do_sampling_loop L1 eigh qr I M) (fun o => items o.1 == setT) <>
  PE (vfx_do_sampling_loop L1 eigh qr I M) (fun _ => 1) * (pmS (R := RR) L1 setT / \det (1%:M + L1)).
Proof.
move=> brP M0; have [I pre [aE sE qE]] := pre1 brentq; exists I => //; split=> //.
have wc : (1 + \tr L1) * (size [:: ord0 : 'I_1])%:R * eps < 1.
  have -> : 1 + \tr L1 = 2%:R by rewrite mxtrace1.
  by rewrite mulr1 mulrC -ltr_pdivl_mulr ?ltr0n // mul1r.
have qP s : 0 < s -> 0 < s * s :> R by move=> s0; rewrite mulr_gt0.
have [rho /andP[r0 r1] h] := C72_vfx_law_partial eighP qrP eps0 L1_psd brP qP wc pre.
have [-> -> _ _] := h M setT; set kL := _ *: L1.
have rM : 1 - rho ^+ M != 0 by rewrite subr_eq0 eq_sym lt_eqF // exprn_ilt1 //; lia.
move=> /(mulfI rM); rewrite aE mulr1 in kL *.
have pT (c : R) : pmS (R := RR) (c *: L1) setT = c by rewrite pmS_scale cardsT card_ord expr1 /pmS enum_setT -enumT det_mxsub_enum det1 mulr1.
have dT (c : R) : \det (1%:M + c *: L1) = 1 + c by rewrite det_mx11 !mxE mulr1.
have := pT 1; have := dT 1; rewrite !scale1r => -> ->; rewrite /kL pT dT => e.
have [e4 e8] := andP e2_bounds.
have rE : intensity_ratio I = ceil (exp 2%:R / 4%:R) / (exp 2%:R / 4%:R).
  have n2 : 2%:R != 0 :> R by rewrite pnatr_eq0.
  have e24 : 2%:R^-1 * 4%:R = 2%:R :> R by apply: (mulfI n2); rewrite mulrA divff // mul1r -natrM.
  by rewrite /intensity_ratio sE qE invrK e24 [4%:R^-1 * _]mulrC.
set y := exp 2%:R / 4%:R in rE.
have y1 : 1 < y by rewrite ltr_pdivl_mulr ?ltr0n // mul1r.
have y2 : y < 2%:R by rewrite ltr_pdivr_mulr ?ltr0n // -natrM.
have y0 : 0 < y := lt_trans ltr01 y1.
have cy : ceil y = 2%:R.
  have h1 := ceil_ge y; have h2 := ceil_lt y; rewrite /ceil; move: h1 h2; rewrite /ceil; set z := Int_part _ => h1 h2.
  have a1 : 1%:R < - IZR z := lt_le_trans y1 h1.
  have a2 : - IZR z < 3%:R by apply: lt_le_trans h2 _; rewrite [3%:R]mulrSr ler_add2r ltW.
  have zE : - IZR z = IZR (- z) by rewrite opp_IZR.
  have nE m : m%:R = IZR (Z.of_nat m) by rewrite -INRE INR_IZR_INZ.
  move: a1 a2; rewrite zE (nE 1%N) (nE 3%N) => /RltP/lt_IZR a1 /RltP/lt_IZR a2; rewrite (nE 2%N); congr IZR; lia.
have r1' : 1 < intensity_ratio I by rewrite rE cy ltr_pdivl_mulr // mul1r.
move: e r1'; move: (intensity_ratio I) => k e k1.
have k0 : 1 + k != 0 by rewrite gt_eqF // addr_gt0 ?ltr01 // (lt_trans ltr01).
have n11 : 1 + 1 != 0 :> R by rewrite gt_eqF // addr_gt0 ?ltr01.
have : k * (1 + 1) = 1 + k by apply/eqP; rewrite -[X in _ == X]mul1r -eqr_div // e.
by rewrite mulrDr mulr1 => /addIr kE; rewrite kE ltxx in k1.
Qed.
End Example.
