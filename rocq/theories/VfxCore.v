(** * VfxCore: what the rejection step of the intermediate samplers relies on. *)
From Coq Require Import Reals String.
From mathcomp Require Import all_ssreflect all_algebra.
From mathcomp.algebra_tactics Require Import ring.
From Verif Require Import Prob Minor ChainCons ExactModel ProjKuTa P_Proj Spectral P_Spectral P_Mcmc SpecLemmas McmcModel Mcmc Finite Rstruct PProg DetExp VfxModel VfxLin EighEx.
Set Implicit Arguments. Unset Strict Implicit. Unset Printing Implicit Defensive.
Import Order.Theory GRing.Theory Num.Theory.
Local Open Scope ring_scope.

Lemma rsqrt_ge0 x : 0 <= rsqrt x. Proof. exact: sqrtr_ge0. Qed.
Lemma rsqrtM x y : 0 <= x -> rsqrt (x * y) = rsqrt x * rsqrt y. Proof. exact: (@sqrtrM RR). Qed.
Lemma rsqrtV x : 0 <= x -> rsqrt x^-1 = (rsqrt x)^-1. Proof. exact: (@sqrtrV RR). Qed.
Lemma rsqrt_sqr x : 0 <= x -> rsqrt x ^+ 2 = x. Proof. exact: (@sqr_sqrtr RR). Qed.
Lemma rsqrt_gt0 x : (0 < rsqrt x) = (0 < x). Proof. exact: (@sqrtr_gt0 RR). Qed.
Lemma exp_ln' x : 0 < x -> exp (ln x) = x. Proof. by move=> /RltP; exact: exp_ln. Qed.
Lemma exp_inj x y : exp x = exp y -> x = y. Proof. exact: exp_inv. Qed.
Lemma exp_le1 x : (exp x <= 1) = (x <= 0).
Proof.
apply/RleP/RleP => h; last by rewrite -[X in Rle _ X]exp00; case: (Rle_lt_or_eq_dec _ _ h) => [h1|->]; [apply: Rlt_le; exact: exp_increasing|exact: Rle_refl].
by apply: Rnot_lt_le => x0; move: h; apply: Rlt_not_le; rewrite -[X in Rlt X _]exp00; exact: exp_increasing.
Qed.
Lemma exp_lt1 x : (exp x < 1) = (x < 0).
Proof.
rewrite !lt_neqAle exp_le1; congr (~~ _ && _); apply/eqP/eqP => [h|->]; last exact: exp00.
by apply: exp_inj; rewrite h exp00.
Qed.

Section Core.
Variables (n : nat) (L : 'M[R]_n).
Variable eigh : forall m : nat, 'M[R]_m -> seq R * seq 'cV[R]_m.
Variable qr : forall N r : nat, 'M[R]_(N, r) -> 'M[R]_(N, r).
Hypothesis eighP : @eigh_contract RR eigh.
Hypothesis qrP : forall N, @qr_contract RR N (@qr N).
Notation item := 'I_n.

(** the constants come from a positive definite matrix B: l_i = alpha b_i^T B^-1 b_i, etc. *)
Definition certified (alpha : R) (l : item -> R) (z logdet : R) : Prop :=
  exists d (Phi : 'M[R]_(n, d)) (B : 'M[R]_d), [/\ L = Phi *m Phi^T, is_pd B,
    forall i, l i = alpha * (Phi *m invmx B *m Phi^T) i i, exp logdet = \det B & z = d%:R - \tr (invmx B)].

Lemma pd_inv d (B : 'M[R]_d) : is_pd B -> is_pd (invmx B).
Proof.
move=> pB; have [C BE uC] := pd_sqrt pB; have uB : B \in unitmx by rewrite BE unitmx_mul unitmx_tr uC.
have [sB qB] := pB; split; first by rewrite trmx_inv sB.
move=> v v0; have w0 : invmx B *m v != 0.
  by apply: contraNneq v0 => e; rewrite -[v](mulKVmx uB) e mulmx0.
have := qB _ w0; rewrite trmx_mul trmx_inv sB -!mulmxA mulKVmx //.
Qed.

Lemma qf_row d (Phi : 'M[R]_(n, d)) (B : 'M[R]_d) i :
  (Phi *m B *m Phi^T) i i = ((row i Phi)^T^T *m B *m (row i Phi)^T) 0 0.
Proof.
rewrite trmxK mxE [RHS]mxE; apply: eq_bigr => k _; rewrite !mxE; congr (_ * _).
by apply: eq_bigr => k' _; rewrite !mxE.
Qed.

Lemma cert_ge0 alpha l z ld : 0 < alpha -> certified alpha l z ld -> forall i, 0 <= l i.
Proof.
move=> a0 [d [Phi [B [_ pB lE _ _]]]] i; rewrite lE mulr_ge0 ?(ltW a0) // qf_row.
by have [_ h] := pd_psd (pd_inv pB); exact: h.
Qed.
Lemma cert_eq0 alpha l z ld : 0 < alpha -> certified alpha l z ld -> forall i, l i = 0 -> forall j, L i j = 0.
Proof.
move=> a0 [d [Phi [B [-> pB lE _ _]]]] i /eqP; rewrite lE mulf_eq0 gt_eqF //= qf_row => /eqP e j.
have r0 : row i Phi = 0.
  apply/eqP; apply/negPn/negP => ne; have [_ h] := pd_inv pB.
  by have := h (row i Phi)^T; rewrite e ltxx trmx_eq0 => /(_ ne).
rewrite mxE big1 // => k _; have := congr1 (fun v : 'rV[R]_d => v 0 k) r0; rewrite !mxE => ->; exact: mul0r.
Qed.

(** the weighted submatrix *)
Definition Lw (w : item -> R) (u : seq item) : 'M[R]_(size u) :=
  \matrix_(i, j) (rsqrt (w (tnth (in_tuple u) i)) * L (tnth (in_tuple u) i) (tnth (in_tuple u) j) * rsqrt (w (tnth (in_tuple u) j))).

Lemma Lw_psd w u : @is_psd RR n L -> @is_psd RR _ (Lw w u).
Proof.
move=> [sL qL]; split.
  apply/matrixP => i j; rewrite !mxE mulrC mulrA mulrAC; congr (_ * _ * _).
  by rewrite -{1}sL mxE.
move=> v; pose f := tnth (in_tuple u).
pose v' : 'cV[R]_n := \col_x \sum_(i | f i == x) rsqrt (w (f i)) * v i 0.
have := qL v'; suff -> : (v'^T *m L *m v') 0 0 = (v^T *m Lw w u *m v) 0 0 by [].
have e1 (y : 'cV[R]_n) : (v'^T *m y) 0 0 = \sum_i rsqrt (w (f i)) * v i 0 * y (f i) 0.
  rewrite mxE (partition_big f xpredT) //=; apply: eq_bigr => x _; rewrite !mxE big_distrl /=.
  by apply: eq_bigr => i /eqP ->.
rewrite -mulmxA e1 -[in RHS]mulmxA mxE; apply: eq_bigr => i _; rewrite [X in X * (Lw w u *m v) i 0]mxE.
have -> : (L *m v') (f i) 0 = \sum_j L (f i) (f j) * (rsqrt (w (f j)) * v j 0).
  rewrite mxE [RHS](partition_big f xpredT) //=; apply: eq_bigr => x _; rewrite !mxE big_distrr /=.
  by apply: eq_bigr => j /eqP ->.
rewrite -mulrA mulrCA; congr (_ * _); rewrite [RHS]mxE big_distrr /=; apply: eq_bigr => j _.
by rewrite [X in _ = X * _]mxE !mulrA.
Qed.

Lemma psd_det1 N (M : 'M[R]_N) : @is_psd RR N M -> 0 < \det (1%:M + M).
Proof.
move=> [sM qM]; apply: pd_det_gt0; split; first by rewrite linearD /= trmx1 sM.
move=> v v0; rewrite mulmxDr mulmxDl mulmx1 mxE ltr_paddr ?qM //.
have [i vi] : exists i, v i 0 != 0.
  by apply/existsP; apply: contraNT v0; rewrite negb_exists => /forallP h; apply/eqP/colP => i; rewrite mxE; apply/eqP; rewrite -[_ == _]negbK.
rewrite mxE (bigD1 i) //= mxE ltr_paddr //.
  by rewrite sumr_ge0 // => j _; rewrite mxE -expr2 sqr_ge0.
by rewrite -expr2 lt_neqAle sqr_ge0 eq_sym sqrf_eq0 vi.
Qed.

(** phase 4 on the weighted submatrix, times det (I + L~) *)
Lemma tilted (w : item -> R) (u : seq item) (A : {set item}) : uniq u ->
  (forall i, i \in u -> 0 < w i) -> (forall i, i \notin u -> w i = 0) -> @is_psd RR n L ->
  \det (1%:M + Lw w u) * Pr (phase4 eigh qr (Lw w u)) (fun X => items X == A) = (\prod_(i in A) w i) * pmS (R := RR) L A.
Proof.
move=> uu wu wn pL; have pw := Lw_psd w u pL; rewrite (phase4_law eighP qrP) //.
case: ifP => Au; last first.
  have /subsetPn[x xA xu] := negbT Au.
  by rewrite inE in xu; rewrite mulr0 (bigD1 x) //= wn // !mul0r.
rewrite mulrC divfK ?gt_eqF ?psd_det1 //.
transitivity (pmS (R := RR) (\matrix_(i, j) (rsqrt (w i) * L i j * rsqrt (w j))) A).
  by rewrite -(pmS_sub _ uu Au); congr pmS; apply/matrixP => i j; rewrite !mxE.
rewrite /pmS pm_scale big_enum /=; congr (_ * _); apply: eq_bigr => i iA; apply: rsqrt_sqr.
by have := subsetP Au i iA; rewrite inE => /wu /ltW.
Qed.

(** the acceptance probability is at most one *)
Lemma accept_le alpha l z ld (w : item -> R) (u : seq item) : 0 < alpha -> certified alpha l z ld ->
  (forall i, i \in u -> 0 <= w i) ->
  z + ln (\det (1%:M + Lw (fun i => alpha * w i) u)) - ld - \sum_(i <- u) w i * l i <= 0.
Proof.
move=> a0 [d [Phi [B [LE pB lE dE zE]]]] wu.
have pL : @is_psd RR n L by have := gram_psd Phi^T; rewrite trmxK -LE.
set D := \det _; have D0 : 0 < D by apply: psd_det1; exact: Lw_psd.
rewrite -exp_le1 !expD exp_ln' //.
pose PhiU : 'M[R]_(size u, d) := \matrix_(i, k) Phi (tnth (in_tuple u) i) k.
pose wv : 'rV[R]_(size u) := \row_i (alpha * w (tnth (in_tuple u) i)).
have w0 i : 0 <= wv 0 i by rewrite mxE mulr_ge0 ?(ltW a0) // wu // mem_tnth.
have gE i j (M : 'M[R]_d) : (PhiU *m M *m PhiU^T) i j = (Phi *m M *m Phi^T) (tnth (in_tuple u) i) (tnth (in_tuple u) j).
  rewrite mxE [RHS]mxE; apply: eq_bigr => k _; rewrite !mxE; congr (_ * _).
  by apply: eq_bigr => k' _; rewrite mxE.
have := accept_bound PhiU w0 pB.
have -> : \det (1%:M + \matrix_(i, j) (Num.sqrt (wv 0 i : RR) * (PhiU *m PhiU^T) i j * Num.sqrt (wv 0 j : RR))) = D.
  congr (\det (1%:M + _)); apply/matrixP => i j; rewrite !mxE LE; congr (_ * _ * _).
  by have := gE i j 1%:M; rewrite !mulmx1 !mxE.
have -> : \sum_i wv 0 i * (PhiU *m invmx B *m PhiU^T) i i = \sum_(i <- u) w i * l i.
  by rewrite [RHS]big_tnth; apply: eq_bigr => i _; rewrite gE lE [wv 0 i]mxE -mulrA mulrCA.
rewrite -dE -addrA -opprB -zE => h; set a := \sum_(i <- u) _ in h *.
have -> : 1 = exp z * (exp ld * exp (a - z)) * exp (- ld) * exp (- a) :> R.
  by rewrite -!expD -exp00; congr exp; ring.
by do 2 (apply: ler_wpmul2r; first exact: ltW (exp_gt0 _)); apply: ler_wpmul2l; [exact: ltW (exp_gt0 _)|].
Qed.
End Core.
