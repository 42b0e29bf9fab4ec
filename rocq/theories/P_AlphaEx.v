(** * P_AlphaEx: concrete runs of the alpha-DPP sampler, with L = x I. *)
From Coq Require Import Reals String FunctionalExtensionality.
From mathcomp Require Import all_ssreflect all_algebra zify.
From mathcomp.algebra_tactics Require Import ring.
From Verif Require Import Prob Minor ChainCons ExactModel ProjKuTa P_Proj Spectral P_Spectral P_Mcmc SpecLemmas McmcModel Mcmc Finite Rstruct PProg DetExp VfxModel VfxLin EighEx QRex VfxCore VfxLaw VfxPre VfxAlpha P_AlphaDpp P_AlphaK.
Set Implicit Arguments. Unset Strict Implicit. Unset Printing Implicit Defensive.
Import Order.Theory GRing.Theory Num.Theory.
Local Open Scope ring_scope.
Local Arguments PE : simpl never.

(** ln y < y - 1, except at y = 1 *)
Lemma ln_lt (y : R) : 0 < y -> y != 1 -> ln y - (y - 1) < 0.
Proof.
move=> y0 y1; rewrite subr_lt0; rewrite ltNge; apply/negP => h.
have z : y - 1 <> 0 by apply/eqP; rewrite subr_eq0.
have /RltP := exp_ineq1 _ z; rewrite RplusE => h1.
have : exp (y - 1) <= y.
  rewrite -[X in _ <= X](exp_ln' y0); apply/RleP; have /RleP := h; case=> [h2|->]; last by right.
  by left; exact: exp_increasing.
by move=> /(lt_le_trans h1); rewrite addrC subrK ltxx.
Qed.
Lemma ln_le (y : R) : 0 < y -> ln y - (y - 1) <= 0.
Proof.
move=> y0; have [->|h] := eqVneq y 1; last exact: ltW (ln_lt y0 h).
by rewrite ln_1 !subrr.
Qed.
Lemma ln_prod (J : finType) (F : J -> R) : (forall j, 0 < F j) -> ln (\prod_j F j) = \sum_j ln (F j).
Proof.
move=> F0; rewrite -[RHS]ln_exp exp_sum; congr ln; apply: eq_bigr => j _; by rewrite exp_ln'.
Qed.

Lemma Ex_ring (m s1 s2 s3 s4 : R) : m * (1 - s4) + (s1 + m * s2) - m * s2 - s3 = s1 - (m * s4 + s3 - m).
Proof. ring. Qed.

Section Ex.
Variable eigh : forall m : nat, 'M[R]_m -> seq R * seq 'cV[R]_m.
Hypothesis eighP : @eigh_contract RR eigh.
Variable eps : R.
Hypothesis eps0 : 0 <= eps.

(** the eigenpairs of x I *)
Lemma eigh_scalar m (x : R) : 0 < x -> exists vecs : seq 'cV[R]_m,
  [/\ eigh (x%:M : 'M[R]_m) = (nseq m x, vecs), size vecs = m & forall i, \sum_(k < size vecs) tnth (in_tuple vecs) k i 0 ^+ 2 = 1].
Proof.
move=> x0; have sM : (x%:M : 'M[R]_m)^T = x%:M by rewrite tr_scalar_mx.
have := eighP sM; case: (eigh _) => g vs /= [szv [szg o dE]].
have gE : diag_mx (\row_(i < size vs) nth 0 g i) = x%:M.
  have : (colmx vs)^T *m x%:M *m colmx vs = x%:M by rewrite mul_mx_scalar -scalemxAl o scalemx1.
  by rewrite dE !mulmxA o mul1mx -mulmxA o mulmx1.
have gn : g = nseq m x.
  apply: (@eq_from_nth _ 0); first by rewrite size_nseq szg.
  move=> i ig; have iv : (i < size vs)%N by rewrite -szg.
  have := congr1 (fun A : 'M[R]_(size vs) => A (Ordinal iv) (Ordinal iv)) gE; rewrite !mxE eqxx !mulr1n => ->.
  by rewrite nth_nseq -szv iv.
exists vs; split=> //; first by rewrite gn.
have oo : colmx vs *m (colmx vs)^T = 1%:M.
  by move: dE; rewrite gE mul_mx_scalar -scalemxAl -scalemx1 => /(scalerI (lt0r_neq0 x0)).
by move=> i; have := congr1 (fun A : 'M[R]_m => A i i) oo; rewrite !mxE eqxx mulr1n => <-; apply: eq_bigr => k _; rewrite !mxE expr2.
Qed.

Variables (n : nat) (x : R).
Hypothesis n0 : (0 < n)%N.
Hypothesis x0 : 0 < x.
Let L : 'M[R]_n := x%:M.
Let D := enum 'I_n.
Let probs : seq R := nseq n 1.
Hypothesis wc : n%:R * eps < 1.

Let szD : size D = n. Proof. exact: size_enum_ord. Qed.
Lemma Ex_psd : @is_psd RR n L.
Proof. by rewrite /L -scalemx1; apply: psd_scale; [exact: ltW | have := gram_psd (1%:M : 'M[R]_n); rewrite trmx1 mul1mx]. Qed.

Let pE i : (i < size D)%N -> nth 0 probs i = 1. Proof. by move=> iD; rewrite /probs nth_nseq -szD iD. Qed.
Let rsqrt1 : rsqrt 1 = 1. Proof. exact: (@sqrtr1 RR). Qed.
Let hatE : alpha_L_hat L D probs = x%:M.
Proof.
apply/matrixP => i j; rewrite !mxE !pE // !(tnth_nth (Ordinal n0)) nth_uniq ?enum_uniq //.
by rewrite rsqrt1 invr1 mul1r mulr1.
Qed.

Let estE (vecs : seq 'cV[R]_(size D)) (g : R) j : 0 < g -> size vecs = size D -> (forall i, \sum_(k < size vecs) tnth (in_tuple vecs) k i 0 ^+ 2 = 1) ->
  estimate_weighted L probs (nseq (size D) x) vecs g j = g * x / (1 + g * x).
Proof.
move=> g0 szv o; have g1 : 0 < g * x + 1 by rewrite addr_gt0 ?ltr01 // mulr_gt0.
have jD : (index j D < size D)%N by rewrite index_mem mem_enum.
rewrite /estimate_weighted; set S := \sum_k _.
have -> : S = x ^+ 2 / (g * x + 1).
  transitivity (x ^+ 2 * (\sum_(k < size vecs) tnth (in_tuple vecs) k (Ordinal jD) 0 ^+ 2) / (g * x + 1)); last by rewrite o mulr1.
  rewrite /S big_distrr big_distrl /=; apply: eq_bigr => k _.
  have kD : (k < size D)%N by have := ltn_ord k; rewrite {2}szv.
  rewrite exprMn nth_nseq kD rsqrt_sqr; last by rewrite invr_ge0 ltW.
  congr (_ / _); rewrite -exprMn; congr (_ ^+ 2); rewrite (bigD1 (Ordinal jD)) //= big1 ?addr0.
    rewrite pE // rsqrt1 invr1 mul1r !mxE (tnth_nth j) /= nth_index ?mem_enum // eqxx mulr1n mulrC; by [].
  move=> i ij; rewrite !mxE (_ : (_ == _) = false) ?mulr0n ?mulr0 //; apply: contraNF ij => /eqP ie; apply/eqP; apply: val_inj.
  by rewrite /= -ie (tnth_nth j) /= index_uniq ?enum_uniq.
by rewrite mxE eqxx mulr1n; have := lt0r_neq0 g1; rewrite [1 + _]addrC; move: g1 => _ h; field.
Qed.

Let sumc (F : R -> R) m a : \sum_(e <- nseq m a) F e = m%:R * F a.
Proof. by elim: m => [|m IH]; rewrite ?big_nil ?mul0r //= big_cons IH mulrS mulrDl mul1r. Qed.
Let x1 : 0 < 1 + x. Proof. by rewrite addr_gt0 ?ltr01. Qed.

Lemma Ex_pre desired brentq r_func alpha :
  match desired with
  | None => alpha = 1
  | Some k => [/\ k < n%:R * (x / (1 + x)), alpha <= 1 & brentq (fun y => \sum_(e <- nseq n x) (1 - (y * e + 1)^-1) - k) = Some alpha]
  end ->
  exists2 I, alpha_precompute L eigh eps D probs 1 desired brentq r_func = inl I &
  [/\ a_alpha I = alpha, a_r I = r_func (n%:R * (1 - (alpha * x + 1)^-1)), a_vals I = nseq n x &
      forall g j, 0 < g -> a_est L (rescaled L I g) j = g * x / (1 + g * x)].
Proof.
move=> hd; rewrite /alpha_precompute hatE; have [vecs [-> szv o]] := eigh_scalar (size D) x0.
rewrite filter_all //; first last.
- move=> y; rewrite mem_nseq => /andP[_ /eqP ->]; split=> //.
  have : \big[Num.max/0]_(z <- nseq (size D) x) `|z| <= x.
    by elim: (size D) => [|m IH]; rewrite ?big_nil ?(ltW x0) //= big_cons le_maxl IH gtr0_norm ?lexx.
  rewrite /thresh size_nseq szD -mulrA => h; apply: (@le_lt_trans _ _ (x * (n%:R * eps))).
    by rewrite ler_wpmul2r // mulr_ge0 // ler0n.
  by rewrite gtr_pmulr.
- by rewrite size_nseq szv.
- by rewrite szD; case: (n) n0.
have eE j : estimate_weighted L probs (nseq (size D) x) vecs 1^-1 j = x / (1 + x).
  by rewrite invr1 estE ?ltr01 // mul1r.
set rls := [seq _ | _ <- D]; have rE : rls = nseq n (x / (1 + x)).
  rewrite /rls (eq_map eE) -[in RHS]szD; move: D => D'; by elim: D' => //= j D' ->.
have v0 : 0 <= x / (1 + x) by rewrite divr_ge0 // ltW.
rewrite rE (_ : has _ _ = false); last by rewrite has_nseq ltNge v0 andbF.
have zE (a b : R) m : zip (nseq m a) (nseq m b) = nseq m (a, b) by elim: m => //= m ->.
rewrite /probs zE.
have -> : \sum_(rp <- nseq n (x / (1 + x), 1 : R)) rp.1 / rp.2 = n%:R * (x / (1 + x)).
  by elim: (n) => [|m IH]; rewrite ?big_nil ?mul0r //= big_cons IH divr1 mulrS mulrDl mul1r.
rewrite ltNge mulr_ge0 ?ler0n //= szD.
have -> : (if desired is Some k then if n%:R * (x / (1 + x)) <= k then None
   else if brentq (fun y => \sum_(e <- nseq n x) (1 - (y * e + 1)^-1) - k) is Some a then if 1 < a then None else Some a else None
   else Some 1) = Some alpha.
  case: desired hd => [k [h1 h2 h3]|->//]; by rewrite leNgt h1 /= h3 ltNge h2.
rewrite sumc; eexists; first by [].
split=> // g j g0; rewrite /a_est /= -[in nseq n x]szD; exact: estE.
Qed.

Lemma Ex_acc (I : ainfo n) g c : 0 < g -> 0 < a_r I -> a_vals I = nseq n x ->
  (forall j, a_est L (rescaled L I g) j = g * x / (1 + g * x)) ->
  alpha_acc_thresh L (rescaled L I g) (a_est L (rescaled L I g)) c =
  \sum_i (ln ((1 + g * x)^-1 + (c i)%:R / a_r I) - ((1 + g * x)^-1 + (c i)%:R / a_r I - 1)).
Proof.
move=> g0 r0 vE eE; have gx : 0 < g * x by rewrite mulr_gt0.
have gx1 : 0 < 1 + g * x by rewrite addr_gt0 ?ltr01.
pose F i := 1 + (c i)%:R / a_r I * (1 + g * x).
have F0 i : 0 < F i.
  by rewrite /F ltr_paddr ?ltr01 // mulr_ge0 ?(ltW gx1) // divr_ge0 ?ler0n // ltW.
rewrite /alpha_acc_thresh /= vE !sumc; set u := [seq i <- enum 'I_n | _].
have uu : uniq u by rewrite filter_uniq // enum_uniq.
have -> : \det (alpha_L_tilda L (rescaled L I g) (a_est L (rescaled L I g)) c u + 1%:M) = \prod_i F i.
  rewrite (_ : _ + _ = diag_mx (\row_i F (tnth (in_tuple u) i))); last first.
    apply/matrixP => i j; rewrite !mxE !(tnth_nth (Ordinal n0)) nth_uniq //.
    rewrite val_eqE; case: eqP => [ij|_]; last by rewrite !mulr0n mulr0 mul0r addr0.
    rewrite !mulr1n ij [a_alpha _]/= [a_r _]/= [g * _ * x]mulrAC -!mulrA -expr2 rsqrt_sqr ?eE; last first.
      by rewrite divr_ge0 ?ler0n // mulr_ge0 ?(ltW r0) // divr_ge0 ?ltW.
    rewrite [in LHS]addrC /F; congr (1 + _).
    have h1 := lt0r_neq0 g0; have h2 := lt0r_neq0 x0; have h3 := lt0r_neq0 r0; have h4 := lt0r_neq0 gx1.
    move: h1 h2 h3 h4; move: (a_r I) (c _)%:R => a b h1 h2 h3 h4; field; by rewrite h1 h2 h3 h4.
  rewrite det_diag; under eq_bigr do rewrite mxE.
  rewrite -(big_tnth _ _ _ xpredT F) big_filter [RHS](bigID (fun i => c i != 0%N)) /= [X in _ = _ * X]big1 ?mulr1; first by rewrite big_enum_cond.
  by move=> i; rewrite negbK => /eqP ci; rewrite /F ci mul0r mul0r addr0.
rewrite ln_prod //.
have lnE i : ln (F i) = ln ((1 + g * x)^-1 + (c i)%:R / a_r I) + ln (1 + g * x).
  apply: exp_inj; rewrite expD !exp_ln' //; last by rewrite ltr_paddr ?invr_gt0 // divr_ge0 ?ler0n // ltW.
  by rewrite /F mulrDl mulVf ?lt0r_neq0.
under eq_bigr do rewrite lnE.
rewrite !big_split /= sumr_const card_ord natr_sum big_distrl /= sumrN.
have -> : \sum_(i < n) ((1 + g * x)^-1 + (c i)%:R / a_r I - 1) = n%:R * (1 + g * x)^-1 + \sum_(i < n) (c i)%:R / a_r I - n%:R.
  by rewrite !big_split /= sumrN !sumr_const card_ord -[_^-1 *+ n]mulr_natl.
rewrite -[ln (1 + g * x) *+ n]mulr_natl [g * x + 1]addrC.
set s1 := \sum_(i < n) ln _; set s3 := \sum_(i < n) _; move: (ln (1 + g * x)) (1 + g * x)^-1 n%:R s1 s3 => s2 s4 m s1 s3.
exact: Ex_ring.
Qed.

(** the acceptance probability is 1 only when every c_i equals r g x / (1 + g x) *)
Lemma Ex_acc0 (I : ainfo n) g c : 0 < g -> 0 < a_r I -> a_vals I = nseq n x ->
  (forall j, a_est L (rescaled L I g) j = g * x / (1 + g * x)) ->
  alpha_acc_thresh L (rescaled L I g) (a_est L (rescaled L I g)) c = 0 <-> forall i, (c i)%:R = a_r I * (g * x / (1 + g * x)).
Proof.
move=> g0 r0 vE eE; rewrite Ex_acc //; have gx : 0 < g * x by rewrite mulr_gt0.
have gx1 : 0 < 1 + g * x by rewrite addr_gt0 ?ltr01.
have h3 := lt0r_neq0 r0; have h4 := lt0r_neq0 gx1.
have y0 i : 0 < (1 + g * x)^-1 + (c i)%:R / a_r I by rewrite ltr_paddr ?invr_gt0 // divr_ge0 ?ler0n // ltW.
have yE i : (c i)%:R = a_r I * (g * x / (1 + g * x)) <-> (1 + g * x)^-1 + (c i)%:R / a_r I = 1.
  have e1 : 1 - (1 + g * x)^-1 = g * x / (1 + g * x).
    by apply: (mulIf h4); rewrite mulrBl mulVf // divfK // mul1r addrAC subrr add0r.
  split=> [->|e]; first by rewrite [a_r I * _]mulrC mulfK // -e1 addrC subrK.
  have : (c i)%:R / a_r I = g * x / (1 + g * x) by apply: (addrI (1 + g * x)^-1); rewrite e -e1 addrC subrK.
  by move=> <-; rewrite mulrC divfK.
split=> [e i|h]; last by rewrite big1 // => i _; move: (proj1 (yE i) (h i)) => ->; rewrite ln_1 !subrr.
apply/yE; apply/eqP; apply/negPn/negP => ne.
have : \sum_i (ln ((1 + g * x)^-1 + (c i)%:R / a_r I) - ((1 + g * x)^-1 + (c i)%:R / a_r I - 1)) < 0.
  rewrite (bigD1 i) //= -[X in _ < X]addr0; apply: ltr_le_add; first exact: ln_lt.
  by rewrite -oppr_ge0 -sumrN; apply: sumr_ge0 => j _; rewrite oppr_ge0; exact: ln_le.
by rewrite e ltxx.
Qed.
End Ex.

Section Runs.
Variable eigh : forall m : nat, 'M[R]_m -> seq R * seq 'cV[R]_m.
Variable qr : forall N r : nat, 'M[R]_(N, r) -> 'M[R]_(N, r).
Hypothesis eighP : @eigh_contract RR eigh.
Hypothesis qrP : forall N, @qr_contract RR N (@qr N).
Variable eps : R.
Hypothesis eps0 : 0 <= eps.
Hypothesis eps1 : eps < 4%:R^-1.

Let wc n : (n <= 4)%N -> n%:R * eps < 1.
Proof.
move=> n4; apply: (@le_lt_trans _ _ (4%:R * eps)); first by rewrite ler_wpmul2r // ler_nat.
by rewrite mulrC -ltr_pdivl_mulr ?ltr0n // mul1r.
Qed.
Let n20 : 2%:R != 0 :> R. Proof. by rewrite pnatr_eq0. Qed.

(** with L = I_4 and the default r_func, one round of the rejection loop raises an exception with positive probability *)
Theorem C74_alpha_refuted brentq : (forall f a, brentq f = Some a -> 0 < a) ->
  exists2 I : ainfo 4, alpha_precompute (1%:M : 'M[R]_4) eigh eps (enum 'I_4) (nseq 4 1) 1 None brentq id = inl I &
  a_alpha I = 1 /\ PE (alpha_iter 1%:M eigh qr I (a_bound I) (a_valid I)) (fun _ => 1) < 1.
Proof.
move=> brP; have [|I pre [aE rE vE estE]] := @Ex_pre eigh eighP eps eps0 4 1 isT ltr01 (wc (leqnn 4)) None brentq id 1; first by [].
have r2 : a_r I = 2%:R by rewrite rE mul1r -[1 + 1]/(2%:R : R); move: n20 => h; field.
exists I => //; split=> //.
have wcD : (size (enum 'I_4))%:R * eps < 1 by rewrite size_enum_ord; exact: wc.
have rP s : 0 < s -> 0 < (id s : R) by [].
have IE : rescaled 1%:M I 1 = I.
  have [_ _ _ iv _] := alpha_pre eighP (@Ex_psd 4 1 ltr01) brP wcD pre.
  move: pre; rewrite /alpha_precompute.
  case: (eigh _) => v1 v2; case: (stable_filter _ _ _) => [[w1 w2]|//]; case: ifP => // _; case: ifP => // _ [<-] /=; exact: erefl.
apply/(C74_alpha_raises_iff eighP qrP (@Ex_psd 4 1 ltr01) brP rP wcD pre).
have e1 j : a_est 1%:M (rescaled 1%:M I 1) j = 1 * 1 / (1 + 1 * 1) by apply: estE; exact: ltr01.
exists (fun _ => 1%N).
  move=> i _; have := e1 i; rewrite IE => ->; by rewrite !mul1r invr_gt0 addr_gt0 ?ltr01.
have r0 : 0 < a_r I by rewrite r2 ltr0n.
have := proj2 (@Ex_acc0 4 1 isT ltr01 I 1 (fun _ => 1%N) ltr01 r0 vE e1); rewrite IE; apply=> i.
rewrite r2 !mul1r -[1 + 1]/(2%:R : R) divff //.
Qed.

(** the hypotheses of C74 are met, e.g., with L = 2 I_2 and the default r_func *)
Example alpha_strict brentq : (forall f a, brentq f = Some a -> 0 < a) ->
  exists2 I : ainfo 2, alpha_precompute (2%:R%:M : 'M[R]_2) eigh eps (enum 'I_2) (nseq 2 1) 1 None brentq id = inl I &
  forall c, drawable 2%:R%:M I c -> alpha_acc_thresh 2%:R%:M I (a_est 2%:R%:M I) c != 0.
Proof.
move=> brP; have x0 : 0 < 2%:R :> R by rewrite ltr0n.
have [|I pre [aE rE vE estE]] := @Ex_pre eigh eighP eps eps0 2 2%:R isT x0 (wc (isT : 2 <= 4)%N) None brentq id 1; first by [].
have IE : rescaled 2%:R%:M I 1 = I.
  move: pre; rewrite /alpha_precompute.
  case: (eigh _) => v1 v2; case: (stable_filter _ _ _) => [[w1 w2]|//]; case: ifP => // _; case: ifP => // _ [<-] /=; exact: erefl.
exists I => // c _; apply/negP => /eqP h.
have n30 : 3%:R != 0 :> R by rewrite pnatr_eq0.
have n31 : 2%:R + 1 = 3%:R :> R by rewrite -[1]/(1%:R) -natrD.
have r43 : a_r I = 4%:R / 3%:R.
  by rewrite rE mul1r n31; apply: (mulIf n30); rewrite divfK // mulrBr mulr1 mulrBl -mulrA mulVf // mulr1 -natrM -natrB.
have r0 : 0 < a_r I by rewrite r43 divr_gt0 ?ltr0n.
have e1 j : a_est 2%:R%:M (rescaled 2%:R%:M I 1) j = 1 * 2%:R / (1 + 1 * 2%:R) by apply: estE; exact: ltr01.
have := proj1 (@Ex_acc0 2 2%:R isT x0 I 1 c ltr01 r0 vE e1); rewrite IE => /(_ h ord0).
rewrite r43 mul1r addrC n31 => /(congr1 (fun z : R => z * 3%:R * 3%:R)).
rewrite -!natrM (_ : _ / _ * _ * _ * _ = 8%:R); first by move/eqP; rewrite eqr_nat; lia.
by rewrite mulrA divfK // mulrAC divfK // -natrM.
Qed.

(** the hypotheses of C75 are met, e.g., with L = 2 I_2, k = 1 and the default r_func *)
Definition brent_half (f : R -> R) : option R := if f 2%:R^-1 == 0 then Some 2%:R^-1 else None.
Example alpha_k_strict mn0 mx0 : 0 < mn0 -> 0 < mx0 ->
  exists2 I : ainfo 2, alpha_precompute (2%:R%:M : 'M[R]_2) eigh eps (enum 'I_2) (nseq 2 1) 1 (Some 1%:R) brent_half id = inl I &
  forall mn mx al, reach mn0 mx0 (a_alpha I) mn mx al -> forall c, drawable 2%:R%:M (rescaled 2%:R%:M I al) c ->
  alpha_acc_thresh 2%:R%:M (rescaled 2%:R%:M I al) (a_est 2%:R%:M (rescaled 2%:R%:M I al)) c != 0.
Proof.
move=> mnp mxp; have x0 : 0 < 2%:R :> R by rewrite ltr0n.
have n30 : 3%:R != 0 :> R by rewrite pnatr_eq0.
have n31 : 1 + 2%:R = 3%:R :> R by rewrite -[1]/(1%:R) -natrD.
have h2 : 2%:R^-1 * 2%:R = 1 :> R by rewrite mulVf.
have hf : 2%:R * (1 - (2%:R^-1 * 2%:R + 1)^-1) = 1 :> R by rewrite h2 -[1 + 1]/(2%:R : R) mulrBr mulr1 divff // -[1]/(1%:R) -natrB.
have [|I pre [aE rE vE estE]] := @Ex_pre eigh eighP eps eps0 2 2%:R isT x0 (wc (isT : 2 <= 4)%N) (Some 1%:R) brent_half id 2%:R^-1.
  split.
  - by rewrite n31 mulrA -natrM ltr_pdivl_mulr ?ltr0n // -natrM ltr_nat.
  - by rewrite invf_le1 // ler1n.
  - by rewrite /brent_half /= !big_cons big_nil addr0 -mulr2n -mulr_natl hf subrr eqxx.
exists I => // mn mx al re c _; apply/negP => /eqP h.
have al0 : 0 < al.
  have : [/\ 0 < mn, 0 < mx & 0 < al]; last by case.
  elim: re {h} => [|mn' mx' al' _ [h1 h2' h3]|mn' mx' al' _ [h1 h2' h3]]; first by rewrite aE invr_gt0.
    by split=> //; apply: rsqrt_pos; rewrite mulr_gt0.
  by split=> //; apply: rsqrt_pos; rewrite mulr_gt0.
have r1 : a_r I = 1 by rewrite rE hf.
have r0 : 0 < a_r I by rewrite r1 ltr01.
have := proj1 (@Ex_acc0 2 2%:R isT x0 I al c al0 r0 vE (fun j => estE al j al0)) h ord0; rewrite r1 mul1r.
have ax : 0 < al * 2%:R by rewrite mulr_gt0.
have ax1 : 0 < 1 + al * 2%:R by rewrite addr_gt0 ?ltr01.
case: (c ord0) => [|m] e.
  have : 0 < al * 2%:R / (1 + al * 2%:R) by rewrite divr_gt0.
  by rewrite -e ltxx.
have : al * 2%:R / (1 + al * 2%:R) < 1 by rewrite ltr_pdivr_mulr // mul1r ltr_addr ltr01.
by rewrite -e -[1]/(1%:R) ltr_nat ltnS ltn0.
Qed.
End Runs.
