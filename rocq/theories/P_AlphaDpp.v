(** * P_AlphaDpp: the alpha-DPP sampler (intermediate_sampling.py l.449-814, exact_sampling.py l.779-888). *)
From Coq Require Import Reals String Lra FunctionalExtensionality Classical_Prop.
From Coquelicot Require Import Series.
From mathcomp Require Import all_ssreflect all_algebra zify.
From mathcomp.algebra_tactics Require Import ring.
From Verif Require Import Prob Minor ChainCons ExactModel ProjKuTa P_Proj Spectral P_Spectral P_Mcmc SpecLemmas McmcModel Mcmc Finite Rstruct PProg DetExp VfxModel VfxLin EighEx QRex VfxCore VfxLaw VfxPre VfxAlpha.
Set Implicit Arguments. Unset Strict Implicit. Unset Printing Implicit Defensive.
Import Order.Theory GRing.Theory Num.Theory.
Local Open Scope ring_scope.

Section Pre.
Variables (n : nat) (L : 'M[R]_n).
Variable eigh : forall m : nat, 'M[R]_m -> seq R * seq 'cV[R]_m.
Hypothesis eighP : @eigh_contract RR eigh.
Variable eps : R.
Hypothesis eps0 : 0 <= eps.
Hypothesis pL : @is_psd RR n L.
Notation item := 'I_n.

(** the estimates computed with any eigenpairs of L_hat are certified *)
Lemma alpha_cert (D : seq item) (probs vals : seq R) (vecs : seq 'cV[R]_(size D)) alpha : 0 < alpha ->
  size vals = size vecs -> (colmx vecs)^T *m colmx vecs = 1%:M -> (forall x, x \in vals -> 0 < x) ->
  alpha_L_hat L D probs *m colmx vecs = colmx vecs *m diag_mx (\row_(i < size vecs) nth 0 vals i) ->
  certified L alpha (estimate_weighted L probs vals vecs alpha) (\sum_(e <- vals) (1 - (alpha * e + 1)^-1))
    (\sum_(e <- vals) ln (1 + alpha * e)).
Proof.
move=> a0 sz o v0 eig.
have [Phi LE] := psd_gram pL; pose PD : 'M[R]_(size D, n) := \matrix_(i, j) ((rsqrt (nth 0 probs i))^-1 * Phi (tnth (in_tuple D) i) j).
pose T := (colmx vecs)^T *m PD; pose S := \row_(i < size vecs) nth 0 vals i.
pose G := diag_mx (\row_(i < size vecs) (alpha * nth 0 vals i + 1)^-1).
have s0 (i : 'I_(size vecs)) : 0 < nth 0 vals i by apply: v0; rewrite mem_nth // sz.
have d0 (i : 'I_(size vecs)) : alpha * nth 0 vals i + 1 != 0 by rewrite gt_eqF // addr_gt0 ?ltr01 // mulr_gt0.
have HE : alpha_L_hat L D probs = PD *m PD^T.
  apply/matrixP => i j; rewrite !mxE LE mxE; under [RHS]eq_bigr do rewrite !mxE.
  rewrite big_distrr big_distrl /=; apply: eq_bigr => k _; rewrite !mxE.
  by move: (rsqrt _)^-1 (rsqrt _)^-1 => x y; ring.
have TT : T *m T^T = diag_mx S by rewrite /T trmx_mul trmxK mulmxA -[_ *m PD *m PD^T]mulmxA -HE -mulmxA eig mulmxA o mul1mx.
have GS : G + alpha *: (diag_mx S *m G) = 1%:M.
  apply/matrixP => i j; rewrite mul_diag_mx !mxE; case: eqP => [_|_]; last by rewrite !mulr0n mulr0 mulr0 addr0.
  rewrite !mulr1n; have := d0 i; move: (nth _ _ _) => x h; by field.
apply: (@certI n L n Phi (1%:M + alpha *: (T^T *m T)) (1%:M - alpha *: (T^T *m G *m T))) => //.
- apply: one_psd_pd; apply: psd_scale; first exact: ltW.
  by have := gram_psd T.
- rewrite mulmxDl mul1mx mulmxBr mulmx1 -scalemxAl.
  have -> : T^T *m T *m (alpha *: (T^T *m G *m T)) = T^T *m (alpha *: (diag_mx S *m G)) *m T.
    by rewrite -TT -!scalemxAr -scalemxAl !mulmxA.
  have -> : alpha *: (diag_mx S *m G) = 1%:M - G by rewrite -GS addrC addKr.
  rewrite mulmxBr mulmxBl mulmx1 scalerBr.
  by move: (alpha *: (T^T *m T)) (alpha *: _) => X Y; rewrite opprB [Y - X]addrC !addrA addrK subrK.
- move=> x; rewrite /estimate_weighted; congr (_ * _).
  rewrite mulmxBr mulmxBl mulmx1 -LE mxE [X in _ = _ + X]mxE; congr (_ - _).
  rewrite -scalemxAr -scalemxAl mxE; congr (_ * _).
  have -> : Phi *m (T^T *m G *m T) *m Phi^T = (T *m Phi^T)^T *m G *m (T *m Phi^T) by rewrite [(T *m Phi^T)^T]trmx_mul trmxK !mulmxA.
  rewrite mxE; apply: eq_bigr => k _; rewrite mul_mx_diag [in RHS]mxE [X in _ = X * _ * _]mxE [X in _ = _ * X * _]mxE.
  rewrite exprMn rsqrt_sqr; last by rewrite invr_ge0 ltW // addr_gt0 ?ltr01 // mulr_gt0.
  rewrite [in RHS]mulrAC -expr2; congr (_ ^+ 2 * _).
  rewrite /T -mulmxA [RHS]mxE; apply: eq_bigr => i _; rewrite !mxE (tnth_nth 0); congr (_ * _).
  rewrite LE mxE big_distrr /=; apply: eq_bigr => j _; by rewrite !mxE mulrA.
- rewrite scalemxAl sylvester -scalemxAr TT exp_sum (big_nth 0) big_mkord sz.
  have -> : 1%:M + alpha *: diag_mx S = diag_mx (\row_(i < size vecs) (1 + alpha * nth 0 vals i)).
    by apply/matrixP => i j; rewrite !mxE; case: eqP => _; rewrite ?mulr1n ?mulr0n ?mulr0 ?addr0.
  rewrite det_diag; apply: eq_bigr => i _; rewrite mxE exp_ln' // addr_gt0 ?ltr01 // mulr_gt0 //.
- rewrite linearB /= mxtrace1 opprB addrC subrK linearZ /= -mulmxA mxtrace_mulC -mulmxA TT.
  rewrite (big_nth 0) big_mkord sz mul_diag_mx /mxtrace big_distrr /=; apply: eq_bigr => i _.
  rewrite !mxE eqxx mulr1n; have := d0 i; move: (nth _ _ _) => x h; by field.
Qed.

Lemma alpha_pre D probs lam desired brentq r_func I : (forall f a, brentq f = Some a -> 0 < a) -> (size D)%:R * eps < 1 ->
  alpha_precompute L eigh eps D probs lam desired brentq r_func = inl I ->
  [/\ 0 < a_alpha I <= 1, 0 < adeff I, a_r I = r_func (adeff I), ainv L I (a_bound I) (a_valid I) &
   forall alpha, 0 < alpha -> certified L alpha (estimate_weighted L (a_probs I) (a_vals I) (a_vecs I) alpha)
     (\sum_(e <- a_vals I) (1 - (alpha * e + 1)^-1)) (\sum_(e <- a_vals I) ln (1 + alpha * e))].
Proof.
move=> brP wc; rewrite /alpha_precompute.
have sH : (alpha_L_hat L D probs)^T = alpha_L_hat L D probs.
  apply/matrixP => i j; rewrite !mxE mulrC mulrA mulrAC; congr (_ * _ * _); case: pL => sL _; by rewrite -{1}sL mxE.
have := eighP sH; case: (eigh _) => vals0 vecs0 /= [szv sd].
have szg : size vals0 = size vecs0 by case: sd.
case sf : (stable_filter eps vals0 vecs0) => [[vals vecs]|//].
have [k [g0 gt SvE UE S0]] := stable_filterP sf; have sz2 : size vals = size vecs by rewrite SvE UE; exact: size_mask2.
case: ifP => // rls0; case: ifP => // nat0.
set al := (if desired is Some k then _ else Some 1); case aE : al => [alpha|//] [<-] /=.
have a01 : 0 < alpha <= 1.
  move: aE; rewrite /al; case: (desired) => [k'|[<-]]; last by rewrite ltr01 lexx.
  case: ifP => // _; case bE : (brentq _) => [a|//]; case: ifP => // /negbT; rewrite -leNgt => a1 [<-]; by rewrite (brP _ _ bE).
have a0 : 0 < alpha by case/andP: a01.
have vne : vals != [::].
  have bpos : 0 < \big[Num.max/0]_(x <- vals0) `|x|.
    rewrite lt_neqAle bigmax_ge0 andbT eq_sym; apply/negP => /eqP z.
    have t0 : thresh eps vals0 = 0 by rewrite /thresh z !mul0r.
    have h x : x \in vals0 -> `|x| <= 0.
      rewrite -z; elim: (vals0) => // y ys IH; rewrite inE big_cons le_maxr => /orP[/eqP ->|/IH ->]; by rewrite ?lexx ?orbT.
    case: vals0 g0 gt h t0 {z szg sd sf SvE} => // x xs _ /= /andP[hx _] h t0; have := h x (mem_head _ _).
    by rewrite normr_le0 => /eqP x0; rewrite t0 x0 oppr0 ltxx in hx.
  have [x xv xm] : exists2 x, x \in vals0 & `|x| = \big[Num.max/0]_(x <- vals0) `|x|.
    elim: (vals0) bpos => [|y ys IH]; first by rewrite big_nil ltxx.
    rewrite big_cons; case: (leP `|y| (\big[Num.max/0]_(x <- ys) `|x|)) => h h0; last by exists y; rewrite ?mem_head.
    by have [x xy xe] := IH h0; exists x => //; rewrite inE xy orbT.
  have : x \in vals.
    have : vals = [seq x <- vals0 | thresh eps vals0 < `|x|].
      move: sf; rewrite /stable_filter; case: (vals0) => // v1 vs1; case: ifP => // _ [<- _]; by rewrite filter_mask.
    move=> ->; rewrite mem_filter xv andbT xm /thresh szg szv -mulrA gtr_pmulr //.
  by case: (vals).
have pos x : x \in vals -> 0 < x by move=> xv; exact: (allP S0).
split=> //.
- rewrite /adeff /=; case: vals vne pos {SvE sz2 S0 sf rls0 nat0 al aE} => // x xs _ pos.
  have h y : y \in x :: xs -> 0 < 1 - (alpha * y + 1)^-1.
    move=> /pos y0; rewrite subr_gt0 invf_lt1 ?addr_gt0 ?ltr01 ?mulr_gt0 // ltr_addr mulr_gt0 //.
  rewrite big_cons ltr_paddr ?h ?mem_head // big_seq; apply: sumr_ge0 => y ys; rewrite ltW // h // inE ys orbT //.
- move=> al' al0; apply: alpha_cert => //.
  + by rewrite UE; apply: (@ortho_sub RR _ vecs0) (mask_subseq _ _) _; case: sd.
  + by have := sd_mask k sd; rewrite -UE -SvE.
Qed.
End Pre.

Section Alpha.
Variables (n : nat) (L : 'M[R]_n).
Variable eigh : forall m : nat, 'M[R]_m -> seq R * seq 'cV[R]_m.
Variable qr : forall N r : nat, 'M[R]_(N, r) -> 'M[R]_(N, r).
Hypothesis eighP : @eigh_contract RR eigh.
Hypothesis qrP : forall N, @qr_contract RR N (@qr N).
Variable eps : R.
Hypothesis eps0 : 0 <= eps.
Hypothesis pL : @is_psd RR n L.
Variable brentq : (R -> R) -> option R.
Hypothesis brentqP : forall f a, brentq f = Some a -> 0 < a.
Variable r_func : R -> R.
Hypothesis r_funcP : forall s, 0 < s -> 0 < r_func s.

(** the preprocessing ended without an exception, for some dictionary D with probabilities probs *)
Variables (D : seq 'I_n) (probs : seq R) (lam : R) (desired : option R) (I : @ainfo n).
Hypothesis wc : (size D)%:R * eps < 1.
Hypothesis pre : alpha_precompute L eigh eps D probs lam desired brentq r_func = inl I.

Let PRE := alpha_pre eighP pL brentqP wc pre.
Let a0 : 0 < a_alpha I. Proof. by case: PRE => /andP[]. Qed.
Let r0 : 0 < a_r I. Proof. by case: PRE => _ h -> _ _; exact: r_funcP h. Qed.
Let cert : certified L (a_alpha I) (a_est L I) (adeff I) (alogdet I). Proof. by case: PRE => _ _ _ _; exact. Qed.
Let iv0 : ainv L I (a_bound I) (a_valid I). Proof. by case: PRE. Qed.

(** multiplicities c of the items that the sampler can draw: no item with leverage score 0 *)
Definition drawable (c : 'I_n -> nat) : Prop := forall i, c i != 0%N -> 0 < a_est L I i.

(** one round raises an exception with positive probability iff the acceptance probability of some multiset of items is 1 *)
Theorem C74_alpha_raises_iff :
  PE (alpha_iter L eigh qr I (a_bound I) (a_valid I)) (fun _ => 1) < 1 <->
  exists2 c, drawable c & alpha_acc_thresh L I (a_est L I) c = 0.
Proof.
split=> [h|[c ok acc]]; last exact: (aiter_raise eighP qrP a0 r0 cert iv0 ok acc).
have [//|ne] := classic (exists2 c, drawable c & alpha_acc_thresh L I (a_est L I) c = 0).
have st c : aok L I c -> alpha_acc_thresh L I (a_est L I) c != 0 by move=> ok; apply/eqP => e; case: ne; exists c.
by have := aiter_total eighP qrP a0 r0 cert st iv0 => e; rewrite e ltxx in h.
Qed.

Hypothesis strict : forall c, drawable c -> alpha_acc_thresh L I (a_est L I) c != 0.

Let aL := a_alpha I *: L.
Let D0 : \det (1%:M + aL) != 0.
Proof. by rewrite gt_eqF // psd_det1 //; exact: (aL_psd a0 cert). Qed.
Let rhoE : 1 - arho L I = aC L I * \det (1%:M + aL).
Proof. by rewrite /arho opprB addrC subrK. Qed.
Let loop_setG := loop_setG eighP qrP a0 r0 cert strict.

Theorem C74_alpha_law_partial : exists2 rho, 0 <= rho < 1 & forall M (A : {set 'I_n}),
  [/\ PPr (alpha_do_sampling_loop L eigh qr I M) (fun o => items o.1.1 == A) = (1 - rho ^+ M) * (pmS (R := RR) aL A / \det (1%:M + aL)),
      PE (alpha_do_sampling_loop L eigh qr I M) (fun _ => 1) = 1 - rho ^+ M,
      PPr (alpha_do_sampling_loop L eigh qr I M) (fun o => uniq o.1.1) = 1 - rho ^+ M &
      forall j, PPr (alpha_do_sampling_loop L eigh qr I M) (fun o => (items o.1.1 == A) && (o.1.2 == j)) =
        if (j < M)%N then rho ^+ j * (1 - rho) * (pmS (R := RR) aL A / \det (1%:M + aL)) else 0].
Proof.
exists (arho L I); first by rewrite (arho_ge0 eighP qrP a0 r0 cert strict iv0) (arho_lt1 a0 cert).
move=> M A.
have one : PE (alpha_do_sampling_loop L eigh qr I M) (fun _ => 1) = 1 - arho L I ^+ M.
  rewrite (@loop_setG M _ _ (fun _ => 1) iv0) => [|B]; last by rewrite lexx ler01.
  rewrite -[RHS]mulr1; congr (_ * _); under eq_bigr do rewrite mulr1.
  by rewrite -big_distrl /= (minors_sum (aL_psd a0 cert)) divff.
split=> //.
- rewrite /PPr (@loop_setG M _ _ (fun B => (B == A)%:R) iv0) => [|B]; last exact: b01.
  by congr (_ * _); rewrite (bigD1 A) //= eqxx mulr1 big1 ?addr0 // => B /negbTE ->; rewrite mulr0.
- by rewrite -one; apply: (eq_aloop eighP qrP a0 r0 cert strict _ _ iv0) => X j b' v' /= ->.
- move=> j; have := aloop_law eighP qrP a0 r0 cert strict M 0 (G := fun B i => ((B == A) && (i == j))%:R) iv0.
  move=> /(_ (fun B i => b01 _)); rewrite /PPr /alpha_do_sampling_loop => ->.
  have sm i : \sum_B pmS (R := RR) aL B * ((B == A) && ((0 + i)%N == j))%:R = pmS (R := RR) aL A * (i == j)%:R.
    by rewrite add0n (bigD1 A) //= eqxx big1 ?addr0 // => B /negbTE ->; rewrite mulr0.
  under eq_bigr do rewrite sm.
  rewrite rhoE; case: ltnP => jM.
    rewrite (bigD1 (Ordinal jM)) //= eqxx big1 ?addr0 => [|i ij].
      rewrite -/aL mulr1; move: (aC L I) (\det _) (_ ^+ _) (pmS _ _) D0 => c d x y D1.
      by rewrite -!mulrA [d * _]mulrCA divff // mulr1.
    by rewrite (_ : (val i == j) = false) ?mulr0 //; apply: contraNF ij => /eqP h; apply/eqP; apply: val_inj.
  rewrite big1 // => i _; rewrite (_ : (val i == j) = false) ?mulr0 // ltn_eqF // (leq_trans (ltn_ord i) jM) //.
Qed.

(** the samples of successive calls, which share and update the cached leverage scores, are independent and have the same law *)
Theorem C74_alpha_calls_independent : exists2 rho, 0 <= rho < 1 & forall (Ms : seq nat) (As : seq {set 'I_n}), size As = size Ms ->
  PPr (alpha_calls L eigh qr I Ms) (fun Xs => [seq items X | X <- Xs] == As) =
  \prod_(MA <- zip Ms As) ((1 - rho ^+ MA.1) * (pmS (R := RR) aL MA.2 / \det (1%:M + aL))).
Proof.
exists (arho L I); first by rewrite (arho_ge0 eighP qrP a0 r0 cert strict iv0) (arho_lt1 a0 cert).
suff h Ms b v As : ainv L I b v -> size As = size Ms ->
  PPr (alpha_calls L eigh qr (ainfo' I b v) Ms) (fun Xs => [seq items X | X <- Xs] == As) =
  \prod_(MA <- zip Ms As) ((1 - arho L I ^+ MA.1) * (pmS (R := RR) aL MA.2 / \det (1%:M + aL))).
  by move=> Ms As sz; rewrite -(h Ms (a_bound I) (a_valid I) As iv0 sz); case: (I).
elim: Ms b v As => [|M Ms IH] b v [|A As] // iv; first by rewrite big_nil /PPr /=.
move=> [sz]; rewrite big_cons /PPr [alpha_calls _ _ _ _ _]/= PE_bind.
set K := \prod_(MA <- _) _ in IH *.
have -> : alpha_do_sampling_loop L eigh qr (ainfo' I b v) M = alpha_loop L eigh qr I M 0 b v.
  exact: loop_info.
rewrite (eq_aloop eighP qrP a0 r0 cert strict _ _ iv (g := fun o => K * (items o.1.1 == A)%:R)); last first.
  move=> X j b' v' _ iv'; rewrite PE_bind /=.
  transitivity (PE (alpha_calls L eigh qr (ainfo' I b' v') Ms) (fun Xs => (items X == A)%:R * ([seq items X | X <- Xs] == As)%:R)).
    by apply: eq_PE => Xs; rewrite eqseq_cons -natrM mulnb.
  by rewrite PE_scale -/(PPr _ _) IH // mulrC.
rewrite PE_scale (@loop_setG M _ _ (fun B => (B == A)%:R) iv) => [|B]; last exact: b01.
rewrite [LHS]mulrC; congr (_ * _ * _).
by rewrite (bigD1 A) //= eqxx mulr1 big1 ?addr0 // => B /negbTE ->; rewrite mulr0.
Qed.
End Alpha.
