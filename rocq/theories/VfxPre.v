(** * VfxPre: the constants computed by the preprocessing of the intermediate samplers are certified. *)
From Coq Require Import Reals String Lra FunctionalExtensionality.
From mathcomp Require Import all_ssreflect all_algebra zify.
From mathcomp.algebra_tactics Require Import ring.
From Verif Require Import Prob Minor ChainCons ExactModel ProjKuTa P_Proj Spectral P_Spectral P_Mcmc SpecLemmas McmcModel Mcmc Finite Rstruct PProg DetExp VfxModel VfxLin EighEx QRex VfxCore VfxLaw.
Set Implicit Arguments. Unset Strict Implicit. Unset Printing Implicit Defensive.
Import Order.Theory GRing.Theory Num.Theory.
Local Open Scope ring_scope.

Lemma psd_gram N (M : 'M[R]_N) : @is_psd RR N M -> exists Phi : 'M[R]_N, M = Phi *m Phi^T.
Proof.
move=> /psd_spectral[P [d d0 [oP oP' ->]]].
pose r : 'rV[R]_N := \row_i rsqrt (d 0 i); exists (P *m diag_mx r).
rewrite trmx_mul trdiag1 !mulmxA; congr (_ *m _); rewrite -mulmxA; congr (_ *m _).
rewrite mul_diag_mx; apply/matrixP => i j; rewrite !mxE; case: eqP => [->|_]; last by rewrite !mulr0n mulr0.
by rewrite !mulr1n -expr2 rsqrt_sqr.
Qed.

Lemma one_psd_pd N (M : 'M[R]_N) : @is_psd RR N M -> is_pd (1%:M + M).
Proof.
move=> [sM qM]; split; first by rewrite linearD /= trmx1 sM.
move=> v v0; rewrite mulmxDr mulmxDl mulmx1 mxE ltr_paddr ?qM //.
have [i vi] : exists i, v i 0 != 0.
  by apply/existsP; apply: contraNT v0; rewrite negb_exists => /forallP h; apply/eqP/colP => i; rewrite mxE; apply/eqP; rewrite -[_ == _]negbK.
rewrite mxE (bigD1 i) //= mxE ltr_paddr //.
  by rewrite sumr_ge0 // => j _; rewrite mxE -expr2 sqr_ge0.
by rewrite -expr2 lt_neqAle sqr_ge0 eq_sym sqrf_eq0 vi.
Qed.

Lemma invmx_uniq N (A B : 'M[R]_N) : A *m B = 1%:M -> invmx A = B.
Proof. by move=> h; have [uA _] := mulmx1_unit h; rewrite -[RHS](mulKmx uA) h mulmx1. Qed.

(** eigenpairs *)
Lemma sd_eigen N (A : 'M[R]_N) g vs : @spectral_decomposition RR N A g vs ->
  forall xu, xu \in zip g vs -> A *m xu.2 = xu.1 *: xu.2.
Proof.
move=> [sz o AE] xu xg; have [i il <-] := nthP (0, 0) xg; rewrite nth_zip //=.
rewrite size_zip sz minnn in il; pose i' := Ordinal il.
have e : A *m colmx vs = colmx vs *m diag_mx (\row_(i < size vs) nth 0 g i) by rewrite {1}AE -!mulmxA o mulmx1.
apply/matrixP => a b; have := congr1 (fun M : 'M[R]_(N, size vs) => M a i') e; rewrite mul_mx_diag !mxE (tnth_nth 0) /= ord1 mulrC => <-.
by apply: eq_bigr => k _; rewrite !mxE (tnth_nth 0).
Qed.

Lemma zip_mask (S T : Type) m (s : seq S) (t : seq T) : size s = size t -> zip (mask m s) (mask m t) = mask m (zip s t).
Proof. by elim: m s t => [|b m IH] [|x s] [|y t] //= [sz]; case: b => /=; rewrite IH. Qed.
Lemma size_mask2 (S T : Type) m (s : seq S) (t : seq T) : size s = size t -> size (mask m s) = size (mask m t).
Proof. by elim: m s t => [|b m IH] [|x s] [|y t] //= [sz]; case: b => /=; rewrite (IH s t). Qed.

Lemma sd_mask N (A : 'M[R]_N) g vs k : @spectral_decomposition RR N A g vs ->
  A *m colmx (mask k vs) = colmx (mask k vs) *m diag_mx (\row_(i < size (mask k vs)) nth 0 (mask k g) i).
Proof.
move=> sd; have sz : size g = size vs by case: sd.
apply/matrixP => a b; rewrite mul_mx_diag.
have e := sd_eigen sd (xu := (nth 0 (mask k g) b, nth 0 (mask k vs) b)).
have h : (nth 0 (mask k g) b, nth 0 (mask k vs) b) \in zip g vs.
  have := mem_nth (0, 0) (n := b) (s := zip (mask k g) (mask k vs)).
  rewrite size_zip (size_mask2 _ sz) minnn ltn_ord nth_zip ?(size_mask2 _ sz) // => /(_ isT).
  by rewrite zip_mask // => /mem_mask.
have := congr1 (fun v : 'cV[R]_N => v a 0) (e h); rewrite !mxE (tnth_nth 0) mulrC => <-.
by apply: eq_bigr => i _; rewrite !mxE (tnth_nth 0).
Qed.

Lemma full_basis N (vs : seq 'cV[R]_N) : size vs = N -> (colmx vs)^T *m colmx vs = 1%:M -> colmx vs *m (colmx vs)^T = 1%:M.
Proof.
move=> sz o; set P := _ *m _.
have sP : P^T = P by rewrite trmx_mul trmxK.
have iP : P *m P = P by rewrite /P !mulmxA -[_ *m (colmx vs)^T *m _]mulmxA o mulmx1.
have t0 : \tr ((1%:M - P)^T *m (1%:M - P)) = 0.
  have -> : (1%:M - P)^T = 1%:M - P by rewrite [LHS]linearB /= trmx1 sP.
  rewrite mulmxBl mul1mx mulmxBr mulmx1 iP subrr subr0 [LHS]linearB /= mxtrace1 /P mxtrace_mulC o mxtrace1.
  by rewrite sz subrr.
apply/eqP; rewrite eq_sym -subr_eq0; apply/eqP/matrixP => i j; rewrite [RHS]mxE; apply/eqP; rewrite -sqrf_eq0.
move/eqP: t0; rewrite /mxtrace psumr_eq0.
  move=> /allP /(_ j); rewrite mem_index_enum => /(_ isT)/implyP /(_ isT).
  rewrite mxE psumr_eq0; last by move=> k _; rewrite mxE -expr2 sqr_ge0.
  by move=> /allP /(_ i); rewrite mem_index_enum => /(_ isT)/implyP /(_ isT); rewrite [(_ - _)^T _ _]mxE -expr2.
by move=> k _; rewrite mxE; apply: sumr_ge0 => l _; rewrite mxE -expr2 sqr_ge0.
Qed.

Section Cert.
Variables (n : nat) (L : 'M[R]_n).

Lemma certI d (Phi : 'M[R]_(n, d)) (B Binv : 'M[R]_d) alpha l z ld : L = Phi *m Phi^T -> is_pd B -> B *m Binv = 1%:M ->
  (forall i, l i = alpha * (Phi *m Binv *m Phi^T) i i) -> exp ld = \det B -> z = d%:R - \tr Binv -> certified L alpha l z ld.
Proof. by move=> LE pB bb lE dE zE; exists d, Phi, B; rewrite (invmx_uniq bb). Qed.

Lemma cert_core d m (Phi : 'M[R]_(n, d)) (T : 'M[R]_(m, d)) alpha (M : 'M[R]_m) ld :
  let X := T *m Phi^T in L = Phi *m Phi^T -> T *m T^T = 1%:M -> 0 < alpha ->
  (1%:M + alpha *: (X *m X^T)) *m M = 1%:M -> exp ld = \det (1%:M + alpha *: (X *m X^T)) ->
  certified L alpha (fun j => alpha * (L j j - (X^T *m X) j j + (X^T *m M *m X) j j)) (m%:R - \tr M) ld.
Proof.
move=> X LE TT a0 HM dE; set H := X *m X^T in HM dE.
have MH : M + alpha *: (H *m M) = 1%:M by rewrite -HM mulmxDl mul1mx scalemxAl.
apply: (@certI d Phi (1%:M + alpha *: (T^T *m H *m T)) (1%:M - T^T *m T + T^T *m M *m T)) => //.
- apply: one_psd_pd; apply: psd_scale; first exact: ltW.
  by have := gram_psd (X^T *m T); rewrite trmx_mul trmxK /H !mulmxA.
- have e : T *m (1%:M - T^T *m T + T^T *m M *m T) = M *m T.
    by rewrite mulmxDr mulmxBr mulmx1 !mulmxA TT !mul1mx subrr add0r.
  rewrite mulmxDl mul1mx -scalemxAl -[_ *m H *m T *m _]mulmxA e -addrA.
  have -> : T^T *m M *m T + alpha *: (T^T *m H *m (M *m T)) = T^T *m T.
    by rewrite -[X in _ = X *m T]mulmx1 -MH mulmxDr mulmxDl -scalemxAr -scalemxAl !mulmxA.
  by rewrite subrK.
- move=> i; congr (_ * _); rewrite mulmxDr mulmxDl mulmxBr mulmxBl mulmx1 -LE.
  have XT : X^T = Phi *m T^T by rewrite trmx_mul trmxK.
  by rewrite XT /X !mulmxA [in RHS]mxE [in X in _ = X + _]mxE [in X in _ = _ + X + _]mxE.
- by rewrite dE; clearbody H; rewrite -mulmxA scalemxAr sylvester -scalemxAl -mulmxA TT mulmx1.
- rewrite !linearD /= linearN /= mxtrace1 mxtrace_mulC TT mxtrace1 -mulmxA mxtrace_mulC -mulmxA TT mulmx1.
  by move: (\tr M) => t; ring.
Qed.
End Cert.

Section Filter.
Variable eps : R.
Hypothesis eps0 : 0 <= eps.

Lemma bigmax_ge0 (vals : seq R) : 0 <= \big[Num.max/0]_(x <- vals) `|x|.
Proof. by elim: vals => [|x vals IH]; rewrite ?big_nil ?big_cons // le_maxr normr_ge0. Qed.
Lemma bigmax_eq0 (vals : seq R) : (forall x, x \in vals -> x = 0) -> \big[Num.max/0]_(x <- vals) `|x| = 0.
Proof.
elim: vals => [|x vals IH] h; rewrite ?big_nil // big_cons IH => [|y yv]; last by apply: h; rewrite inE yv orbT.
by rewrite (h x) ?mem_head // normr0 maxxx.
Qed.
Lemma bigmax_le (vals : seq R) b : 0 <= b -> (forall x, x \in vals -> `|x| <= b) -> \big[Num.max/0]_(x <- vals) `|x| <= b.
Proof.
move=> b0; elim: vals => [|x vals IH] h; rewrite ?big_nil // big_cons le_maxl (h x) ?mem_head //=.
by apply: IH => y yv; apply: h; rewrite inE yv orbT.
Qed.
Lemma thresh_ge0 vals : 0 <= thresh eps vals.
Proof. by rewrite !mulr_ge0 ?bigmax_ge0 ?ler0n. Qed.

Lemma stable_filterP m (vals : seq R) (vecs : seq 'cV[R]_m) Sv U : stable_filter eps vals vecs = inl (Sv, U) ->
  exists k, [/\ vals != [::], all (fun x => - thresh eps vals < x) vals, Sv = mask k vals, U = mask k vecs & all (fun x => 0 < x) Sv].
Proof.
case: vals => [//|v0 vals0]; set vals := v0 :: vals0; rewrite /stable_filter -/vals.
case: ifP => // /negbT; rewrite -all_predC => /allP h [<- <-]; exists [seq thresh eps vals < `|x| | x <- vals]; split=> //.
  by apply/allP => x /h /=; rewrite -ltNge.
apply/allP => x; rewrite -[X in x \in X](filter_mask (fun x => thresh eps vals < `|x|) vals) mem_filter => /andP[/= tx xv].
have := h _ xv; rewrite /= -ltNge => hx; rewrite ltNge; apply/negP => x0.
by move: tx; rewrite ler0_norm // ltr_oppr ltNge (ltW hx).
Qed.

Lemma inv_rootE m (vals : seq R) (vecs : seq 'cV[R]_m) :
  inv_root vals vecs = diag_mx (\row_(i < size vecs) (rsqrt (nth 0 vals i))^-1) *m (colmx vecs)^T.
Proof. by apply/matrixP => i j; rewrite mul_diag_mx !mxE. Qed.
End Filter.

Section Vfx.
Variables (n : nat) (L : 'M[R]_n).
Variable eigh : forall m : nat, 'M[R]_m -> seq R * seq 'cV[R]_m.
Hypothesis eighP : @eigh_contract RR eigh.
Variable eps : R.
Hypothesis eps0 : 0 <= eps.
Hypothesis pL : @is_psd RR n L.
Notation item := 'I_n.

Lemma evalL_psd D : @is_psd RR _ (evalL L D D).
Proof.
have [Phi LE] := psd_gram pL; pose PD : 'M[R]_(size D, n) := \matrix_(i, j) Phi (tnth (in_tuple D) i) j.
have -> : evalL L D D = PD *m PD^T by apply/matrixP => i j; rewrite !mxE LE mxE; apply: eq_bigr => k _; rewrite !mxE.
by have := gram_psd PD^T; rewrite trmxK.
Qed.

(** B_bar_T = T Phi^T with orthonormal rows in T *)
Lemma vfx_B_barP D (X : {m : nat & 'M[R]_(m, n)}) : vfx_B_bar L eigh eps D = inl X ->
  [/\ (projT1 X <= size D)%N, L != 0 &
  exists Phi : 'M[R]_n, exists2 T : 'M[R]_(projT1 X, n), L = Phi *m Phi^T & projT2 X = T *m Phi^T /\ T *m T^T = 1%:M].
Proof.
have [Phi LE] := psd_gram pL; pose PD : 'M[R]_(size D, n) := \matrix_(i, j) Phi (tnth (in_tuple D) i) j.
have KE : evalL L D D = PD *m PD^T by apply/matrixP => i j; rewrite !mxE LE mxE; apply: eq_bigr => k _; rewrite !mxE.
have XE : evalLX L D = PD *m Phi^T by apply/matrixP => i j; rewrite !mxE LE mxE; apply: eq_bigr => k _; rewrite !mxE.
have [sK qK] := evalL_psd D; have := eighP sK; rewrite /vfx_B_bar; case: (eigh _) => g vs /= [szv sd].
have szg : size g = size vs by case: sd.
case sf : (stable_filter eps g vs) => [[Sv U]|//] [<-] /=.
have [k [g0 gt SvE UE S0]] := stable_filterP sf; have sz2 : size Sv = size U by rewrite SvE UE; exact: size_mask2.
split.
- have := size_subseq (mask_subseq k vs); rewrite szv -UE //.
- apply: contraNneq g0 => L0; have K0 : evalL L D D = 0 by apply/matrixP => i j; rewrite !mxE L0 mxE.
  have gz x : x \in g -> x = 0.
    move=> xg; have := @sd_all RR _ _ g vs (fun x => x == 0) sd; rewrite K0 => h.
    by apply/eqP; move: x xg; apply/allP; apply: h => v _; rewrite mulmx0 mul0mx mxE.
  have t0 : thresh eps g = 0.
    by rewrite /thresh (bigmax_eq0 gz) !mul0r.
  case: g gt gz t0 {szg sd sf SvE sz2} => // x g /= /andP[hx _] gz t0; move: hx.
  by rewrite t0 oppr0 (gz x) ?inE ?eqxx // ltxx.
- exists Phi; exists (inv_root Sv U *m PD) => //; split; first by rewrite XE mulmxA.
  have o : (colmx U)^T *m colmx U = 1%:M by rewrite UE; apply: (@ortho_sub RR _ vs) (mask_subseq _ _) _; case: sd.
  rewrite trmx_mul mulmxA -[_ *m PD *m PD^T]mulmxA -KE inv_rootE trmx_mul trmxK trdiag1 -!mulmxA.
  have -> : evalL L D D *m (colmx U *m diag_mx (\row_(i < size U) (rsqrt (nth 0 Sv i))^-1)) =
     colmx U *m (diag_mx (\row_(i < size U) nth 0 Sv i) *m diag_mx (\row_(i < size U) (rsqrt (nth 0 Sv i))^-1)).
    by rewrite !mulmxA; congr (_ *m _); move: (sd_mask k sd); rewrite -UE -SvE.
  rewrite [X in _ *m X]mulmxA o mul1mx; apply/matrixP => i j; rewrite !mul_diag_mx !mxE.
  case: eqP => [_|_]; last by rewrite mulr0n !mulr0.
  have si : 0 < nth 0 Sv i by apply: (allP S0); rewrite mem_nth // sz2.
  rewrite !mulr1n -{2}(rsqrt_sqr (ltW si)) expr2 mulfK ?mulVf // gt_eqF // rsqrt_gt0 //.
Qed.

Section Eig.
(** the eigenbasis of I + X X^T, with shifted eigenvalues *)
Variables (m : nat) (H : 'M[R]_m) (e : seq R) (W : seq 'cV[R]_m) (alpha : R).
Hypothesis pH : @is_psd RR m H.
Hypothesis szW : size W = m.
Hypothesis sd : @spectral_decomposition RR m (H + 1%:M) e W.
Hypothesis a0 : 0 < alpha.
Let e' := [seq x + (alpha^-1 - 1) | x <- e].
Let sze : size e = size W. Proof. by case: sd. Qed.
Let o : (colmx W)^T *m colmx W = 1%:M. Proof. by case: sd. Qed.
Let o' : colmx W *m (colmx W)^T = 1%:M. Proof. exact: full_basis. Qed.

Lemma shift_dec (c : R) (g : R -> R) (f : seq R) : f = [seq g x | x <- e] -> (forall x, g x = x + c) ->
  H + (1 + c)%:M = colmx W *m diag_mx (\row_(i < size W) nth 0 f i) *m (colmx W)^T.
Proof.
move=> -> gE; have [_ _ hE] := sd; have -> : H + (1 + c)%:M = H + 1%:M + c%:M by rewrite raddfD /= addrA.
rewrite {1}hE -[c%:M]mulmx1 -o' mulmxA -scalar_mxC -mulmxDl -mulmxDr; congr (_ *m _ *m _).
apply/matrixP => i j; rewrite !mxE (nth_map 0) ?sze // gE; case: eqP => _; by rewrite ?mulr1n ?mulr0n ?addr0.
Qed.

Lemma e_ge1 x : x \in e -> 1 <= x.
Proof.
move=> xe; have : all (fun x => 1 <= x) e; last by move/allP; exact.
apply: (sd_all sd) => v v1; rewrite mulmxDr mulmxDl mulmx1 mxE v1 ler_addr; by case: pH.
Qed.
Lemma e_le x : x \in e -> x <= 1 + \tr H.
Proof.
move=> xe; have [_ _ hE] := sd; have tE : \tr H + m%:R = \sum_(x <- e) x.
  rewrite -[in LHS](mxtrace1 _ m) -linearD /= hE mxtrace_mulC mulmxA o mul1mx mxtrace_diag.
  rewrite (big_nth 0) big_mkord sze; by apply: eq_bigr => i _; rewrite mxE.
have : \sum_(y <- e) (y - 1) = \tr H.
  rewrite sumrB -tE big_const_seq count_predT sze szW iter_addr_0 addrK //.
move=> <-; rewrite (big_rem x) //=; have -> (r : R) : 1 + (x - 1 + r) = x + r by ring.
by rewrite ler_addl big_seq; apply: sumr_ge0 => y /mem_rem /e_ge1; rewrite subr_ge0.
Qed.

Lemma e'E x : x \in e -> x + (alpha^-1 - 1) = alpha^-1 + (x - 1). Proof. by move=> _; ring. Qed.
Lemma e'_gt0 x : x \in e' -> 0 < x.
Proof. by move=> /mapP[y ye ->]; rewrite e'E // ltr_paddr ?invr_gt0 // subr_ge0 e_ge1. Qed.
Lemma e'_ge x : x \in e' -> alpha^-1 <= x.
Proof. by move=> /mapP[y ye ->]; rewrite e'E // ler_addl subr_ge0 e_ge1. Qed.
Lemma e'_le x : x \in e' -> x <= alpha^-1 + \tr H.
Proof. by move=> /mapP[y ye ->]; rewrite e'E // ler_add2l ler_subl_addl e_le. Qed.
Let sze' : size e' = size W. Proof. by rewrite size_map. Qed.
Let e'nz (i : 'I_(size W)) : alpha * nth 0 e' i != 0.
Proof. by rewrite mulf_neq0 ?gt_eqF // e'_gt0 // mem_nth // sze'. Qed.

Definition eM : 'M[R]_m := colmx W *m diag_mx (\row_(i < size W) (alpha * nth 0 e' i)^-1) *m (colmx W)^T.

Lemma eigHE : 1%:M + alpha *: H = colmx W *m diag_mx (\row_(i < size W) (alpha * nth 0 e' i)) *m (colmx W)^T.
Proof.
have h := @shift_dec (alpha^-1 - 1) _ e' erefl (fun x => erefl).
have -> : 1%:M + alpha *: H = alpha *: (H + (1 + (alpha^-1 - 1))%:M).
  by rewrite scalerDr addrC addrC [1 + _]addrC subrK addrC scale_scalar_mx divff // gt_eqF.
rewrite h scalemxAl scalemxAr; congr (_ *m _ *m _); apply/matrixP => i j; rewrite !mxE mulrnAr //.
Qed.

Lemma eigM : (1%:M + alpha *: H) *m eM = 1%:M.
Proof.
rewrite eigHE /eM !mulmxA -[_ *m (colmx W)^T *m colmx W]mulmxA o mulmx1 -[_ *m diag_mx _ *m diag_mx _]mulmxA.
rewrite (_ : diag_mx _ *m diag_mx _ = 1%:M) ?mulmx1 //; apply/matrixP => i j; rewrite mul_diag_mx !mxE.
by case: eqP => _; rewrite ?mulr1n ?mulr0n ?mulr0 // divff.
Qed.

Lemma eigdet : \det (1%:M + alpha *: H) = \prod_(x <- e') (alpha * x).
Proof.
have -> : 1%:M + alpha *: H = 1%:M + colmx W *m ((diag_mx (\row_(i < size W) (alpha * nth 0 e' i)) - 1%:M) *m (colmx W)^T).
  by rewrite mulmxBl mul1mx mulmxBr o' mulmxA -eigHE addrCA subrr addr0.
rewrite sylvester -mulmxA o mulmx1 addrCA subrr addr0 det_diag.
by rewrite (big_nth 0) big_mkord sze'; apply: eq_bigr => i _; rewrite mxE.
Qed.

Lemma eigtr : \tr eM = \sum_(x <- e') (alpha * x)^-1.
Proof.
rewrite /eM mxtrace_mulC mulmxA o mul1mx mxtrace_diag (big_nth 0) big_mkord sze'; by apply: eq_bigr => i _; rewrite mxE.
Qed.

Lemma eigsq k (X : 'M[R]_(m, k)) j : \sum_i ((inv_root e' W *m X) i j) ^+ 2 = alpha * (X^T *m eM *m X) j j.
Proof.
have a1 : alpha != 0 by rewrite gt_eqF.
have -> : alpha * (X^T *m eM *m X) j j = (((inv_root e' W *m X)^T *m (inv_root e' W *m X)) : 'M[R]_k) j j.
  have -> : alpha * (X^T *m eM *m X) j j = (X^T *m (alpha *: eM) *m X) j j by rewrite -scalemxAr -scalemxAl [RHS]mxE.
  have -> : alpha *: eM = (inv_root e' W)^T *m inv_root e' W.
    rewrite inv_rootE trmx_mul trmxK trdiag1 /eM scalemxAl scalemxAr mulmxA; congr (_ *m _).
    rewrite -mulmxA; congr (_ *m _); apply/matrixP => i l; rewrite mul_diag_mx !mxE.
    case: eqP => [_|_]; last by rewrite !mulr0n !mulr0.
    by rewrite !mulr1n invfM mulVKf // -expr2 exprVn rsqrt_sqr // ltW // e'_gt0 // mem_nth // sze'.
  by rewrite trmx_mul !mulmxA.
by rewrite [RHS]mxE; apply: eq_bigr => i _; rewrite [(_ ^T) j i]mxE expr2.
Qed.
End Eig.

Lemma filter_all m (vals : seq R) (vecs : seq 'cV[R]_m) : vals != [::] -> size vals = size vecs ->
  (forall x, x \in vals -> 0 < x /\ thresh eps vals < x) -> stable_filter eps vals vecs = inl (vals, vecs).
Proof.
move=> v0 sz h; rewrite /stable_filter; case vE : vals v0 => [//|x vals0] _; rewrite -vE.
have kE : [seq thresh eps vals < `|x| | x <- vals] = nseq (size vals) true.
  apply: (@eq_from_nth _ true); rewrite ?size_map ?size_nseq // => i il; rewrite (nth_map 0) // nth_nseq il.
  by have [h1 h2] := h _ (mem_nth 0 il); rewrite gtr0_norm.
rewrite kE ifF.
  by congr (inl (_, _)); rewrite mask_true // sz.
apply/negbTE; rewrite -all_predC; apply/allP => y /h [y0 _] /=; rewrite -ltNge; apply: le_lt_trans y0.
by rewrite oppr_le0 thresh_ge0.
Qed.

Lemma diag_hat m (Phi : 'M[R]_n) (T : 'M[R]_(m, n)) j : L = Phi *m Phi^T -> T *m T^T = 1%:M ->
  ((T *m Phi^T)^T *m (T *m Phi^T)) j j <= L j j.
Proof.
move=> LE TT; pose Q := Phi *m (1%:M - T^T *m T).
have QQ : Q *m Q^T = L - (T *m Phi^T)^T *m (T *m Phi^T).
  have iP : (1%:M - T^T *m T) *m (1%:M - T^T *m T)^T = 1%:M - T^T *m T.
    have -> : (1%:M - T^T *m T)^T = 1%:M - T^T *m T by rewrite linearB /= trmx1 trmx_mul trmxK.
    rewrite mulmxBr mulmx1 mulmxBl mul1mx -mulmxA [T *m _]mulmxA TT mul1mx; by rewrite subrr subr0.
  rewrite /Q trmx_mul -[LHS]mulmxA [X in Phi *m X]mulmxA iP mulmxA mulmxBr mulmxBl mulmx1 -LE trmx_mul trmxK !mulmxA //.
have : 0 <= (Q *m Q^T) j j by rewrite mxE; apply: sumr_ge0 => k _; rewrite [_^T _ _]mxE -expr2 sqr_ge0.
by rewrite QQ mxE [X in _ + X]mxE subr_ge0.
Qed.

Lemma vfx_pre_cert D desired brentq q_func I : (forall f a, brentq f = Some a -> 0 < a <= 1) ->
  (1 + \tr L) * (size D)%:R * eps < 1 -> vfx_precompute L eigh eps D desired brentq q_func = inl I ->
  [/\ 0 < v_alpha I <= 1, certified L (v_alpha I) (v_rls I) (v_z I) (v_logdet I), v_s I = \sum_j v_rls I j,
     0 < v_s I & v_q I = q_func (v_s I)].
Proof.
move=> brP wc; rewrite /vfx_precompute; case bE : (vfx_B_bar _ _ _ _) => [[m X]|//].
have [/= mD L0 [Phi [T LE [XE TT]]]] := vfx_B_barP bE.
have pH : @is_psd RR m (X *m X^T) by have := gram_psd X^T; rewrite trmxK.
have sH : (X *m X^T + 1%:M)^T = X *m X^T + 1%:M by rewrite linearD /= trmx1; case: pH => ->.
have := eighP sH; case: (eigh _) => e W /= [szW sd]; case: ifP => // e1; case: ifP => // nat0.
set al := (if desired is Some k then _ else Some 1); case aE : al => [alpha|//].
have a01 : 0 < alpha <= 1.
  move: aE; rewrite /al; case: (desired) => [k|[<-]]; last by rewrite ltr01 lexx.
  by case: ifP => // _ /brP.
have a0 : 0 < alpha by case/andP: a01.
set e' := [seq x + (alpha^-1 - 1) | x <- e].
have sze : size e = size W by case: sd.
have trX : \tr (X *m X^T) <= \tr L.
  rewrite mxtrace_mulC /mxtrace; apply: ler_sum => j _; rewrite XE; exact: diag_hat.
have e'g x : x \in e' -> 0 < x := e'_gt0 pH sd a0 (x := x).
have [m0|m0] := posnP m.
  have e0 : e = [::] by apply: size0nil; rewrite sze szW.
  by rewrite /estimate_embedded /e' e0.
have fE : stable_filter eps [seq Num.max x 0 | x <- e'] W = inl (e', W).
  have -> : [seq Num.max x 0 | x <- e'] = e'.
    by rewrite -[RHS]map_id; apply/eq_in_map => x /e'g x0; apply/max_idPl; exact: ltW.
  apply: filter_all; [by rewrite -size_eq0 size_map sze szW -lt0n|by rewrite size_map|move=> x xe; split; first exact: e'g].
  apply: lt_le_trans (e'_ge pH sd xe); rewrite /thresh size_map sze szW.
  have bm : \big[Num.max/0]_(x <- e') `|x| <= alpha^-1 * (1 + \tr L).
    have tL : 0 <= \tr L by apply: le_trans trX; apply: sumr_ge0 => j _; rewrite mxE; apply: sumr_ge0 => k _; rewrite [_^T _ _]mxE -expr2 sqr_ge0.
    apply: bigmax_le; first by rewrite mulr_ge0 ?invr_ge0 ?(ltW a0) // addr_ge0 ?ler01.
    move=> y ye; rewrite gtr0_norm ?e'g //; apply: le_trans (e'_le pH szW sd ye) _.
    rewrite mulrDr mulr1 ler_add2l; apply: le_trans trX _; rewrite ler_pemull // invf_ge1 //; by case/andP: a01.
  apply: (@le_lt_trans _ _ (alpha^-1 * ((1 + \tr L) * (size D)%:R * eps))).
    rewrite !mulrA; apply: ler_wpmul2r => //; apply: ler_pmul => //; rewrite ?bigmax_ge0 ?ler0n //.
    by rewrite ler_nat.
  by rewrite -[X in _ < X]mulr1 ltr_pmul2l ?invr_gt0.
rewrite /estimate_embedded fE; case: ifP => // /forallP r0; case: ifP => // _; case: ifP => // _ [<-] /=.
set rls := fun j : item => _ in r0 *.
have dE : exp (\sum_(x <- e') ln (alpha * x)) = \det (1%:M + alpha *: (X *m X^T)).
  rewrite exp_sum (eigdet szW sd a0); apply: eq_big_seq => x xe; rewrite exp_ln' // mulr_gt0 // e'g //.
have MM := eigM pH szW sd a0.
have C := @cert_core n L n m Phi T alpha (eM e W alpha) (\sum_(x <- e') ln (alpha * x)) LE TT a0.
rewrite -XE in C; have {}C := C MM dE.
have rE : rls =1 (fun j => alpha * (L j j - (X^T *m X) j j + (X^T *m eM e W alpha *m X) j j)).
  move=> j; rewrite /rls (eigsq pH sd a0) mulrDr mulrBr [_ * alpha]mulrC [X in _ - X + _]mulrC; congr (_ - _ * _ + _).
  by rewrite [RHS]mxE; apply: eq_bigr => i _; rewrite [X^T _ _]mxE expr2.
have zE : \sum_(x <- e') (x - alpha^-1) / x = m%:R - \tr (eM e W alpha).
  rewrite (eigtr _ sd) -szW -sze -(size_map (fun x => x + (alpha^-1 - 1)) e) -/e' -sum1_size natr_sum -sumrB.
  apply: eq_big_seq => x /e'g x0; have x1 : x != 0 by rewrite gt_eqF.
  have a1 : alpha != 0 by rewrite gt_eqF.
  by field; rewrite x1 a1.
have cR : certified L alpha rls (\sum_(x <- e') (x - alpha^-1) / x) (\sum_(x <- e') ln (alpha * x)).
  by rewrite zE; case: C => d0 [P0 [B0 [h1 h2 h3 h4 h5]]]; exists d0, P0, B0; split=> // i; rewrite rE.
split=> //; rewrite lt_neqAle sumr_ge0 ?andbT //; apply: contraNneq L0 => s0; apply/eqP/matrixP => i j.
rewrite [RHS]mxE; apply: (cert_eq0 a0 cR); move/esym/eqP: s0; rewrite psumr_eq0 //.
by move=> /allP /(_ i); rewrite mem_index_enum => /(_ isT)/implyP /(_ isT) /eqP.
Qed.
End Vfx.
