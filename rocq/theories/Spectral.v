(** * Spectral: Bernoulli selection of eigenvectors followed by a projection sampler. *)
From Coq Require Import String.
From mathcomp Require Import all_ssreflect all_algebra.
From mathcomp.algebra_tactics Require Import ring.
From Verif Require Import Prob Minor Chain ChainCons ExactModel ProjGS ProjEig ProjKuTa ProjAll GenKernel.
Set Implicit Arguments. Unset Strict Implicit. Unset Printing Implicit Defensive.
Import Order.Theory GRing.Theory Num.Theory.
Local Open Scope ring_scope.

Section Spectral.
Variables (R : rcfType) (N : nat).
Implicit Types (K B : 'M[R]_N) (vs sel : seq 'cV[R]_N).

(** the kernel sum_i lam_i v_i v_i^T *)
Fixpoint kern (lam : seq R) vs : 'M[R]_N :=
  match lam, vs with
  | l :: lam', v :: vs' => l *: (v *m v^T) + kern lam' vs'
  | _, _ => 0
  end.

(** ** determinants are affine along rank-one directions *)
Lemma det_affine n (A : 'M[R]_n) (u : 'cV[R]_n) (w : 'rV[R]_n) t :
  \det (A + t *: (u *m w)) = \det A + t * (\det (A + u *m w) - \det A).
Proof.
have bl s : \det (A + s *: (u *m w)) = \det A + s * \det (block_mx (0 : 'M_1) (- w) u A).
  have -> : A + s *: (u *m w) = A - 1^-1 *: (u *m (- s *: w)).
    by rewrite invr1 scale1r -scalemxAr scaleNr opprK.
  rewrite -[LHS]mul1r -det_bord_schur ?oner_eq0 // det_bord mul1r; congr (_ + _).
  rewrite (@determinant_multilinear _ _ (block_mx (0 : 'M_1) (- s *: w) u A)
     (block_mx (0 : 'M_1) (- w) u A) (block_mx (0 : 'M_1) 0 u A) (lshift n 0) s 0) ?mul0r ?addr0 //.
  - apply/rowP=> j; rewrite !mxE.
    case: splitP => [k _|k kE]; last by move: kE.
    rewrite ?mxE mul0r addr0; case: splitP => l lE; rewrite ?mxE ?mulr0 //; by rewrite mulNr mulrN.
  - apply/matrixP=> i j; rewrite !mxE.
    by case: splitP => [k|k kE]; rewrite ?mxE ?ord1 //; case: splitP => l lE; rewrite ?mxE.
  - apply/matrixP=> i j; rewrite !mxE.
    by case: splitP => [k|k kE]; rewrite ?mxE ?ord1 //; case: splitP => l lE; rewrite ?mxE.
have := bl 1; rewrite scale1r mul1r => ->.
by rewrite bl [X in _ = _ + t * X]addrAC subrr add0r.
Qed.

Lemma pm_affine K (v : 'cV[R]_N) t T :
  pm (K + t *: (v *m v^T)) T = (1 - t) * pm K T + t * pm (K + v *m v^T) T.
Proof.
rewrite /pm; set h := tnth _.
pose u : 'cV[R]_(size T) := \col_i v (h i) 0.
have e s : mxsub h h (K + s *: (v *m v^T)) = mxsub h h K + s *: (u *m u^T).
  apply/matrixP => i j; rewrite !mxE; congr (_ + _ * _).
  by rewrite !big_ord_recl !big_ord0 !mxE.
have := e 1; rewrite !scale1r => ->; rewrite e det_affine.
by move: (\det _) (\det _) => x y; fixeq; ring.
Qed.

(** ** phase 1 *)
Lemma selector_pm lam vs B T : size lam = size vs -> all (fun l => 0 <= l <= 1) lam ->
  E (dpp_eig_vecs_selector lam vs) (fun sel => pm (B + \sum_(v <- sel) v *m v^T) T) = pm (B + kern lam vs) T.
Proof.
elim: lam vs B => [|l lam IH] [|v vs] B //=; first by rewrite big_nil.
move=> [sz] /andP[/andP[l0 l1] al]; rewrite clip01 // !E_bind /=.
have e : E (dpp_eig_vecs_selector lam vs) (fun sel => pm (B + \sum_(v <- v :: sel) v *m v^T) T)
       = pm (B + v *m v^T + kern lam vs) T.
  by rewrite -IH //; apply: eq_E => sel; rewrite big_cons addrA.
rewrite e IH // [l *: _ + _]addrC addrA pm_affine addrC; congr (_ + _ * pm _ T).
by rewrite addrAC.
Qed.

Lemma selector_total lam vs : E (dpp_eig_vecs_selector lam vs) (fun _ => 1) = 1.
Proof.
elim: lam vs => [|l lam IH] [|v vs] //=; rewrite !E_bind /= IH !mulr1 addrC subrK; by [].
Qed.

Lemma selector_sub lam vs sel : possible (dpp_eig_vecs_selector lam vs) (inl sel) -> subseq sel vs.
Proof.
elim: lam vs sel => [|l lam IH] [|v vs] sel //=; try by case=> ->.
have bindP (m : prog R (seq 'cV[R]_N)) (g : seq 'cV[R]_N -> seq 'cV[R]_N) a :
    possible (bind m (fun s => Ret (g s))) (inl a) -> exists2 s, possible m (inl s) & a = g s.
  elim: m => [s|//|p k IHk|T' pop w k IHk] /=; first by case=> ->; exists s.
    case=> [[h /IHk[s p1 ->]]|[h /IHk[s p1 ->]]]; exists s => //; [left|right]; by split.
  case: ifP => // _ [s1 [x [s2 [e wx /IHk[s p1 ->]]]]]; exists s => //; by exists s1, x, s2.
case=> [[_ /bindP[s /IH ss ->]]|[_ /bindP[s /IH ss ->]]]; first by rewrite /= eqxx.
exact: subseq_trans ss (subseq_cons vs v).
Qed.

(** ** orthonormal families *)
Definition dot (u v : 'cV[R]_N) : R := (u^T *m v) 0 0.

Lemma ortho_list vs : (colmx vs)^T *m colmx vs = 1%:M <->
  all (fun v => dot v v == 1) vs /\ pairwise (fun u v => dot u v == 0) vs.
Proof.
have ent i j : ((colmx vs)^T *m colmx vs) i j = dot (tnth (in_tuple vs) i) (tnth (in_tuple vs) j).
  by rewrite /dot !mxE; apply: eq_bigr => k _; rewrite !mxE.
have dC u v : dot u v = dot v u by rewrite /dot -[in LHS](trmxK v) -trmx_mul mxE.
split=> [o|[n p]].
  have o' i j : dot (tnth (in_tuple vs) i) (tnth (in_tuple vs) j) = (i == j)%:R by rewrite -ent o mxE.
  split; first by apply/allP => v vv; have /tnthP[i ->] : v \in in_tuple vs by []; rewrite o' eqxx.
  apply/(pairwiseP 0) => i j; rewrite !inE => li lj ij.
  have := o' (Ordinal li) (Ordinal lj); rewrite !(tnth_nth 0) /= => ->.
  by rewrite -val_eqE /= (ltn_eqF ij).
apply/matrixP => i j; rewrite ent mxE.
have [<-|ij] := eqVneq i j; first by apply/eqP; apply: (allP n); exact: mem_tnth.
have pw (a b : 'I_(size vs)) : (a < b)%N -> dot (tnth (in_tuple vs) a) (tnth (in_tuple vs) b) = 0.
  move=> ab; rewrite !(tnth_nth 0) /=; apply/eqP; apply: (pairwiseP 0 p) => //; rewrite inE; exact: ltn_ord.
case: (ltngtP i j) => [l|l|/val_inj e]; [exact: pw|by rewrite dC pw|by rewrite e eqxx in ij].
Qed.

Lemma ortho_sub vs sel : subseq sel vs -> (colmx vs)^T *m colmx vs = 1%:M -> (colmx sel)^T *m colmx sel = 1%:M.
Proof.
move=> s /ortho_list[n p]; apply/ortho_list; split; last exact: subseq_pairwise s p.
by apply/allP => v /(mem_subseq s); exact: (allP n).
Qed.

Lemma colmx_gram sel : colmx sel *m (colmx sel)^T = \sum_(v <- sel) v *m v^T.
Proof.
apply/matrixP => i j; rewrite summxE mxE [RHS]big_tnth; apply: eq_bigr => k _.
by rewrite !mxE big_ord_recl big_ord0 !mxE addr0.
Qed.

(** ** both phases *)
Section Sampler.
Variable qr : forall r : nat, 'M[R]_(N, r) -> 'M[R]_(N, r).
Hypothesis qrP : qr_contract qr.
Variables (lam : seq R) (vs : seq 'cV[R]_N) (mode : string).
Hypothesis md : eig_mode mode.
Hypothesis sz : size lam = size vs.
Hypothesis oV : (colmx vs)^T *m colmx vs = 1%:M.
Hypothesis l01 : all (fun l => 0 <= l <= 1) lam.

Lemma spectral_marginal (T : {set 'I_N}) :
  Pr (dpp_sampler_eig qr lam vs mode) (fun X => T \subset items X) = pmS (kern lam vs) T.
Proof.
rewrite /Pr /dpp_sampler_eig E_bind /pmS -[kern lam vs]add0r -selector_pm //.
apply: eq_E_possible => sel /selector_sub ss; rewrite add0r.
have o := ortho_sub ss oV.
by rewrite [LHS](eig_marginal qrP o md) colmx_gram.
Qed.

Lemma spectral_total : total (dpp_sampler_eig qr lam vs mode).
Proof.
rewrite /total /dpp_sampler_eig E_bind -[RHS](selector_total lam vs).
apply: eq_E_possible => sel /selector_sub ss.
exact: (eig_total qrP (ortho_sub ss oV) md (size := None)).
Qed.

Lemma bind_possible A A' (m : prog R A) (g : A -> prog R A') o : possible (bind m g) (inl o) ->
  exists2 a, possible m (inl a) & possible (g a) (inl o).
Proof.
elim: m => [a|//|p k IH|T pop w k IH] /=; first by exists a.
  case=> [[p0 /IH[a pa ga]]|[p0 /IH[a pa ga]]]; exists a => //; [by left|by right].
case: ifP => // _ [s1 [x [s2 [e wx /IH[a pa ga]]]]]; exists a => //; by exists s1, x, s2.
Qed.

Lemma spectral_uniq X : possible (dpp_sampler_eig qr lam vs mode) (inl X) -> uniq X.
Proof.
rewrite /dpp_sampler_eig => h; have [sel /selector_sub ss pX] := bind_possible h.
by have [] := eig_valid qrP (ortho_sub ss oV) md (size := None) isT pX.
Qed.
End Sampler.

(** ** a random set is determined by its inclusion probabilities *)
Lemma set_law_unique (p q : {set 'I_N} -> R) :
  (forall T : {set 'I_N}, \sum_(S : {set 'I_N} | T \subset S) p S = \sum_(S : {set 'I_N} | T \subset S) q S) -> p =1 q.
Proof.
move=> h S; have [n] := ubnP #|~: S|; elim: n S => // n IH S; rewrite ltnS => Sn.
have := h S; rewrite (bigD1 S) //= [RHS](bigD1 S) //=.
have -> : \sum_(i : {set 'I_N} | (S \subset i) && (i != S)) p i = \sum_(i : {set 'I_N} | (S \subset i) && (i != S)) q i.
  apply: eq_bigr => U /andP[SU US]; apply: IH; apply: leq_trans Sn.
  by apply: proper_card; rewrite properC properEneq eq_sym US SU.
exact: addIr.
Qed.

Lemma marginal_sum (m : prog R (seq 'I_N)) (T : {set 'I_N}) :
  Pr m (fun X => T \subset items X) = \sum_(S : {set 'I_N} | T \subset S) Pr m (fun X => items X == S).
Proof.
rewrite /Pr -E_sum; apply: eq_E => X.
have [TX|TX] := boolP (T \subset items X).
  by rewrite (bigD1 (items X)) //= eqxx big1 ?addr0 // => S /andP[_ SX]; rewrite eq_sym (negPf SX).
by rewrite big1 // => S TS; case: eqP => // e; rewrite e TS in TX.
Qed.

Lemma same_marginals (m1 m2 : prog R (seq 'I_N)) :
  (forall T : {set 'I_N}, Pr m1 (fun X => T \subset items X) = Pr m2 (fun X => T \subset items X)) ->
  forall S, Pr m1 (fun X => items X == S) = Pr m2 (fun X => items X == S).
Proof.
move=> h S; apply: (set_law_unique (p := fun S => Pr m1 (fun X => items X == S)) (q := fun S => Pr m2 (fun X => items X == S))).
by move=> T; rewrite -!marginal_sum.
Qed.

(** ** kernels built from a spectrum *)
Lemma kernE lam vs : size lam = size vs ->
  kern lam vs = colmx vs *m (diag_mx (\row_(i < size vs) nth 0 lam i)) *m (colmx vs)^T.
Proof.
move=> sz; apply/matrixP => a b.
transitivity (\sum_(i < size vs) nth 0 lam i * (nth 0 vs i a 0 * nth 0 vs i b 0)).
  elim: lam vs sz => [|l lam IH] [|v vs] //= ; first by rewrite big_ord0 mxE.
  move=> [sz]; rewrite mxE [X in _ + X]IH // big_ord_recl /= !mxE big_ord_recl big_ord0 !mxE addr0.
  by congr (_ + _).
rewrite mxE; apply: eq_bigr => i _; rewrite mul_mx_diag !mxE !(tnth_nth 0) /=.
by rewrite mulrCA mulrA.
Qed.

Lemma kern_mul lam mu vs : size lam = size vs -> size mu = size vs ->
  (colmx vs)^T *m colmx vs = 1%:M ->
  kern lam vs *m kern mu vs = kern [seq x.1 * x.2 | x <- zip lam mu] vs.
Proof.
move=> s1 s2 o; rewrite !kernE ?size_map ?size_zip ?s1 ?s2 ?minnn //.
rewrite !mulmxA -[_ *m (colmx vs)^T *m colmx vs]mulmxA o mulmx1.
congr (_ *m _); rewrite -mulmxA; congr (_ *m _); rewrite mul_diag_mx.
apply/matrixP => i j; rewrite !mxE mulrnAr; congr (_ *+ _).
by rewrite (nth_map (0, 0)) ?nth_zip ?s1 ?s2 // size_zip s1 s2 minnn.
Qed.

Lemma kern_lin (f g h : R -> R) lam vs : (forall l, l \in lam -> f l = g l + h l) ->
  kern (map f lam) vs = kern (map g lam) vs + kern (map h lam) vs.
Proof.
elim: lam vs => [|l lam IH] [|v vs] fg //=; rewrite ?addr0 //.
rewrite IH; last by move=> x xl; apply: fg; rewrite inE xl orbT.
by rewrite fg ?inE ?eqxx // scalerDl addrACA.
Qed.

Lemma kern_sym lam vs : (kern lam vs)^T = kern lam vs.
Proof.
elim: lam vs => [|l lam IH] [|v vs] //=; rewrite ?trmx0 //.
by rewrite linearD linearZ /= trmx_mul trmxK IH.
Qed.

(** v^T K v = sum lam_i (v_i . v)^2 *)
Lemma kern_qf lam vs (v : 'cV[R]_N) : size lam = size vs ->
  (v^T *m kern lam vs *m v) 0 0 = \sum_(i < size vs) nth 0 lam i * (dot (nth 0 vs i) v) ^+ 2.
Proof.
elim: lam vs => [|l lam IH] [|w vs] //=; first by rewrite mulmx0 mul0mx mxE big_ord0.
move=> [sz]; rewrite mulmxDr mulmxDl mxE IH // big_ord_recl /=; congr (_ + _).
rewrite -scalemxAr -scalemxAl mxE; congr (_ * _).
rewrite (mulmxA v^T) -(mulmxA (v^T *m w)) mxE big_ord_recl big_ord0 addr0 expr2 /dot; congr (_ * _).
by rewrite -[in LHS](trmxK w) -trmx_mul mxE.
Qed.

Lemma parseval vs (v : 'cV[R]_N) : (colmx vs)^T *m colmx vs = 1%:M ->
  \sum_(i < size vs) (dot (nth 0 vs i) v) ^+ 2 <= (v^T *m v) 0 0.
Proof.
move=> o; set V := colmx vs in o *.
have -> : \sum_(i < size vs) (dot (nth 0 vs i) v) ^+ 2 = (v^T *m V *m (V^T *m v)) 0 0.
  rewrite mxE; apply: eq_bigr => i _.
  have e : (V^T *m v) i 0 = dot (nth 0 vs i) v.
    by rewrite /dot !mxE; apply: eq_bigr => k _; rewrite !mxE (tnth_nth 0).
  have e2 : (v^T *m V)^T = V^T *m v by rewrite trmx_mul trmxK.
  by rewrite -e expr2; congr (_ * _); rewrite -e2 mxE.
rewrite -subr_ge0.
have -> : (v^T *m v) 0 0 - (v^T *m V *m (V^T *m v)) 0 0 = (((1%:M - V *m V^T) *m v)^T *m ((1%:M - V *m V^T) *m v)) 0 0.
  have PP : (1%:M - V *m V^T) *m (1%:M - V *m V^T) = 1%:M - V *m V^T.
    rewrite mulmxBl mul1mx mulmxBr mulmx1 mulmxA -(mulmxA V V^T V) o mulmx1 subrr subr0 //.
  have sP : (1%:M - V *m V^T)^T = 1%:M - V *m V^T by rewrite linearB /= trmx1 trmx_mul trmxK.
  rewrite trmx_mul sP.
  have -> : v^T *m (1%:M - V *m V^T) *m ((1%:M - V *m V^T) *m v) = v^T *m v - v^T *m V *m (V^T *m v).
    by rewrite mulmxA -[v^T *m (1%:M - V *m V^T) *m (1%:M - V *m V^T)]mulmxA PP mulmxBr mulmx1 mulmxBl !mulmxA.
  by rewrite [in RHS]mxE [X in _ = _ + X]mxE.
by rewrite mxE sumr_ge0 // => i _; rewrite mxE -expr2 sqr_ge0.
Qed.

(** ** minors of positive semidefinite matrices are nonnegative *)
Lemma psd_minor_ge0 js K : uniq js -> psd_on js K -> 0 <= pm K js.
Proof.
elim: js K => [|j js IH] K; first by rewrite pm_nil ler01.
move=> /= /andP[jn u] p; have jj : j \in j :: js by rewrite inE eqxx.
have [z|nz] := eqVneq (K j j) 0.
  rewrite schur_row0 // => i ij; apply: (psd_diag0 jj _ p) => //; by rewrite inE ij orbT.
rewrite pm_cons // mulr_ge0 ?(psd_diag jj p) // IH //; exact: psd_schur.
Qed.

(** ** det of a matrix whose rows outside S are those of the identity *)
Lemma pm_idrows (M L : 'M[R]_N) (S : {set 'I_N}) :
  (forall i k, M i k = if i \in S then L i k else (i == k)%:R) -> \det M = pmS L S.
Proof.
move=> ME; rewrite -det_mxsub_enum.
have -> : pm M (enum 'I_N) = pm M (enum S ++ enum (~: S)).
  apply: pm_perm; apply: uniq_perm; first exact: enum_uniq.
    by rewrite cat_uniq !enum_uniq /= andbT; apply/hasPn => x; rewrite !mem_enum inE => xS; rewrite /= mem_enum.
  by move=> x; rewrite mem_cat !mem_enum !inE; case: (x \in S).
have : {subset enum (~: S) <= ~: S} by move=> x; rewrite mem_enum.
have : uniq (enum (~: S)) by exact: enum_uniq.
elim: (enum (~: S)) => [|b bs IH] /=.
  rewrite cats0 => _ _; apply: eq_pm => i k; rewrite !mem_enum => iS _; by rewrite ME iS.
move=> /andP[bn u] sub; have bS : b \notin S by have := sub b; rewrite !inE eqxx => /(_ isT).
rewrite -IH //; last by move=> x xb; apply: sub; rewrite inE xb orbT.
rewrite (@pm_perm _ _ M _ (b :: enum S ++ bs)); last by rewrite perm_catC /= perm_cons perm_catC.
rewrite pm_bord bord0_row0 ?ME ?(negPf bS) ?eqxx ?mul1r ?addr0 // => i.
rewrite mem_cat mem_enum => ib; rewrite ME (negPf bS); case: eqP => // e.
by move: ib; rewrite -e (negPf bS) (negPf bn).
Qed.

End Spectral.
