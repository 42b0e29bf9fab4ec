(** * SpecLemmas: linear algebra behind the caches of FiniteDPP: eigenvalue bounds, K <-> L, QR of A^T, dual kernel. *)
From Coq Require Import String.
From mathcomp Require Import all_ssreflect all_algebra.
From mathcomp.algebra_tactics Require Import ring.
From Verif Require Import Prob Minor Chain ChainCons ExactModel ProjGS ProjKuTa ProjAll GenKernel Spectral LEnsemble QRex P_Proj P_Gen P_Spectral P_Mcmc FiniteModel.
Set Implicit Arguments. Unset Strict Implicit. Unset Printing Implicit Defensive.
Import Order.Theory GRing.Theory Num.Theory.
Local Open Scope ring_scope.

(** Contract of scipy.linalg.eigh: a full orthonormal eigenbasis of every symmetric matrix. *)
Definition eigh_contract (R : rcfType) (eigh : forall n : nat, 'M[R]_n -> seq R * seq 'cV[R]_n) : Prop :=
  forall n (M : 'M[R]_n), M^T = M -> size (eigh n M).2 = n /\ spectral_decomposition M (eigh n M).1 (eigh n M).2.

Section S.
Variables (R : rcfType) (N : nat).
Implicit Types (A K L : 'M[R]_N) (vs : seq 'cV[R]_N).

(** [is_L_of K L]: L is the likelihood kernel of the DPP with correlation kernel K, K = L (I+L)^-1. *)
Definition is_L_of K L : Prop := is_psd L /\ K *m (1%:M + L) = L.

Lemma sdE A lam vs : spectral_decomposition A lam vs <->
  [/\ size lam = size vs, (colmx vs)^T *m colmx vs = 1%:M & A = kern lam vs].
Proof. by split=> -[sz o ->]; split=> //; rewrite kernE. Qed.

Lemma recomposeE lam vs : size lam = size vs -> recompose lam vs = kern lam vs.
Proof. by move=> sz; rewrite kernE. Qed.

Lemma sd_entry A lam vs (i : 'I_(size vs)) : spectral_decomposition A lam vs ->
  ((tnth (in_tuple vs) i)^T *m A *m tnth (in_tuple vs) i) 0 0 = nth 0 lam i /\
  ((tnth (in_tuple vs) i)^T *m tnth (in_tuple vs) i) 0 0 = 1.
Proof.
case=> sz o AE; set V := colmx vs in o AE.
have vE : tnth (in_tuple vs) i = col i V by apply/colP => k; rewrite !mxE.
have e : V^T *m A *m V = diag_mx (\row_(i < size vs) nth 0 lam i).
  by rewrite AE !mulmxA o mul1mx -mulmxA o mulmx1.
rewrite vE tr_col; split.
  have <- : (V^T *m A *m V) i i = nth 0 lam i by rewrite e !mxE eqxx mulr1n.
  by rewrite -row_mul !mxE; apply: eq_bigr => k _; rewrite !mxE.
have <- : (V^T *m V) i i = 1 by rewrite o mxE eqxx.
by rewrite !mxE; apply: eq_bigr => k _; rewrite !mxE.
Qed.

Lemma sd_all A lam vs (P : R -> bool) : spectral_decomposition A lam vs ->
  (forall v : 'cV[R]_N, (v^T *m v) 0 0 = 1 -> P ((v^T *m A *m v) 0 0)) -> all P lam.
Proof.
move=> sd h; apply/(all_nthP 0) => i ilam.
have iv : (i < size vs)%N by have [szl _ _] := sd; rewrite -szl.
have [e n] := sd_entry (Ordinal iv) sd.
by rewrite -[nth 0 lam i]e; exact: h.
Qed.

Lemma sd_psd A gam vs : spectral_decomposition A gam vs -> is_psd A -> all (fun g => 0 <= g) gam.
Proof. by move=> sd [_ h]; apply: (sd_all sd) => v _; exact: h. Qed.

Lemma sd_dpp A lam vs : spectral_decomposition A lam vs -> is_dpp_kernel A -> all (fun g => 0 <= g <= 1) lam.
Proof. by move=> sd [_ h]; apply: (sd_all sd) => v n; rewrite -[X in _ <= _ <= X]n; exact: h. Qed.

Lemma kern_is_psd gam vs : size gam = size vs -> all (fun g => 0 <= g) gam -> is_psd (kern gam vs).
Proof.
move=> sz g0; split=> [|v]; first exact: kern_sym.
rewrite kern_qf //; apply: sumr_ge0 => i _; rewrite mulr_ge0 ?sqr_ge0 //.
by apply: (allP g0); rewrite mem_nth // sz.
Qed.

(** from the spectrum of L to the spectrum of K *)
Lemma sd_L_to_K K L gam vs : is_L_of K L -> spectral_decomposition L gam vs ->
  spectral_decomposition K [seq g / (1 + g) | g <- gam] vs.
Proof.
move=> [pL KL] sd; have g0 := sd_psd sd pL; move/sdE: sd => [sz o LE]; apply/sdE; split=> //; first by rewrite size_map.
have [e1 e2] := kern_inv sz g0 o.
by rewrite -[LHS]mulmx1 -e2 mulmxA -LE KL LE e1.
Qed.

(** from the spectrum of K to the spectrum of L *)
Lemma sd_K_to_L K lam vs : all (fun l => 0 <= l < 1) lam -> spectral_decomposition K lam vs ->
  let gam := [seq l / (1 - l) | l <- lam] in
  [/\ all (fun g => 0 <= g) gam, spectral_decomposition (kern gam vs) gam vs & is_L_of K (kern gam vs)].
Proof.
move=> l01 /sdE[sz o KE] gam.
have szg : size gam = size vs by rewrite size_map.
have g0 : all (fun g => 0 <= g) gam.
  apply/allP => g /mapP[l /(allP l01)/andP[l0 l1] ->].
  by rewrite mulr_ge0 // invr_ge0 subr_ge0 ltW.
have back : [seq g / (1 + g) | g <- gam] = lam.
  rewrite /gam -map_comp -[RHS]map_id; apply/eq_in_map => l /(allP l01)/andP[l0 l1] /=.
  have d0 : 1 - l != 0 by rewrite subr_eq0 eq_sym lt_eqF.
  have alg (x : R) : 1 - x != 0 -> x / (1 - x) / (1 + x / (1 - x)) = x.
    move=> h; have -> : 1 + x / (1 - x) = (1 - x)^-1 by field.
    by rewrite invrK divfK.
  exact: alg.
have [e1 e2] := kern_inv szg g0 o; rewrite back -KE in e1 e2.
split=> //; first exact/sdE.
split; first exact: kern_is_psd.
by have := mulmx1C e2; rewrite mulmxBl mul1mx => /eqP; rewrite subr_eq => /eqP /addrI.
Qed.

(** uniqueness of L *)
Lemma is_L_of_unique K L L' : is_L_of K L -> is_L_of K L' -> L = L'.
Proof.
have h M : is_L_of K M -> (1%:M + M) *m (1%:M - K) = 1%:M.
  move=> [_ e]; apply: mulmx1C; by rewrite mulmxBl mul1mx e addrK.
move=> l l'; apply: (addrI 1%:M).
by rewrite -[LHS]mulmx1 -[X in _ *m X = _](mulmx1C (h _ l')) mulmxA (h _ l) mul1mx.
Qed.

Lemma is_L_of_dpp K L : is_L_of K L -> exists L1, L1 = L /\ (1%:M - K) *m (1%:M + L) = 1%:M.
Proof. by move=> [_ e]; exists L; split=> //; rewrite mulmxBl mul1mx e addrK. Qed.

End S.

Section S2.
Variables (R : rcfType) (N : nat).
Implicit Types (A K L : 'M[R]_N) (vs : seq 'cV[R]_N).
(** orthonormal columns of the QR factorisation of A^T *)
Variable qr : forall r : nat, 'M[R]_(N, r) -> 'M[R]_(N, r).
Hypothesis qrP : qr_contract qr.

Lemma cols_gram d (Q : 'M[R]_(N, d)) : \sum_(v <- [seq col j Q | j <- enum 'I_d]) v *m v^T = Q *m Q^T.
Proof.
rewrite big_map big_enum /=; apply/matrixP => i j; rewrite summxE mxE; apply: eq_bigr => k _.
by rewrite !mxE big_ord_recl big_ord0 !mxE addr0.
Qed.

Lemma cols_ortho d (Q : 'M[R]_(N, d)) : Q^T *m Q = 1%:M ->
  let vs := [seq col j Q | j <- enum 'I_d] in (colmx vs)^T *m colmx vs = 1%:M.
Proof.
move=> o vs; apply/ortho_list.
have dE i j : dot (col i Q) (col j Q) = (i == j)%:R.
  have := congr1 (fun M : 'M_d => M i j) o; rewrite /= [in X in _ = X]mxE => <-.
  by rewrite /dot !mxE; apply: eq_bigr => k _; rewrite !mxE.
split; first by rewrite /vs all_map; apply/allP => i _ /=; rewrite dE eqxx.
rewrite /vs pairwise_map; have := enum_uniq 'I_d.
elim: (enum 'I_d) => //= i s IH /andP[ni us]; rewrite IH // andbT.
apply/allP => j js /=; rewrite dE; have [ij|//] := eqVneq i j.
by move: ni; rewrite ij js.
Qed.

Lemma kern_ones vs : kern (nseq (size vs) 1) vs = \sum_(v <- vs) v *m v^T.
Proof. by elim: vs => [|v vs IH] /=; rewrite ?big_nil // big_cons scale1r IH. Qed.

Lemma qr_proj d (A : 'M[R]_(d, N)) : row_free A ->
  qr A^T *m (qr A^T)^T = A^T *m invmx (A *m A^T) *m A.
Proof.
move=> rf; have [o sp] := qrP (r := d) (W := A^T) (etrans (congr1 _ (trmxK A)) rf).
rewrite trmxK in sp; set Q := qr A^T in o sp *.
have [s1 s2] : (Q^T <= A)%MS /\ (A <= Q^T)%MS by case/andP: sp.
have uA : A *m A^T \in unitmx.
  rewrite -row_free_unit; apply: inj_row_free => u uAA.
  have : (u *m A) *m (u *m A)^T = 0 by rewrite trmx_mul mulmxA -(mulmxA u) uAA mul0mx.
  move=> /(congr1 (fun M : 'M_1 => M 0 0)); rewrite [RHS]mxE => /sq_row_eq0 uA.
  by apply: (row_free_inj rf); rewrite uA mul0mx.
apply: proj_eq.
- by split; rewrite ?trmx_mul ?trmxK // mulmxA -(mulmxA Q) o mulmx1.
- split; first by rewrite !trmx_mul trmxK trmx_inv trmx_mul trmxK mulmxA.
  by rewrite -!mulmxA [A *m (A^T *m _)]mulmxA (mulKVmx uA).
- (* (QQ^T)(A^T ...) = A^T ... since A^T = Q X *)
  have [X AX] := submxP s2.
  have AtE : A^T = Q *m X^T by rewrite AX trmx_mul trmxK.
  by rewrite !mulmxA; congr (_ *m _ *m _); rewrite AtE mulmxA -(mulmxA Q) o mulmx1.
- have [X QX] := submxP s1.
  have QE : Q = A^T *m X^T by rewrite -trmx_mul -QX trmxK.
  rewrite mulmxA; congr (_ *m _); rewrite QE mulmxA; congr (_ *m _).
  by rewrite -!mulmxA mulVmx ?mulmx1.
Qed.

Lemma sd_qr (A : {d : nat & 'M[R]_(d, N)}) : row_free (tagged A) ->
  spectral_decomposition ((tagged A)^T *m invmx (tagged A *m (tagged A)^T) *m tagged A) (nseq (tag A) 1) (qr_cols qr A).
Proof.
move=> rf; apply/sdE.
have szc : size (qr_cols qr A) = tag A by rewrite size_map -cardT card_ord.
have [o sp] := qrP (r := tag A) (W := (tagged A)^T) (etrans (congr1 _ (trmxK (tagged A))) rf).
split; first by rewrite size_nseq szc.
  exact: cols_ortho.
have -> : nseq (tag A) (1 : R) = nseq (size (qr_cols qr A)) 1 by rewrite szc.
by rewrite kern_ones cols_gram qr_proj.
Qed.

(** dual kernel *)
Lemma dual_sd (Phi : {d : nat & 'M[R]_(d, N)}) theta (W : seq 'cV[R]_(tag Phi)) :
  row_free (tagged Phi) -> size W = tag Phi ->
  spectral_decomposition (tagged Phi *m (tagged Phi)^T) theta W ->
  all (fun t => 0 < t) theta /\
  spectral_decomposition ((tagged Phi)^T *m tagged Phi) theta (dual_vecs theta W).
Proof.
case: Phi W => d Phi /= W rf szW /sdE[sz o PE].
have dW i j : (i < size W)%N -> (j < size W)%N -> dot (nth 0 W i) (nth 0 W j) = (i == j)%:R.
  move=> iW jW; have := congr1 (fun M : 'M_(size W) => M (Ordinal iW) (Ordinal jW)) o.
  rewrite /= [in X in _ = X]mxE -val_eqE /= => <-; rewrite /dot !mxE; apply: eq_bigr => k _.
  by rewrite !mxE !(tnth_nth 0).
have sd' : spectral_decomposition (Phi *m Phi^T) theta W by apply/sdE.
have t0 : all (fun t => 0 < t) theta.
  apply: (sd_all sd') => v nv.
  have -> : v^T *m (Phi *m Phi^T) *m v = (v^T *m Phi) *m (v^T *m Phi)^T by rewrite trmx_mul trmxK !mulmxA.
  rewrite lt_neqAle sq_row_ge0 andbT eq_sym; apply/eqP => /sq_row_eq0 z.
  have : v^T = 0 by apply: (row_free_inj rf); rewrite z mul0mx.
  by move=> vz; move: nv; rewrite vz mul0mx mxE => /esym/eqP; rewrite oner_eq0.
split=> //; apply/sdE.
have szd : size (dual_vecs (Phi := existT _ d Phi) theta W) = size W.
  by rewrite size_map size_zip /= sz minnn.
have WW : \sum_(w <- W) w *m w^T = 1%:M.
  rewrite -colmx_gram; move: (colmx W) o; rewrite szW => Q; exact: mulmx1C.
have dn i : (i < size W)%N -> nth 0 (dual_vecs (Phi := existT _ d Phi) theta W) i =
    Phi^T *m ((Num.sqrt (nth 0 theta i))^-1 *: nth 0 W i).
  move=> iW; rewrite (nth_map (0, 0)) ?size_zip /= ?sz ?minnn //; by rewrite nth_zip ?sz.
have ev j : (j < size W)%N -> Phi *m Phi^T *m nth 0 W j = nth 0 theta j *: nth 0 W j.
  move=> jW; rewrite PE kernE //.
  have -> : nth 0 W j = colmx W *m delta_mx (Ordinal jW) 0.
    by rewrite -colE; apply/colP => k; rewrite !mxE (tnth_nth 0).
  rewrite -!mulmxA [(colmx W)^T *m _]mulmxA o mul1mx scalemxAr; congr (_ *m _).
  apply/colP => k; rewrite mul_diag_mx !mxE /= eqxx andbT.
  by case: (k =P Ordinal jW) => [->|_]; rewrite ?mulr0.
split; first by rewrite szd.
- apply/matrixP => i j; rewrite !mxE.
  have iW : (i < size W)%N by rewrite -szd. have jW : (j < size W)%N by rewrite -szd.
  transitivity (dot (nth 0 (dual_vecs (Phi := existT _ d Phi) theta W) i) (nth 0 (dual_vecs (Phi := existT _ d Phi) theta W) j)).
    by rewrite /dot mxE; apply: eq_bigr => k _; rewrite !mxE !(tnth_nth 0).
  rewrite !dn // /dot trmx_mul trmxK -!mulmxA [Phi *m (_ *m _)]mulmxA -scalemxAr ev //.
  rewrite scalerA [(_ *: _)^T]linearZ /= -scalemxAl -scalemxAr scalerA mxE -/(dot _ _) dW //.
  have tj : 0 < nth 0 theta j by apply: (allP t0); rewrite mem_nth ?sz.
  rewrite -val_eqE /=; case: (val i =P val j) => [->|_]; last by rewrite mulr0.
  have s0 : Num.sqrt (nth 0 theta j) != 0 by rewrite gt_eqF // sqrtr_gt0.
  have e : Num.sqrt (nth 0 theta j) * Num.sqrt (nth 0 theta j) = nth 0 theta j by rewrite -expr2 sqr_sqrtr // ltW.
  have alg (a b : R) : a != 0 -> a * a = b -> a^-1 * (a^-1 * b) * 1 = 1.
    by move=> a0 <-; rewrite mulr1 mulKf // mulVf.
  exact: alg.
rewrite -[LHS]mulmx1 -[LHS]mulmxA; rewrite mulmx1.
have -> : Phi^T *m Phi = \sum_(w <- W) (Phi^T *m w) *m (Phi^T *m w)^T.
  transitivity (Phi^T *m (\sum_(w <- W) w *m w^T) *m Phi); first by rewrite WW mulmx1.
  rewrite mulmx_sumr mulmx_suml; apply: eq_bigr => w _; by rewrite trmx_mul trmxK !mulmxA.
rewrite /dual_vecs /=; move: sz t0; clear o PE sd' szW szd WW dW dn ev; move: W theta; elim=> [|w W IH] [|t theta] //=.
  by rewrite big_nil.
move=> [sz] /andP[t0 ts]; rewrite big_cons (IH theta) //; congr (_ + _).
rewrite -!scalemxAr [(_ *: _)^T]linearZ /= -scalemxAl -scalemxAr !scalerA.
have s0 : Num.sqrt t != 0 by rewrite gt_eqF // sqrtr_gt0.
have e : Num.sqrt t * Num.sqrt t = t by rewrite -expr2 sqr_sqrtr // ltW.
have -> : t / Num.sqrt t / Num.sqrt t = 1.
  have alg (a b : R) : a != 0 -> a * a = b -> b / a / a = 1 by move=> a0 <-; rewrite mulfK // divff.
  exact: alg.
by rewrite scale1r.
Qed.

End S2.
