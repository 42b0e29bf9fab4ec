(** * DetExp: det X <= exp (tr X - n) for positive semidefinite X, and the bound on the acceptance probability of the
    intermediate samplers.  (No code of DPPy is modelled here.) *)
From Coq Require Import Reals Lra.
From mathcomp Require Import all_ssreflect all_algebra.
From Verif Require Import Prob Rstruct PProg P_Mcmc EighEx.
Set Implicit Arguments. Unset Strict Implicit. Unset Printing Implicit Defensive.
Import Order.Theory GRing.Theory Num.Theory.
Local Open Scope ring_scope.

Lemma sylvester (F : comRingType) m n (A : 'M[F]_(m, n)) (B : 'M[F]_(n, m)) : \det (1%:M + A *m B) = \det (1%:M + B *m A).
Proof.
pose X := block_mx 1%:M A (- B) 1%:M.
pose Y : 'M[F]_(m + n) := block_mx 1%:M (- A) 0 1%:M.
have dY : \det Y = 1 by rewrite det_ublock !det1 mulr1.
have e1 : X *m Y = block_mx 1%:M 0 (- B) (1%:M + B *m A).
  by rewrite mulmx_block !mul1mx !mulmx0 !mulmx1 !addr0 addNr mulNmx mulmxN opprK addrC.
have e2 : Y *m X = block_mx (1%:M + A *m B) 0 (- B) 1%:M.
  by rewrite mulmx_block !mul1mx !mul0mx !mulmx1 subrr !add0r mulNmx mulmxN opprK.
have d1 := congr1 determinant e1; have d2 := congr1 determinant e2.
rewrite !det_mulmx dY mulr1 mul1r det_lblock ?det_lblock in d1 d2.
by rewrite det1 mul1r in d1; rewrite det1 mulr1 in d2; rewrite -d2 -d1.
Qed.

Lemma exp_ge1D (x : R) : 1 + x <= exp x.
Proof. by apply/RleP; exact: exp_ineq1_le. Qed.
Lemma le_expB1 (x : R) : x <= exp (x - 1).
Proof. by rewrite -{1}[x](subrK 1) addrC exp_ge1D. Qed.
Lemma exp_sum (I : Type) (s : seq I) (P : pred I) (F : I -> R) : exp (\sum_(i <- s | P i) F i) = \prod_(i <- s | P i) exp (F i).
Proof. by elim/big_rec2: _ => [|i y1 y2 _ <-]; [exact: exp00|rewrite expD]. Qed.

Lemma trdiag1 n (d : 'rV[R]_n) : (diag_mx d)^T = diag_mx d.
Proof. by apply/matrixP => i j; rewrite !mxE eq_sym; case: eqP => [->|]. Qed.
Lemma qf_gram m n (A : 'M[R]_(m, n)) (v : 'cV[R]_n) : (v^T *m (A^T *m A) *m v) 0 0 = \sum_i ((A *m v) i 0) ^+ 2.
Proof.
rewrite mulmxA -trmx_mul -mulmxA mxE; apply: eq_bigr => i _; by rewrite mxE expr2.
Qed.
Lemma gram_psd m n (A : 'M[R]_(m, n)) : @is_psd RR n (A^T *m A).
Proof.
split; first by rewrite trmx_mul trmxK.
by move=> v; rewrite qf_gram; apply: sumr_ge0 => i _; rewrite sqr_ge0.
Qed.

(** spectral decomposition of a positive semidefinite matrix *)
Lemma psd_spectral n (X : 'M[R]_n) : @is_psd RR n X ->
  exists P : 'M[R]_n, exists2 d : 'rV[R]_n, (forall i, 0 <= d 0 i) &
    [/\ P^T *m P = 1%:M, P *m P^T = 1%:M & X = P *m diag_mx d *m P^T].
Proof.
move=> [sX qX]; have [P [d oP XE]] := @real_spectral RR n X sX.
exists P, d; last by split=> //; exact: mulmx1C oP.
move=> i; have := qX (col i P); suff -> : ((col i P)^T *m X *m col i P) 0 0 = d 0 i by [].
have e : P^T *m X *m P = diag_mx d by rewrite XE !mulmxA oP mul1mx -mulmxA oP mulmx1.
have -> : d 0 i = (P^T *m X *m P) i i by rewrite e !mxE eqxx mulr1n.
by rewrite tr_col -row_mul !mxE; apply: eq_bigr => k _; rewrite !mxE.
Qed.

Lemma psd_det_exp n (X : 'M[R]_n) : @is_psd RR n X -> \det X <= exp (\tr X - n%:R).
Proof.
move=> /psd_spectral [P [d d0 [oP oP' ->]]].
have -> : \det (P *m diag_mx d *m P^T) = \prod_i d 0 i.
  rewrite !det_mulmx mulrAC -det_mulmx oP' det1 mul1r det_diag //.
have -> : \tr (P *m diag_mx d *m P^T) = \sum_i d 0 i.
  by rewrite mxtrace_mulC mulmxA oP mul1mx mxtrace_diag.
have -> : \sum_i d 0 i - n%:R = \sum_i (d 0 i - 1).
  by rewrite sumrB sumr_const card_ord.
by rewrite exp_sum ler_prod // => i _; rewrite d0 le_expB1.
Qed.

Definition is_pd n (B : 'M[R]_n) : Prop := B^T = B /\ forall v : 'cV[R]_n, v != 0 -> 0 < (v^T *m B *m v) 0 0.

Lemma pd_psd n (B : 'M[R]_n) : is_pd B -> @is_psd RR n B.
Proof.
move=> [sB h]; split=> // v; have [->|v0] := eqVneq v 0; first by rewrite mulmx0 mxE.
exact: ltW (h v v0).
Qed.

(** B = C C^T with C invertible *)
Lemma pd_sqrt n (B : 'M[R]_n) : is_pd B -> exists2 C : 'M[R]_n, B = C *m C^T & C \in unitmx.
Proof.
move=> pB; have [P [d d0 [oP oP' BE]]] := psd_spectral (pd_psd pB).
have d1 i : 0 < d 0 i.
  have [_ h] := pB; have v0 : col i P != 0.
    apply/eqP => e; have : (P^T *m P) i i = 1 by rewrite oP mxE eqxx.
    rewrite mxE big1 => [|k _]; first by move/eqP; rewrite eq_sym oner_eq0.
    by have := congr1 (fun v : 'cV[R]_n => v k 0) e; rewrite !mxE => ->; rewrite mulr0.
  have := h _ v0; suff -> : ((col i P)^T *m B *m col i P) 0 0 = d 0 i by [].
  have e : P^T *m B *m P = diag_mx d by rewrite BE !mulmxA oP mul1mx -mulmxA oP mulmx1.
  have -> : d 0 i = (P^T *m B *m P) i i by rewrite e !mxE eqxx mulr1n.
  by rewrite tr_col -row_mul !mxE; apply: eq_bigr => k _; rewrite !mxE.
pose r : 'rV[R]_n := \row_i Num.sqrt (d 0 i : RR).
exists (P *m diag_mx r).
  rewrite BE trmx_mul trdiag1 !mulmxA; congr (_ *m _); rewrite -mulmxA; congr (_ *m _).
  rewrite mul_diag_mx; apply/matrixP => i j; rewrite !mxE; case: eqP => [->|_]; last by rewrite !mulr0n mulr0.
  by rewrite !mulr1n -expr2 sqr_sqrtr.
rewrite unitmx_mul unitmxE (_ : \det P \is a GRing.unit) /=; last first.
  by apply: contraTT isT => /negbTE; rewrite -unitmxE => h; have := mulmx1_unit oP' => -[]; rewrite h.
rewrite unitmxE det_diag unitfE prodf_seq_neq0; apply/allP => i _ /=; rewrite mxE sqrtr_eq0 -ltNge; exact: d1.
Qed.

Lemma pd_det_gt0 n (B : 'M[R]_n) : is_pd B -> 0 < \det B.
Proof.
move=> /pd_sqrt [C -> uC]; rewrite det_mulmx det_tr -expr2 lt_neqAle sqr_ge0 andbT eq_sym sqrf_eq0.
by rewrite -unitfE -unitmxE.
Qed.

Lemma det_exp_ineq n (N B : 'M[R]_n) : @is_psd RR n N -> is_pd B ->
  \det N <= \det B * exp (\tr (invmx B *m N) - n%:R).
Proof.
move=> [sN qN] pB; have [C BE uC] := pd_sqrt pB.
have uCt : C^T \in unitmx by rewrite unitmx_tr.
pose X := invmx C *m N *m (invmx C)^T.
have pX : @is_psd RR n X.
  split; first by rewrite /X !trmx_mul trmxK sN mulmxA.
  move=> v; have := qN ((invmx C)^T *m v); rewrite trmx_mul trmxK /X !mulmxA //.
have dX : \det N = \det B * \det X.
  rewrite BE /X !det_mulmx !det_tr det_inv mulrACA.
  have dC : \det C != 0 by rewrite -unitfE -unitmxE.
  by rewrite divff // mulr1 mulVKf.
have tX : \tr X = \tr (invmx B *m N).
  rewrite /X mxtrace_mulC mulmxA; congr (\tr (_ *m _)).
  have uB : C *m C^T \in unitmx by rewrite unitmx_mul uC.
  rewrite BE trmx_inv -[LHS](mulKmx uB) !mulmxA -[_ *m C *m C^T *m _]mulmxA mulmxV // mulmx1 -mulmxA mulmxV // mulmx1 //.
by rewrite dX -tX ler_pmul2l ?pd_det_gt0 // psd_det_exp.
Qed.

(** the bound used by the rejection step: with u rows b_i and weights w_i >= 0,
    det (I + diag(sqrt w) Phi Phi^T diag(sqrt w)) <= det B exp (sum_i w_i b_i^T B^-1 b_i + tr B^-1 - d) *)
Lemma accept_bound u d (Phi : 'M[R]_(u, d)) (B : 'M[R]_d) (w : 'rV[R]_u) : (forall i, 0 <= w 0 i) -> is_pd B ->
  \det (1%:M + \matrix_(i, j) (Num.sqrt (w 0 i : RR) * (Phi *m Phi^T) i j * Num.sqrt (w 0 j : RR))) <=
  \det B * exp (\sum_i w 0 i * (Phi *m invmx B *m Phi^T) i i + \tr (invmx B) - d%:R).
Proof.
move=> w0 pB; pose r : 'rV[R]_u := \row_i Num.sqrt (w 0 i : RR).
have -> : \matrix_(i, j) (Num.sqrt (w 0 i : RR) * (Phi *m Phi^T) i j * Num.sqrt (w 0 j : RR)) =
          (diag_mx r *m Phi) *m (Phi^T *m diag_mx r).
  rewrite mulmxA -[diag_mx r *m Phi *m _]mulmxA mul_diag_mx mul_mx_diag; apply/matrixP => i j; by rewrite !mxE.
rewrite sylvester -[_ *m diag_mx r *m _]mulmxA [diag_mx r *m (_ *m _)]mulmxA.
have -> : diag_mx r *m diag_mx r = diag_mx w.
  rewrite mul_diag_mx; apply/matrixP => i j; rewrite !mxE; case: eqP => [->|_]; last by rewrite !mulr0n mulr0.
  by rewrite !mulr1n -expr2 sqr_sqrtr.
have rE : \det (1%:M + Phi^T *m (diag_mx w *m Phi)) <=
  \det B * exp (\tr (invmx B *m (1%:M + Phi^T *m (diag_mx w *m Phi))) - d%:R).
  apply: det_exp_ineq => //; split.
    by rewrite linearD /= trmx1 !trmx_mul trdiag1 trmxK mulmxA.
  move=> v; rewrite mulmxDr mulmx1 mulmxDl mxE addr_ge0 //.
    by rewrite mxE sumr_ge0 // => i _; rewrite mxE -expr2 sqr_ge0.
  rewrite [v^T *m (_ *m _)]mulmxA -trmx_mul -mulmxA -[diag_mx w *m Phi *m v]mulmxA mul_diag_mx mxE sumr_ge0 // => i _.
  by rewrite mxE [X in _ * X]mxE mulrCA -expr2 mulr_ge0 ?sqr_ge0.
apply: le_trans rE _; rewrite ler_wpmul2l //; first exact: ltW (pd_det_gt0 pB).
suff -> : \tr (invmx B *m (1%:M + Phi^T *m (diag_mx w *m Phi))) = \sum_i w 0 i * (Phi *m invmx B *m Phi^T) i i + \tr (invmx B) by [].
rewrite mulmxDr mulmx1 raddfD /= addrC; congr (_ + _).
rewrite [invmx B *m _]mulmxA mxtrace_mulC -[diag_mx w *m Phi *m _]mulmxA [Phi *m (_ *m _)]mulmxA mul_diag_mx /mxtrace.
by apply: eq_bigr => i _; rewrite mxE.
Qed.
