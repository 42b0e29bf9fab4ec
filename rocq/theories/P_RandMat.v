(** * P_RandMat: supports of the tridiagonal models of random_matrices.py (C41, C42). *)
From mathcomp Require Import all_ssreflect all_algebra.
From mathcomp.algebra_tactics Require Import ring.
From Verif Require Import Prob RandMatModel RandMat.
Set Implicit Arguments. Unset Strict Implicit. Unset Printing Implicit Defensive.
Import Order.Theory GRing.Theory Num.Theory.
Local Open Scope ring_scope.

Section P.
Variable R : rcfType.
Variable eig : seq R -> seq R -> seq R.

(** scipy.linalg.eigvalsh_tridiagonal(d, e) returns the roots of the characteristic polynomial, with multiplicity. *)
Definition eigvalsh_tridiagonal_contract : Prop := forall d e : seq R, (0 < size d)%N -> size e = (size d).-1 ->
  char_poly (tridiag (size d) d e) = \prod_(x <- eig d e) ('X - x%:P).
Hypothesis eigP : eigvalsh_tridiagonal_contract.

Lemma nth_vadd (u v : seq R) i : size u = size v -> nth 0 (vadd u v) i = nth 0 u i + nth 0 v i.
Proof.
move=> sz; have [lt|ge] := ltnP i (size u); last first.
  by rewrite !nth_default ?addr0 // ?size_map ?size_zip -?sz // minnn.
by rewrite (nth_map (0, 0)) ?nth_zip // size_zip -sz minnn.
Qed.
Lemma nth_vmul (u v : seq R) i : size u = size v -> nth 0 (vmul u v) i = nth 0 u i * nth 0 v i.
Proof.
move=> sz; have [lt|ge] := ltnP i (size u); last first.
  by rewrite !nth_default ?mulr0 // ?size_map ?size_zip -?sz // minnn.
by rewrite (nth_map (0, 0)) ?nth_zip // size_zip -sz minnn.
Qed.
Lemma size_vadd (u v : seq R) : size u = size v -> size (vadd u v) = size u.
Proof. by move=> sz; rewrite size_map size_zip -sz minnn. Qed.
Lemma size_vmul (u v : seq R) : size u = size v -> size (vmul u v) = size u.
Proof. by move=> sz; rewrite size_map size_zip -sz minnn. Qed.
Lemma nth_vsqrt (u : seq R) i : nth 0 (vsqrt u) i = Num.sqrt (nth 0 u i).
Proof.
have [lt|ge] := ltnP i (size u); first by rewrite (nth_map 0).
by rewrite !nth_default ?size_map // sqrtr0.
Qed.
Lemma size_sl_m1 A (u : seq A) : size (sl_beg_m1 u) = (size u).-1.
Proof. by rewrite size_take; case: (size u) => //= n; rewrite leqnn. Qed.
Lemma nth_sl_m1 A (x0 : A) (u : seq A) i : (i < (size u).-1)%N -> nth x0 (sl_beg_m1 u) i = nth x0 u i.
Proof. by move=> lt; rewrite nth_take. Qed.

(** the matrix built by the two samplers from the vectors xi_even = 0 :: q, xi_odd *)
Lemma tri_core n (p q : nat -> R) (d e : seq R) (s : R) : s * s = 1 -> q 0%N = 0 ->
  (forall i, (i < n)%N -> 0 <= p i) -> (forall i, (i < n)%N -> 0 <= q i) ->
  (forall i, (i < n)%N -> nth 0 d i = q i + p i) ->
  (forall i, (i.+1 < n)%N -> nth 0 e i = s * Num.sqrt (p i * q i.+1)) ->
  tridiag n d e = (\matrix_(i < n, k < n) bid s p q i k) *m (\matrix_(i < n, k < n) bid s p q i k)^T.
Proof.
move=> ss q0 p0 q_ge Hd He; apply: bid_fact => // [i|i j E|i j E|i j n1 n2 n3].
- by rewrite mxE eqxx Hd.
- have lt : (i.+1 < n)%N by rewrite -E.
  by rewrite mxE E eqxx [(_ == _)%N](negbTE _) ?neq_ltn ?leqnn // He.
- have lt : (j.+1 < n)%N by rewrite -E.
  rewrite mxE E eqxx [(_ == _)%N](negbTE _) ?neq_ltn ?leqnn ?orbT // [(_ == _)%N](negbTE _) ?neq_ltn ?leqnSn //.
  by rewrite He.
by rewrite mxE (negbTE n1) (negbTE n2) (negbTE n3).
Qed.

Lemma tri_trace n (d e : seq R) : \tr (tridiag n d e) = \sum_(i < n) nth 0 d i.
Proof. by apply: eq_bigr => i _; rewrite mxE eqxx. Qed.

Lemma b2_size (b : R) n : size [seq 2%:R^-1 * b * k%:R | k <- arange_down n] = n.
Proof. by rewrite size_map size_rev size_iota. Qed.
Lemma b2_nth (b : R) n i : (i < n)%N ->
  nth 0 [seq 2%:R^-1 * b * k%:R | k <- arange_down n] i = 2%:R^-1 * b * (n.-1 - i)%:R.
Proof.
move=> lt; rewrite (nth_map 0%N) ?size_rev ?size_iota // nth_rev ?size_iota // nth_iota ?add0n; last by rewrite ltn_subrL (leq_trans _ lt).
by rewrite subnS; case: n lt => // n lt; rewrite /= subSn.
Qed.

Section Gamma.
Variable gamma : nat -> nat -> R -> R -> R.
(** draws of rng.gamma are nonnegative *)
Hypothesis gamma_ge0 : forall k i a s, 0 <= a -> 0 <= s -> 0 <= gamma k i a s.
Variables (shape scale beta : R) (N : nat).
Hypothesis N0 : (0 < N)%N.

Definition godd i := gamma 0 i (2%:R^-1 * beta * (N.-1 - i)%:R + shape) scale.
Definition geven i := gamma 1 i (2%:R^-1 * beta * (N.-1 - i)%:R) scale.

Lemma gamma_run l : mu_ref_gamma_sampler_tridiag eig gamma shape scale beta N = inl l ->
  exists d e, [/\ l = eig d e, size d = N, size e = N.-1,
    (forall i, (i < N)%N -> nth 0 d i = (if i is k.+1 then geven k else 0) + godd i) /\
    (forall i, (i.+1 < N)%N -> nth 0 e i = Num.sqrt (godd i * geven i)) &
    (forall i, (i < N)%N -> 0 <= godd i) /\ (forall i, (i.+1 < N)%N -> 0 <= geven i)].
Proof.
rewrite /mu_ref_gamma_sampler_tridiag; case: ifP => // _; rewrite {1}/rng_gamma; case: ifP => //= h1.
rewrite {1}/rng_gamma; case: ifP => //= h2 [<-].
move: h1 h2; rewrite !size_map size_rev size_iota !size_sl_m1 size_map size_rev size_iota.
set xe := mkseq _ _; set xo := mkseq _ _; move=> h1 h2.
have sxo : size xo = N by rewrite size_mkseq.
have sxe : size xe = N.-1 by rewrite size_mkseq.
have xoE i : (i < N)%N -> nth 0 xo i = godd i.
  move=> lt; rewrite nth_mkseq // /godd; congr (gamma _ _ _ _).
  by rewrite (nth_map 0) ?b2_size // b2_nth.
have xeE i : (i.+1 < N)%N -> nth 0 xe i = geven i.
  move=> lt; have lt' : (i < N.-1)%N by case: (N) lt.
  rewrite nth_mkseq // /geven; congr (gamma _ _ _ _).
  by rewrite nth_sl_m1 ?b2_size // b2_nth // ltnW.
have sz : size (zeros_then N xe) = size xo by rewrite sxo; case: (N) N0 sxe => //= n _ ->.
have zE i : (i < N)%N -> nth 0 (zeros_then N xe) i = if i is k.+1 then geven k else 0.
  by move=> lt; rewrite /zeros_then; case: (N) lt N0 xeE => // n lt _ xeE; case: i lt => // i lt; rewrite /= xeE.
exists (vadd (zeros_then N xe) xo), (vsqrt (vmul (sl_beg_m1 xo) (sl_1_end (zeros_then N xe)))).
have szb : size (sl_beg_m1 xo) = size (sl_1_end (zeros_then N xe)).
  by rewrite size_sl_m1 /sl_1_end size_behead sz.
split => //.
- by rewrite size_vadd // sz sxo.
- by rewrite size_map size_vmul // size_sl_m1 sxo.
- split=> i lt; first by rewrite nth_vadd // zE // xoE.
  have lt' : (i < N.-1)%N by case: (N) lt.
  rewrite nth_vsqrt ?size_vmul ?size_sl_m1 ?sxo // nth_vmul // nth_sl_m1 ?sxo // xoE; last exact: ltnW.
  by rewrite nth_behead zE.
- move: h1 h2 => /negbT; rewrite negb_or -leNgt => /andP[/hasPn h1 s0] /negbT; rewrite negb_or => /andP[/hasPn h2 _].
  split=> i lt; apply: gamma_ge0 => //.
    have := h1 (2%:R^-1 * beta * (N.-1 - i)%:R + shape); rewrite -leNgt; apply.
    rewrite /vshift; apply: map_f (_ : 2%:R^-1 * beta * (N.-1 - i)%:R \in _).
    by rewrite -b2_nth // mem_nth ?b2_size.
  have lt' : (i < N.-1)%N by case: (N) lt.
  have := h2 (2%:R^-1 * beta * (N.-1 - i)%:R); rewrite -leNgt; apply.
  by rewrite -b2_nth ?(ltnW lt) // -[nth _ _ _](@nth_sl_m1 _ 0) ?b2_size // mem_nth // size_sl_m1 b2_size.
Qed.

(** ** C41: the points returned by the Laguerre tridiagonal sampler are N nonnegative numbers; their product and sum
    are the stated functions of the draws (shape parameters beta/2 (N-1-i) + shape and beta/2 (N-1-i)). *)
Theorem C41_gamma_support l : mu_ref_gamma_sampler_tridiag eig gamma shape scale beta N = inl l ->
  [/\ size l = N, all (fun x => 0 <= x) l,
      \prod_(x <- l) x = \prod_(i < N) gamma 0 i (2%:R^-1 * beta * (N.-1 - i)%:R + shape) scale &
      \sum_(x <- l) x = \sum_(i < N) gamma 0 i (2%:R^-1 * beta * (N.-1 - i)%:R + shape) scale
                      + \sum_(i < N.-1) gamma 1 i (2%:R^-1 * beta * (N.-1 - i)%:R) scale].
Proof.
move=> /gamma_run [d [e [-> sd se [Hd He] [p0 q0]]]].
have := eigP (d := d) (e := e); rewrite sd se => /(_ N0 erefl) rt.
pose q i := if i is k.+1 then geven k else 0.
have q_ge i : (i < N)%N -> 0 <= q i by case: i => // i; exact: q0.
have He1 i : (i.+1 < N)%N -> nth 0 e i = 1 * Num.sqrt (godd i * q i.+1) by move=> lt; rewrite mul1r; exact: He.
have TE := @tri_core N godd q d e 1 (mulr1 1) erefl p0 q_ge Hd He1.
split.
- exact: roots_size rt.
- by apply/allP => x; rewrite (roots_eigen _ rt) TE; exact: gram_eigen_ge0.
- by rewrite (roots_det rt) TE bid_det.
rewrite (roots_trace N0 rt) tri_trace (eq_bigr (fun i : 'I_N => q i + godd i)); last by move=> i _; rewrite Hd.
rewrite big_split /= addrC; congr (_ + _).
rewrite -(big_mkord xpredT q) -[RHS](big_mkord xpredT geven).
by rewrite -[X in index_iota 0 X](prednK N0) big_nat_recl //= add0r.
Qed.

(** the sampler raises ValueError exactly on invalid parameters *)
Theorem C41_gamma_total : 0 < beta -> 0 <= shape -> 0 <= scale ->
  exists l, mu_ref_gamma_sampler_tridiag eig gamma shape scale beta N = inl l.
Proof.
move=> b0 sh0 sc0; rewrite /mu_ref_gamma_sampler_tridiag b0 /= /rng_gamma.
have pos k : 0 <= 2%:R^-1 * beta * k%:R :> R by rewrite !mulr_ge0 ?invr_ge0 ?ler0n // ltW.
case: ifP => [/orP[/hasP[x /mapP[y /mapP[k _ ->] ->]]|]|_] /=.
- by rewrite ltNge addr_ge0.
- by rewrite ltNge sc0.
case: ifP => [/orP[/hasP[x /mem_take /mapP[k _ ->]]|]|_] /=.
- by rewrite ltNge pos.
- by rewrite ltNge sc0.
by eexists.
Qed.
Theorem C41_gamma_beta_invalid : beta <= 0 ->
  mu_ref_gamma_sampler_tridiag eig gamma shape scale beta N = inr ValueError.
Proof. by move=> b0; rewrite /mu_ref_gamma_sampler_tridiag ltNge b0. Qed.
End Gamma.

Section Beta.
Variable betad : nat -> nat -> R -> R -> R.
(** draws of rng.beta are in [0, 1] *)
Hypothesis beta_01 : forall k i a b, 0 < a -> 0 < b -> 0 <= betad k i a b <= 1.
Variables (a b beta : R) (N : nat).
Hypothesis N0 : (0 < N)%N.

Definition codd i := betad 0 i (2%:R^-1 * beta * (N.-1 - i)%:R + a) (2%:R^-1 * beta * (N.-1 - i)%:R + b).
Definition ceven i := if i is k.+1 then
  betad 1 k (2%:R^-1 * beta * (N.-1 - k)%:R) (2%:R^-1 * beta * (N.-1 - i)%:R + a + b) else 0.

Lemma nth_vcompl (u : seq R) i : (i < size u)%N -> nth 0 (vcompl u) i = 1 - nth 0 u i.
Proof. by move=> lt; rewrite (nth_map 0). Qed.
Lemma size_vcompl (u : seq R) : size (vcompl u) = size u.
Proof. exact: size_map. Qed.
Lemma nth_vshift c (u : seq R) i : (i < size u)%N -> nth 0 (vshift c u) i = nth 0 u i + c.
Proof. by move=> lt; rewrite (nth_map 0). Qed.
Lemma size_zeros n (u : seq R) : (0 < n)%N -> size u = n.-1 -> size (zeros_then n u) = n.
Proof. by case: n => //= n _ ->. Qed.

Lemma beta_run l : mu_ref_beta_sampler_tridiag eig betad a b beta N = inl l ->
  exists d e, [/\ l = eig d e, size d = N, size e = N.-1,
    (forall i, (i < N)%N -> nth 0 d i = (if i is k.+1 then (1 - codd k) * ceven i else 0) + (1 - ceven i) * codd i) /\
    (forall i, (i.+1 < N)%N -> nth 0 e i = Num.sqrt ((1 - ceven i) * codd i * ((1 - codd i) * ceven i.+1))) &
    (forall i, (i < N)%N -> 0 <= codd i <= 1) /\ (forall i, (i < N)%N -> 0 <= ceven i <= 1)].
Proof.
rewrite /mu_ref_beta_sampler_tridiag; case: ifP => // _; rewrite {1}/rng_beta; case: ifP => //= h1.
rewrite {1}/rng_beta; case: ifP => //= h2 [<-].
move: h1 h2; rewrite size_map b2_size size_sl_m1 b2_size; set bb := map _ (arange_down N).
have sbb : size bb = N by exact: b2_size.
set co := mkseq _ _; set cE := mkseq _ _; move=> h1 h2.
have sco : size co = N by rewrite size_mkseq.
have sce : size cE = N.-1 by rewrite size_mkseq.
have ltp i : (i.+1 < N)%N -> (i < N.-1)%N by case: (N).
have coE i : (i < N)%N -> nth 0 co i = codd i.
  by move=> lt; rewrite nth_mkseq // /codd !nth_vshift ?sbb // b2_nth.
have ceE i : (i.+1 < N)%N -> nth 0 cE i = ceven i.+1.
  move=> lt; rewrite nth_mkseq ?ltp // /ceven nth_sl_m1 ?sbb ?ltp // b2_nth; last exact: ltnW.
  rewrite !nth_vshift ?size_map ?size_behead ?sbb ?ltp // nth_behead b2_nth //.
set ce := zeros_then N cE.
have sz : size ce = N by rewrite size_zeros.
have zE i : (i < N)%N -> nth 0 ce i = ceven i.
  by move=> lt; rewrite /ce /zeros_then; case: (N) lt N0 ceE => // n lt _ ceE; case: i lt => // i lt; rewrite [nth _ _ _]ceE.
set xo := vmul (vcompl ce) co.
have sxo : size xo = N by rewrite size_vmul size_vcompl // sz.
have xoE i : (i < N)%N -> nth 0 xo i = (1 - ceven i) * codd i.
  by move=> lt; rewrite nth_vmul ?size_vcompl ?sz // nth_vcompl ?sz // zE // coE.
have szb : size (vcompl (sl_beg_m1 co)) = size (sl_1_end ce) by rewrite size_vcompl size_sl_m1 /sl_1_end size_behead sz sco.
set xe0 := vmul (vcompl (sl_beg_m1 co)) (sl_1_end ce).
have sxe0 : size xe0 = N.-1 by rewrite size_vmul // szb size_behead sz.
have xe0E i : (i.+1 < N)%N -> nth 0 xe0 i = (1 - codd i) * ceven i.+1.
  move=> lt; rewrite nth_vmul // nth_vcompl ?size_sl_m1 ?sco ?ltp // nth_sl_m1 ?sco ?ltp // coE; last exact: ltnW.
  by rewrite nth_behead zE.
set xe := zeros_then N xe0.
have sxe : size xe = N by rewrite size_zeros.
have xeE i : (i < N)%N -> nth 0 xe i = if i is k.+1 then (1 - codd k) * ceven i else 0.
  by move=> lt; rewrite /xe /zeros_then; case: (N) lt N0 xe0E => // n lt _ xeE; case: i lt => // i lt; rewrite [nth _ _ _]xeE.
have szc : size (sl_beg_m1 xo) = size (sl_1_end xe) by rewrite size_sl_m1 /sl_1_end size_behead sxo sxe.
exists (vadd xe xo), (vsqrt (vmul (sl_beg_m1 xo) (sl_1_end xe))); split => //.
- by rewrite size_vadd // sxe.
- by rewrite size_map size_vmul // size_sl_m1 sxo.
- split=> i lt; first by rewrite nth_vadd ?sxe // xeE // xoE.
  rewrite nth_vsqrt nth_vmul // nth_sl_m1 ?sxo ?ltp // xoE; last exact: ltnW.
  by rewrite nth_behead xeE.
- move: h1 h2 => /negbT; rewrite negb_or => /andP[/hasPn h1 /hasPn h1'] /negbT; rewrite negb_or => /andP[/hasPn h2 /hasPn h2'].
  split=> i lt.
    apply: beta_01; rewrite ltNge.
      by apply: h1; rewrite -(b2_nth beta lt) -nth_vshift ?sbb // mem_nth // size_map sbb.
    by apply: h1'; rewrite -(b2_nth beta lt) -nth_vshift ?sbb // mem_nth // size_map sbb.
  case: i lt => [|i] lt; first by rewrite /= lexx ler01.
  rewrite /ceven; apply: beta_01; rewrite ltNge.
    by apply: h2; rewrite -(b2_nth beta (ltnW lt)) -(@nth_sl_m1 _ 0) ?sbb ?ltp // mem_nth // size_sl_m1 sbb ltp.
  apply: h2'; rewrite -(b2_nth beta lt) -nth_behead -nth_vshift ?size_behead ?sbb ?ltp // -nth_vshift ?size_map ?size_behead ?sbb ?ltp //.
  by rewrite mem_nth // !size_map size_behead sbb ltp.
Qed.

(** ** C42: the points returned by the Jacobi tridiagonal sampler are N numbers of [0,1]; the products of the points
    and of their complements to 1 are the stated functions of the draws. *)
Theorem C42_beta_support l : mu_ref_beta_sampler_tridiag eig betad a b beta N = inl l ->
  [/\ size l = N, all (fun x => 0 <= x <= 1) l,
      \prod_(x <- l) x = \prod_(i < N) ((1 - ceven i) * codd i) &
      \prod_(x <- l) (1 - x) = \prod_(i < N) ((1 - ceven i) * (1 - codd i))].
Proof.
move=> /beta_run [d [e [-> sd se [Hd He] [o01 e01]]]].
have := eigP (d := d) (e := e); rewrite sd se => /(_ N0 erefl) rt.
pose p i := (1 - ceven i) * codd i.
pose q i := if i is k.+1 then (1 - codd k) * ceven i else 0.
pose p' i := (1 - ceven i) * (1 - codd i).
pose q' i := if i is k.+1 then codd k * ceven i else 0.
have o0 i : (i < N)%N -> 0 <= codd i by move/o01/andP => [].
have o1 i : (i < N)%N -> 0 <= 1 - codd i by move/o01/andP => [_]; rewrite subr_ge0.
have c0 i : (i < N)%N -> 0 <= ceven i by move/e01/andP => [].
have c1 i : (i < N)%N -> 0 <= 1 - ceven i by move/e01/andP => [_]; rewrite subr_ge0.
have p_ge i : (i < N)%N -> 0 <= p i by move=> lt; rewrite mulr_ge0 ?c1 ?o0.
have p'_ge i : (i < N)%N -> 0 <= p' i by move=> lt; rewrite mulr_ge0 ?c1 ?o1.
have q_ge i : (i < N)%N -> 0 <= q i by case: i => // i lt; rewrite mulr_ge0 ?c0 ?o1 // ltnW.
have q'_ge i : (i < N)%N -> 0 <= q' i by case: i => // i lt; rewrite mulr_ge0 ?c0 ?o0 // ltnW.
have He1 i : (i.+1 < N)%N -> nth 0 e i = 1 * Num.sqrt (p i * q i.+1) by move=> lt; rewrite mul1r; exact: He.
have TE := @tri_core N p q d e 1 (mulr1 1) erefl p_ge q_ge Hd He1.
have TE' : 1%:M - tridiag N d e = tridiag N (mkseq (fun i => 1 - nth 0 d i) N) (mkseq (fun i => - nth 0 e i) N).
  apply/matrixP => i j; rewrite !mxE -val_eqE /=; case: eqP => [ij|_]; first by rewrite nth_mkseq // mulr1n.
  by rewrite mulr0n sub0r !nth_mkseq //; do 2!case: ifP => // _; rewrite oppr0.
have m1 : -1 * -1 = 1 :> R by rewrite mulrNN mulr1.
have Hd' i : (i < N)%N -> nth 0 (mkseq (fun i => 1 - nth 0 d i) N) i = q' i + p' i.
  move=> lt; rewrite nth_mkseq // Hd // /q' /p'; case: i lt => [|i] lt; first by rewrite [ceven 0]/=; ring.
  move: (codd i) (codd i.+1) (ceven i.+1) => x y z; ring.
have He' i : (i.+1 < N)%N -> nth 0 (mkseq (fun i => - nth 0 e i) N) i = -1 * Num.sqrt (p' i * q' i.+1).
  move=> lt; rewrite nth_mkseq ?(ltnW lt) // He // mulN1r /p' /q'; congr (- Num.sqrt _).
  move: (codd i) (ceven i.+1) (ceven i) => x y z; ring.
have TE2 := @tri_core N p' q' _ _ (-1) m1 erefl p'_ge q'_ge Hd' He'.
have rt' := roots_compl rt; rewrite TE' in rt'.
split.
- exact: roots_size rt.
- apply/allP => x xl; apply/andP; split.
    by move: xl; rewrite (roots_eigen _ rt) TE; exact: gram_eigen_ge0.
  rewrite -subr_ge0; have : 1 - x \in [seq 1 - x | x <- eig d e] by exact: map_f.
  by rewrite (roots_eigen _ rt') TE2; exact: gram_eigen_ge0.
- by rewrite (roots_det rt) TE bid_det.
have := roots_det rt'; rewrite big_map => ->; by rewrite TE2 bid_det.
Qed.

Theorem C42_beta_total : 0 < beta -> 0 < a -> 0 < b ->
  exists l, mu_ref_beta_sampler_tridiag eig betad a b beta N = inl l.
Proof.
move=> be0 a0 b0; rewrite /mu_ref_beta_sampler_tridiag be0 /= /rng_beta.
have pos k : 0 <= 2%:R^-1 * beta * k%:R :> R by rewrite !mulr_ge0 ?invr_ge0 ?ler0n // ltW.
case: ifP => [/orP[]/hasP[x /mapP[y /mapP[k _ ->] ->]]|_] /=.
- by rewrite leNgt ltr_paddl.
- by rewrite leNgt ltr_paddl.
case: ifP => [/orP[/hasP[x /(nthP 0)[i]]|/hasP[x /mapP[y /mapP[z /mem_behead /mapP[k _ ->] ->] ->]]]|_] /=.
- rewrite size_sl_m1 b2_size => lt; rewrite nth_sl_m1 ?b2_size // b2_nth; last by case: (N) lt => // n /= /ltnW.
  by move=> <-; rewrite leNgt !mulr_gt0 ?invr_gt0 ?ltr0n // subn_gt0.
- by rewrite leNgt ltr_paddl // addr_ge0 // ltW.
by eexists.
Qed.
Theorem C42_beta_invalid : beta <= 0 ->
  mu_ref_beta_sampler_tridiag eig betad a b beta N = inr ValueError.
Proof. by move=> b0; rewrite /mu_ref_beta_sampler_tridiag ltNge b0. Qed.
End Beta.

Section Normal.
Variables (normal gamma : nat -> nat -> R -> R -> R).
Hypothesis gamma_ge0 : forall k i a s, 0 <= a -> 0 <= s -> 0 <= gamma k i a s.
Variables (loc scale beta : R) (N : nat).
Hypothesis N0 : (0 < N)%N.

Lemma trisq n (d e : seq R) : \sum_(i < n) \sum_(j < n) tridiag n d e i j ^+ 2 =
  \sum_(i < n) nth 0 d i ^+ 2 + \sum_(i < n.-1) nth 0 e i ^+ 2 *+ 2.
Proof.
pose t (i j : nat) : R := if (i == j) then nth 0 d i else if (j == i.+1) then nth 0 e i else if (i == j.+1) then nth 0 e j else 0.
transitivity (\sum_(0 <= i < n) \sum_(0 <= j < n) t i j ^+ 2).
  by rewrite big_mkord; apply: eq_bigr => i _; rewrite big_mkord; apply: eq_bigr => j _; rewrite mxE.
rewrite -(big_mkord xpredT (fun i => nth 0 d i ^+ 2)) -(big_mkord xpredT (fun i => nth 0 e i ^+ 2 *+ 2)).
elim: n => [|n IH]; first by rewrite !big_geq // addr0.
have tS i : (i < n)%N -> t i n = if n == i.+1 then nth 0 e i else 0.
  by move=> lt; rewrite /t (ltn_eqF lt); case: eqP => // _; case: eqP => // E; move: lt; rewrite E ltnNge leqW // leqnSn.
have tS' i : (i < n)%N -> t n i = if n == i.+1 then nth 0 e i else 0.
  move=> lt; rewrite /t eq_sym (ltn_eqF lt); case: (i =P n.+1) => // E; by move: lt; rewrite E ltnNge leqnSn.
have tn : t n n = nth 0 d n by rewrite /t eqxx.
have last (F : nat -> R) : (forall i, (i < n)%N -> F i = if n == i.+1 then nth 0 e i else 0) ->
    \sum_(0 <= i < n) F i ^+ 2 = if n is m.+1 then nth 0 e m ^+ 2 else 0.
  move=> FE; case: n FE {IH tS tS' tn} => [|m] FE; first by rewrite big_geq.
  rewrite big_nat_recr //= FE // eqxx big_nat_cond big1 ?add0r // => i /andP[/andP[_ lt] _].
  by rewrite FE ?ltnS ?(ltnW lt) // eqSS eq_sym (ltn_eqF lt) expr0n.
rewrite big_nat_recr //= [X in _ + X]big_nat_recr //= tn (last (t n)) //.
have -> : \sum_(0 <= i < n) \sum_(0 <= j < n.+1) t i j ^+ 2 =
          \sum_(0 <= i < n) \sum_(0 <= j < n) t i j ^+ 2 + \sum_(0 <= i < n) t i n ^+ 2.
  by rewrite -big_split /=; apply: eq_bigr => i _; rewrite big_nat_recr.
rewrite (last (fun i => t i n)) // IH [\sum_(0 <= i < n.+1) nth 0 d i ^+ 2]big_nat_recr //=.
case: n {IH tS tS' tn last} => [|m] /=; first by rewrite !big_geq //; ring.
rewrite [\sum_(0 <= i < m.+1) _ *+ 2]big_nat_recr //=; move: (nth 0 d m.+1 ^+ 2) (nth 0 e m ^+ 2) => x y.
rewrite [y *+ 2]mulr2n; move: (\sum_(0 <= i < m) _) => z; ring.
Qed.

Lemma tri_sym n (d e : seq R) : (tridiag n d e)^T = tridiag n d e.
Proof.
apply/matrixP => i j; rewrite !mxE eq_sym; case: (i =P j :> nat) => [->//|_].
case: (i =P j.+1 :> nat) => [->|_]; last by case: (j =P i.+1 :> nat).
by rewrite [(_ == _)%N](negbTE _) // neq_ltn leqnSn.
Qed.

(** ** C60: the Hermite tridiagonal sampler returns N points; their sum and sum of squares are the stated functions of
    the draws (gamma shape parameters beta/2 (N-1-i), scale scale^2). *)
Theorem C60_normal_moments l : mu_ref_normal_sampler_tridiag eig normal gamma loc scale beta N = inl l ->
  [/\ size l = N, \sum_(x <- l) x = \sum_(i < N) normal 0 i loc scale &
      \sum_(x <- l) x ^+ 2 = \sum_(i < N) normal 0 i loc scale ^+ 2
        + \sum_(i < N.-1) gamma 1 i (2%:R^-1 * beta * (N.-1 - i)%:R) (scale ^+ 2) *+ 2].
Proof.
rewrite /mu_ref_normal_sampler_tridiag; case: ifP => // _; rewrite /rng_normal; case: ifP => //= _.
rewrite {1}/rng_gamma; case: ifP => //= h [<-].
set b2 := map _ _; set d := mkseq _ N; set e0 := mkseq _ _.
have sb : size b2 = N.-1 by rewrite size_map size_rev size_iota.
have bE i : (i < N.-1)%N -> nth 0 b2 i = 2%:R^-1 * beta * (N.-1 - i)%:R.
  move=> lt; rewrite (nth_map 0%N) ?size_rev ?size_iota // nth_rev ?size_iota // nth_iota; last first.
    by rewrite ltn_subrL (leq_trans _ lt).
  by rewrite subnS add1n prednK // subn_gt0.
have sd : size d = N by rewrite size_mkseq.
have se : size (vsqrt e0) = N.-1 by rewrite size_map size_mkseq.
have := eigP (d := d) (e := vsqrt e0); rewrite sd se => /(_ N0 erefl) rt.
have h0 i : (i < N.-1)%N -> 0 <= nth 0 e0 i.
  move=> lt; rewrite nth_mkseq ?sb //; apply: gamma_ge0; last exact: sqr_ge0.
  rewrite leNgt; move/negbT: h; rewrite negb_or => /andP[/hasPn h _]; apply: h; by rewrite mem_nth // sb.
split; first exact: roots_size rt.
  by rewrite (roots_trace N0 rt) tri_trace; apply: eq_bigr => i _; rewrite nth_mkseq.
rewrite (roots_sumsq (tri_sym _ _ _) rt) trisq; congr (_ + _).
  by apply: eq_bigr => i _; rewrite nth_mkseq.
apply: eq_bigr => i _; rewrite nth_vsqrt sqr_sqrtr ?h0 // nth_mkseq ?sb // bE //.
Qed.

Theorem C60_normal_total : 0 < beta -> 0 <= scale ->
  exists l, mu_ref_normal_sampler_tridiag eig normal gamma loc scale beta N = inl l.
Proof.
move=> b0 s0; rewrite /mu_ref_normal_sampler_tridiag b0 /= /rng_normal ltNge s0 /= /rng_gamma.
case: ifP => [/orP[/hasP[x /mapP[k _ ->]]|]|_] /=.
- by rewrite ltNge !mulr_ge0 ?invr_ge0 ?ler0n // ltW.
- by rewrite ltNge sqr_ge0.
by eexists.
Qed.
Theorem C60_normal_invalid : beta <= 0 ->
  mu_ref_normal_sampler_tridiag eig normal gamma loc scale beta N = inr ValueError.
Proof. by move=> b0; rewrite /mu_ref_normal_sampler_tridiag ltNge b0. Qed.
End Normal.
End P.

(** The contract of eigvalsh_tridiagonal can be met. *)
Section Ex.
Variable R : rcfType.
Lemma tri_roots_b (d e : seq R) : exists l, char_poly (tridiag (size d) d e) == \prod_(x <- l) ('X - x%:P).
Proof. by have [l rl] := sym_roots (@tri_sym R (size d) d e); exists l; rewrite -rl. Qed.
Definition eig0 (d e : seq R) := xchoose (tri_roots_b d e).
Lemma eig0P : eigvalsh_tridiagonal_contract eig0.
Proof. by move=> d e _ _; exact/eqP/(xchooseP (tri_roots_b d e)). Qed.

(** Example: three points, all draws 1 (resp. 1/2): all hypotheses are met and the sampler returns. *)
Example C41_instance : exists l : seq R,
  mu_ref_gamma_sampler_tridiag eig0 (fun _ _ _ _ => 1) 1 1 2%:R 3 = inl l /\ \sum_(x <- l) x = 5%:R /\ \prod_(x <- l) x = 1.
Proof.
have g0 (k i : nat) (a s : R) : 0 <= a -> 0 <= s -> 0 <= 1 :> R by rewrite ler01.
have [l e] := @C41_gamma_total R eig0 (fun _ _ _ _ => 1) 1 1 2%:R 3 (ltr0Sn _ 1) ler01 ler01.
exists l; split => //; have [_ _ -> ->] := @C41_gamma_support R eig0 eig0P (fun _ _ _ _ => 1) g0 1 1 2%:R 3 isT l e.
by rewrite !big_ord_recl !big_ord0; split; ring.
Qed.
Example C42_instance : exists l : seq R,
  mu_ref_beta_sampler_tridiag eig0 (fun _ _ _ _ => 2%:R^-1) 1 1 2%:R 3 = inl l /\ \prod_(x <- l) x = 32%:R^-1.
Proof.
have g0 (k i : nat) (a s : R) : 0 < a -> 0 < s -> 0 <= (2%:R^-1 : R) <= 1.
  by move=> _ _; rewrite invr_ge0 ler0n invf_le1 ?ler1n ?ltr0n.
have [l e] := @C42_beta_total R eig0 (fun _ _ _ _ => 2%:R^-1) 1 1 2%:R 3 (ltr0Sn _ 1) ltr01 ltr01.
exists l; split => //; have [_ _ -> _] := @C42_beta_support R eig0 eig0P (fun _ _ _ _ => 2%:R^-1) g0 1 1 2%:R 3 isT l e.
by rewrite !big_ord_recl !big_ord0 /ceven /codd /=; field.
Qed.
Example C60_instance : exists l : seq R,
  mu_ref_normal_sampler_tridiag eig0 (fun _ _ _ _ => 1) (fun _ _ _ _ => 1) 0 1 2%:R 3 = inl l /\ \sum_(x <- l) x ^+ 2 = 7%:R.
Proof.
have g0 (k i : nat) (a s : R) : 0 <= a -> 0 <= s -> 0 <= 1 :> R by rewrite ler01.
have [l e] := @C60_normal_total R eig0 (fun _ _ _ _ => 1) (fun _ _ _ _ => 1) 0 1 2%:R 3 (ltr0Sn _ 1) ler01.
exists l; split => //; have [_ _ ->] := @C60_normal_moments R eig0 eig0P (fun _ _ _ _ => 1) (fun _ _ _ _ => 1) g0 0 1 2%:R 3 isT l e.
by rewrite !big_ord_recl !big_ord0 /=; ring.
Qed.
End Ex.
Print Assumptions C41_gamma_support.
Print Assumptions C42_beta_support.
Print Assumptions C60_normal_moments.
