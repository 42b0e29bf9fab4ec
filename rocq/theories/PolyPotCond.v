(** * PolyPotCond: Tr V(J) as a function of one coefficient of the Jacobi matrix J (used for C44). *)
From mathcomp Require Import all_ssreflect all_algebra all_real_closed.
From mathcomp.algebra_tactics Require Import ring.
From mathcomp Require Import zify.
From Verif Require Import Prob TriPow PolyPotModel.
Set Implicit Arguments. Unset Strict Implicit. Unset Printing Implicit Defensive.
Import Order.Theory GRing.Theory Num.Theory.
Local Open Scope ring_scope.

Section Spec.
Variable R : rcfType.
(** the Jacobi matrix with diagonal a_1, ..., a_N and off-diagonal sqrt(b_1), ..., sqrt(b_{N-1}), N = n+1 *)
Definition jacobi (n : nat) (a b : nat -> R) : 'M[R]_n.+1 :=
  \matrix_(u, v) if u == v then a u.+1
                 else if (u.+1 == v :> nat) then Num.sqrt (b u.+1)
                 else if (v.+1 == u :> nat) then Num.sqrt (b v.+1) else 0.
(** Tr V(J) *)
Definition trV n (V : {poly R}) (J : 'M[R]_n.+1) : R := \tr (horner_mx J V).
Definition upd (f : nat -> R) (i : nat) (x : R) : nat -> R := fun k => if k == i then x else f k.
End Spec.

Section Proof.
Variable R : rcfType.

Lemma tr_delta (K : comRingType) n (u v : 'I_n) (M : 'M[K]_n) : \tr (delta_mx u v *m M) = M v u.
Proof.
rewrite /mxtrace (bigD1 u) //= mxE (bigD1 v) //= mxE !eqxx mul1r.
rewrite big1 ?addr0; last by move=> w /negPf nw; rewrite mxE nw andbF mul0r.
rewrite big1 ?addr0 // => w /negPf nw; rewrite mxE big1 // => z _.
by rewrite mxE nw mul0r.
Qed.

Lemma s65 u : (u + 6 - 5)%N = u.+1. Proof. by rewrite -[6%N]/(1 + 5)%N addnA addnK addn1. Qed.
Lemma e65 u i : (0 < i)%N -> (u + 6 == i + 5)%N = (u.+1 == i). Proof. by move=> _; rewrite -[6%N]/(1 + 5)%N addnA eqn_add2r addn1. Qed.

Lemma jacobi_tri n (a b : nat -> R) :
  jacobi n a b = tri (fun p => a (p - 5)%N) (fun p => Num.sqrt (b (p - 5)%N)) 6 n.+1.
Proof. by apply/matrixP => u v; rewrite !mxE !s65. Qed.

Lemma trVE n (V : {poly R}) (J : 'M[R]_n.+1) : (size V <= 7)%N ->
  trV V J = \sum_(k < 7) V`_k * \tr (J ^+ k).
Proof.
move=> sz.
have {1}-> : V = \sum_(k < 7) V`_k *: 'X^k.
  rewrite -(poly_def 7 (fun k => V`_k)); apply/polyP => k; rewrite coef_poly; case: ltnP => // h.
  by rewrite nth_default // (leq_trans sz h).
rewrite /trV raddf_sum raddf_sum /=; apply: eq_bigr => k _.
by rewrite linearZ /= rmorphX /= horner_mx_X mxtraceZ.
Qed.

Section Index.
Variables (n i : nat) (a b : nat -> R).
Hypothesis hi : (0 < i <= n.+1)%N.
Hypothesis b0 : b 0%N = 0.
Hypothesis bN : b n.+1 = 0.
Hypothesis bp : forall k, 0 <= b k.

Let i0 : (0 < i)%N. Proof. by case/andP: hi. Qed.
Let alP p : {poly R} := if p == (i + 5)%N then 'X else (a (p - 5)%N)%:P.
Let beP p : {poly R} := (Num.sqrt (b (p - 5)%N))%:P.
Let MP : 'M[{poly R}]_n.+1 := tri alP beP 6 n.+1.

Lemma iord : (i.-1 < n.+1)%N. Proof. by move: hi; case: (i). Qed.
Let io := Ordinal iord.
Let ioE : (io + 6 = i + 5)%N. Proof. by move: hi; rewrite /=; case: (i) => // m _; rewrite addnS. Qed.

Lemma MP_eval x : map_mx (horner_eval x) MP = jacobi n (upd a i x) b.
Proof.
rewrite jacobi_tri; apply/matrixP => u v; rewrite !mxE /upd /alP /beP !s65 (e65 _ i0).
case: (u == v); last by do 2 (case: ifP => _; rewrite /horner_eval ?hornerC //=).
by case: ifP => _; rewrite /horner_eval ?hornerX ?hornerC.
Qed.

Lemma MP_tr k x : (\tr (MP ^+ k)).[x] = \tr (jacobi n (upd a i x) b ^+ k).
Proof. by rewrite -MP_eval -(rmorphX (map_mx_rmorphism _ _)) /= trace_map_mx. Qed.

Lemma dMP : dmx MP = delta_mx io io.
Proof.
apply/matrixP => u v; rewrite !mxE /alP /beP (e65 _ i0).
have -> : (u.+1 == i) = (u == io) by rewrite -[RHS]val_eqE /= -[i in LHS](prednK i0) eqSS.
rewrite (eq_sym u v); case: (altP (v =P u)) => [->|nv].
  by case: (u == io); rewrite /= ?derivX ?derivC.
have -> : ((u == io) && (v == io)) = false.
  by apply/negP => /andP[/eqP eu /eqP ev]; move: nv; rewrite eu ev eqxx.
by do 2 (case: ifP => _; rewrite ?derivC //=).
Qed.

Lemma d_trMP k : (\tr (MP ^+ k))^`() = k%:R * iter k.-1 (T alP beP) (dlt _ (i + 5)) (i + 5)%N.
Proof.
rewrite d_tr_pow dMP tr_delta tri_pow ?ioE //.
  by rewrite /beP subnn b0 sqrtr0.
by rewrite /beP addnK bN sqrtr0.
Qed.

(** the coefficient polynomials of the code, as functions *)
Let A k : R := a k. Let B k : R := b k.
Definition PA (k : nat) : {poly R} :=
  let i_2 := (i - 2)%N in
  match k with
  | 1 => poly1d [:: 1; 0]
  | 2 => poly1d [:: 1; 0; 0]
  | 3 => poly1d [:: 1; 0; 3%:R * (B i.-1 + B i); 0]
  | 4 => poly1d [:: 1; 0; 4%:R * (B i.-1 + B i); 4%:R * (A i.-1 * B i.-1 + A i.+1 * B i); 0]
  | 5 => poly1d [:: 1; 0; 5%:R * (B i.-1 + B i); 5%:R * (A i.-1 * B i.-1 + A i.+1 * B i);
                 5%:R * (B i.-1 * (A i.-1 ^+ 2 + B i_2) + (B i.-1 + B i) ^+ 2 + B i * (A i.+1 ^+ 2 + B i.+1)); 0]
  | 6 => poly1d [:: 1; 0; 6%:R * (B i.-1 + B i); 6%:R * (A i.-1 * B i.-1 + A i.+1 * B i);
                 3%:R * (2%:R * B i.-1 * (A i.-1 ^+ 2 + B i_2) + 3%:R * (B i.-1 + B i) ^+ 2
                         + 2%:R * B i * (A i.+1 ^+ 2 + B i.+1));
                 6%:R * (A i_2 * B i_2 * B i.-1
                         + A i.-1 * B i.-1 * (A i.-1 ^+ 2 + 2%:R * (B i_2 + B i.-1 + B i))
                         + A i.+1 * B i * (A i.+1 ^+ 2 + 2%:R * (B i.-1 + B i + B i.+1))
                         + A i.+2 * B i * B i.+1); 0]
  | _ => 0
  end.

Lemma d_PA k : (k <= 6)%N -> (PA k)^`() = (\tr (MP ^+ k))^`().
Proof.
rewrite d_trMP.
have [j ej] : exists j, (i + 5)%N = j.+4.+2 by exists i.-1; rewrite !addnS addn0 prednK.
have ij : i = j.+1 by move: ej; rewrite !addnS addn0 => -[].
have al0 : alP j.+4.+2 = 'X by rewrite /alP ej eqxx.
have alm1 : alP j.+4.+1 = (A i.-1)%:P by rewrite /alP ej !eqSS ltn_eqF ?ij // !subSS ?subn0.
have al1 : alP j.+4.+3 = (A i.+1)%:P by rewrite /alP ej !eqSS gtn_eqF ?ij // !subSS ?subn0.
have alm2 : alP j.+4 = (A (i - 2)%N)%:P by rewrite /alP ej !eqSS ltn_eqF ?ij // !subSS ?subn0.
have al2 : alP j.+4.+4 = (A i.+2)%:P by rewrite /alP ej !eqSS gtn_eqF ?ij // !subSS ?subn0.
have sq (x : R) : 0 <= x -> (Num.sqrt x)%:P ^+ 2 = x%:P by move=> x0; rewrite -polyC_exp sqr_sqrtr.
have be0 : beP j.+4.+2 ^+ 2 = (B i)%:P by rewrite /beP sq ?bp // ij !subSS ?subn0.
have be1 : beP j.+4.+3 ^+ 2 = (B i.+1)%:P by rewrite /beP sq ?bp // ij !subSS ?subn0.
have bem1 : beP j.+4.+1 ^+ 2 = (B i.-1)%:P by rewrite /beP sq ?bp // ij !subSS ?subn0.
have bem2 : beP j.+4 ^+ 2 = (B (i - 2)%N)%:P by rewrite /beP sq ?bp // ij !subSS ?subn0.
rewrite ej.
have dP (p : {poly R}) c : (cons_poly c p)^`() = p + p^`() * 'X by rewrite cons_poly_def derivMXaddC.
case: k => [|[|[|[|[|[|[|//]]]]]]] _; first (by rewrite /= deriv0 mul0r);
  rewrite /PA /poly1d [rev _]/= [Poly _]/= ?dP ?deriv0 ?cons_poly_def [_.-1]/=.
- rewrite D0; ring.
- rewrite D1 al0; ring.
- rewrite D2 al0 be0 bem1; ring.
- rewrite D3 al0 be0 bem1 al1 alm1; ring.
- rewrite D4 al0 be0 bem1 al1 alm1 be1 bem2; ring.
rewrite D5 al0 be0 bem1 al1 alm1 be1 bem2 al2 alm2; ring.
Qed.

Lemma PA_tr k x y : (k <= 6)%N ->
  \tr (jacobi n (upd a i x) b ^+ k) - (PA k).[x] = \tr (jacobi n (upd a i y) b ^+ k) - (PA k).[y].
Proof.
move=> k6; rewrite -!MP_tr -!hornerN -!hornerD; apply: deriv_eq0.
by rewrite derivD derivN d_PA // subrr.
Qed.
End Index.

Section IndexB.
Variables (n i : nat) (a b : nat -> R).
Hypothesis hi : (0 < i <= n)%N.
Hypothesis b0 : b 0%N = 0.
Hypothesis bN : b n.+1 = 0.
Hypothesis bp : forall k, 0 <= b k.

Let i0 : (0 < i)%N. Proof. by case/andP: hi. Qed.
Let alP p : {poly R} := (a (p - 5)%N)%:P.
Let beP p : {poly R} := if p == (i + 5)%N then 'X else (Num.sqrt (b (p - 5)%N))%:P.
Let MP : 'M[{poly R}]_n.+1 := tri alP beP 6 n.+1.

Lemma iordb : (i.-1 < n.+1)%N. Proof. by move: hi; case: (i) => //= m; apply: ltnW. Qed.
Lemma iordb' : (i < n.+1)%N. Proof. by case/andP: hi. Qed.
Let io := Ordinal iordb.
Let io' := Ordinal iordb'.
Let ioE : (io + 6 = i + 5)%N. Proof. by move: hi; rewrite /=; case: (i) => // m _; rewrite addnS. Qed.
Let ioE' : (io' + 6 = i + 6)%N. Proof. by []. Qed.

Lemma MPb_eval s : 0 <= s -> map_mx (horner_eval s) MP = jacobi n a (upd b i (s ^+ 2)).
Proof.
move=> s0; rewrite jacobi_tri; apply/matrixP => u v; rewrite !mxE /upd /alP /beP !s65 !(e65 _ i0).
case: (u == v); first by rewrite /horner_eval hornerC.
have ev (c : nat) : horner_eval s (if c.+1 == i then 'X else (Num.sqrt (b c.+1))%:P)
    = Num.sqrt (if c.+1 == i then s ^+ 2 else b c.+1).
  by case: ifP => _; rewrite /horner_eval ?hornerX ?hornerC // sqrtr_sqr ger0_norm.
by do 2 (case: ifP => _; first exact: ev); rewrite /horner_eval hornerC.
Qed.

Lemma MPb_tr k s : 0 <= s -> (\tr (MP ^+ k)).[s] = \tr (jacobi n a (upd b i (s ^+ 2)) ^+ k).
Proof. by move=> s0; rewrite -(MPb_eval s0) -(rmorphX (map_mx_rmorphism _ _)) /= trace_map_mx. Qed.

Lemma dMPb : dmx MP = delta_mx io io' + delta_mx io' io.
Proof.
apply/matrixP => u v; rewrite !mxE /alP /beP !(e65 _ i0).
rewrite -!val_eqE /=; case: (altP (u =P v :> nat)) => e1; case: (altP (u.+1 =P v :> nat)) => e2;
 case: (altP (v.+1 =P u :> nat)) => e3; case: (altP (u.+1 =P i)) => e4; case: (altP (v.+1 =P i)) => e5;
 case: (altP (u =P i.-1 :> nat)) => e6; case: (altP (v =P i.-1 :> nat)) => e7;
 case: (altP (u =P i :> nat)) => e8; case: (altP (v =P i :> nat)) => e9 /=;
 rewrite ?derivC ?derivX ?addr0 ?add0r //; exfalso; lia.
Qed.

Lemma d_trMPb k : (\tr (MP ^+ k))^`() = 2%:R * k%:R * iter k.-1 (T alP beP) (dlt _ (i + 6)) (i + 5)%N.
Proof.
rewrite d_tr_pow dMPb mulrDl mxtraceD !tr_delta.
have -> : (MP ^+ k.-1) io' io = (MP ^+ k.-1) io io' by rewrite -[in LHS](tri_pow_sym _ _ 6 n k.-1) mxE.
rewrite tri_pow ?ioE; first by rewrite -[(io' + 6)%N]/(i + 6)%N; move: (iter _ _ _ _) => z; ring.
  by rewrite /beP subnn b0 sqrtr0 ltn_eqF //; lia.
by rewrite /beP addnK bN sqrtr0 gtn_eqF //; move: hi; lia.
Qed.

Let A k : R := a k. Let B k : R := b k.
Definition PB (bm2 : R) (k : nat) : {poly R} :=
  match k with
  | 2 => poly1d [:: 2%:R; 0]
  | 3 => poly1d [:: 3%:R * (A i + A i.+1); 0]
  | 4 => poly1d [:: 2%:R; 4%:R * (A i ^+ 2 + A i * A i.+1 + A i.+1 ^+ 2 + B i.-1 + B i.+1); 0]
  | 5 => poly1d [:: 5%:R * (A i + A i.+1);
                 5%:R * (A i ^+ 3 + A i ^+ 2 * A i.+1 + A i * A i.+1 ^+ 2 + A i.+1 ^+ 3
                         + B i.-1 * (A i.-1 + 2%:R * A i + A i.+1)
                         + B i.+1 * (A i + 2%:R * A i.+1 + A i.+2)); 0]
  | 6 => poly1d [:: 2%:R;
                 3%:R * (3%:R * A i ^+ 2 + 4%:R * A i * A i.+1 + 3%:R * A i.+1 ^+ 2 + 2%:R * (B i.-1 + B i.+1));
                 6%:R * (A i ^+ 4 + A i ^+ 3 * A i.+1 + A i ^+ 2 * A i.+1 ^+ 2
                         + A i * A i.+1 ^+ 3 + A i.+1 ^+ 4
                         + B i.-1 * (A i.-1 ^+ 2 + A i.-1 * A i.+1 + A i.+1 ^+ 2
                                    + A i * (2%:R * A i.-1 + 3%:R * A i + 2%:R * A i.+1)
                                    + bm2 + B i.-1 + B i.+1)
                         + B i.+1 * (A i ^+ 2 + A i * A i.+2 + A i.+2 ^+ 2
                                   + A i.+1 * (2%:R * A i + 3%:R * A i.+1 + 2%:R * A i.+2)
                                   + B i.+1 + B i.+2)); 0]
  | _ => 0
  end.

Lemma d_PB k : (k <= 6)%N -> (PB (B (i - 2)%N) k \Po 'X ^+ 2)^`() = (\tr (MP ^+ k))^`().
Proof.
rewrite d_trMPb.
have [j ej] : exists j, (i + 5)%N = j.+4.+2 by exists i.-1; rewrite !addnS addn0 prednK.
have ej' : (i + 6)%N = j.+4.+3 by rewrite addnS ej.
have ij : i = j.+1 by move: ej; rewrite !addnS addn0 => -[].
have al0 : alP j.+4.+2 = (A i)%:P by rewrite /alP ij !subSS subn0.
have alm1 : alP j.+4.+1 = (A i.-1)%:P by rewrite /alP ij !subSS subn0.
have al1 : alP j.+4.+3 = (A i.+1)%:P by rewrite /alP ij !subSS subn0.
have al2 : alP j.+4.+4 = (A i.+2)%:P by rewrite /alP ij !subSS subn0.
have sq (x : R) : 0 <= x -> (Num.sqrt x)%:P ^+ 2 = x%:P by move=> x0; rewrite -polyC_exp sqr_sqrtr.
have be0 : beP j.+4.+2 = 'X by rewrite /beP ej eqxx.
have be1 : beP j.+4.+3 ^+ 2 = (B i.+1)%:P by rewrite /beP ej !eqSS gtn_eqF // sq ?bp // ij !subSS ?subn0.
have be2 : beP j.+4.+4 ^+ 2 = (B i.+2)%:P by rewrite /beP ej !eqSS gtn_eqF // sq ?bp // ij !subSS ?subn0.
have bem1 : beP j.+4.+1 ^+ 2 = (B i.-1)%:P by rewrite /beP ej !eqSS ltn_eqF // sq ?bp // ij !subSS ?subn0.
have bem2 : beP j.+4 ^+ 2 = (B (i - 2)%N)%:P by rewrite /beP ej !eqSS ltn_eqF // sq ?bp // ij !subSS ?subn0.
have dc (p : {poly R}) : (p \Po 'X ^+ 2)^`() = (p^`() \Po 'X ^+ 2) * (2%:R * 'X).
  by rewrite deriv_comp derivXn /= expr1 mulr_natl.
rewrite ej ej' dc.
have dP (p : {poly R}) c : (cons_poly c p)^`() = p + p^`() * 'X by rewrite cons_poly_def derivMXaddC.
have cP (p q : {poly R}) c : cons_poly c p \Po q = (p \Po q) * q + c%:P.
  by rewrite cons_poly_def comp_polyD comp_polyM comp_polyX comp_polyC.
case: k => [|[|[|[|[|[|[|//]]]]]]] _; try (by rewrite [PB _ _]/= deriv0 comp_poly0 mul0r ?mulr0 ?mul0r ?O0 ?mulr0);
  rewrite /PB /poly1d [rev _]/= [Poly _]/= !(dP, deriv0, derivC, comp_polyD, comp_polyM, cP, comp_polyX, comp_polyC, comp_poly0) [_.-1]/=.
- rewrite O1 be0; ring.
- rewrite O2 be0 al0 al1; ring.
- rewrite O3 be0 al0 bem1 be1 al1; ring.
- rewrite O4 be0 al0 bem1 be1 al1 alm1 al2; ring.
rewrite O5 be0 al0 bem1 be1 al1 alm1 al2 be2 bem2; ring.
Qed.

Lemma PB_tr k x y : (k <= 6)%N -> 0 <= x -> 0 <= y ->
  \tr (jacobi n a (upd b i x) ^+ k) - (PB (B (i - 2)%N) k).[x] = \tr (jacobi n a (upd b i y) ^+ k) - (PB (B (i - 2)%N) k).[y].
Proof.
move=> k6 x0 y0; rewrite -[x](sqr_sqrtr x0) -[y](sqr_sqrtr y0).
have hc s : (PB (B (i - 2)) k).[s ^+ 2] = (PB (B (i - 2)) k \Po 'X ^+ 2).[s] by rewrite horner_comp hornerXn.
have d0 : (\tr (MP ^+ k) - (PB (B (i - 2)) k \Po 'X ^+ 2))^`() = 0 by rewrite derivB d_PB // subrr.
rewrite !hc -!MPb_tr ?sqrtr_ge0 //.
by have := deriv_eq0 d0 (Num.sqrt x) (Num.sqrt y); rewrite !hornerD !hornerN.
Qed.
End IndexB.

Lemma addif (P Q : {poly R}) (c : R) : (if c != 0 then P + c *: Q else P) = P + c *: Q.
Proof. by case: eqP => [->|//]; rewrite scale0r addr0. Qed.

Lemma P_a_condE i (a b : seq R) (V : {poly R}) : (0 < i)%N -> (size V <= 7)%N ->
  P_a_cond i a b V = inl (\sum_(k < 7) V`_k *: PA i (fun k => a`_k) (fun k => b`_k) k).
Proof.
move=> i0 sz; rewrite /P_a_cond.
have -> : (7 < order V)%N = false by apply/negbTE; rewrite -leqNgt /order (leq_trans (leq_pred _)) // (leq_trans sz).
rewrite !addif max0n.
have -> : (i%:Z - 1)%R = i.-1%:Z by lia.
have -> : (i%:Z + 1)%R = i.+1%:Z by lia.
have -> : (i%:Z + 2)%R = i.+2%:Z by lia.
by rewrite !big_ord_recl big_ord0 /= /np_get scaler0 addr0 !addrA.
Qed.

Lemma P_b_condE i (a b : seq R) (V : {poly R}) : (0 < i)%N -> (size V <= 7)%N ->
  b`_0 = 0 -> b`_((size b).-1) = 0 ->
  P_b_cond i a b V = inl (\sum_(k < 7) V`_k *: PB i (fun k => a`_k) (fun k => b`_k) b`_(i - 2) k).
Proof.
move=> i0 sz b0 bl; rewrite /P_b_cond.
have -> : (7 < order V)%N = false by apply/negbTE; rewrite -leqNgt /order (leq_trans (leq_pred _)) // (leq_trans sz).
rewrite !addif.
have -> : np_get b (i%:Z - 2)%R = b`_(i - 2).
  case: (leqP 2 i) => h; first by have -> : (i%:Z - 2)%R = (i - 2)%N%:Z by lia.
  have -> : i = 1%N by lia.
  by rewrite -[np_get _ _]/(b`_(size b - 1)) subn1 bl -[(1 - 2)%N]/0%N b0.
have -> : (i%:Z - 1)%R = i.-1%:Z by lia.
have -> : (i%:Z + 1)%R = i.+1%:Z by lia.
have -> : (i%:Z + 2)%R = i.+2%:Z by lia.
by rewrite !big_ord_recl big_ord0 /= /np_get !scaler0 addr0 !add0r !addrA.
Qed.

Lemma subr_swap (t u v w : R) : t - v = u - w -> t - u = v - w.
Proof. by move=> h; rewrite -[t](subrK v) h; ring. Qed.

Lemma horner_lin n (c : nat -> R) (P : nat -> {poly R}) x :
  (\sum_(k < n) c k *: P k).[x] = \sum_(k < n) c k * (P k).[x].
Proof. by rewrite horner_sum; apply: eq_bigr => k _; rewrite hornerZ. Qed.

Lemma cond_a n i (a b : nat -> R) (V : {poly R}) x y : (0 < i <= n.+1)%N -> b 0%N = 0 -> b n.+1 = 0 -> (forall k, 0 <= b k) ->
  (size V <= 7)%N -> let P := \sum_(k < 7) V`_k *: PA i a b k in
  trV V (jacobi n (upd a i x) b) - trV V (jacobi n (upd a i y) b) = P.[x] - P.[y].
Proof.
move=> hi b0 bN bp sz P.
rewrite !trVE // /P !(horner_lin 7 (fun k => V`_k)) -!sumrB; apply: eq_bigr => k _.
rewrite -!mulrBr; congr (_ * _).
have := @PA_tr n i a b hi b0 bN bp k x y; rewrite -ltnS ltn_ord => /(_ isT).
exact: subr_swap.
Qed.

Lemma cond_b n i (a b : nat -> R) (V : {poly R}) x y : (0 < i <= n)%N -> b 0%N = 0 -> b n.+1 = 0 -> (forall k, 0 <= b k) ->
  (size V <= 7)%N -> 0 <= x -> 0 <= y -> let P := \sum_(k < 7) V`_k *: PB i a b (b (i - 2)%N) k in
  trV V (jacobi n a (upd b i x)) - trV V (jacobi n a (upd b i y)) = P.[x] - P.[y].
Proof.
move=> hi b0 bN bp sz x0 y0 P.
rewrite !trVE // /P !(horner_lin 7 (fun k => V`_k)) -!sumrB; apply: eq_bigr => k _.
rewrite -!mulrBr; congr (_ * _).
have := @PB_tr n i a b hi b0 bN bp k x y; rewrite -ltnS ltn_ord => /(_ isT x0 y0).
exact: subr_swap.
Qed.

End Proof.
