(** * TriPow: powers of a tridiagonal matrix, derivative of the trace of a power. *)
From mathcomp Require Import all_ssreflect all_algebra.
From mathcomp.algebra_tactics Require Import ring.
Set Implicit Arguments. Unset Strict Implicit. Unset Printing Implicit Defensive.
Import Num.Theory GRing.Theory.
Local Open Scope ring_scope.

Section Pow.
Variable K : comRingType.

Section Tri.
Variables (al be : nat -> K).
Definition T (f : nat -> K) (p : nat) : K := be p.-1 * f p.-1 + al p * f p + be p * f p.+1.
Definition dlt (v p : nat) : K := (p == v)%:R.

Definition tri (c n : nat) : 'M[K]_n :=
  \matrix_(u, v) if u == v then al (u + c)%N
                 else if (u.+1 == v :> nat) then be (u + c)%N
                 else if (v.+1 == u :> nat) then be (v + c)%N else 0.

Lemma tri_sum c n (u : 'I_n) (f : nat -> K) : be c = 0 -> be (n + c)%N = 0 ->
  \sum_(w < n) tri c.+1 n u w * f (w + c.+1)%N = T f (u + c.+1)%N.
Proof.
move=> b0 bn.
have -> : \sum_(w < n) tri c.+1 n u w * f (w + c.+1)%N =
   \sum_(w < n) ((u == w)%:R * (al (u + c.+1)%N * f (u + c.+1)%N)
     + (u.+1 == w :> nat)%:R * (be (u + c.+1)%N * f (u + c.+1).+1)
     + (w.+1 == u :> nat)%:R * (be (u + c.+1).-1 * f (u + c.+1).-1)).
  apply: eq_bigr => w _; rewrite mxE.
  case: (altP (u =P w)) => [->|neq].
    by rewrite (gtn_eqF (ltnSn w)) mul1r !mul0r !addr0.
  case: (altP (u.+1 =P w :> nat)) => [e|n1].
    have -> : (w.+1 == u :> nat) = false by rewrite -e (gtn_eqF (_ : u < u.+2)%N) // ltnW.
    by rewrite !mul0r mul1r add0r addr0 -e addSn.
  case: (altP (w.+1 =P u :> nat)) => [e|n2].
    by rewrite !mul0r mul1r !add0r -e !addSn /= addnS.
  by rewrite !mul0r !addr0.
rewrite !big_split /= /T.
have s1 : \sum_(w < n) (u == w)%:R * (al (u + c.+1)%N * f (u + c.+1)%N) = al (u + c.+1)%N * f (u + c.+1)%N.
  rewrite (bigD1 u) //= eqxx mul1r big1 ?addr0 // => w.
  by rewrite eq_sym => /negPf ->; rewrite mul0r.
have s2 : \sum_(w < n) (u.+1 == w :> nat)%:R * (be (u + c.+1)%N * f (u + c.+1).+1) = be (u + c.+1)%N * f (u + c.+1).+1.
  case: (ltnP u.+1 n) => h.
    rewrite (bigD1 (Ordinal h)) //= eqxx mul1r big1 ?addr0 // => w ne.
    have -> : (u.+1 == w :> nat) = false.
      by apply/negbTE; apply: contra ne => /eqP e; apply/eqP/val_inj.
    by rewrite mul0r.
  have e : u.+1 = n by apply/eqP; rewrite eqn_leq h ltn_ord.
  have -> : (u + c.+1 = n + c)%N by rewrite addnS -addSn; congr addn.
  by rewrite bn !mul0r big1 // => w _; rewrite mulr0.
have s3 : \sum_(w < n) (w.+1 == u :> nat)%:R * (be (u + c.+1).-1 * f (u + c.+1).-1) = be (u + c.+1).-1 * f (u + c.+1).-1.
  case: (posnP u) => h.
    by rewrite h add0n /= b0 !mul0r big1 // => w _; rewrite mulr0.
  have h' : (u.-1 < n)%N by rewrite prednK // ltnW.
  rewrite (bigD1 (Ordinal h')) //= prednK // eqxx mul1r big1 ?addr0 // => w ne.
  have -> : (w.+1 == u :> nat) = false.
    by apply/negbTE; apply: contra ne => /eqP e; apply/eqP/val_inj; rewrite /= -e.
  by rewrite mul0r.
by rewrite s1 s2 s3; ring.
Qed.

Lemma tri_pow c n (u v : 'I_n.+1) m : be c = 0 -> be (n.+1 + c)%N = 0 ->
  (tri c.+1 n.+1 ^+ m) u v = iter m T (dlt (v + c.+1)) (u + c.+1)%N.
Proof.
move=> b0 bn; elim: m u v => [|m IH] u v.
  by rewrite expr0 mxE /= /dlt eqn_add2r.
rewrite exprS mxE iterS -tri_sum //.
by apply: eq_bigr => w _; rewrite IH.
Qed.

(** local formulas *)
Let g1 j : (j.+1 == j) = false. Proof. by apply: gtn_eqF. Qed.
Let g2 j : (j.+2 == j) = false. Proof. by apply: gtn_eqF; rewrite ltnW. Qed.
Let g3 j : (j.+3 == j) = false. Proof. by apply: gtn_eqF; rewrite 2?ltnW. Qed.
Let g4 j : (j.+4 == j) = false. Proof. by apply: gtn_eqF; rewrite 3?ltnW. Qed.
Let g5 j : (j.+4.+1 == j) = false. Proof. by apply: gtn_eqF; rewrite 4?ltnW. Qed.
Let g6 j : (j.+4.+2 == j) = false. Proof. by apply: gtn_eqF; rewrite 5?ltnW. Qed.
Let l1 j : (j == j.+1) = false. Proof. by rewrite eq_sym g1. Qed.
Let l2 j : (j == j.+2) = false. Proof. by rewrite eq_sym g2. Qed.
Let l3 j : (j == j.+3) = false. Proof. by rewrite eq_sym g3. Qed.
Let l4 j : (j == j.+4) = false. Proof. by rewrite eq_sym g4. Qed.
Let l5 j : (j == j.+4.+1) = false. Proof. by rewrite eq_sym g5. Qed.
Let l6 j : (j == j.+4.+2) = false. Proof. by rewrite eq_sym g6. Qed.


Ltac loc := rewrite /= /T /dlt /= !eqSS !(eqxx, g1, g2, g3, g4, g5, g6, l1, l2, l3, l4, l5, l6) /=;
  rewrite ?(mulr0, addr0, add0r, mulr1); ring.

Section Loc.
Variable j : nat.
Let c := j.+4.+2.
Let X := al j.+4.+2. Let am2 := al j.+4. Let am1 := al j.+4.+1. Let a1 := al j.+4.+3. Let a2 := al j.+4.+4.
Let bm2 := be j.+4 ^+ 2. Let bm1 := be j.+4.+1 ^+ 2. Let b0 := be j.+4.+2 ^+ 2. Let b1 := be j.+4.+3 ^+ 2.
Let b2 := be j.+4.+4 ^+ 2. Let s := be j.+4.+2.

Lemma D0 : iter 0 T (dlt c) c = 1. Proof. by rewrite /= /dlt eqxx. Qed.
Lemma D1 : iter 1 T (dlt c) c = X. Proof. by rewrite /c /X; loc. Qed.
Lemma D2 : iter 2 T (dlt c) c = X ^+ 2 + (bm1 + b0). Proof. by rewrite /c /X /bm1 /b0; loc. Qed.
Lemma D3 : iter 3 T (dlt c) c = X ^+ 3 + 2%:R * (bm1 + b0) * X + (am1 * bm1 + a1 * b0).
Proof. by rewrite /c /X /bm1 /b0 /am1 /a1; loc. Qed.
Lemma D4 : iter 4 T (dlt c) c = X ^+ 4 + 3%:R * (bm1 + b0) * X ^+ 2 + 2%:R * (am1 * bm1 + a1 * b0) * X
  + (bm1 * (am1 ^+ 2 + bm2) + (bm1 + b0) ^+ 2 + b0 * (a1 ^+ 2 + b1)).
Proof. by rewrite /c /X /bm1 /b0 /am1 /a1 /bm2 /b1; loc. Qed.
Lemma D5 : iter 5 T (dlt c) c = X ^+ 5 + 4%:R * (bm1 + b0) * X ^+ 3 + 3%:R * (am1 * bm1 + a1 * b0) * X ^+ 2
  + (2%:R * bm1 * (am1 ^+ 2 + bm2) + 3%:R * (bm1 + b0) ^+ 2 + 2%:R * b0 * (a1 ^+ 2 + b1)) * X
  + (am2 * bm2 * bm1 + am1 * bm1 * (am1 ^+ 2 + 2%:R * (bm2 + bm1 + b0))
     + a1 * b0 * (a1 ^+ 2 + 2%:R * (bm1 + b0 + b1)) + a2 * b0 * b1).
Proof. by rewrite /c /X /bm1 /b0 /am1 /a1 /bm2 /b1 /am2 /a2; loc. Qed.

Lemma O0 : iter 0 T (dlt c.+1) c = 0. Proof. by rewrite /= /dlt l1. Qed.
Lemma O1 : iter 1 T (dlt c.+1) c = s. Proof. by rewrite /c /s; loc. Qed.
Lemma O2 : iter 2 T (dlt c.+1) c = s * (X + a1). Proof. by rewrite /c /X /a1 /s; loc. Qed.
Lemma O3 : iter 3 T (dlt c.+1) c = s * (s ^+ 2 + (X ^+ 2 + X * a1 + a1 ^+ 2 + bm1 + b1)).
Proof. by rewrite /c /X /a1 /s /bm1 /b1; loc. Qed.
Lemma O4 : iter 4 T (dlt c.+1) c = s * (2%:R * (X + a1) * s ^+ 2
  + (X ^+ 3 + X ^+ 2 * a1 + X * a1 ^+ 2 + a1 ^+ 3 + bm1 * (am1 + 2%:R * X + a1) + b1 * (X + 2%:R * a1 + a2))).
Proof. by rewrite /c /X /a1 /s /bm1 /b1 /am1 /a2; loc. Qed.
Lemma O5 : iter 5 T (dlt c.+1) c = s * (s ^+ 4
  + (3%:R * X ^+ 2 + 4%:R * X * a1 + 3%:R * a1 ^+ 2 + 2%:R * (bm1 + b1)) * s ^+ 2
  + (X ^+ 4 + X ^+ 3 * a1 + X ^+ 2 * a1 ^+ 2 + X * a1 ^+ 3 + a1 ^+ 4
     + bm1 * (am1 ^+ 2 + am1 * a1 + a1 ^+ 2 + X * (2%:R * am1 + 3%:R * X + 2%:R * a1) + bm2 + bm1 + b1)
     + b1 * (X ^+ 2 + X * a2 + a2 ^+ 2 + a1 * (2%:R * X + 3%:R * a1 + 2%:R * a2) + b1 + b2))).
Proof. by rewrite /c /X /a1 /s /bm1 /b1 /am1 /a2 /bm2 /b2; loc. Qed.
End Loc.

(** the transposed entry *)
Lemma tri_sym cc n : (tri cc n)^T = tri cc n.
Proof.
apply/matrixP => u v; rewrite !mxE (eq_sym v u).
case: eqP => [->//|_]; case: eqP => [e|_]; case: eqP => [e'|_] //.
by move: (l2 u); rewrite e' e eqxx.
Qed.
Lemma tri_pow_sym cc n m : (tri cc n.+1 ^+ m)^T = tri cc n.+1 ^+ m.
Proof.
elim: m => [|m IH]; first by rewrite expr0 trmx1.
by rewrite exprS trmx_mul IH tri_sym -exprS exprSr.
Qed.
End Tri.
End Pow.

(** ** Derivative of the trace of a power *)
Section Deriv.
Variables (R : comRingType) (n : nat).
Implicit Types M : 'M[{poly R}]_n.+1.
Definition dmx M := map_mx (@deriv R) M.

Lemma dmxM M1 M2 : dmx (M1 * M2) = dmx M1 * M2 + M1 * dmx M2.
Proof.
apply/matrixP => u v; rewrite !mxE linear_sum /= -big_split /=.
by apply: eq_bigr => w _; rewrite derivM !mxE.
Qed.

Lemma trD M1 M2 : \tr (M1 + M2) = \tr M1 + \tr M2. Proof. exact: mxtraceD. Qed.
Lemma trC M1 M2 : \tr (M1 * M2) = \tr (M2 * M1). Proof. exact: mxtrace_mulC. Qed.

Lemma d_tr M : (\tr M)^`() = \tr (dmx M).
Proof. by rewrite /mxtrace linear_sum; apply: eq_bigr => u _; rewrite !mxE. Qed.

Lemma dpow_comm M k m : \tr (dmx (M ^+ k) * M ^+ m) = k%:R * \tr (dmx M * M ^+ (k + m).-1).
Proof.
elim: k m => [|k IH] m.
  rewrite expr0 mul0r; have -> : dmx 1 = 0; last by rewrite mul0r mxtrace0.
  by apply/matrixP => u v; rewrite !mxE; case: (u == v); rewrite ?mulr1n ?mulr0n -?polyC1 -?polyC0 derivC.
have e1 : dmx M * M ^+ k * M ^+ m = dmx M * M ^+ (k + m) by rewrite -mulrA -exprD.
have e2 : \tr (M * dmx (M ^+ k) * M ^+ m) = \tr (dmx (M ^+ k) * M ^+ m.+1).
  by rewrite -mulrA trC -mulrA -exprSr.
rewrite exprS dmxM mulrDl trD e1 e2 IH addnS addSn /=.
by rewrite -[in RHS]addn1 natrD mulrDl mul1r addrC.
Qed.

Lemma d_tr_pow M k : (\tr (M ^+ k))^`() = k%:R * \tr (dmx M * M ^+ k.-1).
Proof. by rewrite d_tr -[dmx _]mulr1 -(expr0 M) dpow_comm addn0. Qed.
End Deriv.

Lemma deriv_eq0 (R : numDomainType) (p : {poly R}) : p^`() = 0 -> forall x y, p.[x] = p.[y].
Proof.
move=> d0; suff -> : p = (p`_0)%:P by move=> x y; rewrite !hornerC.
apply/polyP => -[|k]; rewrite coefC //=.
have /eqP := congr1 (fun q : {poly R} => q`_k) d0; rewrite coef_deriv coef0.
by rewrite mulrn_eq0 /= => /eqP.
Qed.
