(** * HermGen: complex Hermitian kernels with spectrum in [0, 1] satisfy the hypothesis of GenCplx. *)
From mathcomp Require Import all_ssreflect all_algebra.
From mathcomp.real_closed Require Import complex.
From mathcomp.algebra_tactics Require Import ring.
From Verif Require Import Prob MinorF ExactModel ChainCons ProjCplx GenCplx.
Set Implicit Arguments. Unset Strict Implicit. Unset Printing Implicit Defensive.
Import Order.Theory GRing.Theory Num.Theory.
Local Open Scope ring_scope.
Local Arguments conjc : simpl never.

Lemma h_ring1 (F : comRingType) (vi di cv t A vk dk : F) :
  (vi + di * cv) * A * (vk + dk * t) = vi * A * vk + (vi * A * (dk * t) + ((di * cv) * A * vk + di * cv * A * (dk * t))).
Proof. by ring. Qed.
Lemma h_field1 (F : fieldType) (x s cs n2 : F) : 2%:R != 0 :> F -> s != 0 -> cs != 0 -> 
  x + (- (x + 1) / (2%:R * (s * cs))) * cs * s + (- (x + 1) / (2%:R * (s * cs))) * s * cs +
    0 * n2 = -1.
Proof. by move=> h2 s0 c0; field; rewrite h2 s0 c0. Qed.
Lemma h_field2 (F : fieldType) (x a s cs : F) : a != 0 ->
  x + (- (cs / a)) * s + (- (s / a)) * cs + a * (- (s / a) * (- (cs / a))) = x - s * cs / a.
Proof. by move=> a0; field. Qed.
Lemma h_ring3 (F : fieldType) (cv vk Aik Aij Ajk u : F) : cv * Aik * vk - cv * Aij * (Ajk * vk * u) = cv * (Aik - Aij * Ajk * u) * vk.
Proof. by ring. Qed.
Lemma h_ring4 (F : comRingType) (cv vk B w x y : F) : cv * (B + w * (x * y)) * vk = cv * B * vk + w * (cv * x * (y * vk)).
Proof. by ring. Qed.
Lemma h_ring5 (F : comRingType) (d a x y u : F) : d - a + u * (x * y) = d - (a + - u * (x * y)).
Proof. by ring. Qed.

Lemma h_ring6 (F : fieldType) (d a x y c : F) : d - a - (0 - x) * (0 - y) / c = d - (a + c^-1 * (x * y)).
Proof. by ring. Qed.

Section Herm.
Variables (R : rcfType) (N : nat).
Notation C := (complex R).
Implicit Types (A B K : 'M[C]_N) (js : seq 'I_N).

(** Hermitian form *)
Definition hf A (v : 'I_N -> C) : C := \sum_i \sum_k conjc (v i) * A i k * v k.

Definition hpsd_on js A : Prop :=
  (forall i k, i \in js -> k \in js -> A k i = conjc (A i k)) /\
  (forall v, (forall i, i \notin js -> v i = 0) -> 0 <= hf A v).

Lemma hf_shift A v j t : (forall i, A i j = conjc (A j i)) ->
  hf A (fun i => v i + (i == j)%:R * t) =
  hf A v + conjc t * (\sum_i A j i * v i) + t * conjc (\sum_i A j i * v i) + A j j * (t * conjc t).
Proof.
move=> sA; rewrite /hf.
have cn (b : bool) : conjc (b%:R : C) = b%:R by case: b; rewrite ?conjc1 ?conjc0.
transitivity (\sum_i \sum_k (conjc (v i) * A i k * v k + (conjc (v i) * A i k * ((k == j)%:R * t)
   + (((i == j)%:R * conjc t) * A i k * v k + (i == j)%:R * conjc t * A i k * ((k == j)%:R * t))))).
  apply: eq_bigr => i _; apply: eq_bigr => k _; rewrite rmorphD rmorphM /= cn; exact: h_ring1.
under eq_bigr do rewrite big_split /=.
rewrite big_split /= -!addrA; congr (_ + _).
under eq_bigr do rewrite !big_split /=.
rewrite !big_split /=.
have e1 : \sum_i \sum_k conjc (v i) * A i k * ((k == j)%:R * t) = t * conjc (\sum_i A j i * v i).
  rewrite rmorph_sum big_distrr /=; apply: eq_bigr => i _.
  rewrite (bigD1 j) //= big1 => [|k kj]; last by rewrite (negPf kj) mul0r mulr0.
  by rewrite eqxx mul1r addr0 sA rmorphM /= mulrC [conjc (v i) * _]mulrC.
have e2 : \sum_i \sum_k (i == j)%:R * conjc t * A i k * v k = conjc t * \sum_i A j i * v i.
  rewrite (bigD1 j) //= [X in _ + X]big1 => [|k kj]; last by rewrite big1 // => ? _; rewrite (negPf kj) !mul0r.
  by rewrite eqxx addr0 big_distrr /=; apply: eq_bigr => k _; rewrite mul1r mulrA.
have e3 : \sum_i \sum_k (i == j)%:R * conjc t * A i k * ((k == j)%:R * t) = A j j * (t * conjc t).
  rewrite (bigD1 j) //= [X in _ + X]big1 => [|k kj]; last by rewrite big1 // => ? _; rewrite (negPf kj) !mul0r.
  rewrite addr0 (bigD1 j) //= [X in _ + X]big1 => [|k kj]; last by rewrite (negPf kj) mul0r mulr0.
  by rewrite !eqxx addr0 !mul1r mulrAC mulrC; congr (_ * _); rewrite mulrC.
by rewrite e1 e2 e3 addrCA.
Qed.

Definition restr js A : 'M[C]_N := \matrix_(i, k) (if (i \in js) && (k \in js) then A i k else 0).

Lemma hf_restr js A v : (forall i, i \notin js -> v i = 0) -> hf (restr js A) v = hf A v.
Proof.
move=> v0; apply: eq_bigr => i _; apply: eq_bigr => k _; rewrite mxE.
have [ij|ij] := boolP (i \in js); last by rewrite v0 // conjc0 !mul0r.
by have [kj|kj] := boolP (k \in js) => //=; rewrite (v0 k) // !mulr0.
Qed.

Lemma eq_hf A B js v : (forall i, i \notin js -> v i = 0) ->
  (forall i k, i \in js -> k \in js -> A i k = B i k) -> hf A v = hf B v.
Proof.
move=> v0 AB; apply: eq_bigr => i _; apply: eq_bigr => k _.
have [ij|ij] := boolP (i \in js); last by rewrite v0 // conjc0 !mul0r.
have [kj|kj] := boolP (k \in js); last by rewrite (v0 k) // !mulr0.
by rewrite AB.
Qed.

Lemma eq_hpsd_on js A B : (forall i k, i \in js -> k \in js -> A i k = B i k) -> hpsd_on js A -> hpsd_on js B.
Proof.
move=> AB [sA pA]; split=> [i k ij kj|v v0]; first by rewrite -!AB // sA.
by rewrite -(eq_hf v0 AB) pA.
Qed.

Lemma hpsd_on_shift js A j v t : j \in js -> hpsd_on js A -> (forall i, i \notin js -> v i = 0) ->
  0 <= hf A v + conjc t * (\sum_i A j i * v i) + t * conjc (\sum_i A j i * v i) + A j j * (t * conjc t).
Proof.
move=> jj [sA pA] v0.
have w0 i : i \notin js -> v i + (i == j)%:R * t = 0.
  by move=> ij; rewrite v0 // add0r; case: eqP ij => [->|]; rewrite ?jj // mul0r.
have := pA _ w0; rewrite -(hf_restr A w0) hf_shift ?(hf_restr A v0) ?mxE ?jj //=; last first.
  by move=> i; rewrite !mxE andbC jj; case: ifP => [ij|]; rewrite ?conjc0 //; exact: sA.
suff -> : \sum_i restr js A j i * v i = \sum_i A j i * v i by [].
apply: eq_bigr => i _; rewrite !mxE jj /=.
by case: ifP => // /negbT/v0 ->; rewrite !mulr0.
Qed.

Lemma hf1 A j : hf A (fun i => (i == j)%:R) = A j j.
Proof.
rewrite /hf (bigD1 j) //= [X in _ + X]big1 => [|i ij]; last by rewrite big1 // => k _; rewrite (negPf ij) conjc0 !mul0r.
rewrite addr0 (bigD1 j) //= [X in _ + X]big1 => [|k kj]; last by rewrite (negPf kj) mulr0.
by rewrite eqxx !addr0 conjc1 mul1r mulr1.
Qed.

Lemma hpsd_diag js A j : j \in js -> hpsd_on js A -> 0 <= A j j.
Proof.
by move=> jj [_ pA]; rewrite -(hf1 A); apply: pA => i ij; case: eqP ij => // ->; rewrite jj.
Qed.

Lemma conjc_ge0 (x : C) : 0 <= x -> conjc x = x.
Proof. by move=> x0; rewrite -[x in LHS]RRe_real ?ger0_real // -[x in RHS]RRe_real ?ger0_real // conjc_real. Qed.
Lemma conjc_eq0' (x : C) : (conjc x == 0) = (x == 0).
Proof. by rewrite fmorph_eq0. Qed.

Lemma hpsd_diag0 js A j i : j \in js -> i \in js -> hpsd_on js A -> A j j = 0 -> A j i = 0.
Proof.
move=> jj ij pA aj.
have v0 k : k \notin js -> (k == i)%:R = 0 :> C by case: eqP => // ->; rewrite ij.
have sE : \sum_k A j k * (k == i)%:R = A j i.
  rewrite (bigD1 i) //= big1 => [|k ki]; last by rewrite (negPf ki) mulr0.
  by rewrite eqxx mulr1 addr0.
apply/eqP; apply: contraT => aji.
have ai : 0 <= A i i by exact: hpsd_diag pA.
pose c := - (A i i + 1) / (2%:R * (A j i * conjc (A j i))).
have cc : conjc c = c.
  by rewrite /c fmorph_div rmorphN rmorphD rmorph1 rmorphM rmorph_nat rmorphM /= conjcK (conjc_ge0 ai) [conjc _ * _]mulrC.
have := @hpsd_on_shift js A j _ (c * A j i) jj pA v0.
rewrite sE hf1 aj rmorphM /= cc /c h_field1 ?pnatr_eq0 ?conjc_eq0' //.
by rewrite oppr_ge0 ler10.
Qed.

Lemma hpsd_schur j js A : j \notin js -> hpsd_on (j :: js) A -> A j j != 0 -> hpsd_on js (schur A j).
Proof.
move=> jn pA a0; have jj : j \in j :: js by rewrite inE eqxx.
have sub i : i \in js -> i \in j :: js by rewrite inE orbC => ->.
have aj : conjc (A j j) = A j j by exact: conjc_ge0 (hpsd_diag jj pA).
split=> [i k ij kj|v v0].
  by rewrite !mxE rmorphB fmorph_div rmorphM /= aj -(pA.1 i k) ?sub // -(pA.1 i j) ?jj ?sub // -(pA.1 j k) ?jj ?sub // [A j i * _]mulrC.
have v0' i : i \notin j :: js -> v i = 0 by rewrite inE negb_or => /andP[_]; exact: v0.
set s := \sum_i A j i * v i.
have := hpsd_on_shift (- (s / A j j)) jj pA v0'; rewrite -/s rmorphN fmorph_div /= aj h_field2 //.
suff -> : hf (schur A j) v = hf A v - s * conjc s / A j j by [].
have sE : \sum_i conjc (v i) * A i j = conjc s.
  rewrite rmorph_sum; apply: eq_bigr => i _; have [ij|/v0 ->] := boolP (i \in js); last by rewrite /= conjc0 mul0r mulr0 conjc0.
  by rewrite (pA.1 j i) ?jj ?sub // rmorphM mulrC.
have -> : s * conjc s / A j j = \sum_i \sum_k conjc (v i) * A i j * (A j k * v k / A j j).
  rewrite mulrAC mulrC -sE mulr_suml; apply: eq_bigr => i _.
  by rewrite -mulr_sumr -mulr_suml.
rewrite -sumrB; apply: eq_bigr => i _; rewrite -sumrB; apply: eq_bigr => k _.
by rewrite mxE h_ring3.
Qed.

Definition hcontr js A : Prop := hpsd_on js A /\ hpsd_on js (1%:M - A).

Lemma hcontr_res j js A b : j \notin js -> hcontr (j :: js) A -> (if b then A j j else A j j - 1) != 0 ->
  hcontr js (res A j b).
Proof.
move=> jn [pA pI].
have dj i : i \in js -> (i == j) = false by move=> ij; apply: contraNF jn => /eqP <-.
have sub i : i \in js -> i \in j :: js by rewrite inE orbC => ->.
have jj : j \in j :: js by rewrite inE eqxx.
have weak B : hpsd_on (j :: js) B -> hpsd_on js B.
  move=> [sB pB]; split=> [i k ij kj|v v0]; first by rewrite sB ?sub.
  by apply: pB => i; rewrite inE negb_or => /andP[_]; exact: v0.
have addp B w : hpsd_on js B -> 0 <= w -> hpsd_on js (\matrix_(i, k) (B i k + w * (A i j * A j k))).
  move=> [sB pB] w0; split=> [i k ij kj|v v0].
    by rewrite !mxE rmorphD !rmorphM /= (conjc_ge0 w0) (sB i k) // -(pA.1 i j) ?jj ?sub // -(pA.1 j k) ?jj ?sub // [A j i * _]mulrC.
  have -> : hf (\matrix_(i, k) (B i k + w * (A i j * A j k))) v = hf B v + w * ((\sum_i A j i * v i) * conjc (\sum_i A j i * v i)).
    have sE : \sum_i conjc (v i) * A i j = conjc (\sum_i A j i * v i).
      rewrite rmorph_sum; apply: eq_bigr => i _; have [ij|/v0 ->] := boolP (i \in js); last by rewrite /= conjc0 mul0r mulr0 conjc0.
      by rewrite (pA.1 j i) ?jj ?sub // rmorphM mulrC.
    have -> : w * ((\sum_i A j i * v i) * conjc (\sum_i A j i * v i)) = \sum_i \sum_k w * (conjc (v i) * A i j * (A j k * v k)).
      rewrite [(\sum_i A j i * v i) * _]mulrC -{1}sE mulr_suml mulr_sumr; apply: eq_bigr => i _.
      by rewrite !mulr_sumr.
    rewrite -big_split /=; apply: eq_bigr => i _; rewrite -big_split /=; apply: eq_bigr => k _.
    by rewrite mxE h_ring4.
  by rewrite addr_ge0 ?pB // mulr_ge0 // mulc_conj lecR addr_ge0 // sqr_ge0.
case: b => a0.
  have aj : 0 <= A j j by exact: hpsd_diag pA.
  split; first by rewrite /res -schur_upd; exact: hpsd_schur.
  apply: (eq_hpsd_on _ (addp _ (A j j)^-1 (weak _ pI) _)); last by rewrite invr_ge0.
  by move=> i k ij kj; rewrite !mxE h_ring5.
have aj : 0 <= 1 - A j j by have := hpsd_diag jj pI; rewrite !mxE eqxx.
split.
  apply: (eq_hpsd_on _ (addp _ (1 - A j j)^-1 (weak _ pA) _)); last by rewrite invr_ge0.
  by move=> i k ij kj; rewrite !mxE -opprB invrN.
have := hpsd_schur jn pI; rewrite !mxE eqxx -opprB oppr_eq0 => /(_ a0).
apply: eq_hpsd_on => i k ij kj; rewrite !mxE (dj i) // (eq_sym j) (dj k) // eqxx /= -[A j j - 1]opprB invrN opprK.
exact: h_ring6.
Qed.

Lemma hcontr_valid js A : uniq js -> hcontr js A -> valid js A.
Proof.
elim: js A => [|j js IH] A; first by move=> _ _ S; rewrite qv_nil ler01.
move=> /= /andP[jn u] c S.
have dj i : i \in js -> (i == j) = false by move=> ij; apply: contraNF jn => /eqP <-.
have jj : j \in j :: js by rewrite inE eqxx.
have a0 : 0 <= A j j by exact: hpsd_diag c.1.
have a1 : 0 <= 1 - A j j by have := hpsd_diag jj c.2; rewrite !mxE eqxx.
have [z|nz] := eqVneq (if j \in S then A j j else A j j - 1) 0; last first.
  rewrite qv_res //; apply: mulr_ge0; first by case: ifP.
  exact: IH u (hcontr_res jn c nz) S.
suff : pm (minusI A S) (j :: js) = 0 by rewrite /qv => ->; rewrite mulr0.
transitivity (pm (restr (j :: js) (minusI A S)) (j :: js)).
  by apply: eq_pm => i k ij kj; rewrite [RHS]mxE ij kj.
apply: (pm_row0 (y := j)) => // i; rewrite [LHS]mxE jj /=; case: ifP => // ij.
have [->|ne] := eqVneq i j; first by rewrite minusI_jj.
rewrite !mxE eq_sym (negbTE ne) subr0.
case: ifP z => _ z; first exact: hpsd_diag0 ij c.1 z.
have := hpsd_diag0 jj ij c.2; rewrite !mxE eqxx eq_sym (negbTE ne) sub0r -opprB z oppr0 => /(_ erefl) /eqP.
by rewrite oppr_eq0 => /eqP.
Qed.
End Herm.
