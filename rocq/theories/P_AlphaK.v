(** * P_AlphaK: the alpha sampler of k-DPPs, with the search of a good rescaling (exact_sampling.py l.1147-1241). *)
From Coq Require Import Reals String Lra FunctionalExtensionality Classical_Prop.
From Coquelicot Require Import Series.
From mathcomp Require Import all_ssreflect all_algebra zify.
From mathcomp.algebra_tactics Require Import ring.
From Verif Require Import Prob Minor ChainCons ExactModel ProjKuTa P_Proj Spectral P_Spectral P_Mcmc SpecLemmas McmcModel Mcmc Finite Rstruct PProg DetExp VfxModel VfxLin EighEx QRex VfxCore VfxLaw VfxPre VfxAlpha P_AlphaDpp.
From Verif Require FiniteModel.
Set Implicit Arguments. Unset Strict Implicit. Unset Printing Implicit Defensive.
Import Order.Theory GRing.Theory Num.Theory.
Local Open Scope ring_scope.
Local Arguments PE : simpl never.

(** the preprocessed information with another rescaling *)
Definition rescaled n (L : 'M[R]_n) (I : ainfo n) (g : R) : ainfo n :=
  @AInfo n g (a_r I) (a_D I) (a_probs I) (a_vals I) (a_vecs I) (fun j => g * L j j) (fun _ => false).

(** the intervals [mn, mx] and rescalings al that the search can visit, from (mn0, mx0, al0) *)
Inductive reach (mn0 mx0 al0 : R) : R -> R -> R -> Prop :=
| Reach0 : reach mn0 mx0 al0 mn0 mx0 al0
| ReachUp mn mx al : reach mn0 mx0 al0 mn mx al -> reach mn0 mx0 al0 al mx (rsqrt (al * mx))
| ReachDn mn mx al : reach mn0 mx0 al0 mn mx al -> reach mn0 mx0 al0 mn al (rsqrt (mn * al)).

Lemma rsqrt_pos (x : R) : 0 < x -> 0 < rsqrt x.
Proof. by move=> x0; rewrite /rsqrt; have := @sqrtr_gt0 RR x => ->. Qed.

Lemma comb1 (c x y p q : R) : 0 <= c -> 0 <= x -> 0 <= y -> 0 <= p -> 0 <= q -> 0 <= c * (x * p + y * q).
Proof. by move=> *; rewrite mulr_ge0 // addr_ge0 // mulr_ge0. Qed.
Lemma comb2 (c a p q z x y p1 q1 : R) : 0 <= c -> 0 <= a -> 0 <= p -> 0 <= q -> 0 <= z -> 0 <= x -> 0 <= y -> 0 <= p1 -> 0 <= q1 ->
  0 <= c * (a * (p + q * z) + (x * p1 + y * q1)).
Proof. by move=> *; rewrite mulr_ge0 // addr_ge0 // ?addr_ge0 ?mulr_ge0 // addr_ge0 // mulr_ge0. Qed.
Lemma comb3 (c a p q z x y p1 q1 : R) : 0 < c -> 0 < a -> 0 <= p -> 0 <= q -> 0 < z -> 0 <= x -> 0 <= y -> 0 <= p1 -> 0 <= q1 ->
  0 < p \/ 0 < q -> 0 < c * (a * (p + q * z) + (x * p1 + y * q1)).
Proof.
move=> c0 a0 p0 q0 z0 x0 y0 p10 q10 h; rewrite mulr_gt0 // ltr_paddr // ?addr_ge0 ?mulr_ge0 // mulr_gt0 //.
by case: h => h; [rewrite ltr_paddr // mulr_ge0 // ltW | rewrite ltr_paddl // mulr_gt0].
Qed.
Lemma comb4 (x1 x2 x3 x4 x5 x6 x7 x8 ph qh pu qu po qo : R) :
  x1 * (x2 * (x3 * (ph * x4 + qh * x4 * x5) + (x7 * (pu * x6 + qu * x4) + x8 * (po * x6 + qo * x4)))) =
  x1 * x2 * (x7 * pu + x8 * po) * x6 + x1 * x2 * (x3 * (ph + qh * x5) + (x7 * qu + x8 * qo)) * x4.
Proof. ring. Qed.
Lemma comb6 (x d : R) m : 0 <= x -> x < 1 -> 0 < d -> 0 <= (1 - x ^+ m) / d.
Proof. by move=> x0 x1 d0; rewrite divr_ge0 ?subr_ge0 ?exprn_ile1 // ltW. Qed.
Lemma comb7 (x d : R) m : 0 <= x -> x < 1 -> 0 < d -> (0 < m)%N -> 0 < (1 - x ^+ m) / d.
Proof. by move=> x0 x1 d0 m0; rewrite divr_gt0 // subr_gt0 exprn_ilt1 //; lia. Qed.
Lemma comb5 (x p y z q t : R) : x * y * (p * z + q * t) = x * p * (y * z) + x * (q * t) * (y * 1).
Proof. ring. Qed.

Section AlphaK.
Variables (n : nat) (L : 'M[R]_n).
Variable eigh : forall m : nat, 'M[R]_m -> seq R * seq 'cV[R]_m.
Variable qr : forall N r : nat, 'M[R]_(N, r) -> 'M[R]_(N, r).
Hypothesis eighP : @eigh_contract RR eigh.
Hypothesis qrP : forall N, @qr_contract RR N (@qr N).
Variable eps : R.
Hypothesis eps0 : 0 <= eps.
Hypothesis pL : @is_psd RR n L.
Variable brentq : (R -> R) -> option R.
Hypothesis brentqP : forall f a, brentq f = Some a -> 0 < a.
Variable r_func : R -> R.
Hypothesis r_funcP : forall s, 0 < s -> 0 < r_func s.
Variables (D : seq 'I_n) (probs : seq R) (lam : R) (desired : option R) (I : @ainfo n).
Hypothesis wc : (size D)%:R * eps < 1.
Hypothesis pre : alpha_precompute L eigh eps D probs lam desired brentq r_func = inl I.
(** alpha_min and alpha_max at the start *)
Variables (mn0 mx0 : R).
Hypothesis mn00 : 0 < mn0.
Hypothesis mx00 : 0 < mx0.
(** the check [acc_thresh >= 0] never raises (see C74) *)
Hypothesis strict : forall mn mx al, reach mn0 mx0 (a_alpha I) mn mx al ->
  forall c, drawable L (rescaled L I al) c -> alpha_acc_thresh L (rescaled L I al) (a_est L (rescaled L I al)) c != 0.

Let PRE := alpha_pre eighP pL brentqP wc pre.
Let r0 : 0 < a_r I. Proof. by case: PRE => _ h -> _ _; exact: r_funcP h. Qed.

Lemma reach_gt0 mn mx al : reach mn0 mx0 (a_alpha I) mn mx al -> [/\ 0 < mn, 0 < mx & 0 < al].
Proof.
elim=> [|mn' mx' al' _ [h1 h2 h3]|mn' mx' al' _ [h1 h2 h3]]; first by split=> //; case: PRE => /andP[].
- by split=> //; apply: rsqrt_pos; rewrite mulr_gt0.
- by split=> //; apply: rsqrt_pos; rewrite mulr_gt0.
Qed.

Variables (k M : nat) (early : bool).
Definition Ksum (G : {set 'I_n} -> R) : R := \sum_(A : {set 'I_n} | #|A| == k) pmS (R := RR) L A * G A.
Definition oG (G : {set 'I_n} -> R) (out : option (seq 'I_n)) : R := if out is Some X then G (items X) else 0.
Notation kloop := (alpha_k_loop L eigh qr k M early).

(** the part of a round that follows the draw *)
Definition krest rounds sc tc un ov (hit u o : bool) out1 mn mx (I1 : ainfo n) : pprog (seq 'I_n) :=
  if hit && early then alpha_k_finish out1 else
  if (sc + hit)%N == 2%N then alpha_k_finish out1
  else if tc.+1 == FiniteModel.ceil_sqrt k then
    let mn1 := if (ov + o < un + u)%N then a_alpha I1 else mn in
    let mx1 := if (ov + o < un + u)%N then mx else a_alpha I1 in
    if (mx1 / mn1 <= 1 + ((k%:R + 3%:R) ^+ 2)^-1) && (0 < sc + hit)%N then alpha_k_finish out1
    else kloop rounds (sc + hit)%N 0 0 0 out1 mn1 mx1 (rescaled L I1 (rsqrt (mn1 * mx1)))
  else kloop rounds (sc + hit)%N tc.+1 (un + u)%N (ov + o)%N out1 mn mx I1.

Lemma kloopS rounds sc tc un ov out mn mx I1 : kloop rounds.+1 sc tc un ov out mn mx I1 =
  pbind (alpha_do_sampling_loop L eigh qr I1 M) (fun o =>
    krest rounds sc tc un ov (size o.1.1 == k) (size o.1.1 < k)%N (k < size o.1.1)%N
      (if size o.1.1 == k then Some o.1.1 else out) mn mx o.2).
Proof. by []. Qed.

Lemma PE_finish out G : PE (alpha_k_finish out) (fun X => G (items X)) = oG G out.
Proof. by case: out. Qed.

(** the value of a run is a combination of the sample found so far and of the k-DPP *)
Definition mixes (some : bool) (run : option (seq 'I_n) -> pprog (seq 'I_n)) p q : Prop := forall out G, isSome out = some ->
  (forall A, 0 <= G A <= 1) -> PE (run out) (fun X => G (items X)) = p * oG G out + q * Ksum G.

Definition enough rounds sc := (sc < 2)%N && (if early then 0 < rounds else 2 <= rounds + sc)%N.

Definition kinv rounds := forall sc tc un ov mn mx al, reach mn0 mx0 (a_alpha I) mn mx al -> exists p q,
  [/\ 0 <= p, 0 <= q, ((0 < M)%N -> 0 < Ksum (fun _ => 1) -> enough rounds sc -> 0 < q) &
   forall b v, ainv L (rescaled L I al) b v ->
   mixes (0 < sc)%N (fun out => kloop rounds sc tc un ov out mn mx (ainfo' (rescaled L I al) b v)) p q].

Lemma rest_mixes rounds sc tc un ov mn mx al (hit u o : bool) : kinv rounds -> reach mn0 mx0 (a_alpha I) mn mx al -> exists p q,
  [/\ 0 <= p, 0 <= q, (hit -> (0 < M)%N -> 0 < Ksum (fun _ => 1) -> enough rounds.+1 sc -> 0 < p \/ 0 < q) &
   forall b v, ainv L (rescaled L I al) b v ->
   mixes (0 < sc + hit)%N (fun out => krest rounds sc tc un ov hit u o out mn mx (ainfo' (rescaled L I al) b v)) p q].
Proof.
move=> IH re.
have fin : exists p q, [/\ 0 <= p, 0 <= q, (hit -> (0 < M)%N -> 0 < Ksum (fun _ => 1) -> enough rounds.+1 sc -> 0 < p \/ 0 < q) &
   forall b v, ainv L (rescaled L I al) b v -> mixes (0 < sc + hit)%N (fun out => alpha_k_finish out) p q].
  exists 1, 0; split; [exact: ler01|exact: lexx|by left; exact: ltr01|].
  by move=> b v _ out G _ _; rewrite PE_finish mul1r mul0r addr0.
have pos q : ~~ (hit && early) -> (sc + hit)%N != 2%N ->
   ((0 < M)%N -> 0 < Ksum (fun _ => 1) -> enough rounds (sc + hit) -> 0 < q) ->
   (hit -> (0 < M)%N -> 0 < Ksum (fun _ => 1) -> enough rounds.+1 sc -> 0 < q).
  move=> e1 e2 h h1 h2 h3 h4; apply: h => //; move: e1 e2 h4; rewrite h1 /enough /=; case: (early) => //= _; lia.
rewrite /krest; case: (boolP (hit && early)) => e1; first exact: fin.
case: (boolP ((sc + hit)%N == 2%N)) => e2; first exact: fin.
case: (boolP (tc.+1 == FiniteModel.ceil_sqrt k)) => e3; last first.
  have [p [q [p0 q0 qp h]]] := IH (sc + hit)%N tc.+1 (un + u)%N (ov + o)%N mn mx al re.
  exists p, q; split=> //.
  by move=> h1 h2 h3 h4; right; apply: pos h1 h2 h3 h4.
pose mn1 := if (ov + o < un + u)%N then al else mn; pose mx1 := if (ov + o < un + u)%N then mx else al.
have re1 : reach mn0 mx0 (a_alpha I) mn1 mx1 (rsqrt (mn1 * mx1)).
  by rewrite /mn1 /mx1; case: ifP => _; [exact: ReachUp re | exact: ReachDn re].
rewrite [fun b => _]/= -/mn1 -/mx1; case: (boolP ((mx1 / mn1 <= 1 + ((k%:R + 3%:R) ^+ 2)^-1) && (0 < sc + hit)%N)) => e4; first exact: fin.
have [p [q [p0 q0 qp h]]] := IH (sc + hit)%N 0%N 0%N 0%N mn1 mx1 _ re1.
exists p, q; split=> //.
  by move=> h1 h2 h3 h4; right; apply: pos h1 h2 h3 h4.
by move=> b v _; apply: h => i.
Qed.

Lemma kinvP rounds : kinv rounds.
Proof.
elim: rounds => [|rounds IH] sc tc un ov mn mx al re.
  exists 0, 0; split=> // [_ _|b v _ out G _ _]; first by rewrite /enough; case: (early); lia.
  by rewrite !mul0r addr0.
have [mnp mxp al0] := reach_gt0 re.
have [ph [qh [ph0 qh0 pos hh]]] := rest_mixes sc tc un ov true false false IH re.
have [pu [qu [pu0 qu0 _ hu]]] := rest_mixes sc tc un ov false true false IH re.
have [po [qo [po0 qo0 _ ho]]] := rest_mixes sc tc un ov false false true IH re.
set J := rescaled L I al in hh hu ho *.
have cert : certified L (a_alpha J) (a_est L J) (adeff J) (alogdet J) by case: PRE => _ _ _ _; exact.
have rJ : 0 < a_r J := r0.
have aJ : 0 < a_alpha J := al0.
have st c : aok L J c -> alpha_acc_thresh L J (a_est L J) c != 0 by exact: (strict re).
have psdaL : @is_psd RR n (al *: L) := aL_psd aJ cert.
have w0 A : 0 <= pmS (R := RR) (al *: L) A := psd_minors A psdaL.
pose d := \det (1%:M + al *: L); have d0 : 0 < d := psd_det1 psdaL.
pose Su := \sum_(A : {set 'I_n} | (#|A| < k)%N) pmS (R := RR) (al *: L) A.
pose So := \sum_(A : {set 'I_n} | (k < #|A|)%N) pmS (R := RR) (al *: L) A.
have Su0 : 0 <= Su by apply: sumr_ge0.
have So0 : 0 <= So by apply: sumr_ge0.
pose Z := Ksum (fun _ => 1).
have Z0 : 0 <= Z by apply: sumr_ge0 => A _; rewrite mulr1 psd_minors.
have iv1 : ainv L J (fun j => al * L j j) (fun _ => false) by move=> i.
have rho0 : 0 <= arho L J := arho_ge0 eighP qrP aJ rJ cert st iv1.
have rho1 : arho L J < 1 := arho_lt1 aJ cert.
pose c := (1 - arho L J ^+ M) / d.
have c0 : 0 <= c by exact: comb6.
have cpos : (0 < M)%N -> 0 < c by move=> M0; exact: comb7.
exists (c * (Su * pu + So * po)), (c * (al ^+ k * (ph + qh * Z) + (Su * qu + So * qo))); split.
- exact: comb1.
- by apply: comb2 => //; apply: exprn_ge0; exact: ltW.
- move=> M0 Zp en; apply: comb3 => //; first exact: cpos.
    by apply: exprn_gt0.
  exact: pos.
move=> b v iv out G os G01; rewrite kloopS PE_bind.
pose H (A : {set 'I_n}) := if #|A| == k then ph * G A + qh * Ksum G
  else if (#|A| < k)%N then pu * oG G out + qu * Ksum G else po * oG G out + qo * Ksum G.
have fH X (j : nat) b' v' : uniq X -> ainv L J b' v' ->
  PE (krest rounds sc tc un ov (size X == k) (size X < k)%N (k < size X)%N (if size X == k then Some X else out) mn mx
    (ainfo' J b' v')) (fun X => G (items X)) = H (items X).
  move=> uX iv'; rewrite /H card_items //; case: (ltngtP (size X) k) => sX.
  - by rewrite (hu _ _ iv' out G) // addn0.
  - by rewrite (ho _ _ iv' out G) // addn0.
  - by rewrite (hh _ _ iv' (Some X) G) // addn1.
have H01 A : 0 <= H A <= 1.
  rewrite -[A](_ : items (enum A) = A); last by apply/setP => i; rewrite inE mem_enum.
  rewrite -(fH _ 0%N _ _ (enum_uniq _) iv).
  by have [] := PE_bnd (krest rounds sc tc un ov (size (enum A) == k) (size (enum A) < k)%N (k < size (enum A))%N
    (if size (enum A) == k then Some (enum A) else out) mn mx (ainfo' J b v)) ler01 (fun X => G01 (items X)).
rewrite (loop_fun eighP qrP aJ rJ cert st M iv H01); last by move=> X j b' v' uX iv' /=; exact: fH.
have -> : \sum_A pmS (R := RR) (al *: L) A / d * H A = d^-1 * \sum_A pmS (R := RR) (al *: L) A * H A.
  by rewrite big_distrr /=; apply: eq_bigr => A _; rewrite mulrAC mulrC.
rewrite (bigID (fun A : {set 'I_n} => #|A| == k)) /= [X in _ * (_ * (_ + X))](bigID (fun A : {set 'I_n} => #|A| < k)%N) /=.
have -> : \sum_(A : {set 'I_n} | #|A| == k) pmS (R := RR) (al *: L) A * H A = al ^+ k * (ph * Ksum G + qh * Ksum G * Z).
  transitivity (\sum_(A : {set 'I_n} | #|A| == k) (al ^+ k * ph * (pmS (R := RR) L A * G A) + al ^+ k * (qh * Ksum G) * (pmS (R := RR) L A * 1))).
    apply: eq_bigr => A Ak; rewrite /H Ak pmS_scale (eqP Ak); exact: comb5.
  rewrite big_split /= -!big_distrr /= -/(Ksum G) -/(Ksum (fun _ => 1)) -/Z.
  by rewrite mulrDr -!mulrA.
have -> : \sum_(A : {set 'I_n} | (#|A| != k) && (#|A| < k)%N) pmS (R := RR) (al *: L) A * H A = Su * (pu * oG G out + qu * Ksum G).
  rewrite /Su big_distrl /=; apply: eq_big => [A|A]; first by case: ltngtP.
  by rewrite /H => /andP[/negbTE -> ->].
have -> : \sum_(A : {set 'I_n} | (#|A| != k) && ~~ (#|A| < k)%N) pmS (R := RR) (al *: L) A * H A = So * (po * oG G out + qo * Ksum G).
  rewrite /So big_distrl /=; apply: eq_big => [A|A]; first by case: ltngtP.
  by rewrite /H => /andP[/negbTE -> /negbTE ->].
exact: comb4.
Qed.

(** the sampler, from the information computed by the preprocessing (l.1131-1147) *)
Definition alpha_k_run rounds := kloop rounds 0%N 0%N 0%N 0%N None mn0 mx0 I.

Lemma run_law rounds : exists q, [/\ 0 <= q, (0 < M)%N -> 0 < Ksum (fun _ => 1) -> (if early then 0 < rounds else 1 < rounds)%N -> 0 < q &
  forall G, (forall A, 0 <= G A <= 1) -> PE (alpha_k_run rounds) (fun X => G (items X)) = q * Ksum G].
Proof.
have [p [q [p0 q0 pos h]]] := kinvP rounds 0%N 0%N 0%N 0%N (Reach0 mn0 mx0 (a_alpha I)).
exists q; split=> // [M0 Z0 en|G G01].
  by apply: pos => //; rewrite /enough /= addn0.
have iv : ainv L (rescaled L I (a_alpha I)) (a_bound I) (a_valid I) by case: PRE.
have := h _ _ iv None G erefl G01; rewrite mulr0 add0r => <-.
by rewrite /alpha_k_run; case: (I).
Qed.

(** the sample returned has the law of the k-DPP with likelihood kernel L *)
Theorem C75_alpha_kdpp_law rounds (A : {set 'I_n}) :
  PPr (alpha_k_run rounds) (fun X => items X == A) * (\sum_(B : {set 'I_n} | #|B| == k) pmS (R := RR) L B) =
  if #|A| == k then PE (alpha_k_run rounds) (fun _ => 1) * pmS (R := RR) L A else 0.
Proof.
have [q [q0 _ h]] := run_law rounds.
have -> : PE (alpha_k_run rounds) (fun _ => 1) = q * \sum_(B : {set 'I_n} | #|B| == k) pmS (R := RR) L B.
  rewrite (h (fun _ => 1)) => [|B]; last by rewrite ler01 lexx.
  by congr (_ * _); apply: eq_bigr => B _; rewrite mulr1.
rewrite /PPr (h (fun B => (B == A)%:R)) => [|B]; last exact: b01.
rewrite /Ksum; case: ifP => Ak.
  rewrite (bigD1 A) //= eqxx mulr1 big1 ?addr0 => [|B /andP[_ /negbTE ->]]; last by rewrite mulr0.
  by rewrite mulrAC.
rewrite big1 ?mulr0 ?mul0r // => B Bk; case: eqP => [e|]; last by rewrite mulr0.
by rewrite e Ak in Bk.
Qed.

Theorem C75_alpha_kdpp_positive rounds (B : {set 'I_n}) : #|B| = k -> 0 < pmS (R := RR) L B -> (0 < M)%N ->
  (if early then 0 < rounds else 1 < rounds)%N -> 0 < PE (alpha_k_run rounds) (fun _ => 1).
Proof.
move=> Bk B0 M0 en; have [q [q0 pos h]] := run_law rounds.
have Z0 : 0 < Ksum (fun _ => 1).
  rewrite /Ksum (bigD1 B) ?Bk //= mulr1 ltr_paddr // sumr_ge0 // => X _; rewrite mulr1; exact: psd_minors.
by rewrite (h (fun _ => 1)) => [|A]; [rewrite mulr_gt0 // pos | rewrite ler01 lexx].
Qed.
End AlphaK.
