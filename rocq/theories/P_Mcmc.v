(** * P_Mcmc: properties C13-C19 and C52 (MCMC samplers). *)
From Coq Require Import String.
From mathcomp Require Import all_ssreflect all_algebra.
From mathcomp.algebra_tactics Require Import ring.
From Verif Require Import Prob Minor Chain ChainCons ProjAll GenKernel Spectral McmcModel Mcmc P_Gen.
Set Implicit Arguments. Unset Strict Implicit. Unset Printing Implicit Defensive.
Import Order.Theory GRing.Theory Num.Theory.
Local Open Scope ring_scope.
Arguments E : simpl never.
Arguments possible : simpl never.

Section Mcmc.
Variables (R : rcfType) (N : nat).
Implicit Types (L : 'M[R]_N) (S T : {set 'I_N}) (s : seq 'I_N) (clock : nat -> R).

(** Specification: L is symmetric positive semidefinite. *)
Definition is_psd L : Prop := L^T = L /\ forall v : 'cV[R]_N, 0 <= (v^T *m L *m v) 0 0.

(** A list is a valid state: distinct items with a positive minor. *)
Definition valid_state L s : Prop := uniq s /\ 0 < pmS L (items s).

Lemma psd_minors L S : is_psd L -> 0 <= pmS L S.
Proof.
move=> [sL bL]; rewrite /pmS; apply: psd_minor_ge0; first exact: enum_uniq.
by split=> [i k _ _|v _]; [rewrite -{1}sL mxE|rewrite qfE].
Qed.

Lemma init_good L s : valid_state L s -> good L (init_state L s).
Proof. by move=> [u p]; split=> //=; rewrite pm_items. Qed.

Lemma clip_min (x : R) : 0 <= x -> clip x = Num.min 1 x.
Proof.
move=> x0; rewrite /clip; case: (lerP x 0) => [h|h]; last by case: leP.
have -> : x = 0 by apply/eqP; rewrite eq_le h x0.
by rewrite min_r ?ler01.
Qed.

Lemma min_ratio (a b : R) : 0 < a -> a * Num.min 1 (b / a) = Num.min a b.
Proof. by move=> a0; rewrite minr_pmulr ?(ltW a0) // mulr1 mulrCA divff ?mulr1 // gt_eqF. Qed.

Lemma room s t : uniq s -> t \notin s -> (size s < N)%N.
Proof.
move=> u ts; have := max_card (mem (t :: s)); rewrite card_ord.
by rewrite (card_uniqP _) //= ts u.
Qed.

Lemma items_enum S : items (enum S) = S.
Proof. by apply/setP => i; rewrite inE mem_enum. Qed.

Lemma pm_enum L S : pm L (enum S) = pmS L S. Proof. by []. Qed.

Lemma enum_valid L S : 0 < pmS L S -> valid_state L (enum S).
Proof. by move=> p; split; rewrite ?enum_uniq ?items_enum. Qed.

(** ** AD *)
Section AD.
Variables (L : 'M[R]_N) (clock : nat -> R).
Hypothesis PL : is_psd L.

(** probability that, started at s and run for n states, the chain ends at the set T *)
Definition ad_reach (n : nat) s T : R :=
  Pr (add_delete_sampler L s n None clock) (fun chain => items (last [::] chain) == T).

Lemma ad_reachE n s T : (0 < N)%N -> valid_state L s ->
  ad_reach n s T = iter n.-1 (ad_op L) (fun X => (X == T)%:R) (items s).
Proof.
move=> N0 v; rewrite /ad_reach /Pr /add_delete_sampler.
rewrite (@loop_last _ _ (ad_step L) clock n.-1 1 (init_state L s) [:: s] (fun X => (X == T)%:R)) //.
apply: (@iterE_op _ _ L predT _ (ad_op L) _ _ n.-1 (fun X => (X == T)%:R)) => //; last exact: init_good.
- by move=> st f g _; exact: ad_stepE.
- by move=> st st' g _ h; split=> //; exact: ad_step_good h.
Qed.

Lemma N_pos s T : valid_state L s -> items s != T -> (0 < N)%N.
Proof.
by case: (posnP N) => // N0 _ /negP[]; apply/eqP/setP => i; have := ltn_ord i; rewrite {2}N0.
Qed.

Theorem C14_detailed_balance s s' : valid_state L s -> valid_state L s' ->
  pmS L (items s) * ad_reach 2 s (items s') = pmS L (items s') * ad_reach 2 s' (items s).
Proof.
move=> v v'; case: (posnP N) => N0.
  have e (A B : {set 'I_N}) : A = B by apply/setP => i; have := ltn_ord i; rewrite {2}N0.
  have -> : s' = s.
    have n0 (t : seq 'I_N) : t = [::] by case: t => // i; have := ltn_ord i; rewrite {2}N0.
    by rewrite (n0 s) (n0 s').
  by [].
rewrite !ad_reachE //=; apply: ad_balance => S; exact: psd_minors.
Qed.

Theorem C14_dpp_stationary n T : (0 < N)%N ->
  \sum_S pmS L S * ad_reach n (enum S) T = pmS L T.
Proof.
move=> N0; transitivity (\sum_S pmS L S * iter n.-1 (ad_op L) (fun X => (X == T)%:R) S).
  apply: eq_bigr => S _; have [->|nz] := eqVneq (pmS L S) 0; first by rewrite !mul0r.
  by rewrite ad_reachE ?items_enum //; apply: enum_valid; rewrite lt_neqAle eq_sym nz psd_minors.
elim: n.-1 => [|m IH] /=.
  rewrite (bigD1 T) //= eqxx mulr1 big1 ?addr0 // => S /negbTE ->; by rewrite mulr0.
rewrite ad_stationary // => S; exact: psd_minors.
Qed.

Theorem C14_never_fails n s T_max : (0 < N)%N -> valid_state L s ->
  total (add_delete_sampler L s n T_max clock) /\
  forall e, ~ possible (add_delete_sampler L s n T_max clock) (inr e).
Proof.
move=> N0 v; have t : total (add_delete_sampler L s n T_max clock).
  apply: (loop_total (P := good L)); first by move=> st st' g; exact: ad_step_good.
    move=> st g; rewrite /total (ad_stepE (fun _ => 1) N0 g) /ad_op.
    rewrite (eq_bigr (fun _ => 1)); last by move=> x _; rewrite !mulr1 addrC subrK.
    rewrite sumr_const card_ord mulVf ?pnatr_eq0 -?lt0n // !mulr1.
    by fixeq; field.
  exact: init_good.
by split=> // e; exact: total_no_raise.
Qed.
End AD.

(** ** E *)
Section EX.
Variables (L : 'M[R]_N) (clock : nat -> R).
Hypothesis PL : is_psd L.

Definition e_reach (n : nat) s T : R :=
  Pr (basis_exchange_sampler L s n None clock) (fun chain => set_of N (last [::] chain) == T).

Lemma set_of_vals s : set_of N [seq val i | i <- s] = items s.
Proof.
apply/setP => i; rewrite !inE; apply/mapP/idP => [[j js /val_inj -> //]|h]; by exists i.
Qed.

Lemma e_reachE n s T : (0 < n)%N -> valid_state L s -> (0 < size s < N)%N ->
  e_reach n s T = iter n.-1 (e_op L) (fun X => (X == T)%:R) (items s).
Proof.
case: n => // n _ v sz; rewrite /e_reach /Pr /basis_exchange_sampler /= E_bind.
transitivity (E (mcmc_loop (e_step L) None clock n 1 (init_state L s) [:: s]) (fun ch => (items (last [::] ch) == T)%:R)).
  apply: eq_E_possible => ch h; rewrite ret_E; have := loop_size h; rewrite find_none (minn_idPl (leqnSn n)) /= add1n => e.
  by rewrite e subnn /= cats0 (last_map (fun t : seq 'I_N => [seq val i | i <- t]) ch [::]) set_of_vals.
rewrite (@loop_last _ _ (e_step L) clock n 1 (init_state L s) [:: s] (fun X => (X == T)%:R)) //.
apply: (@iterE_op _ _ L (fun S => #|S| == size s) _ (e_op L) _ _ n (fun X => (X == T)%:R)) => //.
- by move=> st f g /eqP e; apply: e_stepE; rewrite ?e.
- move=> st st' g /eqP o h; have [g' ->] := e_step_good g h; by rewrite o eqxx.
- exact: init_good.
by rewrite /stS /= card_items //; case: v.
Qed.

Theorem C15_detailed_balance s s' : valid_state L s -> valid_state L s' -> size s = size s' -> (0 < size s < N)%N ->
  pmS L (items s) * e_reach 2 s (items s') = pmS L (items s') * e_reach 2 s' (items s).
Proof.
move=> v v' e sz; rewrite !e_reachE -?e //=; apply: e_balance; first by move=> S; exact: psd_minors.
by rewrite !card_items //; [case: v'|case: v].
Qed.

Theorem C15_k_dpp_stationary n k T : (0 < n)%N -> (0 < k < N)%N -> #|T| = k ->
  \sum_(S : {set 'I_N} | #|S| == k) pmS L S * e_reach n (enum S) T = pmS L T.
Proof.
move=> n0 kN Tk; transitivity (\sum_(S : {set 'I_N} | #|S| == k) pmS L S * iter n.-1 (e_op L) (fun X => (X == T)%:R) S).
  apply: eq_bigr => S /eqP Sk; have [->|nz] := eqVneq (pmS L S) 0; first by rewrite !mul0r.
  rewrite e_reachE ?items_enum //; last by rewrite -cardE Sk.
  by apply: enum_valid; rewrite lt_neqAle eq_sym nz psd_minors.
elim: n.-1 => [|m IH] /=.
  rewrite (bigD1 T) ?Tk //= eqxx mulr1 big1 ?addr0 // => S /andP[_ /negbTE ->]; by rewrite mulr0.
rewrite e_stationary // => S; exact: psd_minors.
Qed.

Theorem C15_never_fails n s T_max : (0 < n)%N -> valid_state L s -> (0 < size s < N)%N ->
  total (basis_exchange_sampler L s n T_max clock) /\
  forall e, ~ possible (basis_exchange_sampler L s n T_max clock) (inr e).
Proof.
case: n => // n _ v sz; have t : total (basis_exchange_sampler L s n.+1 T_max clock).
  rewrite /total /basis_exchange_sampler /= E_bind.
  rewrite (eq_E _ (g := fun _ => 1)) //.
  apply: (loop_total (P := fun st => good L st /\ #|stS st| = size s)).
  - by move=> st st' [g o] h; have [g' ->] := e_step_good g h.
  - move=> st [g o]; rewrite /total (e_stepE (fun _ => 1) g) ?o // /e_op o.
    case/andP: sz => s0 sN.
    rewrite (eq_bigr (fun _ => 1)) => [|x _].
      rewrite sumr_const o mulVf ?pnatr_eq0 -?lt0n // !mulr1.
      by fixeq; field.
    rewrite (eq_bigr (fun _ => 1)) => [|t _]; last by rewrite !mulr1 addrC subrK.
    have -> : (N - size s)%N = #|~: stS st| by rewrite cardsCs setCK card_ord o.
    by rewrite sumr_const mulVf // pnatr_eq0 -lt0n cardsCs setCK card_ord o subn_gt0.
  - by split; [exact: init_good|rewrite /stS /= card_items //; case: v].
by split=> // e; exact: total_no_raise.
Qed.
End EX.

(** ** AED *)
Section AED.
Variables (L : 'M[R]_N) (clock : nat -> R).
Hypothesis PL : is_psd L.

Definition aed_reach (n : nat) s T : R :=
  Pr (add_exchange_delete_sampler L s n None clock) (fun chain => items (last [::] chain) == T).

Lemma aed_reachE s T : valid_state L s -> (size s < N)%N ->
  aed_reach 2 s T = aed_op L (fun X => (X == T)%:R) (items s).
Proof.
move=> v sN; rewrite /aed_reach /Pr /add_exchange_delete_sampler.
rewrite (@loop_last _ _ (aed_step L) clock 1 1 (init_state L s) [:: s] (fun X => (X == T)%:R)) //.
apply: (@aed_stepE _ _ L (init_state L s) (fun X => (X == T)%:R)); first exact: init_good.
by rewrite /stS /= card_items //; case: v.
Qed.

(** exact probabilities of the three kinds of moves; n = number of items of the current state *)
Theorem C13_add_probability_partial s t : valid_state L s -> (size s < N)%N -> t \notin s ->
  aed_reach 2 s (t |: items s) =
  2%:R^-1 * (1 - (size s)%:R / N%:R) ^+ 2 / (N - size s)%:R *
  Num.min 1 (pmS L (t |: items s) / pmS L (items s) * (size s).+1%:R / (N - size s)%:R).
Proof.
move=> v sN ts; rewrite aed_reachE // aed_op_add ?inE ?card_items //; try by case: v.
rewrite /accA clip_min ?card_items; try by case: v.
  by rewrite /thr /= -natrB // ltnW.
rewrite !mulr_ge0 ?ler0n ?psd_minors ?invr_ge0 ?psd_minors //.
by rewrite subr_ge0 ler_nat ltnW.
Qed.

Theorem C13_delete_probability_partial s x : valid_state L s -> (size s < N)%N -> x \in s ->
  aed_reach 2 s (items s :\ x) =
  2%:R^-1 * ((size s)%:R / N%:R) ^+ 2 / (size s)%:R *
  Num.min 1 (pmS L (items s :\ x) / pmS L (items s) * (size s)%:R / (N - (size s).-1)%:R).
Proof.
move=> v sN xs; rewrite aed_reachE // aed_op_del ?inE //.
have s0 : (0 < size s)%N by case: (s) xs.
rewrite /accD card_items; last by case: v.
have e : (N%:R - ((size s)%:R - 1) : R) = (N - (size s).-1)%:R.
  rewrite natrB; last by rewrite (leq_trans (leq_pred _)) // ltnW.
  by rewrite -{1}[size s]prednK // -[(_.-1).+1]addn1 natrD addrK.
rewrite e clip_min; last by rewrite !mulr_ge0 ?ler0n ?invr_ge0 ?psd_minors ?ler0n.
have alg (r : R) : 2%:R^-1 * (r ^+ 2 + (1 - r)) - 2%:R^-1 * (1 - r) = 2%:R^-1 * r ^+ 2 by ring.
by rewrite /thr /= alg.
Qed.

Theorem C13_exchange_probability_partial s x t : valid_state L s -> x \in s -> t \notin s ->
  aed_reach 2 s (t |: (items s :\ x)) =
  2%:R^-1 * ((size s)%:R / N%:R) * (1 - (size s)%:R / N%:R) / (size s)%:R / (N - size s)%:R *
  Num.min 1 (pmS L (t |: (items s :\ x)) / pmS L (items s)).
Proof.
move=> v xs ts; have sN : (size s < N)%N by apply: room ts; case: v.
rewrite aed_reachE // (aed_op_xch L (S := items s)) ?inE //.
rewrite /acc card_items; last by case: v.
rewrite clip_min; last by rewrite mulr_ge0 ?invr_ge0 ?psd_minors.
have alg (r : R) : 2%:R^-1 * (1 - r) - 2%:R^-1 * (1 - r) ^+ 2 = 2%:R^-1 * r * (1 - r) by ring.
by rewrite /thr /= alg.
Qed.

(** exchange moves are reversible *)
Theorem C13_exchange_detailed_balance_partial s s' x t : valid_state L s -> valid_state L s' ->
  x \in s -> t \notin s -> items s' = t |: (items s :\ x) ->
  pmS L (items s) * aed_reach 2 s (items s') = pmS L (items s') * aed_reach 2 s' (items s).
Proof.
move=> v v' xs ts e; have xt : x != t by apply/eqP => h; rewrite -h xs in ts.
have sz : size s' = size s.
  have : #|items s'| = #|items s| by rewrite e (card_xch (S := items s)) ?inE.
  by rewrite !card_items //; [case: v|case: v'].
have e' : items s = x |: (items s' :\ t).
  apply/setP => i; rewrite e !inE; case: (eqVneq i x) => [->|ix]; first by rewrite xs.
  by case: (eqVneq i t) => [->|it] /=; rewrite ?(negbTE ts).
have ts' : t \in s' by have := setU11 t (items s :\ x); rewrite -e inE.
have xs' : x \notin s' by have : x \notin items s' by [rewrite e !inE eqxx orbF]; rewrite inE.
rewrite {1}e {3}e' !C13_exchange_probability_partial // sz -e -e'.
set c := _ / _ / _; rewrite mulrCA [RHS]mulrCA; congr (_ * _).
case: v v' => _ p [_ p'].
by rewrite !min_ratio // minC.
Qed.

(** add/delete moves are reversible exactly in these cases *)
Theorem C13_add_delete_balance_iff_partial s s' t : valid_state L s -> valid_state L s' -> ((size s).+1 < N)%N ->
  t \notin s -> items s' = t |: items s ->
  let p := (N - size s)%N in let q := (size s).+1 in
  pmS L (items s) * aed_reach 2 s (items s') = pmS L (items s') * aed_reach 2 s' (items s) <->
  p = q \/ (pmS L (items s') * q%:R <= pmS L (items s) * p%:R /\ pmS L (items s') * p%:R <= pmS L (items s) * q%:R).
Proof.
move=> v v' qN ts e p q; have [u d0] := v; have [u' d1] := v'.
have sz : size s' = q by have := card_items u'; rewrite e cardsU1 !inE ts card_items // add1n.
have e' : items s = items s' :\ t.
  apply/setP => i; rewrite e !inE; case: (eqVneq i t) => [->|it] /=; by rewrite ?(negbTE ts).
have ts' : t \in s' by have := setU11 t (items s); rewrite -e inE.
have sN : (size s < N)%N by apply: leq_trans qN.
rewrite {1}e {3}e' C13_add_probability_partial // C13_delete_probability_partial ?sz // -e -e' -/q -/p.
have M0 : 0 < N%:R :> R by rewrite ltr0n; apply: leq_ltn_trans sN.
have -> : 1 - (size s)%:R / N%:R = p%:R / N%:R :> R.
  by rewrite /p natrB ?(ltnW sN) // mulrBl divff // gt_eqF.
have p0 : 0 < p%:R :> R by rewrite ltr0n subn_gt0.
have q0 : 0 < q%:R :> R by rewrite ltr0n.
have E0 : (p = q) <-> (p%:R = q%:R :> R) by split=> [->//|/eqP]; rewrite eqr_nat => /eqP.
move: E0; move: (pmS L (items s)) (pmS L (items s')) (p%:R) (q%:R) (N%:R) d0 d1 M0 p0 q0 => d d' P Q M d0 d1 M0 P0 Q0 E0.
have [dn dn' Pn Qn Mn] : [/\ d != 0, d' != 0, P != 0, Q != 0 & M != 0] by rewrite !gt_eqF.
pose c := (2%:R * M ^+ 2 * P)^-1.
have cp : 0 < c by rewrite invr_gt0 !mulr_gt0 ?exprn_gt0 ?ltr0n.
have -> : d * (2%:R^-1 * (P / M) ^+ 2 / P * Num.min 1 (d' / d * Q / P)) = c * Num.min (d * P ^+ 2) (d' * Q * P).
  have -> : d' / d * Q / P = (d' * Q * P) / (d * P ^+ 2) by fixeq; field; rewrite dn Pn.
  rewrite -(@min_ratio (d * P ^+ 2)) ?mulr_gt0 ?exprn_gt0 //.
  move: (Num.min _ _) => m; rewrite /c; fixeq; field; by rewrite Pn Mn.
have -> : d' * (2%:R^-1 * (Q / M) ^+ 2 / Q * Num.min 1 (d / d' * Q / P)) = c * Num.min (d' * Q * P) (d * Q ^+ 2).
  have -> : d / d' * Q / P = (d * Q ^+ 2) / (d' * Q * P) by fixeq; field; rewrite dn' Pn Qn.
  rewrite -(@min_ratio (d' * Q * P)) ?mulr_gt0 ?exprn_gt0 //.
  move: (Num.min _ _) => m; rewrite /c; fixeq; field; by rewrite Pn Mn Qn.
have E1 : (P = Q) <-> (d * P ^+ 2 = d * Q ^+ 2).
  split=> [->//|/(mulfI dn) h]; have := eqr_expn2 (n := 2) isT (ltW P0) (ltW Q0).
  by rewrite h eqxx => /esym/eqP.
have E2 : (d' * Q <= d * P) = (d' * Q * P <= d * P ^+ 2) by rewrite expr2 mulrA ler_pmul2r.
have E3 : (d' * P <= d * Q) = (d' * Q * P <= d * Q ^+ 2) by rewrite expr2 mulrA mulrAC ler_pmul2r.
have {E0 E1}E1 : (p = q) <-> (d * P ^+ 2 = d * Q ^+ 2) by split=> [/E0/E1|/E1/E0].
rewrite E2 E3; move: E1; move: (d * P ^+ 2) (d' * Q * P) (d * Q ^+ 2) => A B C E1; split.
  move/(mulfI (lt0r_neq0 cp)); case: (leP B A) => [BA|AB] h.
    by right; split=> //; rewrite h le_minl lexx orbT.
  by left; apply/E1; move: h; case: (leP B C) => // _ h; rewrite h ltxx in AB.
case=> [/E1 ->|[BA BC]]; first by rewrite minC.
by rewrite (min_r BA) (min_l BC).
Qed.
End AED.

End Mcmc.

(** ** C13 is refuted: L = all-ones on two items *)
Section Refuted.
Variable R : rcfType.
Definition ones2 : 'M[R]_2 := const_mx 1.

Lemma ones2_psd : is_psd ones2.
Proof.
split=> [|v]; first by apply/matrixP => i j; rewrite !mxE.
suff -> : (v^T *m ones2 *m v) 0 0 = (\sum_i v i 0) ^+ 2 by exact: sqr_ge0.
rewrite mxE expr2 mulr_sumr; apply: eq_bigr => k _; congr (_ * _).
by rewrite mxE; apply: eq_bigr => i _; rewrite !mxE mulr1.
Qed.

Lemma ones2_0 : pmS ones2 set0 = 1. Proof. by rewrite /pmS enum_set0 pm_nil. Qed.
Lemma ones2_1 i : pmS ones2 [set i] = 1. Proof. by rewrite /pmS enum_set1 pm1 mxE. Qed.
Lemma ones2_2 (S : {set 'I_2}) : S != set0 -> S != [set 0] -> S != [set 1] -> pmS ones2 S = 0.
Proof.
move=> h0 ha hb.
have two (i : 'I_2) : (i == 0) || (i == 1) by case: i => [[|[|]]].
have [s0 s1] : 0 \in S /\ 1 \in S.
  split; apply/negPn/negP => n.
    move/negP: hb; apply; rewrite eqEsubset; case/set0Pn: h0 => j jS.
    have j1 k : k \in S -> k = 1 by case/orP: (two k) => /eqP -> // h; rewrite h in n.
    by rewrite -(j1 j jS) sub1set jS andbT; apply/subsetP => k /j1 ->; rewrite inE (j1 j jS).
  move/negP: ha; apply; rewrite eqEsubset; case/set0Pn: h0 => j jS.
  have j1 k : k \in S -> k = 0 by case/orP: (two k) => /eqP -> // h; rewrite h in n.
  by rewrite -(j1 j jS) sub1set jS andbT; apply/subsetP => k /j1 ->; rewrite inE (j1 j jS).
rewrite /pmS (@pm_perm _ _ _ _ [:: 0; 1]).
  rewrite pm_cons; last by rewrite mxE oner_eq0.
  by rewrite pm1 !mxE divr1 mulr1 subrr mulr0.
apply: uniq_perm; rewrite ?enum_uniq // => i; rewrite mem_enum !inE.
by case/orP: (two i) => /eqP ->; rewrite ?s0 ?s1.
Qed.

Lemma ones2_valid0 : valid_state ones2 [::].
Proof. by split=> //; rewrite (_ : items [::] = set0) ?ones2_0 ?ltr01 //; apply/setP => i; rewrite !inE. Qed.
Lemma ones2_valid1 i : valid_state ones2 [:: i].
Proof. by split=> //; rewrite (_ : items [:: i] = [set i]) ?ones2_1 ?ltr01 //; apply/setP => j; rewrite !inE. Qed.

(** neither detailed balance nor stationarity of DPP(L) *)
Theorem C13_refuted clock :
  (exists s s', [/\ valid_state ones2 s, valid_state ones2 s' &
     pmS ones2 (items s) * aed_reach ones2 clock 2 s (items s') != pmS ones2 (items s') * aed_reach ones2 clock 2 s' (items s)]) /\
  \sum_S pmS ones2 S * aed_reach ones2 clock 2 (enum S) set0 != pmS ones2 set0.
Proof.
have i0 : items ([::] : seq 'I_2) = set0 by apply/setP => i; rewrite !inE.
have i1 (i : 'I_2) : items [:: i] = [set i] by apply/setP => j; rewrite !inE.
split.
  exists [::], [:: 0]; split; [exact: ones2_valid0|exact: ones2_valid1|].
  apply/eqP => /(@C13_add_delete_balance_iff_partial R 2 ones2 clock ones2_psd [::] [:: 0] 0 ones2_valid0 (ones2_valid1 0) isT isT).
  case=> [|//|[_]]; first by rewrite i1 i0 setU0.
  by rewrite i0 i1 ones2_0 ones2_1 !mul1r lern1.
rewrite (bigD1 set0) //= (bigD1 [set 0]) /=; last by rewrite -cards_eq0 cards1.
have ne10 : [set (1 : 'I_2)] != [set 0] by apply/eqP => /setP/(_ 1); rewrite !inE.
rewrite (bigD1 [set 1]) /=; last by rewrite ne10 -cards_eq0 cards1.
rewrite big1 ?addr0; last by move=> S /andP[/andP[h0 ha] hb]; rewrite ones2_2 ?mul0r.
rewrite ones2_0 !ones2_1 !mul1r enum_set0 !enum_set1.
have del i : aed_reach ones2 clock 2 [:: i] set0 = 16%:R^-1.
  have := @C13_delete_probability_partial R 2 ones2 clock ones2_psd [:: i] i (ones2_valid1 i) isT (mem_head _ _).
  have -> : items [:: i] :\ i = set0 by apply/setP => j; rewrite !inE andNb.
  move=> ->; rewrite i1 ones2_0 ones2_1 /= subn0 min_r; first by fixeq; field.
  by rewrite divr1 !mul1r invf_le1 ?ltr0n // ler1n.
rewrite !del aed_reachE //; last exact: ones2_valid0.
rewrite i0 /aed_op cards0 /thr /= !big_set0 eqxx.
rewrite (eq_bigr (fun _ => - 2%:R^-1)); last first.
  move=> t _; rewrite (_ : (t |: set0 == set0) = false); last by rewrite setU0 -cards_eq0 cards1.
  rewrite sub0r mulrN1; congr (- _); rewrite /accA setU0 ones2_0 ones2_1 cards0 subr0 divr1 !mul1r clip_half //.
rewrite sumr_const setC0 cardsT card_ord subn0 mul0r.
have -> : (1%:R + 2%:R^-1 * (1 - 0) ^+ 2 * (2%:R^-1 * (- 2%:R^-1 *+ 2)) +
  (2%:R^-1 * (1 - 0) - 2%:R^-1 * (1 - 0) ^+ 2) * (0^-1 * (2%:R^-1 * 0)) +
  (2%:R^-1 * (0 ^+ 2 + (1 - 0)) - 2%:R^-1 * (1 - 0)) * (0^-1 * 0) + (16%:R^-1 + 16%:R^-1)) = 1 - 8%:R^-1 :> R.
  by rewrite !mulr0 !addr0; fixeq; field.
by rewrite eq_sym -subr_eq0 opprB addrCA subrr addr0 invr_eq0 pnatr_eq0.
Qed.
End Refuted.
