(** * Doeblin: geometric convergence of a finite chain that charges every state of V in m steps *)
From mathcomp Require Import all_ssreflect all_algebra.
From mathcomp.algebra_tactics Require Import ring.
Set Implicit Arguments. Unset Strict Implicit. Unset Printing Implicit Defensive.
Import Order.Theory GRing.Theory Num.Theory.
Local Open Scope ring_scope.

Lemma iter_mulE (A : Type) (F : A -> A) m q a : iter (q * m) F a = iter q (iter m F) a.
Proof. by elim: q a => //= q IH a; rewrite mulSn iterD IH. Qed.

Section Op.
Variables (R : rcfType) (X : finType) (V : pred X) (pi : X -> R).
Implicit Types (f g : X -> R) (x y : X).
(** U f x is the mean of f after a step from x; V is closed; pi is an invariant law carried by V *)
Record chain_op (U : (X -> R) -> X -> R) : Prop := ChainOp {
  co_add : forall f g x, V x -> U (fun y => f y + g y) x = U f x + U g x;
  co_scal : forall c f x, V x -> U (fun y => c * f y) x = c * U f x;
  co_pos : forall f, (forall y, V y -> 0 <= f y) -> forall x, V x -> 0 <= U f x;
  co_one : forall x, V x -> U (fun => 1) x = 1;
  co_stat : forall f, \sum_x pi x * U f x = \sum_x pi x * f x }.
Hypothesis pi0 : forall x, 0 <= pi x.
Hypothesis pi1 : \sum_x pi x = 1.
Hypothesis piV : forall x, ~~ V x -> pi x = 0.

Definition mean f : R := \sum_x pi x * f x.

Section One.
Variable U : (X -> R) -> X -> R.
Hypothesis CU : chain_op U.

Lemma co_opp f x : V x -> U (fun y => - f y) x = - U f x.
Proof.
move=> v; apply/eqP; rewrite -subr_eq0 opprK; apply/eqP.
have e0 (g : X -> R) : (forall y, V y -> g y = 0) -> U g x = 0.
  move=> g0; apply/eqP; rewrite eq_le; apply/andP; split; last by apply: (co_pos CU) v => y /g0 ->.
  have p : 0 <= U (fun y => -1 * g y) x by apply: (co_pos CU) v => y /g0 ->; rewrite mulr0.
  by move: p; rewrite (co_scal CU) // mulN1r oppr_ge0.
by rewrite -(co_add CU) //; apply: e0 => y _; rewrite addNr.
Qed.

Lemma co_ext f g x : (forall y, V y -> f y = g y) -> V x -> U f x = U g x.
Proof.
move=> e v; apply/eqP; rewrite eq_le; apply/andP; split; rewrite -subr_ge0 -co_opp // -(co_add CU) //;
  by apply: (co_pos CU) v => y /e ->; rewrite subrr.
Qed.

Lemma co_le f g x : (forall y, V y -> f y <= g y) -> V x -> U f x <= U g x.
Proof.
move=> le v; rewrite -subr_ge0 -co_opp // -(co_add CU) //; apply: (co_pos CU) v => y /le; by rewrite subr_ge0.
Qed.

Lemma co_cst c x : V x -> U (fun => c) x = c.
Proof.
move=> v; rewrite -[RHS]mulr1 -(co_one CU v) -(co_scal CU) //.
by apply: co_ext v => y _; rewrite mulr1.
Qed.

Lemma co_sum (l : seq X) (c : X -> R) (F : X -> X -> R) x : V x ->
  U (fun y => \sum_(i <- l) c i * F i y) x = \sum_(i <- l) c i * U (F i) x.
Proof.
move=> v; elim: l => [|i l IH]; first by rewrite big_nil -[RHS](co_cst 0 v); apply: co_ext v => y _; rewrite big_nil.
rewrite big_cons -IH -(co_scal CU) // -(co_add CU) //; by apply: co_ext v => y _; rewrite big_cons.
Qed.

Lemma co_kernel f x : V x -> U f x = \sum_y f y * U (fun z => (z == y)%:R) x.
Proof.
move=> v; rewrite -co_sum //; apply: co_ext v => z _; rewrite (bigD1 z) //= eqxx mulr1 big1 ?addr0 // => y yz.
by rewrite eq_sym (negbTE yz) mulr0.
Qed.
End One.

Lemma chain_id : chain_op id.
Proof. by split=> // f h x; exact: h. Qed.

Lemma chain_comp U W : chain_op U -> chain_op W -> chain_op (fun f => U (W f)).
Proof.
move=> CU CW; split.
- move=> f g x v; rewrite -(co_add CU) //; by apply: (co_ext CU) v => y vy; exact: co_add.
- move=> c f x v; rewrite -(co_scal CU) //; by apply: (co_ext CU) v => y vy; exact: co_scal.
- by move=> f h x v; apply: (co_pos CU) v => y; exact: (co_pos CW).
- by move=> x v; rewrite -[RHS](co_one CU v); apply: (co_ext CU) v => y; exact: (co_one CW).
- by move=> f; rewrite (co_stat CU) (co_stat CW).
Qed.

Lemma chain_iter U n : chain_op U -> chain_op (iter n U).
Proof. by move=> CU; elim: n => [|n IH]; [exact: chain_id|exact: chain_comp CU IH]. Qed.

Lemma mean_cst c : mean (fun => c) = c.
Proof. by rewrite /mean -mulr_suml pi1 mul1r. Qed.
Lemma mean_le f g : (forall y, V y -> f y <= g y) -> mean f <= mean g.
Proof.
move=> le; apply: ler_sum => x _; have [v|nv] := boolP (V x); first by rewrite ler_wpmul2l ?le.
by rewrite piV // !mul0r.
Qed.
Lemma pi_le1 x : pi x <= 1.
Proof. by rewrite -pi1 (bigD1 x) //= ler_addl sumr_ge0. Qed.

Section Contraction.
Variables (W : (X -> R) -> X -> R) (dl : R).
Hypothesis CW : chain_op W.
Hypothesis dl0 : 0 < dl.
Hypothesis mi : forall x y, V x -> V y -> dl <= W (fun z => (z == y)%:R) x.

Lemma minor f x : (forall y, V y -> 0 <= f y) -> V x -> dl * mean f <= W f x.
Proof.
move=> f0 v; rewrite (co_kernel CW f v) /mean mulr_sumr (bigID V) [X in _ <= X](bigID V) /=.
have -> : \sum_(i | ~~ V i) dl * (pi i * f i) = 0 by apply: big1 => i ni; rewrite piV // mul0r mulr0.
have -> : \sum_(i | ~~ V i) f i * W (fun z => (z == i)%:R) x = 0.
  apply: big1 => i ni; have -> : W (fun z => (z == i)%:R) x = 0; last by rewrite mulr0.
  rewrite -(co_cst CW 0 v); apply: (co_ext CW) v => z vz; by case: eqP => // e; rewrite -e vz in ni.
rewrite !addr0; apply: ler_sum => y vy.
have alg (a b c : R) : a * (b * c) = c * (a * b) by ring.
rewrite alg ler_wpmul2l ?f0 //; apply: le_trans (mi v vy).
by rewrite ler_pimulr ?(ltW dl0) ?pi_le1.
Qed.

Lemma contract f a b x : (forall y, V y -> a <= f y) -> (forall y, V y -> f y <= b) -> V x ->
  a + dl * (mean f - a) <= W f x /\ W f x <= b - dl * (b - mean f).
Proof.
have sub c g : mean (fun y => g y - c) = mean g - c.
  rewrite /mean -[in RHS](mean_cst c) /mean -sumrB; apply: eq_bigr => y _; by rewrite mulrBr.
have bus c g : mean (fun y => c - g y) = c - mean g.
  rewrite /mean -[in RHS](mean_cst c) /mean -sumrB; apply: eq_bigr => y _; by rewrite mulrBr.
move=> lo hi v; split.
  have := @minor (fun y => f y - a) x; rewrite sub (co_add CW f (fun => - a)) // (co_cst CW) //.
  move=> h; rewrite -ler_subr_addl; apply: h => // y vy; by rewrite subr_ge0 lo.
have := @minor (fun y => b - f y) x; rewrite bus (co_add CW (fun => b) (fun y => - f y)) // (co_cst CW) // (co_opp CW) //.
move=> h; have : dl * (b - mean f) <= b - W f x by apply: h => // y vy; rewrite subr_ge0 hi.
by rewrite ler_subr_addr -ler_subr_addl.
Qed.

Lemma alg_width (d a b m : R) : b - d * (b - m) - (a + d * (m - a)) = (1 - d) * (b - a).
Proof. by ring. Qed.

Lemma geometric n f a b x : (forall y, V y -> a <= f y) -> (forall y, V y -> f y <= b) -> V x ->
  `|iter n W f x - mean f| <= (1 - dl) ^+ n * (b - a).
Proof.
elim: n f a b => [|n IH] f a b lo hi v.
  rewrite expr0 mul1r /= ler_norml opprB; have ma : a <= mean f by rewrite -(mean_cst a); apply: mean_le.
  have mb : mean f <= b by rewrite -(mean_cst b); apply: mean_le.
  by rewrite !ler_sub ?lo ?hi.
rewrite iterSr; have -> : mean f = mean (W f) by rewrite /mean (co_stat CW).
rewrite exprSr -mulrA -(alg_width dl a b (mean f)).
apply: IH => // y vy; by have [] := contract lo hi vy.
Qed.
End Contraction.

Lemma low_bound U m : (forall x y, V x -> V y -> 0 < iter m U (fun z => (z == y)%:R) x) ->
  exists dl : R, [/\ 0 < dl, dl <= 1 & forall x y, V x -> V y -> dl <= iter m U (fun z => (z == y)%:R) x].
Proof.
move=> pos.
have low (I : Type) (l : seq I) (F : I -> R) : all (fun i => 0 < F i) l ->
    exists dl : R, [/\ 0 < dl, dl <= 1 & all (fun i => dl <= F i) l].
  elim: l => [|i l IH] /=; first by exists 1; rewrite ltr01 lexx.
  move=> /andP[i0 /IH[dl [d0 d1 al]]]; exists (Num.min (F i) dl); split.
  - by rewrite lt_minr i0 d0.
  - by apply: le_trans d1; rewrite le_minl lexx orbT.
  - rewrite le_minl lexx; apply: sub_all al => k h; by rewrite le_minl h orbT.
have [|dl [d0 d1 al]] := low _ [seq q <- enum [set: X * X] | V q.1 && V q.2] (fun q => iter m U (fun z => (z == q.2)%:R) q.1).
  by apply/allP => q; rewrite mem_filter => /andP[/andP[a b] _]; exact: pos.
exists dl; split=> // x y vx vy; have /(_ (x, y)) := allP al _; apply.
by rewrite mem_filter /= vx vy mem_enum inE.
Qed.

(** m steps shrink the oscillation *)
Lemma doeblin_step U m : chain_op U -> (forall x y, V x -> V y -> 0 < iter m U (fun z => (z == y)%:R) x) ->
  exists2 dl : R, 0 < dl <= 1 & forall f, (forall y, V y -> 0 <= f y <= 1) ->
    exists a b, [/\ b - a = 1 - dl, forall x, V x -> a <= iter m U f x & forall x, V x -> iter m U f x <= b].
Proof.
move=> CU pos; have [dl [dl0 dl1 mi]] := low_bound pos; exists dl; first by rewrite dl0.
move=> f f01; exists (0 + dl * (mean f - 0)), (1 - dl * (1 - mean f)); split.
- by rewrite alg_width subr0 mulr1.
- by move=> x v; have [] := @contract _ dl (chain_iter m CU) dl0 mi f 0 1 x (fun y vy => proj1 (andP (f01 y vy))) (fun y vy => proj2 (andP (f01 y vy))) v.
by move=> x v; have [] := @contract _ dl (chain_iter m CU) dl0 mi f 0 1 x (fun y vy => proj1 (andP (f01 y vy))) (fun y vy => proj2 (andP (f01 y vy))) v.
Qed.

(** all together *)
Lemma doeblin U m : chain_op U -> (forall x y, V x -> V y -> 0 < iter m U (fun z => (z == y)%:R) x) ->
  exists2 dl : R, 0 < dl <= 1 & forall n f x, (forall y, V y -> 0 <= f y <= 1) -> V x ->
    `|iter n U f x - mean f| <= (1 - dl) ^+ (n %/ m).
Proof.
move=> CU pos.
have [dl [dl0 dl1 mi]] := low_bound pos.
exists dl; first by rewrite dl0.
move=> n f x f01 v; rewrite {1}(divn_eq n m) iterD iter_mulE.
set r := (n %% m)%N; have Cr := chain_iter r CU.
have -> : mean f = mean (iter r U f) by rewrite /mean (co_stat Cr).
rewrite -[X in _ <= X]mulr1 -[X in _ * X]subr0; apply: (geometric (chain_iter m CU) dl0 mi) => // y vy.
  by apply: (co_pos Cr) vy => z /f01/andP[].
rewrite -(co_cst Cr 1 vy); apply: (co_le Cr) vy => z /f01/andP[]//.
Qed.

Lemma alg_u (p q t a : R) : p * t - q * t - a * (p - q) = (p - q) * (t - a).
Proof. by ring. Qed.

(** uniqueness of the invariant law *)
Lemma doeblin_unique U m mu : chain_op U -> (forall x y, V x -> V y -> 0 < iter m U (fun z => (z == y)%:R) x) ->
  (forall x, 0 <= mu x) -> \sum_x mu x = 1 -> (forall x, ~~ V x -> mu x = 0) ->
  (forall y, \sum_x mu x * U (fun z => (z == y)%:R) x = mu y) -> forall x, mu x = pi x.
Proof.
move=> CU pos mu0 mu1 muV st.
have stf f : \sum_x mu x * U f x = \sum_x mu x * f x.
  transitivity (\sum_x \sum_y f y * (mu x * U (fun z => (z == y)%:R) x)).
    apply: eq_bigr => x _; have [v|nv] := boolP (V x); last first.
      by rewrite muV // mul0r big1 // => y _; rewrite mul0r mulr0.
    by rewrite (co_kernel CU f v) mulr_sumr; apply: eq_bigr => y _; rewrite mulrCA.
  rewrite exchange_big; apply: eq_bigr => y _; by rewrite -mulr_sumr st mulrC.
have stn n f : \sum_x mu x * iter n U f x = \sum_x mu x * f x by elim: n => //= n <-; rewrite stf.
pose TV := \sum_x (if pi x < mu x then mu x - pi x else 0).
have t0 x : 0 <= (if pi x < mu x then mu x - pi x else 0) by case: ifP => // /ltW; rewrite subr_ge0.
have TV0 : 0 <= TV by apply: sumr_ge0.
have [dl d01 h] := doeblin_step CU pos; have /andP[d0 d1] := d01.
pose f x : R := (pi x < mu x)%R%:R.
have TVE : TV = \sum_x mu x * f x - mean f.
  by rewrite /TV /mean -sumrB; apply: eq_bigr => x _; rewrite /f; case: ifP; rewrite ?mulr1 ?mulr0 ?subrr.
have [a [b [ab lo hi]]] : exists a b, [/\ b - a = 1 - dl, forall x, V x -> a <= iter m U f x & forall x, V x -> iter m U f x <= b].
  by apply: h => x _; rewrite /f; case: ltP => _; rewrite ?lexx ?ler01.
have le : TV <= (1 - dl) * TV.
  rewrite [X in X <= _]TVE -(stn m) /mean -(co_stat (chain_iter m CU)) -sumrB.
  have -> : \sum_x (mu x * iter m U f x - pi x * iter m U f x) = \sum_x (mu x - pi x) * (iter m U f x - a).
    have z : \sum_x a * (mu x - pi x) = 0 by rewrite -mulr_sumr sumrB mu1 pi1 subrr mulr0.
    transitivity (\sum_x (mu x * iter m U f x - pi x * iter m U f x) - \sum_x a * (mu x - pi x)).
      by rewrite z subr0.
    rewrite -[X in X = _]sumrB; apply: eq_bigr => x _; exact: alg_u.
  rewrite /TV mulr_sumr; apply: ler_sum => x _; have [v|nv] := boolP (V x); last first.
    by rewrite muV // piV // ltxx subrr mul0r mulr0.
  case: ifP => [/ltW p|/negbT]; first by rewrite mulrC ler_wpmul2r ?subr_ge0 // -ab ler_sub ?hi.
  by rewrite -leNgt mulr0 => p; rewrite mulr_le0_ge0 ?subr_le0 ?subr_ge0 ?lo.
have T0 : TV = 0.
  apply/eqP; rewrite eq_le TV0 andbT; move: le; rewrite mulrBl mul1r ler_subr_addl ger_addr => q.
  by rewrite -(pmulr_rle0 _ d0).
have lep x : mu x <= pi x.
  rewrite leNgt; apply/negP => p; have : TV == 0 by rewrite T0.
  rewrite psumr_eq0 // => /allP /(_ x (mem_index_enum x)) /=; by rewrite p subr_eq0 gt_eqF.
have : \sum_x (pi x - mu x) == 0 by rewrite sumrB pi1 mu1 subrr.
rewrite psumr_eq0 => [/allP e x|x _]; last by rewrite subr_ge0.
by have := e x (mem_index_enum x); rewrite subr_eq0 => /eqP.
Qed.
End Op.
