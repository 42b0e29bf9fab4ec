(** * C86, C87: the add-delete and exchange chains converge to the DPP and the k-DPP, at a geometric rate *)
From Coq Require Import String.
From mathcomp Require Import all_ssreflect all_algebra.
From mathcomp.algebra_tactics Require Import ring.
From Verif Require Import Prob Minor Chain ChainCons ProjAll GenKernel Spectral McmcModel Mcmc P_Gen P_Mcmc Doeblin PosMinor.
Set Implicit Arguments. Unset Strict Implicit. Unset Printing Implicit Defensive.
Import Order.Theory GRing.Theory Num.Theory.
Local Open Scope ring_scope.
Arguments E : simpl never.
Arguments possible : simpl never.

(** ** lazy Metropolis operators *)
Section Met.
Variables (R : rcfType) (N : nat) (L : 'M[R]_N) (I : finType).
Hypothesis PL : is_psd L.
Implicit Types (S T : {set 'I_N}) (f g : {set 'I_N} -> R).
Variables (w : {set 'I_N} -> I -> R) (mv : {set 'I_N} -> I -> {set 'I_N}) (V : pred {set 'I_N}).
Definition met f S : R := 2%:R^-1 * (\sum_i w S i * (acc L S (mv S i) * f (mv S i) + (1 - acc L S (mv S i)) * f S)) + 2%:R^-1 * f S.
Hypothesis w0 : forall S i, V S -> 0 <= w S i.
Hypothesis w1 : forall S, V S -> \sum_i w S i = 1.
Hypothesis Vpos : forall S, V S -> 0 < pmS L S.
Hypothesis Vmv : forall S i, V S -> 0 < w S i -> 0 < pmS L (mv S i) -> V (mv S i).

Lemma half0 : 0 < 2%:R^-1 :> R. Proof. by rewrite invr_gt0 ltr0n. Qed.
Lemma acc0 S S' : ~~ (0 < pmS L S') -> acc L S S' = 0.
Proof.
rewrite lt_neqAle psd_minors // andbT negbK => /eqP e; by rewrite /acc /clip -e mul0r lexx.
Qed.
Lemma acc_gt0 S S' : 0 < pmS L S -> 0 < pmS L S' -> 0 < acc L S S'.
Proof. by move=> a b; rewrite /acc /clip leNgt divr_gt0 //=; case: ifP => _; rewrite ?ltr01 ?divr_gt0. Qed.

Lemma met_alg (a x y c : R) : a * (c * x) + (1 - a) * (c * y) = c * (a * x + (1 - a) * y).
Proof. by ring. Qed.
Lemma met_alg3 (c h s t : R) : h * (c * s) + h * (c * t) = c * (h * s + h * t).
Proof. by ring. Qed.

Lemma term_ge0 f S i : (forall T, V T -> 0 <= f T) -> V S ->
  0 <= w S i * (acc L S (mv S i) * f (mv S i) + (1 - acc L S (mv S i)) * f S).
Proof.
move=> f0 v; have [->|wn] := eqVneq (w S i) 0; first by rewrite mul0r.
have wp : 0 < w S i by rewrite lt_neqAle eq_sym wn w0.
rewrite mulr_ge0 ?w0 // addr_ge0 //; last by rewrite mulr_ge0 ?f0 // subr_ge0 clip_le1.
have [p|np] := boolP (0 < pmS L (mv S i)); last by rewrite acc0 // mul0r.
by rewrite mulr_ge0 ?clip_ge0 // f0 //; apply: Vmv wp p.
Qed.

Lemma met_chain pi : (forall f, \sum_S pi S * met f S = \sum_S pi S * f S) -> chain_op V pi met.
Proof.
move=> st; split=> //.
- move=> f g S v; rewrite /met [RHS]addrACA -!(mulrDr (2%:R^-1)) -big_split /=; congr (_ * (_ + _)); apply: eq_bigr => i _.
  by rewrite -mulrDr; congr (_ * _); rewrite addrACA -!mulrDr.
- move=> c f S v; rewrite /met -met_alg3; congr (_ * _ + _); rewrite mulr_sumr; apply: eq_bigr => i _.
  by rewrite met_alg mulrCA.
- move=> f f0 S v; rewrite /met addr_ge0 // mulr_ge0 ?f0 ?(ltW half0) //.
  by apply: sumr_ge0 => i _; apply: term_ge0.
move=> S v; rewrite /met (eq_bigr (w S)) => [|i _]; last by rewrite !mulr1 addrC subrK mulr1.
by rewrite w1 // mulr1 -mulr2n -[_ *+ 2]mulr_natr mulVf // pnatr_eq0.
Qed.

Variable pi : {set 'I_N} -> R.
Hypothesis st : forall f, \sum_S pi S * met f S = \sum_S pi S * f S.
Definition reach j S T : R := iter j met (fun X => (X == T)%:R) S.

Lemma reach_ge0 j S T : V S -> 0 <= reach j S T.
Proof. by move=> v; apply: (co_pos (chain_iter j (met_chain st))) v => y _; rewrite ler0n. Qed.

Lemma reach_lazy j S T : V S -> 0 < reach j S T -> 0 < reach j.+1 S T.
Proof.
move=> v p; rewrite /reach /= /met -/(reach _ _ _); apply: ltr_paddl; last by rewrite mulr_gt0 ?half0.
rewrite mulr_ge0 ?(ltW half0) //; apply: sumr_ge0 => i _; apply: (@term_ge0 (iter j met _)) => // y vy; exact: reach_ge0.
Qed.

Lemma reach_lazyn i j S T : V S -> 0 < reach j S T -> 0 < reach (i + j) S T.
Proof. by move=> v p; elim: i => // i IH; rewrite addSn; apply: reach_lazy. Qed.

Lemma reach_move j S i T : V S -> 0 < w S i -> V (mv S i) -> 0 < reach j (mv S i) T -> 0 < reach j.+1 S T.
Proof.
move=> v wp v' p; rewrite /reach /= /met -/(reach _ _ _); apply: ltr_paddr; first by rewrite mulr_ge0 ?(ltW half0) ?reach_ge0.
rewrite mulr_gt0 ?half0 //; have tg k := @term_ge0 (iter j met (fun X => (X == T)%:R)) S k (fun y => @reach_ge0 j y T) v.
rewrite (bigD1 i) //= ltr_paddr //; first by apply: sumr_ge0.
rewrite mulr_gt0 // ltr_paddr //; first by rewrite mulr_ge0 ?subr_ge0 ?clip_le1 //; exact: reach_ge0.
by rewrite mulr_gt0 // acc_gt0 ?Vpos.
Qed.
End Met.

Section AD.
Variables (R : rcfType) (N : nat) (L : 'M[R]_N).
Hypothesis PL : is_psd L.
Hypothesis N0 : (0 < N)%N.
Implicit Types (S T : {set 'I_N}) (f : {set 'I_N} -> R).

Let w (S : {set 'I_N}) (i : 'I_N) : R := N%:R^-1.
Let V (S : {set 'I_N}) : bool := 0 < pmS L S.
Definition Zall : R := \sum_S pmS L S.
Let pi S : R := pmS L S / Zall.

Lemma Zall_gt0 : 0 < Zall.
Proof.
rewrite /Zall (bigD1 set0) //= ltr_paddr ?pos0 //; by apply: sumr_ge0 => S _; exact: psd_minors.
Qed.

Lemma ad_met f S : ad_op L f S = met L w (@togg N) f S.
Proof. by rewrite /ad_op /met mulr_sumr. Qed.

Lemma n0 : N%:R != 0 :> R. Proof. by rewrite pnatr_eq0 -lt0n. Qed.
Lemma ad_w0 S i : V S -> 0 <= w S i. Proof. by rewrite invr_ge0 ler0n. Qed.
Lemma ad_wp S i : 0 < w S i. Proof. by rewrite invr_gt0 ltr0n. Qed.
Lemma ad_w1 S : V S -> \sum_i w S i = 1.
Proof. by move=> _; rewrite sumr_const card_ord -[_ *+ N]mulr_natr mulVf ?n0. Qed.

Lemma ad_st f : \sum_S pi S * met L w (@togg N) f S = \sum_S pi S * f S.
Proof.
have h (g : {set 'I_N} -> R) : \sum_S pi S * g S = Zall^-1 * \sum_S pmS L S * g S.
  by rewrite mulr_sumr; apply: eq_bigr => S _; rewrite /pi mulrAC [RHS]mulrC.
rewrite !h; congr (_ * _); rewrite -(ad_stationary f N0 (fun S => psd_minors S PL)).
by apply: eq_bigr => S _; rewrite ad_met.
Qed.

Lemma ad_chain : chain_op V pi (met L w (@togg N)).
Proof. by apply: met_chain ad_st => //; [exact: ad_w0|exact: ad_w1]. Qed.

Lemma ad_lazyn i j S T : V S -> 0 < reach L w (@togg N) j S T -> 0 < reach L w (@togg N) (i + j) S T.
Proof. move=> v p; exact: (reach_lazyn PL ad_w0 ad_w1 (fun _ _ _ _ h => h) ad_st i v p). Qed.

Lemma ad_move j S i T : V S -> V (togg S i) -> 0 < reach L w (@togg N) j (togg S i) T -> 0 < reach L w (@togg N) j.+1 S T.
Proof.
move=> v v' p; exact: (reach_move PL ad_w0 ad_w1 (fun _ h => h) (fun _ _ _ _ h => h) ad_st v (ad_wp S i) v' p).
Qed.

Lemma ad_up n S T : S \subset T -> (#|T :\: S| <= n)%N -> V T -> 0 < reach L w (@togg N) n S T.
Proof.
move=> ST le vT; have vS : V S by exact: pos_sub ST vT.
elim: n S ST le vS => [|n IH] S ST le vS.
  have -> : S = T.
    by apply/eqP; rewrite eqEsubset ST -setD_eq0 -cards_eq0 -leqn0.
  by rewrite /reach /= eqxx ltr01.
have [h|h] := leqP #|T :\: S| n.
  by apply: (@ad_lazyn 1) => //; exact: IH.
have /set0Pn[t] : T :\: S != set0 by rewrite -card_gt0 (leq_ltn_trans _ h).
rewrite inE => /andP[tS tT].
have e : togg S t = t |: S by rewrite /togg (negbTE tS).
have UT : t |: S \subset T by rewrite subUset sub1set tT.
apply: (ad_move (i := t)); rewrite ?e //.
- exact: pos_sub UT vT.
apply: IH => //; last exact: pos_sub UT vT.
have -> : T :\: (t |: S) = (T :\: S) :\ t by apply/setP => i; rewrite !inE negb_or -andbA.
by move: le; rewrite (cardsD1 t (T :\: S)) !inE tS tT.
Qed.

Lemma ad_down n j S T : (#|S| <= n)%N -> V S -> 0 < reach L w (@togg N) j set0 T -> 0 < reach L w (@togg N) (n + j) S T.
Proof.
move=> le vS p; elim: n S le vS => [|n IH] S le vS.
  by have -> : S = set0 by apply/eqP; rewrite -cards_eq0 -leqn0.
have [->|/set0Pn[x xS]] := eqVneq S set0.
  by apply: ad_lazyn => //; exact: pos0.
have e : togg S x = S :\ x by rewrite /togg xS.
rewrite addSn; apply: (ad_move (i := x)); rewrite ?e //.
- by apply: pos_sub vS => //; exact: subD1set.
apply: IH; last by apply: pos_sub vS => //; exact: subD1set.
by move: le; rewrite (cardsD1 x S) xS.
Qed.

Lemma ad_irr S T : V S -> V T -> 0 < reach L w (@togg N) (2 * N) S T.
Proof.
move=> vS vT; rewrite mul2n -addnn; apply: ad_down => //.
  by rewrite -[X in (_ <= X)%N]card_ord; exact: max_card.
apply: ad_up; rewrite ?sub0set // setD0 -[X in (_ <= X)%N]card_ord; exact: max_card.
Qed.

Lemma ad_run s n (f : {set 'I_N} -> R) clock : valid_state L s ->
  E (add_delete_sampler L s n.+1 None clock) (fun chain => f (items (last [::] chain))) = iter n (met L w (@togg N)) f (items s).
Proof.
move=> v; rewrite /add_delete_sampler (@loop_last _ _ (ad_step L) clock n 1 (init_state L s) [:: s] f) //.
transitivity (iter n (ad_op L) f (items s)).
  apply: (@iterE_op _ _ L predT _ (ad_op L) _ _ n f) => //; last exact: init_good.
  - by move=> st f' g _; exact: ad_stepE.
  - by move=> st st' g _ h; split=> //; exact: ad_step_good h.
by elim: n (items s) => //= n IH S; rewrite ad_met /met IH; congr (_ * _ + _); apply: eq_bigr => i _; rewrite IH.
Qed.

(** C86: every valid state can be reached from every other one *)
Theorem C86_AD_irreducible s T clock : valid_state L s -> 0 < pmS L T ->
  0 < Pr (add_delete_sampler L s (2 * N).+1 None clock) (fun chain => items (last [::] chain) == T).
Proof.
move=> v vT; have [u p] := v; rewrite /Pr (ad_run _ (fun X => (X == T)%:R)) //; exact: ad_irr.
Qed.

(** C86: the law of the n-th state is within (1-dl)^(n/2N) of the DPP law on every event *)
Theorem C86_AD_converges : exists2 dl : R, 0 < dl <= 1 & forall s n clock (Q : pred {set 'I_N}), valid_state L s ->
  `|Pr (add_delete_sampler L s n.+1 None clock) (fun chain => Q (items (last [::] chain)))
    - (\sum_(S | Q S) pmS L S) / \sum_S pmS L S| <= (1 - dl) ^+ (n %/ (2 * N)).
Proof.
have pi0 S : 0 <= pi S by rewrite divr_ge0 ?psd_minors // ltW ?Zall_gt0.
have pi1 : \sum_S pi S = 1 by rewrite -mulr_suml divff // gt_eqF ?Zall_gt0.
have piV S : ~~ V S -> pi S = 0.
  by rewrite /V lt_neqAle psd_minors // andbT negbK => /eqP e; rewrite /pi -e mul0r.
have [dl d01 h] := doeblin pi0 pi1 piV ad_chain ad_irr.
exists dl => // s n clock Q v; have [u p] := v.
have := h n (fun S => (Q S)%:R) (items s) _ p; rewrite /Pr (ad_run n (fun X => (Q X)%:R)) //.
have -> : mean pi (fun S => (Q S)%:R) = (\sum_(S | Q S) pmS L S) / \sum_S pmS L S.
  rewrite /mean mulr_suml [RHS]big_mkcond; apply: eq_bigr => S _; by case: (Q S); rewrite ?mulr1 ?mulr0.
by apply=> S _; case: (Q S); rewrite ?lexx ler01.
Qed.
(** (the DPP itself meets the hypotheses: C14_dpp_stationary)
    C86: the DPP is the only law on the valid states that one iteration leaves invariant *)
Theorem C86_AD_unique (mu : {set 'I_N} -> R) (clock : nat -> R) : (forall S, 0 <= mu S) -> \sum_S mu S = 1 ->
  (forall S, mu S != 0 -> 0 < pmS L S) ->
  (forall T, \sum_S mu S * Pr (add_delete_sampler L (enum S) 2%N None clock) (fun chain => items (last [::] chain) == T) = mu T) ->
  forall S, mu S = pmS L S / \sum_T pmS L T.
Proof.
move=> mu0 mu1 muV st.
have pi0 S : 0 <= pi S by rewrite divr_ge0 ?psd_minors // ltW ?Zall_gt0.
have pi1 : \sum_S pi S = 1 by rewrite -mulr_suml divff // gt_eqF ?Zall_gt0.
have piV S : ~~ V S -> pi S = 0.
  by rewrite /V lt_neqAle psd_minors // andbT negbK => /eqP e; rewrite /pi -e mul0r.
have mV S : ~~ V S -> mu S = 0 by move=> nv; apply/eqP; apply: contraNT nv => /muV.
apply: (doeblin_unique pi0 pi1 piV ad_chain ad_irr mu0 mu1 mV) => T; rewrite -[RHS]st; apply: eq_bigr => S _.
have [v|nv] := boolP (V S); last by rewrite mV // !mul0r.
by rewrite /Pr (ad_run 1 (fun X => (X == T)%:R)) ?items_enum //; apply: enum_valid.
Qed.
End AD.

Section EX.
Variables (R : rcfType) (N : nat) (L : 'M[R]_N) (k : nat).
Hypothesis PL : is_psd L.
Hypothesis kN : (0 < k < N)%N.
Implicit Types (S T : {set 'I_N}) (f : {set 'I_N} -> R).

Let c : R := k%:R^-1 * (N - k)%:R^-1.
Let w (S : {set 'I_N}) (p : 'I_N * 'I_N) : R := if (p.1 \in S) && (p.2 \in ~: S) then c else 0.
Let mv (S : {set 'I_N}) (p : 'I_N * 'I_N) : {set 'I_N} := xch p.1 p.2 S.
Let V (S : {set 'I_N}) : bool := (#|S| == k) && (0 < pmS L S).
Definition Zk : R := \sum_(S : {set 'I_N} | #|S| == k) pmS L S.
Let pi S : R := if #|S| == k then pmS L S / Zk else 0.

Lemma c_gt0 : 0 < c.
Proof. by case/andP: kN => k0 kn; rewrite mulr_gt0 ?invr_gt0 ?ltr0n ?subn_gt0. Qed.

Lemma w_sum S (F : 'I_N -> 'I_N -> R) : \sum_p w S p * F p.1 p.2 = c * \sum_(x in S) \sum_(t in ~: S) F x t.
Proof.
rewrite pair_big /= mulr_sumr [RHS]big_mkcond; apply: eq_bigr => -[x t] _ /=; rewrite /w /=.
by case: ifP; rewrite ?mul0r.
Qed.

Lemma e_met f S : #|S| = k -> e_op L f S = met L w mv f S.
Proof.
move=> Sk; rewrite /e_op /met Sk; congr (_ * _ + _).
rewrite (w_sum S (fun x t => acc L S (xch x t S) * f (xch x t S) + (1 - acc L S (xch x t S)) * f S)) /c -mulrA.
by congr (_ * _); rewrite mulr_sumr.
Qed.

Lemma e_w0 S i : V S -> 0 <= w S i.
Proof. by move=> _; rewrite /w; case: ifP => // _; rewrite ltW ?c_gt0. Qed.
Lemma e_w1 S : V S -> \sum_i w S i = 1.
Proof.
case/andP => /eqP Sk _; have [k0 kn] := andP kN.
rewrite (eq_bigr (fun p => w S p * 1)) => [|p _]; last by rewrite mulr1.
rewrite (w_sum S (fun _ _ => 1)) (eq_bigr (fun _ => (N - k)%:R)) => [|x _].
  rewrite sumr_const Sk -[_ *+ k]mulr_natl /c mulrACA !mulVf ?mulr1 // pnatr_eq0 -lt0n // subn_gt0 //.
by rewrite sumr_const; congr (_%:R); rewrite cardsCs setCK card_ord Sk.
Qed.
Lemma e_Vpos S : V S -> 0 < pmS L S. Proof. by case/andP. Qed.
Lemma e_Vmv S i : V S -> 0 < w S i -> 0 < pmS L (mv S i) -> V (mv S i).
Proof.
case/andP => Sk _; rewrite /w; case: ifP => [/andP[a]|]; rewrite ?ltxx // inE => b _ p.
by rewrite /V p /mv card_xch // Sk.
Qed.

Lemma pi_sum f : \sum_S pi S * f S = Zk^-1 * \sum_(S : {set 'I_N} | #|S| == k) pmS L S * f S.
Proof.
rewrite mulr_sumr [RHS]big_mkcond; apply: eq_bigr => S _; rewrite /pi; case: ifP => _; last by rewrite mul0r.
by rewrite mulrAC [RHS]mulrC.
Qed.

Lemma e_st f : \sum_S pi S * met L w mv f S = \sum_S pi S * f S.
Proof.
rewrite !pi_sum; congr (_ * _); rewrite -(e_stationary f kN (fun S => psd_minors S PL)).
by apply: eq_bigr => S /eqP Sk; rewrite e_met.
Qed.

Lemma e_chain : chain_op V pi (met L w mv).
Proof. exact: (met_chain PL e_w0 e_w1 e_Vmv e_st). Qed.

Lemma e_irr n S T : (#|S :\: T| <= n)%N -> V S -> V T -> 0 < reach L w mv n S T.
Proof.
move=> le vS vT; elim: n S le vS => [|n IH] S le vS.
  have ST : S \subset T by rewrite -setD_eq0 -cards_eq0 -leqn0.
  have -> : S = T.
    by apply/eqP; rewrite eqEcard ST; case/andP: vS => /eqP -> _; case/andP: vT => /eqP ->; rewrite leqnn.
  by rewrite /reach /= eqxx ltr01.
have [h|h] := leqP #|S :\: T| n.
  by apply: (reach_lazyn PL e_w0 e_w1 e_Vmv e_st 1 vS); exact: IH.
have [/eqP Sk pS] := andP vS; have [/eqP Tk pT] := andP vT.
have /subsetPn[t tT tS] : ~~ (T \subset S).
  apply/negP => TS; have e : T = S by apply/eqP; rewrite eqEcard TS Sk Tk leqnn.
  by move: h; rewrite e setDv cards0.
have [x [xS xT px]] := pos_exchange PL (etrans Sk (esym Tk)) pS pT tT tS.
have wp : 0 < w S (x, t) by rewrite /w /= xS inE tS c_gt0.
have v' : V (mv S (x, t)) by apply: e_Vmv.
apply: (reach_move PL e_w0 e_w1 e_Vpos e_Vmv e_st vS wp v'); apply: IH => //.
have -> : mv S (x, t) :\: T = (S :\: T) :\ x.
  apply/setP => i; rewrite /mv /xch !inE; case: (eqVneq i t) => [->|it] /=; first by rewrite tT /= andbF.
  by rewrite andbCA.
by move: le; rewrite (cardsD1 x (S :\: T)) !inE xS xT.
Qed.

Lemma e_run s n (f : {set 'I_N} -> R) clock : valid_state L s -> size s = k ->
  E (basis_exchange_sampler L s n.+1 None clock) (fun chain => f (set_of N (last [::] chain))) = iter n (met L w mv) f (items s).
Proof.
move=> v sk; have vS : V (items s) by case: v => u p; rewrite /V p card_items // sk eqxx.
rewrite /basis_exchange_sampler /= E_bind.
transitivity (E (mcmc_loop (e_step L) None clock n 1 (init_state L s) [:: s]) (fun ch => f (items (last [::] ch)))).
  apply: eq_E_possible => ch h; rewrite ret_E; have := loop_size h; rewrite find_none (minn_idPl (leqnSn n)) /= add1n => e.
  by rewrite e subnn /= cats0 (last_map (fun t : seq 'I_N => [seq val i | i <- t]) ch [::]) set_of_vals.
rewrite (@loop_last _ _ (e_step L) clock n 1 (init_state L s) [:: s] f) //.
transitivity (iter n (e_op L) f (items s)).
  apply: (@iterE_op _ _ L (fun S => #|S| == k) _ (e_op L) _ _ n f) => //.
  - by move=> st f' g /eqP e; apply: e_stepE; rewrite ?e.
  - move=> st st' g /eqP o h; have [g' ->] := e_step_good g h; by rewrite o eqxx.
  - exact: init_good.
  by case/andP: vS.
have ext (g h : {set 'I_N} -> R) S : (forall S, #|S| = k -> g S = h S) -> #|S| = k -> e_op L g S = met L w mv h S.
  move=> e Sk; rewrite -e_met // /e_op Sk e //; congr (_ * (_ * _) + _); apply: eq_bigr => x xS; congr (_ * _).
  by apply: eq_bigr => t tS; rewrite e // card_xch //; move: tS; rewrite inE.
have : #|items s| = k by case/andP: vS => /eqP.
by elim: n (items s) => //= n IH S Sk; apply: ext.
Qed.

(** C87: every valid state can be reached from every other one of the same size (basis exchange) *)
Theorem C87_E_irreducible s T clock : valid_state L s -> size s = k -> #|T| = k -> 0 < pmS L T ->
  0 < Pr (basis_exchange_sampler L s k.+1 None clock) (fun chain => set_of N (last [::] chain) == T).
Proof.
move=> v sk Tk pT; have [u p] := v; rewrite /Pr (e_run _ (fun X => (X == T)%:R)) //; apply: e_irr.
- by rewrite -[X in (_ <= X)%N]sk -(card_items u); apply: subset_leq_card; exact: subsetDl.
- by rewrite /V card_items // sk eqxx.
by rewrite /V Tk eqxx.
Qed.

(** C87: the law of the n-th state is within (1-dl)^(n/k) of the k-DPP law on every event *)
Theorem C87_E_converges : exists2 dl : R, 0 < dl <= 1 & forall s n clock (Q : pred {set 'I_N}), valid_state L s -> size s = k ->
  `|Pr (basis_exchange_sampler L s n.+1 None clock) (fun chain => Q (set_of N (last [::] chain)))
    - (\sum_(S : {set 'I_N} | (#|S| == k) && Q S) pmS L S) / \sum_(S : {set 'I_N} | #|S| == k) pmS L S| <= (1 - dl) ^+ (n %/ k).
Proof.
have Z0 : 0 <= Zk by apply: sumr_ge0 => S _; exact: psd_minors.
have [z|nz] := eqVneq Zk 0.
  exists 1; first by rewrite ltr01 lexx.
  move=> s n clock Q [u p] sk; have vS : #|items s| == k by rewrite card_items // sk.
  have : 0 < Zk by rewrite /Zk (bigD1 (items s)) //= ltr_paddr //; apply: sumr_ge0 => S _; exact: psd_minors.
  by rewrite z ltxx.
have Zp : 0 < Zk by rewrite lt_neqAle eq_sym nz.
have pi0 S : 0 <= pi S by rewrite /pi; case: ifP => // _; rewrite divr_ge0 ?psd_minors.
have pi1 : \sum_S pi S = 1.
  transitivity (\sum_S pi S * 1); first by apply: eq_bigr => S _; rewrite mulr1.
  by rewrite pi_sum (eq_bigr (pmS L)) => [|S _]; rewrite ?mulr1 // mulVf.
have piV S : ~~ V S -> pi S = 0.
  rewrite /V /pi; case: eqP => //= _; by rewrite lt_neqAle psd_minors // andbT negbK => /eqP <-; rewrite mul0r.
have irr S T : V S -> V T -> 0 < iter k (met L w mv) (fun z => (z == T)%:R) S.
  move=> vS vT; apply: e_irr => //; have /andP[/eqP <- _] := vS; apply: subset_leq_card; exact: subsetDl.
have [dl d01 h] := doeblin pi0 pi1 piV e_chain irr.
exists dl => // s n clock Q v sk; have [u p] := v.
have vS : V (items s) by rewrite /V p card_items // sk eqxx.
have := h n (fun S => (Q S)%:R) (items s) _ vS; rewrite /Pr (e_run n (fun X => (Q X)%:R)) //.
have -> : mean pi (fun S => (Q S)%:R) = (\sum_(S : {set 'I_N} | (#|S| == k) && Q S) pmS L S) / Zk.
  rewrite /mean pi_sum mulrC; congr (_ * _); rewrite big_mkcondr; apply: eq_bigr => S _.
  by case: (Q S); rewrite ?mulr1 ?mulr0.
by apply=> S _; case: (Q S); rewrite ?lexx ler01.
Qed.
(** (the k-DPP itself meets the hypotheses: C15_k_dpp_stationary)
    C87: the k-DPP is the only law on the valid states of size k that one iteration leaves invariant *)
Theorem C87_E_unique (mu : {set 'I_N} -> R) (clock : nat -> R) : (forall S, 0 <= mu S) -> \sum_S mu S = 1 ->
  (forall S, mu S != 0 -> #|S| = k /\ 0 < pmS L S) ->
  (forall T, \sum_S mu S * Pr (basis_exchange_sampler L (enum S) 2%N None clock) (fun chain => set_of N (last [::] chain) == T) = mu T) ->
  forall S, #|S| = k -> mu S = pmS L S / \sum_(T : {set 'I_N} | #|T| == k) pmS L T.
Proof.
move=> mu0 mu1 muV st.
have mV S : ~~ V S -> mu S = 0.
  by move=> nv; apply/eqP; apply: contraNT nv => /muV[Sk p]; rewrite /V Sk eqxx.
have Z0 S : V S -> 0 < Zk.
  case/andP => Sk p; rewrite /Zk (bigD1 S) //= ltr_paddr //; apply: sumr_ge0 => T _; exact: psd_minors.
have Zp : 0 < Zk.
  have [/existsP[S /Z0 //]|] := boolP [exists S, V S]; rewrite negb_exists => /forallP nv.
  by move: mu1; rewrite big1 => [/eqP|S _]; [rewrite eq_sym oner_eq0|exact: mV].
have pi0 S : 0 <= pi S by rewrite /pi; case: ifP => // _; rewrite divr_ge0 ?psd_minors // ltW.
have pi1 : \sum_S pi S = 1.
  transitivity (\sum_S pi S * 1); first by apply: eq_bigr => S _; rewrite mulr1.
  by rewrite pi_sum (eq_bigr (pmS L)) => [|S _]; rewrite ?mulr1 // mulVf // gt_eqF.
have piV S : ~~ V S -> pi S = 0.
  rewrite /V /pi; case: eqP => //= _; by rewrite lt_neqAle psd_minors // andbT negbK => /eqP <-; rewrite mul0r.
have irr S T : V S -> V T -> 0 < iter k (met L w mv) (fun z => (z == T)%:R) S.
  move=> vS vT; apply: e_irr => //; have /andP[/eqP <- _] := vS; apply: subset_leq_card; exact: subsetDl.
move=> S Sk; rewrite (doeblin_unique pi0 pi1 piV e_chain irr mu0 mu1 mV); first by rewrite /pi Sk eqxx.
move=> T; rewrite -[RHS]st; apply: eq_bigr => U _.
have [v|nv] := boolP (V U); last by rewrite mV // !mul0r.
have /andP[/eqP Uk p] := v.
by rewrite /Pr (@e_run (enum U) 1 (fun X => (X == T)%:R)) ?items_enum // -?cardE //; apply: enum_valid.
Qed.
End EX.

(** a kernel of rank 1 on two items: the AD chain can leave [0] for [1] (through the empty set), the exchange chain directly *)
Example C86_instance (R : rcfType) (clock : nat -> R) :
  0 < Pr (add_delete_sampler (ones2 R) [:: 0] 5%N None clock) (fun chain => items (last [::] chain) == [set 1 : 'I_2]).
Proof. apply: C86_AD_irreducible => //; [exact: ones2_psd|exact: ones2_valid1|by rewrite ones2_1 ltr01]. Qed.
Example C87_instance (R : rcfType) (clock : nat -> R) :
  0 < Pr (basis_exchange_sampler (ones2 R) [:: 0] 2%N None clock) (fun chain => set_of 2%N (last [::] chain) == [set 1 : 'I_2]).
Proof. apply: C87_E_irreducible => //; [exact: ones2_psd|exact: ones2_valid1|by rewrite cards1|by rewrite ones2_1 ltr01]. Qed.
Print Assumptions C86_AD_irreducible.
Print Assumptions C86_AD_converges.
Print Assumptions C86_AD_unique.
Print Assumptions C87_E_irreducible.
Print Assumptions C87_E_converges.
Print Assumptions C87_E_unique.
