(** * TreeLin: incidence matrices and spanning trees (pure mathematics, no model of code here). *)
From mathcomp Require Import all_ssreflect all_algebra.
From mathcomp.algebra_tactics Require Import ring.
From Verif Require Import TreeSpec.
Set Implicit Arguments. Unset Strict Implicit. Unset Printing Implicit Defensive.
Import Order.Theory GRing.Theory Num.Theory.
Local Open Scope ring_scope.

Section Lin.
Variables (n m : nat) (e : 'I_m -> 'I_n.+1 * 'I_n.+1).
Definition es := [seq e k | k <- enum 'I_m].
Lemma es_mem k : e k \in es. Proof. by apply: map_f; rewrite mem_enum. Qed.
Lemma size_es : size es = m. Proof. by rewrite size_map -cardE card_ord. Qed.

(** the full incidence matrix and the one without its last row *)
Definition incF (A : ringType) : 'M[A]_(n.+1, m) := \matrix_(v, k) ((v == (e k).2)%:R - (v == (e k).1)%:R).
Definition inc (A : ringType) : 'M[A]_(n, m) := \matrix_(v, k) ((widen_ord (leqnSn n) v == (e k).2)%:R - (widen_ord (leqnSn n) v == (e k).1)%:R).

Lemma inc_map (A B : ringType) (f : {rmorphism A -> B}) : map_mx f (inc A) = inc B.
Proof. by apply/matrixP => i k; rewrite !mxE rmorphB !rmorph_nat. Qed.

Definition dl (A : ringType) (v : 'I_n.+1) : 'cV[A]_n := \col_i (widen_ord (leqnSn n) i == v)%:R.

Lemma adj_es u v : adj es u v -> exists k, e k = (u, v) \/ e k = (v, u).
Proof.
by case/orP => /mapP[k _ h]; exists k; [left|right].
Qed.

Lemma inc_path (A : comRingType) u v : connect (adj es) u v -> exists p : 'cV[A]_m, inc A *m p = dl A v - dl A u.
Proof.
case/connectP => p; elim: p u => [|w p IH] u /= => [_ ->|/andP[uw pp] ve].
  by exists 0; rewrite mulmx0 subrr.
have [q qE] := IH _ pp ve.
have [k kE] := adj_es uw.
have colk : inc A *m delta_mx k 0 = dl A (e k).2 - dl A (e k).1.
  by rewrite -colE; apply/matrixP => i j; rewrite !mxE.
case: kE => kE; rewrite kE /= in colk.
  by exists (delta_mx k 0 + q); rewrite mulmxDr colk qE addrC addrA subrK.
by exists (q - delta_mx k 0); rewrite mulmxBr colk qE opprB addrA subrK.
Qed.

Lemma dl_last (A : ringType) : dl A ord_max = 0.
Proof. by apply/matrixP => i j; rewrite !mxE -val_eqE /= ltn_eqF. Qed.

Lemma inc_right_inverse (A : comRingType) : gconnected es -> exists P : 'M[A]_(m, n), inc A *m P = 1%:M.
Proof.
move=> /forallP c.
have h (v : 'I_n) : exists p : 'cV[A]_m, inc A *m p = dl A (widen_ord (leqnSn n) v).
  by have /forallP/(_ (widen_ord (leqnSn n) v))/inc_path := c ord_max => /(_ A)[p]; rewrite dl_last subr0 => <-; exists p.
suff [F FE] : exists F : 'I_n -> 'cV[A]_m, forall v, inc A *m F v = dl A (widen_ord (leqnSn n) v).
  exists (\matrix_(k, v) F v k 0); apply/matrixP => i j; have := congr1 (fun M : 'cV[A]_n => M i 0) (FE j).
  rewrite /dl !mxE => <- //; apply: eq_bigr => k _; by rewrite !mxE.
have : forall s : seq 'I_n, exists F : 'I_n -> 'cV[A]_m, forall v, v \in s -> inc A *m F v = dl A (widen_ord (leqnSn n) v).
  elim=> [|v s [F FE]]; first by exists (fun=> 0).
  have [p pE] := h v; exists (fun w => if w == v then p else F w) => w; rewrite inE.
  by case: eqP => [->|_] //=; apply: FE.
by case/(_ (enum 'I_n)) => F FE; exists F => v; apply: FE; rewrite mem_enum.
Qed.

Lemma connected_size : gconnected es -> (n <= m)%N.
Proof.
case/(inc_right_inverse [comRingType of rat]) => P PE.
have := mxrankM_maxl (inc [ringType of rat]) P; rewrite PE mxrank1 => h; exact: leq_trans h (rank_leq_col _).
Qed.

Lemma inc_sum (A : ringType) (x : 'cV[A]_m) (X : 'I_n.+1 -> A) :
  \sum_v X v * (incF A *m x) v 0 = \sum_k (X (e k).2 - X (e k).1) * x k 0.
Proof.
have pick (u : 'I_n.+1) : \sum_v X v * (v == u)%:R = X u.
  by rewrite (bigD1 u) //= eqxx mulr1 big1 ?addr0 // => v /negbTE ->; rewrite mulr0.
transitivity (\sum_v \sum_k (X v * (v == (e k).2)%:R - X v * (v == (e k).1)%:R) * x k 0).
  by apply: eq_bigr => v _; rewrite [(incF A *m x) v 0]mxE mulr_sumr; apply: eq_bigr => k _; rewrite /= mxE mulrA mulrBr.
by rewrite exchange_big /=; apply: eq_bigr => k _; rewrite -mulr_suml sumrB !pick.
Qed.

Lemma incF_kill (A : comRingType) (x : 'cV[A]_m) : inc A *m x = 0 -> incF A *m x = 0.
Proof.
move=> h; have low (i : 'I_n) : (incF A *m x) (widen_ord (leqnSn n) i) 0 = 0.
  transitivity ((inc A *m x) i 0); last by rewrite h mxE.
  by rewrite !mxE; apply: eq_bigr => k _; rewrite !mxE.
have : \sum_v (1 : A) * (incF A *m x) v 0 = 0.
  by rewrite (inc_sum x (fun=> 1)) big1 // => k _; rewrite subrr mul0r.
rewrite big_ord_recr /= big1 ?add0r ?mul1r => [l0|i _]; last by rewrite mul1r low.
apply/matrixP => v j; rewrite [RHS]mxE ord1.
case: (unliftP ord_max v) => [i ->|-> //].
have -> : lift ord_max i = widen_ord (leqnSn n) i by apply: val_inj; rewrite /= /bump leqNgt ltn_ord.
exact: low.
Qed.

Lemma acyclic_size : acyclic es -> (m <= n)%N.
Proof.
move=> ac; rewrite leqNgt; apply/negP => mn.
have ue := acyclic_uniq ac.
have /injectiveP ei : injectiveb e by [].
have [x x0 xA] : exists2 x : 'cV[rat]_m, x != 0 & inc [ringType of rat] *m x = 0.
  have : kermx (inc [ringType of rat])^T != 0.
    rewrite -mxrank_eq0 mxrank_ker -lt0n subn_gt0; apply: leq_ltn_trans mn; exact: rank_leq_col.
  case/rowV0Pn => v /sub_kermxP vk v0; exists v^T; first by rewrite trmx_eq0.
  by apply: trmx_inj; rewrite trmx_mul trmxK vk trmx0.
have [k xk] : exists k, x k 0 != 0.
  apply/existsP; apply: contraT => /existsPn h; case/negP: x0; apply/eqP/matrixP => k j.
  by rewrite ord1 mxE; apply/eqP; rewrite -[_ == _]negbK h.
have bridge : ~~ connect (adj (rem (e k) es)) (e k).1 (e k).2 by move/allP: ac; apply; apply: es_mem.
have := inc_sum x (fun v => (connect (adj (rem (e k) es)) (e k).1 v)%:R).
rewrite (incF_kill xA) big1 => [|v _]; last by rewrite mxE mulr0.
rewrite (bigD1 k) //= connect0 (negbTE bridge) big1 ?addr0 => [|l lk].
  by rewrite sub0r mulN1r => /esym/eqP; rewrite oppr_eq0 (negbTE xk).
have el : e l \in rem (e k) es.
  by rewrite (mem_rem_uniq _ ue) !inE es_mem andbT; apply: contra lk => /eqP/ei ->.
have al : adj (rem (e k) es) (e l).1 (e l).2 by rewrite /adj -surjective_pairing el.
have -> : connect (adj (rem (e k) es)) (e k).1 (e l).2 = connect (adj (rem (e k) es)) (e k).1 (e l).1.
  by rewrite -(same_connect_r (@adj_connect_sym _ _) (connect1 al)).
by rewrite subrr mul0r.
Qed.

End Lin.

Section Lists.
Variable n : nat.
Implicit Types s : seq ('I_n.+1 * 'I_n.+1).

Lemma es_tnth s : es (tnth (in_tuple s)) = s.
Proof. by rewrite /es map_tnth_enum. Qed.

Lemma gconnected_size s : gconnected s -> (n <= size s)%N.
Proof. by rewrite -{1}(es_tnth s); apply: connected_size. Qed.

Lemma acyclic_le s : acyclic s -> (size s <= n)%N.
Proof. by rewrite -{1}(es_tnth s); apply: acyclic_size. Qed.

Lemma gconnected_acyclic s : gconnected s -> size s = n -> acyclic s.
Proof.
move=> c sn; apply/allP => f fs; apply/negP => cf.
have : gconnected (rem f s).
  have sub u v : connect (adj s) u v -> connect (adj (rem f s)) u v.
    apply: connect_sub => a b /orP h.
    have mr x : x \in s -> x == f \/ x \in rem f s.
      by case: (x =P f) => [->|/eqP ne xs]; [left|right; have := perm_mem (perm_to_rem fs) x; rewrite xs inE (negbTE ne)].
    case: h => /mr[/eqP e|h].
    - by move: cf; rewrite -e.
    - by apply: connect1; rewrite /adj h.
    - by move: cf; rewrite -e adj_connect_sym.
    - by apply: connect1; rewrite /adj h orbT.
  by apply/forallP => u; apply/forallP => v; apply: sub; move/forallP: c => /(_ u)/forallP.
move/gconnected_size; rewrite size_rem // sn => h.
have n0 : n = 0%N by case: (n) h => // k /=; rewrite ltnn.
by move: fs; rewrite (size0nil (etrans sn n0)).
Qed.

(** a connected graph on n+1 nodes is a tree iff it has n edges *)
Lemma tree_iff s : gconnected s && acyclic s = gconnected s && (size s == n).
Proof.
case c : (gconnected s) => //=; apply/idP/eqP => [a|]; last exact: gconnected_acyclic.
by apply/eqP; rewrite eqn_leq acyclic_le // gconnected_size.
Qed.
End Lists.

Section Det.
Variables (R : idomainType) (n : nat).

Lemma det_inc_connected (e : 'I_n -> 'I_n.+1 * 'I_n.+1) : gconnected (es e) -> \det (inc e R) ^+ 2 = 1.
Proof.
case/(inc_right_inverse [comRingType of int]) => P PE.
have <- : (\det (inc e [ringType of int]))%:~R = \det (inc e R) by rewrite -det_map_mx (inc_map e (intmul1_rmorphism R)).
have : (\det (inc e [ringType of int]) * \det P) = 1 by rewrite -det_mulmx PE det1.
rewrite -rmorphX /= => h.
have : \det (inc e [ringType of int]) \is a intUnitRing.unitz by apply: (@intUnitRing.unitzPl _ (\det P)); rewrite mulrC.
by rewrite qualifE => /orP[/eqP ->|/eqP ->]; rewrite ?sqrrN expr1n.
Qed.
Lemma det_inc_disconnected (e : 'I_n -> 'I_n.+1 * 'I_n.+1) : ~~ gconnected (es e) -> \det (inc e R) = 0.
Proof.
move=> nc; have [u nu] : exists u, ~~ connect (adj (es e)) u ord_max.
  apply/existsP; rewrite -[X in is_true X]negbK negb_exists; apply: contra nc => /forallP h.
  have h' u : connect (adj (es e)) u ord_max by rewrite -[X in is_true X]negbK h.
  by apply/forallP => u; apply/forallP => v; apply: connect_trans (h' u) _; rewrite adj_connect_sym.
apply/eqP/det0P; exists (\row_i (connect (adj (es e)) u (widen_ord (leqnSn n) i))%:R).
  have un : u != ord_max by apply: contraNneq nu => ->; apply: connect0.
  case: (unliftP ord_max u) un => [i ui _|-> /eqP //].
  have wi : widen_ord (leqnSn n) i = u by rewrite ui; apply: val_inj; rewrite /= /bump leqNgt ltn_ord.
  by apply/eqP => /matrixP/(_ 0 i); rewrite !mxE wi connect0 => /eqP; rewrite oner_eq0.
apply/matrixP => z k; rewrite [RHS]mxE.
have pick (v : 'I_n.+1) : \sum_(i < n) (connect (adj (es e)) u (widen_ord (leqnSn n) i))%:R * (widen_ord (leqnSn n) i == v)%:R
   = (connect (adj (es e)) u v)%:R :> R.
  transitivity (\sum_(i < n.+1) (connect (adj (es e)) u i)%:R * (i == v)%:R : R).
    by rewrite big_ord_recr /= (negbTE nu) mul0r addr0.
  by rewrite (bigD1 v) //= eqxx mulr1 big1 ?addr0 // => i /negbTE ->; rewrite mulr0.
rewrite mxE; transitivity (\sum_(i < n) ((connect (adj (es e)) u (widen_ord (leqnSn n) i))%:R * (widen_ord (leqnSn n) i == (e k).2)%:R
  - (connect (adj (es e)) u (widen_ord (leqnSn n) i))%:R * (widen_ord (leqnSn n) i == (e k).1)%:R) : R).
  by apply: eq_bigr => i _; rewrite !mxE mulrBr.
rewrite sumrB !pick.
have al : adj (es e) (e k).1 (e k).2 by rewrite /adj -surjective_pairing es_mem.
by rewrite (same_connect_r (@adj_connect_sym _ _) (connect1 al)) subrr.
Qed.

Lemma det_inc2 (e : 'I_n -> 'I_n.+1 * 'I_n.+1) : \det (inc e R) ^+ 2 = (gconnected (es e))%:R.
Proof.
by case: (boolP (gconnected _)) => [/det_inc_connected|/det_inc_disconnected ->]; rewrite ?expr0n.
Qed.
End Det.
