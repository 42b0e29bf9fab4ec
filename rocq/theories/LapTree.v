(** * LapTree: the determinant of the Dirichlet Laplacian counts spanning trees (pure mathematics). *)
From mathcomp Require Import all_ssreflect all_algebra.
From Verif Require Import TreeSpec TreeLin LapLin P_Ust.
Set Implicit Arguments. Unset Strict Implicit. Unset Printing Implicit Defensive.
Import Order.Theory GRing.Theory Num.Theory.
Local Open Scope ring_scope.

Section Indep.
Variables (R : rcfType) (n : nat) (g : rel 'I_n.+1).
Hypotheses (gs : symmetric g) (gi : irreflexive g) (gc : forall u v, connect g u v).

Lemma lap_sum (x : 'cV[R]_n.+1) : \sum_u lap g x u = 0.
Proof.
under eq_bigr do rewrite /lap sumrB; rewrite sumrB; apply/eqP; rewrite subr_eq0; apply/eqP.
rewrite [RHS](exchange_big_dep xpredT) //=; apply: eq_bigr => u _; by apply: eq_bigl => v; rewrite gs.
Qed.

Lemma d1_indep (r s : 'I_n.+1) : d R g [set r] = d R g [set s].
Proof.
have [->//|rs] := eqVneq r s.
have N0 (u : 'I_n.+1) : [set u] != set0 by apply/set0Pn; exists u; rewrite inE.
have sr : s \notin [set r] by rewrite inE eq_sym.
have rs' : r \notin [set s] by rewrite inE.
rewrite (d_step R gi gc (N0 r) sr) (d_step R gi gc (N0 s) rs').
have -> : r |: [set s] = s |: [set r] by rewrite setUC.
congr (_ * _); set h := hit R g [set r] s.
have hE : hit R g [set s] r = const_mx 1 - h.
  apply: (can_inj (mulKmx (M_unit R gi gc (y_neq0 [set s] r)))); rewrite hit_eq //.
  apply/matrixP => u j; rewrite (ord1 j) [RHS]ME // mxE eqxx andbT.
  have := hit_row R gi gc [set r] s u; rewrite -/h !inE orbC lapB.
  have c1 (x : 'cV[R]_n.+1) : (const_mx 1 - x) u 0 = 1 - x u 0 by rewrite !mxE.
  rewrite c1; case: (u =P r) => [->|ur]; first by rewrite (negbTE rs) /= => ->; rewrite subr0.
  by case: (u =P s) => [_|us] /= ->; rewrite ?subrr ?oppr0.
rewrite hE lapB; have := lap_sum h; rewrite (bigD1 r) //= (bigD1 s) /=; last by rewrite eq_sym.
rewrite big1 ?addr0 => [/eqP|u /andP[ur us]]; last by apply: hit_harm => //; rewrite inE.
by rewrite addrC addr_eq0 => /eqP.
Qed.
End Indep.

Section Tau.
Variables (R : rcfType) (n m : nat) (e : 'I_m -> 'I_n.+1 * 'I_n.+1).
Hypotheses (sg : simple_graph e) (con : gconnected (es e)).
Local Notation g := (adj (es e)).

Lemma g_sym : symmetric g. Proof. exact: adj_sym. Qed.
Lemma g_irr : irreflexive g.
Proof. by move=> u; apply/negP => /adj_es[k kE]; case: sg => h _; have := h k; case: kE => ->; rewrite eqxx. Qed.
Lemma g_con u v : connect g u v. Proof. by move/forallP: con => /(_ u)/forallP. Qed.

Lemma inc_off (u v : 'I_n.+1) : u != v -> \sum_k incF e R u k * incF e R v k = - (g u v)%:R.
Proof.
move=> uv; have vu : v != u by rewrite eq_sym.
transitivity (\sum_k - ((e k == (u, v))%:R + (e k == (v, u))%:R) : R).
  apply: eq_bigr => k _; rewrite !mxE.
  have alg (a b c f : R) : a * c = 0 -> b * f = 0 -> (a - b) * (c - f) = - (b * c + a * f).
    by move=> h1 h2; rewrite mulrBl !mulrBr h1 h2 subr0 sub0r opprD addrC.
  rewrite alg -?natrM ?mulnb.
  - by rewrite -!pair_eqE /= ![_ == (e k).1]eq_sym ![_ == (e k).2]eq_sym [((e k).2 == u) && _]andbC.
  - by case: eqP => [<-|] //=; rewrite (negbTE vu).
  - by case: eqP => [<-|] //=; rewrite (negbTE vu).
rewrite sumrN; congr (- _); case: (boolP (g u v)) => [/adj_es[k kE]|ng]; last first.
  rewrite big1 // => k _; case: eqP => [h|_]; last case: eqP => [h|_]; rewrite ?addr0 //;
    case/negP: ng; rewrite /adj -h es_mem ?orbT //.
case: sg => _ inj; rewrite (bigD1 k) //= big1 => [|l lk].
  rewrite addr0; case: kE => ->; rewrite eqxx -!pair_eqE /= ?(negbTE uv) ?(negbTE vu) ?addr0 ?add0r //.
have ne a b : (e k = (u, v) \/ e k = (v, u)) -> (a, b) = (u, v) \/ (a, b) = (v, u) -> (e l == (a, b)) = false.
  move=> h1 h2; apply/eqP => h; case/eqP: lk; apply: inj; rewrite h /=.
  by case: h1 h2 => -> [[-> ->]|[-> ->]]; auto.
by rewrite !ne ?addr0 //; auto.
Qed.

Lemma incF_col k : \sum_v incF e R v k = 0.
Proof.
under eq_bigr do rewrite mxE; rewrite sumrB; apply/eqP; rewrite subr_eq0.
have one (u : 'I_n.+1) : \sum_v (v == u)%:R = 1 :> R.
  by rewrite (bigD1 u) //= eqxx big1 ?addr0 // => v /negbTE ->.
by rewrite !one.
Qed.

Lemma inc_diag u : \sum_k incF e R u k * incF e R u k = (deg g u)%:R.
Proof.
have : \sum_v \sum_k incF e R u k * incF e R v k = 0.
  by rewrite exchange_big /= big1 // => k _; rewrite -big_distrr /= incF_col mulr0.
rewrite (bigD1 u) //= (eq_bigr (fun v => - (g u v)%:R)) => [|v vu]; last by rewrite inc_off // eq_sym.
move/eqP; rewrite sumrN subr_eq0 => /eqP ->.
rewrite -natr_sum; congr (_%:R); rewrite /deg -sum1_card [RHS]big_mkcond [RHS](bigD1 u) //= /in_mem /= g_irr add0n.
by apply: eq_bigr => v _; rewrite /in_mem /=; case: (g u v).
Qed.

Lemma incidence_lap : inc e R *m (inc e R)^T = row' ord_max (col' ord_max (M R g [set ord_max])).
Proof.
have we (i : 'I_n) : lift ord_max i = widen_ord (leqnSn n) i by apply: val_inj; rewrite /= /bump leqNgt ltn_ord.
apply/matrixP => i j; rewrite !mxE inE eq_sym (negbTE (neq_lift _ _)) !we.
transitivity (\sum_k incF e R (widen_ord (leqnSn n) i) k * incF e R (widen_ord (leqnSn n) j) k).
  by apply: eq_bigr => k _; rewrite !mxE.
by case: eqP => [->|/eqP ne]; [rewrite inc_diag|rewrite inc_off].
Qed.

(** the matrix-tree theorem for any root *)
Theorem d_tau r : d R g [set r] = (nb_spanning_trees e)%:R.
Proof.
rewrite (d1_indep R g_sym g_irr g_con r ord_max) -(C49_matrix_tree R con) incidence_lap /d.
rewrite (expand_det_row _ ord_max) (bigD1 ord_max) //= big1 => [|v vm].
  by rewrite addr0 mxE inE !eqxx mul1r /cofactor -signr_odd oddD addbb expr0 mul1r.
by rewrite mxE inE eqxx eq_sym (negbTE vm) mul0r.
Qed.
End Tau.
