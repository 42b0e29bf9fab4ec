(** * P_Wilson: Wilson's algorithm (ust_sampler_wilson, and UST.sample(mode='Wilson')):
    it returns a spanning tree (C26), terminates almost surely (C59) and its law is uniform (C57). *)
From Coq Require Import String.
From mathcomp Require Import all_ssreflect all_algebra.
From Verif Require Import Prob ExactModel McmcModel Mcmc Finite TreeSpec TreeLin TreePar TreeModel P_Ust LapLin LapTree LoopTerm WilsonInv WilsonLaw WilsonTerm.
Set Implicit Arguments. Unset Strict Implicit. Unset Printing Implicit Defensive.
Import Order.Theory GRing.Theory Num.Theory.
Local Open Scope ring_scope.

(** ** a sampler of spanning trees whose probabilities are at most 1/tau misses 1/tau by at most the mass it loses *)
Section Uniform.
Variables (R : rcfType) (n m : nat) (e : 'I_m -> 'I_n.+1 * 'I_n.+1).
Hypotheses (sg : simple_graph e) (con : gconnected (es e)).
Local Notation g := (adj (es e)).
Local Notation tau := ((nb_spanning_trees e)%:R : R).
Variable p : prog R (option (seq ('I_n.+1 * 'I_n.+1))).
Hypothesis tot : total p.
Hypothesis ok : forall es, possible p (inl (Some es)) -> spanning_tree g es.
Hypothesis upper : forall T, spanning_tree g T -> Pr p (fun o => if o is Some es then same_graph es T else false) <= tau^-1.

Lemma same_graph_sym (T T' : seq ('I_n.+1 * 'I_n.+1)) : same_graph T T' = same_graph T' T.
Proof. by apply/same_graphP/same_graphP => h u v; rewrite h. Qed.
Lemma same_graph_r (T1 T2 T' : seq ('I_n.+1 * 'I_n.+1)) : same_graph T1 T2 -> same_graph T' T1 = same_graph T' T2.
Proof. by move/same_graphP => h; apply/same_graphP/same_graphP => h' u v; rewrite h' h. Qed.

Lemma uniform_lower T : spanning_tree g T ->
  tau^-1 - Pr p (fun o => ~~ isSome o) <= Pr p (fun o => if o is Some es then same_graph es T else false).
Proof.
move=> tT; pose Q (S : {set 'I_m}) (o : option (seq ('I_n.+1 * 'I_n.+1))) := if o is Some es then same_graph es (subgraph e S) else false.
have sum1 : \sum_(S | spanning_tree g (subgraph e S)) Pr p (Q S) = 1 - Pr p (fun o => ~~ isSome o).
  rewrite -tot /Pr -E_sum; apply/eqP; rewrite eq_sym subr_eq -E_add; apply/eqP/eq_E_possible => -[T' /ok t'|_].
    rewrite /= addr0 (bigD1 (indices e T')) /=; last exact: indices_tree.
    rewrite same_graph_sym (same_indices_iff sg _ t') eqxx big1 ?addr0 // => S /andP[_ ne].
    by rewrite same_graph_sym (same_indices_iff sg _ t') (negbTE ne).
  by rewrite /= big1 ?add0r.
have iT := indices_tree sg tT.
have -> : Pr p (fun o => if o is Some es then same_graph es T else false) = Pr p (Q (indices e T)).
  apply: eq_E => -[T'|] //=; congr (_%:R); rewrite (same_graph_r (T2 := subgraph e (indices e T))) // same_graph_sym (same_indices_iff sg _ tT) eqxx //.
have all1 : \sum_(S | spanning_tree g (subgraph e S)) tau^-1 = 1.
  have e1 : #|[pred S : {set 'I_m} | spanning_tree g (subgraph e S)]| = nb_spanning_trees e.
    by apply: eq_card => S; rewrite !inE.
  rewrite sumr_const e1 -[LHS]mulr_natl mulfV // pnatr_eq0 -lt0n /nb_spanning_trees card_gt0; apply/set0Pn.
  by exists (indices e T); rewrite inE.
have le : \sum_(S | spanning_tree g (subgraph e S) && (S != indices e T)) Pr p (Q S) <=
          \sum_(S | spanning_tree g (subgraph e S) && (S != indices e T)) tau^-1.
  by apply: ler_sum => S /andP[tS _]; apply: upper.
move: sum1 all1; rewrite (bigD1 (indices e T)) //= => s1; rewrite (bigD1 (indices e T)) //= => s2.
set N := Pr p (fun o => ~~ _) in s1 *; set P := Pr p (Q (indices e T)) in s1 *.
move: le; set X := (X in X <= _); set Y := (Y in _ <= Y) => le.
have {}s1 : P + X = 1 - N by exact: s1.
have {}s2 : tau^-1 + Y = 1 by exact: s2.
clearbody X Y N P; move: tau^-1 s2 => t s2.
have -> : P = 1 - N - X by rewrite -s1 addrK.
have -> : t = 1 - Y by rewrite -s2 addrK.
by rewrite [1 - Y - N]addrAC; apply: ler_add; rewrite ?lexx ?ler_opp2.
Qed.
End Uniform.

(** ** the theorems *)
Section Wilson.
Variables (R : rcfType) (n m : nat) (e : 'I_m -> 'I_n.+1 * 'I_n.+1) (neighbors : 'I_n.+1 -> seq 'I_n.+1).
(** a connected graph without self-loops or repeated edges; its lists of neighbours *)
Hypotheses (sg : simple_graph e) (con : gconnected (es e)).
Hypothesis nbP : forall u, uniq (neighbors u) /\ neighbors u =i adj (es e) u.
Local Notation sampler := (ust_sampler_wilson R neighbors).
Local Notation tau := ((nb_spanning_trees e)%:R : R).
Let gs := @g_sym n m e.
Let gi := g_irr sg.
Let gc := g_con con.

Lemma choose_root_total root : total (choose_root R (n := n) root).
Proof.
have h : total (unif (enum 'I_n.+1) (fun v => Ret v) : prog R 'I_n.+1).
  apply: noraise_total => x /unif_any []; first by rewrite -cardE card_ord.
  by [].
by rewrite /choose_root; case: root => [r|] //; case: ifP.
Qed.

Lemma avg_le root F c : (forall r, F r <= c) -> E (choose_root R (n := n) root) F <= c.
Proof.
move=> h; apply: (@le_trans _ _ (E (choose_root R root) (fun=> c * 1))); first by apply: E_le => r; rewrite mulr1.
by rewrite E_scale (choose_root_total root) mulr1.
Qed.

(** C26: whatever the root and the random walk, the only outcomes are: still running, or a spanning tree (with N-1
    edges, all in the graph); no exception *)
Theorem C26_wilson fuel root o : possible (sampler fuel root) o ->
  o = inl None \/ exists T, [/\ o = inl (Some T), spanning_tree (adj (es e)) T & size T = n].
Proof.
case/possible_bind => [[r _ h]|[x h _]]; last by case: (total_no_raise (choose_root_total root) h).
have [->|[T -> tT]] := wilson_loop_safe gi gc nbP (winv_init _ r) h; [by left|right; exists T; split=> //].
by move/and3P: tT => [_ c a]; have := tree_iff T; rewrite c a => /esym/eqP.
Qed.

Lemma wilson_total fuel root : total (sampler fuel root).
Proof. by apply: noraise_total => x /C26_wilson [|[T []]]. Qed.

(** C59: the probability of still running decreases geometrically *)
Theorem C59_wilson root k fuel : (k * (n.+1 * n.+2) <= fuel)%N ->
  Pr (sampler fuel root) (fun o => ~~ isSome o) <= (1 - (n.+1)%:R^-1 ^+ (n.+1 * n.+2)) ^+ k.
Proof.
move=> kf; rewrite /Pr E_bind; apply: avg_le => r; exact: (wilson_term R gi gc nbP (winv_init _ r) kf).
Qed.

(** the rate is smaller than one *)
Theorem C59_rate : (0 : R) <= 1 - (n.+1)%:R^-1 ^+ (n.+1 * n.+2) < (1 : R).
Proof.
have p0 : 0 < (n.+1)%:R^-1 :> R by rewrite invr_gt0 ltr0n.
have p1 : (n.+1)%:R^-1 <= 1 :> R by rewrite invf_le1 ?ltr0n // ler1n.
rewrite subr_ge0 (exprn_ile1 _ (ltW p0) p1) /=.
by rewrite ltr_subl_addr ltr_addl exprn_gt0.
Qed.

(** C57: within any number of iterations, a spanning tree is returned with probability at most 1/tau, *)
Theorem C57_upper fuel root T : spanning_tree (adj (es e)) T ->
  Pr (sampler fuel root) (fun o => if o is Some es then same_graph es T else false) <= tau^-1.
Proof.
move=> /and3P[Tg Tc Ta]; rewrite /Pr E_bind; apply: avg_le => r; rewrite -(d_tau R sg con r).
case: (posnP n) => [n0|n0]; last by apply: wilson_le.
have -> : [set r] = setT.
  by apply/eqP; rewrite eqEcard subsetT cardsT cards1 card_ord n0.
by rewrite d_setT invr1; apply: E_le_mass.
Qed.
(** and with at least 1/tau minus the probability of still running *)
Theorem C57_lower fuel root T : spanning_tree (adj (es e)) T ->
  tau^-1 - Pr (sampler fuel root) (fun o => ~~ isSome o) <=
  Pr (sampler fuel root) (fun o => if o is Some es then same_graph es T else false).
Proof.
apply: uniform_lower => //; first exact: wilson_total.
  by move=> T' /C26_wilson [|[T'' [[->]]]].
exact: C57_upper.
Qed.

(** ** the same for UST.sample, from any state of the object *)
Variable qr : forall r : nat, 'M[R]_(m, r) -> 'M[R]_(m, r).
Local Notation sample := (ust_sample e neighbors qr).

Lemma sample_bind fuel s : sample fuel "Wilson" s = bind (sampler fuel None) (fun r => Ret (omap (append_sample s) r)).
Proof. by []. Qed.
Lemma sample_wilson fuel s F : E (sample fuel "Wilson" s) F = E (sampler fuel None) (fun o => F (omap (append_sample s) o)).
Proof. by rewrite sample_bind E_bind. Qed.

Theorem C26_sample fuel s o : possible (sample fuel "Wilson" s) o ->
  o = inl None \/ exists s' T, [/\ o = inl (Some s'), list_of_samples s' = rcons (list_of_samples s) T,
                                 spanning_tree (adj (es e)) T & size T = n].
Proof.
rewrite sample_bind; case/possible_bind => [[r h] ho|[x /C26_wilson [|[T []]] //]].
have [|[T [E1 tT sT]]] := C26_wilson h; first by case=> rE; left; move: ho; rewrite rE.
by case: E1 => rE; right; move: ho; rewrite rE => ho; exists (append_sample s T), T.
Qed.

Theorem C57_sample fuel s T : spanning_tree (adj (es e)) T ->
  tau^-1 - Pr (sample fuel "Wilson" s) (fun r => ~~ isSome r)
  <= Pr (sample fuel "Wilson" s) (fun r => if r is Some s' then same_graph (last [::] (list_of_samples s')) T else false)
  <= tau^-1.
Proof.
move=> tT; set P1 := Pr _ (fun r : option _ => ~~ _); set P2 := Pr _ _.
have -> : P1 = Pr (sampler fuel None) (fun o => ~~ isSome o) by rewrite /P1 /Pr sample_wilson; apply: eq_E => -[].
have -> : P2 = Pr (sampler fuel None) (fun o => if o is Some es then same_graph es T else false).
  by rewrite /P2 /Pr sample_wilson; apply: eq_E => -[a|] //=; rewrite last_rcons.
by rewrite C57_lower ?C57_upper.
Qed.

Theorem C59_sample s k fuel : (k * (n.+1 * n.+2) <= fuel)%N ->
  Pr (sample fuel "Wilson" s) (fun r => ~~ isSome r) <= (1 - (n.+1)%:R^-1 ^+ (n.+1 * n.+2)) ^+ k.
Proof.
move=> kf; have := C59_wilson None kf; congr (_ <= _); rewrite /Pr sample_wilson; apply: eq_E => -[] //.
Qed.
End Wilson.

(** the hypotheses are met by the triangle, with the nodes in order as lists of neighbours *)
Definition neighbors_of n m (e : 'I_m -> 'I_n.+1 * 'I_n.+1) (u : 'I_n.+1) : seq 'I_n.+1 := [seq v <- enum 'I_n.+1 | adj (es e) u v].
Lemma neighbors_ofP n m (e : 'I_m -> 'I_n.+1 * 'I_n.+1) u : uniq (neighbors_of e u) /\ neighbors_of e u =i adj (es e) u.
Proof. by split=> [|v]; [rewrite filter_uniq ?enum_uniq|rewrite mem_filter mem_enum andbT]. Qed.
Example C26_instance (R : rcfType) : [/\ simple_graph triangle, gconnected (es triangle),
  forall u, uniq (neighbors_of triangle u) /\ neighbors_of triangle u =i adj (es triangle) u,
  nb_spanning_trees triangle = 3%N & exists T, spanning_tree (adj (es triangle)) T].
Proof.
have [h1 h2 _ h4] := C49_instance R; split=> //; first exact: neighbors_ofP.
have : (0 < nb_spanning_trees triangle)%N by rewrite h4.
by rewrite card_gt0 => /set0Pn[S]; rewrite inE; exists (subgraph triangle S).
Qed.
Print Assumptions C26_wilson.
Print Assumptions C26_sample.
Print Assumptions C57_sample.
Print Assumptions C59_sample.
