(** * P_AldousBroder: the Aldous-Broder sampler (ust_sampler_aldous_broder, and UST.sample(mode='Aldous-Broder')):
    it returns a spanning tree (C27), terminates almost surely (C59) and its law is uniform (C58). *)
From Coq Require Import String.
From mathcomp Require Import all_ssreflect all_algebra.
From Verif Require Import Prob ExactModel McmcModel Mcmc Finite TreeSpec TreeLin TreePar TreeModel P_Ust LapLin LapTree LoopTerm WilsonInv WilsonLaw WilsonTerm P_Wilson AbLaw AbProg.
Set Implicit Arguments. Unset Strict Implicit. Unset Printing Implicit Defensive.
Import Order.Theory GRing.Theory Num.Theory.
Local Open Scope ring_scope.

Section AldousBroder.
Variables (R : rcfType) (n m : nat) (e : 'I_m -> 'I_n.+1 * 'I_n.+1) (neighbors : 'I_n.+1 -> seq 'I_n.+1).
(** a connected graph without self-loops or repeated edges; its lists of neighbours *)
Hypotheses (sg : simple_graph e) (con : gconnected (es e)).
Hypothesis nbP : forall u, uniq (neighbors u) /\ neighbors u =i adj (es e) u.
Local Notation sampler := (ust_sampler_aldous_broder R neighbors).
Local Notation tau := ((nb_spanning_trees e)%:R : R).
Let gc := g_con con.

(** C27: whatever the root and the random walk, the only outcomes are: still running, or a spanning tree (with N-1
    edges, all in the graph); no exception *)
Theorem C27_aldous_broder fuel root o : possible (sampler fuel root) o ->
  o = inl None \/ exists T, [/\ o = inl (Some T), spanning_tree (adj (es e)) T & size T = n].
Proof.
case/possible_bind => [[r _ h]|[x h _]]; last by case: (total_no_raise (choose_root_total R root) h).
have [->|[T -> tT]] := ab_safe gc nbP (abinv_init _ r) h; [by left|right; exists T; split=> //].
by move/and3P: tT => [_ c a]; have := tree_iff T; rewrite c a => /esym/eqP.
Qed.

Lemma ab_total fuel root : total (sampler fuel root).
Proof. by apply: noraise_total => x /C27_aldous_broder [|[T []]]. Qed.

(** C59: the probability of still running decreases geometrically *)
Theorem C59_aldous_broder root k fuel : (k * (n.+1 * n.+2) <= fuel)%N ->
  Pr (sampler fuel root) (fun o => ~~ isSome o) <= (1 - (n.+1)%:R^-1 ^+ (n.+1 * n.+2)) ^+ k.
Proof.
move=> kf; rewrite /Pr E_bind; apply: avg_le => r; exact: (ab_term R gc nbP (abinv_init _ r) kf).
Qed.

(** C58: within any number of iterations, a spanning tree is returned with probability at most 1/tau, *)
Theorem C58_upper fuel root T : spanning_tree (adj (es e)) T ->
  Pr (sampler fuel root) (fun o => if o is Some es then same_graph es T else false) <= tau^-1.
Proof.
move=> tT; rewrite /Pr E_bind; apply: avg_le => r.
case: (posnP n) => [n0|n0]; last by apply: ab_upper.
rewrite -(d_tau R sg con r); have -> : [set r] = setT.
  by apply/eqP; rewrite eqEcard subsetT cardsT cards1 card_ord n0.
by rewrite d_setT invr1; apply: E_le_mass.
Qed.
(** and with at least 1/tau minus the probability of still running *)
Theorem C58_lower fuel root T : spanning_tree (adj (es e)) T ->
  tau^-1 - Pr (sampler fuel root) (fun o => ~~ isSome o) <=
  Pr (sampler fuel root) (fun o => if o is Some es then same_graph es T else false).
Proof.
apply: uniform_lower => //; first exact: ab_total.
  by move=> T' /C27_aldous_broder [|[T'' [[->]]]].
exact: C58_upper.
Qed.

(** ** the same for UST.sample, from any state of the object *)
Variable qr : forall r : nat, 'M[R]_(m, r) -> 'M[R]_(m, r).
Local Notation sample := (ust_sample e neighbors qr).

Lemma sample_ab_bind fuel s : sample fuel "Aldous-Broder" s = bind (sampler fuel None) (fun r => Ret (omap (append_sample s) r)).
Proof. by []. Qed.
Lemma sample_ab fuel s F : E (sample fuel "Aldous-Broder" s) F = E (sampler fuel None) (fun o => F (omap (append_sample s) o)).
Proof. by rewrite sample_ab_bind E_bind. Qed.

Theorem C27_sample fuel s o : possible (sample fuel "Aldous-Broder" s) o ->
  o = inl None \/ exists s' T, [/\ o = inl (Some s'), list_of_samples s' = rcons (list_of_samples s) T,
                                 spanning_tree (adj (es e)) T & size T = n].
Proof.
rewrite sample_ab_bind; case/possible_bind => [[r h] ho|[x /C27_aldous_broder [|[T []]] //]].
have [|[T [E1 tT sT]]] := C27_aldous_broder h; first by case=> rE; left; move: ho; rewrite rE.
by case: E1 => rE; right; move: ho; rewrite rE => ho; exists (append_sample s T), T.
Qed.

Theorem C58_sample fuel s T : spanning_tree (adj (es e)) T ->
  tau^-1 - Pr (sample fuel "Aldous-Broder" s) (fun r => ~~ isSome r)
  <= Pr (sample fuel "Aldous-Broder" s) (fun r => if r is Some s' then same_graph (last [::] (list_of_samples s')) T else false)
  <= tau^-1.
Proof.
move=> tT; set P1 := Pr _ (fun r : option _ => ~~ _); set P2 := Pr _ _.
have -> : P1 = Pr (sampler fuel None) (fun o => ~~ isSome o) by rewrite /P1 /Pr sample_ab; apply: eq_E => -[].
have -> : P2 = Pr (sampler fuel None) (fun o => if o is Some es then same_graph es T else false).
  by rewrite /P2 /Pr sample_ab; apply: eq_E => -[a|] //=; rewrite last_rcons.
by rewrite C58_lower ?C58_upper.
Qed.

Theorem C59_sample_ab s k fuel : (k * (n.+1 * n.+2) <= fuel)%N ->
  Pr (sample fuel "Aldous-Broder" s) (fun r => ~~ isSome r) <= (1 - (n.+1)%:R^-1 ^+ (n.+1 * n.+2)) ^+ k.
Proof.
move=> kf; have := C59_aldous_broder None kf; congr (_ <= _); rewrite /Pr sample_ab; apply: eq_E => -[] //.
Qed.
End AldousBroder.

(** the hypotheses are met by the triangle: see C26_instance *)
Print Assumptions C27_sample.
Print Assumptions C58_sample.
Print Assumptions C59_sample_ab.
