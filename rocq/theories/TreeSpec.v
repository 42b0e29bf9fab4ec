(** * TreeSpec: undirected graphs, spanning trees (specification).
    A networkx graph built by Graph().add_edges_from(es) is determined by the set of unordered pairs of es. *)
From mathcomp Require Import all_ssreflect.
Set Implicit Arguments. Unset Strict Implicit. Unset Printing Implicit Defensive.

Section Spec.
Variable V : finType.
Implicit Types (es : seq (V * V)) (g : rel V).

(** u and v are joined by an edge of the list *)
Definition adj es : rel V := fun u v => ((u, v) \in es) || ((v, u) \in es).
(** any two nodes are joined by a path *)
Definition gconnected es : bool := [forall u, forall v, connect (adj es) u v].
(** no edge lies on a cycle: without it, its ends are not joined by a path *)
Definition acyclic es : bool := all (fun e => ~~ connect (adj (rem e es)) e.1 e.2) es.
(** es lists the edges of a spanning tree of the graph g *)
Definition spanning_tree g es : bool := [&& all (fun e => g e.1 e.2) es, gconnected es & acyclic es].
(** the same graph *)
Definition same_graph es es' : bool := [forall u, forall v, adj es u v == adj es' u v].

Lemma same_graphP es es' : reflect (adj es =2 adj es') (same_graph es es').
Proof. by apply: (iffP forallP) => [h u v|h u]; [move/forallP: (h u) => /(_ v)/eqP|apply/forallP => v; rewrite h]. Qed.

Lemma adj_sym es : symmetric (adj es).
Proof. by move=> u v; rewrite /adj orbC. Qed.
Lemma adj_connect_sym es : connect_sym (adj es).
Proof. by apply: sym_connect_sym; apply: adj_sym. Qed.

Lemma eq_adj es es' : es =i es' -> adj es =2 adj es'.
Proof. by move=> e u v; rewrite /adj !e. Qed.

Lemma acyclic_uniq es : acyclic es -> uniq es.
Proof.
move=> /allP ac; apply: contraT => nu.
have [e ee er] : exists2 e, e \in es & e \in rem e es.
  elim: es nu {ac} => //= e es IH; rewrite negb_and negbK; case/orP => [ee|/IH [f fe fr]].
    by exists e; rewrite ?mem_head ?eqxx.
  by exists f; [rewrite inE fe orbT|case: eqP => _; rewrite ?fe // inE fr orbT].
by have /negP[] := ac e ee; apply: connect1; rewrite /adj -surjective_pairing er.
Qed.

Lemma acyclic_noloop es e : acyclic es -> e \in es -> e.1 != e.2.
Proof. by move=> /allP ac /ac; apply: contraNneq => ->; apply: connect0. Qed.

Lemma acyclic_rev es u v : acyclic es -> (u, v) \in es -> (v, u) \notin es.
Proof.
move=> ac uv; have u0 := acyclic_uniq ac; apply/negP => vu.
have nl := acyclic_noloop ac uv.
move/allP: ac => /(_ _ uv)/negP[] /=; apply: connect1; rewrite /adj (mem_rem_uniq (u,v) u0 (v,u)) !inE vu.
by rewrite orbC xpair_eqE; case: eqP => //= e; rewrite e eqxx in nl.
Qed.

End Spec.
