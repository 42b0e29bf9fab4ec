(** * TreePar: the parent function of a spanning tree (pure mathematics, no model of code here). *)
From mathcomp Require Import all_ssreflect.
From Verif Require Import TreeSpec TreeLin.
Set Implicit Arguments. Unset Strict Implicit. Unset Printing Implicit Defensive.

Section Par.
Variables (n : nat) (T : seq ('I_n.+1 * 'I_n.+1)) (r : 'I_n.+1).
Notation V := 'I_n.+1.
Hypotheses (con : gconnected T) (acy : acyclic T).

Fixpoint reach (k : nat) (v : V) : bool := if k is k'.+1 then reach k' v || [exists u, adj T v u && reach k' u] else v == r.

Lemma reach_ex v : exists k, reach k v.
Proof.
have /connectP[p] : connect (adj T) v r by move/forallP: con => /(_ v)/forallP.
elim: p v => [|u p IH] v /= => [_ e|/andP[vu pp] le]; first by exists 0; rewrite /= e.
by have [k kP] := IH u pp le; exists k.+1; rewrite /=; apply/orP; right; apply/existsP; exists u; rewrite vu.
Qed.

Definition dist v := ex_minn (reach_ex v).
Lemma dist_reach v : reach (dist v) v. Proof. by rewrite /dist; case: ex_minnP. Qed.
Lemma dist_le k v : reach k v -> dist v <= k. Proof. by rewrite /dist; case: ex_minnP => d _ h /h. Qed.
Lemma dist0 v : dist v = 0 -> v = r. Proof. by move=> e; have := dist_reach v; rewrite e /= => /eqP. Qed.
Lemma dist_r : dist r = 0. Proof. by apply/eqP; rewrite -leqn0 dist_le /=. Qed.

Definition par v : V := if v == r then r else odflt r [pick u | adj T v u && (dist u < dist v)].

Lemma par_r : par r = r. Proof. by rewrite /par eqxx. Qed.
Lemma parP v : v != r -> adj T v (par v) /\ dist (par v) < dist v.
Proof.
move=> vr; rewrite /par (negbTE vr); case: pickP => [u /andP[]|h] //=.
have := dist_reach v; case e : (dist v) => [|k] /=; first by rewrite (negbTE vr).
case/orP => [/dist_le|/existsP[u /andP[vu /dist_le du]]]; first by rewrite e ltnn.
by have := h u; rewrite vu e ltnS du.
Qed.

Lemma par_neq v : v != r -> par v != v.
Proof. by move=> vr; have [_ h] := parP vr; apply: contraTneq h => ->; rewrite ltnn. Qed.

Lemma size_tree : size T = n.
Proof. by apply/eqP; have := tree_iff T; rewrite con acy. Qed.

Lemma par_edge u v : adj T u v -> (u != r /\ par u = v) \/ (v != r /\ par v = u).
Proof.
pose f w := if (w, par w) \in T then (w, par w) else (par w, w).
have fT w : w != r -> f w \in T.
  by move=> wr; have [] := parP wr; rewrite /f /adj; case: ifP.
have fi : {in [pred w | w != r] &, injective f}.
  move=> a b; rewrite !inE => ar br; have [_ da] := parP ar; have [_ db] := parP br.
  rewrite /f; case: ifP => _; case: ifP => _ [] // h1 h2.
    by rewrite h2 in da; rewrite -h1 in db; rewrite ltnNge (ltnW db) in da.
  by rewrite h1 in da; rewrite -h2 in db; rewrite ltnNge (ltnW db) in da.
pose s := [seq f w | w <- enum [pred w | w != r]].
have us : uniq s by rewrite map_inj_in_uniq ?enum_uniq // => a b; rewrite !mem_enum; apply: fi.
have sT : {subset s <= T} by move=> x /mapP[w]; rewrite mem_enum => wr ->; apply: fT.
have ss : size T <= size s.
  rewrite size_map -cardE size_tree.
  have -> : #|[pred w | w != r]| = #|predC1 r| by apply: eq_card => w; rewrite !inE.
  by rewrite cardC1 card_ord.
have [_ sE] := uniq_min_size us sT ss.
case/orP; rewrite -sE => /mapP[w]; rewrite mem_enum inE /f => wr; case: ifP => _ [-> ->].
- by left.
- by right.
- by right.
- by left.
Qed.

Lemma par_sub u : u != r -> adj T (par u) u.
Proof. by move=> ur; rewrite adj_sym; case: (parP ur). Qed.

(** induction along the parents *)
Lemma par_ind (P : V -> Prop) : P r -> (forall v, v != r -> P (par v) -> P v) -> forall v, P v.
Proof.
move=> P0 PS v; elim: {v}(dist v).+1 {-2}v (ltnSn (dist v)) => // k IH v; rewrite ltnS => dv.
have [->//|vr] := eqVneq v r; apply: PS => //; apply: IH; by have [_ h] := parP vr; apply: leq_trans dv.
Qed.

Lemma descend_aux v p : par v \notin p -> path (adj T) v p -> uniq (v :: p) -> path (fun a b => par b == a) v p.
Proof.
elim: p v => //= x p IH v; rewrite inE negb_or => /andP[vx vp] /andP[ax pp] /and3P[vN xN up].
have xE : par x = v by case: (par_edge ax) => -[_ h] //; rewrite h eqxx in vx.
rewrite xE eqxx; apply: IH; rewrite ?xE ?xN //; by move: vN; rewrite inE negb_or => /andP[].
Qed.

(** a path of the tree that leaves a set closed under parents goes down *)
Lemma descend (C : {set V}) w p : (forall v, v \in C -> par v \in C) -> w \in C ->
  path (adj T) w p -> uniq p -> all (fun v => v \notin C) p -> path (fun a b => par b == a) w p.
Proof.
move=> Cp wC pp up pC; apply: descend_aux => //=.
  by apply/negP => /(allP pC); rewrite Cp.
by rewrite up andbT; apply/negP => /(allP pC); rewrite wC.
Qed.
End Par.
