(** * C35, C36: compute_ordering *)
From mathcomp Require Import all_ssreflect all_algebra.
From Verif Require Import OpeModel.
Set Implicit Arguments. Unset Strict Implicit. Unset Printing Implicit Defensive.

(** the largest component of a multi-index *)
Definition maxdeg (t : seq nat) : nat := \max_(x <- t) x.
(** the order: by largest component, then lexicographic *)
Fixpoint lexlt (t u : seq nat) : bool :=
  if t is x :: t' then if u is y :: u' then (x < y) || (x == y) && lexlt t' u' else false else false.
Definition before (t u : seq nat) : bool := (maxdeg t < maxdeg u) || (maxdeg t == maxdeg u) && lexlt t u.

Lemma lexlt_irr t : lexlt t t = false.
Proof. by elim: t => //= x t ->; rewrite ltnn eqxx. Qed.
Lemma lexlt_trans : transitive lexlt.
Proof.
elim=> [|y u IH] [|x t] // [|z v] //= /orP[xy|/andP[/eqP -> tu]] /orP[yz|/andP[/eqP <- uv]].
- by rewrite (ltn_trans xy yz).
- by rewrite xy.
- by rewrite yz.
- by rewrite eqxx (IH _ _ tu uv) orbT.
Qed.
Lemma before_irr : irreflexive before.
Proof. by move=> t; rewrite /before ltnn lexlt_irr andbF. Qed.
Lemma before_trans : transitive before.
Proof.
move=> u t v /orP[a|/andP[/eqP a1 a2]] /orP[b|/andP[/eqP b1 b2]]; rewrite /before.
- by rewrite (ltn_trans a b).
- by rewrite -b1 a.
- by rewrite a1 b.
- by rewrite a1 b1 eqxx (lexlt_trans a2 b2) orbT.
Qed.

Lemma mem_product l d t : (t \in product_repeat l d) = (size t == d) && all (fun x => x \in l) t.
Proof.
elim: d t => [|d IH] t; first by rewrite inE; case: t.
apply/allpairsP/idP => [[[x u] /= [xl ul ->]]|].
  by rewrite /= eqSS xl; move: ul; rewrite IH.
by case: t => [|x u] //= /andP[]; rewrite eqSS => su /andP[xl ul]; exists (x, u); rewrite /= IH su ul.
Qed.

Lemma sorted_cat_rel (T : eqType) (e : rel T) (s1 s2 : seq T) : transitive e -> sorted e s1 -> sorted e s2 ->
  (forall a b, a \in s1 -> b \in s2 -> e a b) -> sorted e (s1 ++ s2).
Proof.
move=> tr; elim: s1 => //= a s1 IH p1 so2 h.
rewrite (path_sortedE tr); apply/andP; split.
  rewrite all_cat; move: p1; rewrite (path_sortedE tr) => /andP[-> _] /=.
  by apply/allP => b b2; apply: h => //; rewrite mem_head.
by apply: IH => //; [exact: path_sorted p1|move=> c b cs; apply: h; rewrite inE cs orbT].
Qed.

Lemma pairs_sorted l (L : seq (seq nat)) : sorted ltn l -> sorted lexlt L -> sorted lexlt [seq x :: t | x <- l, t <- L].
Proof.
move=> sl sL; elim: l sl => //= x l IH sl.
apply: sorted_cat_rel => //.
- exact: lexlt_trans.
- elim: (L) sL => //= t [|u L'] //= IHL /andP[tu pu]; by rewrite eqxx ltnn tu IHL.
- by apply: IH; apply: path_sorted sl.
move=> a b /mapP[t _ ->] /allpairsP[[y u] /= [yl _ ->]] /=.
by have := order_path_min ltn_trans sl => /allP/(_ y yl) ->.
Qed.

Lemma product_sorted l d : sorted ltn l -> sorted lexlt (product_repeat l d).
Proof. by move=> so; elim: d => // d IH; apply: pairs_sorted. Qed.

Lemma maxdegP t m : all (fun x => x \in iota 0 m.+1) t = (maxdeg t <= m).
Proof.
rewrite /maxdeg; elim: t => [|x t IH]; first by rewrite big_nil.
by rewrite big_cons geq_max -IH -[LHS]/((x \in iota 0 m.+1) && _) mem_iota add0n ltnS.
Qed.

Lemma maxdeg_ge t x : x \in t -> x <= maxdeg t.
Proof. by move=> xt; rewrite /maxdeg (big_rem x xt) /= leq_maxl. Qed.
Lemma maxdeg_mem t : 0 < size t -> maxdeg t \in t.
Proof.
elim: t => //= x t IH _; rewrite /maxdeg big_cons inE; case: t IH => [|y t] IH; first by rewrite big_nil maxn0 eqxx.
by case: leqP => _; rewrite ?eqxx // IH // orbT.
Qed.

Lemma mem_layer d m t : 0 < d -> (t \in layer d m) = (size t == d) && (maxdeg t == m).
Proof.
move=> d0; rewrite mem_filter mem_product maxdegP; case: (altP (size t =P d)) => [st|_]; last by rewrite andbF.
rewrite /= eqn_leq andbC; case: (leqP (maxdeg t) m) => //= le.
apply/idP/idP => [/maxdeg_ge //|ge]; have -> : m = maxdeg t by apply/eqP; rewrite eqn_leq ge le.
by apply: maxdeg_mem; rewrite st.
Qed.

Definition layers (d n : nat) := flatten [seq layer d m | m <- iota 0 n].
Lemma layersS d n : layers d n.+1 = layers d n ++ layer d n.
Proof. by rewrite /layers -addn1 iotaD map_cat flatten_cat /= cats0 add0n. Qed.

Lemma mem_layers d n t : 0 < d -> (t \in layers d n) = (size t == d) && (maxdeg t < n).
Proof.
move=> d0; elim: n => [|n IH]; first by rewrite ltn0 andbF.
rewrite layersS mem_cat IH mem_layer // -andb_orr; congr (_ && _).
by rewrite [RHS]ltnS [RHS]leq_eqVlt orbC.
Qed.

Lemma layers_sorted d n : 0 < d -> sorted before (layers d n).
Proof.
move=> d0; elim: n => // n IH; rewrite layersS; apply: sorted_cat_rel => //; first exact: before_trans.
- have so : sorted lexlt (layer d n) by apply: sorted_filter; [exact: lexlt_trans|apply: product_sorted; exact: iota_ltn_sorted].
  apply: (@sub_in_sorted _ [pred t | t \in layer d n] lexlt before) so; last by apply/allP.
  move=> t u; rewrite !inE !mem_layer // => /andP[_ /eqP tn] /andP[_ /eqP un] h.
  by rewrite /before tn un eqxx h orbT.
- by move=> t u; rewrite mem_layers // mem_layer // => /andP[_ tn] /andP[_ /eqP un]; rewrite /before un tn.
Qed.

Lemma layers_uniq d n : 0 < d -> uniq (layers d n).
Proof. by move=> d0; apply: (sorted_uniq before_trans before_irr); apply: layers_sorted. Qed.

Lemma size_product l d : size (product_repeat l d) = size l ^ d.
Proof. by elim: d => //= d IH; rewrite size_allpairs IH expnS. Qed.

Lemma size_layers d n : 0 < d -> size (layers d n.+1) = n.+1 ^ d.
Proof.
move=> d0; rewrite -[in RHS](size_iota 0 n.+1) -size_product; apply: perm_size; apply: uniq_perm.
- exact: layers_uniq.
- by apply: (sorted_uniq lexlt_trans lexlt_irr); apply: product_sorted; apply: iota_ltn_sorted.
by move=> t; rewrite mem_layers // mem_product maxdegP ltnS.
Qed.

Lemma ordering_take fl N d : fl < 32768 -> compute_ordering fl N d = take N (layers d fl.+1).
Proof.
by move=> f; rewrite /compute_ordering /int16 modn_small ?f //; apply: leq_trans f _.
Qed.

(** the listed multi-indices precede all the others *)
Lemma ordering_closed fl N d t u : 0 < d -> N <= fl.+1 ^ d -> fl < 32768 -> t \in compute_ordering fl N d ->
  size u = d -> before u t -> u \in compute_ordering fl N d.
Proof.
move=> d0 Nf f32; rewrite ordering_take //; set L := layers d fl.+1 => tL su but.
have sL : size L = fl.+1 ^ d by apply: size_layers.
have so : sorted before L by apply: layers_sorted.
have tL' := mem_take tL.
have uL : u \in L.
  rewrite mem_layers // su eqxx /=; move: tL'; rewrite mem_layers // => /andP[_]; apply: leq_ltn_trans.
  by case/orP: but => [/ltnW //|/andP[/eqP -> _]].
have NL : N <= size L by rewrite sL.
move: tL; rewrite !in_take_leq //; apply: leq_ltn_trans; rewrite leqNgt; apply/negP => h.
by have := before_trans but (sorted_ltn_index before_trans so _ _ tL' uL h); rewrite before_irr.
Qed.

(** C35, for every floating point value [fl] of floor(N^(1/d)) such that N <= (fl+1)^d (so an error of one unit when N is
    a perfect power is covered) *)
Theorem C35_ordering fl N d : 0 < N -> 0 < d -> N <= fl.+1 ^ d -> fl < 32768 ->
  let o := compute_ordering fl N d in
  [/\ size o = N, uniq o, all (fun t => size t == d) o, head [::] o = nseq d 0 &
      sorted (fun t u => maxdeg t <= maxdeg u) o /\
      (forall t u, t \in o -> size u = d -> maxdeg u < maxdeg t -> u \in o)].
Proof.
move=> N0 d0 Nf f32 /=; have cl := @ordering_closed fl N d.
rewrite ordering_take // in cl *; set L := layers d fl.+1 in cl *.
have sL : size L = fl.+1 ^ d by apply: size_layers.
have so : sorted before L by apply: layers_sorted.
have eL : forall t, t \in L = (size t == d) && (maxdeg t < fl.+1) by move=> t; apply: mem_layers.
split.
- by rewrite size_takel // sL.
- by apply: take_uniq; apply: layers_uniq.
- by apply/allP => t /mem_take; rewrite eL => /andP[].
- have l0 : layer d 0 = [:: nseq d 0].
    have -> : layer d 0 = [seq t <- [:: nseq d 0] | 0 \in t].
      by rewrite /layer; congr filter; elim: (d) => //= d' ->.
    by rewrite /= mem_nseq d0 eqxx.
  have -> : L = nseq d 0 :: behead L by rewrite /L /layers /= l0.
  by case: (N) N0.
- have st : sorted before (take N L) by apply: take_sorted.
  split; first by apply: sub_sorted st => t u; rewrite /before => /orP[/ltnW //|/andP[/eqP -> _]].
  by move=> t u tL su mu; apply: cl tL su _ => //; rewrite /before mu.
Qed.

(** C35: and, with the ties broken lexicographically, the order is total: the list is the increasing enumeration of the N
    first multi-indices *)
Theorem C35_first fl N d : 0 < d -> N <= fl.+1 ^ d -> fl < 32768 ->
  let o := compute_ordering fl N d in
  sorted before o /\ (forall t u, t \in o -> size u = d -> before u t -> u \in o).
Proof.
move=> d0 Nf f32 o; split; last by move=> t u; apply: ordering_closed.
by rewrite /o ordering_take //; apply: take_sorted; apply: layers_sorted.
Qed.
Theorem C35_total t u : size t = size u -> [|| before t u, t == u | before u t].
Proof.
rewrite /before; case: (ltngtP (maxdeg t) (maxdeg u)) => //= _ s; first by rewrite orbT.
elim: t u s => [|x t IH] [|y u] //= [s]; rewrite eqseq_cons; case: (ltngtP x y) => //= _.
exact: IH.
Qed.

(** the degrees used to evaluate the polynomials are those of the multi-indices *)
Theorem C35_degrees o t j : t \in o -> degrees_1D o (nth 0 t j) j = nth 0 t j.
Proof.
move=> tO; rewrite /degrees_1D ltnNge; have -> : nth 0 t j <= max_degrees o j.
  by rewrite /max_degrees (big_rem t tO) /= leq_maxl.
by [].
Qed.

(** C36: exact roots, no overflow *)
Theorem C36_no_overflow_partial fl N d : 0 < N -> 0 < d -> fl ^ d <= N < fl.+1 ^ d -> N < 32768 ^ d ->
  let o := compute_ordering fl N d in size o = N /\ sorted before o /\
  (forall t u, t \in o -> size u = d -> before u t -> u \in o).
Proof.
move=> N0 d0 /andP[lo hi] Nb o.
have f32 : fl < 32768 by rewrite -(ltn_exp2r _ _ d0); apply: leq_ltn_trans Nb.
have [s _ _ _ _] := C35_ordering N0 d0 (ltnW hi) f32.
by split=> //; apply: C35_first => //; apply: ltnW.
Qed.

(** C36 is false: int16 wraps; in dimension 1 with 32768 <= N < 65536 the list is empty *)
Theorem C36_overflow_refuted N : 32768 <= N < 65536 ->
  N ^ 1 <= N < N.+1 ^ 1 /\ compute_ordering N N 1 = [::].
Proof.
move=> /andP[lo hi]; rewrite !expn1 leqnn ltnSn; split=> //.
rewrite /compute_ordering /int16 modn_small // ltnNge lo /=.
case e : (N%:Z - 65536%:Z)%R => [m|m] //; exfalso.
have : (N%:Z - 65536%:Z < 0)%R by rewrite Num.Theory.subr_lt0.
by rewrite e.
Qed.

Example C35_instance : compute_ordering 3 12 2 =
  [:: [:: 0; 0]; [:: 0; 1]; [:: 1; 0]; [:: 1; 1]; [:: 0; 2]; [:: 1; 2]; [:: 2; 0]; [:: 2; 1]; [:: 2; 2]; [:: 0; 3]; [:: 1; 3]; [:: 2; 3]].
Proof. by []. Qed.
