(** * AbLaw: walks, first-entrance edges and the stationary law of rooted spanning trees (see DESIGN.md, C58). *)
From mathcomp Require Import all_ssreflect all_algebra.
From Verif Require Import Prob McmcModel Mcmc Finite TreeSpec TreeLin TreePar TreeModel P_Ust LapLin LapTree LoopTerm WilsonInv WilsonLaw.
Set Implicit Arguments. Unset Strict Implicit. Unset Printing Implicit Defensive.
Import Order.Theory GRing.Theory Num.Theory.
Local Open Scope ring_scope.

Section Walk.
Variables (R : rcfType) (n : nat) (g : rel 'I_n.+1).
Notation V := 'I_n.+1.
Hypotheses (gs : symmetric g) (gi : irreflexive g) (gc : forall u v, connect g u v).
Implicit Types (u v w x : V) (p : seq V).

(** expectation of F over the simple random walk of L steps from u *)
Fixpoint wE (L : nat) u (F : seq V -> R) : R :=
  if L is L'.+1 then (deg g u)%:R^-1 * \sum_(w | g u w) wE L' w (fun p => F (w :: p)) else F [::].

Lemma wE_le L u F G : (forall p, path g u p -> F p <= G p) -> wE L u F <= wE L u G.
Proof.
elim: L u F G => [|L IH] u F G h /=; first exact: h.
rewrite ler_wpmul2l ?invr_ge0 ?ler0n // ler_sum // => w gw; apply: IH => p pp; apply: h; by rewrite /= gw.
Qed.
Lemma wE_sum L u (I : finType) (P : pred I) (F : I -> seq V -> R) :
  wE L u (fun p => \sum_(i | P i) F i p) = \sum_(i | P i) wE L u (F i).
Proof.
elim: L u F => [|L IH] u F //=; rewrite -big_distrr /=; congr (_ * _).
rewrite exchange_big /=; apply: eq_bigr => w _; exact: IH.
Qed.
Lemma wE_scale L u c F : wE L u (fun p => c * F p) = c * wE L u F.
Proof.
elim: L u F => [|L IH] u F //=; rewrite mulrCA; congr (_ * _); rewrite big_distrr /=; apply: eq_bigr => w _; exact: IH.
Qed.
Lemma wE_const L u c : (forall v, (0 < deg g v)%N) -> wE L u (fun=> c) = c.
Proof.
move=> d0; elim: L u => [|L IH] u //=; under eq_bigr do rewrite IH.
have -> : \sum_(i | g u i) c = (deg g u)%:R * c by rewrite sumr_const -[LHS]mulr_natl.
by rewrite mulrA mulVf ?mul1r // pnatr_eq0 -lt0n.
Qed.
Lemma eq_wE L u F G : F =1 G -> wE L u F = wE L u G.
Proof.
elim: L u F G => [|L IH] u F G h //=; congr (_ * _); apply: eq_bigr => w _; apply: IH => p; exact: h.
Qed.

(** rooted trees as parent functions *)
Definition rtree r (pi : {ffun V -> V}) : bool :=
  [&& pi r == r, [forall v, (v != r) ==> g v (pi v)] & [forall v, fconnect pi v r]].
(** moving the root from w to its neighbour r *)
Definition mv r w (pi : {ffun V -> V}) : {ffun V -> V} := [ffun v => if (v == r) || (v == w) then r else pi v].

Lemma mv_rtree r w pi : g r w -> rtree w pi -> rtree r (mv r w pi).
Proof.
move=> grw /and3P[/eqP pw /forallP pg /forallP pc].
have wr : w != r by apply: contraTneq grw => ->; rewrite gi.
apply/and3P; split; first by rewrite ffunE eqxx.
  apply/forallP => v; apply/implyP => vr; rewrite ffunE (negbTE vr) /=; case: eqP => [->|/eqP vw]; first by rewrite gs.
  by have := pg v; rewrite vw.
apply/forallP => v; have /iter_findex := pc v; move: (findex _ _ _) => k.
have fr u : (u == r) || (u == w) -> fconnect (mv r w pi) u r.
  by move=> h; apply: connect1; rewrite /= ffunE h.
elim: k v => [|k IH] v; first by move=> /= ->; apply: fr; rewrite eqxx orbT.
rewrite iterSr => /IH h; case h' : ((v == r) || (v == w)); first exact: fr.
apply: connect_trans h; apply: connect1; by rewrite /= ffunE h'.
Qed.

(** the preimages of a rooted tree under [mv] are determined by the parent of the new root *)
Lemma mv_inj r w w' (pi pi' : {ffun V -> V}) : g r w -> g r w' -> rtree w pi -> rtree w' pi' ->
  mv r w pi = mv r w' pi' -> pi r = pi' r -> w = w' /\ pi = pi'.
Proof.
move=> grw grw' t t' e er.
have key x (q : {ffun V -> V}) : g r x -> rtree x q -> exists k, [/\ iter k (mv r x q) (q r) = x &
    forall j, (j <= k)%N -> iter j (mv r x q) (q r) != r].
  move=> grx /and3P[/eqP qx /forallP qg /forallP qc].
  have xr : x != r by apply: contraTneq grx => ->; rewrite gi.
  (* first time the iterates of q from r reach x *)
  have /iter_findex := qc r; set K := findex _ _ _ => KE.
  have ex : exists k, iter k q r == x by exists K; rewrite KE.
  case: (ex_minnP ex) => k /eqP kE kmin.
  case: k kE kmin => [/= e0|k kE kmin]; first by rewrite e0 eqxx in xr.
  have off j : (0 < j)%N -> (j <= k.+1)%N -> iter j q r != r.
    move=> j0 jk; apply/negP => /eqP jr.
    have := kmin (k.+1 - j)%N; have -> : iter (k.+1 - j) q r = x.
      by rewrite -kE -{2}(subnK jk) iterD jr.
    by rewrite eqxx => /(_ isT); rewrite ltnNge leq_subLR -add1n leq_add2r j0.
  have it j : (j <= k)%N -> iter j (mv r x q) (q r) = iter j.+1 q r.
    elim: j => // j IH jk; rewrite iterS IH ?(ltnW jk) // [RHS]iterS /mv ffunE.
    rewrite (negbTE (off j.+1 isT (ltnW jk))) /=; case: eqP => // ex'.
    by move/eqP: ex' => /(kmin j.+1); rewrite ltnS leqNgt jk.
  exists k; split; first by rewrite it.
  by move=> j jk; rewrite it //; apply: off.
have [k [kx kr]] := key _ _ grw t; have [k' [kx' kr']] := key _ _ grw' t'.
have kw : iter k.+1 (mv r w pi) (pi r) = r by rewrite iterS kx ffunE eqxx orbT.
have kw' : iter k'.+1 (mv r w' pi') (pi' r) = r by rewrite iterS kx' ffunE eqxx orbT.
have kk : k = k'.
  apply/eqP; rewrite eqn_leq; apply/andP; split; rewrite leqNgt; apply/negP => lt.
    by have := kr _ lt; rewrite e er kw' eqxx.
  by have := kr' _ lt; rewrite -e -er kw eqxx.
have ww : w = w' by rewrite -kx -kx' -kk e er.
split=> //; subst w'; apply/ffunP => v.
have [->//|vr] := eqVneq v r.
have [->|vw] := eqVneq v w; first by case/and3P: t => /eqP -> _ _; case/and3P: t' => /eqP -> _ _.
by move/ffunP/(_ v): e; rewrite !ffunE (negbTE vr) (negbTE vw).
Qed.

(** first-entrance parents along the walk x :: q, with default pi0 *)
Definition fe (pi0 : {ffun V -> V}) x (q : seq V) : {ffun V -> V} :=
  [ffun v => if v == x then x else if v \in q then nth x (x :: q) (index v q) else pi0 v].

Lemma fe_nil pi0 x : rtree x pi0 -> fe pi0 x [::] = pi0.
Proof. by move=> /and3P[/eqP e _ _]; apply/ffunP => v; rewrite ffunE; case: eqP => // ->. Qed.
Lemma fe_cons pi0 r w q : fe pi0 r (w :: q) = mv r w (fe pi0 w q).
Proof.
apply/ffunP => v; rewrite !ffunE; case: eqP => //= vr; rewrite inE [w == v]eq_sym; case: eqP => //= vw.
by case: ifP => // vq; rewrite (set_nth_default w) // ltnS ltnW // index_mem.
Qed.
Lemma fe_rtree pi0 x q : path g x q -> rtree (last x q) pi0 -> rtree x (fe pi0 x q).
Proof.
elim: q x => [|w q IH] x /=; first by move=> _ t; rewrite fe_nil.
by case/andP=> gw pq t; rewrite fe_cons mv_rtree // IH.
Qed.

(** the stationary bound *)
Lemma stationary L r pi : wE L r (fun p => \sum_(pi0 | rtree (last r p) pi0) (fe pi0 r p == pi)%:R) <= 1.
Proof.
elim: L r pi => [|L IH] r pi.
  rewrite /wE [last _ _]/=; have h pi0 : rtree r pi0 -> (fe pi0 r [::] == pi)%:R = (pi0 == pi)%:R :> R by move=> t; rewrite fe_nil.
  rewrite (eq_bigr _ h) big_mkcond (bigD1 pi) //= eqxx big1 ?addr0 => [|q /negbTE ->]; last by case: ifP.
  by case: ifP; rewrite ?ler01.
rewrite [wE _ _ _]/=.
have [d0|d0] := posnP (deg g r).
  by rewrite d0 invr0 mul0r ler01.
rewrite ler_pdivr_mull ?ltr0n // mulr1.
have step w : g r w -> wE L w (fun p => \sum_(pi0 | rtree (last w p) pi0) (fe pi0 r (w :: p) == pi)%:R) <=
    \sum_(pi1 | rtree w pi1 && (mv r w pi1 == pi)) 1.
  move=> gw; apply: le_trans (_ : wE L w (fun p => \sum_(pi1 | rtree w pi1 && (mv r w pi1 == pi))
     \sum_(pi0 | rtree (last w p) pi0) (fe pi0 w p == pi1)%:R) <= _); last first.
    by rewrite wE_sum; apply: ler_sum => pi1 _; apply: IH.
  apply: wE_le => p pp; rewrite exchange_big /=; apply: ler_sum => pi0 t0; rewrite fe_cons.
  case: eqP => h; last by apply: sumr_ge0 => q _; rewrite ler0n.
  rewrite (bigD1 (fe pi0 w p)) ?fe_rtree ?h ?eqxx //= ler_addl; apply: sumr_ge0 => q _; by rewrite ler0n.
apply: (@le_trans _ _ (\sum_(w | g r w) \sum_(pi1 : {ffun V -> V} | rtree w pi1 && (mv r w pi1 == pi)) 1)).
  by apply: ler_sum => w; apply: step.
rewrite pair_big_dep /= sumr_const ler_nat.
pose A := [pred i : V * {ffun V -> V} | g r i.1 && (rtree i.1 i.2 && (mv r i.1 i.2 == pi))].
have inj : {in A &, injective (fun i : V * {ffun V -> V} => i.2 r)}.
  move=> [w q] [w' q'] /and3P[/= g1 t1 /eqP e1] /and3P[/= g2 t2 /eqP e2] er.
  by have [-> ->] := mv_inj g1 g2 t1 t2 (etrans e1 (esym e2)) er.
rewrite -(card_in_imset inj); apply: subset_leq_card; apply/subsetP => v /imsetP[[w q] /and3P[/= g1 t1 _] ->].
case/and3P: t1 => _ /forallP/(_ r); rewrite implybE => /orP[|] //.
by rewrite negbK => /eqP e; rewrite -e gi in g1.
Qed.
End Walk.
