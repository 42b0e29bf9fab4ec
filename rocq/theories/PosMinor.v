(** * PosMinor: the sets of positive minors of a positive semidefinite matrix are the independent sets of a matroid *)
From mathcomp Require Import all_ssreflect all_algebra.
From mathcomp.algebra_tactics Require Import ring.
From Verif Require Import Prob Minor Chain ChainCons ProjAll GenKernel Spectral McmcModel Mcmc P_Gen P_Mcmc.
Set Implicit Arguments. Unset Strict Implicit. Unset Printing Implicit Defensive.
Import Order.Theory GRing.Theory Num.Theory.
Local Open Scope ring_scope.

Section Pos.
Variables (R : rcfType) (N : nat) (L : 'M[R]_N).
Hypothesis PL : is_psd L.
Implicit Types (v w u : 'cV[R]_N) (S T : {set 'I_N}).

Lemma alg1 (t x q : R) : 0 + t * x + (t * x + q) = q + 2%:R * t * x. Proof. by ring. Qed.
Lemma alg2 (a b : R) : a + 1 != 0 -> (- (b / (a + 1))) ^+ 2 * a + 2%:R * (- (b / (a + 1))) * b = - ((b / (a + 1)) ^+ 2 * (a + 2%:R)).
Proof. by move=> h; field. Qed.

Lemma psd_ker v : (v^T *m L *m v) 0 0 = 0 -> L *m v = 0.
Proof.
move: PL => [sL bL] z; set u := L *m v.
have ad (A B : 'M[R]_1) : (A + B) 0 0 = A 0 0 + B 0 0 by rewrite mxE.
have sm (c : R) (A : 'M[R]_1) : (c *: A) 0 0 = c * A 0 0 by rewrite mxE.
have sc t : 0 <= t ^+ 2 * (u^T *m L *m u) 0 0 + 2%:R * t * (u^T *m u) 0 0.
  have := bL (v + t *: u).
  have -> : (v + t *: u)^T = v^T + t *: u^T by rewrite linearD linearZ.
  rewrite !mulmxDl !mulmxDr.
  have -> : (v^T *m L *m (t *: u)) = t *: (u^T *m u) by rewrite -scalemxAr /u trmx_mul sL.
  have -> : ((t *: u^T) *m L *m v) = t *: (u^T *m u) by rewrite -!scalemxAl /u -mulmxA.
  have -> : ((t *: u^T) *m L *m (t *: u)) = (t * t) *: (u^T *m L *m u) by rewrite -!scalemxAl -scalemxAr scalerA.
  by rewrite !ad !sm z -expr2 alg1.
have uu : 0 <= (u^T *m u) 0 0 by rewrite mxE; apply: sumr_ge0 => i _; rewrite mxE -expr2 sqr_ge0.
have u0 : (u^T *m u) 0 0 = 0.
  apply/eqP; rewrite eq_le uu andbT leNgt; apply/negP => p.
  set a := (u^T *m L *m u) 0 0 in sc; set b := (u^T *m u) 0 0 in sc p uu.
  have a0 : 0 <= a by exact: bL.
  have := sc (- (b / (a + 1))); rewrite leNgt => /negP; apply.
  have a1 : 0 < a + 1 by rewrite ltr_paddl ?ltr01.
  rewrite alg2 ?lt0r_neq0 //.
  by rewrite oppr_lt0 mulr_gt0 ?exprn_gt0 ?divr_gt0 // ltr_paddl ?ltr0n.
apply/colP => i; rewrite [RHS]mxE; apply/eqP; rewrite -sqrf_eq0; apply/eqP.
move: u0; rewrite mxE => /eqP; rewrite psumr_eq0; last by move=> k _; rewrite mxE -expr2 sqr_ge0.
by move=> /allP /(_ i (mem_index_enum i)) /=; rewrite mxE -expr2 => /eqP.
Qed.

Definition supp v S : Prop := forall i, i \notin S -> v i 0 = 0.
Definition indep S : Prop := forall v, supp v S -> L *m v = 0 -> v = 0.

Section Sel.
Variable S : {set 'I_N}.
Let js := enum S.
Definition selm : 'M[R]_(size js, N) := \matrix_(a, i) (tnth (in_tuple js) a == i)%:R.

Lemma selm_minor : mxsub (tnth (in_tuple js)) (tnth (in_tuple js)) L = selm *m L *m selm^T.
Proof.
apply/matrixP => a b; rewrite !mxE (bigD1 (tnth (in_tuple js) b)) //= big1 => [|k /negbTE kb].
  rewrite addr0 !mxE eqxx mulr1 (bigD1 (tnth (in_tuple js) a)) //= big1 => [|k /negbTE ka].
    by rewrite addr0 !mxE eqxx mul1r.
  by rewrite !mxE eq_sym ka mul0r.
by rewrite !mxE eq_sym kb mulr0.
Qed.

Lemma selm_unit : selm *m selm^T = 1%:M.
Proof.
apply/matrixP => a b; rewrite !mxE (bigD1 (tnth (in_tuple js) a)) //= big1 => [|k /negbTE ka].
  rewrite addr0 !mxE eqxx mul1r; congr (_%:R); rewrite eq_sym.
  have x0 : 'I_N := tnth (in_tuple js) a.
  by rewrite !(tnth_nth x0) nth_uniq //; exact: enum_uniq.
by rewrite !mxE eq_sym ka mul0r.
Qed.

Lemma selm_supp v : supp v S -> selm^T *m (selm *m v) = v.
Proof.
move=> sv; apply/colP => i; rewrite !mxE.
have row a : (selm *m v) a 0 = v (tnth (in_tuple js) a) 0.
  rewrite mxE (bigD1 (tnth (in_tuple js) a)) //= big1 => [|k /negbTE ka]; first by rewrite addr0 mxE eqxx mul1r.
  by rewrite mxE eq_sym ka mul0r.
have [iS|nS] := boolP (i \in S).
  have ij : (index i js < size js)%N by rewrite index_mem mem_enum.
  rewrite (bigD1 (Ordinal ij)) //= big1 => [|k kb].
    by rewrite addr0 row !mxE (tnth_nth i) nth_index ?mem_enum // eqxx mul1r.
  rewrite !mxE; case: eqP => [e|]; last by rewrite mul0r.
  case/negP: kb; apply/eqP/val_inj => /=; rewrite -e (tnth_nth i) index_uniq ?enum_uniq //.
rewrite sv // big1 // => k _; rewrite !mxE; case: eqP => [e|]; last by rewrite mul0r.
by case/negP: nS; rewrite -e -mem_enum mem_tnth.
Qed.

Lemma supp_selm (w : 'cV[R]_(size js)) : supp (selm^T *m w) S.
Proof.
move=> i nS; rewrite !mxE big1 // => k _; rewrite !mxE; case: eqP => [e|]; last by rewrite mul0r.
by case/negP: nS; rewrite -e -mem_enum mem_tnth.
Qed.
End Sel.

Lemma indepP S : indep S <-> 0 < pmS L S.
Proof.
rewrite lt_neqAle eq_sym (psd_minors S PL) andbT /pmS /pm selm_minor; split.
  move=> h; apply/negP => /det0P[w nw wM]; move/negP: nw; apply; apply/eqP.
  have e : (selm S)^T *m w^T = 0.
    apply: h; first exact: supp_selm.
    apply: psd_ker; rewrite trmx_mul !trmxK.
    have -> : w *m selm S *m L *m ((selm S)^T *m w^T) = w *m (selm S *m L *m (selm S)^T) *m w^T by rewrite !mulmxA.
    by rewrite wM mul0mx mxE.
  by apply: trmx_inj; rewrite trmx0 -[LHS]mul1mx -selm_unit -mulmxA e mulmx0.
move=> nz v sv Lv; apply/eqP; apply: contraR nz => nv.
apply/det0P; exists (selm S *m v)^T.
  apply: contraNneq nv => e; rewrite -(selm_supp sv) (_ : selm S *m v = 0) ?mulmx0 //.
  by apply: trmx_inj; rewrite e trmx0.
have [sL _] := PL; apply: trmx_inj; rewrite trmx_mul trmxK !trmx_mul trmxK sL trmx0 -!mulmxA.
by rewrite [(selm S)^T *m _]selm_supp // Lv mulmx0.
Qed.

Lemma pos_sub S T : S \subset T -> 0 < pmS L T -> 0 < pmS L S.
Proof. by move=> st /indepP h; apply/indepP => v sv; apply: h => i iT; apply: sv; apply: contraNN iT; exact: (subsetP st). Qed.

Lemma pos0 : 0 < pmS L set0.
Proof. by rewrite /pmS /pm enum_set0 det_mx00 ltr01. Qed.

(** basis exchange *)
Lemma pos_exchange S T t : #|S| = #|T| -> 0 < pmS L S -> 0 < pmS L T -> t \in T -> t \notin S ->
  exists x, [/\ x \in S, x \notin T & 0 < pmS L (t |: (S :\ x))].
Proof.
move=> cST /indepP iS /indepP iT tT tS.
have [p|] := boolP (0 < pmS L (t |: S)).
  have : exists x, (x \in S) && (x \notin T).
    have : ~~ (S \subset T).
      apply/negP => st; have e : S == T by rewrite eqEcard st cST leqnn.
      by rewrite (eqP e) tT in tS.
    by case/subsetPn => x xS xT; exists x; rewrite xS.
  case=> x /andP[xS xT]; exists x; split=> //; apply: pos_sub p; apply: setUS; exact: subD1set.
move=> np; have : exists2 v, supp v (t |: S) & L *m v = 0 /\ v != 0.
  have np' : pmS L (t |: S) == 0 by rewrite eq_le leNgt np psd_minors.
  move: np'; rewrite /pmS /pm selm_minor => /det0P[w nw wM].
  exists ((selm (t |: S))^T *m w^T); first exact: supp_selm.
  split.
    apply: psd_ker; rewrite trmx_mul !trmxK.
    have -> : w *m selm (t |: S) *m L *m ((selm (t |: S))^T *m w^T) = w *m (selm (t |: S) *m L *m (selm (t |: S))^T) *m w^T by rewrite !mulmxA.
    by rewrite wM mul0mx mxE.
  apply: contraNneq nw => e; apply/eqP/trmx_inj; by rewrite trmx0 -[LHS]mul1mx -(selm_unit (t |: S)) -mulmxA e mulmx0.
case=> v sv [Lv nv].
have vt : v t 0 != 0.
  apply/negP => /eqP z; case/negP: nv; apply/eqP/iS => // i iS'.
  have [->//|it] := eqVneq i t; by apply: sv; rewrite !inE negb_or it.
have [x xS /andP[xT vx]] : exists2 x, x \in S & (x \notin T) && (v x 0 != 0).
  have [/existsP[x /and3P[a b c]]|] := boolP [exists x, [&& x \in S, x \notin T & v x 0 != 0]]; first by exists x; rewrite // b.
  rewrite negb_exists => /forallP h; case/negP: nv; apply/eqP/iT => // i iT'.
  have [iS'|iS'] := boolP (i \in S); first by have := h i; rewrite iS' iT' /= negbK => /eqP.
  apply: sv; rewrite !inE negb_or iS' andbT; apply: contraNneq iT' => ->; exact: tT.
exists x; split=> //; apply/indepP => w sw Lw.
have xt : x != t by apply: contraNneq tS => <-.
have w0 : w - (w t 0 / v t 0) *: v = 0.
  apply: iS; last by rewrite mulmxBr -scalemxAr Lw Lv scaler0 subr0.
  move=> i iS'; rewrite !mxE; have [->|it] := eqVneq i t; first by rewrite divfK // subrr.
  have vi : v i 0 = 0 by apply: sv; rewrite !inE negb_or it.
  have wi : w i 0 = 0 by apply: sw; rewrite !inE negb_or it negb_and iS' orbT.
  by rewrite vi wi mulr0 subr0.
have wE : w = (w t 0 / v t 0) *: v by apply/eqP; rewrite -subr_eq0 w0.
have wx : w x 0 = 0 by apply: sw; rewrite !inE eqxx (negbTE xt).
move: wx; rewrite {1}wE mxE => /eqP; rewrite mulf_eq0 (negbTE vx) orbF => /eqP c0.
by rewrite wE c0 scale0r.
Qed.
End Pos.
