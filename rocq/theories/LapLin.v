(** * LapLin: Dirichlet problems for the Laplacian of a connected graph (pure mathematics, no model of code here). *)
From mathcomp Require Import all_ssreflect all_algebra.
From mathcomp.algebra_tactics Require Import ring.
Set Implicit Arguments. Unset Strict Implicit. Unset Printing Implicit Defensive.
Import Order.Theory GRing.Theory Num.Theory.
Local Open Scope ring_scope.

Section Lap.
Variables (R : rcfType) (n : nat) (g : rel 'I_n.+1).
Notation V := 'I_n.+1.
Hypotheses (gs : symmetric g) (gi : irreflexive g) (gc : forall u v, connect g u v).
Implicit Types (C : {set V}) (x : 'cV[R]_n.+1) (u v w : V).

Definition deg u : nat := #|g u|.
Definition lap x u : R := \sum_(v | g u v) (x u 0 - x v 0).
Lemma lapE x u : lap x u = (deg u)%:R * x u 0 - \sum_(v | g u v) x v 0.
Proof. by rewrite /lap sumrB sumr_const mulr_natl. Qed.

(** identity on C, Laplacian elsewhere *)
Definition M C : 'M[R]_n.+1 := \matrix_(u, v) if u \in C then (u == v)%:R else if u == v then (deg u)%:R else - (g u v)%:R.
Lemma ME C x u : (M C *m x) u 0 = if u \in C then x u 0 else lap x u.
Proof.
rewrite mxE; case: ifP => uC.
  rewrite (bigD1 u) //= !mxE uC eqxx mul1r big1 ?addr0 // => v vu; by rewrite !mxE uC eq_sym (negbTE vu) mul0r.
rewrite (bigD1 u) //= mxE uC eqxx lapE; congr (_ + _).
rewrite -sumrN [RHS]big_mkcond [RHS](bigD1 u) //= gi add0r; apply: eq_bigr => v vu.
by rewrite mxE uC eq_sym (negbTE vu); case: (g u v); rewrite ?mulN1r ?oppr0 ?mul0r.
Qed.

(** minimum principle *)
Lemma dir_ge0 C x : C != set0 -> (forall u, u \in C -> 0 <= x u 0) -> (forall u, u \notin C -> 0 <= lap x u) -> forall u, 0 <= x u 0.
Proof.
case/set0Pn => c cC xC xL.
have [u0 _ mn] := @Order.TotalTheory.arg_minP _ _ _ (ord0 : V) xpredT (fun u => x u 0) isT.
suff h : 0 <= x u0 0 by move=> u; apply: le_trans h (mn u isT).
rewrite leNgt; apply/negP => neg.
have cl u : x u 0 = x u0 0 -> forall v, g u v -> x v 0 = x u0 0.
  move=> xu v uv; have uC : u \notin C by apply/negP => /xC; rewrite xu leNgt neg.
  have := xL _ uC; rewrite /lap => h.
  have : \sum_(w | g u w) (x w 0 - x u 0) == 0.
    rewrite eq_le sumr_ge0 ?andbT => [|w _]; last by rewrite subr_ge0 xu mn.
    by rewrite -oppr_ge0 -sumrN; congr (_ <= _): h; apply: eq_bigr => w _; rewrite opprB.
  rewrite psumr_eq0 => [/allP/(_ v)|w _]; last by rewrite subr_ge0 xu mn.
  by rewrite mem_index_enum uv /= xu subr_eq0 => /(_ isT)/eqP.
have /connectP[p pp cE] := gc u0 c.
have st q : forall u, path g u q -> x u 0 = x u0 0 -> x (last u q) 0 = x u0 0.
  by elim: q => //= v q IH u /andP[uv pq] xu; apply: IH => //; apply: cl xu _ uv.
have := st p u0 pp erefl; rewrite -cE.
by move=> h; have := xC _ cC; rewrite h leNgt neg.
Qed.

Definition d C : R := \det (M C).

Lemma M_unit C : C != set0 -> M C \in unitmx.
Proof.
move=> C0; rewrite unitmxE unitfE; apply/negP; rewrite -det_tr => /det0P[v v0 vM].
have e : M C *m v^T = 0 by apply: trmx_inj; rewrite trmx_mul trmxK vM trmx0.
have z u : (M C *m v^T) u 0 = 0 by rewrite e mxE.
have ge (y : 'cV[R]_n.+1) : (forall u, (M C *m y) u 0 = 0) -> forall u, 0 <= y u 0.
  move=> y0; apply: (dir_ge0 C0) => u uC; have := y0 u; rewrite ME.
    by rewrite uC => ->.
  by rewrite (negbTE uC) => ->.
have h1 := ge _ z; have h2 : forall u, 0 <= (- v^T) u 0 by apply: ge => u; rewrite mulmxN e oppr0 mxE.
case/negP: v0; apply/eqP/rowP => u; rewrite [RHS]mxE; apply/eqP; rewrite eq_le.
have := h1 u; have := h2 u; by rewrite !mxE oppr_ge0 => -> ->.
Qed.

Lemma d_neq0 C : C != set0 -> d C != 0. Proof. by move/M_unit; rewrite unitmxE unitfE. Qed.

(** the probability of hitting y before C *)
Definition hit C y : 'cV[R]_n.+1 := invmx (M (y |: C)) *m delta_mx y 0.
Definition hitf C y v : R := hit C y v 0.

Lemma y_neq0 C y : y |: C != set0. Proof. by apply/set0Pn; exists y; rewrite !inE eqxx. Qed.

Lemma hit_eq C y : M (y |: C) *m hit C y = delta_mx y 0.
Proof. by rewrite mulKVmx // M_unit ?y_neq0. Qed.

Lemma hit_row C y u : (if u \in y |: C then hit C y u 0 else lap (hit C y) u) = (u == y)%:R.
Proof. by rewrite -ME hit_eq mxE eqxx andbT. Qed.

Lemma hit_y C y : hitf C y y = 1.
Proof. by have := hit_row C y y; rewrite !inE eqxx. Qed.
Lemma hit_C C y u : y \notin C -> u \in C -> hitf C y u = 0.
Proof.
move=> yC uC; have := hit_row C y u; rewrite !inE uC orbT; case: eqP => // uy.
by rewrite -uy uC in yC.
Qed.
Lemma hit_harm C y u : u \notin C -> u != y -> lap (hit C y) u = 0.
Proof. by move=> uC uy; have := hit_row C y u; rewrite !inE (negbTE uC) (negbTE uy). Qed.
Lemma hit_ge0 C y u : 0 <= hitf C y u.
Proof.
apply: (dir_ge0 (y_neq0 C y)) => v vC; have := hit_row C y v.
  by rewrite vC => ->; rewrite ler0n.
by rewrite (negbTE vC) => ->; rewrite ler0n.
Qed.
Lemma lapB (x : 'cV[R]_n.+1) v : lap (const_mx 1 - x) v = - lap x v.
Proof. by rewrite /lap -sumrN; apply: eq_bigr => w _; rewrite !mxE !opprB addrC addrA subrK. Qed.

Lemma hit_le1 C y u : hitf C y u <= 1.
Proof.
have : forall v, 0 <= (const_mx 1 - hit C y) v 0.
  apply: (dir_ge0 (y_neq0 C y)) => v vC; have := hit_row C y v.
    by rewrite vC !mxE => ->; rewrite subr_ge0 lern1 leq_b1.
  by rewrite (negbTE vC) lapB => ->; move: vC; rewrite !inE negb_or => /andP[/negbTE -> _]; rewrite oppr0.
have e (x : 'cV[R]_n.+1) : 0 <= (const_mx 1 - x) u 0 -> x u 0 <= 1 by rewrite !mxE subr_ge0.
by move/(_ u)/e.
Qed.

(** changing one row *)
Lemma d_step C y : C != set0 -> y \notin C -> d C = lap (hit C y) y * d (y |: C).
Proof.
move=> C0 yC; pose P := M C *m invmx (M (y |: C)).
have -> : d C = \det P * d (y |: C) by rewrite /d -det_mulmx mulmxKV // M_unit ?y_neq0.
congr (_ * _).
have rowP (u v : V) : u != y -> P u v = (u == v)%:R.
  move=> uy; have <- : (M (y |: C) *m invmx (M (y |: C))) u v = (u == v)%:R by rewrite mulmxV ?M_unit ?y_neq0 // mxE.
  by rewrite !mxE; apply: eq_bigr => w _; rewrite !mxE !inE (negbTE uy).
have yy : P y y = lap (hit C y) y.
  transitivity ((M C *m hit C y) y 0); first by rewrite /hit mulmxA -colE [RHS]mxE.
  by rewrite ME (negbTE yC).
clearbody P; rewrite (expand_det_col _ y) (bigD1 y) //= big1 ?addr0 => [|u uy]; last by rewrite rowP // (negbTE uy) mul0r.
rewrite yy /cofactor -signr_odd oddD addbb expr0 mul1r.
have -> : row' y (col' y P) = 1%:M.
  apply/matrixP => i j; rewrite !mxE rowP; last by rewrite eq_sym neq_lift.
  by rewrite (inj_eq lift_inj).
by rewrite det1 mulr1.
Qed.

Lemma d_setT : d setT = 1.
Proof. by rewrite /d; have -> : M setT = 1%:M; [apply/matrixP => i j; rewrite !mxE in_setT|rewrite det1]. Qed.

Lemma kappa_ge0 C y : 0 <= lap (hit C y) y.
Proof. by apply: sumr_ge0 => v _; have := hit_y C y; rewrite /hitf => ->; rewrite subr_ge0 hit_le1. Qed.

Lemma d_gt0 C : C != set0 -> 0 < d C.
Proof.
move=> C0; elim: {C}#|~: C| {-2}C (erefl #|~: C|) C0 => [|k IH] C Ck C0.
  by have -> : C = setT; [apply: setC_inj; rewrite setCT; apply/cards0_eq|rewrite d_setT ltr01].
have [y] : exists y, y \in ~: C by apply/set0Pn; rewrite -card_gt0 Ck.
rewrite inE => yC; rewrite lt_def d_neq0 //= (d_step C0 yC) mulr_ge0 ?kappa_ge0 // ltW // IH ?y_neq0 //.
apply/eqP; rewrite -eqSS -Ck [X in _ == X](cardsD1 y) inE yC add1n eqSS; apply/eqP; apply: eq_card => v.
by rewrite !inE negb_or.
Qed.

(** mean value properties *)
Lemma hit_mean C y u : u \notin C -> u != y -> (deg u)%:R * hitf C y u = \sum_(v | g u v) hitf C y v.
Proof. by move=> uC uy; apply/eqP; rewrite -subr_eq0 -lapE hit_harm. Qed.
Lemma hit_mean_y C y : C != set0 -> y \notin C -> (deg y)%:R * hitf C y y / d C = (\sum_(v | g y v) hitf C y v) / d C + (d (y |: C))^-1.
Proof.
move=> C0 yC; have e : (deg y)%:R * hitf C y y = (\sum_(v | g y v) hitf C y v) + lap (hit C y) y by rewrite lapE addrC subrK.
rewrite e mulrDl; congr (_ + _).
have k0 : lap (hit C y) y != 0 by have := d_neq0 C0; rewrite (d_step C0 yC) mulf_eq0 negb_or => /andP[].
by rewrite (d_step C0 yC) invfM mulrA divff ?mul1r.
Qed.

(** ** loop-erased random walk with target path y (see DESIGN.md, C57) *)
Fixpoint HH C (y gam : seq V) (z : V) : R :=
  if y is y0 :: y' then if gam is x0 :: gam' then
    if x0 == y0 then hitf C y0 z / d C + HH (y0 |: C) y' gam' z else 0
  else 0 else 0.

(** the loop-erased extension of a path *)
Definition ext (gam : seq V) (w : V) : seq V := if w \in gam then take (index w gam).+1 gam else rcons gam w.

Lemma HH_ge0 C y gam z : C != set0 -> 0 <= HH C y gam z.
Proof.
elim: y C gam => [|y0 y IH] C [|x0 gam] C0 //=; case: ifP => // _.
by rewrite addr_ge0 ?IH ?y_neq0 // divr_ge0 ?hit_ge0 // ltW // d_gt0.
Qed.

Lemma HH_nil C y z : HH C y [::] z = 0. Proof. by case: y. Qed.

Lemma HH_harm C (y : seq V) (c x0 : V) (gam : seq V) : c \in C -> uniq y -> all (fun v => v \notin C) y -> uniq (x0 :: gam) -> all (fun v => v \notin C) (x0 :: gam) ->
  (if y is y0 :: y' then path g y0 (rcons y' c) else true) ->
  let z := last x0 gam in
  (deg z)%:R * HH C y (x0 :: gam) z =
  \sum_(w | g z w) (if w \in C then ((y == x0 :: gam) && (w == c))%:R / d (C :|: [set v in y]) else HH C y (ext (x0 :: gam) w) w).
Proof.
elim: y C x0 gam => [|y0 y IH] C x0 gam cC uy yC ug gC py z.
  by rewrite /= mulr0 big1 // => w _; case: ifP => // _; rewrite mul0r.
have C0 : C != set0 by apply/set0Pn; exists c.
have hext w : exists t, ext (x0 :: gam) w = x0 :: t.
  by rewrite /ext; case: ifP => _ /=; [exists (take (index w (x0 :: gam)) gam)|exists (rcons gam w)].
rewrite [HH _ _ _ _]/=; case: eqP => [e|ne]; last first.
  rewrite mulr0 big1 // => w _; case: ifP => _.
    by rewrite eqseq_cons eq_sym; case: eqP => //= _; rewrite mul0r.
  by have [t ->] := hext w; rewrite /=; case: eqP.
case/andP: (yC) => y0C yC'; case/andP: uy => y0y uy; rewrite /z; clear z; rewrite e in ug gC hext *.
case: gam ug gC hext => [|x1 gam] ug gC hext.
  (* the walk stands at y0 *)
  rewrite [last _ _]/= HH_nil addr0 mulrA hit_mean_y //.
  have gt : g y0 (head c y) by move: py; case: (y) => [|y1 y'] /= /andP[].
  have S0 : C :|: [set v in [:: y0]] = y0 |: C by apply/setP => v; rewrite !inE orbC.
  transitivity (\sum_(w | g y0 w) (hitf C y0 w / d C + (w == head c y)%:R / d (y0 |: C))).
    rewrite big_split /= -big_distrl /=; congr (_ + _).
    by rewrite (bigD1 (head c y)) //= eqxx mul1r big1 ?addr0 // => w /andP[_ /negbTE ->]; rewrite mul0r.
  apply: eq_bigr => w gw; case: ifP => wC.
    rewrite hit_C // mul0r add0r; case: (y) yC' => [|y1 y'] /=; first by rewrite S0 eqxx.
    by case/andP => y1C _; rewrite !eqseq_cons andbF; case: eqP => [e1|_]; rewrite ?mul0r //; rewrite -e1 wC in y1C.
  have wy : w != y0 by apply: contraTneq gw => ->; rewrite gi.
  rewrite /ext inE (negbTE wy) [rcons _ _]/= [HH _ _ _ _]/= eqxx; congr (_ + _).
  case: (y) yC' => [|y1 y'] /=; first by move=> _; case: eqP => [e1|_]; rewrite ?mul0r //; rewrite e1 cC in wC.
  by move=> _; case: eqP => [->|_]; rewrite ?mul0r // hit_y HH_nil addr0.
(* elsewhere *)
set z := last _ _; have zE : z = last x1 gam by [].
have zy : z != y0.
  by case/andP: ug => h _; apply: contraNneq h => <-; rewrite /z /= mem_last.
have gC' : all (fun v => v \notin C) (x1 :: gam) by case/andP: gC.
have zC : z \notin C by apply: (allP gC'); rewrite zE mem_last.
have cC' : c \in y0 |: C by rewrite !inE cC orbT.
have all' (s : seq V) : y0 \notin s -> all (fun v => v \notin C) s -> all (fun v => v \notin y0 |: C) s.
  move=> ys /allP h; apply/allP => v vs; rewrite !inE negb_or h // andbT; by apply: contraNneq ys => <-.
case/andP: (ug) => y0g ug'.
have := IH (y0 |: C) x1 gam cC' uy (all' _ y0y yC') ug' (all' _ y0g gC').
rewrite -zE => IH'; rewrite mulrDr IH' => [{IH' IH}|]; last by case: (y) py => //= y1 y' /andP[].
rewrite mulrA hit_mean // big_distrl /= -big_split /=; apply: eq_bigr => w zw.
have S1 : y0 |: C :|: [set v in y] = C :|: [set v in y0 :: y].
  by apply/setP => v; rewrite !inE; case: (v == y0); case: (v \in C).
rewrite in_setU1 S1 eqseq_cons eqxx andTb.
have [wE|wy] := eqVneq w y0.
  rewrite wE (negbTE y0C) [_ || _]/=.
  have -> : ext [:: y0, x1 & gam] y0 = [:: y0] by rewrite /ext inE eqxx /= eqxx take0.
  have -> : (y0 == c) = false by apply: contraNF y0C => /eqP ->.
  by rewrite andbF mul0r /= eqxx HH_nil.
rewrite orFb; case: ifP => wC; first by rewrite hit_C // mul0r add0r.
have -> : ext [:: y0, x1 & gam] w = y0 :: ext (x1 :: gam) w.
  by rewrite /ext [w \in y0 :: _]inE (negbTE wy) orFb; case: ifP => // _; rewrite /= eq_sym (negbTE wy).
by rewrite /= eqxx.
Qed.
End Lap.
