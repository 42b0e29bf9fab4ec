(** * C37, C38, C70, C71: the Bless algorithm *)
From mathcomp Require Import all_ssreflect all_algebra.
From mathcomp.algebra_tactics Require Import ring.
From Verif Require Import Prob BlessModel.
Set Implicit Arguments. Unset Strict Implicit. Unset Printing Implicit Defensive.
Import Order.Theory GRing.Theory Num.Theory.
Local Open Scope ring_scope.

Section Spec.
Variables (R : rcfType) (T : Type) (k : T -> T -> R).
Notation dict := (dict R T).

(** ** Specification *)
(** indices: at least one, strictly increasing, in range; rows: those of the data at these indices; one probability in
    (0,1] per index *)
Definition well_formed (X : seq T) (D : dict) : Prop :=
  [/\ d_idx D <> [::], sorted ltn (d_idx D) /\ all (fun i => (i < size X)%N) (d_idx D),
      forall x0, d_X D = [seq nth x0 X i | i <- d_idx D],
      size (d_probs D) = size (d_idx D) & all (fun p => (0 < p) && (p <= 1)) (d_probs D)].

(** a positive semi-definite kernel *)
Definition psd_kernel : Prop :=
  (forall x y, k x y = k y x) /\
  (forall s : seq (R * T), 0 <= \sum_(a <- s) \sum_(b <- s) a.1 * b.1 * k a.2 b.2).

(** ** Generic lemmas *)
Lemma bindP A B (m : prog R A) (g : A -> prog R B) o : possible (bind m g) (inl o) ->
  exists2 a, possible m (inl a) & possible (g a) (inl o).
Proof.
elim: m => [a|e|p k0 IH|U pop w k0 IH] /=; [by move=> h; exists a|by []| |].
  by case=> [[p0]|[p1]] /IH [a h1 h2]; exists a => //; [left|right].
case: ifP => // _ [s1 [x [s2 [ps wx /IH [a h1 h2]]]]]; exists a => //.
by exists s1, x, s2; split.
Qed.
Lemma bindX A B (m : prog R A) (g : A -> prog R B) e : possible (bind m g) (inr e) ->
  possible m (inr e) \/ exists2 a, possible m (inl a) & possible (g a) (inr e).
Proof.
elim: m => [a|e'|p k0 IH|U pop w k0 IH] /=; [by move=> h; right; exists a|by move=> [->]; left| |].
  case=> [[p0]|[p1]] /IH [h|[a h1 h2]].
  - by left; left.
  - by right; exists a => //; left.
  - by left; right.
  - by right; exists a => //; right.
case: ifP => // _; last by move=> [->]; left.
case=> s1 [x [s2 [ps wx /IH [h|[a h1 h2]]]]]; first by left; exists s1, x, s2; split.
by right; exists a => //; exists s1, x, s2; split.
Qed.

Lemma rand_leP (p : seq R) bs : possible (rand_le p) (inl bs) ->
  size bs = size p /\ forall i, nth false bs i -> 0 < p`_i.
Proof.
elim: p bs => [|a p IH] bs /=; first by case=> ->; split=> // i; rewrite nth_nil.
have cl b : 0 < clip (b : R) -> 0 < b by rewrite /clip; case: (lerP b 0) => //; rewrite ltxx.
case=> [[a0 h0]|[a1 h0]]; have [bs' /IH [sz h] /= [->]] /= := bindP h0; rewrite sz; split=> //; case=> [|i] //=; try exact: h.
by move=> _; exact: cl.
Qed.

Lemma all_maskI A (P : pred A) (x0 : A) m s : (forall i, (i < size s)%N -> nth false m i -> P (nth x0 s i)) ->
  all P (mask m s).
Proof.
elim: m s => [|b m IH] [|x s] //= h; have ih : all P (mask m s) by apply: IH => i i1; exact: (h i.+1).
by case: b h => //= h; rewrite (h 0%N).
Qed.

(** ** C38: reduce_lambda *)
Lemma reduce_out X D lam over D' : possible (reduce_lambda k X D lam over) (inl D') ->
  let q := odflt (d_over D) over in
  well_formed X D' /\ [/\ d_lam D' = lam, d_over D' = q, 1 <= d_lam D / lam &
    forall x0 i, (i < size (d_idx D'))%N -> let x := nth x0 X (nth 0%N (d_idx D') i) in
      (d_probs D')`_i = Num.min (q * rls_estimate k D lam x) (Num.min (q * k x x / (k x x + lam)) 1)].
Proof.
rewrite /reduce_lambda; set q := odflt _ _; case: (ltP (d_lam D / lam) 1) => // lam1 h /=; move: h.
set ucb := map _ X => h0; have [U h1] := bindP h0; have [sU hU] := rand_leP h1.
case: ifP => // U0; rewrite /estimate_rls_bless; set rls := map _ _; case: ifP => // rls0.
set probs := map _ _; set reject := map _ _; case: ifP => // p0; case: ifP => // _.
move=> h2; have [sel h3] := bindP h2; have [sS hS] := rand_leP h3; case: ifP => // s0 /= [->] /=.
have sUX : size U = size X by rewrite sU size_map.
have s1 : size rls = count id U by rewrite size_map size_mask.
have s2 : size (mask U ucb) = count id U by rewrite size_mask.
have s3 : size probs = count id U by rewrite size_map size_zip s1 s2 minnn.
have s4 : size reject = count id U by rewrite size_map size_zip s3 s2 minnn.
have sSU : size sel = count id U by rewrite sS s4.
have sI : size (mask U (iota 0 (size X))) = count id U by rewrite size_mask // size_iota.
split; [split|split=> //].
- rewrite /= => e; move: s0; rewrite -(size_mask (s := mask U (iota 0 (size X)))) ?sSU ?sI //= => /negbT.
  by rewrite e.
- have sub : subseq (mask sel (mask U (iota 0 (size X)))) (iota 0 (size X)).
    exact: subseq_trans (mask_subseq _ _) (mask_subseq _ _).
  split; first exact: (subseq_sorted ltn_trans sub (iota_ltn_sorted _ _)).
  by apply/allP => i /(mem_subseq sub); rewrite mem_iota.
- by move=> x0; rewrite !map_mask map_nth_iota0 // take_size.
- by rewrite /= size_mask ?sSU ?s3 // size_mask // sSU sI.
- apply: (all_maskI (x0 := 0)) => i; rewrite s3 => iU si.
  have rj := hS _ si; move: rj; rewrite /reject (nth_map (0, 0)) ?size_zip ?s3 ?s2 ?minnn // nth_zip ?s3 ?s2 //=.
  have up : all (fun u => 0 < u <= 1) (mask U ucb).
    apply: (all_maskI (x0 := 0)) => j; rewrite size_map => jX /hU -> /=.
    have x1 : T by case: (X) jX => [//|y ? _]; exact: y.
    by rewrite /ucb (nth_map x1) // le_minl lexx orbT.
  have /(all_nthP 0)/(_ i) := up; rewrite s2 => /(_ iU)/andP[u0 u1] h.
  have -> /= : 0 < probs`_i by move: h; rewrite pmulr_lgt0 // invr_gt0.
  rewrite /probs (nth_map (0, 0)) ?size_zip ?s1 ?s2 ?minnn // nth_zip ?s1 ?s2 //= le_minl; apply/orP; right.
  exact: u1.
- move=> x0 i; rewrite size_mask ?sSU ?sI // => is_.
  have e1 : mask sel probs = [seq Num.min (q * rls_estimate k D lam x) (Num.min (q * k x x / (k x x + lam)) 1)
      | x <- mask sel (mask U X)].
    rewrite map_mask; congr mask; apply: (@eq_from_nth _ 0) => [|j]; first by rewrite s3 size_map size_mask.
    rewrite s3 => jU.
    rewrite /probs (nth_map (0, 0)) ?size_zip ?s1 ?s2 ?minnn // nth_zip ?s1 ?s2 //= (nth_map x0) ?size_mask //.
    by rewrite /rls /ucb -map_mask !(nth_map x0) ?size_mask.
  have e2 : mask sel (mask U X) = [seq nth x0 X j | j <- mask sel (mask U (iota 0 (size X)))].
    by rewrite !map_mask map_nth_iota0 // take_size.
  have iS : (i < size (mask sel (mask U (iota 0 (size X)))))%N by rewrite size_mask ?sSU ?sI.
  by rewrite e1 e2 -map_comp (nth_map 0%N).
Qed.

(** ** C37: the loop that chooses the first regularisation *)
Definition support_size (X : seq T) : nat := count (fun x => 0 < k x x) X.

Lemma ucb_le X q lam : 0 < lam -> 0 <= q -> all (fun x => 0 <= k x x) X ->
  \sum_(u <- ucb_init k X q lam) u <= q * (support_size X)%:R.
Proof.
move=> l0 q0; rewrite /ucb_init big_map /support_size; elim: X => [|x X IH] /=; first by rewrite big_nil mulr0.
move=> /andP[x0 /IH h]; rewrite big_cons natrD mulrDr ler_add //.
case: (ltP 0 (k x x)) => [xp|xn] /=.
  by rewrite mulr1 ler_pdivr_mulr ?addr_gt0 // ler_wpmul2l // ler_addl ltW.
have -> : k x x = 0 by apply/eqP; rewrite eq_le xn x0.
by rewrite !(mulr0, mul0r).
Qed.
Definition inv_diag (X : seq T) : R := \sum_(x <- X) (if 0 < k x x then (k x x)^-1 else 0).
Lemma ucb_ge X q lam : 0 < lam -> 0 <= q -> all (fun x => 0 <= k x x) X ->
  q * (support_size X)%:R - q * lam * inv_diag X <= \sum_(u <- ucb_init k X q lam) u.
Proof.
move=> l0 q0; rewrite /ucb_init big_map /support_size /inv_diag.
elim: X => [|x X IH] /=; first by rewrite !big_nil !mulr0 subr0.
move=> /andP[x0 /IH h]; rewrite !big_cons natrD !mulrDr opprD addrACA ler_add //.
case: (ltP 0 (k x x)) => [xp|xn] /=; last first.
  have -> : k x x = 0 by apply/eqP; rewrite eq_le xn x0.
  by rewrite !(mulr0, mul0r, subr0).
have p : 0 < k x x + lam by rewrite addr_gt0.
rewrite mulr1; set d := k x x in xp p *.
have -> : q - q * lam * d^-1 = q * (1 - lam / d) by ring.
rewrite -[X in _ <= X]mulrA ler_wpmul2l // ler_pdivl_mulr //.
have d0 : d != 0 by rewrite gt_eqF.
have -> : (1 - lam / d) * (d + lam) = d - lam ^+ 2 / d by field.
by rewrite ler_subl_addr ler_addl divr_ge0 ?sqr_ge0 // ltW.
Qed.
Lemma loop_some X q lam n : 10%:R < \sum_(u <- ucb_init k X q (lam / (5%:R / 4%:R) ^+ n)) u ->
  exists lam', lam_init_loop k n X q lam = Some lam'.
Proof.
elim: n lam => [|n IH] lam /=; first by rewrite expr0 divr1 => h; exists lam; rewrite leNgt h.
case: ifP => [_ h|_ _]; last by exists lam.
by apply: IH; rewrite exprS invfM mulrA in h.
Qed.
Lemma loop_none X q lam n : 0 < lam -> forall lam', lam_init_loop k n X q lam = Some lam' ->
  0 < lam' /\ 10%:R < \sum_(u <- ucb_init k X q lam') u.
Proof.
elim: n lam => [|n IH] lam l0 lam' /=.
  by case: ifP => [//|/negbT]; rewrite -ltNge => h [<-].
case: ifP => [_|/negbT]; first by apply: IH; rewrite divr_gt0 // divr_gt0 // ltr0n.
by rewrite -ltNge => h [<-].
Qed.

(** The loop ends if and only if rls_oversample_param times the number of points with a positive diagonal exceeds 10. *)
Theorem C37_terminates_iff X q : Num.archimedean_axiom R -> X <> [::] -> all (fun x => 0 <= k x x) X ->
  (exists fuel lam, lam_init_loop k fuel X q (size X)%:R = Some lam) <-> 10%:R < q * (support_size X)%:R.
Proof.
move=> arch X0 kx.
have n0 : 0 < (size X)%:R :> R by rewrite ltr0n; case: (X) X0.
split=> [[fuel [lam h]]|h].
  have [l0 s10] := loop_none n0 h.
  case: (ltP q 0) => [qn|q0]; last exact: lt_le_trans s10 (ucb_le l0 q0 kx).
  suff : \sum_(u <- ucb_init k X q lam) u <= 0 by move=> /(lt_le_trans s10); rewrite ltNge ler0n.
  rewrite /ucb_init big_map; elim: (X) kx => [|x Y IH] /=; first by rewrite big_nil.
  move=> /andP[x0 /IH hY]; rewrite big_cons; apply: ler_naddr => //.
  by rewrite mulr_le0_ge0 ?invr_ge0 ?mulr_le0_ge0 ?addr_ge0 // ltW.
have q0 : 0 < q.
  rewrite ltNge; apply/negP => qn; move: h; rewrite ltNge; move/negP; apply; apply: le_trans (ler0n _ _).
  by rewrite mulr_le0_ge0 ?ler0n.
set c := q * _ in h; set B := (size X)%:R * (q * inv_diag X) / (c - 10%:R).
have inv0 : 0 <= inv_diag X.
  by rewrite /inv_diag; elim: (X) => [|x Y IH]; rewrite ?big_nil // big_cons addr_ge0 //; case: ifP => // p; rewrite invr_ge0 ltW.
have [ub ubP] := arch B.
have big n : 1 + n%:R / 4%:R <= (5%:R / 4%:R : R) ^+ n.
  elim: n => [|n IH]; first by rewrite expr0 mul0r addr0.
  have f4 : (4%:R : R) != 0 by rewrite pnatr_eq0.
  rewrite exprS; apply: le_trans (ler_wpmul2l _ IH); last by rewrite divr_ge0 ?ler0n.
  have -> : (5%:R / 4%:R : R) * (1 + n%:R / 4%:R) = 1 + n.+1%:R / 4%:R + n%:R / (4%:R * 4%:R).
    by rewrite -[n.+1]addn1 natrD; field.
  by rewrite ler_addl divr_ge0 ?ler0n // mulr_ge0 ?ler0n.
exists (4 * ub)%N; apply: loop_some.
set P := (5%:R / 4%:R) ^+ _; have P0 : 0 < P by rewrite exprn_gt0 // divr_gt0 ?ltr0n.
have PB : B < P.
  apply: lt_le_trans (big _); apply: le_lt_trans (ler_norm _) _; apply: lt_trans ubP _.
  by rewrite natrM mulrAC mulfV ?pnatr_eq0 // mul1r ltr_addr ltr01.
apply: lt_le_trans (ucb_ge _ (ltW q0) kx); last by rewrite divr_gt0.
have d0 : 0 < c - 10%:R by rewrite subr_gt0.
rewrite -/c ltr_subr_addl addrC -ltr_subr_addl.
move: PB; rewrite /B ltr_pdivr_mulr // => PB.
have -> : q * ((size X)%:R / P) * inv_diag X = (size X)%:R * (q * inv_diag X) / P.
  by field; rewrite gt_eqF.
by rewrite ltr_pdivr_mulr // (mulrC (c - _)).
Qed.

(** ** C38: bless *)
Lemma first_out X q lam D : possible (first_dict k X q lam) (inl D) ->
  [/\ d_idx D <> [::], sorted ltn (d_idx D) /\ all (fun i => (i < size X)%N) (d_idx D),
      forall x0, d_X D = [seq nth x0 X i | i <- d_idx D], size (d_probs D) = size (d_idx D) &
      d_lam D = lam /\ d_over D = q] /\ (0 < q -> all (fun p => 0 < p) (d_probs D)) /\ (d_probs D)`_0 = q.
Proof.
move=> h0; have [sel h1] := bindP h0; have [sz hs] := rand_leP h1.
case: X h0 sz hs h1 => // x X h0; rewrite size_map /=; case: sel => // b sel [sz] hs h1 /= [->] /=.
split; [split=> //|split; last by rewrite mulr1].
- split; last by apply/allP => i /mem_mask; rewrite mem_iota add1n => /andP[_].
  have sub : subseq (0%N :: mask sel (iota 1 (size X))) (iota 0 (size X).+1) by rewrite /= mask_subseq.
  exact: (subseq_sorted ltn_trans sub (iota_ltn_sorted _ _)).
- by move=> x0; rewrite map_mask -[1%N]add1n iotaDl -map_comp /= map_nth_iota0 // take_size.
- by rewrite /= !size_mask ?size_map ?size_iota.
- move=> q0; rewrite mulr1 q0 /=; apply: (all_maskI (x0 := 0)) => i _ si; exact: (hs i.+1).
Qed.

Lemma bless_loop_out X D lams D' : possible (bless_loop k X D lams) (inl D') -> lams <> [::] ->
  [/\ well_formed X D', d_over D' = d_over D & d_lam D' = last 0 lams].
Proof.
elim: lams D => [|lam lams IH] D //= h _.
have [D1 h1 h2] := bindP h; have [wf [l1 o1 _ _]] := reduce_out h1.
case: lams IH h h2 => [|lam' lams] IH h h2; first by move: h2 => /= [->].
by have [//|a b c] := IH D1 h2; split=> //; rewrite b.
Qed.
Lemma bless_loop_exn X D lams e : possible (bless_loop k X D lams) (inr e) -> e = ValueError.
Proof.
have rl p e' : possible (rand_le (R := R) p) (inr e') -> False.
  elim: p e' => [//|a p IH] e' /= [] [_] h.
    by have [/IH|[? _]] := bindX h.
  by have [/IH|[? _]] := bindX h.
elim: lams D => [|lam lams IH] D //= h.
have [h1|[D1 _ /IH //]] := bindX h; move: h1; rewrite /reduce_lambda.
case: ifP => [_ [->] //|_] h1; have [/rl //|[U _]] := bindX h1.
case: ifP => [_ [->] //|_]; rewrite /estimate_rls_bless; case: ifP => [_ [->] //|_].
case: ifP => [_ [->] //|_]; case: ifP => [_ [->] //|_] h2; have [/rl //|[sel _]] := bindX h2.
by case: ifP => [_ [->] //|_].
Qed.

(** Every dictionary built by reduce_lambda is well formed; the probability stored with a point is the estimate of its
    leverage score for the previous dictionary, oversampled and capped. *)
Theorem C38_reduce_lambda X D lam over D' : possible (reduce_lambda k X D lam over) (inl D') ->
  let q := odflt (d_over D) over in
  well_formed X D' /\ [/\ d_lam D' = lam, d_over D' = q, 1 <= d_lam D / lam &
    forall x0 i, (i < size (d_idx D'))%N -> let x := nth x0 X (nth 0%N (d_idx D') i) in
      (d_probs D')`_i = Num.min (q * rls_estimate k D lam x) (Num.min (q * k x x / (k x x + lam)) 1)].
Proof. exact: reduce_out. Qed.

(** bless, when there are at least two regularisations (nb_iter_bless >= 2). *)
Theorem C38_bless_partial X q fuel gs m D : bless k fuel gs X q = Some m ->
  (forall lam, (1 < size (gs lam))%N) -> possible m (inl D) ->
  well_formed X D /\ d_over D = q.
Proof.
rewrite /bless; case: lam_init_loop => // lam0 [<-] g1 h; have [D0 h0 h1] := bindP h.
have [[_ _ _ _ [_ o0]] _] := first_out h0; move: (g1 lam0) h1.
rewrite -size_rev; case: (rev _) => [//|a [//|b l]] _ h1.
by have [//|w o _] := bless_loop_out h1; rewrite o o0.
Qed.
Theorem C38_bless_exceptions X q fuel gs m e : bless k fuel gs X q = Some m -> X <> [::] ->
  (forall lam, gs lam <> [::]) -> possible m (inr e) -> e = ValueError.
Proof.
rewrite /bless; case: lam_init_loop => // lam0 [<-] X0 g1 h.
have rl p e' : possible (rand_le (R := R) p) (inr e') -> False.
  elim: p e' => [//|a p IH] e' /= [] [_] h'.
    by have [/IH|[? _]] := bindX h'.
  by have [/IH|[? _]] := bindX h'.
have [h0|[D0 _]] := bindX h.
  by have [/rl //|[sel _]] := bindX h0; case: (X) X0.
case r : (rev _) => [|a l]; last exact: bless_loop_exn.
by case: (g1 lam0); apply/nilP; rewrite /nilp -size_rev r.
Qed.

(** With a single regularisation the first dictionary is returned: its first probability is the oversampling factor. *)
Theorem C38_single_iteration X q fuel gs m D : bless k fuel gs X q = Some m ->
  (forall lam, size (gs lam) = 1%N) -> possible m (inl D) -> (d_probs D)`_0 = q.
Proof.
rewrite /bless; case: lam_init_loop => // lam0 [<-] g1 h; have [D0 h0 h1] := bindP h.
have [_ [_ p0]] := first_out h0; move: (g1 lam0) h1.
by rewrite -size_rev; case: (rev _) => [//|a [|//]] _ /= [->].
Qed.

(** ** C71: the estimates of the leverage scores *)
Section Rls.
Hypothesis kpsd : psd_kernel.
Variables (D : dict) (lam : R).
Hypotheses (lam0 : 0 < lam) (szp : size (d_probs D) = size (d_X D)) (pp : all (fun p => 0 < p) (d_probs D)).
Notation A := (d_X D).
Notation KDD := (eval_L k A A).
Notation P := (diag_mx (\row_(i < size A) (d_probs D)`_i)).
Notation M := (KDD + lam *: P).

Lemma qfE (v : 'cV[R]_(size A)) : (v^T *m KDD *m v) 0 0 =
  \sum_i \sum_j v i 0 * v j 0 * k (tnth (in_tuple A) i) (tnth (in_tuple A) j).
Proof.
rewrite !mxE exchange_big /=; apply: eq_bigr => j _; rewrite mxE big_distrl /=.
by apply: eq_bigr => i _; rewrite !mxE mulrAC.
Qed.
Lemma KDD_psd (v : 'cV[R]_(size A)) : 0 <= (v^T *m KDD *m v) 0 0.
Proof.
have [_ h] := kpsd; have := h [seq (v i 0, tnth (in_tuple A) i) | i <- enum 'I_(size A)].
rewrite qfE big_map big_enum /=; congr (_ <= _); apply: eq_bigr => i _.
by rewrite big_map big_enum.
Qed.
Lemma P_qf (v : 'cV[R]_(size A)) : (v^T *m P *m v) 0 0 = \sum_(i < size A) (d_probs D)`_i * v i 0 ^+ 2.
Proof.
rewrite mxE; apply: eq_bigr => i _; rewrite mul_mx_diag !mxE expr2 mulrA; congr (_ * _); exact: mulrC.
Qed.
Lemma p_gt0 (i : 'I_(size A)) : 0 < (d_probs D)`_i.
Proof. by move/all_nthP: pp => h; apply: h; rewrite szp. Qed.
Lemma P_psd (v : 'cV[R]_(size A)) : 0 <= (v^T *m P *m v) 0 0.
Proof. by rewrite P_qf sumr_ge0 // => i _; rewrite mulr_ge0 ?sqr_ge0 // ltW ?p_gt0. Qed.
Lemma qf_M (v : 'cV[R]_(size A)) : (v^T *m M *m v) 0 0 = (v^T *m KDD *m v) 0 0 + lam * (v^T *m P *m v) 0 0.
Proof. by rewrite mulmxDr mulmxDl -scalemxAr -scalemxAl [in LHS]mxE [X in _ + X]mxE. Qed.
Lemma M_unit : M \in unitmx.
Proof.
rewrite -row_free_unit.
suff h : forall w : 'rV[R]_(size A), w *m M = 0 -> w = 0.
  rewrite -kermx_eq0; apply/eqP/row_matrixP => i; rewrite row0; apply: h.
  by rewrite -row_mul mulmx_ker row0.
move=> w wM; have := qf_M w^T; rewrite trmxK wM mul0mx mxE => e.
have : lam * (w *m P *m w^T) 0 0 <= 0.
  by move/eqP: e; rewrite eq_sym addrC addr_eq0 => /eqP ->; rewrite oppr_le0; have := KDD_psd w^T; rewrite trmxK.
rewrite pmulr_rle0 // => h0; have := P_psd w^T; rewrite trmxK => h1.
have : (w *m P *m w^T) 0 0 == 0 by rewrite eq_le h0.
have := P_qf w^T; rewrite trmxK => ->; rewrite psumr_eq0 => [/allP h|i _]; last by rewrite mulr_ge0 ?sqr_ge0 // ltW ?p_gt0.
apply/rowP => i; have := h i (mem_index_enum _); rewrite mulf_eq0 gt_eqF ?p_gt0 //= sqrf_eq0 !mxE => /eqP ->.
by [].
Qed.

Lemma rls_bounds x : 0 <= rls_estimate k D lam x <= k x x / lam.
Proof.
rewrite /rls_estimate; set b := eval_L k A [:: x]; set v := invmx M *m b.
have Mv : M *m v = b by rewrite mulmxA mulmxV ?M_unit // mul1mx.
have E1 : (b^T *m invmx M *m b) 0 0 = (v^T *m b) 0 0.
  have -> : b^T *m invmx M *m b = (v^T *m b)^T by rewrite trmx_mul trmxK -mulmxA.
  by rewrite mxE.
have E2 : (v^T *m b) 0 0 = (v^T *m KDD *m v) 0 0 + lam * (v^T *m P *m v) 0 0.
  by rewrite -qf_M -mulmxA Mv.
rewrite E1; apply/andP; split; last first.
  rewrite ler_pmul2r ?invr_gt0 // ler_subl_addr ler_addl E2 addr_ge0 ?KDD_psd //.
  by rewrite mulr_ge0 ?P_psd // ltW.
apply: divr_ge0; last exact: ltW.
have [ksym hpsd] := kpsd.
have := hpsd ((1, x) :: [seq (- v i 0, tnth (in_tuple A) i) | i <- enum 'I_(size A)]).
rewrite big_cons big_cons /= mulr1 mul1r big_map big_enum /= => H.
have bv : (v^T *m b) 0 0 = \sum_i v i 0 * k (tnth (in_tuple A) i) x.
  by rewrite mxE; apply: eq_bigr => i _; rewrite !mxE.
have H1 : \sum_i 1 * - v i 0 * k x (tnth (in_tuple A) i) = - (v^T *m b) 0 0.
  by rewrite bv -sumrN; apply: eq_bigr => i _; rewrite mul1r mulNr ksym.
have H2 : \sum_(j <- [seq (- v i 0, tnth (in_tuple A) i) | i <- enum 'I_(size A)])
    (j.1 * 1 * k j.2 x + \sum_(b0 <- [seq (- v i 0, tnth (in_tuple A) i) | i <- enum 'I_(size A)]) j.1 * b0.1 * k j.2 b0.2)
    = - (v^T *m b) 0 0 + (v^T *m KDD *m v) 0 0.
  rewrite big_split /=; congr (_ + _); rewrite big_map big_enum /=.
    by rewrite bv -sumrN; apply: eq_bigr => i _; rewrite mulr1 mulNr.
  rewrite qfE; apply: eq_bigr => i _; rewrite big_map big_enum; apply: eq_bigr => j _ /=; rewrite mulrNN //.
move: H; rewrite H1; under eq_bigr => j _ do rewrite big_cons /=; rewrite H2.
rewrite [X in 0 <= _ + (- X + _)]E2 => H.
have Pn : 0 <= lam * (v^T *m P *m v) 0 0 by rewrite mulr_ge0 ?P_psd // ltW.
apply: le_trans H _; rewrite -subr_ge0; set a := k x x; set c := (v^T *m b) 0 0; set d := (v^T *m KDD *m v) 0 0.
by move: Pn; set pq := lam * _ => Pn; rewrite (_ : _ - _ = pq) //; fixeq; ring.
Qed.
End Rls.

(** For a positive semi-definite kernel the estimates are between 0 and k(x,x)/lam ... *)
Theorem C71_bounds D lam x : psd_kernel -> 0 < lam -> size (d_probs D) = size (d_X D) -> all (fun p => 0 < p) (d_probs D) ->
  0 <= rls_estimate k D lam x <= k x x / lam.
Proof. by move=> kp l0 sz pp; exact: rls_bounds. Qed.

(** ... so that the exceptions "Some estimated RLS is negative" and "Some estimated probability is negative" are never
    raised. *)
Theorem C71_never_negative D lam X q U : psd_kernel -> 0 < lam -> 0 < q -> size (d_probs D) = size (d_X D) ->
  all (fun p => 0 < p) (d_probs D) ->
  let ucb := [seq Num.min (q * k x x / (k x x + lam)) 1 | x <- X] in
  exists rls, estimate_rls_bless k D (mask U X) lam = inl rls /\
    ~~ has (fun p => p < 0) [seq Num.min (q * ru.1) ru.2 | ru <- zip rls (mask U ucb)].
Proof.
move=> kp l0 q0 sz pp ucb; exists [seq rls_estimate k D lam x | x <- mask U X]; split.
  rewrite /estimate_rls_bless (_ : has _ _ = false) //; elim: (mask U X) => [//|x Y IH] /=; rewrite IH orbF ltNge.
  by have /andP[-> _] := rls_bounds kp l0 sz pp x.
have kx x : 0 <= k x x.
  by have [_ h] := kp; have := h [:: (1, x)]; rewrite !big_seq1 /= mulr1 mul1r.
rewrite /ucb -map_mask; elim: (mask U X) => [//|x Y IH] /=; rewrite negb_or IH andbT -leNgt le_minr.
have /andP[r0 _] := rls_bounds kp l0 sz pp x; have q0' := ltW q0; have l0' := ltW l0.
by rewrite mulr_ge0 //= le_minr ler01 andbT mulr_ge0 ?invr_ge0 ?mulr_ge0 ?addr_ge0.
Qed.

(** With the whole data set as a dictionary, and all the probabilities equal to one, the estimates are the ridge leverage
    scores: the diagonal of K (K + lam I)^-1. *)
Theorem C71_exact X lam over idx l (i : 'I_(size X)) : psd_kernel -> 0 < lam ->
  let K := eval_L k X X in
  rls_estimate k (Dict idx X (nseq (size X) 1) l over) lam (tnth (in_tuple X) i) = (K *m invmx (K + lam%:M)) i i.
Proof.
move=> kp l0 K; rewrite /rls_estimate /= -/K.
set D := Dict idx X (nseq (size X) 1) l over.
have EP : lam *: diag_mx (\row_(i0 < size X) (nseq (size X) 1)`_i0) = lam%:M :> 'M[R]_(size X).
  by apply/matrixP => a b; rewrite !mxE nth_nseq ltn_ord mulrnAr mulr1.
have u : K + lam%:M \in unitmx.
  have := @M_unit kp D lam l0 _ _; rewrite /= EP; apply; first by rewrite size_nseq.
  by rewrite all_nseq ltr01 orbT.
have kcol : eval_L k X [:: tnth (in_tuple X) i] = K *m delta_mx i 0.
  apply/matrixP => a b; rewrite -colE !mxE; congr (k _ _); rewrite (tnth_nth (tnth (in_tuple X) i)) /=.
  by case: b => [[]].
have ksym : K^T = K by apply/matrixP => a b; rewrite !mxE; have [-> _] := kp.
have lK : K - K *m invmx (K + lam%:M) *m K = lam *: (K *m invmx (K + lam%:M)).
  rewrite -[X in X - _](mulmx1 K) -(mulVmx u) -mulmxA -mulmxBr.
  have -> : invmx (K + lam%:M) *m (K + lam%:M) - invmx (K + lam%:M) *m K = lam *: invmx (K + lam%:M).
    by rewrite -mulmxBr [K + _]addrC addrK mul_mx_scalar.
  by rewrite -scalemxAr.
rewrite EP kcol trmx_mul ksym -!mulmxA !mulmxA.
have -> : k (tnth (in_tuple X) i) (tnth (in_tuple X) i) = K i i by rewrite mxE.
have dd (A : 'M[R]_(size X)) : ((delta_mx i (0 : 'I_1))^T *m A *m delta_mx i (0 : 'I_1)) 0 0 = A i i.
  by rewrite -colE mxE trmx_delta -rowE mxE.
have := dd (K *m invmx (K + lam%:M) *m K); rewrite !mulmxA => dd'.
rewrite [X in _ - X](_ : _ = (K *m invmx (K + lam%:M) *m K) i i); last exact: dd'.
have -> : K i i - (K *m invmx (K + lam%:M) *m K) i i = (K - K *m invmx (K + lam%:M) *m K) i i by rewrite !mxE.
by rewrite lK [X in X / _]mxE mulrAC mulfV ?mul1r // gt_eqF.
Qed.

(** ** C70: bless_size *)
Lemma size_loop_out X sf D lmax lmin lam deff lams lmax' lmin' D' :
  possible (bless_size_loop k X sf D lmax lmin lam deff lams) (inl (lmax', lmin', D')) ->
  all (fun l => 1 <= l) lams -> 1 <= lmin <= lam -> lam <= lmax -> d_lam D = lam -> lmin = 1 ->
  [/\ 1 <= lmin' <= lmax', lmax' <= lmax, (lams <> [::] -> well_formed X D') & d_over D' = d_over D].
Proof.
elim: lams D lmax lam deff => [|l lams IH] D lmax lam deff /=.
  by case=> -> -> -> _ /andP[h1 h2] h3 _ _; split=> //; rewrite h1 (le_trans h2 h3).
move=> h /andP[l1 hl] /andP[m1 mlam] lm dl lmin1; have [D1 h1 h2] := bindP h.
have [wf [dl1 o1 r1 _]] := reduce_out h1.
have l0 : 0 < l := lt_le_trans ltr01 l1.
have llam : l <= lam by move: r1; rewrite dl ler_pdivl_mulr // mul1r.
move: h2; set mx := (if _ then lam else lmax).
have mx1 : lam <= mx <= lmax by rewrite /mx; case: ifP => _; rewrite ?lexx ?lm.
have /andP[mxa mxb] := mx1.
case: ifP => [_ /= [-> -> ->]|_ h2].
  by split=> //; rewrite l1 (le_trans llam mxa).
have lml : 1 <= lmin <= l by rewrite m1 lmin1.
have [a b c d] := IH D1 mx l _ h2 hl lml (le_trans llam mxa) dl1 lmin1.
split=> //; [exact: le_trans b mxb| |by rewrite d o1].
by move=> _; case: (lams) h2 c => [/= [_ _ ->] //|z zs h2 c]; apply: c.
Qed.

(** The bracket returned by bless_size is ordered, below the first regularisation, and (unless the list of the
    regularisations has length one) the dictionary is well formed. *)
Theorem C70_bracket X sf q gs lmax lmin D : let lam0 := (\sum_(x <- X) k x x) / (sf - 1) in
  (* what np.geomspace(1, lam0, nb) gives when lam0 >= 1 and nb >= 1 *)
  all (fun l => 1 <= l) (gs lam0) -> last 0 (gs lam0) = lam0 ->
  possible (bless_size k gs X sf q) (inl (lmax, lmin, D)) ->
  [/\ 1 <= lmin, lmin <= lmax, lmax <= lam0, d_over D = q & ((1 < size (gs lam0))%N -> well_formed X D)].
Proof.
move=> lam0 g1 gl; rewrite /bless_size -/lam0 => h; have [D0 h0] := bindP h.
have [[_ _ _ _ [dl0 o0]] _] := first_out h0.
case r : (rev (gs lam0)) => [//|a l].
have sz : size (gs lam0) = (size l).+1 by rewrite -size_rev r.
have ea : a = lam0.
  by rewrite -gl -[gs lam0]revK r rev_cons last_rcons.
have all1 : all (fun l => 1 <= l) (a :: l) by rewrite -r all_rev.
move: all1 => /= /andP[a1 l1] h1; rewrite ea in h1 a1.
have [|/andP[b1 b2] b3 b4 b5] := size_loop_out h1 l1 _ (lexx _) dl0 (erefl 1); first by rewrite lexx a1.
split=> //; first by rewrite b5.
by rewrite sz => s1; apply: b4 => l0; move: s1; rewrite l0.
Qed.
End Spec.

(** ** Concrete cases *)
(** the loop of C37 never ends with two points and the default oversampling factor 4, whatever the kernel *)
Theorem C37_refuted (R : rcfType) (T : Type) (k : T -> T -> R) (x y : T) : Num.archimedean_axiom R ->
  0 <= k x x -> 0 <= k y y -> forall fuel, lam_init_loop k fuel [:: x; y] 4%:R 2%:R = None.
Proof.
move=> arch kx ky fuel; case e : lam_init_loop => [lam|//].
have n0 : [:: x; y] <> [::] by [].
have ka : all (fun z => 0 <= k z z) [:: x; y] by rewrite /= kx ky.
have /(_ (ex_intro _ fuel (ex_intro _ lam e))) := proj1 (C37_terminates_iff 4%:R arch n0 ka).
rewrite /support_size /= ltNge -natrM ler_nat; case/negP.
by case: (0 < k x x); case: (0 < k y y).
Qed.

(** a data set and a dictionary that meet the hypotheses of C38 and C71, with the linear kernel *)
Example C71_instance_kernel (R : rcfType) : psd_kernel (fun x y : R => x * y).
Proof.
split=> [x y|s]; first exact: mulrC.
have -> : \sum_(a <- s) \sum_(b <- s) a.1 * b.1 * (a.2 * b.2) = (\sum_(a <- s) a.1 * a.2) ^+ 2.
  by rewrite expr2 big_distrlr /=; apply: eq_bigr => a _; apply: eq_bigr => b _; rewrite mulrACA.
exact: sqr_ge0.
Qed.
Example C38_instance (R : rcfType) :
  let D := Dict [:: 0%N] [:: 1 : R] [:: 1] 1 4%:R in
  possible (reduce_lambda (fun x y : R => x * y) [:: 1] D 1 None) (inl D).
Proof.
move=> D; rewrite /reduce_lambda /=.
have two0 : (2%:R : R) != 0 by rewrite pnatr_eq0.
rewrite divr1 ltxx !mulr1.
have -> : Num.min (4%:R / (1 + 1)) 1 = 1 :> R.
  by rewrite -(natrD R 1 1) minEge ler_pdivl_mulr ?ltr0n // mul1r ler_nat.
have cl : clip (1 : R) = 1 by rewrite clip01 ?ler01.
left; rewrite cl ltr01; split=> //=; rewrite /estimate_rls_bless /=.
have -> : rls_estimate (fun x y : R => x * y) D 1 1 = 2%:R^-1.
  have := @C71_exact R R (fun x y => x * y) [:: 1] 1 4%:R [:: 0%N] 1 0 (C71_instance_kernel R) ltr01.
  rewrite (tnth_nth 0) /= => ->.
  have -> : eval_L (fun x y : R => x * y) [:: 1] [:: 1] = 1%:M :> 'M[R]_1.
    by apply/matrixP => i j; rewrite !mxE !(tnth_nth 0) /= !ord1 /= mulr1.
  have -> : 1%:M + 1%:M = 2%:R%:M :> 'M[R]_1 by apply/matrixP => i j; rewrite !mxE -mulrnDl -(natrD R 1 1).
  by rewrite mul1mx invmx_scalar mxE eqxx.
rewrite ltNge invr_ge0 ler0n /=.
have -> : Num.min (4%:R * 2%:R^-1) 1 = 1 :> R by rewrite minEge ler_pdivl_mulr ?ltr0n // mul1r ler_nat.
rewrite ltNge ler01 /= big_seq1 divr1 mul1r mulfV ?pnatr_eq0 // ltxx /=.
by left; rewrite cl ltr01.
Qed.
