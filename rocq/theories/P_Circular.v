(** * P_Circular: the quindiagonal model of the circular ensemble is unitary (C43). *)
From mathcomp Require Import all_ssreflect all_algebra all_real_closed.
From mathcomp.real_closed Require Import complex.
From mathcomp.algebra_tactics Require Import ring.
From Verif Require Import Prob RandMatModel RandMat.
Set Implicit Arguments. Unset Strict Implicit. Unset Printing Implicit Defensive.
Import Order.Theory GRing.Theory Num.Theory.
Local Open Scope ring_scope.

Local Arguments conjc : simpl never.

Section P.
Variable R : rcfType.
Notation C := (complex R).
Local Open Scope complex_scope.
Local Notation "x ^J" := (conjc x) (at level 2, left associativity, format "x ^J").

Definition bunit (b : block R) : Prop :=
  match b with
  | B1 x => x * x^J = 1
  | B2 p q r s => [/\ p * p^J + q * q^J = 1, p * r^J + q * s^J = 0, r * p^J + s * q^J = 0 & r * r^J + s * s^J = 1]
  end.
Definition bdet (b : block R) : C := match b with B1 x => x | B2 p q r s => p * s - q * r end.

Definition bunits (bs : seq (block R)) : Prop := forall k, (k < size bs)%N -> bunit (nth (B1 1) bs k).

Lemma bunits_cons b bs : bunits (b :: bs) <-> bunit b /\ bunits bs.
Proof.
split=> [h|[hb hs] [|k] //=]; first by split; [exact: (h 0%N)|move=> k lt; exact: (h k.+1)].
by rewrite ltnS; exact: hs.
Qed.
Lemma bunits_cat bs bs' : bunits bs -> bunits bs' -> bunits (bs ++ bs').
Proof. by elim: bs => //= b bs IH /bunits_cons [hb hs] h'; apply/bunits_cons; split=> //; exact: IH. Qed.

Lemma conj0 : (0 : C)^J = 0. Proof. exact: conjc0. Qed.

Lemma bd_unit bs : bunits bs -> forall i j, (i < bd_size bs)%N -> (j < bd_size bs)%N ->
  \sum_(k < bd_size bs) bd bs i k * (bd bs j k)^J = (i == j)%:R.
Proof.
elim: bs => [|b bs IH] // /bunits_cons [ub us] i j; rewrite /bd_size /= -/(bd_size bs) => li lj.
rewrite big_split_ord /=.
have right k m : (k + m < k)%N = false by rewrite -{2}[k]addn0 ltn_add2l.
have [ib|bi] := ltnP i (bsize b).
  have [jb|bj] := ltnP j (bsize b).
    rewrite [X in _ + X]big1 ?addr0; last by move=> k _; rewrite /= ?right ?ltn_ord /= ?[(bsize b <= nat_of_ord k)%N]leqNgt ?ltn_ord /= ?conj0 ?mulr0 ?mul0r.
    rewrite (eq_bigr (fun k : 'I_(bsize b) => bentry b i k * (bentry b j k)^J)); last by move=> k _; rewrite !ltn_ord.
    case: b ub ib jb {li lj} => [x|p q r s] /=.
      by move=> ux; case: i => //; case: j => // _ _; rewrite big_ord_recl big_ord0 addr0.
    move=> [h1 h2 h3 h4]; case: i => [|[|//]]; case: j => [|[|//]] _ _;
      by rewrite !big_ord_recl big_ord0 addr0 /=.
  rewrite [X in X + _]big1 ?add0r; last by move=> k _; rewrite /= ?right ?ltn_ord /= ?[(bsize b <= nat_of_ord k)%N]leqNgt ?ltn_ord /= ?conj0 ?mulr0 ?mul0r.
  rewrite big1; last by move=> k _; rewrite /= ?right ?ltn_ord /= ?[(bsize b <= nat_of_ord k)%N]leqNgt ?ltn_ord /= ?conj0 ?mulr0 ?mul0r.
  by rewrite (ltn_eqF (leq_trans ib bj)).
have [jb|bj] := ltnP j (bsize b).
  rewrite [X in X + _]big1 ?add0r; last by move=> k _; rewrite /= ?right ?ltn_ord /= ?[(bsize b <= nat_of_ord k)%N]leqNgt ?ltn_ord /= ?conj0 ?mulr0 ?mul0r.
  rewrite big1; last by move=> k _; rewrite /= ?right ?ltn_ord /= ?[(bsize b <= nat_of_ord k)%N]leqNgt ?ltn_ord /= ?conj0 ?mulr0 ?mul0r.
  by rewrite gtn_eqF // (leq_trans jb bi).
rewrite [X in X + _]big1 ?add0r; last by move=> k _; rewrite /= ?right ?ltn_ord /= ?[(bsize b <= nat_of_ord k)%N]leqNgt ?ltn_ord /= ?conj0 ?mulr0 ?mul0r.
rewrite (eq_bigr (fun k : 'I_(bd_size bs) => bd bs (i - bsize b) k * (bd bs (j - bsize b) k)^J)); last first.
  by move=> k _; rewrite /= leq_addr /= addKn.
rewrite IH // ?ltn_subLR //; congr (_%:R); by rewrite -(eqn_add2r (bsize b)) !subnK.
Qed.

(** adjoint of a complex matrix *)
Definition adj n (U : 'M[C]_n) : 'M[C]_n := \matrix_(i, j) (U j i)^J.

Lemma adjM n (U V : 'M[C]_n) : adj (U *m V) = adj V *m adj U.
Proof.
apply/matrixP => i j; rewrite !mxE rmorph_sum; apply: eq_bigr => k _.
by rewrite !mxE rmorphM mulrC.
Qed.

Lemma bd_unitary n bs : bunits bs -> bd_size bs = n ->
  let L := \matrix_(i < n, j < n) bd bs i j in L *m adj L = 1%:M.
Proof.
move=> us sz L; apply/matrixP => i j; rewrite !mxE.
rewrite (eq_bigr (fun k : 'I_n => bd bs i k * (bd bs j k)^J)); last by move=> k _; rewrite !mxE.
have := @bd_unit bs us i j; rewrite sz !ltn_ord => -> //.
Qed.

Lemma bd_band (bs : seq (block R)) i j : bd bs i j != 0 -> (i <= j.+1)%N && (j <= i.+1)%N.
Proof.
elim: bs i j => [|b bs IH] i j /=; first by rewrite eqxx.
have b2 : (bsize b <= 2)%N by case: (b).
case: ifP => [/andP[ib jb] _|_].
  by rewrite -ltnS (leq_trans ib) ?(leq_trans b2) //= -ltnS (leq_trans jb) ?(leq_trans b2).
case: ifP => [/andP[bi bj] /IH|_]; last by rewrite eqxx.
by rewrite -{3 4}(subnKC bi) -{3 4}(subnKC bj) -!addnS !leq_add2l.
Qed.

Lemma bd_det n (bs : seq (block R)) : bd_size bs = n ->
  \det (\matrix_(i < n, j < n) bd bs i j) = \prod_(b <- bs) bdet b.
Proof.
elim: bs n => [|b bs IH] n.
  by move=> <-; rewrite det_mx00 big_nil.
rewrite /bd_size /= -/(bd_size bs) => <-.
have -> : \matrix_(i < bsize b + bd_size bs, j < bsize b + bd_size bs) bd (b :: bs) i j =
          block_mx (\matrix_(i, j) bentry b i j) 0 0 (\matrix_(i, j) bd bs i j).
  apply/matrixP => i j; rewrite mxE.
  case: (split_ordP i) => i' ->; case: (split_ordP j) => j' ->; rewrite ?block_mxEul ?block_mxEur ?block_mxEdl ?block_mxEdr !mxE /=.
  - by rewrite !ltn_ord.
  - by rewrite [(bsize b + _ < _)%N]ltnNge leq_addr andbF [(bsize b <= i')%N]leqNgt ltn_ord.
  - by rewrite [(bsize b + _ < _)%N]ltnNge leq_addr /= [(bsize b <= j')%N]leqNgt ltn_ord.
  - by rewrite ltnNge leq_addr /= leq_addr !addKn.
rewrite det_ublock big_cons IH //; congr (_ * _).
case: (b) => [x|p q r s] /=; first by rewrite det_mx11 mxE.
by rewrite (expand_det_row _ 0) !big_ord_recl big_ord0 /cofactor !det_mx11 !mxE /=; ring.
Qed.

Lemma sq_absE (z : C) : (sq_abs z)%:C = z * z^J.
Proof. by case: z => x y; simpc; rewrite /sq_abs /=; congr (_ +i* _); ring. Qed.

Lemma rho2 (a : C) : sq_abs a <= 1 ->
  (Num.sqrt (1 - sq_abs a))%:C * (Num.sqrt (1 - sq_abs a))%:C = 1 - a * a^J.
Proof.
move=> a1; rewrite -sq_absE; have := sqr_sqrtr (_ : 0 <= 1 - sq_abs a); rewrite subr_ge0 => /(_ a1).
move: (Num.sqrt (1 - sq_abs a)) => r; move: (sq_abs a) => x rr; simpc; rewrite -expr2 rr; congr (_ +i* _); ring.
Qed.

Lemma xi_alg (a ac r : C) : r * r = 1 - a * ac ->
  [/\ ac * a + r * r = 1, ac * r + r * - ac = 0, r * a + - a * r = 0 & r * r + - a * - ac = 1].
Proof. by move=> ->; split; ring. Qed.

Lemma xi_unit a : sq_abs a <= 1 -> bunit (xi a).
Proof.
move=> a1; have := xi_alg (rho2 a1).
by rewrite /bunit /xi !(conjc_real, conjcK, raddfN).
Qed.
Lemma xi_det a : sq_abs a <= 1 -> bdet (xi a) = -1.
Proof.
move=> a1; have rr := rho2 a1.
by rewrite /bdet /xi rr; ring.
Qed.

Lemma evens_odds A (s : seq A) : (size (evens s) = uphalf (size s)) * (size (odds s) = half (size s)).
Proof. by elim: s => //= x s [-> ->]. Qed.

Section Quin.
Variables (N : nat) (alpha : seq C).
Hypothesis N0 : (0 < N)%N.
Hypothesis sz : size alpha = N.
Hypothesis disk : forall i, (i < N)%N -> sq_abs (nth 0 alpha i) <= 1.
Hypothesis last1 : sq_abs (nth 0 alpha N.-1) = 1.

Let xis := [seq xi a | a <- take N.-1 alpha].
Lemma sxis : size xis = N.-1. Proof. by rewrite size_map size_take sz; case: (N) N0 => // n _; rewrite /= ltnSn. Qed.
Definition good (b : block R) := exists2 a, b = xi a & sq_abs a <= 1.
Lemma good_xis : forall b, List.In b xis -> good b.
Proof.
have h a : a \in take N.-1 alpha -> sq_abs a <= 1.
  by move=> /mem_take ia; have := disk; rewrite -sz => /(_ (index a alpha)); rewrite index_mem nth_index //; apply.
rewrite /xis; elim: (take _ _) h => //= a s IH h b [<-|]; first by exists a => //; apply: h; exact: mem_head.
by apply: IH => x xs; apply: h; rewrite inE xs orbT.
Qed.
Lemma In_evens (s : seq (block R)) : (forall b, List.In b (evens s) -> List.In b s) /\ (forall b, List.In b (odds s) -> List.In b s).
Proof.
elim: s => //= x s [h1 h2]; split=> b; first by case=> [->|/h2]; [left|right].
by move/h1; right.
Qed.
Lemma goods (bs : seq (block R)) : (forall b, List.In b bs -> good b) ->
  [/\ bunits bs, bd_size bs = (size bs).*2 & \prod_(b <- bs) bdet b = (-1) ^+ size bs].
Proof.
elim: bs => [|b bs IH] h; first by split; rewrite ?big_nil.
have [u s d] := IH (fun x xs => h x (or_intror xs)).
have [a e a1] := h b (or_introl erefl); split.
- by apply/bunits_cons; split=> //; rewrite e; exact: xi_unit.
- by rewrite /bd_size /= -/(bd_size bs) s e /= doubleS.
by rewrite big_cons d e xi_det //= exprS.
Qed.
Lemma bd_size_cat (bs bs' : seq (block R)) : bd_size (bs ++ bs') = (bd_size bs + bd_size bs')%N.
Proof. by rewrite /bd_size map_cat sumn_cat. Qed.

Lemma unit1 : bunit (B1 1). Proof. by rewrite /= conjc1 mulr1. Qed.
Lemma unitlast : bunit (B1 (nth 0 alpha N.-1)^J).
Proof. by rewrite /= conjcK mulrC -sq_absE last1. Qed.
Lemma bunits1 b : bunit b -> bunits [:: b]. Proof. by move=> u; apply/bunits_cons; split. Qed.

Lemma quin_ok : [/\ bunits (quin_L N alpha), bd_size (quin_L N alpha) = N,
  bunits (quin_M N alpha), bd_size (quin_M N alpha) = N &
  (\prod_(b <- quin_L N alpha) bdet b) * (\prod_(b <- quin_M N alpha) bdet b) = (-1) ^+ N.-1 * (nth 0 alpha N.-1)^J].
Proof.
have [h1 h2] := In_evens xis.
have [ue se de] := goods (fun b hb => good_xis (h1 b hb)).
have [uo so d_o] := goods (fun b hb => good_xis (h2 b hb)).
have [ze zo] := evens_odds xis; rewrite sxis in ze zo.
have Nd := odd_double_half N; have Npre := prednK N0.
rewrite /quin_L /quin_M -/xis; case: ifP => oN.
  have evN : odd N.-1 = false by move: oN; rewrite -{1}Npre /=; case: (odd _).
  have e2 : N.-1 = N.-1./2.*2 by rewrite -{1}(odd_double_half N.-1) evN.
  have up : uphalf N.-1 = N.-1./2 by rewrite uphalf_half evN.
  split.
  - by apply: bunits_cat ue (bunits1 unitlast).
  - by rewrite bd_size_cat se ze up /bd_size /= addn1 -e2.
  - by apply/bunits_cons; split; [exact: unit1|].
  - by rewrite -cat1s bd_size_cat so zo /bd_size /= add1n -e2.
  rewrite big_cat big_seq1 big_cons /= de d_o ze zo up mul1r.
  by rewrite mulrAC -exprD addnn -e2.
have odN : odd N.-1 by move: oN; rewrite -{1}Npre /=; case: (odd _).
have e2 : N.-1 = N.-1./2.*2.+1 by rewrite -{1}(odd_double_half N.-1) odN.
have up : uphalf N.-1 = N.-1./2.+1 by rewrite uphalf_half odN.
split.
- exact: ue.
- by rewrite se ze up doubleS -e2.
- apply/bunits_cons; split; [exact: unit1|]; exact: bunits_cat uo (bunits1 unitlast).
- by rewrite -cat1s bd_size_cat bd_size_cat so zo /bd_size /= addn1 add1n -e2.
rewrite big_cons big_cat big_seq1 /= de d_o ze zo up mul1r mulrA -exprD addSn addnn -e2 //.
Qed.

Lemma quin_unitary : quindiag N alpha *m adj (quindiag N alpha) = 1%:M.
Proof.
have [uL sL uM sM _] := quin_ok; rewrite /quindiag adjM -mulmxA [_ *m (adj _ *m _)]mulmxA.
by rewrite (bd_unitary uM sM) mul1mx (bd_unitary uL sL).
Qed.

Lemma quin_det : \det (quindiag N alpha) = (-1) ^+ N.-1 * (nth 0 alpha N.-1)^J.
Proof. by have [_ sL _ sM d] := quin_ok; rewrite /quindiag det_mulmx !bd_det. Qed.

Lemma quin_band (i j : 'I_N) : quindiag N alpha i j != 0 -> (i <= j + 2)%N && (j <= i + 2)%N.
Proof.
move=> h; apply/negPn/negP => out; move/eqP: h; apply; rewrite mxE big1 // => k _; rewrite !mxE.
apply/eqP; apply: contraNT out; rewrite mulf_eq0 negb_or => /andP[/bd_band /andP[a b] /bd_band /andP[c d]].
by rewrite !addn2 (leq_trans a) ?ltnS //= (leq_trans d).
Qed.
End Quin.

Lemma unitary_eigen n (U : 'M[C]_n) x : U *m adj U = 1%:M -> eigenvalue U x -> `|x| = 1.
Proof.
move=> uU /eigenvalueP[v ev nz].
pose nrm (w : 'rV[C]_n) : C := \sum_i w 0 i * (w 0 i)^J.
have nE w : nrm w = (w *m (\col_i (w 0 i)^J)) 0 0 by rewrite mxE; apply: eq_bigr => i _; rewrite mxE.
have e : nrm (v *m U) = nrm v.
  rewrite !nE; have -> : \col_i ((v *m U) 0 i)^J = adj U *m \col_i (v 0 i)^J.
    apply/colP => i; rewrite !mxE rmorph_sum; apply: eq_bigr => k _; by rewrite !mxE rmorphM mulrC.
  by rewrite -mulmxA [U *m (_ *m _)]mulmxA uU mul1mx.
have e2 : nrm (v *m U) = x * x^J * nrm v.
  by rewrite ev mulr_sumr; apply: eq_bigr => i _; rewrite !mxE rmorphM; exact: mulrACA.
have nv : nrm v != 0.
  apply/negP; rewrite psumr_eq0; last by move=> i _; rewrite mulcJ_ge0.
  move/allP => h; move/eqP: nz; apply; apply/rowP => i; rewrite mxE.
  have := h i (mem_index_enum _); rewrite /= mulf_eq0 conjc_eq0 orbb; exact/eqP.
have : x * x^J = 1 by apply: (mulIf nv); rewrite mul1r -e2 e.
by rewrite -sqr_normc => /eqP; rewrite sqrp_eq1 ?normr_ge0 // => /eqP.
Qed.

(** alpha[i] is in the closed unit disk, and on the circle for the last one (two gaussians) *)
Lemma verb_disk (g : seq R) : (2 <= size g)%N -> (exists2 x, x \in g & x != 0) ->
  sq_abs (verblunsky g) <= 1 /\ (size g = 2%N -> sq_abs (verblunsky g) = 1).
Proof.
case: g => [|g0 [|g1 g]] // _ [x xg nx].
pose s2 := \sum_(x <- [:: g0, g1 & g]) x ^+ 2.
have s2p : 0 < s2.
  rewrite lt_neqAle sumr_ge0 ?andbT; last by move=> i _; exact: sqr_ge0.
  rewrite eq_sym psumr_eq0; last by move=> i _; exact: sqr_ge0.
  by apply/negP => /allP /(_ x xg); rewrite /= sqrf_eq0 (negbTE nx).
have nn : vnorm [:: g0, g1 & g] ^+ 2 = s2 by rewrite /vnorm sqr_sqrtr // ltW.
have n0 : vnorm [:: g0, g1 & g] != 0 by rewrite sqrtr_eq0 -ltNge.
have E : sq_abs (verblunsky [:: g0, g1 & g]) = (g0 ^+ 2 + g1 ^+ 2) / s2.
  rewrite /verblunsky /= -nn -fmorphV; move: (vnorm _) n0 => v v0; rewrite /sq_abs /=; simpc => /=; field; exact: v0.
have tl : s2 = g0 ^+ 2 + g1 ^+ 2 + \sum_(x <- g) x ^+ 2 by rewrite /s2 !big_cons addrA.
rewrite E; split.
  by rewrite ler_pdivr_mulr // mul1r tl ler_addl sumr_ge0 // => i _; exact: sqr_ge0.
move=> /= [/size0nil gE]; have -> : g0 ^+ 2 + g1 ^+ 2 = s2 by rewrite tl gE big_nil addr0.
by rewrite divff // gt_eqF.
Qed.

Section Main.
Variable eigvals : forall n, 'M[C]_n -> seq C.
(** scipy.linalg.eigvals returns the roots of the characteristic polynomial, with multiplicity *)
Definition eigvals_contract : Prop := forall n (M : 'M[C]_n), char_poly M = \prod_(x <- eigvals M) ('X - x%:P).
Hypothesis eigP : eigvals_contract.
Variable randn : nat -> nat -> seq R.
(** rng.randn(n) returns n numbers, not all zero (probability one) *)
Definition randn_ok : Prop := forall i n, (0 < n)%N -> size (randn i n) = n /\ exists2 x, x \in randn i n & x != 0.
Hypothesis randnP : randn_ok.
Variables (beta : int) (N : nat).
Hypothesis N0 : (0 < N)%N.

(** the alpha array of l.337-342, as a specification: alpha_i is built from the i-th gaussian vector, which has
    beta (N-1-i) + 2 entries *)
Definition alphas := mkseq (fun i => verblunsky (randn i (absz beta * (N.-1 - i) + 2))) N.

Lemma circ_run l : mu_ref_unif_unit_circle_sampler_quindiag eigvals randn beta N = inl l ->
  l = eigvals (quindiag N alphas).
Proof.
rewrite /mu_ref_unif_unit_circle_sampler_quindiag; case: ifP => // _ [<-].
congr (eigvals (quindiag N _)); rewrite /alphas; apply: (@eq_from_nth _ 0); first by rewrite !size_mkseq.
move=> i; rewrite size_mkseq => lt; rewrite !nth_mkseq //; congr (verblunsky (randn _ _)).
rewrite (nth_map 0%N) ?size_rev ?size_iota // nth_rev ?size_iota // nth_iota; last by rewrite ltn_subrL.
by rewrite add0n subnS -subn1 subnAC subn1 addn2 add1n.
Qed.

Lemma alphas_ok : [/\ size alphas = N, forall i, (i < N)%N -> sq_abs (nth 0 alphas i) <= 1 & sq_abs (nth 0 alphas N.-1) = 1].
Proof.
split; first by rewrite size_mkseq.
- move=> i lt; rewrite nth_mkseq //.
  have [sr nz] := randnP i (ltn_addl (absz beta * (N.-1 - i)) (isT : 0 < 2)%N).
  by have [] := verb_disk _ nz; rewrite sr // leq_addl.
rewrite nth_mkseq ?prednK // subnn muln0 add0n.
by have [sr nz] := randnP N.-1 (isT : 0 < 2)%N; have [_] := verb_disk (eq_leq (esym sr)) nz; apply.
Qed.

(** ** C43: the quindiagonal matrix is unitary, has bandwidth 2, and its N returned eigenvalues have modulus one; their
    product is (-1)^(N-1) times the conjugate of the last coefficient. *)
Theorem C43_circular_unitary :
  quindiag N alphas *m adj (quindiag N alphas) = 1%:M /\
  forall i j : 'I_N, quindiag N alphas i j != 0 -> (i <= j + 2)%N && (j <= i + 2)%N.
Proof.
have [sa da la] := alphas_ok; split; first exact: quin_unitary.
by move=> i j; exact: quin_band.
Qed.

Theorem C43_circular_support l : mu_ref_unif_unit_circle_sampler_quindiag eigvals randn beta N = inl l ->
  [/\ size l = N, forall x, x \in l -> `|x| = 1 &
      \prod_(x <- l) x = (-1) ^+ N.-1 * (verblunsky (randn N.-1 2))^J].
Proof.
move=> /circ_run ->; have rt := eigP (quindiag N alphas); have [sa da la] := alphas_ok; split.
- exact: roots_size rt.
- by move=> x; rewrite (roots_eigen _ rt) => ex; apply: unitary_eigen ex; exact: quin_unitary.
by rewrite (roots_det rt) quin_det // nth_mkseq ?prednK // subnn muln0.
Qed.

Theorem C43_circular_valid : 0 < beta ->
  exists l, mu_ref_unif_unit_circle_sampler_quindiag eigvals randn beta N = inl l.
Proof. by move=> b0; rewrite /mu_ref_unif_unit_circle_sampler_quindiag b0; eexists. Qed.
Theorem C43_circular_invalid : beta <= 0 ->
  mu_ref_unif_unit_circle_sampler_quindiag eigvals randn beta N = inr ValueError.
Proof. by move=> b0; rewrite /mu_ref_unif_unit_circle_sampler_quindiag ltNge b0. Qed.
End Main.

(** the contracts can be met, and a size 3 instance *)
Lemma closed_roots n (M : 'M[C]_n) : exists l, char_poly M == \prod_(x <- l) ('X - x%:P).
Proof.
have [l e] := closed_field_poly_normal (char_poly M); exists l; move: e.
by have /eqP := char_poly_monic M; rewrite /lead_coef => ->; rewrite scale1r => <-.
Qed.
Definition eigvals0 n (M : 'M[C]_n) := xchoose (closed_roots M).
Lemma eigvals0P : eigvals_contract eigvals0.
Proof. by move=> n M; exact/eqP/(xchooseP (closed_roots M)). Qed.
Definition randn0 (i n : nat) : seq R := nseq n 1.
Lemma randn0P : randn_ok randn0.
Proof.
move=> i n n0; split; first by rewrite size_nseq.
by exists 1; rewrite ?oner_eq0 // mem_nseq n0 eqxx.
Qed.
Example C43_instance : exists l, mu_ref_unif_unit_circle_sampler_quindiag eigvals0 randn0 2 3 = inl l /\ size l = 3%N.
Proof.
have [l e] := @C43_circular_valid eigvals0 randn0 2 3 isT; exists l; split=> //.
by have [] := @C43_circular_support eigvals0 eigvals0P randn0 randn0P 2 3 isT l e.
Qed.
End P.
Print Assumptions C43_circular_support.
Print Assumptions C43_circular_unitary.
