(** * P_ProjC: C79, C80, projection samplers on complex Hermitian kernels.

    [hproj K]: K is a complex matrix, Hermitian (K_ji is the conjugate of K_ij) and idempotent; [pm K ys], [pmS K S] are the
    (complex) minors of K indexed by a list or a set; [x%:C%C] is the real number x seen as a complex number.  So the
    equations also say that the minors are real. *)
From Coq Require Import String.
From mathcomp Require Import all_ssreflect all_algebra all_fingroup.
From mathcomp.real_closed Require Import complex.
From mathcomp.algebra_tactics Require Import ring.
From Verif Require Import Prob MinorF ExactModel ChainCons ProjGS ProjAll ProjCplx P_Proj.
Set Implicit Arguments. Unset Strict Implicit. Unset Printing Implicit Defensive.
Import Order.Theory GRing.Theory Num.Theory.
Local Open Scope ring_scope.
Local Arguments conjc : simpl never.

Section Chol.
Variables (R : rcfType) (N : nat).
Notation C := (complex R).
Variable K : 'M[C]_N.
Hypothesis P : hproj K.

Lemma crint : rint N (complex.Re (\tr K)) = \rank K.
Proof.
rewrite hproj_trace_rank //; have -> : (\rank K)%:R = ((\rank K)%:R)%:C%C :> C by rewrite rmorph_nat.
by rewrite rint_nat // rank_leq_row.
Qed.

Lemma cChol_E size (f : seq nat -> R) : size_ok size (\rank K) ->
  (E (cproj_dpp_sampler_kernel_Chol K size) f)%:C%C =
  cchainE (get_size size (\rank K)) (\rank K) K (fun ys => (f [seq val y | y <- ys])%:C%C).
Proof.
move=> sr; rewrite /cproj_dpp_sampler_kernel_Chol crint.
have szr : (get_size size (\rank K) <= \rank K)%N by case: size sr => //=.
have arrE (a b : 'I_N) : carr K a b = K a b by rewrite /carr !valK.
rewrite (@cChol_loopE _ _ K K _ _ _ _ _ _ _ 1%g) ?subn0 //.
- exact: P.1.
- by rewrite hproj_trace_rank.
split=> // [a|a _|a b _|a b _ _]; rewrite ?perm1 ?arrE //.
by rewrite big_ord0 subr0.
Qed.

Theorem C79_Chol_complex_ordered_law size (ys : seq 'I_N) : size_ok size (\rank K) ->
  (Pr (cproj_dpp_sampler_kernel_Chol K size) (fun X => X == [seq val y | y <- ys]))%:C%C =
  if seq.size ys == (if size is Some k then k else \rank K) then pm K ys / (\rank K ^_ seq.size ys)%:R else 0.
Proof.
move=> sz; rewrite /Pr cChol_E //.
transitivity (cchainE (get_size size (\rank K)) (\rank K) K (fun zs => (zs == ys)%:R)).
  by apply: eq_cchainE => zs; rewrite inj_vals rmorph_nat.
rewrite cchainE_law ?hproj_trace_rank //; last by case: size sz.
by case: eqP => // ->.
Qed.

Theorem C79_Chol_complex_set_law size (S : {set 'I_N}) : size_ok size (\rank K) ->
  (Pr (cproj_dpp_sampler_kernel_Chol K size) (fun X => set_of N X == S))%:C%C =
  if #|S| == (if size is Some k then k else \rank K) then pmS K S / 'C(\rank K, #|S|)%:R else 0.
Proof.
move=> sz; rewrite /Pr cChol_E //.
transitivity (cchainE (get_size size (\rank K)) (\rank K) K (fun zs => (items zs == S)%:R)).
  by apply: eq_cchainE => zs; rewrite set_of_val rmorph_nat.
rewrite cchainE_set ?hproj_trace_rank //; last by case: size sz.
by case: eqP => // ->.
Qed.

Theorem C79_Chol_complex_marginals (T : {set 'I_N}) :
  (Pr (cproj_dpp_sampler_kernel_Chol K None) (fun X => T \subset set_of N X))%:C%C = pmS K T.
Proof.
rewrite /Pr cChol_E // -(@cchainE_subset _ _ (\rank K)) ?hproj_trace_rank //.
by apply: eq_cchainE => zs; rewrite set_of_val rmorph_nat.
Qed.

Theorem C79_Chol_complex_never_fails size : size_ok size (\rank K) ->
  total (cproj_dpp_sampler_kernel_Chol K size) /\ forall e, ~ possible (cproj_dpp_sampler_kernel_Chol K size) (inr e).
Proof.
move=> sz; have t : total (cproj_dpp_sampler_kernel_Chol K size).
  have := cChol_E (fun=> 1) sz; rewrite (cchainE_total P) ?hproj_trace_rank //; last by case: size sz.
  by move/(congr1 (@complex.Re R)).
by split=> // e; exact: total_no_raise.
Qed.

Theorem C79_Chol_complex_valid_items size X : size_ok size (\rank K) ->
  possible (cproj_dpp_sampler_kernel_Chol K size) (inl X) ->
  [/\ uniq X, all (fun x => (x < N)%N) X & seq.size X = (if size is Some k then k else \rank K)].
Proof.
move=> sz pX.
suff : [&& uniq X, all (fun x => (x < N)%N) X & seq.size X == get_size size (\rank K)].
  by case/and3P => ? ? /eqP.
apply: (almost_sure (Q := fun X => [&& uniq X, all (fun x => (x < N)%N) X & seq.size X == get_size size (\rank K)])) pX.
rewrite /Pr; set e := E _ _; suff : e%:C%C = 0 :> C by move/(congr1 (@complex.Re R)).
rewrite {}/e cChol_E // -[RHS](@cchainE_bad _ _ (get_size size (\rank K)) (\rank K) K) ?hproj_trace_rank //.
  apply: eq_cchainE => zs; rewrite (map_inj_uniq val_inj) size_map.
  suff -> : all (fun x => (x < N)%N) [seq val y | y <- zs] by rewrite rmorph_nat.
  by apply/allP => x /mapP[y _ ->] /=.
by case: size sz.
Qed.
End Chol.

(** ** C80: mode 'GS' on complex kernels *)
Section GS.
Variable R : rcfType.
Notation C := (complex R).

(** proj_dpp_sampler_kernel_GS (l.155-219) on a complex array: [c] is an array of floats (np.zeros, l.200), so the assignment
    l.214 keeps the real part of (K[avail, j] - c c) / sqrt(norm_2[j]) (numpy only emits ComplexWarning); norm_2 (l.201) is
    the real diagonal of a Hermitian K and stays real.  All in all the loop only sees the real part of K. *)
Definition cproj_dpp_sampler_kernel_GS N (K : 'M[C]_N) (size : option nat) : prog R (seq 'I_N) :=
  let rank := rint N (complex.Re (\tr K)) in                                                     (* l.193 *)
  let sz := get_size size rank in
  kernel_GS_loop (map_mx (@complex.Re R) K) rank sz sz 0 [::] (fun _ => true) (fun _ _ => 0)
                 (fun i => map_mx (@complex.Re R) K i i).

(** On the complex version of a real projection kernel it is the real sampler (C01). *)
Lemma GS_real N (K : 'M[R]_N) size :
  cproj_dpp_sampler_kernel_GS (map_mx (fun x => x%:C%C) K) size = proj_dpp_sampler_kernel_GS K size.
Proof.
rewrite /cproj_dpp_sampler_kernel_GS /proj_dpp_sampler_kernel_GS.
have -> : map_mx (@complex.Re R) (map_mx (fun x : R => x%:C%C) K) = K by apply/matrixP => i j; rewrite !mxE.
suff -> : complex.Re (\tr (map_mx (fun x : R => x%:C%C) K)) = \tr K by [].
by rewrite /mxtrace raddf_sum; apply: eq_bigr => i _; rewrite mxE.
Qed.

Theorem C80_GS_real_set_law_partial N (K : 'M[R]_N) size (S : {set 'I_N}) : Chain.isproj K -> size_ok size (\rank K) ->
  Pr (cproj_dpp_sampler_kernel_GS (map_mx (fun x => x%:C%C) K) size) (fun X => [set i in X] == S) =
  if #|S| == (if size is Some k then k else \rank K) then Minor.pmS K S / 'C(\rank K, #|S|)%:R else 0.
Proof.
move=> P sz; rewrite GS_real -(P_Proj.C01_GS_set_law P S sz).
have dis : proj_dpp_sampler_kernel K "GS" size = ints (proj_dpp_sampler_kernel_GS K size).
  rewrite /proj_dpp_sampler_kernel /=; case: size sz => [[|s]|] //= sz.
  by rewrite rint_proj // ltnNge sz.
rewrite dis /Pr /ints E_bind; apply: eq_E => ys /=.
by rewrite set_of_val; congr (_ == _)%:R; apply/setP => i; rewrite !inE.
Qed.

(** K = I - v v* / 3 with v = (1, i, 1) *)
Definition vC (k : nat) : C := if k == 1%N then 'i%C else 1.
Definition KC : 'M[C]_3 := \matrix_(i, j) ((i == j)%:R - vC i * conjc (vC j) / 3%:R).

Lemma conj_ii : conjc ('i : C)%C * 'i%C = 1.
Proof.
by rewrite /conjc; apply/eqP; rewrite eq_complex /= !mul0r !mulN1r opprK ?mulr0 ?oppr0 ?addr0 ?add0r ?subr0 !eqxx.
Qed.
Lemma vCn : \sum_(k < 3) conjc (vC k) * vC k = 3%:R.
Proof.
rewrite !big_ord_recl big_ord0 /vC /= /bump /=.
have -> : conjc (1 : C) = 1 by rewrite rmorph1.
rewrite conj_ii.
by rewrite !mulr1 addr0.
Qed.
Lemma KC_hproj : hproj KC.
Proof.
have h3 : 3%:R != 0 :> C by rewrite pnatr_eq0.
have c3 : conjc (3%:R : C) = 3%:R by rewrite rmorph_nat.
split.
  move=> i j; rewrite !mxE eq_sym rmorphB rmorph_nat fmorph_div rmorphM /= conjcK c3; congr (_ - _ / _).
  by rewrite mulrC.
pose v := \col_(k < 3) vC k; pose w := \row_(k < 3) conjc (vC k).
have KE : KC = 1%:M - 3%:R^-1 *: (v *m w).
  by apply/matrixP => i j; rewrite !mxE big_ord1 !mxE [RHS]addrC mulrC addrC.
have wv : w *m v = (3%:R)%:M.
  apply/matrixP => i j; rewrite !ord1 !mxE eqxx mulr1n -vCn; apply: eq_bigr => k _; by rewrite !mxE.
have vw2 : (3%:R^-1 *: (v *m w)) *m (3%:R^-1 *: (v *m w)) = 3%:R^-1 *: (v *m w).
  rewrite -scalemxAl -scalemxAr; congr (_ *: _).
  by rewrite mulmxA -(mulmxA v) wv mul_mx_scalar -scalemxAl scalerA mulVf // scale1r.
by rewrite KE mulmxBl mul1mx mulmxBr mulmx1 vw2 subrr subr0.
Qed.
Lemma KC_tr : \tr KC = 2%:R.
Proof.
have h3 : 3%:R != 0 :> C by rewrite pnatr_eq0.
rewrite /mxtrace; under eq_bigr do rewrite mxE eqxx [vC _ * _]mulrC.
rewrite sumrB -mulr_suml vCn divff // sumr_const card_ord -[1 *+ 3]/(3%:R).
by rewrite -[X in _ - X]/(1%:R) -natrB.
Qed.
Lemma Re_mulr (z : C) (x : R) : complex.Re (z * x%:C%C) = complex.Re z * x.
Proof. by case: z => u v /=; rewrite mulr0 subr0. Qed.
Lemma Re_vv i j : complex.Re (vC i * conjc (vC j)) = ((i == 1%N) == (j == 1%N))%:R.
Proof.
rewrite /vC /conjc; case: (i == 1%N); case: (j == 1%N) => /=; ring.
Qed.
Lemma KC_re i j : complex.Re (KC i j) = (i == j)%:R - ((val i == 1%N) == (val j == 1%N))%:R / 3%:R.
Proof.
rewrite mxE.
have e3 : (3%:R : C)^-1 = (3%:R^-1 : R)%:C%C by rewrite fmorphV rmorph_nat.
have ed : ((i == j)%:R : C) = ((i == j)%:R : R)%:C%C by rewrite rmorph_nat.
by rewrite e3 ed raddfB /= Re_mulr Re_vv.
Qed.

(** Every second draw of a full sample has weights whose sum is not 1. *)
Lemma KC_rint : rint 3 (complex.Re (\tr KC)) = 2%N.
Proof.
have -> : complex.Re (\tr KC) = 2%:R by rewrite KC_tr; have <- : (2%:R : R)%:C%C = 2%:R :> C by rewrite rmorph_nat.
by rewrite rint_nat.
Qed.


Let ReK := map_mx (@complex.Re R) KC.
Lemma ReKE i j : ReK i j = (i == j)%:R - ((val i == 1%N) == (val j == 1%N))%:R / 3%:R.
Proof. by rewrite mxE KC_re. Qed.
Definition norm2' (j i : 'I_3) : R :=
  if i != j then ReK i i - (if (i != j) && (0%N == 0%N)
    then (ReK i j - \sum_(s < 0) 0 * 0) / Num.sqrt (ReK j j) else 0) ^+ 2
  else ReK i i.

Lemma KC_second (j : 'I_3) :
  valid_weights [seq i <- enum 'I_3 | i != j] (fun i => `|norm2' j i| / (2%:R - 1%:R)) = false.
Proof.
rewrite /valid_weights; apply/andP=> -[_ /eqP].
have Kjj i : ReK i i = 2%:R / 3%:R.
  by rewrite ReKE !eqxx mulr1n; field.
have n2 i : i != j -> norm2' j i = if (val i == 1%N) == (val j == 1%N) then 2%:R^-1 else 2%:R / 3%:R.
  move=> ij; rewrite /norm2' ij /= !Kjj ReKE (negbTE ij) big_ord0.
  have s0 : Num.sqrt (2%:R / 3%:R : R) ^+ 2 = 2%:R / 3%:R by rewrite sqr_sqrtr // divr_ge0 // ler0n.
  rewrite expr_div_n s0.
  by case: (_ == (_ == _)) => /=; rewrite ?mulr1n ?mulr0n; field.
have e12 : 2%:R - 1%:R = 1 :> R by ring.
rewrite e12 big_filter big_enum_cond /= !big_mkcond /= !big_ord_recl big_ord0 /= !divr1 addr0.
pose g k (kj : bool) : R := if kj then `|if (k == 1%N) == (val j == 1%N) then 2%:R^-1 else 2%:R / 3%:R| else 0.
have gE (i : 'I_3) : (if i != j then `|norm2' j i| else 0) = g (val i) (val i != val j).
  by rewrite /g (inj_eq val_inj); case: ifP => // ij; rewrite n2.
rewrite !gE /=.
have h2 : 0 <= 2%:R^-1 :> R by rewrite invr_ge0 ler0n.
have h23 : 0 <= 2%:R / 3%:R :> R by rewrite divr_ge0 // ler0n.
have c : (2%:R / 3%:R + 2%:R^-1 != 1 :> R) /\ (2%:R / 3%:R + 2%:R / 3%:R != 1 :> R).
  split; apply/eqP => /(congr1 (fun x => x * 6%:R - 6%:R)); rewrite mul1r subrr => /eqP.
    have -> : (2%:R / 3%:R + 2%:R^-1) * 6%:R - 6%:R = 1 :> R by field.
    by rewrite oner_eq0.
  have -> : (2%:R / 3%:R + 2%:R / 3%:R) * 6%:R - 6%:R = 2%:R :> R by field.
  by rewrite pnatr_eq0.
rewrite /g; case: j {gE g n2} => [] [|[|[|//]]] _ /=; rewrite ?ger0_norm // ?add0r ?addr0; apply/eqP.
- by case: c.
- by case: c.
- by rewrite addrC; case: c.
Qed.

(** [rng.choice] raises ValueError at the second draw, whatever the first item was: no sample is ever returned. *)
Theorem C80_GS_complex_refuted :
  [/\ hproj KC, \rank KC = 2%N,
      forall X, ~ possible (cproj_dpp_sampler_kernel_GS KC None) (inl X),
      possible (cproj_dpp_sampler_kernel_GS KC None) (inr ValueError) &
      Pr (cproj_dpp_sampler_kernel_GS KC None) (fun _ => true) = 0].
Proof.
have rk : \rank KC = 2%N.
  by have := hproj_trace_rank KC_hproj; rewrite KC_tr => /eqP; rewrite eqr_nat => /eqP.
have GSE : cproj_dpp_sampler_kernel_GS KC None = Choice [seq i <- enum 'I_3 | true]
    (fun i => `|ReK i i| / (2%:R - 0%:R))
    (fun j => Choice [seq i <- enum 'I_3 | i != j] (fun i => `|norm2' j i| / (2%:R - 1%:R)) (fun i => Ret [:: j; i])).
  by rewrite /cproj_dpp_sampler_kernel_GS KC_rint /=.
have v0 : valid_weights [seq i <- enum 'I_3 | true] (fun i => `|ReK i i| / (2%:R - 0%:R)).
  rewrite /valid_weights; apply/andP; split.
    by apply/allP => i _; rewrite divr_ge0 // subr0 ler0n.
  rewrite filter_predT big_enum /=.
  have e i : `|ReK i i| / (2%:R - 0%:R) = 3%:R^-1.
    by rewrite ReKE !eqxx mulr1n ger0_norm ?subr_ge0 ?ler_pdivr_mulr ?ltr0n // ?mul1r ?ler1n //; field.
  by under eq_bigr do rewrite e; rewrite sumr_const card_ord -[_ *+ 3]mulr_natr mulVf // pnatr_eq0.
split=> //.
- exact: KC_hproj.
- move=> X; rewrite GSE /= v0 => -[s1 [x [s2 [_ _]]]]; by rewrite KC_second.
- rewrite GSE /= v0; exists [::], ord0, (behead [seq i <- enum 'I_3 | true]); split.
  + by rewrite filter_predT enum_ordS.
  + rewrite ReKE !eqxx mulr1n; rewrite subr0; apply: divr_gt0; last by rewrite ltr0n.
    have -> : 1 - 1 / 3%:R = 2%:R / 3%:R :> R by field.
    by rewrite normr_gt0 mulf_eq0 invr_eq0 !pnatr_eq0.
  + by rewrite KC_second.
- rewrite GSE /Pr /= v0 big1_seq // => x _; by rewrite KC_second mulr0.
Qed.
End GS.

(** The Cholesky sampler on the same kernel: the hypotheses of C79 hold and the pair (0, 1) has probability det / 2 = 1/6. *)
Lemma ex_ninth (F : fieldType) (x y : F) : x * y = 1 -> (- (x / 3%:R)) * (- (y / 3%:R)) = 9%:R^-1.
Proof. by move=> e; rewrite mulrNN mulrACA e mul1r -invfM -natrM. Qed.
Lemma ex_sixth (F : fieldType) (p k : F) : 2%:R != 0 :> F -> 3%:R != 0 :> F -> p * k = 9%:R^-1 ->
  (1 - 1 / 3%:R) * ((1 - 1 / 3%:R) - k * p / (1 - 1 / 3%:R)) / 2%:R = 6%:R^-1.
Proof.
move=> h2 h3 e; rewrite [k * p]mulrC e.
have h6 : 6%:R != 0 :> F by rewrite (natrM _ 2 3) mulf_neq0.
have h9 : 9%:R != 0 :> F by rewrite (natrM _ 3 3) mulf_neq0.
have e3 : 1 - 1 / 3%:R = 2%:R / 3%:R :> F by field.
by rewrite e3; field; rewrite h9 h6 h2 h3.
Qed.
Example C79_example (R : rcfType) :
  (Pr (cproj_dpp_sampler_kernel_Chol (KC R) None) (fun X => X == [:: 0; 1]%N))%:C%C = 6%:R^-1.
Proof.
have [P rk _ _ _] := C80_GS_complex_refuted R.
have h2 : 2%:R != 0 :> complex R by rewrite pnatr_eq0.
have h3 : 3%:R != 0 :> complex R by rewrite pnatr_eq0.
have := C79_Chol_complex_ordered_law P (size := None) [:: ord0; lift ord0 ord0] isT.
rewrite /= rk /= /bump /= => ->.
have K00 : KC R ord0 ord0 = 1 - 1 / 3%:R by rewrite mxE eqxx /vC /= rmorph1 mulr1.
have K11 : KC R (lift ord0 ord0) (lift ord0 ord0) = 1 - 1 / 3%:R by rewrite mxE eqxx /vC /= [_ * conjc _]mulrC conj_ii.
have K01 : KC R ord0 (lift ord0 ord0) * KC R (lift ord0 ord0) ord0 = (9%:R)^-1.
  by rewrite !mxE /vC /= !sub0r !mul1r rmorph1 mulr1; apply: ex_ninth; exact: conj_ii.
have n0 : 1 - 1 / 3%:R != 0 :> complex R.
  by have -> : 1 - 1 / 3%:R = 2%:R / 3%:R :> complex R; [field|rewrite mulf_neq0 // invr_eq0].
by rewrite pm_cons ?K00 // pm1 cschurE K11 K00; apply: ex_sixth.
Qed.
Print Assumptions C79_Chol_complex_ordered_law.
Print Assumptions C79_Chol_complex_marginals.
Print Assumptions C79_Chol_complex_never_fails.
Print Assumptions C80_GS_complex_refuted.
