(** * P_Kdpp: properties C09 (elementary symmetric polynomials), C10 (k-DPP eigenvector selection),
      C11 (law of the k-DPP sampler), C51 (k = 0). *)
From Coq Require Import String.
From mathcomp Require Import all_ssreflect all_algebra.
From mathcomp.algebra_tactics Require Import ring.
From Verif Require Import Prob Minor Chain ChainCons ExactModel ProjGS ProjKuTa ProjAll GenKernel Spectral LEnsemble Kdpp CauchyBinet QRex P_Proj P_Gen P_Spectral.
Set Implicit Arguments. Unset Strict Implicit. Unset Printing Implicit Defensive.
Import Order.Theory GRing.Theory Num.Theory.
Local Open Scope ring_scope.

Section C09.
Variable R : rcfType.

Theorem C09_table_entries (lam : seq R) (k i n : nat) : (i <= k)%N -> (n <= size lam)%N ->
  nth 0 (nth [::] (elementary_symmetric_polynomials lam k) i) n =
  \sum_(A : {set 'I_n} | #|A| == i) \prod_(j in A) nth 0 lam j.
Proof. by move=> ik nN; have [_ h] := esp_rows lam ik; rewrite -/(esp lam i n) -h. Qed.

(** the table has exactly k+1 rows of N+1 entries *)
Theorem C09_table_shape (lam : seq R) (k : nat) :
  size (elementary_symmetric_polynomials lam k) = k.+1 /\
  forall i, (i <= k)%N -> size (nth [::] (elementary_symmetric_polynomials lam k) i) = (size lam).+1.
Proof. by split=> [|i ik]; [exact: size_esp|have [] := esp_rows lam ik]. Qed.

(** the last column evaluates the coefficients of prod_j (1 + lam_j X) *)
Theorem C09_generating_polynomial (lam : seq R) (k i : nat) : (i <= k)%N ->
  nth 0 (nth [::] (elementary_symmetric_polynomials lam k) i) (size lam) =
  (\prod_(l <- lam) (1 + l *: 'X))`_i.
Proof.
move=> ik; rewrite C09_table_entries // (big_nth 0) big_mkord.
rewrite -/(esp lam i (size lam)); elim: (size lam) i {ik} => [|n IH] [|i].
- by rewrite esp0 big_ord0 coefC.
- by rewrite espS0 big_ord0 coefC.
- by rewrite esp0 big_ord_recr /= mulrDr mulr1 -scalerAr coefD coefZ coefMX mulr0 addr0 -IH esp0.
by rewrite esp_rec big_ord_recr /= mulrDr mulr1 -scalerAr coefD coefZ coefMX /= -!IH.
Qed.
End C09.

Section C10.
Variables (R : rcfType) (eps : R) (N : nat) (lam : seq R) (k : nat) (E_poly : option (seq (seq R))).
Hypothesis eps0 : 0 <= eps.
Hypothesis l0 : all (fun l => 0 <= l) lam.
Hypothesis k0 : (0 < k)%N.
(** the cached table, when given, is the one of these eigenvalues for a size at least k *)
Hypothesis tab : match E_poly with None => True
  | Some T => exists2 s, (k <= s)%N & T = elementary_symmetric_polynomials lam s end.

(** eigenvalues that numpy considers positive: l > max(lam) * N * eps *)
Definition numerical_rank : nat := count (fun l => foldr Order.max 0 lam * N%:R * eps < l) lam.

Definition e_ (n : nat) : R := \sum_(A : {set 'I_(size lam)} | #|A| == n) \prod_(j in A) nth 0 lam j.

Lemma foldl_maxE (x : R) s : all (fun l => 0 <= l) s -> 0 <= x -> foldl Order.max x s = Order.max x (foldr Order.max 0 s).
Proof.
elim: s x => [|y s IH] x /=; first by move=> _ x0; rewrite max_l.
move=> /andP[y0 s0] x0; rewrite IH //; first by rewrite maxA.
by rewrite le_maxr x0.
Qed.

Lemma tol_ge0 : 0 <= foldr Order.max 0 lam * N%:R * eps.
Proof.
rewrite !mulr_ge0 ?ler0n //; by elim: lam => //= l s IH; rewrite le_maxr IH orbT.
Qed.

Lemma selectorE : k_dpp_eig_vecs_selector eps N lam k E_poly =
  if (numerical_rank < k)%N then Raise ValueError
  else k_dpp_loop lam (if E_poly is Some T then T else elementary_symmetric_polynomials lam k) k (size lam) [::].
Proof.
rewrite /k_dpp_eig_vecs_selector /numerical_rank; move: l0 tab.
case: lam => [|x s]; first by rewrite k0.
by move=> /= /andP[x0 s0] _; rewrite foldl_maxE.
Qed.

Lemma esp_pos_count j n : (j <= count (fun l : R => 0%R < l)%R (take n lam))%N -> (n <= size lam)%N -> 0 < esp lam j n.
Proof.
elim: n j => [|n IH] [|j]; rewrite ?esp0 ?ltr01 //; first by rewrite take0.
move=> h nN; rewrite esp_rec; rewrite (take_nth 0) // -cats1 count_cat /= addn0 in h.
have l0n := nth_ge0 l0 n.
have [p|p] := ltP 0 (nth 0 lam n).
  apply: ltr_paddl; first exact: esp_ge0.
  apply: mulr_gt0 => //; apply: IH; last exact: ltnW.
  by move: h; rewrite p addn1 ltnS.
apply: ltr_paddr; first by apply: mulr_ge0 => //; exact: esp_ge0.
by apply: IH; [move: h; rewrite ltNge p addn0|exact: ltnW].
Qed.

Lemma rank_pos : (k <= numerical_rank)%N -> 0 < esp lam k (size lam).
Proof.
move=> h; apply: esp_pos_count => //; rewrite take_size; apply: leq_trans h _.
by apply: sub_count => x /(le_lt_trans tol_ge0).
Qed.

Lemma selector_E f : (k <= numerical_rank)%N ->
  E (k_dpp_eig_vecs_selector eps N lam k E_poly) f = W lam k (size lam) f / esp lam k (size lam).
Proof.
move=> h; have ep := rank_pos h; rewrite selectorE ltnNge h /=.
have [s ks ->] : exists2 s, (k <= s)%N & (if E_poly is Some T then T else elementary_symmetric_polynomials lam k) =
    elementary_symmetric_polynomials lam s by case: E_poly tab => [T|_]; [|exists k].
case: k k0 ks h ep => // k' _ ks h ep.
have TE i n : (i <= s)%N -> (n <= size lam)%N -> tget (elementary_symmetric_polynomials lam s) i n = esp lam i n.
  by move=> ik nN; have [_ ->] := esp_rows lam ik.
rewrite (loop_E l0 (size_esp lam s) TE) //; by congr (_ / _); apply: eq_bigr => A _; rewrite cats0.
Qed.

(** law: the increasing list of the elements of J is returned with probability prod_J lam / e_k(lam) *)
Theorem C10_law (J : {set 'I_(size lam)}) : (k <= numerical_rank)%N ->
  Pr (k_dpp_eig_vecs_selector eps N lam k E_poly) (fun s => s == [seq val i | i <- enum J]) =
  if #|J| == k then (\prod_(j in J) nth 0 lam j) / e_ k else 0.
Proof.
move=> h; rewrite /Pr selector_E // /W; case: ifP => cJ.
  congr (_ / _); rewrite (bigD1 J) //= big1 ?addr0.
    by rewrite -/(vals J) eqxx mulr1 prod_vals.
  by move=> A /andP[_ nA]; rewrite -/(vals J) (inj_eq (@vals_inj _)) (negbTE nA) mulr0.
rewrite big1 ?mul0r // => A cA; rewrite -/(vals J) (inj_eq (@vals_inj _)).
by case: eqP => [AJ|_]; rewrite ?mulr0 //; rewrite AJ cJ in cA.
Qed.

Theorem C10_never_fails : (k <= numerical_rank)%N ->
  total (k_dpp_eig_vecs_selector eps N lam k E_poly) /\
  forall e, ~ possible (k_dpp_eig_vecs_selector eps N lam k E_poly) (inr e).
Proof.
move=> h; have t : total (k_dpp_eig_vecs_selector eps N lam k E_poly).
  by rewrite /total selector_E // -espW divff // gt_eqF // rank_pos.
by split=> // e; exact: total_no_raise.
Qed.

(** every result on every path: exactly k distinct in-range indices, in increasing order, with positive eigenvalues *)
Theorem C10_valid s : possible (k_dpp_eig_vecs_selector eps N lam k E_poly) (inl s) ->
  [/\ size s = k, sorted ltn s, all (fun i => (i < size lam)%N) s & all (fun i => 0 < nth 0 lam i) s].
Proof.
move=> ps; have h : (k <= numerical_rank)%N by rewrite leqNgt; apply/negP => h; rewrite selectorE h in ps.
pose Q s := [&& size s == k, sorted ltn s, all (fun i => (i < size lam)%N) s & all (fun i => 0 < nth 0 lam i) s].
suff : Q s by case/and4P => /eqP ? ? ? ?.
apply: (almost_sure (Q := Q) _ ps); rewrite /Pr selector_E // /W big1 ?mul0r // => A /eqP cA.
rewrite /Q size_vals cA eqxx vals_sorted /=.
have -> /= : all (fun i => (i < size lam)%N) (vals A) by apply/allP => x /vals_lt.
case: allP => [_|/allP/allPn[i iA]]; first by rewrite mulr0.
rewrite -leNgt => li; suff -> : wt lam (vals A) = 0 by rewrite mul0r.
have z : nth 0 lam i = 0 by apply/eqP; rewrite eq_le li nth_ge0.
by rewrite /wt (big_rem i) //= z mul0r.
Qed.

Theorem C10_refuses_iff :
  possible (k_dpp_eig_vecs_selector eps N lam k E_poly) (inr ValueError) <-> (numerical_rank < k)%N.
Proof.
split=> [|h]; last by rewrite selectorE h.
by move=> p; rewrite ltnNge; apply/negP => h; have [_ /(_ ValueError)] := C10_never_fails h.
Qed.
End C10.

(** with exact arithmetic (eps = 0) the numerical rank is the number of positive eigenvalues *)
Theorem C10_rank_exact (R : rcfType) N (lam : seq R) : numerical_rank 0 N lam = count (fun l => 0 < l) lam.
Proof. by rewrite /numerical_rank mulr0. Qed.

Section C11.
Variables (R : rcfType) (N : nat).
Variable qr : forall r : nat, 'M[R]_(N, r) -> 'M[R]_(N, r).
Hypothesis qrP : qr_contract qr.
Variables (L : 'M[R]_N) (lam : seq R) (vs : seq 'cV[R]_N) (mode : string).
Hypothesis dec : spectral_decomposition L lam vs.
Hypothesis l0 : all (fun g => 0 <= g) lam.
Hypothesis md : mode = "GS"%string \/ mode = "GS_bis"%string \/ mode = "KuTa12"%string.
Variables (eps : R) (k : nat) (E_poly : option (seq (seq R))).
Hypothesis eps0 : 0 <= eps.
Hypothesis k0 : (0 < k)%N.
Hypothesis kr : (k <= numerical_rank eps N lam)%N.
Hypothesis tab : match E_poly with None => True
  | Some T => exists2 s, (k <= s)%N & T = elementary_symmetric_polynomials lam s end.

Let samp := k_dpp_sampler_eig qr eps lam vs k E_poly mode.

Lemma sel_sub (A : {set 'I_(size lam)}) : subseq [seq nth 0 vs i | i <- vals A] vs.
Proof.
case: dec => sz _ _.
have {2}-> : vs = [seq nth 0 vs i | i <- iota 0 (size lam)].
  by rewrite sz map_nth_iota0 // take_size.
apply: map_subseq; rewrite -val_enum_ord; apply: map_subseq; rewrite {1}/enum_mem.
by rewrite [enum 'I__]enumT; apply: filter_subseq.
Qed.

Lemma samp_E f : E samp f = (\sum_(A : {set 'I_(size lam)} | #|A| == k)
   (\prod_(j in A) nth 0 lam j) * E (proj_dpp_sampler_eig qr (colmx [seq nth 0 vs i | i <- vals A]) mode None) f) /
   e_ lam k.
Proof.
rewrite /samp /k_dpp_sampler_eig E_bind selector_E //; congr (_ / _).
by apply: eq_bigr => A _; rewrite prod_vals.
Qed.

Lemma e_pos : 0 < e_ lam k.
Proof. exact: (rank_pos eps0 l0 kr). Qed.

Theorem C11_never_fails : total samp /\ forall e, ~ possible samp (inr e).
Proof.
have t : total samp.
  rewrite /total samp_E.
  rewrite (eq_bigr (fun A : {set 'I_(size lam)} => \prod_(j in A) nth 0 lam j)); first by rewrite divff // gt_eqF ?e_pos.
  move=> A cA; case: dec => sz o _; rewrite (eig_total qrP (ortho_sub (sel_sub A) o) md (size := None)) ?mulr1 //.
by split=> // e; exact: total_no_raise.
Qed.

Lemma pm_gram (ys : seq 'I_N) (J : seq nat) :
  pm (colmx [seq nth 0 vs i | i <- J] *m (colmx [seq nth 0 vs i | i <- J])^T) ys =
  \det (\sum_(i <- J) (\col_a nth 0 vs i (tnth (in_tuple ys) a) 0) *m (\row_a nth 0 vs i (tnth (in_tuple ys) a) 0)).
Proof.
rewrite colmx_gram /pm; congr (\det _); apply/matrixP => a b.
rewrite !mxE !summxE big_map; apply: eq_bigr => i _; by rewrite !mxE !big_ord_recl !big_ord0 !mxE.
Qed.

Lemma pm_L (ys : seq 'I_N) : pm L ys = \det (\sum_(i < size lam) nth 0 lam i *:
   ((\col_a nth 0 vs i (tnth (in_tuple ys) a) 0) *m (\row_a nth 0 vs i (tnth (in_tuple ys) a) 0))).
Proof.
case: dec => sz o ->; rewrite /pm; congr (\det _); apply/matrixP => a b.
rewrite !mxE !summxE sz; apply: eq_bigr => i _.
rewrite !mxE (bigD1 i) //= big1 ?addr0; last by move=> j ji; rewrite !mxE (negbTE ji) mulr0n mulr0.
rewrite !big_ord_recl !big_ord0 !mxE eqxx mulr1n addr0 !(tnth_nth 0) /=; fixeq; ring.
Qed.

Theorem C11_k_dpp_law (S : {set 'I_N}) :
  Pr samp (fun X => items X == S) =
  if #|S| == k then pmS L S / \sum_(A : {set 'I_(size lam)} | #|A| == k) \prod_(j in A) nth 0 lam j else 0.
Proof.
rewrite /Pr samp_E; case: dec => sz o _.
have szA (A : {set 'I_(size lam)}) : size [seq nth 0 vs i | i <- vals A] = #|A| by rewrite size_map size_vals.
case: ifP => cS; last first.
  rewrite big1 ?mul0r // => A /eqP cA; rewrite -/(Pr _ _) (eig_set qrP (ortho_sub (sel_sub A) o) md (size := None)) //=.
  by rewrite [X in _ == X]szA cA cS mulr0.
congr (_ / _); rewrite /pmS pm_L.
rewrite (@cauchy_binet _ lam _ _ (fun i => \col_a nth 0 vs i (tnth (in_tuple (enum S)) a) 0) (fun i => \row_a nth 0 vs i (tnth (in_tuple (enum S)) a) 0)).
have sk : seq.size (enum S) = k by rewrite -cardE (eqP cS).
rewrite /W; apply: eq_big => [A|A /eqP cA]; first by rewrite sk.
rewrite -/(Pr _ _) (eig_set qrP (ortho_sub (sel_sub A) o) md (size := None)) //= [X in _ == X]szA cA cS.
by rewrite [X in ('C(X, _))]szA cA (eqP cS) binn divr1 prod_vals /pmS pm_gram.
Qed.

Theorem C11_valid X : possible samp (inl X) -> uniq X /\ size X = k.
Proof.
rewrite /samp /k_dpp_sampler_eig => h; have [s ps pX] := bind_possible h.
have [sk so al _] := C10_valid eps0 l0 k0 tab ps.
have [A AE] := vals_surj so al; case: dec => sz o _; rewrite -AE in pX.
have [u e] := eig_valid qrP (ortho_sub (sel_sub A) o) md (size := None) isT pX.
by split=> //; rewrite e /= size_map AE.
Qed.

(** the normalisation constant is the sum of the principal minors of order k *)
Theorem C11_normalisation :
  \sum_(A : {set 'I_(size lam)} | #|A| == k) \prod_(j in A) nth 0 lam j = \sum_(S : {set 'I_N} | #|S| == k) pmS L S.
Proof.
have [t _] := C11_never_fails.
have h : 1 = \sum_(S : {set 'I_N}) Pr samp (fun X => items X == S).
  rewrite -t /Pr -E_sum; apply: eq_E => X; rewrite (bigD1 (items X)) //= eqxx big1 ?addr0 //.
  by move=> S; rewrite eq_sym => /negbTE ->.
move: h; under eq_bigr do rewrite C11_k_dpp_law; rewrite -big_mkcond /= -mulr_suml.
move=> h; have ep := e_pos; rewrite -/(e_ lam k) in h *.
by rewrite -[LHS]mul1r h mulfVK // gt_eqF.
Qed.
End C11.

(** ** C51: size 0.  The 0-DPP is the empty set with probability one; the code does not deliver it:
    with a positive eigenvalue phase 1 raises IndexError with positive probability, and with an eigenvalue >= 1 always. *)
Section C51.
Variables (R : rcfType) (eps : R) (N : nat).

Lemma loop0_false lam n : Pr (k_dpp_loop (R := R) lam (elementary_symmetric_polynomials lam 0) 0 n [::]) (fun _ => true) =
  \prod_(j < n) (1 - clip (nth 0 lam j * (tget (elementary_symmetric_polynomials lam 0) 0 j / tget (elementary_symmetric_polynomials lam 0) 0 j.+1))).
Proof.
rewrite /Pr; elim: n => [|n IH]; first by rewrite big_ord0.
by rewrite big_ord_recr /= mulr0 add0r /= IH mulrC mulrA.
Qed.

Lemma tget0 (lam : seq R) j : (j <= size lam)%N -> tget (elementary_symmetric_polynomials lam 0) 0 j = 1.
Proof. by move=> h; have [_ ->] := esp_rows lam (leqnn 0); rewrite ?esp0. Qed.

Theorem C51_success_probability_partial (lam : seq R) : (0 < size lam)%N -> 
  Pr (k_dpp_eig_vecs_selector eps N lam 0 None) (fun s => s == [::]) = \prod_(l <- lam) (1 - clip l).
Proof.
move=> s0; rewrite (big_nth 0) big_mkord.
have -> : k_dpp_eig_vecs_selector eps N lam 0 None = k_dpp_loop lam (elementary_symmetric_polynomials lam 0) 0 (size lam) [::].
  by case: lam s0.
transitivity (Pr (k_dpp_loop lam (elementary_symmetric_polynomials lam 0) 0 (size lam) [::]) (fun _ => true)).
  rewrite /Pr; elim: (size lam) => //= n IH.
  by rewrite IH.
rewrite loop0_false; apply: eq_bigr => j _; rewrite !tget0 ?divr1 ?mulr1 //; exact: ltnW.
Qed.

Theorem C51_size_zero_refuted (lam : seq R) : has (fun l => 1 <= l) lam ->
  forall s, ~ possible (k_dpp_eig_vecs_selector eps N lam 0 None) (inl s).
Proof.
move=> h s ps; have s0 : (0 < size lam)%N by case: lam h {ps}.
have := C51_success_probability_partial s0.
have -> : \prod_(l <- lam) (1 - clip l) = 0.
  elim: lam h {ps s0} => //= l lam IH /orP[l1|/IH e]; rewrite big_cons ?e ?mulr0 //.
  by rewrite /clip leNgt (lt_le_trans ltr01 l1) /= l1 subrr mul0r.
have e0 : s == [::].
  move: ps; have -> : k_dpp_eig_vecs_selector eps N lam 0 None = k_dpp_loop lam (elementary_symmetric_polynomials lam 0) 0 (size lam) [::].
    by case: lam s0 {h}.
  elim: (size lam) => /= [[->] //|n IH] [[_ //]|[_]]; exact: IH.
by move=> z; have := possible_pos (Q := fun s => s == [::]) ps e0; rewrite z ltxx.
Qed.
End C51.

Section Example.
Variable R : rcfType.
Definition gex : seq R := [:: 2%:R; 3%:R].
Example C10_instance : [/\ all (fun l : R => 0 <= l) gex, (1 <= numerical_rank 0 3 gex)%N & (2 <= numerical_rank 0 3 gex)%N].
Proof.
rewrite C10_rank_exact /= !ltr0n !ler0n; by split.
Qed.
Example C11_instance : exists L, spectral_decomposition L gex (vex R) /\ (1 <= numerical_rank 0 3 gex)%N.
Proof.
exists (colmx (vex R) *m diag_mx (\row_(i < size (vex R)) nth 0 gex i) *m (colmx (vex R))^T); split; first by split=> //; exact: vex_ortho.
by have [] := C10_instance.
Qed.
Example C09_instance : nth 0 (nth [::] (elementary_symmetric_polynomials [:: 2%:R; 3%:R; 5%:R] 2) 2) 3 = 31%:R :> R.
Proof. by rewrite /= ; fixeq; ring. Qed.
Example C51_instance : has (fun l => 1 <= l) gex.
Proof. by rewrite /= ler1n. Qed.
End Example.

Print Assumptions C09_table_entries.
Print Assumptions C10_law.
Print Assumptions C11_k_dpp_law.
Print Assumptions C51_size_zero_refuted.
