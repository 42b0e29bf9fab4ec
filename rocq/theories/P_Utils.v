(** * P_Utils: properties C39 (checks of eigenvalues) and C40 (checks of matrices) of dppy/utils.py. *)
From mathcomp Require Import all_ssreflect all_algebra.
From mathcomp.algebra_tactics Require Import ring.
From Verif Require Import Prob Minor Chain UtilsModel.
Set Implicit Arguments. Unset Strict Implicit. Unset Printing Implicit Defensive.
Import Order.Theory GRing.Theory Num.Theory.
Local Open Scope ring_scope.

Section C39.
Variable R : rcfType.
Implicit Types (v : seq R) (x : R).

(** the documented tolerance *)
Local Notation tol := ((10 ^ 8)%:R^-1 : R).

Lemma tol_gt0 : 0 < tol. Proof. by rewrite invr_gt0 ltr0n expn_gt0. Qed.

Theorem C39_none : is_in_01 None = inl None :> option (seq R) + exn /\ is_geq_0 None = inl None :> option (seq R) + exn /\
  is_equal_to_O_or_1 None = inl None :> option (seq R) + exn.
Proof. by []. Qed.

Lemma checkedP A (P : pred A) a :
  (checked P (Some a) = inl (Some a) <-> P a) /\ (checked P (Some a) = inr ValueError <-> ~~ P a).
Proof. by rewrite /checked; case: (P a). Qed.

Lemma checked_all (P Q : pred R) v : (forall x, P x = Q x) ->
  (checked (all P) (Some v) = inl (Some v) <-> forall x, x \in v -> Q x) /\
  (checked (all P) (Some v) = inr ValueError <-> exists2 x, x \in v & ~~ Q x).
Proof.
move=> e; have [-> ->] := checkedP (all P) v; split.
  by split=> [/allP h x /h|h]; [rewrite e|apply/allP => x /h; rewrite e].
by split=> [/allPn[x xv]|[x xv nx]]; [rewrite e; exists x|apply/allPn; exists x; rewrite ?e].
Qed.

Theorem C39_is_in_01 v :
  (is_in_01 (Some v) = inl (Some v) <-> forall x, x \in v -> - tol <= x <= 1 + tol) /\
  (is_in_01 (Some v) = inr ValueError <-> exists2 x, x \in v & ~~ (- tol <= x <= 1 + tol)).
Proof. exact: checked_all. Qed.

Theorem C39_is_geq_0 v :
  (is_geq_0 (Some v) = inl (Some v) <-> forall x, x \in v -> - tol <= x) /\
  (is_geq_0 (Some v) = inr ValueError <-> exists2 x, x \in v & ~~ (- tol <= x)).
Proof. exact: checked_all. Qed.

(** the exclusive or of the code is an or: no number is close to both 0 and 1 *)
Theorem C39_is_equal_to_O_or_1 v :
  (is_equal_to_O_or_1 (Some v) = inl (Some v) <-> forall x, x \in v -> (`|x - 0| <= tol) || (`|x - 1| <= tol)) /\
  (is_equal_to_O_or_1 (Some v) = inr ValueError <-> exists2 x, x \in v & ~~ ((`|x - 0| <= tol) || (`|x - 1| <= tol))).
Proof.
apply: checked_all => x; rewrite subr0 /tol8 distrC.
case h1: (`|x| <= tol); case h2: (`|x - 1| <= tol) => //=.
have h : 1 <= tol + tol.
  rewrite -[X in X <= _](normr1 R) -[X in `|X|](subrK x 1); apply: le_trans (ler_norm_add _ _) _.
  by rewrite distrC ler_add.
have t0 : 0 < (10 ^ 8)%:R :> R by rewrite ltr0n expn_gt0.
have : (10 ^ 8)%:R <= 2%:R :> R.
  by move: h; rewrite -mulr2n -[_ *+ 2]mulr_natl ler_pdivl_mulr // mul1r.
rewrite ler_nat leqNgt; have -> // : (2 < 10 ^ 8)%N.
by apply: (@leq_trans (10 ^ 1)) => //; rewrite leq_exp2l.
Qed.
End C39.

(** ** C40 *)
Section C40.
Variable R : rcfType.

(** numpy's np.isclose *)
Definition close (a b : R) : Prop := `|a - b| <= (10 ^ 8)%:R^-1 + (10 ^ 5)%:R^-1 * `|b|.

Lemma close_refl (a : R) : isclose a a.
Proof. by rewrite /isclose subrr normr0 addr_ge0 ?mulr_ge0 ?normr_ge0 // /atol /rtol invr_ge0 ler0n. Qed.

Lemma entryE m n (M : 'M[R]_(m, n)) (i : 'I_m) (j : 'I_n) : entry M i j = M i j.
Proof. by rewrite /entry !insubT //= => ? ?; congr (M _ _); apply: val_inj. Qed.

Lemma iota_min k n (i : nat) : (i \in iota 0 (minn k n)) = (i < k)%N && (i < n)%N.
Proof. by rewrite mem_iota add0n leq_min. Qed.

(** what is_symmetric tests: a square matrix whose leading 20 x 20 block is symmetric up to rounding *)
Theorem C40_is_symmetric_partial n (M : 'M[R]_n) :
  (is_symmetric (Some M) = inl (Some M) <-> forall i j : 'I_n, (i < 20)%N -> (j < 20)%N -> close (M j i) (M i j)) /\
  (is_symmetric (Some M) = inl (Some M) \/ is_symmetric (Some M) = inr ValueError).
Proof.
split; last by rewrite /is_symmetric /checked; case: ifP; [left|right].
have [h _] := checkedP (fun M : 'M[R]_n => (n == n) && all (fun i => all (fun j => isclose (entry M j i) (entry M i j)) (iota 0 (minn 20 n)))
                                    (iota 0 (minn 20 n))) M.
rewrite {}h eqxx /=; split.
  move=> /allP h i j i20 j20; rewrite -!entryE; apply: (allP (h i _)); by rewrite iota_min ?i20 ?j20 /=.
move=> h; apply/allP => i; rewrite iota_min => /andP[i20 iN]; apply/allP => j; rewrite iota_min => /andP[j20 jN].
by have := h (Ordinal iN) (Ordinal jN) i20 j20; rewrite -!entryE.
Qed.

Theorem C40_not_square m n (M : 'M[R]_(m, n)) : m != n ->
  is_symmetric (Some M) = inr ValueError /\ is_projection (Some M) = inr ValueError.
Proof. by move=> /negbTE h; rewrite /is_symmetric /is_projection /checked /= h. Qed.

(** what is_projection tests: the squared norms of the first 20 columns equal the diagonal entries, up to rounding *)
Theorem C40_is_projection_partial n (M : 'M[R]_n) :
  (is_projection (Some M) = inl (Some M) <-> forall j : 'I_n, (j < 20)%N -> close (\sum_i M i j ^+ 2) (M j j)) /\
  (is_projection (Some M) = inl (Some M) \/ is_projection (Some M) = inr ValueError).
Proof.
split; last by rewrite /is_projection /checked; case: ifP; [left|right].
have [h _] := checkedP (fun M : 'M[R]_n => (n == n) && all (fun j => isclose (\sum_(i < n) entry M i j * entry M i j) (entry M j j))
                                    (iota 0 (minn 20 n))) M.
have e (j : 'I_n) : \sum_(i < n) entry M i j * entry M i j = \sum_i M i j ^+ 2.
  by apply: eq_bigr => i _; rewrite entryE expr2.
rewrite {}h eqxx /=; split.
  by move=> /allP h j j20; have := h j; rewrite iota_min j20 /= e entryE => /(_ (ltn_ord j)).
move=> h; apply/allP => j; rewrite iota_min => /andP[j20 jN].
by have := h (Ordinal jN) j20; rewrite -e -entryE.
Qed.

Theorem C40_is_orthonormal_columns_partial N (U : seq 'cV[R]_N) :
  (is_orthonormal_columns (Some U) = inl (Some U) <->
    forall i j, (i < 5)%N -> (j < 5)%N -> (i < size U)%N -> (j < size U)%N ->
      close (((nth 0 U i)^T *m nth 0 U j) 0 0) (i == j)%:R) /\
  (is_orthonormal_columns (Some U) = inl (Some U) \/ is_orthonormal_columns (Some U) = inr ValueError).
Proof.
split; last by rewrite /is_orthonormal_columns /checked; case: ifP; [left|right].
set P := fun U : seq 'cV[R]_N => all (fun i => all (fun j => isclose (\sum_(k < N) (nth (0 : 'cV[R]_N) U i) k 0 * (nth (0 : 'cV[R]_N) U j) k 0) (i == j)%:R)
                                      (iota 0 (minn 5 (size U)))) (iota 0 (minn 5 (size U))).
have [h _] := checkedP P U; rewrite {}h /P.
have e i j : (((nth 0 U i)^T *m nth 0 U j) 0 0) = \sum_(k < N) (nth (0 : 'cV[R]_N) U i) k 0 * (nth (0 : 'cV[R]_N) U j) k 0.
  by rewrite mxE; apply: eq_bigr => k _; rewrite mxE.
split.
  by move=> /allP h i j i5 j5 iU jU; rewrite e; apply: (allP (h i _)); rewrite iota_min ?i5 ?j5.
move=> h; apply/allP => i; rewrite iota_min => /andP[i20 iN]; apply/allP => j; rewrite iota_min => /andP[j20 jN].
by have := h i j i20 j20 iN jN; rewrite e.
Qed.

(** valid arguments are accepted, whatever the size *)
Theorem C40_accepts n (M : 'M[R]_n) :
  (M^T = M -> is_symmetric (Some M) = inl (Some M)) /\
  (M^T = M -> M *m M = M -> is_projection (Some M) = inl (Some M)).
Proof.
split.
  move=> sM; apply/(proj1 (C40_is_symmetric_partial M)) => i j _ _.
  have -> : M j i = M i j by rewrite -{1}sM mxE.
  exact: close_refl.
move=> sM pM; apply/(proj1 (C40_is_projection_partial M)) => j _.
have -> : \sum_i M i j ^+ 2 = M j j.
  by rewrite -[RHS](congr1 (fun X : 'M_n => X j j) pM) mxE; apply: eq_bigr => i _; rewrite -[in X in X * _]sM mxE expr2.
exact: close_refl.
Qed.

Theorem C40_accepts_columns N (U : seq 'cV[R]_N) :
  (forall i j, (i < size U)%N -> (j < size U)%N -> ((nth 0 U i)^T *m nth 0 U j) 0 0 = (i == j)%:R) ->
  is_orthonormal_columns (Some U) = inl (Some U).
Proof.
move=> h; apply/(proj1 (C40_is_orthonormal_columns_partial U)) => i j _ _ iU jU.
by rewrite h //; exact: close_refl.
Qed.

(** The claim is false: asymmetries outside the leading block, non projections with the right column norms (even symmetric
    ones), and non orthonormal columns after the fifth are accepted. *)
Theorem C40_symmetric_refuted : exists M : 'M[R]_21, M^T <> M /\ is_symmetric (Some M) = inl (Some M).
Proof.
exists (\matrix_(i, j) ((i == ord_max) && (j == ord0))%:R); split.
  move/matrixP => /(_ ord0 ord_max); rewrite !mxE eqxx /=; apply/eqP; by rewrite oner_eq0.
apply/(proj1 (C40_is_symmetric_partial _)) => i j i20 j20; rewrite !mxE.
have n20 (k : 'I_21) : (k < 20)%N -> (k == ord_max) = false by move=> k20; apply/eqP => e; rewrite e in k20.
by rewrite !n20 //; exact: close_refl.
Qed.

Theorem C40_projection_refuted : exists M : 'M[R]_2,
  [/\ M^T = M, M *m M <> M, is_symmetric (Some M) = inl (Some M), is_projection (Some M) = inl (Some M) &
      exists2 v : 'cV[R]_2, v != 0 & M *m v = (6%:R / 5%:R) *: v].
Proof.
have h5 : 5%:R != 0 :> R by rewrite pnatr_eq0.
pose M : 'M[R]_2 := \matrix_(i, j) (if i == j then 4%:R / 5%:R else 2%:R / 5%:R).
have sM : M^T = M by apply/matrixP => i j; rewrite !mxE eq_sym.
exists M; split=> //.
- move/matrixP => /(_ ord0 ord_max); rewrite !mxE !big_ord_recl big_ord0 !mxE /= => h.
  have : 16%:R = 10%:R :> R by transitivity (25%:R * (4%:R / 5%:R * (2%:R / 5%:R) + (2%:R / 5%:R * (4%:R / 5%:R) + 0)) : R); [fixeq; field|rewrite h; fixeq; field].
  by move/eqP; rewrite eqr_nat.
- by have [h _] := C40_accepts M; exact: h.
- apply/(proj1 (C40_is_projection_partial _)) => j _.
  have -> : \sum_i M i j ^+ 2 = M j j.
    by rewrite !big_ord_recl big_ord0 !mxE; case: j => -[|[|//]] jp; rewrite -![_ == Ordinal _]/(_ == _ :> nat) /=; fixeq; field.
  exact: close_refl.
- exists (\col__ 1); first by apply/eqP => /matrixP /(_ 0 0); rewrite !mxE => /eqP; rewrite oner_eq0.
  by apply/matrixP => i j; rewrite !mxE !big_ord_recl big_ord0 !mxE; case: i => -[|[|//]] ip; rewrite -![_ == _]/(_ == _ :> nat) /=; fixeq; field.
Qed.

Theorem C40_orthonormal_refuted : exists U : seq 'cV[R]_6, [/\ size U = 6%N, nth 0 U 5 = 0 &
  is_orthonormal_columns (Some U) = inl (Some U)].
Proof.
exists [:: delta_mx (inord 0) 0; delta_mx (inord 1) 0; delta_mx (inord 2) 0; delta_mx (inord 3) 0; delta_mx (inord 4) 0; 0].
split=> //; apply/(proj1 (C40_is_orthonormal_columns_partial _)) => i j i5 j5 _ _.
set U := [:: _; _; _; _; _; _].
have nU k : (k < 5)%N -> nth 0 U k = delta_mx (inord k) 0 by case: k => [|[|[|[|[|]]]]].
rewrite !nU // trmx_delta mul_delta_mx_cond.
have -> : (inord i == inord j :> 'I_6) = (i == j).
  by rewrite -(inj_eq val_inj) /= !inordK //; exact: ltn_trans (_ : 5 < 6)%N.
by case: (i == j); rewrite !mxE; exact: close_refl.
Qed.
End C40.

(** Non-vacuity of C39: values on both sides of each test. *)
Section Example.
Variable R : rcfType.
Example C39_instance : is_in_01 (Some [:: 0; 2%:R^-1; 1 : R]) = inl (Some [:: 0; 2%:R^-1; 1 : R]) /\
  is_in_01 (Some [:: 2%:R : R]) = inr ValueError.
Proof.
have t0 := tol_gt0 R; split.
  apply/(proj1 (C39_is_in_01 _)) => x; rewrite !inE => /or3P[] /eqP ->; apply/andP; split.
  - by rewrite oppr_le0 (ltW t0).
  - by rewrite addr_ge0 ?ler01 ?(ltW t0).
  - by apply: (@le_trans _ _ 0); rewrite ?oppr_le0 ?invr_ge0 ?ler0n ?(ltW t0).
  - by apply: (@le_trans _ _ 1); rewrite ?ler_addl ?invf_le1 ?ltr0n ?ler1n ?(ltW t0).
  - by apply: (@le_trans _ _ 0); rewrite ?oppr_le0 ?ler01 ?(ltW t0).
  - by rewrite ler_addl (ltW t0).
apply/(proj2 (C39_is_in_01 _)); exists 2%:R; rewrite ?inE // negb_and -!ltNge; apply/orP; right.
rewrite -[2%:R]/(1 + 1) ltr_add2l invf_lt1 ?ltr0n ?expn_gt0 // ltr1n.
by apply: (@leq_trans (10 ^ 1)) => //; rewrite leq_exp2l.
Qed.
End Example.

Print Assumptions C39_is_equal_to_O_or_1.
Print Assumptions C40_is_projection_partial.
Print Assumptions C40_projection_refuted.
