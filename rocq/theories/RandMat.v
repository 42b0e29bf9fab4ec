(** * RandMat: lemmas on the tridiagonal and quindiagonal models of RandMatModel. *)
From mathcomp Require Import all_ssreflect all_algebra.
From mathcomp.real_closed Require Import complex.
From mathcomp.algebra_tactics Require Import ring.
From Verif Require Import Prob EighEx RandMatModel.
Set Implicit Arguments. Unset Strict Implicit. Unset Printing Implicit Defensive.
Import Order.Theory GRing.Theory Num.Theory.
Local Open Scope ring_scope.

Section Tri.
Variable R : rcfType.

(** bidiagonal factor *)
Definition bid (s : R) (p q : nat -> R) (i k : nat) : R :=
  Num.sqrt (p i) *+ (k == i) + s * Num.sqrt (q i) *+ (i == k.+1).

Lemma bid_sum n s p q (i : nat) (F : nat -> R) : (i < n)%N -> q 0%N = 0 ->
  \sum_(k < n) bid s p q i k * F k = Num.sqrt (p i) * F i + s * Num.sqrt (q i) * F i.-1.
Proof.
move=> lt q0; rewrite /bid.
rewrite (eq_bigr (fun k : 'I_n => (Num.sqrt (p i) * F i) *+ (k == Ordinal lt) +
                                  (s * Num.sqrt (q i) * F i.-1) *+ (i == k.+1))); last first.
  move=> k _; rewrite mulrDl !mulrnAl; congr (_ + _).
    by rewrite -[k == _]/(k == i :> nat); case: eqP => [->|] //; rewrite !mulr0n.
  by case: eqP => [->|]; rewrite ?mulr0n.
rewrite big_split /=; congr (_ + _).
  rewrite (bigD1 (Ordinal lt)) //= eqxx big1 ?addr0 //.
  by move=> k /negbTE ->; rewrite mulr0n.
case: i lt => [|i] lt.
  by rewrite q0 sqrtr0 mulr0 mul0r big1 // => k _; rewrite mul0rn.
have lt' : (i < n)%N by exact: ltnW.
rewrite (bigD1 (Ordinal lt')) //= eqxx big1 ?addr0 //.
move=> k; rewrite -[k == _]/(k == i :> nat) eqSS eq_sym => /negbTE ->; by rewrite mulr0n.
Qed.

Lemma bid_fact n (s : R) (p q : nat -> R) (T : 'M[R]_n) : s * s = 1 -> q 0%N = 0 ->
  (forall i, (i < n)%N -> 0 <= p i) -> (forall i, (i < n)%N -> 0 <= q i) ->
  (forall i : 'I_n, T i i = q i + p i) ->
  (forall i j : 'I_n, j = i.+1 :> nat -> T i j = s * Num.sqrt (p i * q j)) ->
  (forall i j : 'I_n, i = j.+1 :> nat -> T i j = s * Num.sqrt (p j * q i)) ->
  (forall i j : 'I_n, i != j :> nat -> j != i.+1 :> nat -> i != j.+1 :> nat -> T i j = 0) ->
  T = (\matrix_(i < n, k < n) bid s p q i k) *m (\matrix_(i < n, k < n) bid s p q i k)^T.
Proof.
move=> ss q0 p_ge q_ge Td Tu Tl T0; apply/matrixP => i j.
have lti := ltn_ord i; have ltj := ltn_ord j.
have -> : ((\matrix_(i < n, k < n) bid s p q i k) *m (\matrix_(i < n, k < n) bid s p q i k)^T) i j =
          \sum_(k < n) bid s p q i k * bid s p q j k.
  by rewrite mxE; apply: eq_bigr => k _; rewrite !mxE.
rewrite bid_sum // /bid.
have sqm a : 0 <= a -> Num.sqrt a * Num.sqrt a = a by move=> a0; rewrite -expr2 sqr_sqrtr.
have sq_p i0 : (i0 < n)%N -> Num.sqrt (p i0) * Num.sqrt (p i0) = p i0 by move=> /p_ge/sqm.
have sq_q i0 : (i0 < n)%N -> Num.sqrt (q i0) * Num.sqrt (q i0) = q i0 by move=> /q_ge/sqm.
case: (eqVneq (i : nat) j) => [ij|nij].
  have -> : j = i by apply: val_inj.
  rewrite Td.
  have -> : (i == i.+1 :> nat) = false by apply/negbTE; rewrite neq_ltn leqnn.
  rewrite mulr0n addr0 mulr1n sq_p //.
  case e: (i : nat) => [|i'] /=.
    by rewrite q0 sqrtr0 !mulr0 mul0r add0r addr0.
  have -> : (i' == i'.+1 :> nat) = false by apply/negbTE; rewrite neq_ltn leqnn.
  rewrite eqxx mulr1n.
  have := sq_q i lti; rewrite e => E; rewrite -{1}E mulr0n add0r addrC; congr (_ + _).
  by rewrite mulrACA ss mul1r.
have neqS m : (m == m.+1) = false by apply/negbTE; rewrite neq_ltn leqnn.
have neqS' m : (m.+1 == m) = false by rewrite eq_sym neqS.
have [ji|nji] := eqVneq (j : nat) i.+1.
  rewrite (Tu _ _ ji) ji sqrtrM ?p_ge // -ji.
  rewrite mulr0n mulr1n add0r ji.
  case e: (i : nat) => [|m] /=; first by rewrite q0 sqrtr0; ring.
  have -> : (m == m.+2) = false by apply/negbTE; rewrite neq_ltn leqnSn.
  by rewrite eqSS neqS' !mulr0n addr0 mulr0 addr0 mulrCA.
have [ij|nij'] := eqVneq (i : nat) j.+1.
  rewrite (Tl _ _ ij) ij /= eqxx !mulr0n !addr0 mulr0 add0r mulr1n neqS mulr0n addr0 sqrtrM ?p_ge //; ring.
rewrite T0 // !mulr0n addr0 mulr0 add0r.
case e: (i : nat) => [|m] /=; first by rewrite q0 sqrtr0; ring.
have -> : (m == j :> nat) = false by apply/negbTE; move: nij'; rewrite e eqSS.
have -> : (j == m.+1 :> nat) = false by rewrite -e eq_sym; apply/negbTE.
by rewrite !mulr0n addr0 mulr0.
Qed.

Lemma bid_det n (s : R) (p q : nat -> R) : (forall i, (i < n)%N -> 0 <= p i) ->
  let B := \matrix_(i < n, k < n) bid s p q i k in \det (B *m B^T) = \prod_(i < n) p i.
Proof.
move=> p0 B; rewrite det_mulmx det_tr det_trig.
  rewrite -big_split /=; apply: eq_bigr => i _; rewrite mxE /bid eqxx.
  have -> : (i == i.+1 :> nat) = false by apply/negbTE; rewrite neq_ltn leqnn.
  by rewrite mulr0n mulr1n addr0 -expr2 sqr_sqrtr ?p0.
apply/is_trig_mxP => i j lij; rewrite mxE /bid.
have -> : (j == i :> nat) = false by apply/negbTE; rewrite neq_ltn lij orbT.
have -> : (i == j.+1 :> nat) = false by apply/negbTE; rewrite neq_ltn (ltn_trans lij) // leqnn.
by rewrite !mulr0n addr0.
Qed.

Lemma gram_eigen_ge0 n m (B : 'M[R]_(n, m)) x : eigenvalue (B *m B^T) x -> 0 <= x.
Proof.
case/eigenvalueP => v ev nz.
have pos k (u : 'rV[R]_k) : 0 <= (u *m u^T) 0 0.
  by rewrite mxE; apply: sumr_ge0 => i _; rewrite mxE -expr2 sqr_ge0.
have vpos : 0 < (v *m v^T) 0 0.
  rewrite lt_neqAle pos andbT eq_sym; apply/eqP => e; move/eqP: nz; apply.
  apply/rowP => i; rewrite mxE; move: e; rewrite mxE => /eqP; rewrite psumr_eq0; last first.
    by move=> j _; rewrite mxE -expr2 sqr_ge0.
  by move/allP => /(_ i (mem_index_enum _)); rewrite /= mxE mulf_eq0 orbb => /eqP.
have := pos _ (v *m B); rewrite trmx_mul !mulmxA -[v *m B *m B^T]mulmxA ev -scalemxAl mxE.
by rewrite (pmulr_lge0 _ vpos).
Qed.

End Tri.

Section Roots.
Variable F : fieldType.

Definition roots_of n (T : 'M[F]_n) (l : seq F) : Prop := char_poly T = \prod_(x <- l) ('X - x%:P).

Lemma roots_size n (T : 'M[F]_n) l : roots_of T l -> size l = n.
Proof. by move/(congr1 (fun p : {poly F} => size p)); rewrite size_char_poly size_prod_XsubC => -[]. Qed.

Lemma roots_eigen n (T : 'M[F]_n) l x : roots_of T l -> (x \in l) = eigenvalue T x.
Proof. by move=> h; rewrite eigenvalue_root_char h root_prod_XsubC. Qed.

Lemma coef0_prodX (l : seq F) : (\prod_(x <- l) ('X - x%:P))`_0 = (-1) ^+ size l * \prod_(x <- l) x.
Proof.
rewrite -horner_coef0 horner_prod; elim: l => [|a s IH]; first by rewrite !big_nil mul1r.
rewrite !big_cons IH hornerXsubC /= exprS; ring.
Qed.

Lemma coefPn_prodX (l : seq F) : (0 < size l)%N ->
  (\prod_(x <- l) ('X - x%:P))`_(size l).-1 = - \sum_(x <- l) x.
Proof.
elim: l => // a s IH _; rewrite !big_cons mulrBl coefB coefXM coefCM /=.
have lead : (\prod_(x <- s) ('X - x%:P))`_(size s) = 1.
  have := monic_prod_XsubC s predT (fun x : F => x); rewrite monicE lead_coefE size_prod_XsubC /= => /eqP //.
rewrite lead mulr1; case: s IH lead => [|b s] IH lead; first by rewrite !big_nil /= sub0r addr0.
have -> : (size (b :: s) == 0%N) = false by [].
by rewrite IH // opprD addrC.
Qed.

Lemma roots_det n (T : 'M[F]_n) l : roots_of T l -> \prod_(x <- l) x = \det T.
Proof.
move=> h; have := char_poly_det T; rewrite h coef0_prodX (roots_size h).
by move/(congr1 (fun y => (-1) ^+ n * y)); rewrite !mulrA -expr2 sqrr_sign !mul1r.
Qed.

Lemma roots_trace n (T : 'M[F]_n) l : (0 < n)%N -> roots_of T l -> \sum_(x <- l) x = \tr T.
Proof.
move=> n0 h; have := char_poly_trace T n0; rewrite h -{1}(roots_size h) coefPn_prodX ?(roots_size h) //; exact: oppr_inj.
Qed.

Lemma roots_compl n (T : 'M[F]_n) l : roots_of T l -> roots_of (1%:M - T) [seq 1 - x | x <- l].
Proof.
move=> h; rewrite /roots_of big_map.
have -> : char_poly (1%:M - T) = (-1) ^+ n * (char_poly T \Po (1 - 'X)).
  rewrite /char_poly -det_map_mx -detZ; congr (\det _); apply/matrixP => i j; rewrite !mxE /=.
  rewrite comp_polyB comp_polyC polyCB polyCMn; case: (i == j); rewrite ?mulr1n ?mulr0n ?comp_polyX ?comp_poly0; ring.
rewrite h rmorph_prod /= -{1}(roots_size h); elim: (l) => [|a s IH]; first by rewrite !big_nil mul1r.
rewrite !big_cons -IH /= comp_polyB comp_polyX comp_polyC polyCB exprS; ring.
Qed.

Lemma roots_perm (l l' : seq F) : \prod_(x <- l) ('X - x%:P) = \prod_(x <- l') ('X - x%:P) -> perm_eq l l'.
Proof.
elim: l l' => [|a s IH] l' e.
  have := congr1 (fun p : {poly F} => size p) e; rewrite big_nil size_poly1 size_prod_XsubC => -[].
  by case: l' {e}.
have al' : a \in l' by rewrite -root_prod_XsubC -e root_prod_XsubC mem_head.
rewrite perm_sym; apply: perm_trans (perm_to_rem al') _; rewrite perm_cons perm_sym; apply: IH.
move: e; rewrite (perm_big _ (perm_to_rem al')) /= !big_cons; apply: mulfI.
by rewrite polyXsubC_eq0.
Qed.
End Roots.

Section Sym.
Variable R : rcfType.

Lemma sym_roots n (M : 'M[R]_n) : M^T = M -> exists l, roots_of M l.
Proof.
move=> sM; have [P [d o ->]] := real_spectral sM.
exists [seq d 0 j | j <- enum 'I_n]; rewrite /roots_of big_map big_enum /=.
have o' : P *m P^T = 1%:M by apply: mulmx1C.
have -> : char_poly (P *m diag_mx d *m P^T) = \det (map_mx polyC P *m char_poly_mx (diag_mx d) *m map_mx polyC P^T).
  rewrite /char_poly; congr (\det _); rewrite /char_poly_mx mulmxBr mulmxBl !map_mxM; congr (_ - _).
  rewrite -scalemx1 -!scalemxAr -scalemxAl mulmx1 -map_mxM o' map_mx1 scalemx1 //.
rewrite !det_mulmx mulrC mulrA -det_mulmx -map_mxM o map_mx1 det1 mul1r.
rewrite -[RHS]/(\prod_(i < n) ('X - (d 0 i)%:P)).
have -> : char_poly_mx (diag_mx d) = diag_mx (\row_i ('X - (d 0 i)%:P)).
  apply/matrixP => i j; rewrite !mxE; case: (i =P j) => [->|_]; rewrite ?mulr1n ?mulr0n ?subr0 ?subrr //.
by rewrite det_diag; apply: eq_bigr => i _; rewrite mxE.
Qed.

Lemma roots_sumsq n (M : 'M[R]_n) l : M^T = M -> roots_of M l -> \sum_(x <- l) x ^+ 2 = \sum_i \sum_j M i j ^+ 2.
Proof.
move=> sM rt; have [P [d o ME]] := real_spectral sM.
have o' : P *m P^T = 1%:M by apply: mulmx1C.
have -> : \sum_(x <- l) x ^+ 2 = \tr (diag_mx d *m diag_mx d).
  have rt2 : roots_of (diag_mx d) [seq d 0 j | j <- enum 'I_n].
    rewrite /roots_of big_map big_enum /= /char_poly.
    have -> : char_poly_mx (diag_mx d) = diag_mx (\row_i ('X - (d 0 i)%:P)).
      apply/matrixP => i j; rewrite !mxE; case: (i =P j) => [->|_]; rewrite ?mulr1n ?mulr0n ?subr0 ?subrr //.
    by rewrite det_diag; apply: eq_bigr => i _; rewrite mxE.
  have pm : perm_eq l [seq d 0 j | j <- enum 'I_n].
    apply: roots_perm; rewrite -rt -rt2 ME /char_poly.
    have -> : char_poly_mx (P *m diag_mx d *m P^T) = map_mx polyC P *m char_poly_mx (diag_mx d) *m map_mx polyC P^T.
      rewrite /char_poly_mx mulmxBr mulmxBl !map_mxM; congr (_ - _).
      by rewrite -scalemx1 -!scalemxAr -scalemxAl mulmx1 -map_mxM o' map_mx1 scalemx1.
    by rewrite !det_mulmx mulrC mulrA -det_mulmx -map_mxM o map_mx1 det1 mul1r.
  rewrite (perm_big _ pm) big_map big_enum /=; apply: eq_bigr => i _.
  by rewrite mul_diag_mx !mxE eqxx mulr1n expr2.
have -> : \tr (diag_mx d *m diag_mx d) = \tr (M *m M^T).
  rewrite sM {1 2}ME; have -> : P *m diag_mx d *m P^T *m (P *m diag_mx d *m P^T) = P *m (diag_mx d *m diag_mx d *m P^T).
    by rewrite -!mulmxA; congr (_ *m (_ *m _)); rewrite mulmxA o mul1mx.
  by rewrite [RHS]mxtrace_mulC -[X in _ = \tr X]mulmxA o mulmx1.
by apply: eq_bigr => i _; rewrite mxE; apply: eq_bigr => j _; rewrite mxE expr2.
Qed.
End Sym.
