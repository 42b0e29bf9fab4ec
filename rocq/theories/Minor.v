(** * Minor: principal minors indexed by sequences, Schur complements, projections.
    Pure linear algebra (no model of code here). *)
From mathcomp Require Import all_ssreflect all_algebra all_fingroup.
From mathcomp.algebra_tactics Require Import ring.
Set Implicit Arguments. Unset Strict Implicit. Unset Printing Implicit Defensive.
Import Order.Theory GRing.Theory Num.Theory.
Local Open Scope ring_scope.

Section Minors.
Variables (R : rcfType) (N : nat).
Implicit Types (K : 'M[R]_N) (ys : seq 'I_N).

(** Determinant of the submatrix of [K] with rows and columns [ys] (in this order). *)
Definition pm K ys : R :=
  \det (mxsub (tnth (in_tuple ys)) (tnth (in_tuple ys)) K).

(** The same for a set of indices. *)
Definition pmS K (S : {set 'I_N}) : R := pm K (enum S).

(** Schur complement of [K] with respect to item [y] (as an [N] x [N] matrix). *)
Definition schur K (y : 'I_N) : 'M[R]_N := \matrix_(i, j) (K i j - K i y * K y j / K y y).

Lemma det_bord (n : nat) (a : R) (v : 'rV[R]_n) (u : 'cV[R]_n) (A : 'M[R]_n) :
  \det (block_mx a%:M v u A) = a * \det A + \det (block_mx 0 v u A).
Proof.
rewrite (@determinant_multilinear _ _ (block_mx (a%:M : 'M_1) v u A)
   (block_mx (1%:M : 'M_1) 0 u A) (block_mx (0 : 'M_1) v u A) (lshift n 0) a 1) ?mul1r.
- by rewrite det_lblock det1 mul1r.
- apply/rowP=> j; rewrite !mxE.
  case: splitP => [k _|k kE]; last by move: kE.
  by rewrite ?mxE; case: splitP => l lE; rewrite ?mxE ?ord1 ?eqxx /= ?mulr1n; ring.
- apply/matrixP=> i j; rewrite !mxE.
  by case: splitP => [k|k kE]; rewrite ?mxE ?ord1 //; case: splitP => l lE; rewrite ?mxE.
- apply/matrixP=> i j; rewrite !mxE.
  by case: splitP => [k|k kE]; rewrite ?mxE ?ord1 //; case: splitP => l lE; rewrite ?mxE.
Qed.

Lemma det_bord_schur (n : nat) (a : R) (v : 'rV[R]_n) (u : 'cV[R]_n) (A : 'M[R]_n) : a != 0 ->
  \det (block_mx a%:M v u A) = a * \det (A - a^-1 *: (u *m v)).
Proof.
move=> a0.
have -> : block_mx (a%:M : 'M_1) v u A =
   block_mx 1%:M 0 (a^-1 *: u) 1%:M *m block_mx a%:M v 0 (A - a^-1 *: (u *m v)).
  rewrite mulmx_block !mul1mx !mul0mx !addr0; congr block_mx.
    by rewrite mul_mx_scalar scalerA divff // scale1r.
  by rewrite -scalemxAl addrC subrK.
by rewrite det_mulmx det_lblock det_ublock !det1 !mul1r det_scalar1.
Qed.

(** The bordered matrix in terms of sequences. *)
Definition bord0 (K : 'M[R]_N) (y : 'I_N) (ys : seq 'I_N) : R :=
  \det (block_mx (0 : 'M[R]_1)
       (\row_j K y (tnth (in_tuple ys) j)) (\col_i K (tnth (in_tuple ys) i) y)
       (mxsub (tnth (in_tuple ys)) (tnth (in_tuple ys)) K)).

Lemma pm_cons_block K y ys :
  pm K (y :: ys) = \det (block_mx ((K y y)%:M : 'M[R]_1)
       (\row_j K y (tnth (in_tuple ys) j)) (\col_i K (tnth (in_tuple ys) i) y)
       (mxsub (tnth (in_tuple ys)) (tnth (in_tuple ys)) K)).
Proof.
rewrite /pm; congr (\det _); apply/matrixP=> i j; rewrite !mxE.
case: (@splitP 1) => i' iE; rewrite !mxE; case: (@splitP 1) => j' jE; rewrite !mxE ?(tnth_nth y) /=.
- by rewrite iE jE !ord1 /= mulr1n.
- by rewrite iE jE !ord1 /=.
- by rewrite iE jE !ord1 /=.
- by rewrite iE jE /=.
Qed.

Lemma pm_bord K y ys : pm K (y :: ys) = K y y * pm K ys + bord0 K y ys.
Proof. by rewrite pm_cons_block det_bord. Qed.

(** rank-one update [K + s * K_{.y} K_{y.}] *)
Definition upd K (y : 'I_N) (s : R) : 'M[R]_N := \matrix_(i, j) (K i j + s * (K i y * K y j)).

(** a * det (K - K_{.y} K_{y.} / a)_ys = a * det K_ys + bord0 *)
Lemma pm_upd K y ys a : a != 0 -> a * pm (upd K y (- a^-1)) ys = a * pm K ys + bord0 K y ys.
Proof.
move=> a0; rewrite /pm /bord0 -det_bord det_bord_schur //; congr (_ * \det _).
apply/matrixP=> i j; rewrite !mxE big_ord_recl big_ord0 !mxE addr0; ring.
Qed.

Lemma schur_upd K y : schur K y = upd K y (- (K y y)^-1).
Proof. by apply/matrixP => i j; rewrite !mxE; ring. Qed.

Lemma pm_cons K y ys : K y y != 0 -> pm K (y :: ys) = K y y * pm (schur K y) ys.
Proof. by move=> Ky; rewrite schur_upd pm_upd // -pm_bord. Qed.

Lemma pm_nil K : pm K [::] = 1.
Proof. by rewrite /pm det_mx00. Qed.

Lemma pm1 K y : pm K [:: y] = K y y.
Proof. by rewrite /pm det_mx11 !mxE /= !(tnth_nth y). Qed.

Lemma pm_perm K ys zs : perm_eq ys zs -> pm K ys = pm K zs.
Proof.
move=> pyz; have sz : size ys = size zs by apply: perm_size.
pose tz : (size ys).-tuple 'I_N := tcast (esym sz) (in_tuple zs).
have tzE : tz = zs :> seq _ by rewrite val_tcast.
have : perm_eq (in_tuple ys) tz by rewrite tzE.
case/tuple_permP => p pE.
have E1 i : tnth (in_tuple ys) i = tnth tz (p i).
  by rewrite (tnth_nth (tnth tz i)) pE -tnth_nth tnth_mktuple.
have -> : pm K zs = \det (mxsub (tnth tz) (tnth tz) K).
  rewrite /pm /tz; move: (esym sz) => e; case: _ / e {tz tzE E1 pE p}.
  by rewrite tcast_id.
rewrite /pm.
have -> : mxsub (tnth (in_tuple ys)) (tnth (in_tuple ys)) K =
   row_perm p (col_perm p (mxsub (tnth tz) (tnth tz) K)).
  by apply/matrixP=> i j; rewrite !mxE !E1.
rewrite row_permE col_permE !det_mulmx !det_perm.
by rewrite odd_permV mulrCA -signr_addb addbb mulr1.
Qed.

Lemma pm_dup K ys : ~~ uniq ys -> pm K ys = 0.
Proof.
case: ys => // y0 ys0; set ys := y0 :: ys0.
case/(uniqPn y0) => i [j [ij lj nE]]; have li := ltn_trans ij lj.
have nij : Ordinal li != Ordinal lj by apply: contraTneq ij => [[->]]; rewrite ltnn.
by apply: (determinant_alternate nij) => k; rewrite !mxE !(tnth_nth y0) /= nE.
Qed.

Lemma pm_row0 K y ys : y \in ys -> (forall j, K y j = 0) -> pm K ys = 0.
Proof.
move=> yy K0.
have [i Hi] : exists i : 'I_(size ys), tnth (in_tuple ys) i = y.
  have li : (index y ys < size ys)%N by rewrite index_mem.
  by exists (Ordinal li); rewrite (tnth_nth y) /= nth_index.
rewrite /pm (expand_det_row _ i) big1 // => j _; by rewrite !mxE Hi K0 mul0r.
Qed.

Lemma pm_rem K y ys : y \in ys -> pm K ys = pm K (y :: rem y ys).
Proof. by move=> yy; apply: pm_perm; rewrite perm_to_rem. Qed.

Lemma eq_pm K K' ys : (forall i j, i \in ys -> j \in ys -> K i j = K' i j) -> pm K ys = pm K' ys.
Proof.
move=> e; congr (\det _); apply/matrixP=> i j; rewrite !mxE; apply: e; exact: mem_tnth.
Qed.

(** the minor indexed by all items is the determinant *)
Lemma det_mxsub_enum K : pm K (enum 'I_N) = \det K.
Proof.
rewrite /pm; have szE : size (enum 'I_N) = N by rewrite -cardE card_ord.
have H : forall n (e : n = N) (h : 'I_n -> 'I_N), (forall i, h i = cast_ord e i) -> \det (mxsub h h K) = \det K.
  move=> n e; case: N / e K => K' h hE.
  by congr (\det _); apply/matrixP => i j; rewrite mxE !hE !cast_ord_id.
apply: (H _ szE) => i; rewrite (tnth_nth (cast_ord szE i)).
by apply: val_inj; rewrite /= nth_enum_ord //; have := ltn_ord i; move: (val i) => x; rewrite [X in (x < X)%N]szE.
Qed.

End Minors.
