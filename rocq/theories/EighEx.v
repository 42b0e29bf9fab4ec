(** * EighEx: the contract of eigh can be met (real spectral theorem), so the theorems that assume it are not vacuous. *)
From mathcomp Require Import all_ssreflect all_algebra all_real_closed.
From mathcomp.real_closed Require Import complex.
From mathcomp.algebra_tactics Require Import ring.
From Verif Require Import Prob Minor Chain ExactModel Spectral P_Spectral SpecLemmas.
Set Implicit Arguments. Unset Strict Implicit. Unset Printing Implicit Defensive.
Import Order.Theory GRing.Theory Num.Theory.
Local Open Scope ring_scope.

Section Real.
Variable R : rcfType.
Notation C := (complex R).

Definition dotc n (u v : 'cV[R]_n) : R := \sum_i u i 0 * v i 0.
Lemma dotcE n (u v : 'cV[R]_n) : (u^T *m v) 0 0 = dotc u v.
Proof. by rewrite mxE; apply: eq_bigr => i _; rewrite mxE. Qed.
Lemma dotcC n (u v : 'cV[R]_n) : dotc u v = dotc v u.
Proof. by apply: eq_bigr => i _; rewrite mulrC. Qed.
Lemma dotc_ge0 n (u : 'cV[R]_n) : 0 <= dotc u u.
Proof. by apply: sumr_ge0 => i _; rewrite -expr2 sqr_ge0. Qed.
Lemma dotc_eq0 n (u : 'cV[R]_n) : dotc u u = 0 -> u = 0.
Proof.
move/eqP; rewrite psumr_eq0; last by move=> i _; rewrite -expr2 sqr_ge0.
by move/allP => h; apply/colP => i; rewrite mxE; have := h i (mem_index_enum _); rewrite /= mulf_eq0 orbb => /eqP.
Qed.
Lemma dotc_sym n (M : 'M[R]_n) u v : M^T = M -> dotc u (M *m v) = dotc (M *m u) v.
Proof. by move=> sM; rewrite -!dotcE trmx_mul sM mulmxA. Qed.
Lemma dotcD n (u v w : 'cV[R]_n) : dotc u (v + w) = dotc u v + dotc u w.
Proof. by rewrite -big_split; apply: eq_bigr => i _; rewrite mxE mulrDr. Qed.
Lemma dotcZ n a (u v : 'cV[R]_n) : dotc u (a *: v) = a * dotc u v.
Proof. by rewrite big_distrr; apply: eq_bigr => i _; rewrite mxE mulrCA. Qed.

(** a symmetric real matrix has a real eigenvector *)
Lemma real_eigen n (M : 'M[R]_n.+1) : M^T = M -> exists a, exists2 w : 'cV[R]_n.+1, M *m w = a *: w & dotc w w = 1.
Proof.
move=> sM.
pose MC : 'M[C]_n.+1 := map_mx (real_complex R) M.
have [z /eqP rz] : exists z, root (char_poly MC) z.
  apply: closed_rootP; rewrite size_char_poly //.
have /eigenvalueP[v ev nz] : eigenvalue MC z by rewrite eigenvalue_root_char /root rz.
case: z {rz} ev => a b ev.
pose u : 'cV[R]_n.+1 := \col_i complex.Re (v 0 i).
pose w : 'cV[R]_n.+1 := \col_i complex.Im (v 0 i).
have sE i j : M i j = M j i by rewrite -{1}sM mxE.
have reM (x : C) (m : R) : complex.Re (x * (real_complex R m)) = m * complex.Re x.
  by case: x => x1 x2 /=; ring.
have imM (x : C) (m : R) : complex.Im (x * (real_complex R m)) = m * complex.Im x.
  by case: x => x1 x2 /=; ring.
have Eu : M *m u = a *: u - b *: w.
  apply/colP => i; have := congr1 (fun x : 'rV[C]_n.+1 => complex.Re (x 0 i)) ev.
  rewrite !mxE raddf_sum /= => e; transitivity (complex.Re ((a +i* b)%C * v 0 i)).
    by rewrite -e; apply: eq_bigr => j _; rewrite !mxE sE; exact/esym/reM.
  by case: (v 0 i).
have Ew : M *m w = b *: u + a *: w.
  apply/colP => i; have := congr1 (fun x : 'rV[C]_n.+1 => complex.Im (x 0 i)) ev.
  rewrite !mxE raddf_sum /= => e; transitivity (complex.Im ((a +i* b)%C * v 0 i)).
    by rewrite -e; apply: eq_bigr => j _; rewrite !mxE sE; exact/esym/imM.
  by case: (v 0 i) => x y /=; rewrite addrC.
have b0 : b * (dotc u u + dotc w w) = 0.
  have := dotc_sym u w sM; rewrite Eu Ew [in RHS]dotcC -scaleNr !dotcD !dotcZ [dotc w u]dotcC => e.
  have alg (x y z t c d : R) : d * x + c * y = c * y + (- d) * z -> d * (x + z) = 0.
    by move=> h; rewrite mulrDr -[RHS](subrr (c * y + - d * z)) -{1}h; ring.
  exact: alg e.
have pos : 0 < dotc u u + dotc w w.
  rewrite lt_neqAle addr_ge0 ?dotc_ge0 // andbT eq_sym; apply/negP => /eqP z.
  have u0 : u = 0 by apply: dotc_eq0; apply/eqP; rewrite eq_le dotc_ge0 andbT -z ler_addl dotc_ge0.
  have w0 : w = 0 by apply: dotc_eq0; apply/eqP; rewrite eq_le dotc_ge0 andbT -z ler_addr dotc_ge0.
  case/negP: nz; apply/eqP/rowP => i; rewrite mxE.
  have := congr1 (fun x : 'cV[R]_n.+1 => x i 0) u0; have := congr1 (fun x : 'cV[R]_n.+1 => x i 0) w0.
  by rewrite !mxE; case: (v 0 i) => x y /= -> ->.
have bz : b = 0 by move/eqP: b0; rewrite mulf_eq0 (gt_eqF pos) orbF => /eqP.
rewrite bz scale0r subr0 in Eu; rewrite bz scale0r add0r in Ew.
have nrm (x : 'cV[R]_n.+1) : M *m x = a *: x -> dotc x x != 0 -> exists a, exists2 w : 'cV[R]_n.+1, M *m w = a *: w & dotc w w = 1.
  move=> ex nx; exists a, ((Num.sqrt (dotc x x))^-1 *: x); first by rewrite -scalemxAr ex scalerA mulrC -scalerA.
  rewrite dotcZ dotcC dotcZ mulrA -invfM -expr2 sqr_sqrtr ?dotc_ge0 // mulVf //.
have [u0|] := eqVneq (dotc u u) 0; last exact: nrm Eu.
by apply: (nrm w Ew); move: pos; rewrite u0 add0r => /gt_eqF ->.
Qed.

(** a Householder reflection sends e_0 to a given unit vector *)
Lemma householder n (w : 'cV[R]_n.+1) : dotc w w = 1 ->
  exists Q : 'M[R]_n.+1, [/\ Q^T = Q, Q *m Q = 1%:M & Q *m w = delta_mx 0 0].
Proof.
move=> nw; pose e : 'cV[R]_n.+1 := delta_mx 0 0; pose h := w - e.
have ee : dotc e e = 1.
  rewrite /dotc (bigD1 0) //= big1 ?addr0 ?mxE ?mulr1 // => i ni; by rewrite mxE (negbTE ni) mul0r.
have [h0|nh] := eqVneq (dotc h h) 0.
  exists 1%:M; split; rewrite ?trmx1 ?mulmx1 // mul1mx.
  by move/dotc_eq0/eqP: h0; rewrite subr_eq0 => /eqP.
pose c := 2%:R / dotc h h.
exists (1%:M - c *: (h *m h^T)); split.
- by rewrite linearB /= trmx1 linearZ /= trmx_mul trmxK.
- rewrite mulmxBl mul1mx mulmxBr mulmx1 -scalemxAl -scalemxAr.
  have -> : h *m h^T *m (h *m h^T) = dotc h h *: (h *m h^T).
    rewrite mulmxA -(mulmxA h) (_ : h^T *m h = (dotc h h)%:M) ?mul_mx_scalar -?scalemxAl //.
    by apply/matrixP => i j; rewrite !ord1 dotcE mxE eqxx.
  rewrite !scalerA; have -> : c * c * dotc h h = 2%:R * c.
    by rewrite /c mulrA divfK // mulrC.
  by rewrite mulr_natl mulr2n scalerDl; rewrite opprB !addrA subrK addrK.
rewrite mulmxBl mul1mx -scalemxAl -mulmxA (_ : h^T *m w = (dotc h w)%:M); last first.
  by apply/matrixP => i j; rewrite !ord1 dotcE mxE eqxx.
rewrite mul_mx_scalar scalerA.
have hw : dotc h w = 1 - dotc e w.
  by rewrite dotcC /h dotcD nw -scaleN1r dotcZ mulN1r dotcC.
have he : dotc h e = dotc e w - 1 by rewrite dotcC /h dotcD -scaleN1r dotcZ ee mulN1r.
have hh : dotc h h = 2%:R * (1 - dotc e w).
  rewrite {2}/h dotcD -scaleN1r dotcZ hw he.
  have alg (x : R) : 1 - x + - 1 * (x - 1) = 2%:R * (1 - x) by ring.
  exact: alg.
have -> : c * dotc h w = 1.
  rewrite /c hw mulrAC -hh divff //.
by rewrite scale1r /h opprB addrC subrK.
Qed.

Lemma trdiag n (d : 'rV[R]_n) : (diag_mx d)^T = diag_mx d.
Proof. by apply/matrixP => i j; rewrite !mxE eq_sym; case: eqP => [->|]. Qed.

(** real spectral theorem *)
Lemma real_spectral n (M : 'M[R]_n) : M^T = M ->
  exists P : 'M[R]_n, exists2 d : 'rV[R]_n, P^T *m P = 1%:M & M = P *m diag_mx d *m P^T.
Proof.
elim: n M => [|n IH] M sM.
  by exists 0, 0; apply/matrixP => -[].
have [a [w ew nw]] := real_eigen sM.
have [Q [sQ iQ Qw]] := householder nw.
pose B := Q *m M *m Q.
have sB : B^T = B by rewrite /B !trmx_mul sQ sM mulmxA.
have Be : B *m (delta_mx 0 0 : 'cV_n.+1) = a *: delta_mx 0 0.
  by rewrite /B -Qw -!mulmxA [Q *m (Q *m w)]mulmxA iQ mul1mx ew -!scalemxAr.
have Bi0 i : B i 0 = a * (i == 0)%:R.
  have := congr1 (fun x : 'cV[R]_n.+1 => x i 0) Be; rewrite -colE !mxE => ->; by rewrite andbT.
pose B' : 'M[R]_n := drsubmx (B : 'M_(1 + n)).
have sB' : B'^T = B' by rewrite /B' trmx_drsub sB.
have [P' [d' oP' BE']] := IH _ sB'.
have Bik (i k : 'I_(1 + n)) : val k = 0%N -> B i k = a * (val i == 0%N)%:R.
  by move=> k0; have -> : k = (0 : 'I_n.+1) by [apply: val_inj]; exact: Bi0.
have Bki (i k : 'I_(1 + n)) : val k = 0%N -> B k i = a * (val i == 0%N)%:R.
  by move=> k0; rewrite -(Bik i k) // -{1}sB mxE.
have BE : B = block_mx (a%:M : 'M_1) 0 0 B' :> 'M_(1 + n).
  rewrite -[LHS](submxK (B : 'M_(1 + n))); congr block_mx.
  - by apply/matrixP => i j; rewrite !ord1 2!mxE Bik // mxE eqxx mulr1.
  - by apply/matrixP => i j; rewrite !ord1 2!mxE Bki // mxE mulr0.
  - by apply/matrixP => i j; rewrite !ord1 2!mxE Bik // mxE mulr0.
pose P1 : 'M[R]_(1 + n) := block_mx 1%:M 0 0 P'.
pose D1 : 'rV[R]_(1 + n) := row_mx a%:M d'.
have oP1 : P1^T *m P1 = 1%:M.
  by rewrite /P1 tr_block_mx mulmx_block !trmx0 trmx1 !mulmx0 !mul0mx !addr0 add0r mulmx1 oP' -scalar_mx_block.
have dD1 : diag_mx D1 = block_mx a%:M 0 0 (diag_mx d') :> 'M_(1 + n).
  rewrite /D1 diag_mx_row; congr block_mx; by apply/matrixP => i j; rewrite !ord1 !mxE eqxx.
have BE1 : B = P1 *m diag_mx D1 *m P1^T.
  rewrite BE dD1 /P1 tr_block_mx !mulmx_block !trmx0 trmx1 !(mulmx0, mul0mx, mulmx1, mul1mx, addr0, add0r).
  by rewrite BE'.
exists (Q *m P1), D1.
  by rewrite trmx_mul sQ mulmxA -(mulmxA P1^T) iQ mulmx1.
rewrite trmx_mul sQ -!mulmxA [diag_mx D1 *m _]mulmxA [P1 *m _]mulmxA [P1 *m _]mulmxA -BE1.
by rewrite /B !mulmxA iQ mul1mx -mulmxA iQ mulmx1.
Qed.

(** a routine that meets the contract *)
Lemma real_spectral_b n (M : 'M[R]_n) : M^T = M ->
  exists Pd : 'M[R]_n * 'rV[R]_n, (Pd.1^T *m Pd.1 == 1%:M) && (M == Pd.1 *m diag_mx Pd.2 *m Pd.1^T).
Proof. by move=> sM; have [P [d o e]] := real_spectral sM; exists (P, d); rewrite /= o -e !eqxx. Qed.

Definition eigh0 n (M : 'M[R]_n) : seq R * seq 'cV[R]_n :=
  if M^T =P M is ReflectT sM then
    let Pd := xchoose (real_spectral_b sM) in
    ([seq Pd.2 0 j | j <- enum 'I_n], [seq col j Pd.1 | j <- enum 'I_n])
  else ([::], [::]).

Lemma eigh0P : eigh_contract eigh0.
Proof.
move=> n M sM; rewrite /eigh0; case: eqP => // sM'.
have := xchooseP (real_spectral_b sM'); set Pd := xchoose _ => /andP[/eqP o /eqP ME].
split; first by rewrite size_map -cardE card_ord.
apply/sdE; split; first by rewrite !size_map.
  exact: cols_ortho.
have kE (s : seq 'I_n) : kern [seq Pd.2 0 j | j <- s] [seq col j Pd.1 | j <- s] =
    \sum_(j <- s) Pd.2 0 j *: (col j Pd.1 *m (col j Pd.1)^T).
  by elim: s => [|j s IHs] /=; rewrite ?big_nil // big_cons IHs.
rewrite ME kE big_enum /=; apply/matrixP => i k; rewrite summxE mxE; apply: eq_bigr => j _.
rewrite mul_mx_diag !mxE big_ord_recl big_ord0 !mxE addr0.
have alg (x y z : R) : x * y * z = y * (x * z) by ring.
exact: alg.
Qed.
End Real.

Theorem eigh_exists (R : rcfType) : exists eigh : forall n : nat, 'M[R]_n -> seq R * seq 'cV[R]_n, eigh_contract eigh.
Proof. by exists (@eigh0 R); exact: eigh0P. Qed.
Print Assumptions eigh_exists.
