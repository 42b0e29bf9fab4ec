(** * P_FullMat: the full matrix samplers return points of the support of the ensemble (C61). *)
From Coq Require Import String.
From mathcomp Require Import all_ssreflect all_algebra all_real_closed.
From mathcomp.real_closed Require Import complex.
From mathcomp.algebra_tactics Require Import ring.
From Verif Require Import Prob RandMat P_Circular FullMatModel.
Set Implicit Arguments. Unset Strict Implicit. Unset Printing Implicit Defensive.
Import Order.Theory GRing.Theory Num.Theory.
Local Open Scope ring_scope.
Local Arguments conjc : simpl never.

Section L.
Variable R : rcfType.
Notation C := (complex R).
Local Notation "x %:K" := (Complex x 0 : C) (at level 2, left associativity, format "x %:K").

Lemma adjmM m n p (U : 'M[C]_(m, n)) (V : 'M[C]_(n, p)) : adjm (U *m V) = adjm V *m adjm U.
Proof.
apply/matrixP => i j; rewrite !mxE rmorph_sum; apply: eq_bigr => k _.
by rewrite !mxE rmorphM mulrC.
Qed.
Lemma adjmK m n (U : 'M[C]_(m, n)) : adjm (adjm U) = U.
Proof. by apply/matrixP => i j; rewrite !mxE conjcK. Qed.
Lemma adjmD m n (U V : 'M[C]_(m, n)) : adjm (U + V) = adjm U + adjm V.
Proof. by apply/matrixP => i j; rewrite !mxE raddfD. Qed.

(** squared norm of a row vector *)
Definition nrm n (v : 'rV[C]_n) : C := (v *m adjm v) 0 0.
Lemma nrmE n (v : 'rV[C]_n) : nrm v = \sum_i v 0 i * conjc (v 0 i).
Proof. by rewrite /nrm mxE; apply: eq_bigr => i _; rewrite mxE. Qed.
Lemma nrm_ge0 n (v : 'rV[C]_n) : 0 <= nrm v.
Proof. by rewrite nrmE; apply: sumr_ge0 => i _; exact: mulcJ_ge0. Qed.
Lemma nrm_eq0 n (v : 'rV[C]_n) : nrm v = 0 -> v = 0.
Proof.
rewrite nrmE => /eqP; rewrite psumr_eq0; last by move=> i _; exact: mulcJ_ge0.
move/allP => h; apply/rowP => i; rewrite mxE.
by have := h i (mem_index_enum _); rewrite /= mulf_eq0 conjc_eq0 orbb => /eqP.
Qed.
Lemma nrm_gt0 n (v : 'rV[C]_n) : v != 0 -> 0 < nrm v.
Proof. by move=> nz; rewrite lt_neqAle nrm_ge0 andbT eq_sym; apply: contraNneq nz => /nrm_eq0 ->. Qed.

(** a Hermitian matrix has real eigenvalues *)
Lemma herm_eigen n (M : 'M[C]_n) x : adjm M = M -> eigenvalue M x -> conjc x = x.
Proof.
move=> hM /eigenvalueP[v ev nz].
have e1 : v *m M *m adjm v = x *: (v *m adjm v) by rewrite ev scalemxAl.
have e2 : v *m M *m adjm v = conjc x *: (v *m adjm v).
  have -> : v *m M *m adjm v = v *m adjm (v *m M) by rewrite adjmM hM mulmxA.
  rewrite ev; apply/matrixP => i j; rewrite !mxE mulr_sumr; apply: eq_bigr => k _.
  by rewrite !mxE rmorphM mulrCA.
have := congr1 (fun y : 'M[C]_1 => y 0 0) (etrans (esym e1) e2); rewrite !mxE => e.
have nv : nrm v != 0 by rewrite gt_eqF // nrm_gt0.
by apply: (mulIf nv); rewrite /nrm mxE.
Qed.

(** eigenvalues of a Gram matrix are nonnegative *)
Lemma gram_eigen n m (A : 'M[C]_(n, m)) x : eigenvalue (A *m adjm A) x -> 0 <= x.
Proof.
move=> /eigenvalueP[v ev nz].
have : nrm (v *m A) = x * nrm v.
  by rewrite /nrm adjmM mulmxA -[v *m A *m adjm A]mulmxA ev -scalemxAl mxE.
have nv := nrm_gt0 nz; move=> e.
by rewrite -(pmulr_lge0 _ nv) -e nrm_ge0.
Qed.

Lemma pencil_eigen n m1 m2 (X : 'M[C]_(n, m1)) (Y : 'M[C]_(n, m2)) x :
  X *m adjm X + Y *m adjm Y \in unitmx ->
  eigenvalue (X *m adjm X *m invmx (X *m adjm X + Y *m adjm Y)) x -> 0 <= x <= 1.
Proof.
set S := _ + _ => uS /eigenvalueP[v ev nz].
have e : v *m (X *m adjm X) = x *: (v *m S).
  by rewrite scalemxAl -ev -!mulmxA mulVmx // mulmx1.
have e' : nrm (v *m X) = x * (nrm (v *m X) + nrm (v *m Y)).
  have h m (A : 'M[C]_(n, m)) : nrm (v *m A) = (v *m (A *m adjm A) *m adjm v) 0 0.
    by rewrite /nrm adjmM !mulmxA.
  rewrite {1}h e -scalemxAl mxE /S mulmxDr mulmxDl mxE -!h //.
have pos : 0 < nrm (v *m X) + nrm (v *m Y).
  rewrite lt_neqAle addr_ge0 ?nrm_ge0 // andbT eq_sym; apply: contraNneq nz => /eqP.
  rewrite paddr_eq0 ?nrm_ge0 // => /andP[/eqP/nrm_eq0 vX /eqP/nrm_eq0 vY].
  have : v *m S = 0 by rewrite /S mulmxDr !mulmxA vX vY !mul0mx addr0.
  by move/(congr1 (fun y => y *m invmx S)); rewrite -mulmxA mulmxV // mulmx1 mul0mx => ->.
apply/andP; split.
  by rewrite -(pmulr_lge0 _ pos) -e' nrm_ge0.
by rewrite -(ler_pmul2r pos) -e' mul1r ler_addl nrm_ge0.
Qed.

Lemma unitary_eig n (U : 'M[C]_n) x : U *m adjm U = 1%:M -> eigenvalue U x -> `|x| = 1.
Proof.
move=> uU /eigenvalueP[v ev nz].
have e : nrm (v *m U) = nrm v by rewrite /nrm adjmM mulmxA -[v *m U *m _]mulmxA uU mulmx1.
have e2 : nrm (v *m U) = x * conjc x * nrm v.
  rewrite ev !nrmE mulr_sumr; apply: eq_bigr => i _; rewrite !mxE rmorphM; exact: mulrACA.
have nv : nrm v != 0 by rewrite gt_eqF // nrm_gt0.
have : x * conjc x = 1 by apply: (mulIf nv); rewrite mul1r -e2 e.
by rewrite -sqr_normc => /eqP; rewrite sqrp_eq1 ?normr_ge0 // => /eqP.
Qed.
End L.

Section P.
Variable R : rcfType.
Notation C := (complex R).
Local Notation "x %:K" := (Complex x 0 : C) (at level 2, left associativity, format "x %:K").

Variable randn : nat -> forall m n, 'M[R]_(m, n).
Variables (eigvalsh : forall n, 'M[C]_n -> seq R) (eigvals : forall n, 'M[C]_n -> seq C)
  (eigvecsh : forall n, 'M[C]_n -> 'M[C]_n) (qr : forall n, 'M[C]_n -> 'M[C]_n * 'M[C]_n).

(** contracts of the LAPACK routines *)
Definition eigvalsh_ok := forall n (M : 'M[C]_n), adjm M = M ->
  char_poly M = \prod_(x <- eigvalsh M) ('X - (x%:K)%:P).
Definition eigvals_ok := forall n (M : 'M[C]_n), char_poly M = \prod_(x <- eigvals M) ('X - x%:P).
Definition eigvecsh_ok := forall n (M : 'M[C]_n), adjm M = M -> eigvecsh M *m adjm (eigvecsh M) = 1%:M.
Definition qr_ok := forall n (A : 'M[C]_n), (qr A).1 *m adjm (qr A).1 = 1%:M.

(** number of points returned: every point appears twice in the quaternionic model *)
Definition npoints (N : nat) (beta : R) : nat := if beta == 4%:R then (N + N)%N else N.

Lemma rsum (l : seq R) : (\sum_(x <- l) x)%:K = \sum_(x <- l) x%:K.
Proof. by elim: l => [|a s IH]; rewrite ?big_nil // !big_cons -IH; simpc. Qed.

Lemma roots_K n (M : 'M[C]_n) (l : seq R) : char_poly M = \prod_(x <- l) ('X - (x%:K)%:P) -> roots_of M [seq x%:K | x <- l].
Proof. by rewrite /roots_of big_map. Qed.

Lemma mxtrace_block m n (A : 'M[C]_m) B D (E : 'M[C]_n) : \tr (block_mx A B D E) = \tr A + \tr E.
Proof. by rewrite /mxtrace big_split_ord /=; congr (_ + _); apply: eq_bigr => i _; rewrite ?block_mxEul ?block_mxEdr. Qed.

(** ** Hermite *)
Lemma adj_sum n (A : 'M[C]_n) : adjm (A + adjm A) = A + adjm A.
Proof. by rewrite adjmD adjmK addrC. Qed.

Lemma herm_fin n (A : 'M[C]_n) : eigvalsh_ok -> (0 < n)%N ->
  size (eigvalsh (A + adjm A)) = n /\
  \sum_(x <- eigvalsh (A + adjm A)) x = \sum_i complex.Re (A i i) *+ 2.
Proof.
move=> ok n0; have rt := roots_K (ok _ _ (adj_sum A)); split; first by have := roots_size rt; rewrite size_map.
have := roots_trace n0 rt; rewrite big_map -rsum => e.
have := congr1 (@complex.Re R) e; rewrite /= => ->; rewrite /mxtrace raddf_sum /=; apply: eq_bigr => i _.
by rewrite !mxE; case: (A i i) => a b; rewrite /conjc /= mulr2n.
Qed.

Lemma sqrt2 : Num.sqrt (2%:R : R) != 0.
Proof. by rewrite sqrtr_eq0 -ltNge ltr0n. Qed.

Lemma half_sqrt2 (a : R) : (a *+ 2) / Num.sqrt 2%:R = Num.sqrt 2%:R * a.
Proof.
apply: (mulIf sqrt2); rewrite divfK ?sqrt2 // mulrAC -expr2 sqr_sqrtr ?ler0n //; by rewrite mulr_natl.
Qed.

(** C61: the Hermite full model returns npoints points, whose sum is determined by the diagonal of the first Gaussian
    matrix. *)
Theorem C61_hermite_full N beta l : eigvalsh_ok -> (0 < N)%N -> hermite_sampler_full randn eigvalsh N beta = inl l ->
  size l = npoints N beta /\
  \sum_(x <- l) x = Num.sqrt 2%:R * (\sum_i randn 0 N N i i) *+ (if beta == 4%:R then 2%N else 1%N).
Proof.
move=> ok N0; rewrite /hermite_sampler_full /npoints.
have b14 : (1 == 4%:R :> R) = false by rewrite (eqr_nat R 1 4).
have b24 : (2%:R == 4%:R :> R) = false by rewrite eqr_nat.
have fin n (A : 'M[C]_n) (s : R) : (0 < n)%N -> \sum_i complex.Re (A i i) = s ->
    let l := [seq x / Num.sqrt 2%:R | x <- eigvalsh (A + adjm A)] in size l = n /\ \sum_(x <- l) x = Num.sqrt 2%:R * s.
  move=> n0 sE /=; have [sz sm] := herm_fin A ok n0; rewrite size_map; split=> //.
  by rewrite big_map -mulr_suml sm sumrMnl sE half_sqrt2.
case: eqP => [->|_]; first by move=> [<-]; rewrite b14; apply: fin => //; apply: eq_bigr => i _; rewrite mxE.
case: eqP => [->|_]; first by move=> [<-]; rewrite b24; apply: fin => //; apply: eq_bigr => i _; rewrite !mxE.
case: eqP => [_|//] [<-]; rewrite -mulrnAr; apply: fin; first by rewrite addn_gt0 N0.
rewrite big_split_ord /= mulr2n; congr (_ + _); apply: eq_bigr => i _.
  by rewrite block_mxEul !mxE.
by rewrite block_mxEdr !mxE.
Qed.

(** ** Laguerre *)
Definition frob m n (A : 'M[C]_(m, n)) : R := \sum_i \sum_j (complex.Re (A i j) ^+ 2 + complex.Im (A i j) ^+ 2).

Lemma gram_adj n m (A : 'M[C]_(n, m)) : adjm (A *m adjm A) = A *m adjm A.
Proof. by rewrite adjmM adjmK. Qed.

Lemma gram_fin n m (A : 'M[C]_(n, m)) : eigvalsh_ok -> (0 < n)%N ->
  [/\ size (eigvalsh (A *m adjm A)) = n, all (fun x => 0 <= x) (eigvalsh (A *m adjm A)) &
      \sum_(x <- eigvalsh (A *m adjm A)) x = frob A].
Proof.
move=> ok n0; have rt := roots_K (ok _ _ (gram_adj A)); split; first by have := roots_size rt; rewrite size_map.
- apply/allP => x xl; have : x%:K \in [seq x%:K | x <- eigvalsh (A *m adjm A)] by exact: map_f.
  by rewrite (roots_eigen _ rt) => /gram_eigen; rewrite ler0c.
have := roots_trace n0 rt; rewrite big_map -rsum => /(congr1 (@complex.Re R)) /= ->.
rewrite /mxtrace raddf_sum /=; apply: eq_bigr => i _; rewrite mxE raddf_sum /=; apply: eq_bigr => j _.
by rewrite !mxE; case: (A i j) => a b; rewrite /conjc /=; ring.
Qed.

Lemma frob_quat m n (X Y : 'M[C]_(m, n)) : frob (quat X Y) = (frob X + frob Y) *+ 2.
Proof.
rewrite /frob big_split_ord /= mulr2n; congr (_ + _); rewrite -big_split /=; apply: eq_bigr => i _; rewrite big_split_ord /=.
  by congr (_ + _); apply: eq_bigr => j _; rewrite /quat ?block_mxEul ?block_mxEur.
rewrite addrC; congr (_ + _); apply: eq_bigr => j _; rewrite /quat ?block_mxEdl ?block_mxEdr !mxE.
  by case: (X i j) => a b; rewrite /conjc /=; ring.
by case: (Y i j) => a b; rewrite /conjc /=; ring.
Qed.

Definition sqsum k m n : R := \sum_i \sum_j randn k m n i j ^+ 2.
Lemma frob_r k m n : frob (rmx (randn k m n)) = sqsum k m n.
Proof. by apply: eq_bigr => i _; apply: eq_bigr => j _; rewrite mxE /= expr0n addr0. Qed.
Lemma frob_c k m n : frob (crandn randn k m n) = sqsum k m n + sqsum k.+1 m n.
Proof. by rewrite /frob /sqsum -big_split; apply: eq_bigr => i _; rewrite -big_split; apply: eq_bigr => j _; rewrite mxE. Qed.

(** C61: the Laguerre full model returns npoints nonnegative points, whose sum is the squared Frobenius norm of the
    Gaussian matrix. *)
Theorem C61_laguerre_full M N beta l : eigvalsh_ok -> (0 < N)%N -> laguerre_sampler_full randn eigvalsh M N beta = inl l ->
  [/\ size l = npoints N beta, all (fun x => 0 <= x) l &
  \sum_(x <- l) x = if beta == 1 then \sum_i \sum_j randn 0 N M i j ^+ 2
                    else if beta == 2%:R then \sum_(k < 2) \sum_i \sum_j randn k N M i j ^+ 2
                    else (\sum_(k < 4) \sum_i \sum_j randn k N M i j ^+ 2) *+ 2].
Proof.
move=> ok N0; rewrite /laguerre_sampler_full /npoints.
have b14 : (1 == 4%:R :> R) = false by rewrite (eqr_nat R 1 4).
have b24 : (2%:R == 4%:R :> R) = false by rewrite eqr_nat.
case: eqP => [->|_]; first by move=> [<-]; rewrite b14; have [s a e] := gram_fin (rmx (randn 0 N M)) ok N0; split; rewrite ?e ?frob_r.
case: eqP => [->|_].
  move=> [<-]; rewrite b24; have [s a e] := gram_fin (crandn randn 0 N M) ok N0; split=> //.
  by rewrite e frob_c !big_ord_recl big_ord0 addr0.
case: eqP => [_|//] [<-]; have [|s a e] := gram_fin (quat (crandn randn 0 N M) (crandn randn 2 N M)) ok.
  by rewrite addn_gt0 N0.
split=> //; rewrite e frob_quat !frob_c !big_ord_recl big_ord0 addr0 -/(sqsum _ _ _) !addrA //.
Qed.

(** ** Jacobi *)
Lemma jac_fin n m1 m2 (X : 'M[C]_(n, m1)) (Y : 'M[C]_(n, m2)) l : eigvals_ok ->
  (if X *m adjm X + Y *m adjm Y \in unitmx
    then inl [seq complex.Re z | z <- eigvals (X *m adjm X *m invmx (X *m adjm X + Y *m adjm Y))]
    else inr LinAlgError) = inl l ->
  [/\ size l = n, all (fun x => 0 <= x <= 1) l & exists M : 'M[C]_n, perm_eq (eigvals M) [seq x%:K | x <- l]].
Proof.
move=> ok; case: ifP => // uS [<-]; set M := _ *m invmx _; have rt := ok _ M.
have ev z : z \in eigvals M -> 0 <= z <= 1 by rewrite (roots_eigen _ rt) => /pencil_eigen; apply.
split; first by rewrite size_map; exact: roots_size rt.
  apply/allP => _ /mapP[z /ev /andP[z0 z1] ->].
  by move: z0 z1; rewrite !lecE /= => /andP[_ ->] /andP[_ ->].
exists M; rewrite -map_comp; have -> : [seq ((fun x => x%:K) \o @complex.Re R) z | z <- eigvals M] = eigvals M; last by [].
rewrite -[RHS]map_id; apply/eq_in_map => z /ev /andP[+ _]; rewrite lecE /= => /andP[/eqP im _].
by case: z im => a b /= <-.
Qed.

(** C61: the Jacobi full model returns npoints points of [0,1] whenever it does not raise LinAlgError. *)
Theorem C61_jacobi_full M_1 M_2 N beta l : eigvals_ok -> jacobi_sampler_full randn eigvals M_1 M_2 N beta = inl l ->
  size l = npoints N beta /\ all (fun x => 0 <= x <= 1) l.
Proof.
move=> ok; rewrite /jacobi_sampler_full /npoints.
have b14 : (1 == 4%:R :> R) = false by rewrite (eqr_nat R 1 4).
have b24 : (2%:R == 4%:R :> R) = false by rewrite eqr_nat.
case: eqP => [->|_]; first by move=> /(jac_fin ok)[s a _]; rewrite b14.
case: eqP => [->|_]; first by move=> /(jac_fin ok)[s a _]; rewrite b24.
by case: eqP => [_|//] /(jac_fin ok)[s a _].
Qed.

(** ** Circular *)
(** C61: the circular full model returns npoints points of modulus one (in QR mode: when the diagonal of the triangular
    factor has no zero, that is when the Gaussian matrix is invertible). *)
Theorem C61_circular_full N beta haar_mode l : eigvals_ok -> eigvecsh_ok -> qr_ok ->
  (haar_mode = "QR"%string -> forall A : 'M[C]_N, A = rmx (randn 0 N N) \/ A = crandn randn 0 N N -> forall i, (qr A).2 i i != 0) ->
  circular_sampler_full randn eigvals eigvecsh qr N beta haar_mode = inl l ->
  size l = npoints N beta /\ forall x, x \in l -> `|x| = 1.
Proof.
move=> ok ok2 ok3 dnz; rewrite /circular_sampler_full /npoints.
have b14 : (1 == 4%:R :> R) = false by rewrite (eqr_nat R 1 4).
have b24 : (2%:R == 4%:R :> R) = false by rewrite eqr_nat.
have fin n (U : 'M[C]_n) : U *m adjm U = 1%:M -> size (eigvals U) = n /\ forall x, x \in eigvals U -> `|x| = 1.
  move=> uU; have rt := ok _ U; split; first exact: roots_size rt.
  by move=> x; rewrite (roots_eigen _ rt); exact: unitary_eig.
case: ifP => [_|_].
  case: eqP => [->|_]; first by move=> [<-]; rewrite b14; apply: fin; apply: ok2; exact: adj_sum.
  case: eqP => [->|_]; first by move=> [<-]; rewrite b24; apply: fin; apply: ok2; exact: adj_sum.
  by case: eqP => [_|//] [<-]; apply: fin; apply: ok2; exact: adj_sum.
case: ifP => // /String.eqb_eq hm.
have fq (A : 'M[C]_N) : (forall i, (qr A).2 i i != 0) ->
    size (eigvals (\matrix_(i < N, j < N) ((qr A).1 i j * ((qr A).2 j j / `|(qr A).2 j j|)))) = N /\
    forall x, x \in (eigvals (\matrix_(i < N, j < N) ((qr A).1 i j * ((qr A).2 j j / `|(qr A).2 j j|)))) -> `|x| = 1.
  move=> nz; apply: fin; rewrite -(ok3 _ A); apply/matrixP => i j; rewrite !mxE; apply: eq_bigr => k _.
  rewrite !mxE; move: (nz k); move: ((qr A).2 k k) => d d0.
  have u : (d / `|d|) * conjc (d / `|d|) = 1.
    rewrite -sqr_normc normrM normrV ?unitfE ?normr_eq0 // normr_id divff ?normr_eq0 //; exact: expr1n.
  by rewrite rmorphM mulrACA u mulr1.
case: eqP => [->|_].
  rewrite b14; case e: (qr _) => [Q R_] [<-]; have := fq _ (dnz hm (rmx (randn 0 N N)) (or_introl erefl)); by rewrite e.
case: eqP => [->|//]; rewrite b24; case e: (qr _) => [Q R_] [<-].
by have := fq _ (dnz hm (crandn randn 0 N N) (or_intror erefl)); rewrite e.
Qed.

(** C61: a beta outside {1, 2, 4} is rejected by all full models, beta = 4 by the QR mode, an unknown mode always. *)
Theorem C61_full_invalid_beta M M_1 M_2 N beta haar_mode : beta != 1 -> beta != 2%:R -> beta != 4%:R ->
  [/\ hermite_sampler_full randn eigvalsh N beta = inr ValueError,
      laguerre_sampler_full randn eigvalsh M N beta = inr ValueError,
      jacobi_sampler_full randn eigvals M_1 M_2 N beta = inr ValueError &
      circular_sampler_full randn eigvals eigvecsh qr N beta haar_mode = inr ValueError].
Proof.
move=> /negbTE b1 /negbTE b2 /negbTE b4.
rewrite /hermite_sampler_full /laguerre_sampler_full /jacobi_sampler_full /circular_sampler_full b1 b2 b4.
by split=> //; do 2!case: ifP => //.
Qed.
Theorem C61_circular_invalid_mode N beta haar_mode : haar_mode <> "QR"%string -> haar_mode <> "Hermite"%string ->
  circular_sampler_full randn eigvals eigvecsh qr N beta haar_mode = inr ValueError.
Proof. by move=> /String.eqb_neq h1 /String.eqb_neq h2; rewrite /circular_sampler_full h1 h2. Qed.
End P.

(** The contracts can be met together, and the four samplers return on concrete draws. *)
Section Ex.
Variable R : rcfType.
Notation C := (complex R).
Definition eigvalsh0 n (M : 'M[C]_n) : seq R := [seq complex.Re z | z <- eigvals0 M].
Lemma eigvalsh0P : eigvalsh_ok eigvalsh0.
Proof.
move=> n M hM; rewrite /eigvalsh0 big_map; have rt := @eigvals0P R n M; rewrite [LHS]rt.
rewrite [LHS]big_seq [RHS]big_seq; apply: eq_bigr => z; rewrite (roots_eigen _ rt) => /(herm_eigen hM).
by case: z => a b [] /eqP; rewrite eq_sym -addr_eq0 -mulr2n mulrn_eq0 /= => /eqP ->.
Qed.
Lemma eigvecsh0P : eigvecsh_ok (fun n (_ : 'M[C]_n) => 1%:M).
Proof. by move=> n M _; rewrite mul1mx; apply/matrixP => i j; rewrite !mxE eq_sym; case: eqP => _; rewrite ?conjc1 ?conjc0. Qed.
Lemma qr0P : qr_ok (fun n (A : 'M[C]_n) => (1%:M, A)).
Proof. by move=> n M; rewrite mul1mx; apply/matrixP => i j; rewrite !mxE eq_sym; case: eqP => _; rewrite ?conjc1 ?conjc0. Qed.

Example C61_instance (randn : nat -> forall m n, 'M[R]_(m, n)) (N : nat) : (0 < N)%N ->
  exists lh ll lc : _, [/\ hermite_sampler_full randn eigvalsh0 N 4%:R = inl lh /\ size lh = (N + N)%N,
    laguerre_sampler_full randn eigvalsh0 N.+1 N 1 = inl ll /\ size ll = N &
    circular_sampler_full randn (@eigvals0 R) (fun n _ => 1%:M) (fun n A => (1%:M, A)) N 2%:R "Hermite" = inl lc
    /\ size lc = N].
Proof.
move=> N0.
have b41 : (4%:R == 1 :> R) = false by rewrite (eqr_nat R 4 1).
have b42 : (4%:R == 2%:R :> R) = false by rewrite eqr_nat.
have b21 : (2%:R == 1 :> R) = false by rewrite (eqr_nat R 2 1).
have b14 : (1 == 4%:R :> R) = false by rewrite (eqr_nat R 1 4).
have b24 : (2%:R == 4%:R :> R) = false by rewrite eqr_nat.
do 3!eexists; split; split.
- by rewrite /hermite_sampler_full b41 b42 eqxx; reflexivity.
- have := @C61_hermite_full R randn eigvalsh0 N 4%:R _ eigvalsh0P N0.
  by rewrite /hermite_sampler_full b41 b42 eqxx => /(_ _ erefl)[]; rewrite /npoints eqxx.
- by rewrite /laguerre_sampler_full eqxx; reflexivity.
- have := @C61_laguerre_full R randn eigvalsh0 N.+1 N 1 _ eigvalsh0P N0.
  by rewrite /laguerre_sampler_full eqxx => /(_ _ erefl)[]; rewrite /npoints b14.
- by rewrite /circular_sampler_full b21 eqxx; reflexivity.
have := @C61_circular_full R randn (@eigvals0 R) _ _ N 2%:R "Hermite" _ (@eigvals0P R) eigvecsh0P qr0P.
rewrite /circular_sampler_full b21 eqxx => /(_ _ _ erefl)[|]; rewrite ?/npoints ?b24 //.
Qed.
End Ex.
Print Assumptions C61_hermite_full.
Print Assumptions C61_laguerre_full.
Print Assumptions C61_jacobi_full.
Print Assumptions C61_circular_full.
