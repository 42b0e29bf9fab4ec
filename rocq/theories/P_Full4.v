(** * P_Full4: C78, the quaternionic (beta = 4) full matrix models return every point twice. *)
From Coq Require Import String.
From mathcomp Require Import all_ssreflect all_fingroup all_algebra all_real_closed.
From mathcomp.real_closed Require Import complex polyorder.
From mathcomp.algebra_tactics Require Import ring.
From Verif Require Import Prob RandMat P_Circular FullMatModel P_FullMat Kramers.
Set Implicit Arguments. Unset Strict Implicit. Unset Printing Implicit Defensive.
Import Order.Theory GRing.Theory Num.Theory.
Local Open Scope ring_scope.
Local Arguments conjc : simpl never.

(** ** multiplicities *)
Section Count.
Variable F : fieldType.
Lemma mu_prod (l : seq F) x : \mu_x (\prod_(y <- l) ('X - y%:P)) = count_mem x l.
Proof.
elim: l => [|y l IH]; first by rewrite big_nil (mu_polyC 1).
rewrite big_cons mu_mul ?mulf_neq0 ?polyXsubC_eq0 //; last by apply/eqP => h;
  have := monic_prod_XsubC l predT id; rewrite h => /monic_neq0; rewrite eqxx.
rewrite IH /=; congr (_ + _)%N; case: eqP => [->|ne]; first by rewrite mu_XsubC.
by apply: muNroot; rewrite root_XsubC eq_sym; apply/eqP.
Qed.
End Count.
Lemma paired (T : eqType) (l : seq T) : (forall x, ~~ odd (count_mem x l)) -> exists s, perm_eq l (s ++ s).
Proof.
move=> h; elim/ltn_ind: {l}(size l) {-2}l (erefl (size l)) h => n IH [|x l] sl h; first by exists [::].
have xl : x \in l.
  by have := h x; rewrite /= eqxx /= negbK -has_pred1 has_count; case: (count_mem x l).
have pl := perm_to_rem xl.
have [||y|s ps] := IH (size (rem x l)) _ (rem x l) => //.
  by rewrite -sl size_rem //=; case: (l) xl => // *; rewrite ltnS leqnSn.
  by have := h y; rewrite /= (seq.permP pl) /= addnA addnn oddD odd_double.
exists (x :: s); apply/seq.permP => a; rewrite /= (seq.permP pl) /= (seq.permP ps) !count_cat /=.
by congr (_ + _)%N; rewrite addnCA.
Qed.

(** ** the roots of the square of a matrix *)
Section Squares.
Variable F : fieldType.
Lemma roots_sq n (T : 'M[F]_n) l : roots_of T l -> roots_of (T *m T) [seq x ^+ 2 | x <- l].
Proof.
rewrite /roots_of => h.
have inj : injective (fun p : {poly F} => p \Po 'X^2).
  move=> p q /= e; apply/eqP; rewrite -subr_eq0 -(@comp_poly_eq0 _ _ 'X^2) ?size_polyXn //.
  by rewrite rmorphB /= e subrr.
apply: inj => /=.
have e1 : char_poly (T *m T) \Po 'X^2 = char_poly T * \det ('X%:M + map_mx polyC T).
  rewrite /char_poly -det_mulmx -[LHS](det_map_mx (comp_poly_rmorphism _)); congr (\det _).
  rewrite /char_poly_mx mulmxDr !mulmxBl map_mxM.
  have cm : 'X%:M *m map_mx polyC T = map_mx polyC T *m 'X%:M by rewrite scalar_mxC.
  rewrite cm addrA subrK -scalar_mxM; apply/matrixP => i j; rewrite !mxE.
  rewrite rmorphB /= rmorphMn /= comp_polyX; congr (_ - _).
  have -> : (\sum_j0 map_mx polyC T i j0 * map_mx polyC T j0 j) = (\sum_j0 T i j0 * T j0 j)%:P.
    by rewrite raddf_sum /=; apply: eq_bigr => k _; rewrite !mxE rmorphM.
  by rewrite comp_polyC.
have e2 : \det ('X%:M + map_mx polyC T) = \prod_(x <- l) ('X + x%:P).
  have -> : 'X%:M + map_mx polyC T = - map_mx (comp_poly (- 'X)) (char_poly_mx T).
    by apply/matrixP => i j; rewrite !mxE rmorphB /= rmorphMn /= comp_polyX comp_polyC mulNrn opprB opprK addrC.
  rewrite -scaleN1r detZ det_map_mx -/(char_poly T) h /= rmorph_prod /= -(roots_size (h : roots_of _ _)).
  have -> : \prod_(i <- l) (('X - i%:P) \Po - 'X) = \prod_(i <- l) (-1 * ('X + i%:P)).
    by apply: eq_bigr => i _; rewrite rmorphB /= comp_polyX comp_polyC mulN1r opprD.
  have -> : \prod_(i <- l) (-1 * ('X + i%:P)) = (-1) ^+ size l * \prod_(i <- l) ('X + i%:P).
    by elim: (l) => [|a s IH]; rewrite ?big_nil ?mulr1 // !big_cons IH /= exprS; ring.
  by rewrite mulrA -exprMn mulrNN mulr1 expr1n mul1r.
rewrite e1 e2 h -big_split /= big_map rmorph_prod /=; apply: eq_bigr => x _.
by rewrite rmorphB /= comp_polyX comp_polyC -subr_sqr polyC_exp.
Qed.
End Squares.

(** ** quaternionic matrices *)
Section Quat.
Variable R : rcfType.
Notation C := (complex R).

Definition J n : 'M[C]_(n + n) := block_mx 0 1%:M (- 1%:M) 0.
Lemma J_sq n : J n *m J n = - 1%:M.
Proof.
rewrite /J mulmx_block !mul0mx !mulmx0 !mulmxN !mulmx1 !add0r !addr0 scalar_mx_block.
by apply/matrixP => i j; rewrite !mxE; case: splitP => k _; rewrite !mxE; case: splitP => k' _; rewrite !mxE ?oppr0.
Qed.
Lemma J_tr n : (J n)^T = - J n.
Proof.
rewrite /J tr_block_mx !trmx0 linearN /= !trmx1.
by apply/matrixP => i j; rewrite !mxE; case: splitP => k _; rewrite !mxE; case: splitP => k' _; rewrite !mxE ?oppr0 ?opprK.
Qed.
Lemma det_J n : \det (J n) != 0.
Proof.
apply/eqP => h; have := congr1 determinant (J_sq n); rewrite det_mulmx h mul0r -scaleN1r detZ det1 mulr1 => /eqP.
by rewrite eq_sym expf_eq0 oppr_eq0 oner_eq0 andbF.
Qed.

Lemma conjmE m n (A : 'M[C]_(m, n)) : conjm A = map_mx conjc A.
Proof. by apply/matrixP => i j; rewrite !mxE. Qed.
Lemma conjmK m n (A : 'M[C]_(m, n)) : conjm (conjm A) = A.
Proof. by apply/matrixP => i j; rewrite !mxE conjcK. Qed.
Lemma adjm_conj m n (A : 'M[C]_(m, n)) : adjm A = (conjm A)^T.
Proof. by apply/matrixP => i j; rewrite !mxE. Qed.
Lemma conjmM m n p (A : 'M[C]_(m, n)) (B : 'M[C]_(n, p)) : conjm (A *m B) = conjm A *m conjm B.
Proof. by rewrite !conjmE map_mxM. Qed.
Lemma conj_J n : conjm (J n) = J n.
Proof.
rewrite conjmE /J map_block_mx map_mx0 map_mx1; congr block_mx.
by apply/matrixP => i j; rewrite !mxE rmorphN rmorph_nat.
Qed.

Section Q.
Variables (m n : nat) (X Y : 'M[C]_(m, n)).
Let Q := quat X Y.
Lemma conj_quat : conjm Q = block_mx (conjm X) (conjm Y) (- Y) X.
Proof.
rewrite /Q /quat conjmE map_block_mx -!conjmE conjmK; congr block_mx.
by apply/matrixP => i j; rewrite !mxE rmorphN /= conjcK.
Qed.
Lemma quat_J : Q *m J n = J m *m conjm Q.
Proof.
rewrite conj_quat /Q /quat /J !mulmx_block !mul0mx !mulmx0 !mulmxN !mulNmx !mulmx1 !mul1mx !add0r !addr0.
by [].
Qed.
Lemma conj_quat_J : conjm Q *m J n = J m *m Q.
Proof.
have := congr1 (@conjm R _ _) quat_J; by rewrite !conjmM !conj_J conjmK.
Qed.
Lemma tr_quat_J : Q^T *m J m = J n *m adjm Q.
Proof.
have := congr1 trmx quat_J; rewrite !trmx_mul !J_tr mulNmx mulmxN -adjm_conj => /oppr_inj e.
have := congr1 (mulmx (J n)) e; rewrite mulmxA J_sq mulNmx mul1mx => e'.
by rewrite -[Q^T]opprK e' mulNmx -!mulmxA J_sq !mulmxN mulmx1 opprK.
Qed.
End Q.

(** self-dual matrices *)
Definition sdual n (A : 'M[C]_(n + n)) : Prop := A^T *m J n = J n *m A.
Lemma sdualD n (A B : 'M[C]_(n + n)) : sdual A -> sdual B -> sdual (A + B).
Proof. by rewrite /sdual linearD /= mulmxDl mulmxDr => -> ->. Qed.
Lemma sdual1 n : sdual (1%:M : 'M[C]_(n + n)).
Proof. by rewrite /sdual trmx1 mul1mx mulmx1. Qed.
Lemma sdual_gram m n (X Y : 'M[C]_(m, n)) : sdual (quat X Y *m adjm (quat X Y)).
Proof.
rewrite /sdual trmx_mul adjm_conj trmxK -mulmxA tr_quat_J mulmxA conj_quat_J.
by rewrite -adjm_conj mulmxA.
Qed.
Lemma sdual_herm n (X Y : 'M[C]_n) : sdual (quat X Y + adjm (quat X Y)).
Proof.
rewrite /sdual linearD /= mulmxDl mulmxDr tr_quat_J [RHS]addrC; congr (_ + _).
by rewrite adjm_conj trmxK conj_quat_J.
Qed.

(** the roots of det(x S - A) have even multiplicities *)
Lemma pencil_even n (S A : 'M[C]_(n + n)) z : sdual S -> sdual A ->
  ~~ odd (\mu_z (\det ('X *: map_mx polyC S - map_mx polyC A))).
Proof.
move=> hS hA; set M := _ - _.
case: (eqVneq (\det M) 0) => [->|nz]; first by rewrite mu0.
pose JP := map_mx polyC (J n).
have hM : M^T *m JP = JP *m M.
  rewrite /M linearB linearZ /= mulmxBl mulmxBr -!scalemxAl -!scalemxAr /JP !map_trmx -!map_mxM.
  by rewrite hS hA.
have anti : (JP *m M)^T = - (JP *m M).
  rewrite trmx_mul map_trmx J_tr.
  have -> : map_mx polyC (- J n) = - JP by apply/matrixP => i j; rewrite !mxE polyCN.
  by rewrite mulmxN hM.
have two : 2%:R != 0 :> {poly C}.
  by rewrite (_ : 2%:R = (2%:R)%:P) ?polyC_eq0 ?pnatr_eq0 // rmorph_nat.
have [g [h [h0 e]]] := anti_square two anti.
move: e; rewrite det_mulmx /JP det_map_mx /= mul_polyC => e.
have nz2 : \det (J n) *: \det M != 0 by rewrite scaler_eq0 negb_or det_J.
have := congr1 (fun p => \mu_z p) e; rewrite mu_mul ?mulf_neq0 ?expf_neq0 // mu_mulC ?det_J // !mu_exp => h1.
have := congr1 odd h1; rewrite oddD !oddM !andbF addbF => ->.
by [].
Qed.
Lemma char_even n (A : 'M[C]_(n + n)) z : sdual A -> ~~ odd (\mu_z (char_poly A)).
Proof.
move=> hA; have := @pencil_even n 1%:M A z (@sdual1 n) hA.
by rewrite map_mx1 /char_poly /char_poly_mx scalemx1.
Qed.
Lemma char_pencil_even n (S A : 'M[C]_(n + n)) z : sdual S -> sdual A -> S \in unitmx ->
  ~~ odd (\mu_z (char_poly (A *m invmx S))).
Proof.
move=> hS hA uS; have := @pencil_even n S A z hS hA.
have -> : 'X *: map_mx polyC S - map_mx polyC A = char_poly_mx (A *m invmx S) *m map_mx polyC S.
  rewrite /char_poly_mx mulmxBl mul_scalar_mx -map_mxM -mulmxA mulVmx // mulmx1 //.
by rewrite det_mulmx det_map_mx /= mulrC mul_polyC mu_mulC // -unitfE.
Qed.
End Quat.

Section Thm.
Variable R : rcfType.
Notation C := (complex R).
Local Notation "x %:K" := (Complex x 0 : C) (at level 2, left associativity, format "x %:K").
Variable randn : nat -> forall m n, 'M[R]_(m, n).
Variables (eigvalsh : forall n, 'M[C]_n -> seq R) (eigvals : forall n, 'M[C]_n -> seq C).

Lemma paired_map (T U : eqType) (f : T -> U) (l : seq T) :
  (exists s, perm_eq l (s ++ s)) -> exists s, perm_eq [seq f x | x <- l] (s ++ s).
Proof. by case=> s h; exists [seq f x | x <- s]; rewrite -map_cat; apply: perm_map. Qed.
Lemma even_eigvalsh n (A : 'M[C]_(n + n)) : eigvalsh_ok eigvalsh -> adjm A = A -> sdual A ->
  exists s, perm_eq (eigvalsh A) (s ++ s).
Proof.
move=> ok hA sA; apply: paired => x.
have -> : count_mem x (eigvalsh A) = count_mem x%:K [seq y%:K | y <- eigvalsh A].
  by rewrite count_map; apply: eq_count => y /=; rewrite eq_complex /= eqxx andbT.
rewrite -mu_prod big_map -ok //; exact: char_even.
Qed.
Lemma size_double (T : eqType) (l s : seq T) N : size l = (N + N)%N -> perm_eq l (s ++ s) -> size s = N.
Proof. by move=> sl /perm_size; rewrite sl size_cat !addnn => /double_inj. Qed.

Lemma b14 : (4%:R == 1 :> R) = false. Proof. by rewrite (eqr_nat R 4 1). Qed.
Lemma b24 : (4%:R == 2%:R :> R) = false. Proof. by rewrite eqr_nat. Qed.

(** C78: with beta = 4 the three full matrix models return 2N values, which are N points repeated twice *)
Theorem C78_hermite_pairs N l : eigvalsh_ok eigvalsh -> (0 < N)%N ->
  hermite_sampler_full randn eigvalsh N 4%:R = inl l -> exists s, size s = N /\ perm_eq l (s ++ s).
Proof.
move=> ok N0 h; have [sz _] := C61_hermite_full ok N0 h.
move: sz; rewrite /npoints eqxx => sz.
suff [s hs] : exists s, perm_eq l (s ++ s) by exists s; split => //; exact: size_double sz hs.
move: h; rewrite /hermite_sampler_full b14 b24 eqxx => -[<-]; apply: paired_map.
by apply: even_eigvalsh => //; [exact: adj_sum|exact: sdual_herm].
Qed.
Theorem C78_laguerre_pairs M N l : eigvalsh_ok eigvalsh -> (0 < N)%N ->
  laguerre_sampler_full randn eigvalsh M N 4%:R = inl l -> exists s, size s = N /\ perm_eq l (s ++ s).
Proof.
move=> ok N0 h; have [sz _ _] := C61_laguerre_full ok N0 h.
move: sz; rewrite /npoints eqxx => sz.
suff [s hs] : exists s, perm_eq l (s ++ s) by exists s; split => //; exact: size_double sz hs.
move: h; rewrite /laguerre_sampler_full b14 b24 eqxx => -[<-].
by apply: even_eigvalsh => //; [exact: gram_adj|exact: sdual_gram].
Qed.
Theorem C78_jacobi_pairs M_1 M_2 N l : eigvals_ok eigvals ->
  jacobi_sampler_full randn eigvals M_1 M_2 N 4%:R = inl l -> exists s, size s = N /\ perm_eq l (s ++ s).
Proof.
move=> ok h; have [sz _] := C61_jacobi_full ok h.
move: sz; rewrite /npoints eqxx => sz.
suff [s hs] : exists s, perm_eq l (s ++ s) by exists s; split => //; exact: size_double sz hs.
move: h; rewrite /jacobi_sampler_full b14 b24 eqxx; case: ifP => // uS [<-]; apply: paired_map.
apply: paired => z; rewrite -mu_prod -ok; apply: char_pencil_even => //; last exact: sdual_gram.
by apply: sdualD; exact: sdual_gram.
Qed.

(** ** the draws are all used, once: C61 *)
Lemma adjm_herm n (X Y : 'M[C]_n) : quat X Y + adjm (quat X Y) = quat (X + adjm X) (Y - Y^T).
Proof.
have -> : adjm (quat X Y) = block_mx (adjm X) (- Y^T) (adjm Y) X^T.
  rewrite adjm_conj conj_quat tr_block_mx -!adjm_conj; congr block_mx.
  by apply/matrixP => i j; rewrite !mxE.
rewrite /quat add_block_mx; congr block_mx.
  by apply/matrixP => i j; rewrite !mxE rmorphB /= opprB addrC.
by apply/matrixP => i j; rewrite !mxE rmorphD /= conjcK.
Qed.
Lemma sq_points n (A : 'M[C]_n) : eigvalsh_ok eigvalsh -> (0 < n)%N -> adjm A = A ->
  \sum_(x <- eigvalsh A) x ^+ 2 = frob A.
Proof.
move=> ok n0 hA; have rt := roots_sq (roots_K (ok _ _ hA)).
have := roots_trace n0 rt; rewrite !big_map.
have -> : \sum_(x <- eigvalsh A) x%:K ^+ 2 = (\sum_(x <- eigvalsh A) x ^+ 2)%:K.
  by elim: (eigvalsh A) => [|a s IH]; rewrite ?big_nil // !big_cons IH expr2; simpc.
move/(congr1 (@complex.Re R)) => /= ->; rewrite -{2}hA /mxtrace raddf_sum /=; apply: eq_bigr => i _.
rewrite mxE raddf_sum /=; apply: eq_bigr => j _.
by rewrite !mxE; case: (A i j) => a b; rewrite /conjc /=; ring.
Qed.
Lemma sq_points2 n (A : 'M[C]_n) : eigvalsh_ok eigvalsh -> (0 < n)%N ->
  \sum_(x <- [seq x / Num.sqrt 2%:R | x <- eigvalsh (A + adjm A)]) x ^+ 2 = frob (A + adjm A) / 2%:R.
Proof.
move=> ok n0; rewrite big_map -(sq_points ok n0 (adj_sum A)) mulr_suml; apply: eq_bigr => x _.
by rewrite expr_div_n sqr_sqrtr // ler0n.
Qed.
Theorem C61_hermite_squares N beta l : eigvalsh_ok eigvalsh -> (0 < N)%N ->
  hermite_sampler_full randn eigvalsh N beta = inl l ->
  let U k := randn k N N in
  \sum_(x <- l) x ^+ 2 =
  if beta == 1 then \sum_i \sum_j (U 0%N i j + U 0%N j i) ^+ 2 / 2%:R
  else if beta == 2%:R then \sum_i \sum_j ((U 0%N i j + U 0%N j i) ^+ 2 + (U 1%N i j - U 1%N j i) ^+ 2) / 2%:R
  else \sum_i \sum_j ((U 0%N i j + U 0%N j i) ^+ 2 + (U 1%N i j - U 1%N j i) ^+ 2
                       + (U 2%N i j - U 2%N j i) ^+ 2 + (U 3%N i j - U 3%N j i) ^+ 2).
Proof.
move=> ok N0 + U; rewrite /hermite_sampler_full; case: eqP => [_|_].
  move=> [<-]; rewrite sq_points2 // /frob mulr_suml; apply: eq_bigr => i _; rewrite mulr_suml; apply: eq_bigr => j _.
  by rewrite !mxE /= subr0 expr0n addr0.
case: eqP => [_|_].
  move=> [<-]; rewrite sq_points2 // /frob mulr_suml; apply: eq_bigr => i _; rewrite mulr_suml; apply: eq_bigr => j _.
  by rewrite !mxE.
case: eqP => // _ [<-]; rewrite sq_points2 ?addn_gt0 ?N0 // adjm_herm frob_quat -[X in X / _ = _]mulr_natr mulfK ?pnatr_eq0 //.
rewrite /frob -big_split; apply: eq_bigr => i _; rewrite -big_split; apply: eq_bigr => j _.
by rewrite !mxE /= !addrA.
Qed.

(** ** one point: the Jacobi model with N = 1 *)
Lemma eig_scalar n (c : C) l : roots_of (c%:M : 'M[C]_n) l -> l = nseq n c.
Proof.
move=> h; have := roots_size h => sz; rewrite -sz; apply/all_pred1P/allP => x.
rewrite (roots_eigen _ h) => /eigenvalueP[v ev nz].
have : (c - x) *: v = 0 by rewrite scalerBl -ev mul_mx_scalar subrr.
by move/eqP; rewrite scaler_eq0 (negbTE nz) orbF subr_eq0 eq_sym.
Qed.
Lemma frob_row m n (A : 'M[C]_(m, n)) i j :
  (A *m adjm A) i j = Complex (\sum_k (complex.Re (A i k) * complex.Re (A j k) + complex.Im (A i k) * complex.Im (A j k)))
     (\sum_k (complex.Im (A i k) * complex.Re (A j k) - complex.Re (A i k) * complex.Im (A j k))).
Proof.
rewrite mxE.
elim: (index_enum _) => [|k s IH]; first by rewrite !big_nil.
rewrite !big_cons IH; rewrite !mxE; case: (A i k) => a b; case: (A j k) => c d; rewrite /conjc /=.
by simpc; congr Complex; ring.
Qed.
Lemma gram_row m (A : 'M[C]_(1, m)) : A *m adjm A = ((frob A)%:K)%:M.
Proof.
apply/matrixP => i j; rewrite !ord1 frob_row mxE eqxx mulr1n /frob big_ord1; congr Complex.
by rewrite big1 // => k _; ring.
Qed.
Lemma gram_quat_row m (X Y : 'M[C]_(1, m)) : quat X Y *m adjm (quat X Y) = ((frob X + frob Y)%:K)%:M.
Proof.
have e : adjm (quat X Y) = block_mx (adjm X) (- Y^T) (adjm Y) X^T.
  rewrite adjm_conj conj_quat tr_block_mx -!adjm_conj; congr block_mx.
  by apply/matrixP => i j; rewrite !mxE.
have s1 (A B : 'M[C]_(1, m)) : A *m B^T = B *m A^T.
  by apply/matrixP => i j; rewrite !ord1 !mxE; apply: eq_bigr => k _; rewrite !mxE mulrC.
have s2 (A : 'M[C]_(1, m)) : conjm A *m A^T = A *m adjm A by rewrite s1 -adjm_conj.
rewrite e /quat mulmx_block !mulmxN !mulNmx !gram_row opprK !s2 !gram_row.
have -> : - (X *m Y^T) + Y *m X^T = 0 by rewrite s1 addNr.
have -> : - (conjm Y *m adjm X) + conjm X *m adjm Y = 0 by rewrite !adjm_conj s1 addNr.
rewrite addrC -raddfD /= scalar_mx_block.
by congr block_mx; congr (_%:M); apply/eqP; rewrite eq_complex /= addr0 eqxx ?[frob Y + _]addrC eqxx.
Qed.
Lemma jac_scalar n m1 m2 (X : 'M[C]_(n, m1)) (Y : 'M[C]_(n, m2)) (a b : R) l : (0 < n)%N -> eigvals_ok eigvals ->
  X *m adjm X = (a%:K)%:M -> Y *m adjm Y = (b%:K)%:M ->
  (if X *m adjm X + Y *m adjm Y \in unitmx
    then inl [seq complex.Re z | z <- eigvals (X *m adjm X *m invmx (X *m adjm X + Y *m adjm Y))]
    else inr LinAlgError) = inl l -> l = nseq n (a / (a + b)).
Proof.
move=> n0 ok -> ->; have e : (a%:K)%:M + (b%:K)%:M = ((a + b)%:K)%:M :> 'M[C]_n.
  by rewrite -raddfD /=; congr (_%:M); apply/eqP; rewrite eq_complex /= addr0 !eqxx.
rewrite e; case: ifP => // uS [<-].
have ab0 : a + b != 0.
  apply/eqP => h; move: uS; by rewrite h unitmxE det_scalar expr0n gtn_eqF //= unitr0.
have e2 : (a%:K)%:M *m invmx ((a + b)%:K)%:M = ((a / (a + b))%:K)%:M :> 'M[C]_n.
  rewrite -[RHS](mulmxK uS); congr (_ *m _).
  rewrite -scalar_mxM; congr (_%:M); apply/eqP; rewrite eq_complex /= !mulr0 mul0r subr0 addr0 divfK // !eqxx //.
have := ok n ((a%:K)%:M *m invmx ((a + b)%:K)%:M); rewrite e2 => rt; rewrite (eig_scalar (rt : roots_of _ _)).
by rewrite map_nseq.
Qed.
(** C61: with N = 1 the Jacobi model returns the ratio (S_1 / (S_1 + S_2)) of the sums of the squares of all the draws of
    the first and second Gaussian rows, once for beta = 1, 2 and twice for beta = 4. *)
Theorem C61_jacobi_one M_1 M_2 beta l : eigvals_ok eigvals -> jacobi_sampler_full randn eigvals M_1 M_2 1 beta = inl l ->
  let S k m := \sum_(j < m) (randn k 1 m) ord0 j ^+ 2 in
  let ratio a b := a / (a + b) in
  l = if beta == 1 then [:: ratio (S 0%N M_1) (S 1%N M_2)]
      else if beta == 2%:R then [:: ratio (S 0%N M_1 + S 1%N M_1) (S 2%N M_2 + S 3%N M_2)]
      else nseq 2 (ratio (S 0%N M_1 + S 1%N M_1 + (S 2%N M_1 + S 3%N M_1)) (S 4%N M_2 + S 5%N M_2 + (S 6%N M_2 + S 7%N M_2))).
Proof.
move=> ok h S ratio; move: h; rewrite /jacobi_sampler_full.
have e k m : sqsum randn k 1 m = S k m by rewrite /sqsum big_ord1.
case: eqP => [_|_]; first by move=> /(@jac_scalar 1 _ _ _ _ _ _ _ isT ok (gram_row _) (gram_row _)) ->; rewrite // !frob_r !e.
case: eqP => [_|_]; first by move=> /(@jac_scalar 1 _ _ _ _ _ _ _ isT ok (gram_row _) (gram_row _)) ->; rewrite // !frob_c !e.
case: eqP => // _ /(@jac_scalar (1 + 1)%N _ _ _ _ _ _ _ isT ok (gram_quat_row _ _) (gram_quat_row _ _)) ->; rewrite // !frob_c !e //.
Qed.
End Thm.


(** The contracts can be met together; on any draws the Hermite and Laguerre models return with beta = 4, and the Jacobi
    model returns with N = 1 as soon as one draw is nonzero. *)
Section Ex4.
Variable R : rcfType.
Variable randn : nat -> forall m n, 'M[R]_(m, n).
Example C78_instance (M N : nat) : (0 < N)%N ->
  exists lh ll sh sl : _, [/\ hermite_sampler_full randn (@eigvalsh0 R) N 4%:R = inl lh,
    size sh = N /\ perm_eq lh (sh ++ sh), laguerre_sampler_full randn (@eigvalsh0 R) M N 4%:R = inl ll &
    size sl = N /\ perm_eq ll (sl ++ sl)].
Proof.
move=> N0.
have hh : exists lh, hermite_sampler_full randn (@eigvalsh0 R) N 4%:R = inl lh.
  by eexists; rewrite /hermite_sampler_full b14 b24 eqxx; reflexivity.
have hl : exists ll, laguerre_sampler_full randn (@eigvalsh0 R) M N 4%:R = inl ll.
  by eexists; rewrite /laguerre_sampler_full b14 b24 eqxx; reflexivity.
have [[lh eh] [ll el]] := (hh, hl).
have [sh ph] := C78_hermite_pairs (@eigvalsh0P R) N0 eh.
have [sl pl] := C78_laguerre_pairs (@eigvalsh0P R) N0 el.
by exists lh, ll, sh, sl.
Qed.
Example C78_jacobi_instance (M_1 M_2 : nat) : (forall k m n, randn k m n = const_mx 1) -> (0 < M_1)%N ->
  exists x, jacobi_sampler_full randn (@eigvals0 R) M_1 M_2 1 4%:R = inl [:: x; x].
Proof.
move=> h M0.
have [l e] : exists l, jacobi_sampler_full randn (@eigvals0 R) M_1 M_2 1 4%:R = inl l.
  rewrite /jacobi_sampler_full b14 b24 eqxx !gram_quat_row !frob_c.
  rewrite -raddfD /=.
  have S k m : sqsum randn k 1 m = m%:R.
    rewrite /sqsum big_ord1 h (eq_bigr (fun=> 1)) ?sumr_const ?card_ord // => j _.
    by rewrite mxE expr1n.
  rewrite !S; case: ifP => [_|]; first by eexists; reflexivity.
  rewrite unitmxE det_scalar unitfE expf_eq0 /= eq_complex /= !addr0 -!natrD pnatr_eq0 eqxx andbT.
  by rewrite !addn_eq0 (gtn_eqF M0).
have [s [sz p]] := C78_jacobi_pairs (@eigvals0P R) e.
have := C61_jacobi_one (@eigvals0P R) e; rewrite /= b14 b24 => le.
by rewrite e le /=; eexists; reflexivity.
Qed.
End Ex4.
Print Assumptions C78_hermite_pairs.
Print Assumptions C78_laguerre_pairs.
Print Assumptions C78_jacobi_pairs.
Print Assumptions C61_hermite_squares.
Print Assumptions C61_jacobi_one.
