(** * C47: chain-rule sampling of the multivariate Jacobi ensemble *)
From mathcomp Require Import all_ssreflect all_algebra.
From mathcomp.algebra_tactics Require Import ring.
From Verif Require Import Prob Minor Chain ChainCons ProjEig ProjGS McmcModel Mcmc Spectral OpeModel.
Set Implicit Arguments. Unset Strict Implicit. Unset Printing Implicit Defensive.
Import Order.Theory GRing.Theory Num.Theory.
Local Open Scope ring_scope.

Section Vec.
Variables (R : rcfType) (N : nat).
Implicit Types (u v w : 'rV[R]_N) (phi : seq 'rV[R]_N).
Notation dot := (@dotr R N).

Lemma dotE u v : dot u v = \sum_k u 0 k * v 0 k.
Proof. by rewrite /dotr mxE; apply: eq_bigr => k _; rewrite mxE. Qed.
Lemma dotC u v : dot u v = dot v u.
Proof. by rewrite !dotE; apply: eq_bigr => k _; rewrite mulrC. Qed.
Lemma dotDr u v w : dot u (v + w) = dot u v + dot u w.
Proof. by rewrite !dotE -big_split /=; apply: eq_bigr => k _; rewrite mxE mulrDr. Qed.
Lemma dotZr a u v : dot u (a *: v) = a * dot u v.
Proof. by rewrite !dotE big_distrr /=; apply: eq_bigr => k _; rewrite mxE mulrCA. Qed.
Lemma dotNr u v : dot u (- v) = - dot u v.
Proof. by rewrite -scaleN1r dotZr mulN1r. Qed.
Lemma dotBr u v w : dot u (v - w) = dot u v - dot u w.
Proof. by rewrite dotDr dotNr. Qed.
Lemma dot0r u : dot u 0 = 0.
Proof. by rewrite -(scale0r 0) dotZr mul0r. Qed.
Lemma dot_sumr (I : Type) (s : seq I) (F : I -> 'rV[R]_N) u : dot u (\sum_(i <- s) F i) = \sum_(i <- s) dot u (F i).
Proof. by elim: s => [|i s IH]; rewrite ?big_nil ?dot0r // !big_cons dotDr IH. Qed.
Lemma dot_ge0 v : 0 <= dot v v.
Proof. by rewrite dotE sumr_ge0 // => k _; rewrite -expr2 sqr_ge0. Qed.
Lemma dot_eq0 v : dot v v = 0 -> v = 0.
Proof.
move/eqP; rewrite dotE psumr_eq0 => [/allP h|k _]; last by rewrite -expr2 sqr_ge0.
apply/rowP => k; have := h k; rewrite mem_index_enum => /(_ isT) /=; rewrite mulf_eq0 orbb => /eqP ->.
by rewrite mxE.
Qed.

(** orthonormal rows *)
Definition onb phi : Prop := forall a b, (a < size phi)%N -> (b < size phi)%N -> dot (nth 0 phi a) (nth 0 phi b) = (a == b)%:R.

Lemma onb_sum phi a v : onb phi -> (a < size phi)%N -> \sum_(w <- phi) dot w v * dot (nth 0 phi a) w = dot (nth 0 phi a) v.
Proof.
move=> o al; rewrite (big_nth 0) big_mkord (bigD1 (Ordinal al)) //= big1 ?addr0 => [|b nb]; last first.
  by rewrite o // (_ : (a == b) = false) ?mulr0 //; apply/negbTE; rewrite eq_sym; apply: contra nb => /eqP e; apply/eqP/val_inj.
by rewrite o // eqxx mulr1.
Qed.

Lemma res_orth phi a v : onb phi -> (a < size phi)%N -> dot (nth 0 phi a) (residual phi v) = 0.
Proof.
move=> o al; rewrite /residual dotBr dot_sumr -[X in X - _](onb_sum v o al); apply/eqP; rewrite subr_eq0; apply/eqP.
by apply: eq_bigr => w _; rewrite dotZr.
Qed.

Lemma dot_res phi u v : onb phi -> dot (residual phi u) (residual phi v) = dot u v - \sum_(w <- phi) dot w u * dot w v.
Proof.
move=> o; rewrite dotC {2}/residual dotBr [X in X - _]dotC dot_sumr.
have -> : \sum_(w <- phi) dot (residual phi v) (dot w u *: w) = 0.
  rewrite big_seq big1 // => w /(nthP 0)[a al <-].
  by rewrite dotZr [dot (residual _ _) _]dotC res_orth // mulr0.
rewrite subr0 /residual dotBr dot_sumr; congr (_ - _); apply: eq_bigr => w _.
by rewrite dotZr mulrC [dot u w]dotC.
Qed.

Lemma dot_res1 phi u v : onb phi -> dot (residual phi u) v = dot (residual phi u) (residual phi v).
Proof.
move=> o; rewrite [X in _ = dotr _ X]/residual dotBr dot_sumr big_seq big1 ?subr0 // => w /(nthP 0)[a al <-].
by rewrite dotZr [dot (residual _ _) _]dotC res_orth // mulr0.
Qed.

Definition unitv v : 'rV[R]_N := (Num.sqrt (dot v v))^-1 *: v.

Lemma onb_rcons phi v : onb phi -> 0 < dot (residual phi v) (residual phi v) -> onb (rcons phi (unitv (residual phi v))).
Proof.
move=> o; set r := residual phi v => r0 a b; rewrite !size_rcons !ltnS !nth_rcons.
have q : Num.sqrt (dot r r) ^+ 2 = dot r r by rewrite sqr_sqrtr // ltW.
have s0 : Num.sqrt (dot r r) != 0 by rewrite gt_eqF // sqrtr_gt0.
rewrite leq_eqVlt => /orP[/eqP ->|al]; rewrite leq_eqVlt => /orP[/eqP ->|bl].
- by rewrite ltnn eqxx /unitv dotZr dotC dotZr mulrA -expr2 exprVn q mulVf // gt_eqF.
- by rewrite ltnn eqxx bl (gtn_eqF bl) /unitv dotC dotZr res_orth // mulr0.
- by rewrite ltnn eqxx al (ltn_eqF al) /unitv dotZr res_orth // mulr0.
- by rewrite al bl o.
Qed.

Lemma res_rcons phi v u x : onb phi -> 0 < dot (residual phi v) (residual phi v) ->
  let r := residual phi v in
  dot (residual (rcons phi (unitv r)) u) (residual (rcons phi (unitv r)) x) =
  dot (residual phi u) (residual phi x) - dot (residual phi u) r * dot r (residual phi x) / dot r r.
Proof.
move=> o r0 r; rewrite (dot_res _ _ (onb_rcons o r0)) (dot_res _ _ o) -cats1 big_cat big_seq1 /= opprD addrA; congr (_ - _).
have q : Num.sqrt (dot r r) ^+ 2 = dot r r by rewrite sqr_sqrtr // ltW.
have e z : dot (unitv r) z = (Num.sqrt (dot r r))^-1 * dot r (residual phi z).
  by rewrite /unitv dotC dotZr dotC /r (dot_res1 v z o).
by rewrite !e [dot (residual phi u) r]dotC mulrACA -expr2 exprVn q mulrC.
Qed.

Lemma res_bound phi v : onb phi -> dot (residual phi v) (residual phi v) <= dot v v.
Proof.
move=> o; rewrite dot_res // ler_subl_addr ler_addl sumr_ge0 // => w _.
by rewrite -expr2 sqr_ge0.
Qed.

Lemma ratio01 phi v : onb phi -> 0 <= dot (residual phi v) (residual phi v) / dot v v <= 1.
Proof.
move=> o; rewrite divr_ge0 ?dot_ge0 //=; have [e|ne] := eqVneq (dot v v) 0; first by rewrite e invr0 mulr0 ler01.
by rewrite ler_pdivr_mulr ?mul1r ?res_bound // lt_def ne dot_ge0.
Qed.

(** the rows of phi after accepted points with feature vectors vs *)
Inductive built : seq 'rV[R]_N -> seq 'rV[R]_N -> Prop :=
| built0 : built [::] [::]
| builtS vs phi v : built vs phi -> 0 < dot (residual phi v) (residual phi v) ->
    built (rcons vs v) (rcons phi (unitv (residual phi v))).

Lemma built_onb vs phi : built vs phi -> onb phi.
Proof. by elim=> // vs' phi' v _ IH h; apply: onb_rcons. Qed.
Lemma built_size vs phi : built vs phi -> size vs = size phi.
Proof. by elim=> // vs' phi' v _ IH h; rewrite !size_rcons IH. Qed.
End Vec.

Section Finite.
Variables (R : rcfType) (N M : nat) (feat : 'I_M -> 'rV[R]_N).
Notation dot := (@dotr R N).
Notation res := (@residual R N).

Definition Kmx phi : 'M[R]_M := \matrix_(i, j) dot (res phi (feat i)) (res phi (feat j)).

Lemma Kmx0 : Kmx [::] = \matrix_(i, j) dot (feat i) (feat j).
Proof. by apply/matrixP => i j; rewrite !mxE /residual !big_nil !subr0. Qed.

Lemma Kmx_rcons phi y : onb phi -> 0 < dot (res phi (feat y)) (res phi (feat y)) ->
  Kmx (rcons phi (unitv (res phi (feat y)))) = schur (Kmx phi) y.
Proof.
move=> o r0; apply/matrixP => i j; by rewrite !mxE res_rcons.
Qed.

Lemma built_pm (ys : seq 'I_M) phi : built (map feat ys) phi ->
  pm (Kmx [::]) ys != 0 /\ forall T, pm (Kmx [::]) (ys ++ T) = pm (Kmx [::]) ys * pm (Kmx phi) T.
Proof.
move: {-1}(map feat ys) (erefl (map feat ys)) => vs e b.
elim: b ys e => [|vs' phi' v b IH r0] ys e.
  by case: ys e => // _; rewrite pm_nil oner_eq0; split=> // T; rewrite mul1r.
case/lastP: ys e => [|ys y]; first by move/(congr1 size); rewrite size_rcons.
rewrite map_rcons => /rcons_inj[e ev]; subst v.
have o := built_onb b; have [n0 h] := IH ys e.
have Kyy : Kmx phi' y y = dot (res phi' (feat y)) (res phi' (feat y)) by rewrite mxE.
have Ky : Kmx phi' y y != 0 by rewrite Kyy gt_eqF.
have py : pm (Kmx [::]) (rcons ys y) = pm (Kmx [::]) ys * Kmx phi' y y by rewrite -cats1 h pm1.
rewrite py mulf_neq0 //; split=> // T.
by rewrite cat_rcons h pm_cons // Kmx_rcons // mulrA.
Qed.
End Finite.

(** ** every reachable state, arbitrary points *)
Section Run.
Variables (R : rcfType) (X : eqType) (N : nat) (feat : X -> 'rV[R]_N) (proposal : prog R X).
Notation dot := (@dotr R N).

Lemma trials_built T phi vs prev r : built vs phi -> possible (trials feat proposal T phi prev) (inl (r, true)) ->
  built (rcons vs (feat r.1)) (rcons phi r.2).
Proof.
move=> b; elim: T prev => [|T IH] prev /=; first by case: prev.
move=> h; have [x _ h1] := bind_possible h; have [[pos h2]|h2] := flip_possible h1; last exact: IH h2.
case: h2 => -> /=; apply: builtS b _; rewrite lt_def dot_ge0 andbT.
by apply/eqP => e; move: pos; rewrite e mul0r ltxx.
Qed.

Lemma loop_built T n xs phi (ok : bool) xs' phi' : (ok -> built (map feat xs) phi) ->
  possible (ope_loop feat proposal T n xs phi ok) (inl (xs', phi', true)) ->
  built (map feat xs') phi' /\ size xs' = (size xs + n)%N.
Proof.
elim: n xs phi ok => [|n IH] xs phi ok b /=; first by case=> -> -> ok1; rewrite addn0; split=> //; apply: b.
move=> h; have [[r a] h1 h2] := bind_possible h.
have [|h3 h4] := IH _ _ _ _ h2; last by rewrite h4 size_rcons addSnnS.
by case/andP => /b bb /= a1; rewrite a1 in h1; rewrite map_rcons; apply: trials_built h1.
Qed.

(** the kernel K(x,y) = sum_k P_k(x) P_k(y) and its Gram determinants *)
Definition kern (x y : X) : R := \sum_k feat x 0 k * feat y 0 k.
Definition gram (x0 : X) (xs : seq X) : R := \det (\matrix_(i < size xs, j < size xs) kern (nth x0 xs i) (nth x0 xs j)).

Lemma gram_pm M (g : 'I_M -> X) (x0 : X) (ys : seq 'I_M) : gram x0 (map g ys) = pm (Kmx (feat \o g) [::]) ys.
Proof.
rewrite /gram size_map /pm; congr (\det _); apply/matrixP => i j.
rewrite !mxE /residual !big_nil !subr0 /= dotE /kern.
have e (k : 'I_(size ys)) : nth x0 (map g ys) k = g (tnth (in_tuple ys) k).
  have d := tnth (in_tuple ys) k; by rewrite (nth_map d) // (tnth_nth d).
by rewrite !e.
Qed.

Lemma built_gram xs phi x : built (map feat xs) phi ->
  gram x xs != 0 /\ gram x (rcons xs x) = gram x xs * dot (residual phi (feat x)) (residual phi (feat x)).
Proof.
move=> b; pose t := in_tuple (rcons xs x); pose g := tnth t.
have im s : {subset s <= rcons xs x} -> exists ys, s = map g ys.
  elim: s => [|z s IH] sub; first by exists [::].
  have [|ys e] := IH; first by move=> c h; apply: sub; rewrite inE h orbT.
  have /tnthP[i ei] : z \in t by apply: (sub z); rewrite mem_head.
  by exists (i :: ys); rewrite /= /g -ei -e.
have [ys ey] : exists ys, xs = map g ys by apply: im => z h; rewrite mem_rcons inE h orbT.
have /tnthP[y yx] : x \in t by rewrite /= mem_rcons mem_head.
have b' : built (map (feat \o g) ys) phi by rewrite map_comp -ey.
have [n0 h] := built_pm b'.
have e1 : gram x xs = pm (Kmx (feat \o g) [::]) ys by rewrite -(gram_pm g x) -ey.
have e2 : gram x (rcons xs x) = pm (Kmx (feat \o g) [::]) (rcons ys y).
  by rewrite -(gram_pm g x) map_rcons -ey /g -yx.
by rewrite e2 e1 n0 -(cats1 ys y) h pm1 mxE /= /g -yx.
Qed.

(** C47: the acceptance probability of a proposal x is the normalised Schur complement
    det K(x_1..x_n,x) / (det K(x_1..x_n) K(x,x)), and lies in [0,1] *)
Theorem C47_acceptance T n xs phi x :
  possible (ope_loop feat proposal T n [::] [::] true) (inl (xs, phi, true)) ->
  let p := dot (residual phi (feat x)) (residual phi (feat x)) / dot (feat x) (feat x) in
  [/\ size xs = n, 0 <= p <= 1, gram x xs != 0 & (kern x x != 0 -> p = gram x (rcons xs x) / (gram x xs * kern x x))].
Proof.
move=> h p; have [|b s] := loop_built _ h; first by move=> _; exact: built0.
have [g0 g1] := built_gram x b; split=> //; first exact: ratio01 (built_onb b).
move=> k0; have e : dot (feat x) (feat x) = kern x x by rewrite dotE.
by rewrite /p g1 e -mulf_div divff // mul1r.
Qed.
End Run.

(** ** the law, for a reference measure with finite support: weights w on the points 'I_M such that the functions
    P_1..P_N are orthonormal, and proposals from K(x,x) w(x) / N *)
Section Law.
Variables (R : rcfType) (N M : nat) (feat : 'I_M -> 'rV[R]_N) (w : 'I_M -> R) (proposal : prog R 'I_M).
Notation dot := (@dotr R N).
Hypothesis N0 : (0 < N)%N.
Hypothesis w0 : forall i, 0 <= w i.
Hypothesis ortho : forall k l : 'I_N, \sum_i w i * feat i 0 k * feat i 0 l = (k == l)%:R.
Hypothesis propE : forall f, E proposal f = \sum_i (w i * dot (feat i) (feat i) / N%:R) * f i.

(** the kernel with the reference measure: sqrt(w(x)) K(x,y) sqrt(w(y)) *)
Definition Kw phi : 'M[R]_M := \matrix_(i, j) (Num.sqrt (w i) * Num.sqrt (w j) * Kmx feat phi i j).
Definition Vw : 'M[R]_(M, N) := \matrix_(i, k) (Num.sqrt (w i) * feat i 0 k).

Lemma Vw_ortho : Vw^T *m Vw = 1%:M.
Proof.
apply/matrixP => k l; rewrite mxE [RHS]mxE -ortho; apply: eq_bigr => i _; rewrite !mxE mulrACA -expr2 sqr_sqrtr //.
by rewrite mulrA.
Qed.
Lemma Kw0 : Kw [::] = Vw *m Vw^T.
Proof.
apply/matrixP => i j; rewrite !mxE /residual !big_nil !subr0 dotE big_distrr /=.
by apply: eq_bigr => k _; rewrite !mxE mulrACA.
Qed.
Lemma Kw_proj : isproj (Kw [::]) /\ \tr (Kw [::]) = N%:R.
Proof. by rewrite Kw0; split; [apply: ortho_proj; exact: Vw_ortho|apply: ortho_tr; exact: Vw_ortho]. Qed.

Lemma Kw_diag phi i : Kw phi i i = w i * dot (residual phi (feat i)) (residual phi (feat i)).
Proof. by rewrite mxE -expr2 sqr_sqrtr // mxE. Qed.

Lemma Kw_rcons phi y : onb phi -> Kw phi y y != 0 -> Kw (rcons phi (unitv (residual phi (feat y)))) = schur (Kw phi) y.
Proof.
move=> o; rewrite Kw_diag mulf_eq0 negb_or => /andP[wy ry].
have r0 : 0 < dot (residual phi (feat y)) (residual phi (feat y)) by rewrite lt_def ry dot_ge0.
have sy : Num.sqrt (w y) != 0 by rewrite gt_eqF // sqrtr_gt0 lt_def wy w0.
apply/matrixP => i j; rewrite [LHS]mxE Kmx_rcons // !schurE !mxE.
by fixeq; field; rewrite sy gt_eqF.
Qed.

(** one point: at most T proposals *)
Lemma trials_E T phi n prev (f : 'I_M -> 'rV[R]_N -> R) : onb phi -> isproj (Kw phi) -> \tr (Kw phi) = n.+1%:R -> (n < N)%N ->
  E (trials feat proposal T phi prev) (fun r => r.2%:R * f r.1.1 r.1.2) =
  (1 - ((N - n.+1)%:R / N%:R) ^+ T) * \sum_i Kw phi i i / n.+1%:R * f i (unitv (residual phi (feat i))).
Proof.
move=> o P trK nN; set S := \sum_i _; have NR : N%:R != 0 :> R by rewrite pnatr_eq0 -lt0n.
set q := (N - n.+1)%:R / N%:R; have q1 : 1 - q = n.+1%:R / N%:R :> R.
  by rewrite /q natrB // mulrBl divff // opprB addrC subrK.
elim: T prev => [|T IH] prev.
  by rewrite expr0 subrr mul0r; case: prev => [xr|] //; rewrite -[LHS]/(0 * f xr.1 xr.2) mul0r.
have -> : trials feat proposal T.+1 phi prev = bind proposal (fun x =>
   Flip (dot (residual phi (feat x)) (residual phi (feat x)) / dot (feat x) (feat x)) (fun acc =>
   if acc then Ret (x, unitv (residual phi (feat x)), true) else trials feat proposal T phi (Some (x, residual phi (feat x))))) by [].
rewrite E_bind propE.
pose a i : R := Kw phi i i / N%:R.
have step i : w i * dot (feat i) (feat i) / N%:R * (dot (residual phi (feat i)) (residual phi (feat i)) / dot (feat i) (feat i)) = a i.
  rewrite /a Kw_diag; have [e|ne] := eqVneq (dot (feat i) (feat i)) 0; last by fixeq; field; rewrite ne NR.
  have -> : dot (residual phi (feat i)) (residual phi (feat i)) = 0.
    by apply/eqP; rewrite eq_le dot_ge0 andbT -e res_bound.
  by rewrite mul0r !mulr0 mul0r.
have sa : \sum_i a i = 1 - q by rewrite q1 -big_distrl /= -/(\tr _) trK.
have mass : \sum_i w i * dot (feat i) (feat i) / N%:R = 1.
  have [_ t] := Kw_proj; rewrite -big_distrl /=.
  have -> : \sum_i w i * dot (feat i) (feat i) = \tr (Kw [::]).
    by apply: eq_bigr => i _; rewrite Kw_diag /residual !big_nil !subr0.
  by rewrite t divff.
transitivity (\sum_i (a i * f i (unitv (residual phi (feat i))) + (w i * dot (feat i) (feat i) / N%:R - a i) * ((1 - q ^+ T) * S))).
  apply: eq_bigr => i _; rewrite flip_E !IH.
  have /andP[r0 r1] := ratio01 (feat i) o; rewrite clip01 //.
  rewrite -[E (Ret _) _]/(1 * f i (unitv (residual phi (feat i)))) mul1r -{1 2}(step i).
  by move: (dot _ _ / dot _ _) (w i * _ / _) (f _ _) (_ * S) => x1 x2 x3 x4; fixeq; ring.
rewrite big_split /= -big_distrl /= sumrB mass sa.
have -> : \sum_i a i * f i (unitv (residual phi (feat i))) = (1 - q) * S.
  rewrite /S big_distrr /=; apply: eq_bigr => i _; rewrite /a q1.
  have n1 : n.+1%:R != 0 :> R by rewrite pnatr_eq0.
  by move: (Kw phi i i) (f i _) n1 NR; move: (n.+1%:R) (N%:R) => b c d e b0 c0; fixeq; field; rewrite b0 c0.
rewrite exprS; move: (q ^+ T) => qT; fixeq; ring.
Qed.

(** the probability that no proposal loop fails, starting with n points to draw *)
Definition ok_prob (T n : nat) : R := \prod_(N - n <= m < N) (1 - (m%:R / N%:R) ^+ T).

Lemma loop_E T n xs phi (f : seq 'I_M -> R) : onb phi -> isproj (Kw phi) -> \tr (Kw phi) = n%:R -> (n <= N)%N ->
  E (ope_loop feat proposal T n xs phi true) (fun r => r.2%:R * f r.1.1) = ok_prob T n * chainE n n (Kw phi) (fun ys => f (xs ++ ys)).
Proof.
elim: n xs phi => [|n IH] xs phi o P trK nN.
  by rewrite /ok_prob subn0 big_geq // /= cats0.
have bad m ys psi : E (ope_loop feat proposal T m ys psi false) (fun r => r.2%:R * f r.1.1) = 0.
  elim: m ys psi => [|m IHm] ys psi; first by rewrite -[LHS]/(0 * _) mul0r.
  by rewrite [ope_loop _ _ _ _ _ _ _]/= E_bind -[RHS](E_zero (trials feat proposal T psi None)); apply: eq_E => r; apply: IHm.
rewrite [ope_loop _ _ _ _ _ _ _]/= E_bind.
transitivity (E (trials feat proposal T phi None) (fun r => r.2%:R * (E (ope_loop feat proposal T n (rcons xs r.1.1) (rcons phi r.1.2) true) (fun r => r.2%:R * f r.1.1)))).
  by apply: eq_E => -[r [|]] /=; [rewrite mul1r|rewrite mul0r bad].
rewrite (trials_E T None (fun i v => E (ope_loop feat proposal T n (rcons xs i) (rcons phi v) true) (fun r => r.2%:R * f r.1.1)) o P trK nN).
have -> : ok_prob T n.+1 = (1 - ((N - n.+1)%:R / N%:R) ^+ T) * ok_prob T n.
  rewrite /ok_prob big_ltn; last by rewrite ltn_subrL.
  by rewrite subnSK.
rewrite -mulrA; congr (_ * _); rewrite [chainE _ _ _ _]/= big_distrr /=; apply: eq_bigr => i _.
have [e|ne] := eqVneq (Kw phi i i) 0; first by rewrite e !mul0r mulr0.
rewrite mulrCA; congr (_ * _).
have r0 : 0 < dot (residual phi (feat i)) (residual phi (feat i)).
  by rewrite lt_def dot_ge0 andbT; apply: contra ne => /eqP e; rewrite Kw_diag e mulr0.
rewrite IH.
- by rewrite Kw_rcons //; congr (_ * _); apply: eq_chainE => ys; rewrite cat_rcons.
- exact: onb_rcons.
- by rewrite Kw_rcons //; apply: schur_proj.
- by rewrite Kw_rcons //; apply: schur_trS.
- exact: ltnW.
Qed.

(** C47: the joint law of the ordered sample and of the absence of failure messages; with no failure the points are those
    of the determinantal process with kernel K and reference measure w *)
Theorem C47_law T (ys : seq 'I_M) :
  Pr (ope_sample feat proposal T) (fun r => r.2 && (r.1.1 == ys)) =
  if size ys == N then (\prod_(0 <= m < N) (1 - (m%:R / N%:R) ^+ T)) * ((\prod_(y <- ys) w y) * pm (\matrix_(i, j) dot (feat i) (feat j)) ys / N`!%:R)
  else 0.
Proof.
have [P trK] := Kw_proj; have o : onb ([::] : seq 'rV[R]_N) by [].
transitivity (E (ope_sample feat proposal T) (fun r => r.2%:R * (r.1.1 == ys)%:R)).
  by apply: eq_E => -[[a b] [|]] /=; rewrite ?mul1r ?mul0r.
rewrite /ope_sample (@loop_E T N [::] [::] (fun zs => (zs == ys)%:R)) // chainE_law // /ok_prob subnn ffactnn; case: ifP => _; last by rewrite mulr0.
congr (_ * (_ / _)).
have -> : Kw [::] = \matrix_(i, j) (Num.sqrt (w i) * Num.sqrt (w j) * (\matrix_(i, j) dot (feat i) (feat j)) i j).
  by rewrite -Kmx0; apply/matrixP => i j; rewrite !mxE.
set K := \matrix_(i, j) dot _ _; rewrite /pm.
have -> : mxsub (tnth (in_tuple ys)) (tnth (in_tuple ys)) (\matrix_(i, j) (Num.sqrt (w i) * Num.sqrt (w j) * K i j)) =
  diag_mx (\row_i Num.sqrt (w (tnth (in_tuple ys) i))) *m mxsub (tnth (in_tuple ys)) (tnth (in_tuple ys)) K *m diag_mx (\row_i Num.sqrt (w (tnth (in_tuple ys) i))).
  by apply/matrixP => i j; rewrite mul_mx_diag mul_diag_mx !mxE mulrAC.
rewrite !det_mulmx !det_diag mulrAC -big_split /=; congr (_ * _).
rewrite [RHS]big_tnth; apply: eq_bigr => i _; by rewrite !mxE -expr2 sqr_sqrtr.
Qed.
End Law.

(** the hypotheses of C47_law are met: any orthonormal functions, any positive weights, the proposal of K(x,x) w(x) / N *)
Example C47_instance (R : rcfType) (N M : nat) (V : 'M[R]_(M, N)) (w : 'I_M -> R) : (0 < N)%N -> V^T *m V = 1%:M -> (forall i, 0 < w i) ->
  let feat := fun i => (Num.sqrt (w i))^-1 *: row i V in
  let proposal := Choice (enum 'I_M) (fun i => w i * dotr (feat i) (feat i) / N%:R) (fun i => Ret i) in
  (forall k l : 'I_N, \sum_i w i * feat i 0 k * feat i 0 l = (k == l)%:R) /\
  (forall f, E proposal f = \sum_i (w i * dotr (feat i) (feat i) / N%:R) * f i).
Proof.
move=> N0 o w0 feat proposal.
have sw i : w i = Num.sqrt (w i) ^+ 2 by rewrite sqr_sqrtr // ltW.
have s0 i : Num.sqrt (w i) != 0 by rewrite gt_eqF // sqrtr_gt0.
have wd i : w i * dotr (feat i) (feat i) = (V *m V^T) i i.
  rewrite dotE big_distrr !mxE /=; apply: eq_bigr => k _; rewrite !mxE {1}sw.
  by move: (Num.sqrt _) (s0 i) => c c0; fixeq; field.
split.
  move=> k l; have := congr1 (fun A : 'M[R]_N => A k l) o; rewrite /= [RHS]mxE => <-.
  rewrite mxE; apply: eq_bigr => i _; rewrite !mxE {1}sw.
  have alg (c a b : R) : c != 0 -> c ^+ 2 * (c^-1 * a) * (c^-1 * b) = a * b by move=> c0; fixeq; field.
  exact: alg.
move=> f; have P := ortho_proj o; have t := ortho_tr o.
rewrite (@E_choice_proj _ _ (V *m V^T) N) // ?enum_uniq //.
- by apply: eq_bigr => i _; rewrite wd.
- by move=> i _; rewrite wd.
- by move=> i; rewrite mem_enum.
Qed.

(** ** the proposal: with dominating bounds, conditionally on acceptance, component k is exact *)
Section Proposal.
Variables (R : rcfType) (N M : nat) (q : 'I_M -> R) (draw_eq : prog R 'I_M) (dens : nat -> 'I_M -> R) (bound : nat -> R).
(** x ~ w_eq = q; dens k = (P_k/||P_k||)^2 w, a probability *)
Hypothesis q0 : forall i, 0 < q i.
Hypothesis drawE : forall f, E draw_eq f = \sum_i q i * f i.
Hypothesis mass1 : \sum_i q i = 1.
Hypothesis dens0 : forall k i, 0 <= dens k i.
Hypothesis dens1 : forall k, (k < N)%N -> \sum_i dens k i = 1.
Hypothesis dom : forall k i, (k < N)%N -> dens k i / q i <= bound k.

Lemma bound_gt0 k : (k < N)%N -> 0 < bound k.
Proof.
move=> kN; have [i di] : exists i, dens k i != 0.
  apply/existsP; apply/contraT; rewrite negb_exists => /forallP h.
  have := dens1 kN; rewrite big1 => [/esym/eqP|i _]; first by rewrite oner_eq0.
  by have := h i; rewrite negbK => /eqP.
by apply: lt_le_trans (dom i kN); rewrite divr_gt0 // lt_def di dens0.
Qed.

Theorem C47_proposal T i : (0 < N)%N ->
  Pr (sample_chain_rule_proposal N draw_eq (fun k i => dens k i / q i) bound T) (fun r => r.2 && (r.1 == i)) =
  N%:R^-1 * \sum_(0 <= k < N) (1 - (1 - (bound k)^-1) ^+ T) * dens k i.
Proof.
move=> N0; rewrite /Pr /sample_chain_rule_proposal unif_E ?size_iota //; congr (_ * _).
rewrite /index_iota subn0 !big_seq; apply: eq_bigr => k; rewrite mem_iota add0n => /= kN.
have B0 := bound_gt0 kN; move: (None) => prev.
elim: T prev => [|T IH] prev.
  by rewrite expr0 subrr mul0r; case: prev.
rewrite [proposal_trials _ _ _ _ _ _]/= E_bind drawE.
transitivity (\sum_j ((bound k)^-1 * (dens k j * (j == i)%:R) + (q j - dens k j / bound k) * ((1 - (1 - (bound k)^-1) ^+ T) * dens k i))).
  apply: eq_bigr => j _; rewrite flip_E IH.
  have qj := q0 j; rewrite clip01; first last.
    by rewrite ler_pdivr_mulr // mul1r dom.
    by rewrite !divr_ge0 ?dens0 ?(ltW B0) ?(ltW qj).
  rewrite -[E (Ret _) _]/((j == i)%:R).
  move: (_ * dens k i) ((j == i)%:R) => x1 x2; have := gt_eqF qj; have := gt_eqF B0.
  move: (dens k j) (bound k) (q j) => a b c /negbT b0 /negbT c0; fixeq; field; by rewrite b0 c0.
rewrite big_split /= -big_distrr -big_distrl /= sumrB mass1 -big_distrl /= dens1 //.
have -> : \sum_j dens k j * (j == i)%:R = dens k i.
  by rewrite (bigD1 i) //= eqxx mulr1 big1 ?addr0 // => j /negbTE ->; rewrite mulr0.
by rewrite exprS mul1r; move: ((1 - (bound k)^-1) ^+ T) (dens k i) (bound k)^-1 => x y z; fixeq; ring.
Qed.
End Proposal.
Print Assumptions C47_law.
Print Assumptions C47_acceptance.
