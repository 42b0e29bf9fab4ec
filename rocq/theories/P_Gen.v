(** * P_Gen: property C06 (generic kernel sampler, only K is known). *)
From mathcomp Require Import all_ssreflect all_algebra.
From mathcomp.algebra_tactics Require Import ring.
From Verif Require Import Prob Minor Chain ChainCons ExactModel GenKernel P_Proj.
Set Implicit Arguments. Unset Strict Implicit. Unset Printing Implicit Defensive.
Import Order.Theory GRing.Theory Num.Theory.
Local Open Scope ring_scope.

Section Gen.
Variables (R : rcfType) (N : nat).

(** Specification: K symmetric with 0 <= K <= I (as quadratic forms). *)
Definition is_dpp_kernel (K : 'M[R]_N) : Prop :=
  K^T = K /\ forall v : 'cV[R]_N, 0 <= (v^T *m K *m v) 0 0 <= (v^T *m v) 0 0.

Lemma qfE K (v : 'I_N -> R) : qf K v = ((\col_i v i)^T *m K *m (\col_i v i)) 0 0.
Proof.
rewrite mxE /qf exchange_big /=; apply: eq_bigr => k _.
rewrite [X in _ = X * _]mxE [RHS]mulr_suml; apply: eq_bigr => i _; by rewrite !mxE.
Qed.

Lemma kernel_contr K : is_dpp_kernel K -> contr (enum 'I_N) K.
Proof.
move=> [sK bK].
have sE i k : K i k = K k i by rewrite -{1}sK mxE.
split; (split=> [i k _ _|v _]).
- exact: sE.
- by rewrite qfE; case/andP: (bK (\col_i v i)).
- by rewrite !mxE (eq_sym i) (sE i k).
- rewrite qfE mulmxBr mulmxBl mulmx1 mxE [X in _ + X]mxE subr_ge0.
  by case/andP: (bK (\col_i v i)).
Qed.

Variable K : 'M[R]_N.
Hypothesis P : is_dpp_kernel K.

Theorem C06_marginals (T : {set 'I_N}) :
  Pr (dpp_sampler_generic_kernel K) (fun X => T \subset items X) = pmS K T.
Proof.
have c := kernel_contr P.
rewrite /pmS -(gen_marginal (js := enum 'I_N) (srt_enum N) c) ?enum_uniq //; last by move=> i _; rewrite mem_enum.
apply: eq_E => X; congr (_%:R); apply: congr1.
apply/subsetP/allP => [h x|h x xT]; first by rewrite mem_enum => /h; rewrite inE.
by rewrite inE; apply: (h x); rewrite mem_enum.
Qed.

(** P(X = S) = |det (K - I_{S^c})|; moreover the items come in increasing order *)
Theorem C06_point_law (S : {set 'I_N}) :
  Pr (dpp_sampler_generic_kernel K) (fun X => items X == S) =
  `|\det (K - \matrix_(i, j) ((i == j) && (i \notin S))%:R)|.
Proof.
have c := kernel_contr P.
transitivity (Pr (dpp_sampler_generic_kernel K) (fun X => X == enum S)); last first.
  have e : enum S = [seq i <- enum 'I_N | i \in S] by rewrite enumT.
  rewrite /Pr e (gen_point S (srt_enum N) c); congr `|_|.
  rewrite /pm -[RHS](det_mxsub_enum (minusI K S)); by [].
apply: eq_E_possible => X pX.
have sX : subseq X (enum 'I_N) by exact: gen_sorted pX.
congr (_%:R); apply: congr1; apply/eqP/eqP => [<-|->]; last by apply/setP => i; rewrite inE mem_enum.
have -> : enum (items X) = [seq i <- enum 'I_N | i \in X].
  by rewrite enumT; apply: eq_filter => i; rewrite /= inE.
exact: (subseq_uniqP (enum_uniq _) sX).
Qed.

Theorem C06_never_fails :
  total (dpp_sampler_generic_kernel K) /\ forall e, ~ possible (dpp_sampler_generic_kernel K) (inr e).
Proof.
have t : total (dpp_sampler_generic_kernel K) by exact: (gen_total (srt_enum N) (kernel_contr P)).
by split=> // e; exact: total_no_raise.
Qed.

Theorem C06_increasing_items X : possible (dpp_sampler_generic_kernel K) (inl X) -> sorted ltn [seq val i | i <- X].
Proof.
move=> pX; have sX : subseq X (enum 'I_N) by exact: gen_sorted pX.
apply: (subseq_sorted ltn_trans (map_subseq val sX)).
by rewrite val_enum_ord iota_ltn_sorted.
Qed.
End Gen.

Section Example.
Variable R : rcfType.

Lemma half_proj_kernel N (K : 'M[R]_N) (c : R) : isproj K -> 0 <= c <= 1 -> is_dpp_kernel (c *: K).
Proof.
move=> [sK iK] /andP[c0 c1]; split; first by rewrite linearZ /= sK.
move=> v; have sq (w : 'cV[R]_N) : 0 <= (w^T *m w) 0 0.
  by rewrite mxE sumr_ge0 // => i _; rewrite mxE -expr2 sqr_ge0.
have e1 : v^T *m K *m v = (K *m v)^T *m (K *m v) by rewrite trmx_mul sK mulmxA -[v^T *m K *m K]mulmxA iK.
have e2 : v^T *m v - v^T *m K *m v = ((1%:M - K) *m v)^T *m ((1%:M - K) *m v).
  have iB : (1%:M - K) *m (1%:M - K) = 1%:M - K.
    by rewrite mulmxBl mul1mx mulmxBr mulmx1 iK subrr subr0.
  rewrite trmx_mul linearB /= trmx1 sK mulmxA -[v^T *m (1%:M - K) *m (1%:M - K)]mulmxA iB.
  by rewrite mulmxBr mulmxBl mulmx1.
have k0 := sq (K *m v); have k1 := sq ((1%:M - K) *m v); rewrite -e1 in k0; rewrite -e2 in k1.
rewrite -scalemxAr -scalemxAl mxE mulr_ge0 //=.
apply: (@le_trans _ _ (1 * (v^T *m K *m v) 0 0)); first by rewrite ler_wpmul2r.
by move: k1; rewrite mul1r !mxE subr_ge0.
Qed.

Example C06_instance : is_dpp_kernel (2%:R^-1 *: Kex R).
Proof.
apply: half_proj_kernel; first exact: Kex_proj.
by rewrite invr_ge0 ler0n /= invf_le1 ?ltr0n // ler1n.
Qed.
End Example.

Print Assumptions C06_marginals.
Print Assumptions C06_point_law.
