(** * P_GenNonsym: C81, dpp_sampler_generic_kernel on arbitrary (possibly nonsymmetric) kernels.

    [pmS K T]: the principal minor det K_T.  [dpp_law K p]: p is the law of a random set with correlation kernel K, that is, a
    nonnegative function on sets of items whose inclusion sums P(T included in X) are the minors det K_T (for T empty: the
    total mass is 1).  No symmetry of K is assumed. *)
From mathcomp Require Import all_ssreflect all_algebra.
From mathcomp.algebra_tactics Require Import ring.
From Verif Require Import Prob Minor Chain ChainCons ExactModel GenKernel GenNonsym P_Gen ExoticModel OneDep P_OneDep.
Set Implicit Arguments. Unset Strict Implicit. Unset Printing Implicit Defensive.
Import Order.Theory GRing.Theory Num.Theory.
Local Open Scope ring_scope.

Section Nonsym.
Variables (R : rcfType) (N : nat).

Definition dpp_law (K : 'M[R]_N) (p : {set 'I_N} -> R) : Prop :=
  (forall S, 0 <= p S) /\ forall T : {set 'I_N}, \sum_(S : {set 'I_N} | T \subset S) p S = pmS K T.

(** The only candidate: the signed determinant of K - I_{S^c}. *)
Definition det_law (K : 'M[R]_N) (S : {set 'I_N}) : R :=
  (-1) ^+ #|~: S| * \det (K - \matrix_(i, j) ((i == j) && (i \notin S))%:R).

Lemma qv_det K S : qv (enum 'I_N) K S = det_law K S.
Proof.
rewrite /qv /det_law /sg; congr (_ ^+ _ * _).
  by rewrite -size_filter cardE; congr size; rewrite [enum 'I_N]enumT; apply: eq_filter => i; rewrite [RHS]in_setC.
by rewrite /pm -[RHS](det_mxsub_enum (minusI K S)).
Qed.

Lemma det_law_incl K (T : {set 'I_N}) : \sum_(S : {set 'I_N} | T \subset S) det_law K S = pmS K T.
Proof.
have u : uniq (enum (~: T) ++ enum T).
  by rewrite cat_uniq !enum_uniq andbT; apply/hasPn => i; rewrite mem_enum /= mem_enum in_setC negbK.
have full i : i \in enum (~: T) ++ enum T by rewrite mem_cat !mem_enum in_setC orNb.
rewrite /pmS -(qv_incl K u); apply: eq_big => [S|S _].
  have -> : [set i in enum T] = T by apply/setP => i; rewrite inE mem_enum.
  have -> : [set i in enum (~: T) ++ enum T] = setT by apply/setP => i; rewrite in_set full in_setT.
  by rewrite subsetT andbT.
rewrite -qv_det; apply: qv_perm; apply: uniq_perm => //; first exact: enum_uniq.
by move=> i; rewrite full mem_enum.
Qed.

Theorem C81_law_is_det K p : dpp_law K p -> forall S, p S = det_law K S.
Proof. by move=> [_ inc]; apply: incl_inj => T; rewrite inc det_law_incl. Qed.

(** a DPP with kernel K exists exactly when these numbers are nonnegative *)
Theorem C81_exists K : (exists p, dpp_law K p) <-> (forall S, 0 <= det_law K S).
Proof.
split=> [[p P] S|h]; first by rewrite -(C81_law_is_det P) P.1.
by exists (det_law K); split=> // T; exact: det_law_incl.
Qed.

Variables (K : 'M[R]_N) (p : {set 'I_N} -> R).
Hypothesis P : dpp_law K p.

Lemma law_valid : valid (enum 'I_N) K.
Proof. by move=> S; rewrite qv_det -(C81_law_is_det P) P.1. Qed.

Theorem C81_point_law (S : {set 'I_N}) : Pr (dpp_sampler_generic_kernel K) (fun X => items X == S) = p S.
Proof.
transitivity (Pr (dpp_sampler_generic_kernel K) (fun X => X == enum S)); last first.
  have e : enum S = [seq i <- enum 'I_N | i \in S] by rewrite enumT.
  by rewrite /Pr e (vgen_point S (srt_enum N) law_valid) qv_det (C81_law_is_det P).
apply: eq_E_possible => X pX.
have sX : subseq X (enum 'I_N) by exact: gen_sorted pX.
congr (_%:R); apply: congr1; apply/eqP/eqP => [<-|->]; last by apply/setP => i; rewrite inE mem_enum.
have -> : enum (items X) = [seq i <- enum 'I_N | i \in X].
  by rewrite enumT; apply: eq_filter => i; rewrite /= inE.
exact: (subseq_uniqP (enum_uniq _) sX).
Qed.

Theorem C81_marginals (T : {set 'I_N}) : Pr (dpp_sampler_generic_kernel K) (fun X => T \subset items X) = pmS K T.
Proof.
rewrite -P.2 -(eq_bigr _ (fun S _ => C81_point_law S)) /Pr -E_sum; apply: eq_E => X.
rewrite (big_mkcond (fun S : {set 'I_N} => T \subset S)) (bigD1 (items X)) //= eqxx big1 ?addr0.
  by case: (T \subset items X).
by move=> S; rewrite eq_sym => /negbTE ->; case: ifP.
Qed.

Theorem C81_never_fails :
  total (dpp_sampler_generic_kernel K) /\ forall e, ~ possible (dpp_sampler_generic_kernel K) (inr e).
Proof.
have t : total (dpp_sampler_generic_kernel K) by exact: (vgen_total (srt_enum N) law_valid).
by split=> // e; exact: total_no_raise.
Qed.

Theorem C81_increasing_items X : possible (dpp_sampler_generic_kernel K) (inl X) -> sorted ltn [seq val i | i <- X].
Proof. exact: C06_increasing_items. Qed.
End Nonsym.

(** ** The 1-dependent processes of exotic_dpps.py have nonsymmetric kernels (C77): the generic sampler run on these kernels
    has the same law as the specialised samplers. *)
Section OneDependent.
Variable R : rcfType.

Lemma law_of_prog (m : prog R (seq nat)) n c (kf : nat -> nat -> R) :
  (forall S : seq nat, sorted ltn S -> {in S, forall i, (c <= i < n + c)%N} ->
     Pr m (fun X => all (mem X) S) = \det (\matrix_(i < size S, j < size S) kf (nth 0%N S i) (nth 0%N S j))) ->
  dpp_law (\matrix_(i < n, j < n) kf (i + c)%N (j + c)%N) (fun S => Pr m (fun X => [set i : 'I_n | (i + c)%N \in X] == S)).
Proof.
move=> H; split=> [S|T]; first by apply: E_ge0 => X; rewrite ler0n.
pose Tn := [seq (val i + c)%N | i <- enum T].
have -> : \sum_(S : {set 'I_n} | T \subset S) Pr m (fun X => [set i : 'I_n | (i + c)%N \in X] == S) = Pr m (fun X => all (mem X) Tn).
  rewrite /Pr -E_sum; apply: eq_E => X.
  rewrite (big_mkcond (fun S : {set 'I_n} => T \subset S)) (bigD1 [set i : 'I_n | (i + c)%N \in X]) //= eqxx big1 ?addr0.
    have -> : (T \subset [set i : 'I_n | (i + c)%N \in X]) = all (mem X) Tn.
      rewrite /Tn all_map; apply/subsetP/allP => h i; first by rewrite mem_enum => /h; rewrite inE.
      by move=> iT; rewrite inE; apply: (h i); rewrite mem_enum.
    by case: (all _ _).
  by move=> S; rewrite eq_sym => /negbTE ->; case: ifP.
rewrite H; last first.
- by move=> _ /mapP[i _ ->]; rewrite leq_addl ltn_add2r ltn_ord.
- rewrite /Tn (map_comp (fun x => x + c)%N val) sorted_map.
  have /(sub_sorted _) : sorted ltn [seq val i | i <- enum T].
    have sub : subseq [seq val i | i <- enum T] [seq val i | i <- enum 'I_n].
      by apply: map_subseq; rewrite [enum 'I_n]enumT; exact: filter_subseq.
    by apply: (subseq_sorted ltn_trans sub); rewrite val_enum_ord iota_ltn_sorted.
  by apply=> x y; rewrite /= ltn_add2r.
rewrite /pmS /pm /Tn; set e := enum T.
have : size [seq (val i + c)%N | i <- e] = size e by rewrite size_map.
move: (size [seq _ | i <- e]) => k ke; subst k; congr (\det _); apply/matrixP => i j.
have nE (h : 'I_(size e)) : nth 0%N [seq (val x + c)%N | x <- e] h = (val (tnth (in_tuple e) h) + c)%N.
  have [x0] : exists x0, tnth (in_tuple e) h = x0 by eexists.
  by rewrite (tnth_nth x0) => eh; rewrite (nth_map x0) // (tnth_nth x0).
by rewrite !mxE !nE.
Qed.

(** the kernels of C77 *)
Definition one_dep_kernel n (k : nat -> R) : 'M[R]_n :=
  \matrix_(i < n, j < n) (if (i <= j.+1)%N then - k (j.+1 - i)%N else 0).

Let kf (k : nat -> R) (x y : nat) : R := if (x <= y.+1)%N then - k (y.+1 - x)%N else 0.
Lemma one_dep_shift n c (k : nat -> R) : one_dep_kernel n k =
  \matrix_(i < n, j < n) kf k (i + c)%N (j + c)%N.
Proof. by apply/matrixP => i j; rewrite !mxE /kf -addSn leq_add2r subnDr. Qed.

Theorem C81_descent_process n (k : nat -> R) (S : {set 'I_n}) :
  (forall m, \sum_(j < m.+1) k j / ((m - j).+1)`!%:R = (m == 0%N)%:R) ->
  Pr (dpp_sampler_generic_kernel (one_dep_kernel n k)) (fun X => items X == S) =
  Pr (descent_sample R n.+1) (fun X => [set i : 'I_n | i.+1 \in X] == S).
Proof.
move=> hk; have P : dpp_law (one_dep_kernel n k) (fun S => Pr (descent_sample R n.+1) (fun X => [set i : 'I_n | (i + 1)%N \in X] == S)).
  rewrite (one_dep_shift _ 1); apply: law_of_prog (kf k) _ => T sT rT.
  by apply: (C77_descent_dpp hk) => // i /rT; rewrite addn1.
rewrite (C81_point_law P); apply: eq_E => X; congr (_ == _)%:R; apply/setP => i; by rewrite !inE addn1.
Qed.

Theorem C81_carries_process b n (k : nat -> R) (S : {set 'I_n}) : (0 < b)%N ->
  (forall m, \sum_(j < m.+1) k j * ('C(b, (m - j).+1)%:R / b%:R ^+ (m - j).+1) = (m == 0%N)%:R) ->
  Pr (dpp_sampler_generic_kernel (one_dep_kernel n k)) (fun X => items X == S) =
  Pr (carries_sample R b n.+1) (fun X => [set i : 'I_n | i.+1 \in X] == S).
Proof.
move=> b0 hk; have P : dpp_law (one_dep_kernel n k) (fun S => Pr (carries_sample R b n.+1) (fun X => [set i : 'I_n | (i + 1)%N \in X] == S)).
  rewrite (one_dep_shift _ 1); apply: law_of_prog (kf k) _ => T sT rT.
  by apply: (C77_carries_dpp b0 hk) => // i /rT; rewrite addn1.
rewrite (C81_point_law P); apply: eq_E => X; congr (_ == _)%:R; apply/setP => i; by rewrite !inE addn1.
Qed.

Theorem C81_virtual_descent_process (x0 : R) n (k : nat -> R) (S : {set 'I_n}) : 0 <= x0 <= 1 ->
  let q := 2%:R * x0 * (1 - x0) in
  (forall m, \sum_(j < m.+1) k j * (q ^+ (m - j) * ((1 - q) / (m - j)`!%:R + q / ((m - j).+1)`!%:R)) = (m == 0%N)%:R) ->
  Pr (dpp_sampler_generic_kernel (one_dep_kernel n k)) (fun X => items X == S) =
  Pr (virtual_descent_sample x0 n) (fun X => [set i : 'I_n | val i \in X] == S).
Proof.
move=> x01 q hk; have P : dpp_law (one_dep_kernel n k) (fun S => Pr (virtual_descent_sample x0 n) (fun X => [set i : 'I_n | (i + 0)%N \in X] == S)).
  rewrite (one_dep_shift _ 0); apply: law_of_prog (kf k) _ => T sT rT.
  by apply: (C77_virtual_dpp x01 hk) => // i /rT; rewrite addn0.
rewrite (C81_point_law P); apply: eq_E => X; congr (_ == _)%:R; apply/setP => i; by rewrite !inE addn0.
Qed.

(** the hypothesis of C81 is met by nonsymmetric kernels: here K_10 = -1 and K_01 = -1/12 *)
Example C81_instance : exists (K : 'M[R]_2) p, dpp_law K p /\ K^T <> K.
Proof.
have [[k hk] _ _] := C77_kernels_exist (b := 1) (0 : R) isT.
exists (one_dep_kernel 2 k), (fun S => Pr (descent_sample R 3) (fun X => [set i : 'I_2 | (i + 1)%N \in X] == S)); split.
  rewrite (one_dep_shift _ 1); apply: law_of_prog (kf k) _ => T sT rT.
  by apply: (C77_descent_dpp hk) => // i /rT.
move=> /matrixP/(_ ord0 (lift ord0 ord0)); rewrite !mxE /= => e.
have k0 : k 0%N = 1 by have := hk 0%N; rewrite big_ord_recr big_ord0 /= add0r divr1.
have k1 : k 1%N = - 2%:R^-1.
  have := hk 1%N; rewrite !big_ord_recr big_ord0 /= add0r divr1 k0 mul1r => /eqP.
  by rewrite addrC addr_eq0 => /eqP.
have k2 : k 0%N = k 2%N by move: e => /oppr_inj.
have /eqP := hk 2%N; rewrite !big_ord_recr big_ord0 /= add0r -k2 k0 k1.
have -> : 1 / (2 - 0).+1`!%:R + - 2%:R^-1 / ((2 - 1).+1)`!%:R + 1 / ((2 - 2).+1)`!%:R = 11%:R / 12%:R :> R.
  rewrite (_ : (2 - 0).+1`! = 6)%N // (_ : ((2 - 1).+1)`! = 2)%N // (_ : ((2 - 2).+1)`! = 1)%N //.
  have [h2 h6 h12] : [/\ 2%:R != 0 :> R, 6%:R != 0 :> R & 12%:R != 0 :> R] by rewrite !pnatr_eq0.
  by fixeq; field.
by rewrite mulf_eq0 invr_eq0 !pnatr_eq0.
Qed.
End OneDependent.

Print Assumptions C81_point_law.
Print Assumptions C81_marginals.
Print Assumptions C81_never_fails.
Print Assumptions C81_exists.
Print Assumptions C81_descent_process.
Print Assumptions C81_instance.
