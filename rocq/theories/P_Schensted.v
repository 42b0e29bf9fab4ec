(** * C31, C32: Schensted's theorem; the particle configuration of PoissonizedPlancherel *)
From mathcomp Require Import all_ssreflect all_algebra.
From mathcomp.algebra_tactics Require Import ring.
From Verif Require Import Prob McmcModel ExoticModel Spectral P_Perm P_Descent P_RSK P_RSKinv.
Set Implicit Arguments. Unset Strict Implicit. Unset Printing Implicit Defensive.
Import Order.Theory.

Section Schensted.
Variables (d : unit) (T : orderType d).
Local Open Scope order_scope.
Implicit Types (s t row : seq T) (x y : T).

(** t is a weakly increasing subsequence of s *)
Definition incr_subseq t s : bool := subseq t s && sorted <=%O t.

Lemma first_row it x P Q : wf P -> sorted (@below _ T) P -> shape P = map size Q ->
  head [::] (rsk_insert it x P Q).1 =
  let row := head [::] P in if last x row <= x then rcons row x else set_nth x row (bisect_right row x) x.
Proof. by case: P Q => [|r P] [|q Q] //=; [rewrite lexx|move=> _ _ _; case: ifP]. Qed.

(** the invariant: row_j is the least last element of the increasing subsequences of length j+1 *)
Definition patience (x0 : T) s row : Prop :=
  [/\ sorted <=%O row,
      forall j, (j < size row)%N -> exists2 t, incr_subseq t s & size t = j.+1 /\ last x0 t = nth x0 row j &
      forall t, incr_subseq t s -> (0 < size t)%N -> (size t <= size row)%N /\ nth x0 row (size t).-1 <= last x0 t].

Lemma subseq_rconsP t s x : subseq t (rcons s x) -> subseq t s \/ exists2 t', t = rcons t' x & subseq t' s.
Proof.
move/subseqP => [m sm ->]; case/lastP: m sm => [|m b]; first by rewrite size_rcons.
rewrite !size_rcons => -[sm]; rewrite mask_rcons //; case: b => /=.
  by right; exists (mask m s); rewrite ?cats1 //; apply: mask_subseq.
by left; rewrite cats0; apply: mask_subseq.
Qed.

Lemma patience_step x0 s row x : patience x0 s row ->
  patience x0 (rcons s x) (if last x row <= x then rcons row x else set_nth x row (bisect_right row x) x).
Proof.
move=> [so ex up].
have exr k : (k <= size row)%N -> ((0 < k)%N -> nth x0 row k.-1 <= x) ->
    exists2 t, incr_subseq t (rcons s x) & size t = k.+1 /\ last x0 t = x.
  case: k => [|k] kr kx.
    exists [:: x] => //; rewrite /incr_subseq andbT sub1seq mem_rcons mem_head //.
  have [t /andP[st sot] [szt lt]] := ex k kr.
  exists (rcons t x); last by rewrite size_rcons szt last_rcons.
  rewrite /incr_subseq -!cats1 cat_subseq ?subseq_refl //=; case: t st sot szt lt => // a t _ sot _ lt.
  by rewrite cats1 /= rcons_path -/(sorted _ (a :: t)) sot /=; have := kx isT; rewrite -lt.
have sub t : incr_subseq t s -> incr_subseq t (rcons s x).
  by case/andP => st sot; apply/andP; split=> //; apply: (subseq_trans st); rewrite -cats1 prefix_subseq.
have lastE t : incr_subseq (rcons t x) (rcons s x) -> incr_subseq t s -> (0 < size t)%N -> last x0 t <= x.
  by case/andP => _; case: t => // a t; rewrite /= rcons_path => /andP[].
case: ifP => [la|/negbT nla].
  have lx : (0 < size row)%N -> nth x0 row (size row).-1 <= x.
    by move=> n0; rewrite nth_last; case: row la n0 {so ex up exr}.
  split.
  - exact: sorted_rcons_row.
  - move=> j; rewrite size_rcons ltnS leq_eqVlt nth_rcons => /orP[/eqP ->|jr]; first by rewrite ltnn eqxx; apply: exr.
    by rewrite jr; have [t h1 h2] := ex j jr; exists t => //; apply: sub.
  move=> t /andP[/subseq_rconsP[st|[t' -> st]] sot] t0.
    have it : incr_subseq t s by rewrite /incr_subseq st.
    have [h1 h2] := up t it t0; rewrite size_rcons leqW // nth_rcons.
    by have -> : ((size t).-1 < size row)%N by case: (size t) t0 h1.
  have it' : incr_subseq t' s.
    by rewrite /incr_subseq st /=; move: sot; rewrite -cats1; apply: (subseq_sorted le_trans (prefix_subseq _ _)).
  rewrite last_rcons !size_rcons ltnS /= nth_rcons; case: (posnP (size t')) => [->|t'0].
    case: (ltnP 0 (size row)) => [r0|]; last by rewrite leqn0 => /eqP ->; rewrite eqxx.
    by split=> //; apply: le_trans (lx r0); apply: row_le; rewrite // leq0n ltn_predL.
  have [h1 h2] := up t' it' t'0; split=> //.
  case: (ltnP (size t') (size row)) => [h|]; last by move=> h; rewrite eqn_leq h1 h.
  have r0 : (0 < size row)%N by apply: leq_ltn_trans h.
  by apply: le_trans (lx r0); apply: row_le; rewrite // -ltnS !prednK // h leqnn.
have [ks xk ky] := bisectP x0 so nla; move: ks xk ky; set k := bisect_right row x => ks xk ky.
rewrite (set_nth_any x x0) //; have szr := size_set_nth_in x0 x ks.
split.
- exact: sorted_bump ks (ltW xk) ky.
- move=> j; rewrite szr nth_set_nth /= => jr; case: (altP (j =P k)) => [->|_].
    by apply: exr; [exact: ltnW|case: (k) ky => // k' h _; apply: h].
  by have [t h1 h2] := ex j jr; exists t => //; apply: sub.
move=> t /andP[/subseq_rconsP[st|[t' -> st]] sot] t0; rewrite szr.
  have it : incr_subseq t s by rewrite /incr_subseq st.
  have [h1 h2] := up t it t0; split=> //; rewrite nth_set_nth /=; case: ifP => [/eqP e|//].
  by apply: le_trans h2; rewrite e ltW.
have it' : incr_subseq t' s.
  by rewrite /incr_subseq st /=; move: sot; rewrite -cats1; apply: (subseq_sorted le_trans (prefix_subseq _ _)).
rewrite last_rcons !size_rcons /= nth_set_nth /=.
have tk : (size t' <= k)%N.
  rewrite leqNgt; apply/negP => kt; have t'0 : (0 < size t')%N by apply: leq_ltn_trans kt.
  have [h1 h2] := up t' it' t'0.
  have h3 : last x0 t' <= x.
    by apply: lastE => //; rewrite /incr_subseq sot andbT -!cats1 cat_subseq.
  have : nth x0 row k <= x by apply: le_trans (le_trans h2 h3); apply: row_le; rewrite // -ltnS prednK // kt.
  by rewrite leNgt xk.
split; first exact: leq_ltn_trans ks.
by case: ifP => // /negbT ne; apply: ky; rewrite ltn_neqAle ne.
Qed.

Lemma patience_RSK x0 s : patience x0 s (head [::] (RSK s).1).
Proof.
elim/last_ind: s => [|s x IH].
  by split=> // t /andP[/eqP ->]; rewrite ?eqxx //; case: t.
have [[w so sh _] _] := RSK_inv s; rewrite RSK_rcons first_row //; exact: patience_step.
Qed.

(** C31: the first row is as long as a longest weakly increasing subsequence *)
Theorem C31_schensted s :
  (exists2 t, incr_subseq t s & size t = size (head [::] (RSK s).1)) /\
  (forall t, incr_subseq t s -> (size t <= size (head [::] (RSK s).1))%N).
Proof.
case: s => [|x0 s]; first by split; [exists [::]|move=> t /andP[/eqP ->]].
have [_ ex up] := patience_RSK x0 (x0 :: s); set row := head _ _ in ex up *; split.
  case: (posnP (size row)) => [r0|r0]; first by exists [::]; rewrite // /incr_subseq sub0seq.
  have [|t it [st _]] := ex (size row).-1; first by rewrite ltn_predL.
  by exists t; rewrite // st prednK.
move=> t it; case: (posnP (size t)) => [-> //|t0]; by have [] := up t it t0.
Qed.

(** more precisely: entry j of the first row is the least last element of the increasing subsequences of length j+1 *)
Theorem C31_first_row x0 s j : (j < size (head [::] (RSK s).1))%N ->
  (exists2 t, incr_subseq t s & size t = j.+1 /\ last x0 t = nth x0 (head [::] (RSK s).1) j) /\
  (forall t, incr_subseq t s -> size t = j.+1 -> nth x0 (head [::] (RSK s).1) j <= last x0 t).
Proof.
have [_ ex up] := patience_RSK x0 s => jr; split; first exact: ex.
by move=> t it st; have [|_] := up t it; rewrite st.
Qed.
End Schensted.

(** on permutations "weakly" is "strictly": the PoissonizedPlancherel diagram *)
Theorem C31_diagram (R : rcfType) N lam X : possible (plancherel_sample R N) (inl (lam, X)) ->
  exists sigma, [/\ perm_eq sigma (iota 0 N),
    (exists2 t, subseq t sigma && sorted ltn t & size t = head 0%N lam) &
    forall t, subseq t sigma && sorted ltn t -> (size t <= head 0%N lam)%N].
Proof.
move=> h; have [sigma ps [-> _]] := Spectral.bind_possible h; exists sigma.
have pm := C28_permutation ps; have us : uniq sigma by rewrite (perm_uniq pm) iota_uniq.
have hd : head 0%N (young_diag sigma) = size (head [::] (RSK sigma).1) by rewrite /young_diag; case: (RSK sigma).1.
have eqi t : subseq t sigma && sorted ltn t = incr_subseq t sigma.
  rewrite /incr_subseq; case st: (subseq t sigma) => //=; rewrite ltn_sorted_uniq_leq (subseq_uniq st us) //.
have [[t it st] up] := C31_schensted sigma; split=> //; first by exists t; rewrite ?eqi ?hd.
by move=> t' it'; rewrite hd; apply: up; rewrite -eqi.
Qed.

Import GRing.Theory Num.Theory.
Local Open Scope ring_scope.
(** C32: the points lambda_i - i + 1/2, i = 1, 2, ... *)
Theorem C32_points (R : rcfType) (N : nat) lam (X : seq R) : possible (plancherel_sample R N) (inl (lam, X)) ->
  [/\ partition lam, sumn lam = N, size X = size lam,
      forall i, (i < size X)%N -> nth 0 X i = (nth 0%N lam i)%:R - (i.+1)%:R + 2%:R^-1 &
      forall i j, (i < j < size X)%N -> nth 0 X j < nth 0 X i].
Proof.
move=> h; have [sigma ps [-> ->]] := Spectral.bind_possible h.
have pm := C28_permutation ps; have [[pa _ _] pf] := C29_insertion_tableau 0%N sigma.
have sz : size (maya_points R (young_diag sigma)) = size (young_diag sigma) by rewrite /maya_points size_map size_iota.
have nt i : (i < size (young_diag sigma))%N -> nth 0 (maya_points R (young_diag sigma)) i = (nth 0%N (young_diag sigma) i)%:R - (i.+1)%:R + 2%:R^-1.
  move=> il; rewrite (nth_map 0%N) ?size_iota // nth_iota //.
  have alg (a b : R) : a - (2%:R^-1 + b) = a - (b + 1) + 2%:R^-1 by fixeq; field.
  by rewrite alg (mulrSr 1 i).
split=> //.
- have -> : sumn (young_diag sigma) = size (flatten (RSK sigma).1) by rewrite size_flatten.
  by rewrite (perm_size pf) (perm_size pm) size_iota.
- by move=> i; rewrite sz; apply: nt.
move=> i j; rewrite sz => /andP[ij jl]; rewrite !nt //; last exact: ltn_trans jl.
rewrite ltr_add2r ler_lt_sub ?ltr_nat // ler_nat.
case: pa => so _; have := @sorted_leq_nth _ geq (fun a b c h1 h2 => leq_trans h2 h1) leqnn 0%N _ so i j; apply.
- by rewrite inE (ltn_trans ij).
- by rewrite inE.
- exact: ltnW.
Qed.

Example C29_instance : RSK [:: 3; 1; 2; 2; 0; 1]%N = ([:: [:: 0; 1; 2]; [:: 1; 2]; [:: 3]], [:: [:: 1; 3; 4]; [:: 2; 6]; [:: 5]])%N.
Proof. by []. Qed.
Print Assumptions C30_bijective.
Print Assumptions C31_schensted.
Print Assumptions C56_plancherel_law.
