(** * P_Perm: C28 (uniform permutations), C33 (descents), C34 (carries), C55 (intensities of the 1-dependent processes). *)
From mathcomp Require Import all_ssreflect all_algebra.
From mathcomp.algebra_tactics Require Import ring.
From Verif Require Import Prob Spectral McmcModel Mcmc P_McmcChain ExoticModel.
Set Implicit Arguments. Unset Strict Implicit. Unset Printing Implicit Defensive.
Import Order.Theory GRing.Theory Num.Theory.
Local Open Scope ring_scope.

Section Perm.
Variable R : rcfType.

Lemma size_swap s j i : (j < size s)%N -> (i < size s)%N -> size (swap_at s j i) = size s.
Proof. by move=> h1 h2; rewrite /swap_at size_set_nth (size_set_nth 0%N) (maxn_idPr h1) (maxn_idPr h2). Qed.

Lemma nth_swap s j i k : (j < size s)%N -> (i < size s)%N ->
  nth 0%N (swap_at s j i) k = nth 0%N s (if k == i then j else if k == j then i else k).
Proof.
move=> h1 h2; rewrite /swap_at nth_set_nth /=; case: eqP => // _; rewrite nth_set_nth /=; by case: eqP.
Qed.

Lemma perm_swap s j i : (j < size s)%N -> (i < size s)%N -> perm_eq (swap_at s j i) s.
Proof.
move=> h1 h2; apply/(perm_iotaP 0%N).
pose f k := if k == i then j else if k == j then i else k.
have ff k : f (f k) = k.
  rewrite /f; case: (altP (k =P i)) => [->|ki]; first by case: (altP (j =P i)) => [->|//]; rewrite ?eqxx.
  case: (altP (k =P j)) => [->|kj]; first by rewrite eqxx.
  by rewrite (negbTE ki) (negbTE kj).
exists [seq f k | k <- iota 0 (size s)].
  apply: uniq_perm; first by rewrite map_inj_uniq ?iota_uniq // => a b e; rewrite -(ff a) e ff.
    exact: iota_uniq.
  move=> k; apply/mapP/idP => [[k' k'i ->]|ki].
    move: k'i; rewrite !mem_iota !add0n /= /f => k'i; case: eqP => // _; by case: eqP.
  exists (f k); last by rewrite ff.
  move: ki; rewrite !mem_iota !add0n /= /f; case: eqP => // _; by case: eqP.
apply: (@eq_from_nth _ 0%N); first by rewrite !size_map size_iota size_swap.
move=> k; rewrite size_swap // => ks; rewrite (nth_map 0%N) ?size_map ?size_iota // (nth_map 0%N) ?size_iota // nth_iota // add0n nth_swap //.
Qed.

Lemma shuffleS i s : shuffle R i.+1 s = unif (iota 0 i.+2) (fun j => shuffle R i (if j == i.+1 then s else swap_at s j i.+1)).
Proof. by []. Qed.

Lemma shuffle_perm i s r : (i < size s)%N -> possible (shuffle R i s) (inl r) ->
  perm_eq r s /\ forall k, (i < k)%N -> nth 0%N r k = nth 0%N s k.
Proof.
elim: i s => [|i IH] s si; first by case=> ->.
rewrite shuffleS => h; have [j] := unif_possible h; rewrite mem_iota add0n => /= ji.
have js : (j < size s)%N by exact: leq_trans ji si.
case: eqP => [_|/eqP nj] p.
  by have [p1 h1] := IH s (ltnW si) p; split=> // k ik; apply: h1; exact: ltnW.
have [|p1 h1] := IH _ _ p; first by rewrite size_swap // ltnW.
split; first by apply: perm_trans p1 _; exact: perm_swap.
move=> k ik; rewrite h1 ?(ltnW ik) // nth_swap // gtn_eqF // gtn_eqF //.
by apply: leq_ltn_trans ik; rewrite -ltnS.
Qed.

Lemma shuffle_total i s : (i < size s)%N -> total (shuffle R i s).
Proof.
elim: i s => [|i IH] s si //; rewrite shuffleS; apply: unif_total; first by rewrite size_iota.
move=> j; rewrite mem_iota add0n => /= ji; apply: IH; case: ifP => _; first exact: ltnW.
by rewrite size_swap ?(ltnW si) //; exact: leq_trans ji si.
Qed.

(** C28: the result is a permutation of 0..N-1, whatever the draws *)
Theorem C28_permutation N r : possible (uniform_permutation R N) (inl r) -> perm_eq r (iota 0 N).
Proof.
case: N => [|N]; first by case=> ->.
by move=> h; have [] := shuffle_perm _ h; rewrite ?size_iota.
Qed.

Theorem C28_never_fails N : total (uniform_permutation R N) /\ forall e, ~ possible (uniform_permutation R N) (inr e).
Proof.
have t : total (uniform_permutation R N) by case: N => [|N] //; apply: shuffle_total; rewrite size_iota.
by split=> // e; exact: total_no_raise.
Qed.

Lemma Pr0 A (m : prog R A) (Q : A -> bool) : (forall a, possible m (inl a) -> ~~ Q a) -> Pr m Q = 0.
Proof. by move=> h; rewrite /Pr -[RHS](E_zero m); apply: eq_E_possible => a /h /negbTE ->. Qed.

Lemma shuffle_law i s r : (i < size s)%N -> uniq s -> perm_eq r s -> (forall k, (i < k)%N -> nth 0%N r k = nth 0%N s k) ->
  Pr (shuffle R i s) (fun x => x == r) = (i.+1)`!%:R^-1.
Proof.
elim: i s r => [|i IH] s r si us pr ag.
  suff -> : r = s by rewrite /Pr -[LHS]/((s == s)%:R) eqxx invr1.
  apply: (@eq_from_nth _ 0%N); first exact: perm_size.
  move=> [|k] _; last exact: ag.
  (* the only remaining position *)
  have s0 : nth 0%N s 0 \in r by rewrite (perm_mem pr) mem_nth.
  have [k kr e] : exists2 k, (k < size r)%N & nth 0%N r k = nth 0%N s 0 by exists (index (nth 0%N s 0) r); rewrite ?index_mem ?nth_index.
  case: k kr e => [//|k] kr; rewrite ag // => /eqP; rewrite nth_uniq // -?(perm_size pr) //; exact: leq_ltn_trans kr.
have sz := perm_size pr; have ur : uniq r by rewrite (perm_uniq pr).
(* the draw that puts r_(i+1) at its place *)
pose j0 := index (nth 0%N r i.+1) s.
have rs : nth 0%N r i.+1 \in s by rewrite -(perm_mem pr) mem_nth // sz.
have j0s : (j0 < size s)%N by rewrite index_mem.
have nj0 : nth 0%N s j0 = nth 0%N r i.+1 by exact: nth_index.
have j0i : (j0 < i.+2)%N.
  rewrite ltnNge; apply/negP => ij; have /eqP := ag _ ij; rewrite nj0 nth_uniq ?sz // => /eqP e.
  by rewrite e ltnn in ij.
rewrite /Pr shuffleS unif_E ?size_iota // (bigD1_seq j0) ?iota_uniq ?mem_iota //.
rewrite big_seq_cond big1 => [|j /andP[]]; last first.
  rewrite mem_iota add0n => /= ji nj; rewrite -/(Pr _ _); apply: Pr0 => x px.
  have js : (j < size s)%N by exact: leq_trans ji si.
  apply: contra nj => /eqP xr; rewrite -(nth_uniq 0%N js j0s us) nj0 -xr.
  case: eqP px => [->|_] px.
    have [//|_ ->] := shuffle_perm _ px; rewrite ?eqxx //; exact: ltnW.
  have [|_ ->] := shuffle_perm _ px; rewrite ?size_swap ?(ltnW si) //.
  by rewrite nth_swap // eqxx.
rewrite factS natrM invfM; congr (_ * _); rewrite [LHS]addr0 -/(Pr _ _).
case: eqP => [e|/eqP ne]; apply: IH => //.
- exact: ltnW.
- move=> k; rewrite leq_eqVlt => /orP[/eqP <-|]; [by rewrite -nj0 e|exact: ag].
- by rewrite size_swap // ltnW.
- by rewrite (perm_uniq (perm_swap j0s si)).
- by apply: perm_trans pr _; rewrite perm_sym perm_swap.
move=> k; rewrite nth_swap // leq_eqVlt => /orP[/eqP <-|ik]; first by rewrite eqxx nj0.
by rewrite gtn_eqF // gtn_eqF ?ag //; exact: leq_ltn_trans ik.
Qed.

(** C28: each of the N! permutations has probability 1/N! *)
Theorem C28_uniform N r : perm_eq r (iota 0 N) -> Pr (uniform_permutation R N) (fun s => s == r) = N`!%:R^-1.
Proof.
case: N => [|N] pr.
  by move: (perm_size pr) => /= /size0nil ->; rewrite /Pr /= fact0 invr1.
apply: shuffle_law => //; rewrite ?size_iota ?iota_uniq // => k ks.
by rewrite !nth_default ?(perm_size pr) ?size_iota.
Qed.

Example C28_instance : perm_eq [:: 2; 0; 1]%N (iota 0 3). Proof. by []. Qed.
End Perm.
