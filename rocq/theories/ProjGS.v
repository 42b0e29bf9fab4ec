(** * ProjGS: the Gram-Schmidt samplers follow the chain rule (proofs about ExactModel). *)
From mathcomp Require Import all_ssreflect all_algebra.
From mathcomp.algebra_tactics Require Import ring.
From Verif Require Import Prob Minor Chain ExactModel.
Set Implicit Arguments. Unset Strict Implicit. Unset Printing Implicit Defensive.
Import Order.Theory GRing.Theory Num.Theory.
Local Open Scope ring_scope.

Section GS.
Variables (R : rcfType) (N : nat).
Implicit Types (K : 'M[R]_N).

Lemma E_choice_proj K r (pop : seq 'I_N) (w : 'I_N -> R) A (k : 'I_N -> prog R A) f :
  isproj K -> \tr K = r%:R -> (0 < r)%N -> uniq pop ->
  (forall i, i \in pop -> w i = K i i / r%:R) -> (forall i, i \notin pop -> K i i = 0) ->
  E (Choice pop w k) f = \sum_i (K i i / r%:R) * E (k i) f.
Proof.
move=> P trK r0 upop wE K0 /=.
have red (g : 'I_N -> R) : \sum_(i <- pop) w i * g i = \sum_i (K i i / r%:R) * g i.
  rewrite [RHS](bigID (mem pop)) /= [X in _ + X]big1 ?addr0; last first.
    by move=> i ip; rewrite K0 // !mul0r.
  transitivity (\sum_(i <- pop) K i i / r%:R * g i).
    by rewrite !big_seq; apply: eq_bigr => i ip; rewrite wE.
  rewrite -[RHS]big_filter; apply: perm_big.
  apply: uniq_perm => //; first by rewrite filter_uniq // index_enum_uniq.
  by move=> i; rewrite mem_filter mem_index_enum andbT.
rewrite /valid_weights.
have -> : \sum_(x <- pop) w x == 1.
  transitivity (\sum_(x <- pop) w x * 1 == 1).
    by congr (_ == _); apply: eq_bigr => x _; rewrite mulr1.
  rewrite red; apply/eqP; under eq_bigr do rewrite mulr1.
  by rewrite -big_distrl /= -/(\tr K) trK divff // pnatr_eq0 -lt0n.
have -> : all (fun x => 0 <= w x) pop.
  by apply/allP => i ip; rewrite wE // divr_ge0 ?ler0n // proj_diag_ge0.
by rewrite andbT red.
Qed.

Definition av (a : 'I_N -> bool) : seq 'I_N := [seq i <- enum 'I_N | a i].
Lemma mem_av a i : (i \in av a) = a i.
Proof. by rewrite mem_filter mem_enum andbT. Qed.
Lemma av_uniq a : uniq (av a).
Proof. by rewrite filter_uniq // enum_uniq. Qed.

(** Invariant of the GS loops at iteration [it]: [Kr] is the residual kernel. *)
Definition gs_inv (K Kr : 'M[R]_N) (it : nat) (avail : 'I_N -> bool) (c : 'I_N -> nat -> R)
   (norm_2 : 'I_N -> R) : Prop :=
  [/\ forall i, avail i -> norm_2 i = Kr i i,
      forall i, ~~ avail i -> Kr i i = 0
    & forall i j, avail i -> avail j -> Kr i j = K i j - \sum_(s < it) c i s * c j s].

Lemma kernel_GS_loopE K Kr rank size n it sampl avail c norm_2 f :
  isproj Kr -> \tr Kr = (rank - it)%:R -> (it + n)%N = size -> (size <= rank)%N ->
  gs_inv K Kr it avail c norm_2 ->
  E (kernel_GS_loop K rank size n it sampl avail c norm_2) f =
  chainE n (rank - it) Kr (fun ys => f (sampl ++ ys)).
Proof.
elim: n it Kr sampl avail c norm_2 => [|n IH] it Kr sampl avail c norm_2 P trK sz szr [I1 I2 I3].
  by rewrite /= cats0.
have itr : (it < rank)%N by apply: leq_trans szr; rewrite -sz addnS ltnS leq_addr.
have rE : rank%:R - it%:R = (rank - it)%:R :> R by rewrite natrB // ltnW.
rewrite [LHS](@E_choice_proj Kr (rank - it)) //; first last.
- by move=> i; rewrite (mem_av avail) => /I2.
- by move=> i; rewrite (mem_av avail) => ai; rewrite I1 // ger0_norm ?proj_diag_ge0 // rE.
- exact: (av_uniq avail).
- by rewrite subn_gt0.
rewrite /=; apply: eq_bigr => j _.
have [Kj|Kj] := eqVneq (Kr j j) 0; first by rewrite Kj !mul0r.
congr (_ * _).
have aj : avail j by apply: contraNT Kj => /I2 ->.
case: eqP => [szE|szE].
  have -> : n = 0%N by apply: (@addnI it); move: sz; rewrite -szE addnS addn0 => [[]].
  by rewrite /= cats1.
rewrite -subnS.
rewrite (IH it.+1 (schur Kr j)).
- by apply: eq_chainE => ys; rewrite cat_rcons.
- exact: schur_proj.
- by rewrite schur_tr // trK -(subnSK itr) mulrSr addrK.
- by rewrite addSnnS.
- exact: szr.
have Kj0 : 0 < Kr j j by rewrite lt_neqAle eq_sym Kj proj_diag_ge0.
have cE i : avail i -> (K i j - \sum_(s < it) c i s * c j s) / Num.sqrt (norm_2 j)
     = Kr i j / Num.sqrt (Kr j j) by move=> ai; rewrite I1 // -I3.
split=> [i /andP[ai ij]|i nai|i k /andP[ai ij] /andP[ak kj]].
- rewrite ai ij eqxx /= I1 // schurE cE // expr_div_n sqr_sqrtr ?ltW //.
  by rewrite (proj_sym j i P) expr2.
- have [ai|nai'] := boolP (avail i).
    by move: nai; rewrite ai /= negbK => /eqP ->; rewrite schur_self.
  by rewrite schur_diag0 // I2.
- rewrite schurE I3 // big_ord_recr /= ai ij ak kj /= eqxx !cE //.
  rewrite opprD addrA; congr (_ - _); last first.
    rewrite mulrACA -invfM -expr2 sqr_sqrtr ?ltW //; congr (_ * _ / _).
    by rewrite (proj_sym k j P).
  by congr (_ - _); apply: eq_bigr => s _; rewrite !(ltn_eqF (ltn_ord s)).
Qed.

(** ** rank and trace *)
Lemma rint_nat n : (n <= N)%N -> rint N (n%:R : R) = n.
Proof.
move=> nN; rewrite /rint.
pose p := (fun m : nat => `|n%:R - m%:R : R| <= 2%:R^-1).
have pn : p n by rewrite /p subrr normr0 invr_ge0 ler0n.
have pm m : (m < n)%N -> p m = false.
  move=> mn; apply/negbTE; rewrite /p -ltNge -natrB ?(ltnW mn) // normr_nat.
  apply: (@lt_le_trans _ _ 1); last by rewrite ler1n subn_gt0.
  by rewrite invf_lt1 ?ltr1n // ltr0n.
have lt_n : (n < size (iota 0 N.+1))%N by rewrite size_iota ltnS.
apply/eqP; rewrite eqn_leq; apply/andP; split.
  rewrite leqNgt; apply/negP => h; have := before_find 0%N h.
  by rewrite nth_iota // add0n [X in X = _](_ : _ = p n) // pn.
rewrite leqNgt; apply/negP => h.
have hs : has p (iota 0 N.+1) by apply/hasP; exists n; rewrite ?mem_iota.
have := nth_find 0%N hs; rewrite nth_iota ?add0n; last by rewrite ltnS (leq_trans (ltnW h)).
by rewrite pm.
Qed.

Lemma rint_proj K : isproj K -> rint N (\tr K) = \rank K.
Proof. by move=> P; rewrite proj_trace_rank // rint_nat // rank_leq_row. Qed.

Lemma kernel_GS_E K size f : isproj K ->
  (if size is Some s then s <= \rank K else true)%N ->
  E (proj_dpp_sampler_kernel_GS K size) f = chainE (get_size size (\rank K)) (\rank K) K f.
Proof.
move=> P sr; rewrite /proj_dpp_sampler_kernel_GS rint_proj //.
have szr : (get_size size (\rank K) <= \rank K)%N by case: size sr => //=.
rewrite (@kernel_GS_loopE K K) ?subn0 //.
- by rewrite proj_trace_rank.
- by split=> // i j _ _; rewrite big_ord0 subr0.
Qed.

End GS.
