(** * ProjChol: mode 'Chol' (in-place pivoted Cholesky with swaps) follows the chain rule. *)
From mathcomp Require Import all_ssreflect all_algebra all_fingroup.
From mathcomp.algebra_tactics Require Import ring.
From Verif Require Import Prob Minor Chain ExactModel ProjGS.
Set Implicit Arguments. Unset Strict Implicit. Unset Printing Implicit Defensive.
Import Order.Theory GRing.Theory Num.Theory.
Local Open Scope ring_scope.

Section Chol.
Variables (R : rcfType) (N : nat).
Implicit Types (K : 'M[R]_N).

(** Invariant at iteration [j]; [p] is the permutation position -> label. *)
Definition chol_inv K (Kr : 'M[R]_N) (j : nat) (A : nat -> nat -> R) (d : nat -> R) (orig : nat -> nat)
   (p : {perm 'I_N}) : Prop :=
  [/\ forall a : 'I_N, orig a = p a,
      forall a : 'I_N, (j <= a)%N -> d a = Kr (p a) (p a),
      forall a : 'I_N, (a < j)%N -> Kr (p a) (p a) = 0,
      forall a b : 'I_N, (j <= b < a)%N -> A a b = K (p a) (p b)
    & forall a b : 'I_N, (j <= a)%N -> (j <= b)%N ->
        Kr (p a) (p b) = K (p a) (p b) - \sum_(s < j) A a s * A b s].

Lemma swapE (j t a : 'I_N) : swap j t a = tperm j t a.
Proof.
rewrite /swap; case: tpermP => [->|->|/eqP aj /eqP at_]; rewrite ?eqxx //.
- by case: eqP => // ->.
- by rewrite -!val_eqE /= in aj at_ *; rewrite (negPf aj) (negPf at_).
Qed.

Lemma chol_swap_left (A : nat -> nat -> R) (j t : nat) (a b : nat) : (b < j)%N -> (j <= t)%N ->
  chol_swap A j t a b = A (swap j t a) b.
Proof.
move=> bj jt; rewrite /chol_swap /swap bj.
have bnj : (b == j) = false by rewrite ltn_eqF.
have bnt : (b == t) = false by rewrite ltn_eqF // (leq_trans bj).
have jb : (j < b)%N = false by rewrite ltnNge ltnW.
rewrite bnj bnt jb !andbF /=; case: (a == j); first by case: ifP.
by case: (a == t); case: ifP.
Qed.

(** the strictly lower triangle from column [j] on is the symmetric swap *)
Lemma chol_swap_low (A B : nat -> nat -> R) (j t : nat) : (j <= t)%N ->
  (forall a b, B a b = B b a) ->
  forall n, (forall a b, (j <= b < a)%N -> (a < n)%N -> A a b = B a b) -> (t < n)%N ->
  forall a b, (j <= b < a)%N -> (a < n)%N -> chol_swap A j t a b = B (swap j t a) (swap j t b).
Proof.
move=> jt sB n AB tn a b /andP[jb ba] an; rewrite /chol_swap /swap.
have -> : (b < j)%N = false by rewrite ltnNge jb.
have jja : (j < a)%N by exact: leq_ltn_trans ba.
have aj : (a == j) = false by rewrite gtn_eqF.
rewrite aj /=.
have [bE|bj] := eqVneq b j.
  subst b; rewrite ltnn /= !andbF /= jja.
  case: (ltngtP a t) => [lat|lta|eat].
  - by rewrite /= ltnn AB ?lat ?(ltnW jja) // sB.
  - by rewrite /= AB // jt.
  - by subst a; rewrite (ltn_eqF jja) /= AB ?leqnn ?jja // sB.
have jlb : (j < b)%N by rewrite ltn_neqAle eq_sym bj.
have [aE|at_] := eqVneq a t.
  subst a; rewrite jlb ba (ltn_eqF ba) /= (negPf (_ : ~~ (t < b)%N)) -?leqNgt ?(ltnW ba) //=.
  by rewrite AB ?leqnn ?jlb ?(ltn_trans ba) // sB.
rewrite /= ?andbF /=.
have [bE|bt] := eqVneq b t.
  by subst b; rewrite ba /= AB // ?leqnn ?jlb.
by case: ifP => _; rewrite AB ?jb ?ba.
Qed.

Lemma kernel_Chol_loopE K Kr rank sz n j A d orig p f :
  (forall a b, K a b = K b a) ->
  isproj Kr -> \tr Kr = (rank - j)%:R -> (j + n)%N = sz -> (sz <= rank)%N ->
  chol_inv K Kr j A d orig p ->
  E (kernel_Chol_loop N rank sz n j A d orig) f =
  chainE n (rank - j) Kr (fun ys => f ([seq orig i | i <- iota 0 j] ++ [seq val y | y <- ys])).
Proof.
move=> sK.
elim: n j Kr A d orig p => [|n IH] j Kr A d orig p P trK szE szr [I1 I2 I3 I4 I5].
  by rewrite /= cats0 -szE addn0.
have jr : (j < rank)%N by apply: leq_trans szr; rewrite -szE addnS ltnS leq_addr.
have rE : rank%:R - j%:R = (rank - j)%:R :> R by rewrite natrB // ltnW.
have r0 : (rank - j)%:R != 0 :> R by rewrite pnatr_eq0 -lt0n subn_gt0.
(* the sum over positions is the sum over labels *)
have posum (g : nat -> R) : \sum_(t <- iota j (N - j)) `|d t| / (rank%:R - j%:R) * g t =
   \sum_(t : 'I_N) (Kr (p t) (p t) / (rank - j)%:R) * g t.
  rewrite -/(index_iota j N) (big_nat_widenl _ 0) // big_mkord big_mkcond /=.
  apply: eq_bigr => t _; case: leqP => [jt|tj]; last by rewrite I3 // !mul0r.
  by rewrite I2 // ger0_norm ?proj_diag_ge0 // rE.
have relab (g : 'I_N -> R) : \sum_(t : 'I_N) (Kr (p t) (p t) / (rank - j)%:R) * g (p t) =
   \sum_i (Kr i i / (rank - j)%:R) * g i by rewrite [RHS](reindex_perm p).
cbn [kernel_Chol_loop E]; rewrite /valid_weights.
have -> : \sum_(x <- iota j (N - j)) `|d x| / (rank%:R - j%:R) == 1.
  have := posum (fun _ => 1); rewrite (relab (fun _ => 1)).
  under eq_bigr do rewrite mulr1; move=> ->.
  under eq_bigr do rewrite mulr1.
  by rewrite -big_distrl /= -/(\tr Kr) trK divff.
have -> : all (fun x => 0 <= `|d x| / (rank%:R - j%:R)) (iota j (N - j)).
  by apply/allP => t _; rewrite rE divr_ge0 ?ler0n.
rewrite andbT [LHS]posum [RHS]/= -[RHS]relab; apply: eq_bigr => t _.
have [Kt|Kt] := eqVneq (Kr (p t) (p t)) 0; first by rewrite Kt !mul0r.
congr (_ * _).
have jt : (j <= t)%N by rewrite leqNgt; apply: contra Kt => /I3 ->.
have ltj : (j < N)%N by exact: leq_ltn_trans (ltn_ord t).
pose oj := Ordinal ltj.
pose p' : {perm 'I_N} := (tperm oj t * p)%g.
have p'E a : p' a = p (tperm oj t a) by rewrite permM.
have p'j : p' oj = p t by rewrite p'E tpermL.
pose orig' := fun i => orig (swap j t i).
have O' : forall a : 'I_N, orig' a = p' a.
  by move=> a; rewrite /orig' -[j]/(val oj) swapE I1 p'E.
have pre : [seq orig' i | i <- iota 0 j] = [seq orig i | i <- iota 0 j].
  apply/eq_in_map => i; rewrite mem_iota add0n /= => ij.
  by rewrite /orig' /swap (ltn_eqF ij) (ltn_eqF (leq_trans ij jt)).
have preS : [seq orig' i | i <- iota 0 j.+1] = rcons [seq orig i | i <- iota 0 j] (val (p t)).
  by rewrite -[j.+1]addn1 iotaD map_cat pre cats1 /= add0n -[j]/(val oj) O' p'j.
case: eqP => [sz1|sz1].
  have -> : n = 0%N by apply: (@addnI j); move: szE; rewrite -sz1 addnS addn0 => [[]].
  by rewrite /= cats1 -sz1 -preS.
rewrite -subnS.
rewrite (IH j.+1 (schur Kr (p t)) _ _ _ p').
- by apply: eq_chainE => ys; rewrite [in LHS]preS cat_rcons.
- exact: schur_proj.
- by rewrite schur_tr // trK -(subnSK jr) mulrSr addrK.
- by rewrite addSnnS.
- exact: szr.
have Kt0 : 0 < Kr (p t) (p t) by rewrite lt_neqAle eq_sym Kt proj_diag_ge0.
have ge_tp (a : 'I_N) : (j <= a)%N -> (j <= tperm oj t a)%N.
  by case: tpermP => // ->.
pose A1 := chol_swap A j t.
have A1l (a : 'I_N) s : (s < j)%N -> A1 a s = A (tperm oj t a) s.
  by move=> sj; rewrite /A1 chol_swap_left // -[j]/(val oj) swapE.
have A1K (a b : 'I_N) : (j <= b < a)%N -> A1 a b = K (p' a) (p' b).
  pose B := fun a b : nat => if insub a is Some i then if insub b is Some k then K (p i) (p k) else 0 else 0 : R.
  have BE (x y : 'I_N) : B x y = K (p x) (p y) by rewrite /B !valK.
  have sB x y : B x y = B y x.
    by rewrite /B; case: insubP => [x' _ _|_]; case: insubP => [y' _ _|_] //=.
  move=> ba; rewrite /A1 (@chol_swap_low A B j t jt sB N) //.
    by rewrite -[j]/(val oj) !swapE BE !p'E.
  move=> x y yx xN; have yN : (y < N)%N by case/andP: yx => _ yx; exact: ltn_trans xN.
  by rewrite (I4 (Ordinal xN) (Ordinal yN)) // -BE.
have d1 (a : 'I_N) : (j <= a)%N -> d (swap j t a) = Kr (p' a) (p' a).
  by move=> ja; rewrite -[j]/(val oj) swapE I2 ?p'E // ge_tp.
have KrA (a b : 'I_N) : (j <= a)%N -> (j <= b)%N ->
    Kr (p' a) (p' b) = K (p' a) (p' b) - \sum_(s < j) A1 a s * A1 b s.
  move=> ja jb; rewrite !p'E I5 ?ge_tp //; congr (_ - _).
  by apply: eq_bigr => s _; rewrite !A1l.
have sqd : Num.sqrt (d (swap j t j)) = Num.sqrt (Kr (p t) (p t)) by rewrite -{2}[j]/(val oj) d1 // p'j.
set A2 := fun a b : nat => if (a == j) && (b == j) then Num.sqrt (d (swap j t j)) else chol_swap A j t a b.
set A3 := fun a b : nat => if (j < a)%N && (b == j) then
    (A2 a j - \sum_(s < j) A2 a s * A2 j s) / A2 j j else A2 a b.
suff : chol_inv K (schur Kr (p t)) j.+1 A3
   (fun i => if (j < i)%N then d (swap j t i) - A3 i j ^+ 2 else d (swap j t i)) orig' p' by [].
have A2l (a s : nat) : (s < j)%N -> A2 a s = A1 a s by move=> sj; rewrite /A2 (ltn_eqF sj) andbF.
have A3l (a s : nat) : (s < j)%N -> A3 a s = A1 a s.
  by move=> sj; rewrite /A3 (ltn_eqF sj) andbF A2l.
have A3j (a : 'I_N) : (j < a)%N -> A3 a j = Kr (p' a) (p t) / Num.sqrt (Kr (p t) (p t)).
  have A2jj : A2 j j = Num.sqrt (Kr (p t) (p t)) by rewrite /A2 eqxx /= sqd.
  move=> ja; rewrite /A3 ja eqxx /= A2jj; congr (_ / _).
  rewrite -[in RHS]p'j KrA ?(ltnW ja) //=; congr (_ - _).
    by rewrite /A2 (gtn_eqF ja) /= -/A1 -(A1K a oj) ?leqnn.
  by apply: eq_bigr => s _; rewrite !A2l.
split=> // [a ja|a|a b /andP[jb ba]|a b ja jb].
- rewrite ja d1 ?(ltnW ja) // A3j // schurE expr_div_n sqr_sqrtr ?ltW //.
  by rewrite (proj_sym (p t) _ P) expr2.
- rewrite ltnS leq_eqVlt => /orP[/eqP aj|aj].
    have -> : a = oj by apply: val_inj.
    by rewrite p'j schur_self.
  rewrite schur_diag0 // p'E tpermD ?I3 //; apply/eqP => e.
    by move: aj; rewrite -e ltnn.
  by move: aj; rewrite -e ltnNge jt.
- rewrite /A3 (gtn_eqF jb) andbF /A2 (gtn_eqF jb) andbF -/A1 A1K //.
  by rewrite (ltnW jb) ba.
- rewrite schurE KrA ?(ltnW ja) ?(ltnW jb) // big_ord_recr /= !A3j //.
  rewrite opprD addrA; congr (_ - _); last first.
    rewrite mulrACA -invfM -expr2 sqr_sqrtr ?ltW //; congr (_ * _ / _).
    by rewrite (proj_sym (p t) _ P).
  by congr (_ - _); apply: eq_bigr => s _; rewrite !A3l.
Qed.

Lemma kernel_Chol_E K size f : isproj K ->
  (if size is Some s then s <= \rank K else true)%N ->
  E (proj_dpp_sampler_kernel_Chol K size) f =
  chainE (get_size size (\rank K)) (\rank K) K (fun ys => f [seq val y | y <- ys]).
Proof.
move=> P sr; rewrite /proj_dpp_sampler_kernel_Chol rint_proj //.
have szr : (get_size size (\rank K) <= \rank K)%N by case: size sr => //=.
have arrE (a b : 'I_N) : arr K a b = K a b by rewrite /arr !valK.
rewrite (@kernel_Chol_loopE K K _ _ _ _ _ _ _ 1%g) ?subn0 //.
- by move=> a b; exact: proj_sym.
- by rewrite proj_trace_rank.
split=> // [a|a _|a b _|a b _ _]; rewrite ?perm1 ?arrE //.
by rewrite big_ord0 subr0.
Qed.

End Chol.
