(** * ProjSchur: mode 'Schur' of the kernel samplers follows the chain rule. *)
From mathcomp Require Import all_ssreflect all_algebra.
From mathcomp.algebra_tactics Require Import ring.
From Verif Require Import Prob Minor Chain ExactModel ProjGS.
Set Implicit Arguments. Unset Strict Implicit. Unset Printing Implicit Defensive.
Import Order.Theory GRing.Theory Num.Theory.
Local Open Scope ring_scope.

Section Schur.
Variables (R : rcfType) (N : nat).
Implicit Types (K : 'M[R]_N).

(** K_iY Kinv K_Yk *)
Definition bil K (Y : nat -> 'I_N) (it : nat) (Kinv : nat -> nat -> R) (i k : 'I_N) : R :=
  \sum_(b < it) (\sum_(a < it) K i (Y a) * Kinv a b) * K (Y b) k.

Definition sch_inv K (Kr : 'M[R]_N) (it : nat) (sampl : seq 'I_N) (avail : 'I_N -> bool)
   (Kinv : nat -> nat -> R) (schur_comp : 'I_N -> R) : Prop :=
  [/\ forall i, avail i -> schur_comp i = Kr i i,
      forall i, ~~ avail i -> Kr i i = 0,
      size sampl = it,
      it = 0%N -> Kr = K
    & (forall x i k, Kr i k = K i k - bil K (nth x sampl) it Kinv i k) /\
      (it = 1%N -> forall x, K (nth x sampl 0) (nth x sampl 0) != 0 /\ Kr = schur K (nth x sampl 0))].

Lemma eq_bil K Y Y' it Q Q' i k : (forall a, (a < it)%N -> Y a = Y' a) ->
  (forall a b, (a < it)%N -> (b < it)%N -> Q a b = Q' a b) -> bil K Y it Q i k = bil K Y' it Q' i k.
Proof.
move=> eY eQ; apply: eq_bigr => b _; rewrite eY //; congr (_ * _).
by apply: eq_bigr => a _; rewrite eY // eQ.
Qed.

(** Bordering: the four-block update of Kinv subtracts a rank-one term. *)
Lemma bil_border K (Y : nat -> 'I_N) (it : nat) (Q T : nat -> nat -> R) (s : R) i k :
  (forall a b, (a < it)%N -> (b < it)%N -> T a b = Q a b + (\sum_(c < it) Q a c * K (Y c) (Y it)) *
        ((\sum_(c < it) Q b c * K (Y c) (Y it)) / s)) ->
  (forall a, (a < it)%N -> T a it = - (\sum_(c < it) Q a c * K (Y c) (Y it)) / s) ->
  (forall b, (b < it)%N -> T it b = - (\sum_(c < it) Q b c * K (Y c) (Y it)) / s) ->
  T it it = 1 / s -> (forall a b, K a b = K b a) ->
  bil K Y it.+1 T i k = bil K Y it Q i k +
    (K i (Y it) - bil K Y it Q i (Y it)) * (K (Y it) k - bil K Y it Q k (Y it)) / s.
Proof.
move=> T1 T2 T3 T4 sK.
pose temp a := \sum_(c < it) Q a c * K (Y c) (Y it).
pose al p := \sum_(a < it) K p (Y a) * temp a.
have alE p : bil K Y it Q p (Y it) = al p.
  rewrite /bil /al /temp.
  under eq_bigr do rewrite big_distrl /=.
  rewrite exchange_big /=; apply: eq_bigr => a _; rewrite big_distrr /=.
  by apply: eq_bigr => b _; rewrite mulrA.
rewrite !alE {1}/bil big_ord_recr /=.
have -> : \sum_(b < it) (\sum_(a < it.+1) K i (Y a) * T a b) * K (Y b) k =
   bil K Y it Q i k + al i * al k / s - K i (Y it) * al k / s.
  transitivity (\sum_(b < it) ((\sum_(a < it) K i (Y a) * Q a b) * K (Y b) k +
      al i / s * (K k (Y b) * temp b) - K i (Y it) / s * (K k (Y b) * temp b))).
    apply: eq_bigr => b _; rewrite big_ord_recr /= T3 // -/(temp b).
    have -> : \sum_(a < it) K i (Y a) * T a b =
        \sum_(a < it) K i (Y a) * Q a b + al i * (temp b / s).
      rewrite /al big_distrl -big_split /=; apply: eq_bigr => a _.
      by rewrite T1 // -/(temp a) -/(temp b) mulrDr mulrA.
    rewrite (sK k (Y b)); move: (temp b) (al i) (K i (Y it)) (K (Y b) k) (\sum_(a < it) _) => x1 x2 x3 x4 x5.
    fixeq; ring.
  rewrite sumrB big_split /= -!big_distrr /= -/(al k).
  by congr (_ + _ - _); rewrite mulrAC.
have -> : \sum_(a < it.+1) K i (Y a) * T a it = - al i / s + K i (Y it) / s.
  rewrite big_ord_recr /= T4 mul1r; congr (_ + _).
  rewrite /al -sumrN big_distrl /=; apply: eq_bigr => a _; by rewrite T2 // -/(temp a) mulrA mulrN.
move: (al i) (al k) (K i (Y it)) (K (Y it) k) (bil K Y it Q i k) => x1 x2 x3 x4 x5.
fixeq; ring.
Qed.

Lemma kernel_Schur_loopE K Kr rank sz n it sampl avail Kinv schur_comp f :
  (forall a b, K a b = K b a) ->
  isproj Kr -> \tr Kr = (rank - it)%:R -> (it + n)%N = sz -> (sz <= rank)%N ->
  sch_inv K Kr it sampl avail Kinv schur_comp ->
  E (kernel_Schur_loop K rank sz n it sampl avail Kinv schur_comp) f =
  chainE n (rank - it) Kr (fun ys => f (sampl ++ ys)).
Proof.
move=> sK.
elim: n it Kr sampl avail Kinv schur_comp =>
  [|n IH] it Kr sampl avail Kinv schur_comp P trK szE szr [I1 I2 I3 I4 [I5 I6]].
  by rewrite /= cats0.
have itr : (it < rank)%N by apply: leq_trans szr; rewrite -szE addnS ltnS leq_addr.
have rE : rank%:R - it%:R = (rank - it)%:R :> R by rewrite natrB // ltnW.
rewrite [LHS](@E_choice_proj _ _ Kr (rank - it)) //; first last.
- by move=> i; rewrite (mem_av avail) => /I2.
- by move=> i; rewrite (mem_av avail) => ai; rewrite I1 // ger0_norm ?proj_diag_ge0 // rE.
- exact: (av_uniq avail).
- by rewrite subn_gt0.
rewrite [chainE _ _ _ _]/=; apply: eq_bigr => j _.
have [Kj|Kj] := eqVneq (Kr j j) 0; first by rewrite Kj !mul0r.
congr (_ * _).
have aj : avail j by apply: contraNT Kj => /I2 ->.
rewrite -subnS.
pose av' := fun i => avail i && (i != j).
(* all update branches *)
have cont Kinv' : (forall i k, schur Kr j i k = K i k - bil K (nth j (rcons sampl j)) it.+1 Kinv' i k) ->
  E (kernel_Schur_loop K rank sz n it.+1 (rcons sampl j) av' Kinv'
     (fun i => if av' i then K i i - \sum_(b < it.+1)
         (\sum_(a < it.+1) K i (nth j (rcons sampl j) a) * Kinv' a b) * K i (nth j (rcons sampl j) b)
       else schur_comp i)) f =
  chainE n (rank - it.+1) (schur Kr j) (fun ys => f (sampl ++ j :: ys)).
  move=> J; rewrite (IH it.+1 (schur Kr j)).
  - by apply: eq_chainE => ys; rewrite cat_rcons.
  - exact: schur_proj.
  - by rewrite schur_tr // trK -(subnSK itr) mulrSr addrK.
  - by rewrite addSnnS.
  - exact: szr.
  split=> // [i avi|i nai||].
  - rewrite avi J /bil; congr (_ - _); apply: eq_bigr => b _; by rewrite [K i (nth _ _ b)]sK.
  - have [ai|nai'] := boolP (avail i).
      by move: nai; rewrite /av' ai /= negbK => /eqP ->; rewrite schur_self.
    by rewrite schur_diag0 // I2.
  - by rewrite size_rcons I3.
  - split.
      move=> x i k; rewrite J; congr (_ - _); apply: eq_bil => // a la.
      by apply: set_nth_default; rewrite size_rcons I3.
    move=> [] it0 x; rewrite nth_rcons I3 it0 /=; split; last by rewrite I4.
    by rewrite -I4.
have nthY a : (a < it)%N -> nth j (rcons sampl j) a = nth j sampl a.
  by move=> la; rewrite nth_rcons I3 la.
have nthj : nth j (rcons sampl j) it = j by rewrite nth_rcons I3 ltnn eqxx.
have [it0|it0] := eqVneq it 0%N.
  cbv beta iota zeta; apply: cont => i k; rewrite /bil it0 !big_ord_recl !big_ord0 /= !addr0.
  have -> : nth j (rcons sampl j) 0 = j by have := nthj; rewrite it0.
  by rewrite schurE (I4 it0) mul1r mulrAC.
have [it1|it1] := eqVneq it 1%N.
  have [Ki KrE] := I6 it1 j.
  cbv beta iota zeta; apply: cont => i k; rewrite /bil it1 !big_ord_recl !big_ord0 /= !addr0.
  have -> : nth j (rcons sampl j) (bump 0 0) = j by have := nthj; rewrite it1.
  rewrite nthY ?it1 //; set y := nth j sampl 0.
  move: Ki Kj; rewrite KrE !schurE -/y => Ki Kj.
  rewrite (sK y j) in Kj *.
  have D : K y y * K j j - K j y ^+ 2 != 0.
    apply: contraNneq Kj => D0; apply/eqP; apply: (mulfI Ki).
    rewrite mulr0 mulrBr -[RHS]D0; congr (_ - _).
    by rewrite mulrCA divff // mulr1 expr2.
  by field; rewrite Ki D.
have it2 : (1 < it)%N by case: it it0 it1 {IH trK I3 I4 I5 I6 itr rE cont szE nthY nthj} => [|[]].
case: ltnP => [lts|les]; last first.
  have -> : n = 0%N.
    apply/eqP; rewrite -leqn0; move: les; rewrite -szE addnS ltnS -{2}[it]addn0 leq_add2l //.
  by rewrite /= cats1.
cbv beta iota zeta; apply: cont => i k.
set Y := nth j (rcons sampl j).
set T := (X in bil _ _ _ X).
have tempE a : \sum_(b < it) Kinv a b * K (nth j sampl b) j = \sum_(b < it) Kinv a b * K (Y b) (Y it).
  by rewrite {2}/Y nthj; apply: eq_bigr => b _; rewrite /Y nthY.
have KrY p q : Kr p q = K p q - bil K Y it Kinv p q.
  by rewrite (I5 j); congr (_ - _); apply: eq_bil => // a la; rewrite /Y nthY.
have sE : K j j - \sum_(a < it) K j (nth j sampl a) * (\sum_(b < it) Kinv a b * K (nth j sampl b) j) = Kr j j.
  rewrite KrY; congr (_ - _); rewrite /bil.
  under [RHS]eq_bigr do rewrite big_distrl /=.
  rewrite exchange_big /=; apply: eq_bigr => a _; rewrite big_distrr /=.
  by apply: eq_bigr => b _; rewrite /Y !nthY // mulrA.
rewrite (@bil_border K Y it Kinv T (Kr j j)) //.
- have Yit : Y it = j by rewrite /Y nthj.
  rewrite Yit schurE -!KrY (proj_sym j k P).
  rewrite {1}KrY; have -> : K j k - bil K Y it Kinv k j = Kr k j by rewrite KrY sK.
  by rewrite opprD addrA.
- by move=> a b la lb; rewrite /T la lb /= !tempE sE.
- by move=> a la; rewrite /T la ltnn eqxx /= tempE sE.
- by move=> b lb; rewrite /T lb ltnn eqxx /= tempE sE.
- by rewrite /T ltnn eqxx /= sE.
Qed.

Lemma kernel_Schur_E K size f : isproj K ->
  (if size is Some s then s <= \rank K else true)%N ->
  E (proj_dpp_sampler_kernel_Schur K size) f = chainE (get_size size (\rank K)) (\rank K) K f.
Proof.
move=> P sr; rewrite /proj_dpp_sampler_kernel_Schur rint_proj //.
have szr : (get_size size (\rank K) <= \rank K)%N by case: size sr => //=.
rewrite (@kernel_Schur_loopE K K) ?subn0 //.
- by move=> a b; exact: proj_sym.
- by rewrite proj_trace_rank.
- by split=> //; split=> // x i k; rewrite /bil big_ord0 subr0.
Qed.

End Schur.
