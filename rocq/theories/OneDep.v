(** * OneDep: point processes on a segment of the integers whose inclusion probabilities are products over the runs of
      consecutive points: they are one-dependent, stationary, and determinantal (Borodin, Diaconis, Fulman, Thm 7.1 in the
      stationary case). *)
From mathcomp Require Import all_ssreflect all_algebra.
From mathcomp.zify Require Import zify.
Set Implicit Arguments. Unset Strict Implicit. Unset Printing Implicit Defensive.
Import Order.Theory GRing.Theory Num.Theory.
Local Open Scope ring_scope.

Section OneDep.
Variable R : comRingType.

(** [runs r c bs]: the product of r(length) over the maximal runs of [true] in bs, the first run being already c long *)
Fixpoint runs (r : nat -> R) (c : nat) (bs : seq bool) : R :=
  match bs with
  | [::] => r c
  | true :: t => runs r c.+1 t
  | false :: t => r c * runs r 0 t
  end.

Section Runs.
Variable r : nat -> R.
Hypothesis r0 : r 0%N = 1.

Lemma runs_catF (bs : seq bool) c : runs r c (rcons bs false) = runs r c bs.
Proof. by elim: bs c => [|[] bs IH] c /=; rewrite ?IH ?r0 ?mulr1. Qed.
Lemma runs_nseqF c n : runs r c (nseq n false) = r c.
Proof. by elim: n c => //= n IH c; rewrite IH r0 mulr1. Qed.
Lemma runs_padr (bs : seq bool) c n : runs r c (bs ++ nseq n false) = runs r c bs.
Proof. by elim: bs c => [|[] bs IH] c /=; rewrite ?IH ?runs_nseqF. Qed.
Lemma runs_padl (bs : seq bool) n : runs r 0 (nseq n false ++ bs) = runs r 0 bs.
Proof. by elim: n => //= n IH; rewrite r0 mul1r. Qed.

(** two families of bits that are never at the same place nor at neighbouring places *)
Fixpoint far (s t : seq bool) : bool :=
  match s, t with
  | a :: s', b :: t' => [&& ~~ (a && b), ~~ (a && head false t'), ~~ (b && head false s') & far s' t']
  | _, _ => true
  end.
Lemma runs_far s t c d : size s = size t -> far s t -> (c == 0%N) || (d == 0%N) ->
  (0 < c)%N ==> ~~ head false t -> (0 < d)%N ==> ~~ head false s ->
  runs r (c + d) [seq p.1 || p.2 | p <- zip s t] = runs r c s * runs r d t.
Proof.
elim: s t c d => [|a s IH] [|b t] c d //=.
  by move=> _ _ /orP[] /eqP -> *; rewrite ?addn0 ?add0n r0 ?mul1r ?mulr1.
move=> [sz] /and4P[ab abt bas far'] cd hc hd.
case: a ab abt hd => /= ab abt hd; case: b ab bas hc => // ab bas hc.
- have d0 : d = 0%N by case: d hd {cd} => //; rewrite implybF.
  rewrite d0 r0 mul1r addn0 -(IH t c.+1 0%N) ?addn0 ?orbT // abt.
- have c0 : c = 0%N by case: c hc {cd} => //; rewrite implybF.
  rewrite c0 r0 mul1r add0n -(IH t 0%N d.+1) //= bas.
- rewrite mulrACA -(IH t 0%N 0%N) //= addn0; congr (_ * _).
  by case/orP: cd => /eqP ->; rewrite ?addn0 ?add0n r0 ?mul1r ?mulr1.
Qed.

(** *** the determinantal formula *)
(** [k] is the inverse of the formal power series with coefficients [r] *)
Variable k : nat -> R.
Hypothesis kinv : forall n, \sum_(j < n.+1) k j * r (n - j)%N = (n == 0%N)%:R.
Lemma k0 : k 0%N = 1.
Proof. by have := kinv 0; rewrite big_ord1 /= r0 mulr1. Qed.

(** the kernel: K(x,y) = -k(y+1-x), and 0 when x > y+1 *)
Definition hkernel (x y : nat) : R := if (x <= y.+1)%N then - k (y.+1 - x)%N else 0.

(** the determinant of the matrix of [hkernel] on the points S, first row replaced by f *)
Definition hmat (f : nat -> R) (S : seq nat) : 'M[R]_(size S) :=
  \matrix_(i, j) (if val i == 0%N then f (nth 0%N S j) else hkernel (nth 0%N S i) (nth 0%N S j)).
Fixpoint hdet (f : nat -> R) (S : seq nat) : R :=
  match S with
  | [::] => 1
  | s0 :: S' =>
      match S' with
      | [::] => f s0
      | s1 :: _ => f s0 * hdet (hkernel s1) S' + (s1 == s0.+1)%:R * hdet f S'
      end
  end.
Lemma hmat_det f S : sorted ltn S -> \det (hmat f S) = hdet f S.
Proof.
elim: S f => [|s0 [|s1 S] IH] f so; first by rewrite det_mx00.
  by rewrite det_mx11 mxE.
have so' : sorted ltn (s1 :: S) by case/andP: so.
rewrite (expand_det_col _ 0) big_ord_recl /= big_ord_recl /=.
rewrite big1 ?addr0 => [|i _]; last first.
  rewrite !mxE /= /hkernel leqNgt.
  have -> : (s0.+1 < nth 0%N S i)%N.
    case/andP: so => h1; rewrite /= -/(path ltn s1 S) => h2.
    have := order_path_min ltn_trans h2 => /allP /(_ (nth 0%N S i)); rewrite mem_nth ?ltn_ord //.
    by move=> /(_ isT); apply: leq_ltn_trans.
  by rewrite mul0r.
rewrite !mxE /= /hkernel.
have kE : (if (s1 <= s0.+1)%N then - k (s0.+1 - s1)%N else 0) = - (s1 == s0.+1)%:R.
  case/andP: so => h1 _; rewrite leq_eqVlt ltnS [(s1 <= s0)%N]leqNgt (h1 : (s0 < s1)%N) orbF.
  by case: eqP => [->|]; rewrite ?subnn ?k0 ?oppr0.
rewrite kE /cofactor.
rewrite -[RHS]/(f s0 * hdet (hkernel s1) (s1 :: S) + (s1 == s0.+1)%:R * hdet f (s1 :: S)) -!IH //.
congr (_ * _ + _).
  rewrite expr0 mul1r; congr (\det _); apply/matrixP => i j; rewrite !mxE /=.
  by case: (unliftP 0 i) => [i' ->|->] //=.
rewrite mulNr expr1 mulN1r mulrN opprK; congr (_ * \det _).
by apply/matrixP => i j; rewrite !mxE /=; case: (unliftP 0 i) => [i' ->|->] //=.
Qed.

(** bits of a finite set of integers *)
Definition bits_of (S : seq nat) (a n : nat) : seq bool := [seq i \in S | i <- iota a n].

Fixpoint hrow (f : nat -> R) (p : nat) (bs : seq bool) : R :=
  if bs is true :: t then f p * runs r 0 t + hrow f p.+1 t else 0.

Lemma rec_run c : (0 < c)%N -> r c = \sum_(j < c) - k j.+1 * r (c.-1 - j)%N.
Proof.
case: c => // c _; have := kinv c.+1; rewrite big_ord_recl /= k0 mul1r subn0 => /eqP.
rewrite addr_eq0 -sumrN => /eqP ->; apply: eq_bigr => j _.
by rewrite mulNr /bump /= add1n subSS.
Qed.

Lemma hrow_runs p c bs : (0 < c)%N || head false bs ->
  \sum_(j < c) - k j.+1 * runs r (c.-1 - j) bs + hrow (hkernel p) (p + c) bs = runs r c bs.
Proof.
elim: bs c => [|[] t IH] c /= h.
- by rewrite orbF in h; rewrite addr0 -rec_run.
- rewrite -(IH c.+1) // big_ord_recr /= subnn addnS addrA; congr (_ + _); congr (_ + _).
    apply: eq_bigr => j _; congr (_ * runs r _ t).
    by have := ltn_ord j; lia.
  by rewrite /hkernel ifT; last lia; congr (- k _ * _); lia.
rewrite orbF in h; rewrite addr0 (rec_run h) mulr_suml; apply: eq_bigr => j _.
by rewrite mulrA.
Qed.

Lemma bits_S S a n : bits_of S a n.+1 = (a \in S) :: bits_of S a.+1 n. Proof. by []. Qed.
Lemma hrow_F f p n : hrow f p (nseq n false) = 0. Proof. by case: n. Qed.
Lemma bits_nil a n : bits_of [::] a n = nseq n false.
Proof. by rewrite /bits_of; elim: n a => //= n IH a; rewrite IH. Qed.
Lemma bits_skip S s1 a d n : {in S, forall x, (s1 <= x)%N} -> (a + d)%N = s1 ->
  bits_of S a (d + n) = nseq d false ++ bits_of S s1 n.
Proof.
move=> h; elim: d a => [|d IH] a; first by rewrite addn0 => ->.
move=> e; rewrite addSn /bits_of /= -/(bits_of S a.+1 (d + n)) IH; last lia.
by congr (_ :: _); apply/negP => /h; lia.
Qed.
Lemma bits_cons s0 S n a : (s0 < a)%N -> bits_of (s0 :: S) a n = bits_of S a n.
Proof.
move=> h; apply/eq_in_map => i; rewrite mem_iota inE => /andP[ai _].
by rewrite gtn_eqF // (leq_trans h ai).
Qed.

Lemma hdet_hrow f s0 S n : sorted ltn (s0 :: S) -> {in s0 :: S, forall x, (x < s0 + n)%N} ->
  hdet f (s0 :: S) = hrow f s0 (bits_of (s0 :: S) s0 n) /\
  (forall a d, (a + d)%N = s0 -> hdet (hkernel s0) (s0 :: S) = runs r 0 (bits_of (s0 :: S) a (d + n))).
Proof.
elim: S s0 f n => [|s1 S IH] s0 f n so bd.
  case: n bd => [/(_ s0 (mem_head _ _))|n bd]; first by rewrite addn0 ltnn.
  have b1 : bits_of [:: s0] s0 n.+1 = true :: nseq n false by rewrite bits_S inE eqxx bits_cons // bits_nil.
  split; first by rewrite b1 /= runs_nseqF r0 mulr1 hrow_F addr0.
  move=> a d e; rewrite (bits_skip (s1 := s0)) // => [|x]; last by rewrite inE => /eqP ->.
  rewrite runs_padl // b1 /= runs_nseqF.
  rewrite /hkernel leqnSn subSn // subnn; have := @rec_run 1 isT; rewrite big_ord1 /= r0 mulr1 => ->.
  by [].
have so' : sorted ltn (s1 :: S) by case/andP: so.
have s01 : (s0 < s1)%N by case/andP: so.
have ge1 : {in s1 :: S, forall x, (s1 <= x)%N}.
  move=> x; rewrite inE => /orP[/eqP ->//|xS].
  by have := order_path_min ltn_trans so' => /allP /(_ _ xS) /ltnW.
have s1n : (s1 < s0 + n)%N by apply: bd; rewrite !inE eqxx orbT.
have nE : (s0 + n = s1 + (s0 + n - s1))%N by lia.
have bd' : {in s1 :: S, forall x, (x < s1 + (s0 + n - s1))%N}.
  by move=> x xS; rewrite -nE; apply: bd; rewrite inE xS orbT.
set m := (s0 + n - s1)%N in nE bd'.
have nE' : n = ((s1 - s0).-1 + m).+1 by lia.
have fE g : hdet g [:: s0, s1 & S] = hrow g s0 (bits_of [:: s0, s1 & S] s0 n).
  rewrite -[LHS]/(g s0 * hdet (hkernel s1) (s1 :: S) + (s1 == s0.+1)%:R * hdet g (s1 :: S)).
  have [_ h1] := IH s1 g m so' bd'; have [h2 _] := IH s1 g m so' bd'.
  rewrite (h1 s0.+1 (s1 - s0).-1); last lia.
  rewrite h2 nE' bits_S inE eqxx (@bits_cons s0 (s1 :: S)) //=; congr (_ + _); case: eqP => [e|ne].
    by rewrite mul1r (_ : (s1 - s0).-1 = 0%N) ?add0n ?e //; lia.
  rewrite mul0r (bits_skip (s1 := s1)) //; last lia.
  by have -> : (s1 - s0).-1 = (s1 - s0).-2.+1 by lia.
split=> // a d e.
have ge0 : {in [:: s0, s1 & S], forall x, (s0 <= x)%N}.
  by move=> x; rewrite inE => /orP[/eqP ->//|/ge1 h]; lia.
rewrite (bits_skip (s1 := s0)) // runs_padl // fE -(@hrow_runs s0 0) ?big_ord0 ?add0r ?addn0 //.
by rewrite nE' bits_S /= inE eqxx.
Qed.

(** the determinant of the kernel on the points of S is the product over the runs of S *)
Lemma hkernel_det S a n : sorted ltn S -> {in S, forall x, (a <= x < a + n)%N} ->
  \det (\matrix_(i < size S, j < size S) hkernel (nth 0%N S i) (nth 0%N S j)) = runs r 0 (bits_of S a n).
Proof.
case: S => [|s0 S] so bd; first by rewrite det_mx00 bits_nil runs_nseqF.
have [h1 h2] : (a <= s0)%N /\ (s0 < a + n)%N by have := bd s0 (mem_head _ _); case/andP.
have e : n = ((s0 - a) + (a + n - s0))%N by lia.
have bd' : {in s0 :: S, forall x, (x < s0 + (a + n - s0))%N} by move=> x /bd; lia.
have [_ h] := @hdet_hrow (hkernel s0) s0 S _ so bd'.
rewrite e -h; last lia; rewrite -hmat_det //; congr (\det _).
by apply/matrixP => i j; rewrite !mxE; case: eqP => // ->.
Qed.
End Runs.

(** every power series with constant term 1 has an inverse *)
Fixpoint inv_prefix (r : nat -> R) (n : nat) : seq R :=
  if n is n'.+1 then let l := inv_prefix r n' in rcons l (- \sum_(j < n) l`_j * r (n - j)%N) else [:: 1].
Definition inv_series (r : nat -> R) (n : nat) : R := (inv_prefix r n)`_n.
Lemma size_inv_prefix r n : size (inv_prefix r n) = n.+1.
Proof. by elim: n => //= n IH; rewrite size_rcons IH. Qed.
Lemma inv_prefix_nth r n m : (n <= m)%N -> (inv_prefix r m)`_n = inv_series r n.
Proof.
elim: m => [|m IH]; first by rewrite leqn0 => /eqP ->.
rewrite leq_eqVlt => /orP[/eqP -> //|h]; rewrite /= nth_rcons size_inv_prefix h; exact: IH.
Qed.
Lemma inv_seriesP (r : nat -> R) : r 0%N = 1 ->
  forall n, \sum_(j < n.+1) inv_series r j * r (n - j)%N = (n == 0%N)%:R.
Proof.
move=> r0 [|n]; first by rewrite big_ord1 /= r0 mulr1.
rewrite big_ord_recr /= subnn r0 mulr1 {2}/inv_series /= nth_rcons size_inv_prefix ltnn eqxx.
rewrite -[X in _ + X]/(- _); apply/eqP; rewrite addr_eq0 opprK; apply/eqP.
by apply: eq_bigr => j _; rewrite inv_prefix_nth // -ltnS.
Qed.

Section Inclusion.
Variable r : nat -> R.
Hypothesis r0 : r 0%N = 1.

Lemma bits_out S a n : {in S, forall x, (x < a)%N || (a + n <= x)%N} -> bits_of S a n = nseq n false.
Proof.
elim: n a => // n IH a h; rewrite bits_S IH => [|x /h]; last lia.
by congr (_ :: _); apply/negP => /h; lia.
Qed.
Lemma bits_cat S a n m : bits_of S a (n + m) = bits_of S a n ++ bits_of S (a + n) m.
Proof. by rewrite /bits_of iotaD map_cat. Qed.
Lemma runs_window (S : seq nat) a n m : {in S, forall x, (a <= x < a + n)%N} ->
  runs r 0 (bits_of S 0 (a + n + m)) = runs r 0 (bits_of S a n).
Proof.
move=> h; rewrite !bits_cat !add0n -catA bits_out => [|x /h]; last lia.
rewrite runs_padl // [X in _ ++ X]bits_out => [|x /h]; last lia.
by rewrite runs_padr.
Qed.
Lemma bits_shift S d a n : bits_of [seq (d + x)%N | x <- S] (d + a) n = bits_of S a n.
Proof.
rewrite /bits_of iotaDl -map_comp; apply: eq_map => i /=.
by apply/mapP/idP => [[x xS /addnI ->]|iS] //; exists i.
Qed.
Lemma runs_shift (S : seq nat) d a n a' n' : {in S, forall x, (a <= x < a + n)%N} ->
  {in S, forall x, (a' <= d + x < a' + n')%N} ->
  runs r 0 (bits_of [seq (d + x)%N | x <- S] a' n') = runs r 0 (bits_of S a n).
Proof.
move=> h h'; rewrite -(bits_shift S d a n).
rewrite -(@runs_window _ a' n' (d + a + n)) => [|y /mapP[x /h' hx ->]] //.
rewrite -[RHS](@runs_window _ _ _ (a' + n')) => [|y /mapP[x /h hx ->]]; last lia.
by congr (runs r 0 (bits_of _ _ _)); lia.
Qed.
Lemma bits_far (S T : seq nat) a n : (forall s t, s \in S -> t \in T -> (s.+1 < t)%N || (t.+1 < s)%N) ->
  far (bits_of S a n) (bits_of T a n).
Proof.
move=> h; elim: n a => // n IH a; rewrite !bits_S /= IH andbT.
have hd U b m : (head false (bits_of U b m) -> b \in U) by case: m.
apply/and3P; split; apply/negP => /andP[h1 h2].
- by have := h _ _ h1 h2; rewrite !ltnNge !leqnSn.
- by have := h _ _ h1 (hd _ _ _ h2); rewrite ltnn ltnNge (leq_trans (leqnSn _) (leqnSn _)).
- by have := h _ _ (hd _ _ _ h2) h1; rewrite ltnn orbF ltnNge (leq_trans (leqnSn _) (leqnSn _)).
Qed.
Lemma bits_or S T a n : bits_of (S ++ T) a n = [seq p.1 || p.2 | p <- zip (bits_of S a n) (bits_of T a n)].
Proof. by elim: n a => // n IH a; rewrite !bits_S /= IH mem_cat. Qed.
Lemma runs_one_dep (S T : seq nat) a n : (forall s t, s \in S -> t \in T -> (s.+1 < t)%N || (t.+1 < s)%N) ->
  runs r 0 (bits_of (S ++ T) a n) = runs r 0 (bits_of S a n) * runs r 0 (bits_of T a n).
Proof.
move=> h; rewrite bits_or.
have sz : size (bits_of S a n) = size (bits_of T a n) by rewrite !size_map !size_iota.
exact: (@runs_far r r0 _ _ 0%N 0%N sz (bits_far a n h)).
Qed.
Lemma bits_eq S T a n : S =i T -> bits_of S a n = bits_of T a n.
Proof. by move=> h; apply: eq_map => i; rewrite h. Qed.
End Inclusion.
End OneDep.
