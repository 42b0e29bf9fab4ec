(** * Kdpp: elementary symmetric polynomials, k-DPP eigenvector selection, Cauchy-Binet. *)
From Coq Require Import String.
From mathcomp Require Import all_ssreflect all_algebra.
From mathcomp.algebra_tactics Require Import ring.
From Verif Require Import Prob Minor Chain ChainCons ExactModel ProjGS ProjEig ProjKuTa ProjAll GenKernel Spectral.
Set Implicit Arguments. Unset Strict Implicit. Unset Printing Implicit Defensive.
Import Order.Theory GRing.Theory Num.Theory.
Local Open Scope ring_scope.

Section Vals.

(** the elements of a set of indices, as an increasing list of numbers *)
Definition vals n (A : {set 'I_n}) : seq nat := [seq val i | i <- enum A].

Lemma vals_sorted n (A : {set 'I_n}) : sorted ltn (vals A).
Proof.
apply: (@subseq_sorted _ ltn ltn_trans _ (iota 0 n)); last exact: iota_ltn_sorted.
rewrite -val_enum_ord; apply: map_subseq; rewrite {1}/enum_mem.
by rewrite [enum 'I_n]enumT; apply: filter_subseq.
Qed.

Lemma mem_vals n (A : {set 'I_n}) (i : 'I_n) : (val i \in vals A) = (i \in A).
Proof. by rewrite /vals mem_map ?mem_enum //; exact: val_inj. Qed.

Lemma vals_lt n (A : {set 'I_n}) x : x \in vals A -> (x < n)%N.
Proof. by case/mapP => i _ ->; exact: ltn_ord. Qed.

Lemma size_vals n (A : {set 'I_n}) : size (vals A) = #|A|.
Proof. by rewrite size_map cardE. Qed.

Lemma vals_uniqP n (A : {set 'I_n}) s : sorted ltn s -> all (fun x => (x < n)%N) s ->
  (forall i : 'I_n, (val i \in s) = (i \in A)) -> vals A = s.
Proof.
move=> so al me; apply: (@irr_sorted_eq _ ltn) => //.
- exact: ltn_trans.
- exact: ltnn.
- exact: vals_sorted.
move=> x; apply/idP/idP => [xv|xs].
  by have xn := vals_lt xv; rewrite -[x]/(val (Ordinal xn)) me -mem_vals.
by have xn := allP al _ xs; move: xs; rewrite -[x]/(val (Ordinal xn)) me -mem_vals.
Qed.

Lemma vals_surj n s : sorted ltn s -> all (fun x => (x < n)%N) s -> exists A : {set 'I_n}, vals A = s.
Proof.
move=> so al; exists [set i : 'I_n | val i \in s]; apply: vals_uniqP => // i.
by rewrite inE.
Qed.

Lemma vals_inj n : injective (@vals n).
Proof. by move=> A B e; apply/setP => i; rewrite -!mem_vals e. Qed.

Section Sum.
Variable (R : rcfType).
Implicit Types (lam prev : seq R) (acc : R).

(** splitting subsets of {0..n} by whether they contain n *)
Lemma sum_sets_rec n k (F : seq nat -> R) :
  \sum_(A : {set 'I_n.+1} | #|A| == k.+1) F (vals A) =
  \sum_(A : {set 'I_n} | #|A| == k.+1) F (vals A) +
  \sum_(A : {set 'I_n} | #|A| == k) F (rcons (vals A) n).
Proof.
pose up (A : {set 'I_n}) : {set 'I_n.+1} := [set lift ord_max i | i in A].
pose dn (A : {set 'I_n.+1}) : {set 'I_n} := [set i | lift ord_max i \in A].
have linj : injective (lift (@ord_max n)) by exact: lift_inj.
have liftE (i : 'I_n) : val (lift ord_max i) = val i.
  by rewrite /= /bump leqNgt (ltn_ord i).
have upK : cancel up dn by move=> A; apply/setP => i; rewrite inE mem_imset.
have nup A : ord_max \notin up A.
  by apply/imsetP => -[i _ /eqP]; rewrite (negbTE (neq_lift _ _)).
have dnK (A : {set 'I_n.+1}) : ord_max \notin A -> up (dn A) = A.
  move=> mA; apply/setP => i; apply/imsetP/idP => [[j]|iA]; first by rewrite inE => ? ->.
  case: (unliftP ord_max i) => [j ij|im]; last by rewrite -im iA in mA.
  by exists j => //; rewrite inE -ij.
have vup A : vals (up A) = vals A.
  apply: vals_uniqP; first exact: vals_sorted.
    by apply/allP => x /vals_lt h; rewrite ltnS ltnW.
  move=> i; case: (unliftP ord_max i) => [j ->|->].
    by rewrite mem_imset // -mem_vals liftE.
  rewrite (negbTE (nup A)); apply/negbTE/negP => /vals_lt; by rewrite ltnn.
have vup1 A : vals (ord_max |: up A) = rcons (vals A) n.
  apply: vals_uniqP.
  - case e: (vals A) (vals_sorted A) (@vals_lt _ A) => [|x s] //= so lt.
    rewrite rcons_path so /=; apply: lt; exact: mem_last.
  - rewrite all_rcons ltnSn /=; by apply/allP => x /vals_lt h; rewrite ltnS ltnW.
  move=> i; rewrite mem_rcons in_cons in_setU1; case: (unliftP ord_max i) => [j ->|->].
    rewrite liftE [lift _ _ == _]eq_sym (negbTE (neq_lift _ _)) mem_imset // -mem_vals.
    by rewrite (ltn_eqF (ltn_ord j)).
  by rewrite !eqxx.
rewrite (bigID (fun A : {set 'I_n.+1} => ord_max \in A)) /= addrC; congr (_ + _).
  rewrite (reindex_onto up dn) /=; last by move=> A /andP[_ /dnK].
  apply: eq_big => [A|A _]; last by rewrite vup.
  by rewrite card_imset // upK eqxx nup !andbT.
rewrite (reindex_onto (fun A => ord_max |: up A) (fun A => dn (A :\ ord_max))) /=; last first.
  move=> A /andP[_ mA]; rewrite dnK ?setD1K //; by rewrite !inE eqxx.
apply: eq_big => [A|A _]; last by rewrite vup1.
rewrite cardsU1 nup card_imset // add1n eqSS setU11 setU1K // upK eqxx; by rewrite !andbT.
Qed.

Lemma sum_sets0 n (F : seq nat -> R) : \sum_(A : {set 'I_n} | #|A| == 0%N) F (vals A) = F [::].
Proof.
rewrite (bigD1 set0) ?cards0 //= big1 ?addr0; first by rewrite /vals enum_set0.
by move=> A /andP[/eqP/cards0_eq ->]; rewrite eqxx.
Qed.

Lemma sum_sets_empty k (F : seq nat -> R) : \sum_(A : {set 'I_0} | #|A| == k.+1) F (vals A) = 0.
Proof.
apply: big1 => A /eqP cA; have := max_card (mem A); by rewrite cA card_ord.
Qed.

(** elementary symmetric polynomial e_k(lam_0, ..., lam_{n-1}) *)
Definition esp (lam : seq R) (k n : nat) : R := \sum_(A : {set 'I_n} | #|A| == k) \prod_(j in A) nth 0 lam j.

Lemma prod_vals n (A : {set 'I_n}) (f : nat -> R) : \prod_(j in A) f j = \prod_(j <- vals A) f j.
Proof. by rewrite big_map big_enum. Qed.

Definition wt (lam : seq R) (J : seq nat) : R := \prod_(j <- J) nth 0 lam j.

(** weighted sum of f over the k-subsets of {0..n-1} *)
Definition W lam (k n : nat) (f : seq nat -> R) : R := \sum_(A : {set 'I_n} | #|A| == k) wt lam (vals A) * f (vals A).

Lemma espW lam k n : esp lam k n = W lam k n (fun _ => 1).
Proof. by apply: eq_bigr => A _; rewrite mulr1 prod_vals. Qed.

Lemma W_rec lam k n f : W lam k.+1 n.+1 f = W lam k.+1 n f + nth 0 lam n * W lam k n (fun J => f (rcons J n)).
Proof.
rewrite /W (sum_sets_rec n k (fun J => wt lam J * f J)); congr (_ + _).
rewrite big_distrr /=; apply: eq_bigr => A _.
by rewrite /wt -cats1 big_cat /= big_seq1 mulrA [_ * nth _ _ _]mulrC.
Qed.

Lemma W0 lam n f : W lam 0 n f = f [::].
Proof. by rewrite /W (sum_sets0 n (fun J => wt lam J * f J)) /wt big_nil mul1r. Qed.

Lemma WS0 lam k f : W lam k.+1 0 f = 0.
Proof. exact: (sum_sets_empty k (fun J => wt lam J * f J)). Qed.

Lemma esp_rec lam k n : esp lam k.+1 n.+1 = esp lam k.+1 n + nth 0 lam n * esp lam k n.
Proof. by rewrite !espW W_rec. Qed.
Lemma esp0 lam n : esp lam 0 n = 1. Proof. by rewrite espW W0. Qed.
Lemma espS0 lam k : esp lam k.+1 0 = 0. Proof. by rewrite espW WS0. Qed.

Lemma esp_sum lam k n : esp lam k.+1 n = \sum_(j < n) nth 0 lam j * esp lam k j.
Proof.
elim: n => [|n IH]; first by rewrite espS0 big_ord0.
by rewrite esp_rec IH big_ord_recr.
Qed.

(** ** C09 *)
Lemma esp_rowE lam prev acc n : (n <= size lam)%N -> (size lam < size prev)%N ->
  nth 0 (esp_row lam prev acc) n = acc + \sum_(j < n) nth 0 lam j * nth 0 prev j.
Proof.
elim: lam prev acc n => [|l lam IH] [|p prev] acc [|n] //=; rewrite ?big_ord0 ?addr0 // !ltnS => h1 h2.
by rewrite IH // big_ord_recl /= addrA.
Qed.

Lemma size_esp_row lam prev acc : (size lam < size prev)%N -> size (esp_row lam prev acc) = (size lam).+1.
Proof. by elim: lam prev acc => [|l lam IH] [|p prev] acc //=; rewrite ltnS => h; rewrite IH. Qed.

Lemma size_esp lam s : size (elementary_symmetric_polynomials lam s) = s.+1.
Proof. by elim: s => //= s IH; rewrite size_rcons IH. Qed.

Lemma esp_rows lam s i : (i <= s)%N ->
  size (nth [::] (elementary_symmetric_polynomials lam s) i) = (size lam).+1 /\
  forall n, (n <= size lam)%N -> tget (elementary_symmetric_polynomials lam s) i n = esp lam i n.
Proof.
elim: s i => [|s IH] i.
  rewrite leqn0 => /eqP ->; split; first by rewrite /= size_nseq.
  move=> n h; rewrite esp0; have := nth_nseq (0 : R) (size lam).+1 1 n; by rewrite ltnS h.
rewrite leq_eqVlt => /orP[/eqP ->|]; last first.
  rewrite ltnS => h; have [IH1 IH2] := IH _ h; split=> [|n hn].
    by rewrite /= nth_rcons size_esp ltnS h.
  by rewrite /tget /= nth_rcons size_esp ltnS h -IH2.
have [IH1 IH2] := IH s (leqnn s); split=> [|n hn].
  by rewrite /= nth_rcons size_esp ltnn eqxx size_esp_row ?IH1.
rewrite /tget /= nth_rcons size_esp ltnn eqxx esp_rowE ?IH1 // add0r esp_sum.
by apply: eq_bigr => j _; rewrite -IH2 //; apply: leq_trans hn; exact: ltnW.
Qed.

(** ** C10 *)
Section Sel.
Variables (lam : seq R) (l0 : all (fun l => 0 <= l) lam).

Lemma nth_ge0 j : 0 <= nth 0 lam j.
Proof. by have [h|h] := ltnP j (size lam); [exact: (allP l0) (mem_nth _ _)|rewrite nth_default]. Qed.

Lemma wt_ge0 J : 0 <= wt lam J.
Proof. by apply: prodr_ge0 => j _; exact: nth_ge0. Qed.

Lemma esp_ge0 k n : 0 <= esp lam k n.
Proof. by rewrite espW; apply: sumr_ge0 => A _; rewrite mulr1 wt_ge0. Qed.

Lemma W_esp0 k n f : esp lam k n = 0 -> W lam k n f = 0.
Proof.
move=> e0; apply: big1 => A cA; suff -> : wt lam (vals A) = 0 by rewrite mul0r.
have ge (B : {set 'I_n}) : #|B| == k -> 0 <= \prod_(j in B) nth 0 lam j.
  by move=> _; apply: prodr_ge0 => j _; exact: nth_ge0.
move/eqP: e0; rewrite /esp psumr_eq0 // => /allP /(_ A (mem_index_enum _)).
by rewrite cA /= prod_vals => /eqP.
Qed.

Lemma esp_mono k n : esp lam k.+1 n <= esp lam k.+1 n.+1.
Proof. by rewrite esp_rec ler_addl mulr_ge0 ?nth_ge0 ?esp_ge0. Qed.

Variables (T : seq (seq R)) (K : nat).
Hypothesis sT : size T = K.+1.
Hypothesis TE : forall i n, (i <= K)%N -> (n <= size lam)%N -> tget T i n = esp lam i n.

Lemma loop_E k n sel f : (k.+1 <= K)%N -> (n <= size lam)%N -> 0 < esp lam k.+1 n ->
  E (k_dpp_loop lam T k.+1 n sel) f = W lam k.+1 n (fun J => f (J ++ sel)) / esp lam k.+1 n.
Proof.
elim: n k sel => [|n IH] k sel kK nN; first by rewrite espS0 ltxx.
move=> ep; rewrite [LHS]/= sT.
have -> : (K.+1 <= k.+1)%N = false by rewrite ltnS leqNgt kK.
rewrite [E (Flip _ _) _]/= !TE //; try exact: ltnW.
set p := nth 0 lam n * _ / _.
have q0 : esp lam k.+1 n = (1 - p) * esp lam k.+1 n.+1.
  rewrite /p mulrBl mul1r mulfVK ?gt_eqF // esp_rec; fixeq; ring.
have p0 : 0 <= p by rewrite /p divr_ge0 ?mulr_ge0 ?nth_ge0 ?esp_ge0.
have p1 : p <= 1.
  rewrite /p ler_pdivr_mulr // mul1r esp_rec ler_addr; exact: esp_ge0.
rewrite clip01 // W_rec [RHS]mulrDl [LHS]addrC; congr (_ + _).
  have [e0|e0] := eqVneq (esp lam k.+1 n) 0.
    rewrite (W_esp0 _ e0) mul0r.
    move: q0; rewrite e0 => /esym/eqP; rewrite mulf_eq0 (gt_eqF ep) orbF => /eqP ->.
    by rewrite mul0r.
  have e1 : 0 < esp lam k.+1 n by rewrite lt_neqAle eq_sym e0 esp_ge0.
  rewrite IH //; last exact: ltnW.
  have -> : 1 - p = esp lam k.+1 n / esp lam k.+1 n.+1 by rewrite q0 mulfK ?gt_eqF.
  by rewrite mulrC -mulrA [X in _ * X]mulrA mulVf ?mul1r.
case: k kK ep @p q0 p0 p1 => [|k] kK ep p q0 p0 p1.
  by rewrite W0 /p esp0 mulr1 /= mulrAC.
rewrite -[_ == _]/false /=.
have [e0|e0] := eqVneq (esp lam k.+1 n) 0.
  by rewrite (W_esp0 _ e0) /p e0 mulr0 !mul0r.
have e1 : 0 < esp lam k.+1 n by rewrite lt_neqAle eq_sym e0 esp_ge0.
rewrite IH //; [|exact: ltnW|exact: ltnW].
rewrite /p.
have -> : W lam k.+1 n (fun J => f (J ++ n :: sel)) = W lam k.+1 n (fun J => f (rcons J n ++ sel)).
  by apply: eq_bigr => A _; rewrite cat_rcons.
have z := gt_eqF ep; move/negbT: z.
move: (W _ _ _ _) (nth _ _ _) (esp lam k.+1 n) (esp lam k.+2 n.+1) e0 => a b c d c0 d0.
by fixeq; field; rewrite d0 c0.
Qed.

End Sel.
End Sum.
End Vals.
