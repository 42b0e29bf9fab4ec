(** * P_OneDep: C76 (one-dependence and stationarity) and C77 (determinantal formula) of the carries, descent and virtual
      descent processes. *)
From mathcomp Require Import all_ssreflect all_algebra realalg.
From mathcomp.algebra_tactics Require Import ring.
From mathcomp.zify Require Import zify.
From Verif Require Import Prob Spectral McmcModel Mcmc P_McmcChain ExoticModel P_Perm P_Descent OneDep.
Set Implicit Arguments. Unset Strict Implicit. Unset Printing Implicit Defensive.
Import Order.Theory GRing.Theory Num.Theory.
Local Open Scope ring_scope.

Local Arguments E : simpl never.
Section Descents.
Variable R : rcfType.

(** [con s p bs]: s descends at every position p + i such that bs_i *)
Fixpoint con (s : seq nat) (p : nat) (bs : seq bool) : bool :=
  if bs is b :: t then (b ==> (nth 0%N s p.+1 < nth 0%N s p)%N) && con s p.+1 t else true.
Lemma con_cat s p b1 b2 : con s p (b1 ++ b2) = con s p b1 && con s (p + size b1) b2.
Proof. by elim: b1 p => [|b b1 IH] p /=; rewrite ?addn0 // IH addSnnS andbA. Qed.
Lemma con_ext s s' p bs : (forall i, (p <= i)%N -> nth 0%N s i = nth 0%N s' i) -> con s p bs = con s' p bs.
Proof.
elim: bs p => //= b bs IH p h; rewrite !h // (IH p.+1) // => i /ltnW; exact: h.
Qed.
Lemma con_sorted s p c : con s p (nseq c true) = sorted gtn [seq nth 0%N s (p + i) | i <- iota 0 c.+1].
Proof.
elim: c p => //= c IH p; rewrite {}IH /= !addn0 addn1; congr (_ && path gtn _ _).
by rewrite (iotaDl 1 1) -map_comp; apply: eq_map => i /=; rewrite addSnnS.
Qed.

(** *** reordering a block of a permutation *)
Definition act (p m : nat) (g s : seq nat) : seq nat := take p s ++ [seq nth 0%N s (p + i) | i <- g] ++ drop (p + m) s.
Section Act.
Variables (n p m : nat).
Hypothesis pm : (p + m <= n)%N.
Lemma block_eq s : size s = n -> [seq nth 0%N s (p + i) | i <- iota 0 m] = take m (drop p s).
Proof.
move=> sn; apply: (@eq_from_nth _ 0%N); first by rewrite size_map size_iota size_takel // size_drop; lia.
move=> i; rewrite size_map size_iota => im; rewrite (nth_map 0%N) ?size_iota // nth_iota // nth_take // nth_drop.
by rewrite add0n.
Qed.
Lemma act_perm g s : size s = n -> perm_eq g (iota 0 m) -> perm_eq (act p m g s) s.
Proof.
move=> sn pg; rewrite /act -[X in perm_eq _ X](cat_take_drop p) perm_cat2l.
rewrite -[X in perm_eq _ X](cat_take_drop m) drop_drop [(m + p)%N]addnC perm_cat2r -block_eq //.
exact: perm_map.
Qed.
Lemma size_act g s : size s = n -> size g = m -> size (act p m g s) = n.
Proof. by move=> sn sg; rewrite /act !size_cat size_map sg size_takel ?size_drop; lia. Qed.
Lemma nth_act g s i : size s = n -> size g = m ->
  nth 0%N (act p m g s) i = if (p <= i < p + m)%N then nth 0%N s (p + nth 0%N g (i - p)) else nth 0%N s i.
Proof.
move=> sn sg; rewrite /act nth_cat size_takel; last lia.
case: (ltnP i p) => ip /=; first by rewrite nth_take.
rewrite nth_cat size_map sg; case: (ltnP i (p + m)) => h.
  by rewrite ifT ?(nth_map 0%N) ?sg //; lia.
rewrite ifF ?nth_drop; last lia; by congr nth; lia.
Qed.
Lemma act_inj g : perm_eq g (iota 0 m) -> {in [pred s | size s == n] &, injective (act p m g)}.
Proof.
move=> pg s s'; rewrite !inE => /eqP sn /eqP sn' e.
have sg : size g = m by rewrite (perm_size pg) size_iota.
apply: (@eq_from_nth _ 0%N); first by rewrite sn sn'.
move=> i; rewrite sn => iN.
case: (boolP (p <= i < p + m)%N) => h; last first.
  by have := congr1 (fun u => nth 0%N u i) e; rewrite !nth_act // (negbTE h).
have mg : (i - p)%N \in g by rewrite (perm_mem pg) mem_iota; lia.
have := congr1 (fun u => nth 0%N u (p + index (i - p)%N g)) e; rewrite !nth_act //.
have := mg; rewrite -index_mem sg => ig.
have h' : (p <= p + index (i - p)%N g < p + m)%N by lia.
by rewrite h' addKn nth_index // subnKC //; case/andP: h.
Qed.
End Act.

(** exactly one arrangement of distinct values is decreasing *)
Lemma one_decreasing (w : seq nat) : uniq w -> count (sorted gtn) (permutations w) = 1%N.
Proof.
move=> uw; have e : {in permutations w, sorted gtn =1 pred1 (sort geq w)}.
  move=> v; rewrite mem_permutations => pv /=.
  have gT : transitive geq by move=> a b c /= h1 h2; exact: leq_trans h2 h1.
  have gA : antisymmetric geq by move=> a b /= h; apply: anti_leq; rewrite andbC.
  have gt : ssrbool.total geq by move=> a b; rewrite /= leq_total.
  apply/idP/eqP => [sv|->].
    apply: (sorted_eq gT gA); last by rewrite (perm_trans pv) // perm_sym perm_sort.
      by apply: sub_sorted sv => a b /= /ltnW.
    exact: sort_sorted.
  have : sorted geq (sort geq w) by exact: sort_sorted.
  have : uniq (sort geq w) by rewrite sort_uniq.
  elim: (sort geq w) => //= a [|b l] IH //= /andP[na ul] /andP[ab sl].
  rewrite -/(sorted gtn (b :: l)) IH // andbT; move: na; rewrite inE negb_or => /andP[ne _].
  by rewrite ltn_neqAle eq_sym ne.
rewrite (eq_in_count e) count_uniq_mem ?permutations_uniq // mem_permutations.
by rewrite perm_sort perm_refl.
Qed.

Lemma sum_act n p m (F : seq nat -> R) g : (p + m <= n)%N -> perm_eq g (iota 0 m) ->
  \sum_(s <- permutations (iota 0 n)) F (act p m g s) = \sum_(s <- permutations (iota 0 n)) F s.
Proof.
move=> pm pg; rewrite -(big_map (act p m g) predT F); apply: perm_big.
have sz s : s \in permutations (iota 0 n) -> size s = n by rewrite mem_permutations => /perm_size ->; rewrite size_iota.
have inj : {in permutations (iota 0 n) &, injective (act p m g)}.
  by move=> s s' hs hs'; apply: (act_inj pm pg); rewrite inE ?sz.
apply: uniq_perm; rewrite ?permutations_uniq ?map_inj_in_uniq ?permutations_uniq //.
have := @uniq_min_size _ [seq act p m g s | s <- permutations (iota 0 n)] (permutations (iota 0 n)).
rewrite map_inj_in_uniq ?permutations_uniq // size_map leqnn => /(_ isT).
case=> // v /mapP[s hs ->]; have sn := sz _ hs; move: hs; rewrite !mem_permutations => hs.
exact: perm_trans (act_perm pm sn pg) hs.
Qed.

Lemma block_sum n p c (F : seq nat -> R) : (p + c.+1 <= n)%N ->
  (forall s s', (forall i, (p + c < i)%N -> nth 0%N s i = nth 0%N s' i) -> F s = F s') ->
  \sum_(s <- permutations (iota 0 n)) (con s p (nseq c true))%:R * F s =
  (c.+1)`!%:R^-1 * \sum_(s <- permutations (iota 0 n)) F s.
Proof.
move=> pc hF; set PS := permutations (iota 0 n); set m := c.+1.
pose G := permutations (iota 0 m).
have sG : size G = m`! by rewrite size_permutations ?iota_uniq // size_iota.
have sz s : s \in PS -> size s = n by rewrite mem_permutations => /perm_size ->; rewrite size_iota.
suff key : \sum_(g <- G) \sum_(s <- PS) (con s p (nseq c true))%:R * F s = \sum_(s <- PS) F s.
  by rewrite -key sumc sG mulKf // fact_neq0.
transitivity (\sum_(g <- G) \sum_(s <- PS) (con (act p m g s) p (nseq c true))%:R * F s).
  rewrite [in LHS]big_seq [in RHS]big_seq; apply: eq_bigr => g; rewrite mem_permutations => pg.
  rewrite -(sum_act (fun s => (con s p (nseq c true))%:R * F s) pc pg).
  rewrite [in LHS]big_seq [in RHS]big_seq; apply: eq_bigr => s hs; congr (_ * _).
  have sg : size g = m by rewrite (perm_size pg) size_iota.
  apply: hF => i hi; rewrite (nth_act pc _ (sz _ hs) sg) ifF //; lia.
rewrite exchange_big /= [in LHS]big_seq [in RHS]big_seq; apply: eq_bigr => s hs.
rewrite -big_distrl /= -[RHS]mul1r; congr (_ * _).
have sn := sz _ hs.
pose w := [seq nth 0%N s (p + i) | i <- iota 0 m].
have us : uniq s by move: hs; rewrite mem_permutations => /perm_uniq ->; rewrite iota_uniq.
have uw : uniq w by rewrite /w (block_eq pc) // take_uniq // drop_uniq.
have sw : size w = m by rewrite size_map size_iota.
transitivity (\sum_(v <- permutations w) (sorted gtn v)%:R : R).
  transitivity (\sum_(v <- [seq [seq nth 0%N s (p + i) | i <- g] | g <- G]) (sorted gtn v)%:R : R).
    rewrite big_map [in LHS]big_seq [in RHS]big_seq; apply: eq_bigr => g; rewrite mem_permutations => pg.
    have sg : size g = m by rewrite (perm_size pg) size_iota.
    rewrite con_sorted; congr ((sorted gtn _)%:R).
    apply: (@eq_from_nth _ 0%N); first by rewrite !size_map size_iota sg.
    move=> i; rewrite size_map size_iota => im; rewrite !(nth_map 0%N) ?size_iota ?sg // nth_iota //.
    by rewrite (nth_act pc) // add0n addKn ifT //; lia.
  apply: perm_big.
  have inj : {in G &, injective (fun g => [seq nth 0%N s (p + i) | i <- g])}.
    move=> g g'; rewrite !mem_permutations => pg pg' e.
    have sg : size g = m by rewrite (perm_size pg) size_iota.
    have sg' : size g' = m by rewrite (perm_size pg') size_iota.
    apply: (@eq_from_nth _ 0%N); first by rewrite sg sg'.
    move=> i ig; have := congr1 (fun u => nth 0%N u i) e; rewrite !(nth_map 0%N) ?sg' -?sg // => /eqP.
    have b1 : (nth 0%N g i < m)%N by have := perm_mem pg (nth 0%N g i); rewrite mem_nth // mem_iota add0n => /esym/andP[].
    have b2 : (nth 0%N g' i < m)%N.
      by have := perm_mem pg' (nth 0%N g' i); rewrite mem_nth ?sg' -?sg // mem_iota add0n sg => /esym/andP[].
    rewrite nth_uniq ?sn //; [by move=> /eqP /addnI|lia|lia].
  apply: uniq_perm; rewrite ?permutations_uniq ?map_inj_in_uniq ?permutations_uniq //.
  have := @uniq_min_size _ [seq [seq nth 0%N s (p + i) | i <- g] | g <- G] (permutations w).
  rewrite map_inj_in_uniq ?permutations_uniq // size_map sG size_permutations // sw leqnn => /(_ isT).
  case=> // v /mapP[g]; rewrite !mem_permutations => pg ->; exact: perm_map.
rewrite -natr_sum (_ : (\sum_(v <- _) _)%N = 1%N) // -(one_decreasing uw) -sum1_count [in RHS]big_mkcond /=.
by apply: eq_bigr => v _; case: sorted.
Qed.

(** the probability of a run of l descents *)
Definition desc_run (l : nat) : R := (l.+1)`!%:R^-1.

Lemma descents_sum n p c bs : (p + c + size bs < n)%N ->
  \sum_(s <- permutations (iota 0 n)) (con s p (nseq c true ++ bs))%:R = n`!%:R * runs desc_run c bs.
Proof.
elim: bs p c => [|[] bs IH] p c /= h.
- rewrite cats0 (eq_bigr (fun s => (con s p (nseq c true))%:R * 1)) => [|s _]; last by rewrite mulr1.
  rewrite (block_sum (F := fun=> 1)) ?sumc ?mulr1 //; last by rewrite addnS -ltnS; lia.
  by rewrite size_permutations ?iota_uniq // size_iota mulrC.
- have -> : nseq c true ++ true :: bs = nseq c.+1 true ++ bs.
    by rewrite -cat_rcons -[rcons _ _]cats1 -(nseqD c 1) addn1.
  by apply: IH; lia.
rewrite (eq_bigr (fun s => (con s p (nseq c true))%:R * (con s (p + c).+1 bs)%:R)); last first.
  by move=> s _; rewrite con_cat /= size_nseq -natrM mulnb.
rewrite (block_sum (F := fun s => (con s (p + c).+1 bs)%:R)); last 2 first.
- lia.
- by move=> s s' e; congr (_%:R); congr nat_of_bool; apply: con_ext.
have := IH (p + c).+1 0%N; rewrite /= addn0 => ->; last lia.
by rewrite mulrCA.
Qed.

(** the inclusion probabilities of the descent process *)
Lemma con_bits s p S n : con s p (bits_of S p.+1 n) = all (fun i => ((p < i)%N && (i <= p + n)%N) ==> (nth 0%N s i < nth 0%N s i.-1)%N) S.
Proof.
elim: n p => [|n IH] p.
  rewrite /bits_of /=; apply/esym/allP => i _; apply/implyP; lia.
rewrite bits_S /= IH; apply/andP/allP => [[h1 /allP h2] i iS|h].
  apply/implyP => /andP[pi ip]; case: (ltngtP p.+1 i) => e; last by rewrite -e in iS *; move: h1; rewrite iS.
    by have := h2 i iS; rewrite e /= addSnnS ip.
  lia.
split; first by apply/implyP => pS; have /implyP := h _ pS; apply; lia.
by apply/allP => i iS; apply/implyP => hi; have /implyP := h _ iS; apply; lia.
Qed.

Lemma descent_incl n S : {in S, forall i, (1 <= i < n)%N} ->
  Pr (descent_sample R n) (fun X => all (mem X) S) = runs desc_run 0 (bits_of S 1 n.-1).
Proof.
move=> hS; rewrite /Pr /descent_sample E_bind uniform_E.
transitivity (n`!%:R^-1 * \sum_(r <- permutations (iota 0 n)) (con r 0 (nseq 0 true ++ bits_of S 1 n.-1))%:R : R).
  congr (_ * _); rewrite [in LHS]big_seq [in RHS]big_seq; apply: eq_bigr => s; rewrite mem_permutations => ps.
  rewrite /= con_bits; congr (_%:R); congr nat_of_bool; apply: eq_in_all => i iS.
  have /andP[i1 iN] := hS _ iS; rewrite /= mem_succ mem_where nth_drops (perm_size ps) size_iota prednK //.
  have -> : (0 < i <= 0 + n.-1)%N by lia.
  by rewrite i1 iN.
case: n hS => [|n] hS.
  by rewrite /= invr1 mul1r big_cons big_nil /desc_run invr1 addr0.
by rewrite descents_sum ?mulKf ?fact_neq0 // size_map size_iota.
Qed.


(** *** carries *)
Definition carr_run (b l : nat) : R := 'C(b, l.+1)%:R / b%:R ^+ l.+1.

Lemma digitsS_E b n f : (0 < b)%N ->
  E (digits R b n.+1) f = b%:R^-1 * \sum_(a <- iota 0 b) E (digits R b n) (fun A => f (a :: A)).
Proof.
move=> b0; rewrite -[digits R b n.+1]/(unif _ _) unif_E ?size_iota //; congr (_ * _).
by apply: eq_bigr => a _; rewrite E_bind.
Qed.
Lemma digits_cat b m n f : (0 < b)%N ->
  E (digits R b (m + n)) f = E (digits R b m) (fun u => E (digits R b n) (fun v => f (u ++ v))).
Proof.
move=> b0; elim: m f => [|m IH] f //; rewrite addSn !digitsS_E //; congr (_ * _).
by apply: eq_bigr => a _; rewrite IH.
Qed.
Lemma shift_iota b c (g : nat -> R) : (0 < b)%N -> \sum_(a <- iota 0 b) g ((c + a) %% b)%N = \sum_(a <- iota 0 b) g a.
Proof.
move=> b0; rewrite -(big_map (fun a => ((c + a) %% b)%N) predT g); apply: perm_big.
have inj : {in iota 0 b &, injective (fun a => ((c + a) %% b)%N)}.
  move=> a a'; rewrite !mem_iota !add0n /= => h h' /eqP; rewrite eqn_modDl !modn_small // => /eqP //.
apply: uniq_perm; rewrite ?iota_uniq ?map_inj_in_uniq ?iota_uniq //.
move=> y; have := @uniq_min_size _ [seq ((c + a) %% b)%N | a <- iota 0 b] (iota 0 b).
rewrite map_inj_in_uniq ?iota_uniq // size_map size_iota => /(_ isT) [] // z /mapP[a _ ->].
by rewrite mem_iota add0n /= ltn_pmod.
Qed.
(** the running sums modulo b of uniform digits are themselves i.i.d. uniform digits *)
Lemma cumsum_uniform b n c f : (0 < b)%N ->
  E (digits R b n) (fun A => f [seq (x %% b)%N | x <- scanl addn c A]) = E (digits R b n) f.
Proof.
move=> b0; elim: n c f => [|n IH] c f //; rewrite !digitsS_E //; congr (_ * _).
transitivity (\sum_(a <- iota 0 b) E (digits R b n) (fun A => f (((c + a) %% b)%N :: A))).
  by apply: eq_bigr => a _; rewrite -[RHS](IH (c + a)%N).
exact: (shift_iota c (fun y => E (digits R b n) (fun A => f (y :: A)))).
Qed.
Lemma decreasing_below b m x : (0 < b)%N -> (x <= b)%N ->
  E (digits R b m) (fun u => (path gtn x u)%:R) = 'C(x, m)%:R / b%:R ^+ m.
Proof.
move=> b0; have bn : b%:R != 0 :> R by rewrite pnatr_eq0 -lt0n.
elim: m x => [|m IH] x xb; first by rewrite bin0 expr0 divr1.
rewrite digitsS_E //.
transitivity (b%:R^-1 * \sum_(a <- iota 0 b) ((a < x)%N%:R * ('C(a, m)%:R / b%:R ^+ m)) : R).
  congr (_ * _); rewrite [in LHS]big_seq [in RHS]big_seq; apply: eq_bigr => a; rewrite mem_iota add0n => /= ab.
  rewrite -IH ?(ltnW ab) // -E_scale; apply: eq_E => A /=; by rewrite -natrM mulnb.
rewrite -(subnKC xb) iotaD big_cat /= [X in _ + X]big_seq [X in _ + X]big1 ?addr0; last first.
  by move=> a; rewrite mem_iota add0n => /andP[xa _]; rewrite ltnNge xa mul0r.
rewrite subnKC //.
have -> : \sum_(a <- iota 0 x) (a < x)%:R * ('C(a, m)%:R / b%:R ^+ m) = 'C(x, m.+1)%:R / b%:R ^+ m :> R.
  rewrite big_seq (eq_bigr (fun a => 'C(a, m)%:R / b%:R ^+ m)) => [|a]; last first.
    by rewrite mem_iota add0n => /= ->; rewrite mul1r.
  rewrite -big_seq -mulr_suml -natr_sum; congr (_%:R / _).
  elim: x {xb} => [|x IHx]; first by rewrite big_nil.
  by rewrite -addn1 iotaD big_cat /= big_cons big_nil addn0 IHx addn1 binS addnC.
by rewrite exprS invfM mulrCA mulrA.
Qed.
Lemma digits_mass b n z : (0 < b)%N -> E (digits R b n) (fun=> z) = z.
Proof.
move=> b0; elim: n => [|n IH] //; rewrite digitsS_E // (eq_bigr (fun=> z)) // sumc size_iota.
by rewrite mulKf // pnatr_eq0 -lt0n.
Qed.
Lemma run_digits b c : (0 < b)%N -> E (digits R b c.+1) (fun u => (con u 0 (nseq c true))%:R) = carr_run b c.
Proof.
move=> b0; rewrite /carr_run -(decreasing_below c.+1 b0 (leqnn b)); apply: eq_E_possible => u pu.
have [su au] := digits_possible pu.
rewrite con_sorted -su (_ : [seq _ | i <- _] = u); last by rewrite map_nth_iota0 // take_size.
case: u su au {pu} => //= a u _ /andP[ab _].
by rewrite -/(nat_of_bool (path gtn a u)) ab.
Qed.
Lemma con_catr u v p bs : con (u ++ v) (size u + p) bs = con v p bs.
Proof.
elim: bs p => //= b bs IH p; rewrite -addnS IH; congr ((_ ==> _) && _).
by rewrite !nth_cat !ltnNge !leq_addr /= !addKn.
Qed.
Lemma con_catl u v p bs : (p + size bs < size u)%N -> con (u ++ v) p bs = con u p bs.
Proof.
elim: bs p => //= b bs IH p h; rewrite IH; last by lia.
by congr ((_ ==> _) && _); rewrite !nth_cat !ifT //; lia.
Qed.
Lemma carries_sum b c n bs : (0 < b)%N -> (size bs <= n)%N ->
  E (digits R b (c.+1 + n)) (fun u => (con u 0 (nseq c true ++ bs))%:R) = runs (carr_run b) c bs.
Proof.
move=> b0; elim: bs c n => [|[] bs IH] c n h.
- rewrite [runs _ _ _]/= -run_digits // digits_cat //; apply: eq_E_possible => u pu; have [su _] := digits_possible pu.
  rewrite (eq_E _ (g := fun=> (con u 0 (nseq c true))%:R)) ?digits_mass // => v.
  by rewrite cats0 con_catl // size_nseq su.
- case: n h => // n h; rewrite /= -(IH c.+1 n) // addSnnS; apply: eq_E => u.
  by rewrite -cat_rcons -[rcons _ _]cats1 -(nseqD c 1) addn1.
case: n h => // n h.
rewrite digits_cat // [runs _ _ _]/= -run_digits // mulrC -E_scale; apply: eq_E_possible => u pu; have [su _] := digits_possible pu.
rewrite mulrC -(IH 0%N n) // -E_scale; apply: eq_E => v /=.
rewrite con_cat /= size_nseq add0n con_catl ?size_nseq ?su //.
by have := con_catr u v 0 bs; rewrite su addn0 => ->; rewrite -natrM mulnb.
Qed.

Lemma carries_incl b n S : (0 < b)%N -> {in S, forall i, (1 <= i < n)%N} ->
  Pr (carries_sample R b n) (fun X => all (mem X) S) = runs (carr_run b) 0 (bits_of S 1 n.-1).
Proof.
move=> b0 hS; rewrite /Pr /carries_sample E_bind.
transitivity (E (digits R b n) (fun u => (con u 0 (bits_of S 1 n.-1))%:R)).
  rewrite -[RHS](cumsum_uniform n 0 _ b0); apply: eq_E_possible => A pA; have [sA _] := digits_possible pA.
  rewrite con_bits -[LHS]/((all (mem (carries_of b A)) S)%:R); congr (_%:R); congr nat_of_bool; apply: eq_in_all => i iS.
  have /andP[i1 iN] := hS _ iS.
  rewrite /= mem_succ mem_where nth_drops size_map size_scanl sA prednK //.
  have -> : (0 < i <= 0 + n.-1)%N by lia.
  by rewrite i1 iN.
case: n hS => [|n] hS; last by apply: (@carries_sum b 0 n) => //; rewrite size_map size_iota.
by rewrite /= /carr_run bin1 expr1 divff // pnatr_eq0 -lt0n.
Qed.

(** *** virtual descents *)
Section Virtual.
Variable x0 : R.
Hypothesis x01 : 0 <= x0 <= 1.
Let q := 2%:R * x0 * (1 - x0).
Definition virt_run (l : nat) : R := q ^+ l * ((1 - q) / l`!%:R + q / (l.+1)`!%:R).

Lemma draw_YE n f : E (draw_Y x0 n.+1) f =
  q * E (draw_Y x0 n) (fun s => f (false :: s)) + (1 - q) * E (draw_Y x0 n) (fun s => f (true :: s)).
Proof.
rewrite draw_YS E_bind binomial2_E // !E_bind /=.
have -> : 1 - q = x0 ^+ 2 + (1 - x0) ^+ 2 by rewrite /q; fixeq; ring.
rewrite /q; set a := E _ _; set c := E _ _; by fixeq; ring.
Qed.
Lemma draw_Y_size n Y : possible (draw_Y x0 n) (inl Y) -> size Y = n.
Proof.
elim: n Y => [|n IH] Y; first by case=> ->.
rewrite draw_YS => h; have [c _ h1] := Spectral.bind_possible h; have [s ps [->]] := Spectral.bind_possible h1.
by rewrite /= (IH _ ps).
Qed.

Fixpoint vok (bs Y : seq bool) : bool :=
  match bs, Y with b :: t, y :: Y' => (b ==> ~~ y) && vok t Y' | _, _ => true end.
Definition vbits (bs Y : seq bool) : seq bool := [seq p.1 && ~~ p.2 | p <- zip bs (behead Y)].
Definition vval c bs Y : R := (vok bs Y)%:R * runs desc_run c (vbits bs Y).
Definition vG c y bs : R := E (draw_Y x0 (size bs)) (fun Ys => vval c bs (y :: Ys)).

Lemma virtual_sum c bs : runs virt_run c bs = q ^+ c * (q * vG c false bs + (1 - q) * (desc_run c.-1 * vG 0 true bs)).
Proof.
have d0 : desc_run 0 = 1 by rewrite /desc_run invr1.
have cE k : virt_run k = q ^+ k * (q * desc_run k + (1 - q) * desc_run k.-1).
  by rewrite /virt_run /desc_run addrC; case: k => [|k] //=; rewrite fact0.
elim: bs c => [|[] bs IH] c /=.
- have e k y : vG k y [::] = desc_run k by rewrite -[vG k y [::]]/(vval k [::] [:: y]) /vval /= mul1r.
  by rewrite !e d0 mulr1 cE.
- have -> : vG 0 true (true :: bs) = 0.
    rewrite /vG (eq_E _ (g := fun=> 0 * 0)) => [|Ys]; last by rewrite /vval /= !mul0r.
    by rewrite E_scale mul0r.
  rewrite {}IH !mulr0 addr0 exprSr -mulrA; congr (_ * (_ * _)).
  rewrite /vG draw_YE; congr (_ * _ + _ * _).
  by rewrite -E_scale; apply: eq_E => Ys; rewrite /vval /= mulrCA.
have e k y : vG k y (false :: bs) = desc_run k * runs virt_run 0 bs.
  rewrite IH expr0 mul1r d0 mul1r /vG draw_YE mulrDr ![desc_run k * (_ * _)]mulrCA -!E_scale.
  by congr (_ + _); apply: eq_E => Ys; rewrite /vval /=; congr (_ * _); exact: mulrCA.
rewrite !e d0 mul1r mulrA [X in q ^+ c * (_ + X)]mulrA -mulrDl mulrA; congr (_ * _).
exact: cE.
Qed.

Lemma virtual_incl n S : {in S, forall i, (i < n)%N} ->
  Pr (virtual_descent_sample x0 n) (fun X => all (mem X) S) = runs virt_run 0 (bits_of S 0 n).
Proof.
move=> hS; rewrite /Pr /virtual_descent_sample E_bind uniform_E.
transitivity ((n.+1)`!%:R^-1 * \sum_(r <- permutations (iota 0 n.+1)) E (draw_Y x0 n.+1) (fun Y =>
   (vok (bits_of S 0 n) Y)%:R * (con r 0 (nseq 0 true ++ vbits (bits_of S 0 n) Y))%:R)).
  congr (_ * _); rewrite [in LHS]big_seq [in RHS]big_seq; apply: eq_bigr => s; rewrite mem_permutations => ps.
  rewrite E_bind; apply: eq_E_possible => Y pY; have sY := draw_Y_size pY.
  rewrite -[LHS]/((all (mem (virtual_of n (drops s) Y)) S)%:R) -natrM mulnb; congr (_%:R); congr nat_of_bool.
  rewrite [RHS]/=.
  transitivity (all (fun i => (i < n)%N ==> [&& ~~ nth false Y i & (nth false Y i.+1 || (nth 0%N s i.+1 < nth 0%N s i)%N)]) S).
    apply: eq_in_all => i iS; have iN := hS _ iS.
    rewrite /= /virtual_of mem_filter mem_iota add0n /= nth_drops (perm_size ps) size_iota ltnS iN andbT /=.
    by case: (nth false Y i); case: (nth false Y i.+1).
  have gen m p Z (T : seq nat) : size Z = m.+1 ->
    all (fun i => ((p <= i)%N && (i < p + m)%N) ==> [&& ~~ nth false Z (i - p)%N & (nth false Z (i - p).+1 || (nth 0%N s i.+1 < nth 0%N s i)%N)]) T
    = vok (bits_of T p m) Z && con s p (vbits (bits_of T p m) Z).
    elim: m p Z => [|m IH] p [|y Z] //.
      by case: Z => // _; rewrite /bits_of /vbits /=; apply/allP => i _; apply/implyP; lia.
    case: Z => [|y' Z] // [sZ].
    rewrite bits_S /vbits /= -/(vbits (bits_of T p.+1 m) (y' :: Z)).
    rewrite andbACA -IH; last by rewrite /= sZ.
    apply/allP/andP => [h|[h1 /allP h2] i iT].
      split.
        apply/andP; split; apply/implyP.
          by move=> pT; have /implyP := h _ pT; rewrite subnn /=; case/(_ _)/andP => //; lia.
        case/andP => pT y'F; have /implyP := h _ pT; rewrite subnn /= (negbTE y'F) /=; case/(_ _)/andP => //; lia.
      apply/allP => i iT; apply/implyP => hi; have /implyP := h _ iT.
      have -> : (i - p)%N = (i - p.+1).+1 by lia.
      by apply; lia.
    apply/implyP => hi; case: (ltngtP p i) => e; [|lia|].
      have /implyP := h2 _ iT; have -> : (i - p)%N = (i - p.+1).+1 by lia.
      by apply; lia.
    rewrite -e in iT *; rewrite subnn /=; move: h1; rewrite iT /= => /andP[-> /=].
    by case: {h2} y'.
  rewrite -gen //; apply: eq_all => i; by rewrite subn0 leq0n add0n.
rewrite -E_sum -E_scale virtual_sum expr0 mul1r (_ : desc_run _ = 1) ?mul1r; last by rewrite /desc_run invr1.
rewrite /vG size_map size_iota -draw_YE; apply: eq_E_possible => Y pY; have sY := draw_Y_size pY.
rewrite -big_distrr /= -[\sum_(i <- _) _]/(\sum_(i <- permutations (iota 0 n.+1)) (con i 0 (nseq 0 true ++ vbits (bits_of S 0 n) Y))%:R).
rewrite descents_sum; last by rewrite !size_map size_zip size_map size_iota size_behead sY minnn.
by rewrite mulrCA mulKf ?fact_neq0.
Qed.
End Virtual.

(** ** The theorems.  [all (mem X) A] reads: every element of A is in the sample X. *)
Lemma desc_run0 : desc_run 0 = 1. Proof. by rewrite /desc_run invr1. Qed.
Lemma carr_run0 b : (0 < b)%N -> carr_run b 0 = 1.
Proof. by move=> b0; rewrite /carr_run bin1 expr1 divff // pnatr_eq0 -lt0n. Qed.
Lemma virt_run0 x0 : virt_run x0 0 = 1.
Proof. by rewrite /virt_run expr0 mul1r !invr1 !mulr1 subrK. Qed.
Lemma in_cat2 (P : nat -> bool) A B : {in A, forall i, P i} -> {in B, forall i, P i} -> {in A ++ B, forall i, P i}.
Proof. by move=> hA hB i; rewrite mem_cat => /orP[/hA|/hB]. Qed.

(** C76: sets of positions at distance greater than 1 are covered independently *)
Theorem C76_descent_one_dependent n (A B : seq nat) :
  {in A, forall i, (1 <= i < n)%N} -> {in B, forall i, (1 <= i < n)%N} ->
  (forall a b, a \in A -> b \in B -> (a.+1 < b)%N || (b.+1 < a)%N) ->
  Pr (descent_sample R n) (fun X => all (mem X) (A ++ B)) =
  Pr (descent_sample R n) (fun X => all (mem X) A) * Pr (descent_sample R n) (fun X => all (mem X) B).
Proof.
move=> hA hB far; rewrite !descent_incl //; last exact: in_cat2.
exact (runs_one_dep desc_run0 1 n.-1 far).
Qed.
Theorem C76_carries_one_dependent b n (A B : seq nat) : (0 < b)%N ->
  {in A, forall i, (1 <= i < n)%N} -> {in B, forall i, (1 <= i < n)%N} ->
  (forall a b, a \in A -> b \in B -> (a.+1 < b)%N || (b.+1 < a)%N) ->
  Pr (carries_sample R b n) (fun X => all (mem X) (A ++ B)) =
  Pr (carries_sample R b n) (fun X => all (mem X) A) * Pr (carries_sample R b n) (fun X => all (mem X) B).
Proof.
move=> b0 hA hB far; rewrite !carries_incl //; last exact: in_cat2.
exact (runs_one_dep (carr_run0 b0) 1 n.-1 far).
Qed.
Theorem C76_virtual_one_dependent (x0 : R) n (A B : seq nat) : 0 <= x0 <= 1 ->
  {in A, forall i, (i < n)%N} -> {in B, forall i, (i < n)%N} ->
  (forall a b, a \in A -> b \in B -> (a.+1 < b)%N || (b.+1 < a)%N) ->
  Pr (virtual_descent_sample x0 n) (fun X => all (mem X) (A ++ B)) =
  Pr (virtual_descent_sample x0 n) (fun X => all (mem X) A) * Pr (virtual_descent_sample x0 n) (fun X => all (mem X) B).
Proof.
move=> h0 hA hB far; rewrite !virtual_incl //; last exact: in_cat2.
exact (runs_one_dep (virt_run0 x0) 0 n far).
Qed.

(** C76: the law is invariant by translation (and does not depend on the size that is asked for) *)
Theorem C76_descent_stationary n n' d (A : seq nat) :
  {in A, forall i, (1 <= i < n)%N} -> {in A, forall i, (1 <= d + i < n')%N} ->
  Pr (descent_sample R n') (fun X => all (mem X) [seq (d + i)%N | i <- A]) =
  Pr (descent_sample R n) (fun X => all (mem X) A).
Proof.
move=> h h'; rewrite !descent_incl // => [|j /mapP[i /h' hi ->//]].
apply: (runs_shift desc_run0) => i iA; [have := h _ iA|have := h' _ iA]; lia.
Qed.
Theorem C76_carries_stationary b n n' d (A : seq nat) : (0 < b)%N ->
  {in A, forall i, (1 <= i < n)%N} -> {in A, forall i, (1 <= d + i < n')%N} ->
  Pr (carries_sample R b n') (fun X => all (mem X) [seq (d + i)%N | i <- A]) =
  Pr (carries_sample R b n) (fun X => all (mem X) A).
Proof.
move=> b0 h h'; rewrite !carries_incl // => [|j /mapP[i /h' hi ->//]].
apply: (runs_shift (carr_run0 b0)) => i iA; [have := h _ iA|have := h' _ iA]; lia.
Qed.
Theorem C76_virtual_stationary (x0 : R) n n' d (A : seq nat) : 0 <= x0 <= 1 ->
  {in A, forall i, (i < n)%N} -> {in A, forall i, (d + i < n')%N} ->
  Pr (virtual_descent_sample x0 n') (fun X => all (mem X) [seq (d + i)%N | i <- A]) =
  Pr (virtual_descent_sample x0 n) (fun X => all (mem X) A).
Proof.
move=> h0 h h'; rewrite !virtual_incl // => [|j /mapP[i /h' hi ->//]].
apply: (runs_shift (virt_run0 x0)) => i iA; [have := h _ iA|have := h' _ iA]; lia.
Qed.

(** C76: the probability of a run of l consecutive points *)
Lemma runs_ones (r : nat -> R) p l : runs r 0 (bits_of (iota p l) p l) = r l.
Proof.
have -> : bits_of (iota p l) p l = nseq l true.
  apply: (@eq_from_nth _ false); first by rewrite size_map size_iota size_nseq.
  move=> i; rewrite size_map size_iota => il; rewrite (nth_map 0%N) ?size_iota // nth_nseq il nth_iota // mem_iota.
  by rewrite leq_addr ltn_add2l il.
suff H c : runs r c (nseq l true) = r (c + l)%N by rewrite H.
by elim: l c => [|l IH] c /=; rewrite ?addn0 // IH addSnnS.
Qed.
Lemma runs_sub (r : nat -> R) p l a n : r 0%N = 1 -> (a <= p)%N -> (p + l <= a + n)%N ->
  runs r 0 (bits_of (iota p l) a n) = r l.
Proof.
move=> r0 h1 h2; rewrite -[RHS](runs_ones r p l) -[in LHS](map_id (iota p l)).
by apply: (@runs_shift _ r r0 (iota p l) 0) => i; rewrite mem_iota; lia.
Qed.
Theorem C76_descent_run n p l : (0 < p)%N -> (p + l <= n)%N -> (0 < l)%N ->
  Pr (descent_sample R n) (fun X => all (mem X) (iota p l)) = 1 / (l.+1)`!%:R.
Proof.
move=> p0 pl l0; rewrite descent_incl => [|i]; last by rewrite mem_iota; lia.
by rewrite (runs_sub desc_run0) ?mul1r //; lia.
Qed.
Theorem C76_carries_run b n p l : (0 < b)%N -> (0 < p)%N -> (p + l <= n)%N -> (0 < l)%N ->
  Pr (carries_sample R b n) (fun X => all (mem X) (iota p l)) = 'C(b, l.+1)%:R / b%:R ^+ l.+1.
Proof.
move=> b0 p0 pl l0; rewrite carries_incl // => [|i]; last by rewrite mem_iota; lia.
by rewrite (runs_sub (carr_run0 b0)) //; lia.
Qed.
Theorem C76_virtual_run (x0 : R) n p l : 0 <= x0 <= 1 -> (p + l <= n)%N ->
  let q := 2%:R * x0 * (1 - x0) in
  Pr (virtual_descent_sample x0 n) (fun X => all (mem X) (iota p l)) = q ^+ l * ((1 - q) / l`!%:R + q / (l.+1)`!%:R).
Proof.
move=> h0 pl q; rewrite virtual_incl // => [|i]; last by rewrite mem_iota; lia.
by rewrite (runs_sub (virt_run0 x0)) //; lia.
Qed.

(** C77: the three processes are determinantal.  The kernel is K(x,y) = - k_(y+1-x) for x <= y+1 and 0 otherwise, where
    sum_j k_j z^j is the inverse of the formal power series sum_l P(l given consecutive points) z^l. *)
Theorem C77_descent_dpp n (S : seq nat) (k : nat -> R) :
  (forall m, \sum_(j < m.+1) k j / ((m - j).+1)`!%:R = (m == 0%N)%:R) ->
  sorted ltn S -> {in S, forall i, (1 <= i < n)%N} ->
  Pr (descent_sample R n) (fun X => all (mem X) S) =
  \det (\matrix_(i < size S, j < size S)
          let x := nth 0%N S i in let y := nth 0%N S j in if (x <= y.+1)%N then - k (y.+1 - x)%N else 0).
Proof.
move=> hk so hS; rewrite descent_incl // -(hkernel_det desc_run0 (k := k)) // => i /hS; lia.
Qed.
Theorem C77_carries_dpp b n (S : seq nat) (k : nat -> R) : (0 < b)%N ->
  (forall m, \sum_(j < m.+1) k j * ('C(b, (m - j).+1)%:R / b%:R ^+ (m - j).+1) = (m == 0%N)%:R) ->
  sorted ltn S -> {in S, forall i, (1 <= i < n)%N} ->
  Pr (carries_sample R b n) (fun X => all (mem X) S) =
  \det (\matrix_(i < size S, j < size S)
          let x := nth 0%N S i in let y := nth 0%N S j in if (x <= y.+1)%N then - k (y.+1 - x)%N else 0).
Proof.
move=> b0 hk so hS; rewrite carries_incl // -(hkernel_det (carr_run0 b0) (k := k)) // => i /hS; lia.
Qed.
Theorem C77_virtual_dpp (x0 : R) n (S : seq nat) (k : nat -> R) : 0 <= x0 <= 1 ->
  let q := 2%:R * x0 * (1 - x0) in
  (forall m, \sum_(j < m.+1) k j * (q ^+ (m - j) * ((1 - q) / (m - j)`!%:R + q / ((m - j).+1)`!%:R)) = (m == 0%N)%:R) ->
  sorted ltn S -> {in S, forall i, (i < n)%N} ->
  Pr (virtual_descent_sample x0 n) (fun X => all (mem X) S) =
  \det (\matrix_(i < size S, j < size S)
          let x := nth 0%N S i in let y := nth 0%N S j in if (x <= y.+1)%N then - k (y.+1 - x)%N else 0).
Proof.
by move=> h0 q hk so hS; rewrite virtual_incl // -(hkernel_det (virt_run0 x0) (k := k)) // => i /hS; rewrite add0n.
Qed.

(** such coefficients exist in the three cases, and they are unique *)
Theorem C77_kernels_exist b (x0 : R) : (0 < b)%N -> let q := 2%:R * x0 * (1 - x0) in
  [/\ exists k : nat -> R, forall m, \sum_(j < m.+1) k j / ((m - j).+1)`!%:R = (m == 0%N)%:R,
      exists k : nat -> R, forall m, \sum_(j < m.+1) k j * ('C(b, (m - j).+1)%:R / b%:R ^+ (m - j).+1) = (m == 0%N)%:R
    & exists k : nat -> R, forall m,
        \sum_(j < m.+1) k j * (q ^+ (m - j) * ((1 - q) / (m - j)`!%:R + q / ((m - j).+1)`!%:R)) = (m == 0%N)%:R].
Proof.
move=> b0 q; split.
- by exists (inv_series desc_run); apply: inv_seriesP; apply: desc_run0.
- by exists (inv_series (carr_run b)); apply: inv_seriesP; apply: carr_run0.
- by exists (inv_series (virt_run x0)); apply: inv_seriesP; apply: virt_run0.
Qed.
Theorem C77_kernel_unique (r k k' : nat -> R) : r 0%N = 1 ->
  (forall m, \sum_(j < m.+1) k j * r (m - j)%N = (m == 0%N)%:R) ->
  (forall m, \sum_(j < m.+1) k' j * r (m - j)%N = (m == 0%N)%:R) -> forall m, k m = k' m.
Proof.
move=> r0 h h' m; elim/ltn_ind: m => m IH.
have := h m; rewrite -(h' m) !big_ord_recr /= subnn r0 !mulr1 (eq_bigr (fun j : 'I_m => k' j * r (m - j)%N)) => [|j _].
  by move/addrI.
by rewrite IH.
Qed.
End Descents.

(** concrete cases *)
Example C77_instance : let R := [rcfType of realalg] in
  Pr (descent_sample R 4) (fun X => all (mem X) [:: 1; 3]%N) = 1 / 4%:R /\
  Pr (descent_sample R 4) (fun X => all (mem X) [:: 1; 2]%N) = 1 / 6%:R.
Proof.
split.
  rewrite (C76_descent_one_dependent _ (A := [:: 1%N]) (B := [:: 3%N])) => [|i|i|a b]; rewrite ?inE.
  - rewrite (C76_descent_run _ (p := 1) (l := 1)) // (C76_descent_run _ (p := 3) (l := 1)) //.
    by rewrite !mul1r -invfM -natrM.
  - by move/eqP => ->.
  - by move/eqP => ->.
  - by move=> /eqP -> /eqP ->.
exact: (C76_descent_run _ (p := 1) (l := 2)).
Qed.
Print Assumptions C77_virtual_dpp.
