(** * P_Descent: C33 (descents), C34 (carries), C55 (advertised intensities of the 1-dependent processes). *)
From mathcomp Require Import all_ssreflect all_algebra.
From mathcomp.algebra_tactics Require Import ring.
From Verif Require Import Prob Spectral McmcModel Mcmc P_McmcChain ExoticModel P_Perm.
Set Implicit Arguments. Unset Strict Implicit. Unset Printing Implicit Defensive.
Import Order.Theory GRing.Theory Num.Theory.
Local Open Scope ring_scope.

Local Arguments E {R A} !m f / : simpl nomatch.
Section Descent.
Variable R : rcfType.

Lemma sumc (T : Type) (s : seq T) (z : R) : \sum_(x <- s) z = (size s)%:R * z.
Proof. by elim: s => [|x s IH]; rewrite ?big_nil ?mul0r // big_cons IH /= mulrSr mulrDl mul1r addrC. Qed.

Lemma nth_drops s i : nth false (drops s) i = (i.+1 < size s)%N && (nth 0%N s i.+1 < nth 0%N s i)%N.
Proof.
rewrite /drops.
have sz : size (zip (take (size s).-1 s) (behead s)) = (size s).-1.
  by rewrite size_zip size_behead size_takel ?minnn // leq_pred.
case: (ltnP i (size s).-1) => h; last first.
  have -> : (i.+1 < size s)%N = false by apply/negbTE; rewrite -leqNgt; case: (size s) h.
  by rewrite nth_default ?size_map ?sz.
have h' : (i.+1 < size s)%N by case: (size s) h.
rewrite (nth_map (0%N, 0%N)) ?sz // nth_zip_cond sz h /= nth_take // nth_behead h'.
by [].
Qed.
Lemma size_drops s : size (drops s) = (size s).-1.
Proof. by rewrite /drops size_map size_zip size_behead size_takel ?minnn // leq_pred. Qed.

Lemma mem_where b i : (i \in np_where b) = nth false b i.
Proof.
rewrite /np_where mem_filter mem_iota add0n /=; case: (ltnP i (size b)) => h; first by rewrite andbT.
by rewrite andbF nth_default.
Qed.
Lemma where_sorted b : sorted ltn [seq i.+1 | i <- np_where b].
Proof.
rewrite sorted_map /np_where; apply: (@sub_sorted _ ltn) => //=.
apply: sorted_filter; [exact: ltn_trans|exact: iota_ltn_sorted].
Qed.
Lemma mem_succ (s : seq nat) i : (i \in [seq j.+1 | j <- s]) = (0 < i)%N && (i.-1 \in s).
Proof.
apply/mapP/andP => [[j js ->]//|[i0 h]]; by exists i.-1 => //; rewrite prednK.
Qed.

(** C33: the result lists in increasing order the positions i (counted from 1) with sigma(i) > sigma(i+1) *)
Theorem C33_descents n X : possible (descent_sample R n) (inl X) ->
  exists2 sigma : seq nat, perm_eq sigma (iota 0 n) &
    sorted ltn X /\ forall i, (i \in X) = [&& (1 <= i)%N, (i < n)%N & (nth 0%N sigma i < nth 0%N sigma i.-1)%N].
Proof.
move=> h; have [sigma ps [->]] := Spectral.bind_possible h; have pm := C28_permutation ps.
exists sigma => //; split; first exact: where_sorted.
move=> i; rewrite mem_succ mem_where nth_drops (perm_size pm) size_iota; case: i => // i /=.
Qed.

Lemma uniform_E N f : E (uniform_permutation R N) f = N`!%:R^-1 * \sum_(r <- permutations (iota 0 N)) f r.
Proof.
transitivity (E (uniform_permutation R N) (fun s => \sum_(r <- permutations (iota 0 N)) (s == r)%:R * f r)).
  apply: eq_E_possible => s ps; have pm := C28_permutation ps.
  rewrite (bigD1_seq s) ?permutations_uniq ?mem_permutations //= eqxx mul1r big1 ?addr0 // => r nr.
  by rewrite eq_sym (negbTE nr) mul0r.
rewrite E_sum big_distrr [in LHS]big_seq [in RHS]big_seq; apply: eq_bigr => r.
rewrite mem_permutations => pm.
rewrite -(C28_uniform R pm) /= [RHS]mulrC /Pr -E_scale; apply: eq_E => s; exact: mulrC.
Qed.

(** C33: the law of the descent process: uniform permutations *)
Theorem C33_law n (Q : seq nat -> bool) : Pr (descent_sample R n) Q =
  (count (fun sigma => Q [seq i <- iota 1 n.-1 | (nth 0%N sigma i < nth 0%N sigma i.-1)%N]) (permutations (iota 0 n)))%:R / n`!%:R.
Proof.
rewrite /Pr /descent_sample E_bind uniform_E mulrC -sum1_count natr_sum; congr (_ * _).
rewrite [RHS]big_mkcond /= big_seq [RHS]big_seq; apply: eq_bigr => r; rewrite mem_permutations => pm.
have -> : [seq i.+1 | i <- np_where (drops r)] = [seq i <- iota 1 n.-1 | (nth 0%N r i < nth 0%N r i.-1)%N].
  rewrite /np_where size_drops (perm_size pm) size_iota (iotaDl 1 0) filter_map; congr map.
  apply: eq_in_filter => i; rewrite mem_iota add0n => /= il.
  by rewrite nth_drops (perm_size pm) size_iota /=; case: n {pm} il => // n il; rewrite ltnS il.
by set X := filter _ _; rewrite -[LHS]/((Q X)%:R); case: (Q X).
Qed.

(** ** C55 *)
Lemma fact_neq0 n : n`!%:R != 0 :> R.
Proof. by rewrite pnatr_eq0 -lt0n fact_gt0. Qed.

Lemma half_sum N i : (i.+1 < N)%N ->
  \sum_(r <- permutations (iota 0 N)) (nth false (drops r) i)%:R = 2%:R^-1 * N`!%:R :> R.
Proof.
move=> iN; set ps := permutations _.
have sps r : r \in ps -> size r = N by rewrite mem_permutations => /perm_size ->; rewrite size_iota.
have pswap : perm_eq [seq swap_at r i i.+1 | r <- ps] ps.
  apply: uniq_perm; last 2 first.
  - exact: permutations_uniq.
  - move=> r; apply/mapP/idP => [[r' h ->]|h].
      have sr := sps _ h; move: h; rewrite !mem_permutations => h; apply: perm_trans h; apply: perm_swap; rewrite sr //; exact: ltnW.
    have sr := sps _ h; exists (swap_at r i i.+1).
      move: h; rewrite !mem_permutations => h; apply: perm_trans h; apply: perm_swap; rewrite sr //; exact: ltnW.
    have s1 : (i < size r)%N by rewrite sr ltnW.
    have s2 : (i.+1 < size r)%N by rewrite sr.
    apply: (@eq_from_nth _ 0%N) => [|k _]; first by rewrite !size_swap ?size_swap.
    rewrite nth_swap ?size_swap // nth_swap //.
    case: (altP (k =P i.+1)) => [->|ki1]; first by rewrite ltn_eqF // eqxx.
    by case: (altP (k =P i)) => [->|ki]; rewrite ?(negbTE ki1) ?(negbTE ki) ?eqxx /= ?eqxx.
  rewrite map_inj_in_uniq ?permutations_uniq // => r r' h h' e.
  have s1 : (i < size r)%N by rewrite (sps _ h) ltnW.
  have s2 : (i.+1 < size r)%N by rewrite (sps _ h).
  have s1' : (i < size r')%N by rewrite (sps _ h') ltnW.
  have s2' : (i.+1 < size r')%N by rewrite (sps _ h').
  apply: (@eq_from_nth _ 0%N) => [|k _]; first by rewrite (sps _ h) (sps _ h').
  have := congr1 (fun s => nth 0%N s (if k == i.+1 then i else if k == i then i.+1 else k)) e.
  rewrite !nth_swap //; case: (altP (k =P i.+1)) => [->|ki1]; first by rewrite ltn_eqF // eqxx.
  by case: (altP (k =P i)) => [->|ki]; rewrite ?eqxx // (negbTE ki1) (negbTE ki).
set S := \sum_(_ <- _) _.
have tw : S + S = N`!%:R.
  rewrite /S -{2}(perm_big _ pswap) /= big_map -big_split /=.
  rewrite (eq_big_seq (fun _ => 1)).
    by rewrite sumc mulr1 size_permutations ?iota_uniq // size_iota.
  move=> r h; have sr := sps _ h.
  have s1 : (i < size r)%N by rewrite sr ltnW.
  have s2 : (i.+1 < size r)%N by rewrite sr.
  rewrite !nth_drops size_swap // !nth_swap // s2 eqxx ltn_eqF // eqxx /=.
  have ne : nth 0%N r i != nth 0%N r i.+1.
    move: h; rewrite mem_permutations => h; rewrite nth_uniq ?ltn_eqF //.
    by rewrite (perm_uniq h) iota_uniq.
  by case: ltngtP ne => //= _ _; rewrite ?addr0 ?add0r.
by rewrite -tw; fixeq; field.
Qed.

Theorem C55_descent_intensity n i : (1 <= i < n)%N -> Pr (descent_sample R n) (fun X => i \in X) = descent_param R.
Proof.
case: i => // i /= iN; rewrite /Pr /descent_sample E_bind uniform_E.
rewrite (eq_bigr (fun r => (nth false (drops r) i)%:R)); last by move=> r _; rewrite -[LHS]/((i.+1 \in [seq j.+1 | j <- np_where (drops r)])%:R) mem_succ mem_where.
by rewrite half_sum // mulrCA mulVf ?mulr1 // fact_neq0.
Qed.

(** ** carries *)
Definition carry_at (b c : nat) (A : seq nat) (i : nat) : bool :=
  (b <= (c + sumn (take i A)) %% b + nth 0%N A i)%N.

Lemma nth_scanl c A i : (i < size A)%N -> nth 0%N (scanl addn c A) i = (c + sumn (take i.+1 A))%N.
Proof.
elim: A c i => // a A IH c [|i] /= iA; first by rewrite take0 /= addn0.
by rewrite IH // addnA.
Qed.

Lemma mod_lt b x a : (0 < b)%N -> (a < b)%N -> ((x + a) %% b < x %% b)%N = (b <= x %% b + a)%N.
Proof.
move=> b0 ab; have xb := ltn_pmod x b0; rewrite -modnDml; set y := (x %% b)%N in xb *.
case: (leqP b (y + a)) => h; last by rewrite modn_small // ltnNge leq_addr.
rewrite -{1}(subnK h) addnC modnDl modn_small; last by rewrite ltn_subLR // -addnS leq_add // ltnW.
by rewrite ltn_subLR // addnC ltn_add2r.
Qed.

(** C34: the result lists in increasing order the positions i such that adding the digit number i+1 to the running sum of
    the first i digits, in base b, carries *)
Theorem C34_carries b A i : (0 < b)%N -> all (fun a => (a < b)%N) A ->
  sorted ltn (carries_of b A) /\
  (i \in carries_of b A) = [&& (1 <= i)%N, (i < size A)%N & (b <= (sumn (take i A)) %% b + nth 0%N A i)%N].
Proof.
move=> b0 ab; rewrite /carries_of; split; first exact: where_sorted.
rewrite mem_succ mem_where nth_drops size_map size_scanl; case: i => // i /=.
case: (ltnP i.+1 (size A)) => // h; rewrite !(nth_map 0%N) ?size_scanl ?(ltnW h) // !nth_scanl ?(ltnW h) // !add0n.
rewrite (take_nth 0%N h) sumn_rcons mod_lt //; apply: (allP ab); exact: mem_nth.
Qed.

Lemma digits_possible b n A : possible (digits R b n) (inl A) -> size A = n /\ all (fun a => (a < b)%N) A.
Proof.
elim: n A => [|n IH] A /=; first by case=> ->.
move=> h; have [a ai h1] := unif_possible h; have [s ps [->]] := Spectral.bind_possible h1.
have [<- ab] := IH _ ps; split=> //=; by move: ai; rewrite mem_iota add0n /= => ->.
Qed.

Theorem C34_sample b n X : (0 < b)%N -> possible (carries_sample R b n) (inl X) ->
  exists2 A : seq nat, size A = n /\ (forall i, (i < n)%N -> (nth 0%N A i < b)%N) &
   sorted ltn X /\ forall i, (i \in X) = [&& (1 <= i)%N, (i < n)%N & (b <= (sumn (take i A)) %% b + nth 0%N A i)%N].
Proof.
move=> b0 h; have [A pA [->]] := Spectral.bind_possible h; have [sA ab] := digits_possible pA.
exists A; first by split=> // i iA; apply: (allP ab); rewrite mem_nth // sA.
split=> [|i]; first by have [] := C34_carries 0%N b0 ab.
by have [_ ->] := C34_carries i b0 ab; rewrite sA.
Qed.

Theorem C34_never_fails b n : (0 < b)%N -> total (carries_sample R b n).
Proof.
move=> b0; rewrite /total /carries_sample E_bind /=; elim: n => [|n IH] //=.
by apply: unif_total; rewrite ?size_iota // => a _; rewrite /total E_bind /=.
Qed.

(** a base that is not positive is refused as soon as a digit is drawn *)
Theorem C34_bad_base n o : possible (carries_sample R 0 n.+1) o -> o = inr ValueError.
Proof.
have cn A T (w : T -> R) (k : T -> prog R A) o' : possible (Choice [::] w k) o' -> o' = inr ValueError.
  by rewrite /possible /valid_weights big_nil eq_sym oner_eq0 andbF.
exact: cn.
Qed.

Lemma sum_nat_R n : \sum_(j <- iota 0 n) j%:R = (n * n.-1)%N%:R / 2%:R :> R.
Proof.
elim: n => [|n IH]; first by rewrite big_nil mul0r.
rewrite -[in iota _ _]addn1 iotaD big_cat /= big_cons big_nil addr0 add0n IH.
case: n {IH} => [|n] /=; first by rewrite !mul0r add0r.
by rewrite !natrM; fixeq; field.
Qed.

Lemma carry_step b c : (0 < b)%N -> \sum_(a <- iota 0 b) ((b <= c %% b + a)%N)%:R = (c %% b)%:R :> R.
Proof.
move=> b0; have xb := ltn_pmod c b0; set x := (c %% b)%N in xb *.
have -> : iota 0 b = iota 0 (b - x) ++ iota (b - x) x by rewrite -iotaD subnK // ltnW.
rewrite big_cat /= big_seq big1 ?add0r => [|a]; last first.
  by rewrite mem_iota add0n /= ltn_subRL => h; rewrite leqNgt h.
rewrite (eq_big_seq (fun=> 1)) ?sumc ?size_iota ?mulr1 // => a.
by rewrite mem_iota leq_subLR => /andP[-> _].
Qed.

Lemma shift_sum b c : (0 < b)%N -> \sum_(a <- iota 0 b) ((c + a) %% b)%:R = \sum_(a <- iota 0 b) a%:R :> R.
Proof.
move=> b0; rewrite -(big_map (fun a => ((c + a) %% b)%N) predT (fun y => y%:R)); apply: perm_big.
have inj : {in iota 0 b &, injective (fun a => ((c + a) %% b)%N)}.
  move=> a a'; rewrite !mem_iota !add0n /= => h h' /eqP; rewrite eqn_modDl !modn_small // => /eqP //.
apply: uniq_perm; rewrite ?iota_uniq ?map_inj_in_uniq ?iota_uniq //.
move=> y; have := @uniq_min_size _ [seq ((c + a) %% b)%N | a <- iota 0 b] (iota 0 b).
rewrite map_inj_in_uniq ?iota_uniq // size_map size_iota => /(_ isT) [] // z /mapP[a _ ->].
by rewrite mem_iota add0n /= ltn_pmod.
Qed.

Lemma carry_prob b n c i : (0 < b)%N -> (0 < i < n)%N ->
  E (digits R b n) (fun A => (carry_at b c A i)%:R) = carries_param R b.
Proof.
move=> b0; have bn : b%:R != 0 :> R by rewrite pnatr_eq0 -lt0n.
elim: n c i => [|n IH] c [|i] //= iN.
rewrite unif_E ?size_iota //.
case: i iN => [|i] iN.
  (* the second digit *)
  case: n IH iN => // n _ _.
  transitivity (b%:R^-1 * \sum_(a <- iota 0 b) (b%:R^-1 * ((c + a) %% b)%:R) : R).
    congr (_ * _); apply: eq_bigr => a _; rewrite E_bind /= unif_E ?size_iota //; congr (_ * _).
    rewrite -[RHS]carry_step //; apply: eq_bigr => a' _.
    rewrite /= E_bind /= (eq_E _ (g := fun=> ((b <= (c + a) %% b + a')%N)%:R * 1)) => [|A]; last first.
      by rewrite mulr1 -[LHS]/((carry_at b c [:: a, a' & A] 1)%:R) /carry_at /= ?take0 ?addn0.
    rewrite E_scale (_ : E _ _ = 1) ?mulr1 //.
    elim: n => //= n IHn; apply: unif_total; rewrite ?size_iota // => ? _; rewrite /total E_bind //=.
  rewrite -big_distrr /= shift_sum // sum_nat_R /carries_param natrM.
  have -> : b.-1%:R = b%:R - 1 :> R by rewrite -subn1 natrB.
  by fixeq; field; rewrite bn.
transitivity (b%:R^-1 * \sum_(a <- iota 0 b) (carries_param R b)).
  congr (_ * _); apply: eq_bigr => a _; rewrite E_bind /= -(IH (c + a)%N i.+1) //.
  by apply: eq_E => A; rewrite -[LHS]/((carry_at b c (a :: A) i.+2)%:R) /carry_at /= addnA.
by rewrite sumc size_iota mulrA mulVf // mul1r.
Qed.

Theorem C55_carries_intensity b n i : (0 < b)%N -> (1 <= i < n)%N ->
  Pr (carries_sample R b n) (fun X => i \in X) = carries_param R b.
Proof.
move=> b0 iN; rewrite /Pr /carries_sample E_bind -(carry_prob 0 b0 iN) /=.
apply: eq_E_possible => A pA; have [sA ab] := digits_possible pA.
have [_ mE] := C34_carries i b0 ab; rewrite -[LHS]/((i \in carries_of b A)%:R) mE /carry_at add0n sA.
by case/andP: iN => -> ->.
Qed.

(** ** the virtual descent process *)
Lemma binomial2_E x0 f : 0 <= x0 <= 1 -> E (@binomial2 R x0) f = x0 ^+ 2 * f 2%N + 2%:R * x0 * (1 - x0) * f 1%N + (1 - x0) ^+ 2 * f 0%N.
Proof. by move=> /andP[h0 h1]; rewrite /binomial2 /= clip01 //=; move: (f 2%N) (f 1%N) (f 0%N) => a b c; fixeq; ring. Qed.

Lemma draw_YS (x0 : R) n : draw_Y x0 n.+1 = bind (binomial2 x0) (fun c => bind (draw_Y x0 n) (fun s => Ret ((c != 1%N) :: s))).
Proof. by []. Qed.
Lemma draw_Y_E x0 n i (g : bool -> bool -> R) : 0 <= x0 <= 1 -> (i.+1 < n)%N ->
  let q := 2%:R * x0 * (1 - x0) in
  E (draw_Y x0 n) (fun Y => g (nth false Y i) (nth false Y i.+1)) =
  (1 - q) ^+ 2 * g true true + (1 - q) * q * (g true false + g false true) + q ^+ 2 * g false false.
Proof.
move=> x01 + q; elim: n i => [|n IH] // i iN.
rewrite draw_YS E_bind binomial2_E // !E_bind /=.
have qE : 1 - q = x0 ^+ 2 + (1 - x0) ^+ 2 by rewrite /q; fixeq; ring.
case: i iN => [|i] iN.
  case: n IH iN => // n IH _.
  have mass m : E (draw_Y x0 m) (fun=> 1) = 1.
    by elim: m => // m IHm; rewrite draw_YS E_bind binomial2_E // !E_bind /= IHm !mulr1; fixeq; ring.
  have one b : E (draw_Y x0 n.+1) (fun Y => g b (nth false Y 0)) = (1 - q) * g b true + q * g b false.
    rewrite draw_YS E_bind binomial2_E // !E_bind /=.
    have cst (z : R) : E (draw_Y x0 n) (fun=> z) = z.
      by rewrite -[RHS]mulr1 -(mass n) -E_scale; apply: eq_E => ?; rewrite mulr1.
    by rewrite !cst qE /q; fixeq; ring.
  by rewrite !one qE /q; fixeq; ring.
rewrite !IH // -/q; set z := (X in _ * X + _ * X + _ * X).
have -> : x0 ^+ 2 * z + 2%:R * x0 * (1 - x0) * z + (1 - x0) ^+ 2 * z = z by fixeq; ring.
by [].
Qed.

(** C33: the rule of the virtual descent process *)
Theorem C33_virtual_descents (x0 : R) n X : possible (virtual_descent_sample x0 n) (inl X) ->
  exists sigma Y, [/\ perm_eq sigma (iota 0 n.+1), sorted ltn X &
    forall i, (i \in X) = (i < n)%N && ~~ nth false Y i && (nth false Y i.+1 || (nth 0%N sigma i.+1 < nth 0%N sigma i)%N)].
Proof.
move=> h; have [sigma ps h1] := Spectral.bind_possible h; have [Y pY [->]] := Spectral.bind_possible h1.
have pm := C28_permutation ps; exists sigma, Y; split=> //.
  by apply: sorted_filter; [exact: ltn_trans|exact: iota_ltn_sorted].
move=> i; rewrite mem_filter mem_iota add0n /= nth_drops (perm_size pm) size_iota ltnS.
by case: (ltnP i n) => h2; rewrite ?andbF // andbT /=; case: (nth false Y i); case: (nth false Y i.+1).
Qed.

(** C55: the exact intensity of the virtual descent process... *)
Theorem C55_virtual_intensity (x0 : R) n i : 0 <= x0 <= 1 -> (i < n)%N ->
  let q := 2%:R * x0 * (1 - x0) in
  Pr (virtual_descent_sample x0 n) (fun X => i \in X) = q - q ^+ 2 / 2%:R.
Proof.
move=> x01 iN q; rewrite /Pr /virtual_descent_sample E_bind.
transitivity (E (uniform_permutation R n.+1) (fun s => (1 - q) * q + q ^+ 2 * (nth false (drops s) i)%:R)).
  apply: eq_E => s; rewrite E_bind.
  have := @draw_Y_E x0 n.+1 i (fun y y' => ((~~ y && y') || (~~ y && ~~ y' && nth false (drops s) i))%:R) x01 iN.
  rewrite [in X in _ = X -> _]/= -/q !mulr0 !add0r mulr1.
  move=> <-; apply: eq_E => Y; rewrite -[LHS]/((i \in virtual_of n (drops s) Y)%:R).
  by rewrite mem_filter mem_iota add0n /= iN andbT.
have cst (z : R) : E (uniform_permutation R n.+1) (fun=> z) = z.
  by rewrite -[RHS]mulr1 -(proj1 (C28_never_fails R n.+1)) -E_scale; apply: eq_E => ?; rewrite mulr1.
rewrite E_add cst E_scale uniform_E.
have -> : \sum_(s <- permutations (iota 0 n.+1)) (nth false (drops s) i)%:R = (n.+1)`!%:R / 2%:R :> R.
  by rewrite half_sum // mulrC.
by rewrite mulKf ?fact_neq0 //; fixeq; field.
Qed.

(** ...is the advertised one only for x_0 = 1/2 (the default) and x_0 = 1 *)
Theorem C55_virtual_intensity_refuted (x0 : R) n i : 0 <= x0 <= 1 -> (i < n)%N ->
  Pr (virtual_descent_sample x0 n) (fun X => i \in X) = virtual_descent_param x0 <-> x0 = 2%:R^-1 \/ x0 = 1.
Proof.
move=> x01 iN; rewrite C55_virtual_intensity // /virtual_descent_param; set q := 2%:R * x0 * (1 - x0).
have e1 : (q - q ^+ 2 / 2%:R) - 2%:R^-1 * (1 - x0 ^+ 2) = 2%:R^-1 * ((x0 - 1 + q) * (x0 + 1 - q)).
  by fixeq; field.
have e2 : x0 - 1 + q = - 2%:R * (x0 - 2%:R^-1) * (x0 - 1) by rewrite /q; fixeq; field.
have p3 : 0 < x0 + 1 - q.
  have -> : x0 + 1 - q = 2%:R * (x0 - 4%:R^-1) ^+ 2 + 7%:R / 8%:R by rewrite /q; fixeq; field.
  by apply: ltr_paddl; [rewrite mulr_ge0 ?sqr_ge0 ?ler0n|rewrite divr_gt0 ?ltr0n].
split=> [/eqP|h].
  rewrite -subr_eq0 e1 e2 !mulf_eq0 (gt_eqF p3) orbF invr_eq0 !pnatr_eq0 /= oppr_eq0 pnatr_eq0 /= !subr_eq0.
  by case/orP => /eqP ->; [left|right].
apply/eqP; rewrite -subr_eq0 e1 e2; by case: h => ->; rewrite subrr ?mulr0 ?mul0r ?mulr0 ?mul0r ?mulr0.
Qed.

Theorem C55_virtual_refuted : Pr (virtual_descent_sample (0 : R) 1) (fun X => 0%N \in X) <> virtual_descent_param (0 : R).
Proof.
move/(C55_virtual_intensity_refuted _ (erefl : (0 < 1)%N)); rewrite lexx ler01 => /(_ isT) [/eqP|/eqP].
  by rewrite eq_sym invr_eq0 pnatr_eq0.
by rewrite eq_sym oner_eq0.
Qed.

End Descent.

Example C34_instance : carries_of 10 [:: 7; 5; 9; 1; 0; 8]%N = [:: 1; 2; 5]%N. Proof. by []. Qed.
Print Assumptions C28_uniform.
Print Assumptions C55_virtual_intensity_refuted.
