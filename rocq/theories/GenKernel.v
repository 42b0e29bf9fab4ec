(** * GenKernel: the generic kernel sampler has marginals det K_T and point masses |det (K - I_{S^c})|. *)
From mathcomp Require Import all_ssreflect all_algebra.
From mathcomp.algebra_tactics Require Import ring.
From Verif Require Import Prob Minor ChainCons ExactModel.
Set Implicit Arguments. Unset Strict Implicit. Unset Printing Implicit Defensive.
Import Order.Theory GRing.Theory Num.Theory.
Local Open Scope ring_scope.

Section Gen.
Variables (R : rcfType) (N : nat).
Implicit Types (A B K : 'M[R]_N) (js : seq 'I_N).

(** quadratic form *)
Definition qf A (v : 'I_N -> R) : R := \sum_i \sum_k v i * A i k * v k.

Definition psd_on js A : Prop :=
  (forall i k, i \in js -> k \in js -> A i k = A k i) /\
  (forall v, (forall i, i \notin js -> v i = 0) -> 0 <= qf A v).

Lemma qf_shift A v j t : (forall i, A i j = A j i) ->
  qf A (fun i => v i + (i == j)%:R * t) = qf A v + 2%:R * t * (\sum_i A j i * v i) + A j j * t ^+ 2.
Proof.
move=> sA; rewrite /qf.
transitivity (\sum_i \sum_k (v i * A i k * v k + (v i * A i k * ((k == j)%:R * t)
   + ((i == j)%:R * t) * A i k * v k + (i == j)%:R * t * A i k * ((k == j)%:R * t)))).
  by apply: eq_bigr => i _; apply: eq_bigr => k _; rewrite !mulrDl !mulrDr -!addrA; congr (_ + _); rewrite addrCA.
under eq_bigr do rewrite big_split /=.
rewrite big_split /= -addrA; congr (_ + _).
under eq_bigr do rewrite !big_split /=.
rewrite !big_split /=.
have e1 : \sum_i \sum_k v i * A i k * ((k == j)%:R * t) = t * \sum_i A j i * v i.
  rewrite big_distrr /=; apply: eq_bigr => i _.
  rewrite (bigD1 j) //= big1 => [|k kj]; last by rewrite (negPf kj) mul0r mulr0.
  by rewrite eqxx mul1r addr0 sA mulrC; congr (_ * _); rewrite mulrC.
have e2 : \sum_i \sum_k (i == j)%:R * t * A i k * v k = t * \sum_i A j i * v i.
  rewrite (bigD1 j) //= [X in _ + X]big1 => [|k kj]; last by rewrite big1 // => ? _; rewrite (negPf kj) !mul0r.
  by rewrite eqxx addr0 big_distrr /=; apply: eq_bigr => k _; rewrite mul1r mulrA.
have e3 : \sum_i \sum_k (i == j)%:R * t * A i k * ((k == j)%:R * t) = A j j * t ^+ 2.
  rewrite (bigD1 j) //= [X in _ + X]big1 => [|k kj]; last by rewrite big1 // => ? _; rewrite (negPf kj) !mul0r.
  rewrite addr0 (bigD1 j) //= [X in _ + X]big1 => [|k kj]; last by rewrite (negPf kj) mul0r mulr0.
  by rewrite eqxx addr0 !mul1r mulrAC -expr2 mulrC.
rewrite e1 e2 e3; move: (A j j) (\sum_i _) => a s; fixeq; ring.
Qed.

(** restriction of A to js x js, zero elsewhere *)
Definition restr js A : 'M[R]_N := \matrix_(i, k) (if (i \in js) && (k \in js) then A i k else 0).

Lemma qf_restr js A v : (forall i, i \notin js -> v i = 0) -> qf (restr js A) v = qf A v.
Proof.
move=> v0; apply: eq_bigr => i _; apply: eq_bigr => k _; rewrite mxE.
have [ij|ij] := boolP (i \in js); last by rewrite v0 // !mul0r.
by have [kj|kj] := boolP (k \in js) => //=; rewrite (v0 k) // !mulr0.
Qed.

Lemma eq_qf A B js v : (forall i, i \notin js -> v i = 0) ->
  (forall i k, i \in js -> k \in js -> A i k = B i k) -> qf A v = qf B v.
Proof.
move=> v0 AB; apply: eq_bigr => i _; apply: eq_bigr => k _.
have [ij|ij] := boolP (i \in js); last by rewrite v0 // !mul0r.
have [kj|kj] := boolP (k \in js); last by rewrite (v0 k) // !mulr0.
by rewrite AB.
Qed.

Lemma eq_psd_on js A B : (forall i k, i \in js -> k \in js -> A i k = B i k) -> psd_on js A -> psd_on js B.
Proof.
move=> AB [sA pA]; split=> [i k ij kj|v v0]; first by rewrite -!AB // sA.
by rewrite -(eq_qf v0 AB) pA.
Qed.

Lemma psd_on_shift js A j v t : j \in js -> psd_on js A -> (forall i, i \notin js -> v i = 0) ->
  0 <= qf A v + 2%:R * t * (\sum_i A j i * v i) + A j j * t ^+ 2.
Proof.
move=> jj [sA pA] v0.
have w0 i : i \notin js -> v i + (i == j)%:R * t = 0.
  by move=> ij; rewrite v0 // add0r; case: eqP ij => [->|]; rewrite ?jj // mul0r.
have := pA _ w0; rewrite -(qf_restr A w0) qf_shift ?(qf_restr A v0) ?mxE ?jj //=; last first.
  move=> i; rewrite !mxE andbC jj; case: ifP => // ij; exact: sA.
suff -> : \sum_i restr js A j i * v i = \sum_i A j i * v i by [].
apply: eq_bigr => i _; rewrite !mxE jj /=.
by case: ifP => // /negbT/v0 ->; rewrite !mulr0.
Qed.

Lemma qf1 A j : qf A (fun i => (i == j)%:R) = A j j.
Proof.
rewrite /qf (bigD1 j) //= [X in _ + X]big1 => [|i ij]; last by rewrite big1 // => k _; rewrite (negPf ij) !mul0r.
rewrite addr0 (bigD1 j) //= [X in _ + X]big1 => [|k kj]; last by rewrite (negPf kj) mulr0.
by rewrite eqxx !addr0 mul1r mulr1.
Qed.

Lemma psd_diag js A j : j \in js -> psd_on js A -> 0 <= A j j.
Proof.
by move=> jj [_ pA]; rewrite -(qf1 A); apply: pA => i ij; case: eqP ij => // ->; rewrite jj.
Qed.

Lemma psd_diag0 js A j i : j \in js -> i \in js -> psd_on js A -> A j j = 0 -> A j i = 0.
Proof.
move=> jj ij pA aj.
have := psd_on_shift (v := fun k => (k == i)%:R) _ jj pA (_ : forall k, k \notin js -> _ = 0).
have v0 k : k \notin js -> (k == i)%:R = 0 :> R by case: eqP => // ->; rewrite ij.
have sE : \sum_k A j k * (k == i)%:R = A j i.
  rewrite (bigD1 i) //= big1 => [|k ki]; last by rewrite (negPf ki) mulr0.
  by rewrite eqxx mulr1 addr0.
move=> /(_ _ v0); rewrite sE qf1 aj => h.
apply/eqP; apply: contraT => aji.
have := h (- (A i i + 1) / (2%:R * A j i)).
have -> : A i i + 2%:R * (- (A i i + 1) / (2%:R * A j i)) * A j i + 0 * (- (A i i + 1) / (2%:R * A j i)) ^+ 2 = -1.
  move: (A i i) (A j i) aji => x y y0; fixeq; field; by rewrite y0.
by rewrite leNgt ltrN10.
Qed.

(** Schur complements of positive semidefinite matrices *)
Lemma psd_schur j js A : j \notin js -> psd_on (j :: js) A -> A j j != 0 -> psd_on js (schur A j).
Proof.
move=> jn pA a0; have jj : j \in j :: js by rewrite inE eqxx.
have sub i : i \in js -> i \in j :: js by rewrite inE orbC => ->.
split=> [i k ij kj|v v0].
  by rewrite !mxE (pA.1 i k) ?sub // (pA.1 i j) ?jj ?sub // (pA.1 k j) ?jj ?sub // [A j i * _]mulrC.
have v0' i : i \notin j :: js -> v i = 0 by rewrite inE negb_or => /andP[_]; exact: v0.
set s := \sum_i A j i * v i.
have := psd_on_shift (- (s / A j j)) jj pA v0'; rewrite -/s.
suff -> : qf (schur A j) v = qf A v + 2%:R * - (s / A j j) * s + A j j * (- (s / A j j)) ^+ 2 by [].
have -> : qf A v + 2%:R * - (s / A j j) * s + A j j * (- (s / A j j)) ^+ 2 = qf A v - s ^+ 2 / A j j.
  by move: (qf _ _) (A j j) s a0 => x a s' a0; fixeq; field.
have sE : \sum_i v i * A i j = s.
  apply: eq_bigr => i _; have [ij|/v0 ->] := boolP (i \in js); last by rewrite mul0r mulr0.
  by rewrite (pA.1 i j) ?jj ?sub // mulrC.
have -> : s ^+ 2 / A j j = \sum_i \sum_k v i * A i j * (A j k * v k / A j j).
  rewrite expr2 -{1}sE -mulrA mulr_suml; apply: eq_bigr => i _.
  by rewrite -mulr_sumr -mulr_suml.
rewrite -sumrB; apply: eq_bigr => i _; rewrite -sumrB; apply: eq_bigr => k _.
by rewrite !mxE; move: (v i) (v k) (A i k) (A i j) (A j k) (A j j)^-1 => ? ? ? ? ? ?; fixeq; ring.
Qed.

(** the two residual matrices of the code, restricted to the remaining items *)
Definition res A j (b : bool) : 'M[R]_N := upd A j (- (if b then A j j else A j j - 1)^-1).

Definition contr js A : Prop := psd_on js A /\ psd_on js (1%:M - A).

Lemma contr_res j js A b : j \notin js -> contr (j :: js) A -> (if b then A j j else A j j - 1) != 0 ->
  contr js (res A j b).
Proof.
move=> jn [pA pI].
have dj i : i \in js -> (i == j) = false by move=> ij; apply: contraNF jn => /eqP <-.
have sub i : i \in js -> i \in j :: js by rewrite inE orbC => ->.
have jj : j \in j :: js by rewrite inE eqxx.
have weak B : psd_on (j :: js) B -> psd_on js B.
  move=> [sB pB]; split=> [i k ij kj|v v0]; first by rewrite sB ?sub.
  by apply: pB => i; rewrite inE negb_or => /andP[_]; exact: v0.
(* B + w * column j of A times row j of A stays psd for w >= 0 *)
have addp B w : psd_on js B -> 0 <= w -> psd_on js (\matrix_(i, k) (B i k + w * (A i j * A j k))).
  move=> [sB pB] w0; split=> [i k ij kj|v v0].
    by rewrite !mxE (sB i k) // (pA.1 i j) ?jj ?sub // (pA.1 k j) ?jj ?sub // [A j i * _]mulrC.
  have -> : qf (\matrix_(i, k) (B i k + w * (A i j * A j k))) v = qf B v + w * (\sum_i A j i * v i) ^+ 2.
    have sE : \sum_i v i * A i j = \sum_i A j i * v i.
      apply: eq_bigr => i _; have [ij|/v0 ->] := boolP (i \in js); last by rewrite mul0r mulr0.
      by rewrite (pA.1 i j) ?jj ?sub // mulrC.
    have -> : w * (\sum_i A j i * v i) ^+ 2 = \sum_i \sum_k w * (v i * A i j * (A j k * v k)).
      rewrite expr2 -{1}sE mulr_suml mulr_sumr; apply: eq_bigr => i _.
      by rewrite !mulr_sumr.
    rewrite -big_split /=; apply: eq_bigr => i _; rewrite -big_split /=; apply: eq_bigr => k _.
    by rewrite !mxE; move: (v i) (v k) (B i k) (A i j) (A j k) => ? ? ? ? ?; fixeq; ring.
  by rewrite addr_ge0 ?pB // mulr_ge0 // sqr_ge0.
case: b => a0.
  have aj : 0 <= A j j by exact: psd_diag pA.
  split; first by rewrite /res -schur_upd; exact: psd_schur.
  apply: (eq_psd_on _ (addp _ (A j j)^-1 (weak _ pI) _)); last by rewrite invr_ge0.
  by move=> i k ij kj; rewrite !mxE; move: (i == k)%:R (A i k) (A i j) (A j k) (_^-1) => ? ? ? ? ?; fixeq; ring.
have aj : 0 <= 1 - A j j by have := psd_diag jj pI; rewrite !mxE eqxx.
split.
  apply: (eq_psd_on _ (addp _ (1 - A j j)^-1 (weak _ pA) _)); last by rewrite invr_ge0.
  by move=> i k ij kj; rewrite !mxE -opprB invrN.
have := psd_schur jn pI; rewrite !mxE eqxx -opprB oppr_eq0 => /(_ a0).
apply: eq_psd_on => i k ij kj; rewrite !mxE (dj i) // (eq_sym j) (dj k) // eqxx /= -[A j j - 1]opprB invrN opprK.
by move: (i == k)%:R (A i k) (A i j) (A j k) (_^-1) => ? ? ? ? ?; fixeq; ring.
Qed.

Lemma contr_ext js A B : (forall i k, i \in js -> k \in js -> A i k = B i k) -> contr js A -> contr js B.
Proof.
move=> AB [p1 p2]; split; first exact: eq_psd_on p1.
by apply: eq_psd_on p2 => i k ij kj; rewrite !mxE AB.
Qed.

(** the updated array of the code agrees with [res] on the remaining (larger) items *)
Definition codeA A (j : 'I_N) (ajj : R) : 'M[R]_N := \matrix_(a, b)
  if (j < a)%N && (j < b)%N then A a b - A a j / ajj * A j b
  else if (j < a)%N && (b == j) then A a j / ajj
  else if (a == j) && (b == j) then ajj else A a b.

Lemma codeA_res A (j : 'I_N) b js : all (fun i : 'I_N => (j < i)%N) js ->
  forall i k, i \in js -> k \in js -> codeA A j (if b then A j j else A j j - 1) i k = res A j b i k.
Proof.
move=> /allP lt i k /lt /= ij /lt /= kj; rewrite !mxE ij kj /= mulNr mulrA; congr (_ - _).
by rewrite mulrAC mulrC mulrA.
Qed.

Lemma loop_pre js A pre (f : seq 'I_N -> R) : E (generic_kernel_loop js A pre) f = E (generic_kernel_loop js A [::]) (fun X => f (pre ++ X)).
Proof.
elim: js A pre f => [|j js IH] A pre f; first by rewrite /= cats0.
cbn [generic_kernel_loop E]; congr (_ * _ + _ * _); case: ifP => // _; rewrite [LHS]IH [RHS]IH.
by apply: eq_E => X /=; rewrite cat_rcons.
Qed.

Lemma loopE j js A f : contr (j :: js) A ->
  E (generic_kernel_loop (j :: js) A [::]) f =
    A j j * E (generic_kernel_loop js (codeA A j (A j j)) [::]) (fun X => f (j :: X)) +
    (1 - A j j) * E (generic_kernel_loop js (codeA A j (A j j - 1)) [::]) f.
Proof.
move=> [pA pI]; have jj : j \in j :: js by rewrite inE eqxx.
have a0 := psd_diag jj pA; have a1 : 0 <= 1 - A j j by have := psd_diag jj pI; rewrite !mxE eqxx.
have a1' : A j j <= 1 by rewrite -subr_ge0.
cbn [generic_kernel_loop E]; rewrite clip01 //; congr (_ + _).
- have [->|a0'] := eqVneq (A j j) 0; first by rewrite !mul0r.
  by rewrite loop_pre.
- have [e|a0'] := eqVneq (A j j - 1) 0; first by rewrite -[1 - _]opprB e oppr0 !mul0r.
  by rewrite loop_pre.
Qed.

Definition srt js := pairwise (fun i k : 'I_N => (i < k)%N) js.

Lemma srt_notin j js : srt (j :: js) -> j \notin js.
Proof. by rewrite /srt /= => /andP[/allP lt _]; apply/negP => /lt; rewrite ltnn. Qed.

Lemma contr_code j js A b : srt (j :: js) -> contr (j :: js) A -> (if b then A j j else A j j - 1) != 0 ->
  contr js (codeA A j (if b then A j j else A j j - 1)).
Proof.
move=> s c a0; apply: (contr_ext _ (contr_res (srt_notin s) c a0)) => i k ij kj.
by rewrite (@codeA_res A j b js) //; move: s => /andP[].
Qed.

Lemma gen_total js A : srt js -> contr js A -> E (generic_kernel_loop js A [::]) (fun _ => 1) = 1.
Proof.
elim: js A => [|j js IH] A s c //.
have sj : srt js by move: s => /andP[].
rewrite loopE //.
have [a0|a0] := eqVneq (A j j) 0.
  have /(contr_code (b := false) s c) c' : A j j - 1 != 0 by rewrite a0 sub0r oppr_eq0 oner_eq0.
  by rewrite [X in codeA _ _ X]/= (IH _ sj c') a0 mul0r add0r subr0 mulr1.
have [a1|a1] := eqVneq (A j j - 1) 0.
  have a1' : A j j = 1 by apply/eqP; rewrite -subr_eq0 a1.
  by rewrite (IH _ sj (contr_code (b := true) s c a0)) a1' subrr mul0r addr0 mulr1.
rewrite (IH _ sj (contr_code (b := true) s c a0)) (IH _ sj (contr_code (b := false) s c a1)).
by rewrite !mulr1 addrC subrK.
Qed.

(** items outside js are never returned *)
Lemma gen_out js A j (g : seq 'I_N -> bool) : j \notin js ->
  E (generic_kernel_loop js A [::]) (fun X => ((j \in X) && g X)%:R) = 0.
Proof.
elim: js A g => [|i js IH] A g //; rewrite inE negb_or => /andP[ji jn].
have z (x : bool) (ajj : R) : E (if ajj == 0 then Raise ZeroDivisionError else
    generic_kernel_loop js (codeA A i ajj) (if x then [:: i] else [::])) (fun X => ((j \in X) && g X)%:R) = 0.
  case: ifP => // _; rewrite loop_pre.
  rewrite -[RHS](IH (codeA A i ajj) (fun X => g ((if x then [:: i] else [::]) ++ X)) jn).
  by apply: eq_E => X; rewrite mem_cat; case: x; rewrite ?inE ?(negPf ji).
by cbn [generic_kernel_loop E]; rewrite [X in _ * X + _](z true) [X in _ + _ * X](z false) !mulr0 addr0.
Qed.

(** if the diagonal entry of a (possibly shifted) psd matrix vanishes, so does the bordered determinant *)
Lemma bord0_row0 A j T : (forall i, i \in T -> A j i = 0) -> bord0 A j T = 0.
Proof.
move=> z; rewrite /bord0.
have zero : block_mx (0 : 'M[R]_1) (\row_k A j (tnth (in_tuple T) k)) (\col_i A (tnth (in_tuple T) i) j)
     (mxsub (tnth (in_tuple T)) (tnth (in_tuple T)) A) = col_mx 0 (row_mx (\col_i A (tnth (in_tuple T) i) j)
     (mxsub (tnth (in_tuple T)) (tnth (in_tuple T)) A)) :> 'M_(1 + size T).
  rewrite /block_mx; congr col_mx; rewrite -[0 in RHS]row_mx0; congr row_mx.
  by apply/rowP => k; rewrite !mxE z // mem_tnth.
rewrite zero (expand_det_row _ (lshift _ ord0)) big1 // => k _.
by rewrite col_mxEu mxE mul0r.
Qed.

Lemma contr_bord0 js A j T : j \in js -> j \notin T -> {subset T <= js} -> contr js A ->
  A j j = 0 \/ A j j = 1 -> bord0 A j T = 0.
Proof.
move=> jj jT Tj [pA pI] a; apply: bord0_row0 => i iT; case: a => a.
  exact: (psd_diag0 jj (Tj _ iT) pA).
have := psd_diag0 jj (Tj _ iT) pI; rewrite !mxE eqxx a subrr => /(_ erefl).
have -> : (j == i) = false by apply: contraNF jT => /eqP ->.
by rewrite sub0r => /eqP; rewrite oppr_eq0 => /eqP.
Qed.

Lemma gen_marginal js A T : srt js -> contr js A -> uniq T -> {subset T <= js} ->
  E (generic_kernel_loop js A [::]) (fun X => (all (mem X) T)%:R) = pm A T.
Proof.
elim: js A T => [|j js IH] A T s c uT Tj.
  by case: T uT Tj => [_ _|t T _ /(_ t)]; [rewrite /= pm_nil|rewrite inE eqxx => /(_ isT)].
have sj : srt js by move: s => /andP[].
have jn := srt_notin s; have jj : j \in j :: js by rewrite inE eqxx.
have lt : all (fun i : 'I_N => (j < i)%N) js by move: s => /andP[].
rewrite loopE //.
(* the value of each branch *)
have br b T' : uniq T' -> {subset T' <= js} -> (if b then A j j else A j j - 1) != 0 ->
   E (generic_kernel_loop js (codeA A j (if b then A j j else A j j - 1)) [::]) (fun X => (all (mem X) T')%:R)
   = pm (res A j b) T'.
  move=> uT' T'j a0; rewrite (IH _ _ sj (contr_code s c a0)) //; apply: eq_pm => i k /T'j ij /T'j kj.
  exact: (@codeA_res A j b js).
have [Tjj|Tjj] := boolP (j \in T).
  pose T' := rem j T.
  have uT' : uniq T' by rewrite rem_uniq.
  have T'j : {subset T' <= js}.
    move=> t tT; have := Tj t (mem_rem tT); rewrite inE => /orP[/eqP e|//].
    by move: tT; rewrite e mem_rem_uniqF.
  have memE (X : seq 'I_N) : all (mem X) T = (j \in X) && all (mem X) T'.
    by rewrite (eq_all_r (perm_mem (perm_to_rem Tjj))).
  rewrite (pm_rem A Tjj) -/T'.
  have -> : E (generic_kernel_loop js (codeA A j (A j j - 1)) [::]) (fun X => (all (mem X) T)%:R) = 0.
    rewrite -[RHS](@gen_out js (codeA A j (A j j - 1)) j (fun X => all (mem X) T') jn).
    by apply: eq_E => X; rewrite memE.
  rewrite mulr0 addr0.
  have [a0|a0] := eqVneq (A j j) 0.
    rewrite a0 mul0r pm_bord a0 mul0r add0r (contr_bord0 jj _ _ c) //; last by left.
      by apply/negP => /T'j; rewrite (negPf jn).
    by move=> t /T'j tj; rewrite inE tj orbT.
  rewrite pm_cons // schur_upd -(br true) //; congr (_ * _).
  apply: eq_E => X; rewrite memE inE eqxx /=; congr (_%:R); apply: congr1.
  apply: eq_in_all => t /T'j tj; rewrite /= inE.
  by case: eqP tj => // ->; rewrite (negPf jn).
have T'j : {subset T <= js}.
  move=> t tT; have := Tj t tT; rewrite inE => /orP[/eqP e|//].
  by move: tT; rewrite e (negPf Tjj).
have -> : E (generic_kernel_loop js (codeA A j (A j j)) [::]) (fun X => (all (mem (j :: X)) T)%:R)
        = E (generic_kernel_loop js (codeA A j (A j j)) [::]) (fun X => (all (mem X) T)%:R).
  apply: eq_E => X; congr (_%:R); apply: congr1; apply: eq_in_all => t /T'j tj; rewrite /= inE.
  by case: eqP tj => // ->; rewrite (negPf jn).
have b1 : A j j != 0 -> A j j * E (generic_kernel_loop js (codeA A j (A j j)) [::]) (fun X => (all (mem X) T)%:R)
    = A j j * pm A T + bord0 A j T.
  by move=> a0; rewrite (br true) // pm_upd.
have b2 : A j j - 1 != 0 -> (1 - A j j) * E (generic_kernel_loop js (codeA A j (A j j - 1)) [::]) (fun X => (all (mem X) T)%:R)
    = (1 - A j j) * pm A T - bord0 A j T.
  move=> a0; by rewrite (br false) // -[1 - A j j]opprB mulNr pm_upd // mulNr opprD.
have [a0|a0] := eqVneq (A j j) 0.
  rewrite b2; last by rewrite a0 sub0r oppr_eq0 oner_eq0.
  by rewrite (contr_bord0 jj Tjj Tj c) ?a0; [rewrite mul0r add0r !subr0 mul1r|left].
have [a1|a1] := eqVneq (A j j - 1) 0.
  have a1' : A j j = 1 by apply/eqP; rewrite -subr_eq0 a1.
  rewrite b1 // (contr_bord0 jj Tjj Tj c) ?a1'; last by right.
  by rewrite subrr mul0r !addr0 mul1r.
by rewrite b1 // b2 //; move: (pm A T) (bord0 A j T) (A j j) => x y z; fixeq; ring.
Qed.

(** ** point masses *)
Definition minusI A (S : {set 'I_N}) : 'M[R]_N := A - \matrix_(i, k) ((i == k) && (i \notin S))%:R.

Lemma schur_row0 A j T : (forall i, i \in T -> A j i = 0) -> A j j = 0 -> pm A (j :: T) = 0.
Proof. by move=> z a; rewrite pm_bord a mul0r add0r bord0_row0. Qed.

Lemma gen_point js A (S : {set 'I_N}) : srt js -> contr js A ->
  E (generic_kernel_loop js A [::]) (fun X => (X == [seq i <- js | i \in S])%:R) = `|pm (minusI A S) js|.
Proof.
elim: js A => [|j js IH] A s c; first by rewrite /= pm_nil normr1.
have sj : srt js by move: s => /andP[].
have jn := srt_notin s; have jj : j \in j :: js by rewrite inE eqxx.
have lt : all (fun i : 'I_N => (j < i)%N) js by move: s => /andP[].
have dj i : i \in js -> (j == i) = false by move=> ij; apply: contraNF jn => /eqP ->.
have [pA pI] := c.
have a0 := psd_diag jj pA; have a1 : 0 <= 1 - A j j by have := psd_diag jj pI; rewrite !mxE eqxx.
have Mjj : minusI A S j j = if j \in S then A j j else A j j - 1.
  by rewrite !mxE eqxx; case: (j \in S) => //=; rewrite subr0.
have M0 : minusI A S j j = 0 -> pm (minusI A S) (j :: js) = 0.
  move=> z; apply: schur_row0 => // i ij; rewrite !mxE dj //= subr0; move: z; rewrite Mjj.
  have ij' : i \in j :: js by rewrite inE ij orbT.
  case: ifP => _ z; first exact: (psd_diag0 jj ij' pA).
  have := psd_diag0 jj ij' pI; rewrite !mxE eqxx -opprB z oppr0 => /(_ erefl).
  by rewrite dj // sub0r => /eqP; rewrite oppr_eq0 => /eqP.
have br b : (j \in S) = b -> (if b then A j j else A j j - 1) != 0 ->
  `|if b then A j j else A j j - 1| * E (generic_kernel_loop js (codeA A j (if b then A j j else A j j - 1)) [::])
     (fun X => (X == [seq i <- js | i \in S])%:R) = `|pm (minusI A S) (j :: js)|.
  move=> bE nz; rewrite (IH _ sj (contr_code s c nz)) -normrM pm_cons Mjj bE //; congr `|_ * _|.
  apply: eq_pm => i k ij kj.
  rewrite [LHS]mxE (@codeA_res A j b js) // [in RHS]mxE Mjj bE !mxE [i == j]eq_sym !dj //= !subr0.
  by case: b {bE nz} => /=; move: (A i k) (_%:R) (A i j) (A j k) (_^-1) => ? ? ? ? ?; fixeq; ring.
rewrite loopE //; have [jS|jS] := boolP (j \in S); rewrite /= ?jS ?(negPf jS).
  have -> : E (generic_kernel_loop js (codeA A j (A j j - 1)) [::]) (fun X => (X == j :: [seq i <- js | i \in S])%:R) = 0.
    rewrite -[RHS](@gen_out js (codeA A j (A j j - 1)) j (fun X => X == j :: [seq i <- js | i \in S]) jn).
    by apply: eq_E => X; case: eqP => [->|]; rewrite ?inE ?eqxx ?andbF.
  rewrite mulr0 addr0; have [z|nz] := eqVneq (A j j) 0.
    by rewrite z mul0r M0 ?normr0 // Mjj jS.
  rewrite -(br true) // ger0_norm //; congr (_ * _); apply: eq_E => X.
  by rewrite eqseq_cons eqxx.
have -> : E (generic_kernel_loop js (codeA A j (A j j)) [::]) (fun X => (j :: X == [seq i <- js | i \in S])%:R) = 0.
  rewrite -[RHS](E_zero (generic_kernel_loop js (codeA A j (A j j)) [::])).
  apply: eq_E => X; case: eqP => // e.
  have : j \in [seq i <- js | i \in S] by rewrite -e inE eqxx.
  by rewrite mem_filter (negPf jS).
rewrite mulr0 add0r; have [z|nz] := eqVneq (A j j - 1) 0.
  by rewrite -opprB z oppr0 mul0r M0 ?normr0 // Mjj (negPf jS).
by rewrite -(br false) ?(negPf jS) //; congr (_ * _); rewrite distrC ger0_norm.
Qed.

(** the result is an increasing list of items *)
Lemma gen_sorted js A X : possible (generic_kernel_loop js A [::]) (inl X) -> subseq X js.
Proof.
suff H pre : possible (generic_kernel_loop js A pre) (inl X) -> exists2 Y, X = pre ++ Y & subseq Y js.
  by move=> /H[Y ->].
elim: js A pre => [|j js IH] A pre /=; first by case=> ->; exists [::]; rewrite ?cats0.
case=> [[_]|[_]]; (case: ifP => // _ /IH[Y -> sub]); [exists (j :: Y)|exists Y] => //.
- by rewrite cat_rcons.
- by rewrite /= eqxx.
- by apply: subseq_trans (subseq_cons js j).
Qed.

Lemma srt_enum : srt (enum 'I_N).
Proof.
rewrite /srt; have : pairwise ltn (map val (enum 'I_N)).
  by rewrite val_enum_ord -sorted_pairwise; [exact: iota_ltn_sorted|exact: ltn_trans].
by rewrite pairwise_map.
Qed.

End Gen.
