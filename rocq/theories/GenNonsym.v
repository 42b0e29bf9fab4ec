(** * GenNonsym: the generic kernel sampler on every kernel (symmetric or not) for which the DPP exists. *)
From mathcomp Require Import all_ssreflect all_algebra.
From mathcomp.algebra_tactics Require Import ring.
From Verif Require Import Prob Minor ChainCons ExactModel GenKernel.
Set Implicit Arguments. Unset Strict Implicit. Unset Printing Implicit Defensive.
Import Order.Theory GRing.Theory Num.Theory.
Local Open Scope ring_scope.

Lemma q_ring1 (F : comRingType) (s a X B : F) : s * (a * X + B) + (- s) * ((a - 1) * X + B) = s * X.
Proof. by ring. Qed.

Section Q.
Variables (R : rcfType) (N : nat).
Implicit Types (A K : 'M[R]_N) (js T : seq 'I_N) (S : {set 'I_N}).

(** signed minor of A - I_{S^c} on js: the probability that the sample meets js exactly in S *)
Definition sg js S : R := (-1) ^+ count (fun i => i \notin S) js.
Definition qv js A S : R := sg js S * pm (minusI A S) js.
Definition valid js A : Prop := forall S, 0 <= qv js A S.

Lemma qv_nil A S : qv [::] A S = 1.
Proof. by rewrite /qv /sg /= pm_nil mul1r. Qed.

Lemma qv_perm js js' A S : perm_eq js js' -> qv js A S = qv js' A S.
Proof. by move=> p; rewrite /qv /sg (pm_perm _ p) (permP p). Qed.

Lemma eq_qv js A A' S : (forall i k, i \in js -> k \in js -> A i k = A' i k) -> qv js A S = qv js A' S.
Proof. by move=> e; rewrite /qv; congr (_ * _); apply: eq_pm => i k ij kj; rewrite !mxE e. Qed.

Lemma eq_qvS js A S S' : {in js, S =i S'} -> qv js A S = qv js A S'.
Proof.
move=> e; rewrite /qv /sg; congr (_ ^+ _ * _); first by apply: eq_in_count => i /e ->.
by apply: eq_pm => i k /e ij _; rewrite !mxE ij.
Qed.

Lemma minusI_jj A S j : minusI A S j j = if j \in S then A j j else A j j - 1.
Proof. by rewrite !mxE eqxx; case: (j \in S) => //=; rewrite subr0. Qed.

(** the bordered determinant only depends on the entries outside (j, j) *)
Lemma bord0_minusI A S j js : j \notin js -> bord0 (minusI A S) j js = pm (minusI A S) (j :: js) - minusI A S j j * pm (minusI A S) js.
Proof. by move=> _; rewrite pm_bord addrC addKr. Qed.

Lemma eq_bord0 A A' j js : (forall k, k \in js -> A j k = A' j k) -> (forall i, i \in js -> A i j = A' i j) ->
  (forall i k, i \in js -> k \in js -> A i k = A' i k) -> bord0 A j js = bord0 A' j js.
Proof.
move=> e1 e2 e3; rewrite /bord0; congr (\det (block_mx _ _ _ _)).
- by apply/rowP => k; rewrite !mxE e1 // mem_tnth.
- by apply/colP => k; rewrite !mxE e2 // mem_tnth.
- by apply/matrixP => i k; rewrite !mxE e3 // mem_tnth.
Qed.

(** forgetting an item *)
Lemma qv_add j js A S : j \notin js -> qv (j :: js) A (j |: S) + qv (j :: js) A (S :\ j) = qv js A S.
Proof.
move=> jn; have dj i : i \in js -> (i == j) = false by move=> ij; apply: contraNF jn => /eqP <-.
have e1 : {in js, S =i j |: S} by move=> i /dj ij; rewrite !inE ij.
have e2 : {in js, S =i S :\ j} by move=> i /dj ij; rewrite !inE ij.
pose s := sg js S.
have s1 : sg (j :: js) (j |: S) = s.
  rewrite /s /sg /= !inE eqxx /= add0n; congr (_ ^+ _); apply: eq_in_count => i ij; by rewrite !inE dj.
have s2 : sg (j :: js) (S :\ j) = - s.
  rewrite /s /sg /= !inE eqxx /= exprS mulN1r; congr (- (_ ^+ _)); apply: eq_in_count => i ij; by rewrite !inE dj.
have p1 : pm (minusI A (j |: S)) js = pm (minusI A S) js.
  by apply: eq_pm => i k ij _; rewrite !mxE !inE dj.
have p2 : pm (minusI A (S :\ j)) js = pm (minusI A S) js.
  by apply: eq_pm => i k ij _; rewrite !mxE !inE dj.
have b : bord0 (minusI A (j |: S)) j js = bord0 (minusI A (S :\ j)) j js.
  apply: eq_bord0 => [k kj|i ij|i k ij kj]; rewrite !mxE.
  - by rewrite eq_sym (dj k kj).
  - by rewrite (dj i ij).
  - by rewrite !inE dj.
rewrite /qv s1 s2 !pm_bord b p1 p2 !minusI_jj !inE eqxx /=.
exact: q_ring1.
Qed.

Lemma valid_perm js js' A : perm_eq js js' -> valid js A -> valid js' A.
Proof. by move=> p v S; rewrite -(qv_perm A S p). Qed.
Lemma valid_eq js A A' : (forall i k, i \in js -> k \in js -> A i k = A' i k) -> valid js A -> valid js A'.
Proof. by move=> e v S; rewrite -(eq_qv S e). Qed.
Lemma valid_tl j js A : j \notin js -> valid (j :: js) A -> valid js A.
Proof. by move=> jn v S; rewrite -(qv_add A S jn) addr_ge0. Qed.
Lemma valid_sub js T A : uniq js -> uniq T -> {subset T <= js} -> valid js A -> valid T A.
Proof.
move=> uj uT Tj v.
have u : uniq ([seq i <- js | i \notin T] ++ T).
  rewrite cat_uniq filter_uniq // uT andbT /=; apply/hasPn => i iT; by rewrite /= mem_filter /= iT.
have : valid ([seq i <- js | i \notin T] ++ T) A.
  apply: valid_perm v; apply: uniq_perm => // i.
  rewrite mem_cat mem_filter /=; by case: (boolP (i \in T)) => [/Tj ->|_]; rewrite ?orbT //= orbF.
move: u.
elim: [seq i <- js | i \notin T] => //= i s IH /andP[is_ us] vs.
exact: IH us (valid_tl is_ vs).
Qed.

Lemma qv1_in A S j : j \in S -> qv [:: j] A S = A j j.
Proof. by move=> jS; rewrite /qv /sg /= jS mul1r pm1 minusI_jj jS. Qed.
Lemma qv1_out A S j : j \notin S -> qv [:: j] A S = 1 - A j j.
Proof. by move=> jS; rewrite /qv /sg /= jS addn0 expr1 mulN1r pm1 minusI_jj (negbTE jS) opprB. Qed.

Lemma valid_diag js A j : uniq js -> j \in js -> valid js A -> 0 <= A j j <= 1.
Proof.
move=> u jj v; have v1 : valid [:: j] A by apply: (valid_sub u) v => // i; rewrite inE => /eqP ->.
have := v1 [set j]; rewrite qv1_in ?inE // => -> /=.
by have := v1 set0; rewrite qv1_out ?inE // subr_ge0.
Qed.

(** the probability of a set is at most that of its trace on fewer items *)
Lemma qv_le1 js A j S : uniq js -> j \in js -> valid js A -> qv js A S <= qv [:: j] A S.
Proof.
move=> u jj v; have p := perm_to_rem jj.
have u' : uniq (rcons (rem j js) j) by rewrite (perm_uniq (_ : perm_eq _ js)) // perm_rcons perm_sym.
have v' : valid (rcons (rem j js) j) A by apply: valid_perm v; rewrite perm_sym perm_rcons perm_sym.
rewrite (qv_perm A S (_ : perm_eq js (rcons (rem j js) j))); last by rewrite perm_sym perm_rcons perm_sym.
elim: (rem j js) u' v' => //= i s IH /andP[is_ us] vs.
have vt := valid_tl is_ vs; apply: le_trans (IH us vt).
rewrite -(qv_add A S is_).
have [iS|iS] := boolP (i \in S).
  have -> : i |: S = S by apply/setUidPr; rewrite sub1set.
  by rewrite ler_addl.
have -> : S :\ i = S by apply/setDidPl; rewrite disjoint_sym disjoints1.
by rewrite ler_addr.
Qed.

Lemma qv0 js A j S : uniq js -> j \in js -> valid js A -> (if j \in S then A j j else A j j - 1) = 0 -> qv js A S = 0.
Proof.
move=> u jj v z; apply/eqP; rewrite eq_le v andbT; apply: le_trans (qv_le1 S u jj v) _.
case: (boolP (j \in S)) z => jS z; first by rewrite qv1_in // z.
by rewrite qv1_out // -opprB z oppr0.
Qed.

(** conditioning *)
Lemma qv_res j js A S : j \notin js -> let b := j \in S in (if b then A j j else A j j - 1) != 0 ->
  qv (j :: js) A S = (if b then A j j else 1 - A j j) * qv js (res A j b) S.
Proof.
move=> jn b a0; have dj i : i \in js -> (j == i) = false by move=> ij; apply: contraNF jn => /eqP ->.
rewrite /qv pm_cons ?minusI_jj -/b //.
have -> : sg (j :: js) S * ((if b then A j j else A j j - 1) * pm (schur (minusI A S) j) js) =
   (if b then A j j else 1 - A j j) * (sg js S * pm (schur (minusI A S) j) js).
  rewrite /sg /= -/b; case: b {a0} => /=; first by rewrite mulrCA.
  by rewrite add1n exprS mulN1r mulNr -mulrN -mulNr opprB mulrCA.
congr (_ * (_ * _)); apply: eq_pm => i k ij kj.
rewrite [LHS]mxE [in RHS]mxE minusI_jj -/b !mxE [i == j]eq_sym !dj //= !subr0.
by case: b {a0} => /=; move: (A i k) (_%:R) (A i j) (A j k) (_^-1) => ? ? ? ? ?; fixeq; ring.
Qed.

Lemma valid_res j js A (b : bool) : j \notin js -> uniq js -> valid (j :: js) A -> (if b then A j j else A j j - 1) != 0 ->
  valid js (res A j b).
Proof.
move=> jn u v a0 S; have uj : uniq (j :: js) by rewrite /= jn.
pose S' := if b then j |: S else S :\ j.
have bE : (j \in S') = b by rewrite /S'; case: b {a0 S'}; rewrite !inE eqxx.
have eS : {in js, S =i S'}.
  move=> i ij; have ne : (i == j) = false by apply: contraNF jn => /eqP <-.
  by rewrite /S'; case: b {a0 S' bE}; rewrite !inE ne.
rewrite (eq_qvS _ eS).
have := v S'; rewrite qv_res // bE //.
have /andP[h0 h1] := valid_diag uj (mem_head _ _) v.
rewrite pmulr_rge0 //; case: b a0 {S' bE eS} => a0; first by rewrite lt_def a0.
by rewrite lt_def subr_ge0 h1 andbT -opprB oppr_eq0.
Qed.

Lemma valid_code j js A (b : bool) : srt (j :: js) -> uniq js -> valid (j :: js) A -> (if b then A j j else A j j - 1) != 0 ->
  valid js (codeA A j (if b then A j j else A j j - 1)).
Proof.
move=> s u v a0; apply: (valid_eq _ (valid_res (srt_notin s) u v a0)) => i k ij kj.
by rewrite (@codeA_res R N A j b js) //; move: s => /andP[].
Qed.

Lemma srt_uniq js : srt js -> uniq js.
Proof. by elim: js => //= j js IH s; rewrite (srt_notin s) IH //; case/andP: s. Qed.

Lemma vloopE j js A f : uniq (j :: js) -> valid (j :: js) A ->
  E (generic_kernel_loop (j :: js) A [::]) f =
    A j j * E (generic_kernel_loop js (codeA A j (A j j)) [::]) (fun X => f (j :: X)) +
    (1 - A j j) * E (generic_kernel_loop js (codeA A j (A j j - 1)) [::]) f.
Proof.
move=> u v; have /andP[a0 a1] := valid_diag u (mem_head _ _) v.
have a01 : 0 <= A j j <= 1 by rewrite a0.
cbn [generic_kernel_loop E]; rewrite clip01 //; congr (_ + _).
- have [->|a0'] := eqVneq (A j j) 0; first by rewrite !mul0r.
  by rewrite loop_pre.
- have [e|a0'] := eqVneq (A j j - 1) 0; first by rewrite -[1 - _]opprB e oppr0 !mul0r.
  by rewrite loop_pre.
Qed.

Lemma vgen_total js A : srt js -> valid js A -> E (generic_kernel_loop js A [::]) (fun _ => 1) = 1.
Proof.
elim: js A => [|j js IH] A s c //.
have sj : srt js by move: s => /andP[].
have us := srt_uniq s; have uj := srt_uniq sj.
rewrite vloopE //.
have [a0|a0] := eqVneq (A j j) 0.
  have /(valid_code (b := false) s uj c) c' : A j j - 1 != 0 by rewrite a0 sub0r oppr_eq0 oner_eq0.
  by rewrite [X in codeA _ _ X]/= (IH _ sj c') a0 mul0r add0r subr0 mulr1.
have [a1|a1] := eqVneq (A j j - 1) 0.
  have a1' : A j j = 1 by apply/eqP; rewrite -subr_eq0 a1.
  by rewrite (IH _ sj (valid_code (b := true) s uj c a0)) a1' subrr mul0r addr0 mulr1.
rewrite (IH _ sj (valid_code (b := true) s uj c a0)) (IH _ sj (valid_code (b := false) s uj c a1)).
by rewrite !mulr1 addrC subrK.
Qed.

Lemma vgen_point js A S : srt js -> valid js A ->
  E (generic_kernel_loop js A [::]) (fun X => (X == [seq i <- js | i \in S])%:R) = qv js A S.
Proof.
elim: js A => [|j js IH] A s c; first by rewrite /= qv_nil.
have sj : srt js by move: s => /andP[].
have us := srt_uniq s; have uj := srt_uniq sj.
have jn := srt_notin s; have jj : j \in j :: js by rewrite inE eqxx.
have lt : all (fun i : 'I_N => (j < i)%N) js by move: s => /andP[].
have br b : (j \in S) = b -> (if b then A j j else A j j - 1) != 0 ->
  (if b then A j j else 1 - A j j) * E (generic_kernel_loop js (codeA A j (if b then A j j else A j j - 1)) [::])
     (fun X => (X == [seq i <- js | i \in S])%:R) = qv (j :: js) A S.
  move=> bE nz; rewrite (IH _ sj (valid_code s uj c nz)) qv_res ?bE //; congr (_ * _).
  by apply: eq_qv => i k ij kj; rewrite (@codeA_res R N A j b js).
rewrite vloopE //; have [jS|jS] := boolP (j \in S); rewrite /= ?jS ?(negPf jS).
  have -> : E (generic_kernel_loop js (codeA A j (A j j - 1)) [::]) (fun X => (X == j :: [seq i <- js | i \in S])%:R) = 0.
    rewrite -[RHS](@gen_out R N js (codeA A j (A j j - 1)) j (fun X => X == j :: [seq i <- js | i \in S]) jn).
    by apply: eq_E => X; case: eqP => [->|]; rewrite ?inE ?eqxx ?andbF.
  rewrite mulr0 addr0; have [z|nz] := eqVneq (A j j) 0.
    by rewrite z mul0r (qv0 us jj c) // jS.
  rewrite -(br true) //; congr (_ * _); apply: eq_E => X.
  by rewrite eqseq_cons eqxx.
have -> : E (generic_kernel_loop js (codeA A j (A j j)) [::]) (fun X => (j :: X == [seq i <- js | i \in S])%:R) = 0.
  rewrite -[RHS](E_zero (generic_kernel_loop js (codeA A j (A j j)) [::])).
  apply: eq_E => X; case: eqP => // e.
  have : j \in [seq i <- js | i \in S] by rewrite -e inE eqxx.
  by rewrite mem_filter (negPf jS).
rewrite mulr0 add0r; have [z|nz] := eqVneq (A j j - 1) 0.
  by rewrite -opprB z oppr0 mul0r (qv0 us jj c) // (negPf jS).
by rewrite -(br false) ?(negPf jS).
Qed.

(** ** inclusion probabilities of the signed measure [qv] *)
Lemma minusI_T A T : pm (minusI A [set i in T]) T = pm A T.
Proof. by apply: eq_pm => i k iT _; rewrite !mxE inE iT /= andbF subr0. Qed.

Lemma qv_incl js T A : uniq (js ++ T) ->
  \sum_(S : {set 'I_N} | ([set i in T] \subset S) && (S \subset [set i in js ++ T])) qv (js ++ T) A S = pm A T.
Proof.
elim: js => [|j js IH] /=.
  move=> uT; rewrite (big_pred1 [set i in T]) => [|S /=]; last by rewrite andbC -eqEsubset.
  rewrite /qv /sg minusI_T; have /eqP -> : count (fun i => i \notin [set i in T]) T == 0%N.
    by rewrite -leqn0 leqNgt -has_count; apply/hasPn => i iT; rewrite inE iT.
  by rewrite mul1r.
move=> /andP[jn u]; rewrite -[RHS]IH //.
have jT : j \notin T by apply: contra jn; rewrite mem_cat orbC => ->.
rewrite (bigID (fun S : {set 'I_N} => j \in S)) /=.
under [RHS]eq_bigr do rewrite -(qv_add A _ jn).
rewrite [RHS]big_split /=; congr (_ + _).
- rewrite (reindex_onto (fun S : {set 'I_N} => j |: S) (fun S => S :\ j)) /=; last first.
    by move=> S /andP[_ jS]; rewrite setD1K.
  apply: eq_bigl => S; rewrite !inE eqxx /= andbT.
  have -> : ((j |: S) :\ j == S) = (j \notin S).
    apply/eqP/idP => [<-|jS]; first by rewrite !inE eqxx.
    by rewrite setU1K.
  have [jS|jS] := boolP (j \in S); rewrite ?andbF ?andbT /=.
    apply/esym/negP => /andP[_ /subsetP/(_ _ jS)]; by rewrite inE (negbTE jn).
  congr andb.
    apply/subsetP/subsetP => h i iT; last by rewrite inE h // orbT.
    have := h i iT; rewrite !inE => /orP[/eqP e|//]; by move: iT; rewrite inE e (negbTE jT).
  apply/subsetP/subsetP => h i iS; last by move: iS; rewrite !inE => /orP[->//|/h]; rewrite inE => ->; rewrite orbT.
  have := h i; rewrite !inE iS orbT => /(_ isT) /orP[/eqP e|//]; by rewrite -e iS in jS.
- under [RHS]eq_bigl => S.
    have -> : ([set i in T] \subset S) && (S \subset [set i in js ++ T]) =
      (([set i in T] \subset S) && (S \subset [set i in j :: js ++ T])) && (j \notin S).
      have [jS|jS] := boolP (j \in S); rewrite ?andbF ?andbT /=.
        by apply/negP => /andP[_ /subsetP/(_ _ jS)]; rewrite inE (negbTE jn).
      congr andb; apply/subsetP/subsetP => h i iS; first by have := h i iS; rewrite !inE => ->; rewrite orbT.
      by have := h i iS; rewrite !inE => /orP[/eqP e|//]; rewrite -e iS in jS.
    over.
  apply: eq_bigr => S /andP[_ jS]; congr (qv _ _ _).
  by apply/esym/setDidPl; rewrite disjoint_sym disjoints1.
Qed.

(** inclusion sums determine a function of sets *)
Lemma incl_inj (p q : {set 'I_N} -> R) : (forall T : {set 'I_N}, \sum_(S : {set 'I_N} | T \subset S) p S = \sum_(S : {set 'I_N} | T \subset S) q S) ->
  forall S, p S = q S.
Proof.
move=> h S; have [n] := ubnP #|~: S|; elim: n S => // n IH S; rewrite ltnS => le.
have := h S; rewrite (bigD1 S) // [in RHS](bigD1 S) //=.
rewrite (eq_bigr q); first by move/addIr.
move=> S' /andP[sub ne]; apply: IH; apply: leq_trans le; apply: proper_card.
by rewrite properE setCS sub /= setCS; apply: contra ne => h'; rewrite eqEsubset sub h'.
Qed.
End Q.
