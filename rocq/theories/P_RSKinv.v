(** * C30, C56: RSK is a bijection; the law of the Young diagram of PoissonizedPlancherel is the Plancherel measure *)
From mathcomp Require Import all_ssreflect all_algebra.
From Verif Require Import Prob McmcModel ExoticModel P_Perm P_Descent P_RSK.
Set Implicit Arguments. Unset Strict Implicit. Unset Printing Implicit Defensive.
Import Order.Theory.
Local Open Scope order_scope.

Section Inj.
Variables (d : unit) (T : orderType d).
Implicit Types (x y : T) (r row : seq T) (P : seq (seq T)) (Q : seq (seq nat)).

Lemma unbump_index x0 row k y : sorted <=%O row -> (k < size row)%N -> y < nth x0 row k ->
  (forall j, (j < k)%N -> nth x0 row j <= y) ->
  find (fun z => nth x0 row k <= z) (set_nth x0 row k y) = k.+1.
Proof.
move=> so ks yk ky; set b := nth x0 row k; set r' := set_nth _ _ _ _.
have sz : size r' = size row by rewrite size_set_nth_in.
have lo j : (j <= k)%N -> nth x0 r' j < b.
  rewrite nth_set_nth /= leq_eqVlt => /orP[/eqP ->|jk]; first by rewrite eqxx.
  by rewrite ltn_eqF //; apply: le_lt_trans yk; apply: ky.
have hi j : (k < j < size row)%N -> b <= nth x0 r' j.
  by case/andP => kj js; rewrite nth_set_nth /= gtn_eqF //; apply: row_le; rewrite // ltnW.
apply/eqP; rewrite eqn_leq; apply/andP; split; last first.
  rewrite ltnNge; apply/negP => fk; have hs : has (fun z => b <= z) r'.
    by rewrite has_find sz (leq_ltn_trans fk).
  by have := nth_find x0 hs; rewrite leNgt lo.
case: (ltnP k.+1 (size row)) => k1s.
  rewrite leqNgt; apply/negP => h; have := before_find x0 h.
  by rewrite /= hi // ltnSn.
by apply: leq_trans (find_size _ _) _; rewrite sz.
Qed.

Lemma insert_inj it x x2 P P2 Q Q2 : wf P -> wf P2 -> shape P = map size Q -> shape P2 = map size Q2 ->
  all (all (fun m => m < it)%N) Q -> all (all (fun m => m < it)%N) Q2 ->
  rsk_insert it x P Q = rsk_insert it x2 P2 Q2 -> [/\ x = x2, P = P2 & Q = Q2].
Proof.
have nit (q : seq nat) : all (fun m => m < it)%N q -> it \in q -> False by move=> /allP h /h; rewrite ltnn.
have itr (q : seq nat) : it \in rcons q it by rewrite mem_rcons mem_head.
elim: P Q P2 Q2 x x2 => [|r1 P IH] [|q1 Q] [|r2 P2] [|q2 Q2] x x2 //.
- by move=> _ _ _ _ _ _ [->].
- move=> _; rewrite wf_cons => /andP[/andP[n2 _] _] _ [s2 _] _ /andP[a2 _] /=.
  case: ifP => _ [] // e1 e2 e3 e4; last by move: (nit _ a2); rewrite -e3 mem_head => /(_ isT).
  by have := congr1 size e3; rewrite size_rcons -s2; case: (size r2) n2.
- rewrite wf_cons => /andP[/andP[n1 _] _] _ [s1 _] _ /andP[a1 _] _ /=.
  case: ifP => _ [] // e1 e2 e3 e4; last by move: (nit _ a1); rewrite e3 mem_head => /(_ isT).
  by have := congr1 size e3; rewrite size_rcons -s1; case: (size r1) n1.
rewrite !wf_cons => /andP[/andP[n1 so1] wP] /andP[/andP[n2 so2] wP2] [s1 sPQ] [s2 sPQ2] /andP[a1 aQ] /andP[a2 aQ2] /=.
case: ifP => [la|/negbT nla]; case: ifP => [la2|/negbT nla2] [].
- by move=> /rcons_inj[-> ->] -> /rcons_inj[->] ->.
- by move=> _ _ e _; case: (nit _ a2); rewrite -e.
- by move=> _ _ e _; case: (nit _ a1); rewrite e.
move=> eR eP -> eQ.
have [ks xk ky] := bisectP x so1 nla; have [ks2 xk2 ky2] := bisectP x so2 nla2.
have E2 : nth x2 r2 (bisect_right r2 x2) = nth x r2 (bisect_right r2 x2) by apply: set_nth_default.
have e : rsk_insert it (nth x r1 (bisect_right r1 x)) P Q = rsk_insert it (nth x2 r2 (bisect_right r2 x2)) P2 Q2.
  by apply: injective_projections.
have [eb -> ->] := IH _ _ _ _ _ wP wP2 sPQ sPQ2 aQ aQ2 e.
rewrite E2 in eb; rewrite (set_nth_any x2 x) // in eR.
move: ks xk ky ks2 xk2 ky2 eb eR; set k := bisect_right r1 x; set k2 := bisect_right r2 x2 => ks xk ky ks2 xk2 ky2 eb eR.
have kk : k = k2.
  by have := unbump_index so1 ks xk ky; rewrite eb eR (unbump_index so2 ks2 xk2 ky2) => -[].
rewrite -kk in ks2 xk2 ky2 eb eR.
have xx : x = x2 by have := congr1 (fun s => nth x s k) eR; rewrite !nth_set_nth /= eqxx.
split=> //; congr (_ :: _).
have sz : size r1 = size r2 by have := congr1 size eR; rewrite !size_set_nth_in.
apply: (@eq_from_nth _ x) => // i _; have := congr1 (fun s => nth x s i) eR; rewrite !nth_set_nth /=.
by case: ifP => [/eqP ->|//]; rewrite eb.
Qed.

Lemma loop_rcons it (s : seq T) x P Q : rsk_loop it (rcons s x) P Q =
  let r := rsk_loop it s P Q in rsk_insert (it + size s) x r.1 r.2.
Proof.
elim: s it P Q => [|y s IH] it P Q /=; first by rewrite addn0; case: (rsk_insert _ _ _ _).
by rewrite IH /= addSnnS.
Qed.

Lemma RSK_rcons (s : seq T) x : RSK (rcons s x) = rsk_insert (size s).+1 x (RSK s).1 (RSK s).2.
Proof. by rewrite /RSK loop_rcons /= add1n. Qed.

Lemma RSK_inv (s : seq T) :
  [/\ wf (RSK s).1, sorted (@below _ T) (RSK s).1, shape (RSK s).1 = map size (RSK s).2 & perm_eq (flatten (RSK s).1) s] /\
  [/\ wf (RSK s).2, sorted (@below _ [orderType of nat]) (RSK s).2 & perm_eq (flatten (RSK s).2) (iota 1 (size s))].
Proof.
have [[h1 h2 h3 h] h'] := @loop_inv _ T 1 s [::] [::] 0 isT isT erefl isT isT (perm_refl _) erefl.
rewrite cats0 in h; by split.
Qed.

Lemma RSK_labels (s : seq T) : all (all (fun m => m < (size s).+1)%N) (RSK s).2.
Proof.
have [_ [_ _ pm]] := RSK_inv s; apply/allP => q qQ; apply/allP => m mq.
have : m \in flatten (RSK s).2 by apply/flattenP; exists q.
by rewrite (perm_mem pm) mem_iota => /andP[].
Qed.

(** C30: no two sequences give the same pair of tableaux *)
Theorem C30_injective (s t : seq T) : RSK s = RSK t -> s = t.
Proof.
elim/last_ind: s t => [|s x IH] t e.
  have [[_ _ _ h] _] := RSK_inv t; rewrite -e /= in h.
  by have := perm_size h; case: t {e h}.
elim/last_ind: t e => [|t y _] e.
  have [[_ _ _ h] _] := RSK_inv (rcons s x); rewrite e /= in h.
  by have := perm_size h; rewrite size_rcons.
have st : size s = size t.
  have [_ [_ _ h]] := RSK_inv (rcons s x); have [_ [_ _ h']] := RSK_inv (rcons t y).
  by have := perm_size h; rewrite e (perm_size h') !size_iota !size_rcons => -[].
have [[w1 _ sh1 _] _] := RSK_inv s; have [[w2 _ sh2 _] _] := RSK_inv t.
rewrite !RSK_rcons -st in e.
have lt := RSK_labels t; rewrite -st in lt.
have [-> eP eQ] := insert_inj w1 w2 sh1 sh2 (RSK_labels s) lt e.
by rewrite (IH t) //; apply: injective_projections.
Qed.
End Inj.

(** ** Surjectivity: reverse insertion *)
Section Surj.
Variables (d : unit) (T : orderType d).
Implicit Types (x y : T) (r row : seq T) (P : seq (seq T)) (Q : seq (seq nat)).
Notation belowT := (@below _ T).
Notation belowN := (@below _ [orderType of nat]).

Lemma map_size_cons (A : Type) (q : seq A) (Q : seq (seq A)) : map size (q :: Q) = size q :: map size Q.
Proof. by []. Qed.

(** what can be undone: [x] left the first row of P' *)
Lemma uninsert it P' Q' x0 : wf P' -> sorted belowT P' -> shape P' = map size Q' ->
  wf Q' -> sorted belowN Q' -> it \in flatten Q' -> uniq (flatten Q') -> all (all (fun m => m <= it)%N) Q' ->
  exists x P Q, [/\ rsk_insert it x P Q = (P', Q'), wf P, sorted belowT P & shape P = map size Q] /\
    [/\ wf Q, sorted belowN Q &
     exists2 k1, (k1 < size (head [::] P'))%N /\ nth x0 (head [::] P') k1 = x &
       [/\ (size (head [::] P) <= size (head [::] P'))%N, (size (head [::] Q) <= size (head [::] Q'))%N,
        forall j, (j < size (head [::] P))%N -> nth x0 (head [::] P') j <= nth x0 (head [::] P) j /\ ((k1 <= j)%N -> x < nth x0 (head [::] P) j) &
        forall j, (j < size (head [::] Q))%N -> nth 0%N (head [::] Q') j = nth 0%N (head [::] Q) j]].
Proof.
elim: P' Q' => [|r' P' IH] [|q Q'] //; rewrite !wf_cons => /andP[/andP[n1 so1] wP] sP [sq sPQ] /andP[/andP[nq soq] wQ] sQ itQ uq /andP[aq aQ].
have {sP} pP : path belowT r' P' by exact: sP.
have {sQ} pQ : path belowN q Q' by exact: sQ.
case itq: (it \in q).
  (* the label [it] is the last one of the first row *)
  have [q1 eq1] : exists q1, q = rcons q1 it.
    case/lastP: q nq soq aq itq {itQ sq uq pQ} => // q1 m _ soq aq itq; exists q1; congr rcons.
    apply/eqP; rewrite eqn_leq; apply/andP; split.
      by have := allP aq m; rewrite mem_rcons mem_head; apply.
    have [k ks ek] := nthP 0%N itq; rewrite size_rcons in ks.
    have -> : m = nth 0%N (rcons q1 m) (size q1) by rewrite nth_rcons ltnn eqxx.
    by rewrite -ek; apply: (@row_le _ [orderType of nat]); rewrite // size_rcons leqnn andbT -ltnS.
  case/lastP: r' n1 so1 sq pP => // r x _ so1 sq pP.
  have szrq : size r = size q1 by move: sq; rewrite eq1 !size_rcons => -[].
  have szP : (size (head [::] P') <= size r)%N.
    case: P' Q' wP sPQ wQ itQ uq aQ pP pQ {IH} => [|r2 P'] [|q2 Q'] // _ [s2 _] _ _ _ aQ _ /andP[b2 _].
    have [sz2 lt2] := belowP 0%N _ _ b2; rewrite /= s2 szrq leqNgt; apply/negP => h.
    have := lt2 _ h; rewrite eq1 nth_rcons ltnn eqxx ltNge => /negP; apply.
    by case/andP: aQ => /allP h2 _; apply: h2; apply: mem_nth.
  have sr : sorted <=%O r by move: so1; rewrite -cats1; exact: (subseq_sorted le_trans (prefix_subseq _ _)).
  have [r0|rn0] := posnP (size r).
    have P0 : P' = [::].
      case: P' wP szP {IH sPQ pP} => // r2 P'; rewrite wf_cons r0 /= leqn0 => /andP[/andP[n2 _] _] /eqP e.
      by rewrite e in n2.
    have Q0 : Q' = [::] by case: Q' sPQ {IH wQ itQ uq aQ pQ}; rewrite P0.
    have r0' : r = [::] by apply: size0nil.
    have q0' : q1 = [::] by apply: size0nil; rewrite -szrq.
    by exists x, [::], [::]; rewrite P0 Q0 eq1 r0' q0'; split=> //=; split=> //; exists 0%N.
  exists x, (r :: P'), (q1 :: Q'); rewrite /= eq1.
  have lr : last x r <= x.
    rewrite -nth_last (set_nth_default x0) ?prednK //.
    have := @row_le _ _ x0 (rcons r x) (size r).-1 (size r) so1; rewrite !nth_rcons ltnn eqxx prednK // leqnn size_rcons.
    by rewrite leq_pred ltnS leqnn; apply.
  have sq1 : sorted leq q1 by move: soq; rewrite eq1 -cats1; exact: (subseq_sorted leq_trans (prefix_subseq _ _)).
  split; first split.
  - by rewrite lr.
  - by rewrite rn0 sr.
  - case: P' szP wP pP {IH sPQ} => // r2 P' szP _; rewrite !cons_path => /andP[b2 pP]; rewrite pP andbT.
    have [sz2 lt2] := belowP x _ _ b2; apply/(belowP x); split=> // j js.
    by have := lt2 j js; rewrite nth_rcons (leq_trans js szP).
  - by rewrite szrq; congr (_ :: _).
  split.
  - by rewrite -szrq rn0 sq1.
  - have szQ : (size (head [::] Q') <= size q1)%N.
      by rewrite -szrq; move: szP sPQ; case: P' {IH wP pP} => [|r2 P']; case: Q' {wQ itQ uq aQ pQ} => [|q2 Q'] //= h [<- _].
    case: Q' szQ pQ {IH sPQ wQ itQ uq aQ} => // q2 Q' szQ; rewrite !cons_path => /andP[b2 pQ]; rewrite pQ andbT.
    have [sz2 lt2] := belowP 0%N _ _ b2; apply/(belowP 0%N); split=> // j js.
    by have := lt2 j js; rewrite eq1 nth_rcons (leq_trans js szQ).
  exists (size r); first by rewrite size_rcons nth_rcons ltnn eqxx.
  rewrite !size_rcons; split=> // [j js|j js]; rewrite nth_rcons js //.
  by split=> // /(leq_trans js); rewrite ltnn.
(* the label is lower: undo the insertion there, then bump out of the first row *)
move: itQ uq; rewrite /= mem_cat itq /= cat_uniq => itQ /and3P[_ _ uQ].
have [x [P [Q [[eI wP0 sP0 sh0] [wQ0 sQ0 [k1 [k1s ek1] [szP szQ hP hQ]]]]]]] :=
  IH Q' wP (path_sorted pP) sPQ wQ (path_sorted pQ) itQ uQ aQ.
have bel : belowT r' (head [::] P').
  by case: P' pP {IH wP sPQ eI k1s ek1 szP hP} => [|r2 P']; [by case: (r')|rewrite cons_path => /andP[]].
have belQ : belowN q (head [::] Q').
  by case: Q' pQ {IH sPQ wQ itQ uQ aQ eI szQ hQ} => [|r2 Q']; [by case: (q)|rewrite cons_path => /andP[]].
have [szb ltb] := belowP x0 _ _ bel; have [szbq ltbq] := belowP 0%N _ _ belQ.
(* the index k: the last entry of r' smaller than x *)
have lk1 : nth x0 r' k1 < x by rewrite -ek1; apply: ltb.
set ge := fun z : T => x <= z; pose k := (find ge r').-1.
have k1f : (k1 < find ge r')%N.
  rewrite ltnNge; apply/negP => h; have hs : has ge r'.
    by rewrite has_find (leq_ltn_trans h) // (leq_trans k1s).
  have := nth_find x0 hs; rewrite /ge leNgt => /negP; apply; apply: le_lt_trans lk1; apply: row_le => //.
  by rewrite h (leq_trans k1s).
have kf : k.+1 = find ge r' by rewrite /k prednK // (leq_ltn_trans _ k1f).
have k1k : (k1 <= k)%N by rewrite -ltnS kf.
have ks : (k < size r')%N by rewrite kf find_size.
have lo j : (j <= k)%N -> nth x0 r' j < x.
  by move=> jk; rewrite ltNge; apply/negbT/(before_find x0); rewrite -kf ltnS.
have hi j : (k < j < size r')%N -> x <= nth x0 r' j.
  case/andP=> kj js; have hs : has ge r' by rewrite has_find -kf (leq_ltn_trans kj).
  by apply: le_trans (nth_find x0 hs) _; rewrite -kf; apply: row_le; rewrite // kj.
set y := nth x0 r' k; set r := set_nth x0 r' k x.
have szr : size r = size r' by rewrite size_set_nth_in.
have nr j : nth x0 r j = if j == k then x else nth x0 r' j by rewrite /r nth_set_nth.
have yx : y < x by apply: lo.
have sor : sorted <=%O r.
  apply/(sortedP x0) => i; rewrite szr !nr => is1; case: (altP (i =P k)) => [e|ik].
    by rewrite e in is1 *; rewrite (gtn_eqF (ltnSn k)) hi // ltnSn.
  case: (altP (i.+1 =P k)) => [e|_]; last by apply: row_le; rewrite ?leqnSn.
  by apply: ltW; apply: lo; rewrite -e.
have nl : ~~ (last y r <= y).
  rewrite -ltNge; apply: lt_le_trans yx _; rewrite -nth_last (set_nth_default x0) ?szr ?prednK //.
  have -> : x = nth x0 r k by rewrite nr eqxx.
  by apply: row_le; rewrite // szr prednK // leqnn andbT -ltnS prednK.
have bk : bisect_right r y = k.
  have [bs yb by_] := bisectP x0 sor nl; apply/eqP; rewrite eqn_leq; apply/andP; split; rewrite leqNgt; apply/negP => h.
    by have := by_ _ h; rewrite nr eqxx leNgt yx.
  move: yb; rewrite nr ltn_eqF // ltNge => /negP; apply; apply: row_le => //; by rewrite ltnW.
exists y, (r :: P), (q :: Q); split; first split.
- have rE : nth y r k = x by rewrite (set_nth_default x0) ?szr // nr eqxx.
  rewrite /= (negbTE nl) bk rE eI /=; congr (_ :: _, _).
  rewrite (set_nth_any y x0) ?szr //; apply: (@eq_from_nth _ x0) => [|i _]; first by rewrite size_set_nth_in ?szr.
  by rewrite nth_set_nth /= nr; case: (altP (i =P k)) => [->|].
- by rewrite wf_cons szr n1 sor.
- case: P {eI sh0} wP0 sP0 szP hP => // r2 P _ sP0 szP hP.
  have -> : sorted belowT (r :: r2 :: P) = below r r2 && sorted belowT (r2 :: P) by [].
  rewrite sP0 andbT; apply/(belowP x0); rewrite szr; split=> [|j js]; first exact: leq_trans szP szb.
  have [h1 h2] := hP j js; rewrite nr; case: (altP (j =P k)) => [e|_]; first by apply: h2; rewrite e.
  by apply: lt_le_trans h1; apply: ltb; apply: leq_trans szP.
- by rewrite /= szr sq; congr (_ :: _).
split.
- by rewrite wf_cons nq soq.
- case: Q {eI sh0} wQ0 sQ0 szQ hQ => // q2 Q _ sQ0 szQ hQ.
  have -> : sorted belowN (q :: q2 :: Q) = below q q2 && sorted belowN (q2 :: Q) by [].
  rewrite sQ0 andbT; apply/(belowP 0%N); split=> [|j js]; first exact: leq_trans szQ szbq.
  by rewrite -hQ //; apply: ltbq; apply: leq_trans szQ.
exists k; first by [].
rewrite /= szr; split=> // j js; rewrite nr; split.
  by case: (altP (j =P k)) => [->|_]; [exact: ltW|].
by rewrite leq_eqVlt => /orP[/eqP <-|kj]; rewrite ?eqxx // gtn_eqF //; apply: lt_le_trans yx _; apply: hi; rewrite kj.
Qed.

Lemma of_semistandard d' (T' : orderType d') (y0 : T') (P : seq (seq T')) : semistandard y0 P -> wf P /\ sorted (@below _ T') P.
Proof.
case=> -[so po] hr hc; split.
  apply/allP => r /(nthP [::])[i iP <-]; apply/andP; split.
    by have /allP := po; apply; apply: map_f; apply: mem_nth.
  by apply/(sortedP y0) => j js; apply: hr; rewrite /cell iP.
apply/(sortedP [::]) => i iP; apply/(belowP y0); split=> [|j js]; last by apply: hc; rewrite /cell iP.
have := sortedP 0%N so i; rewrite size_map => /(_ iP).
by rewrite !(nth_map [::]) // ltnW.
Qed.

Lemma RSK_onto (x0 : T) n P Q : wf P -> sorted belowT P -> shape P = map size Q -> wf Q -> sorted belowN Q ->
  perm_eq (flatten Q) (iota 1 n) -> exists s : seq T, RSK s = (P, Q) /\ size s = n.
Proof.
elim: n P Q => [|n IH] P Q wP sP sh wQ sQ pQ.
  have Q0 : Q = [::].
    case: Q wQ pQ {sh sQ} => // q Q; rewrite wf_cons => /andP[/andP[nq _] _] /perm_size /=.
    by rewrite size_cat; case: (size q) nq.
  have P0 : P = [::] by move: sh; rewrite Q0; case: P {wP sP}.
  by exists [::]; rewrite P0 Q0.
have itQ : n.+1 \in flatten Q by rewrite (perm_mem pQ) mem_iota add1n ltnSn.
have uQ : uniq (flatten Q) by rewrite (perm_uniq pQ) iota_uniq.
have aQ : all (all (fun m => m <= n.+1)%N) Q.
  apply/allP => q qQ; apply/allP => m mq; have : m \in flatten Q by apply/flattenP; exists q.
  by rewrite (perm_mem pQ) mem_iota add1n ltnS => /andP[].
have [x [P0 [Q0 [[e wP0 sP0 sh0] [wQ0 sQ0 _]]]]] := uninsert x0 wP sP sh wQ sQ itQ uQ aQ.
have pQ0 : perm_eq (flatten Q0) (iota 1 n).
  have := insert_permQ n.+1 x sh0; rewrite e /= => h; rewrite -(perm_cons n.+1); apply: (perm_trans _ (perm_trans pQ _)).
    by rewrite perm_sym.
  by rewrite -[in iota _ n.+1](addn1 n) (iotaD 1 n 1) (perm_catC (iota 1 n) (iota (1 + n) 1)) add1n.
have [s [es sn]] := IH _ _ wP0 sP0 sh0 wQ0 sQ0 pQ0.
by exists (rcons s x); rewrite RSK_rcons es size_rcons sn.
Qed.

(** C30: every pair (semistandard, standard) of the same shape is the image of exactly one sequence *)
Theorem C30_bijective (x0 : T) n P Q : semistandard x0 P -> standard n Q -> shape P = shape Q ->
  exists2 s : seq T, RSK s = (P, Q) & forall t, RSK t = (P, Q) -> t = s.
Proof.
move=> /of_semistandard[wP sP] [/of_semistandard[wQ sQ] pQ] sh.
have [s [e _]] := RSK_onto x0 wP sP sh wQ sQ pQ; exists s => // t et.
by apply: C30_injective; rewrite e et.
Qed.
End Surj.

(** ** The Plancherel measure *)
Section Plancherel.
Variable R : rcfType.

Lemma standard_shift n (P : seq (seq nat)) : (semistandard 0%N P /\ perm_eq (flatten P) (iota 0 n)) <-> standard n (map (map succn) P).
Proof.
rewrite /standard; have -> : perm_eq (flatten (map (map succn) P)) (iota 1 n) = perm_eq (flatten P) (iota 0 n).
  rewrite -map_flatten -[1%N]/(1 + 0)%N iotaDl; apply/idP/idP => [|/(perm_map succn) //].
  move/(perm_map predn); rewrite -!map_comp !map_id_in //.
have ce i j : cell (map (map succn) P) i j = cell P i j.
  by rewrite /cell size_map; case: (ltnP i (size P)) => //= iP; rewrite (nth_map [::]) // size_map.
have en i j : cell P i j -> entry 0%N (map (map succn) P) i j = (entry 0%N P i j).+1.
  by case/andP => iP js; rewrite /entry (nth_map [::]) // (nth_map 0%N).
have c1 i j : cell P i j.+1 -> cell P i j by case/andP => iP js; rewrite /cell iP ltnW.
have sh : shape (map (map succn) P) = shape P by rewrite /shape -map_comp; apply: eq_map => r /=; rewrite size_map.
have c2 : sorted geq (shape P) -> forall i j, cell P i.+1 j -> cell P i j.
  move=> so i j /andP[iP js]; rewrite /cell (ltnW iP) /=; apply: leq_trans js _.
  have := sortedP 0%N so i; rewrite size_map => /(_ iP); by rewrite !(nth_map [::]) // ltnW.
split=> -[[[so po] hr hc] pm]; split=> //; split.
- by rewrite sh.
- by move=> i j; rewrite ce => h; rewrite (en _ _ h) (en _ _ (c1 _ _ h)); apply: hr.
- by move=> i j; rewrite ce => h; rewrite (en _ _ h) (en _ _ (c2 so _ _ h)); apply: hc.
- by rewrite -sh.
- by move=> i j h; have := hr i j; rewrite ce (en _ _ h) (en _ _ (c1 _ _ h)) => /(_ h).
- by rewrite sh in so; move=> i j h; have := hc i j; rewrite ce (en _ _ h) (en _ _ (c2 so _ _ h)) => /(_ h).
Qed.

(** C56: conditionally on N, the diagram lambda has probability f_lambda^2 / N!, f_lambda being the number of standard
    tableaux of shape lambda ([ts] is any duplicate-free enumeration of them) *)
Theorem C56_plancherel_law (N : nat) (lam : seq nat) (ts : seq (seq (seq nat))) :
  uniq ts -> (forall t, t \in ts <-> standard N t /\ shape t = lam) ->
  (Pr (plancherel_sample R N) (fun r => r.1 == lam) = ((size ts) ^ 2)%:R / N`!%:R)%R.
Proof.
move=> uts ets; pose A := [seq s <- permutations (iota 0 N) | young_diag s == lam].
have A_sz s : s \in A -> [/\ perm_eq s (iota 0 N), size s = N & young_diag s = lam].
  by rewrite mem_filter mem_permutations => /andP[/eqP e p]; rewrite (perm_size p) size_iota.
pose phi (s : seq nat) := ([seq map succn r | r <- (RSK s).1], (RSK s).2).
have phi_inj : injective phi.
  move=> s t [e1 e2]; apply: C30_injective; apply: injective_projections => //.
  by apply: inj_map e1; apply: inj_map; apply: succn_inj.
have key : perm_eq (map phi A) [seq (a, b) | a <- ts, b <- ts].
  apply: uniq_perm.
  - by rewrite map_inj_uniq // filter_uniq // permutations_uniq.
  - by apply: allpairs_uniq => // -[a b] [a' b'] _ _ [-> ->].
  move=> [a b]; apply/mapP/allpairsP => [[s sA [ea eb]]|[[a' b'] /= [ha hb [ea eb]]]].
    have [p sz sh] := A_sz s sA.
    have [ss pm] := C29_insertion_tableau 0%N s; have st := C29_recording_tableau s; have shs := C29_same_shape s.
    exists (a, b) => /=; split=> //; apply/ets.
      rewrite ea; split; first by apply/standard_shift; split=> //; apply: perm_trans pm p.
      by rewrite -sh /shape -map_comp; apply: eq_map => r /=; rewrite size_map.
    by rewrite eb -sz; split=> //; rewrite -shs -sh.
  subst a' b'; case/ets: ha => sa sha; case/ets: hb => sb shb.
  pose P := [seq map predn r | r <- a].
  have pa : a = map (map succn) P.
    rewrite -map_comp -[LHS]map_id; apply/eq_in_map => r ra /=; rewrite -map_comp -[LHS]map_id; apply/eq_in_map => m mr /=.
    rewrite prednK //; have [_ pm] := sa; have : m \in flatten a by apply/flattenP; exists r.
    by rewrite (perm_mem pm) mem_iota => /andP[].
  rewrite pa in sa; have [sP pP] := (standard_shift N P).2 sa.
  have shP : shape P = shape b.
    by rewrite shb -sha /shape -map_comp; apply: eq_map => r /=; rewrite size_map.
  have [s es _] := C30_bijective sP sb shP.
  exists s; last by rewrite /phi es pa.
  have [_ pm] := C29_insertion_tableau 0%N s; rewrite es /= in pm.
  rewrite mem_filter mem_permutations; apply/andP; split; last by rewrite perm_sym in pm; apply: perm_trans pm pP.
  by rewrite /young_diag es /= -shb -shP.
have szA : size A = (size ts ^ 2)%N by rewrite -(size_map phi) (perm_size key) size_allpairs mulnn.
rewrite /Pr /plancherel_sample E_bind uniform_E GRing.mulrC; congr (_ * _)%R.
rewrite -szA size_filter -sum1_count GRing.natr_sum [RHS]big_mkcond /=; apply: eq_bigr => s _.
by rewrite -[LHS]/((young_diag s == lam)%:R%R); case: (_ == _).
Qed.

(** such enumerations exist for every N and lambda *)
Theorem C56_enumeration (N : nat) (lam : seq nat) :
  exists2 ts, uniq ts & forall t, t \in ts <-> standard N t /\ shape t = lam.
Proof.
exists (undup [seq (RSK s).2 | s <- [seq s <- permutations (iota 0 N) | young_diag s == lam]]); first exact: undup_uniq.
move=> t; rewrite mem_undup; split=> [/mapP[s + ->]|[st sh]].
  rewrite mem_filter mem_permutations => /andP[/eqP <- p].
  have sz : size s = N by rewrite (perm_size p) size_iota.
  by rewrite -{1}sz; split; [exact: C29_recording_tableau|rewrite -C29_same_shape].
pose P := [seq map predn r | r <- t].
have pa : t = map (map succn) P.
  rewrite -map_comp -[LHS]map_id; apply/eq_in_map => r ra /=; rewrite -map_comp -[LHS]map_id; apply/eq_in_map => m mr /=.
  rewrite prednK //; have [_ pm] := st; have : m \in flatten t by apply/flattenP; exists r.
  by rewrite (perm_mem pm) mem_iota => /andP[].
have st' := st; rewrite {1}pa in st'; have [sP pP] := (standard_shift N P).2 st'.
have shP : shape P = shape t by rewrite /shape -map_comp; apply: eq_map => r /=; rewrite size_map.
have [s es _] := C30_bijective sP st shP.
have [_ pm] := C29_insertion_tableau 0%N s; rewrite es /= in pm.
apply/mapP; exists s; last by rewrite es.
rewrite mem_filter mem_permutations /young_diag es /= -sh -shP eqxx /=.
by rewrite perm_sym in pm; apply: perm_trans pm pP.
Qed.

End Plancherel.
