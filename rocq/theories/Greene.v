(** * Greene: unions of increasing subsequences are plactic invariants and are read off the tableau. *)
From mathcomp Require Import all_ssreflect.
From Verif Require Import ExoticModel P_RSK P_RSKinv P_Schensted Knuth.
Set Implicit Arguments. Unset Strict Implicit. Unset Printing Implicit Defensive.
Import Order.Theory.
Local Open Scope order_scope.

Section Greene.
Variables (d : unit) (T : orderType d).
Implicit Types (x y z : T) (s t u v w : seq T) (P : seq (seq T)).

Lemma sub2 t x y : subseq t [:: x; y] -> t \in [:: [::]; [:: x]; [:: y]; [:: x; y]].
Proof.
move=> /subseqP[m]; case: m => [|a [|b [|? ?]]] // _ ->.
by case: a; case: b; rewrite /= !inE eqxx ?orbT.
Qed.

(** decidability of [lds_le] *)
Definition ldsb k s : bool := [forall m : (size s).-tuple bool, dec (mask m s) ==> (size (mask m s) <= k)%N].
Lemma ldsP k s : reflect (lds_le k s) (ldsb k s).
Proof.
apply: (iffP forallP) => [h t /subseqP[m sm ->] dt|h m].
  have sm' : size m == size s by rewrite sm.
  by have := h (Tuple sm'); rewrite dt.
by apply/implyP => dm; apply: h => //; exact: mask_subseq.
Qed.
Lemma not_lds k s : ~~ ldsb k s -> exists t, [/\ subseq t s, dec t & (k < size t)%N].
Proof.
rewrite negb_forall => /existsP[m]; rewrite negb_imply -ltnNge => /andP[dm km].
by exists (mask m s); split=> //; exact: mask_subseq.
Qed.

Lemma lds_flip k t1 t2 x z : x <= z -> lds_le k (t1 ++ [:: z; x] ++ t2) -> lds_le k (t1 ++ [:: x; z] ++ t2).
Proof.
move=> xz l w /subseq_catE[w1 [r [-> s1 /subseq_catE[m [w2 [-> sm s2]]]]]] dw.
have keep m' : subseq m' [:: z; x] -> m = m' -> (size (w1 ++ m ++ w2) <= k)%N.
  by move=> sm' e; apply: l => //; apply: sub_mid => //; rewrite e.
have := sub2 sm; rewrite !inE => /or4P[/eqP e|/eqP e|/eqP e|/eqP e].
- by apply: keep e; exact: sub0seq.
- by apply: keep e; rewrite sub1seq !inE eqxx orbT.
- by apply: keep e; rewrite sub1seq !inE eqxx.
- by move: dw; rewrite e dec2 ltNge xz andbF.
Qed.

Lemma exchange k t1 t2 x y z g dl a b : x <= y -> y <= z -> lds_le k (t1 ++ [:: x; z] ++ t2) ->
  subseq g t1 -> subseq a t1 -> subseq dl t2 -> subseq b t2 ->
  dec (g ++ [:: z; x] ++ dl) -> dec (a ++ [:: y] ++ b) ->
  (k < size (g ++ [:: z; x] ++ dl))%N -> (k < size (a ++ [:: y] ++ b))%N -> False.
Proof.
move=> xy yz l sg sa sd sb; rewrite dec2 (dec1 a y b) => /and5P[g1 _ d1 dg dd] /and4P[a1 b1 da db].
rewrite !size_cat /= => k1 k2.
have h1 : (size (g ++ [:: z] ++ b) <= k)%N.
  apply: l; first by apply: sub_mid => //; rewrite sub1seq !inE eqxx orbT.
  by rewrite (dec1 g z b) g1 (all_gt_le yz b1) dg db.
have h2 : (size (a ++ [:: x] ++ dl) <= k)%N.
  apply: l; first by apply: sub_mid => //; rewrite sub1seq !inE eqxx.
  by rewrite (dec1 a x dl) d1 (all_lt_le xy a1) da dd.
rewrite !size_cat /= in h1 h2.
have e : (size g + (size dl).+2 + (size a + (size b).+1) = (size g + (size b).+1 + (size a + (size dl).+1)).+1)%N.
  by rewrite !(addnS, addSn) addnACA [(size dl + _)%N]addnC addnACA.
have := leq_add h1 h2; rewrite !add1n => q; have := leq_add k1 k2.
by rewrite !add1n add2n e addSn addnS ltnS => /leq_trans/(_ q); rewrite ltnn.
Qed.

(** the maximal size of a subsequence without long decreasing subsequences is a plactic invariant *)
Lemma knuth1_greene k s s' t : knuth1 s s' \/ knuth1 s' s -> subseq t s -> lds_le k t ->
  exists t', [/\ subseq t' s', lds_le k t' & size t' = size t].
Proof.
have keep t1 t2 u v m m' : subseq t1 u -> subseq t2 v -> subseq m m' -> lds_le k (t1 ++ m ++ t2) ->
   exists t', [/\ subseq t' (u ++ m' ++ v), lds_le k t' & size t' = size (t1 ++ m ++ t2)].
  by move=> h1 h2 h3 dt; exists (t1 ++ m ++ t2); split=> //; exact: sub_mid.
(* the two difficult cases *)
have swap t1 t2 u v x y z (m2 m' : seq T) : subseq t1 u -> subseq t2 v -> x <= y -> y <= z -> x < z ->
   m2 = [:: y; z] /\ y <= z \/ m2 = [:: x; y] /\ x <= y ->
   subseq [:: z; x] m' -> subseq m2 m' -> lds_le k (t1 ++ [:: x; z] ++ t2) ->
   exists t', [/\ subseq t' (u ++ m' ++ v), lds_le k t' & size t' = size (t1 ++ [:: x; z] ++ t2)].
  move=> s1 s2 xy yz xz em2 szx sm2 l.
  have [/ldsP l1|/not_lds[w [sw dw kw]]] := boolP (ldsb k (t1 ++ [:: z; x] ++ t2)).
    by exists (t1 ++ [:: z; x] ++ t2); split=> //; [exact: sub_mid | rewrite !size_cat].
  have [/ldsP l2|/not_lds[w' [sw' dw' kw']]] := boolP (ldsb k (t1 ++ m2 ++ t2)).
    exists (t1 ++ m2 ++ t2); split=> //; first exact: sub_mid.
    by rewrite !size_cat; case: em2 => -[-> _].
  exfalso; have [g [r [ew sg /subseq_catE[m [dl [er sm sd]]]]]] := subseq_catE sw; subst r w.
  have [a [r [ew' sa /subseq_catE[n [b [er sn sb]]]]]] := subseq_catE sw'; subst r w'.
  have bad q a' b' : subseq q [:: x; z] -> subseq a' t1 -> subseq b' t2 -> dec (a' ++ q ++ b') -> (k < size (a' ++ q ++ b'))%N -> False.
    by move=> h1 h2 h3 dd; rewrite ltnNge; apply/negP; rewrite negbK; apply: l => //; exact: sub_mid.
  have em : m = [:: z; x].
    have := sub2 sm; rewrite !inE => /or4P[/eqP e|/eqP e|/eqP e|/eqP //]; rewrite e in dw kw; case: (bad _ _ _ _ sg sd dw kw).
    - exact: sub0seq.
    - by rewrite sub1seq !inE eqxx orbT.
    - by rewrite sub1seq !inE eqxx.
  have en : n = [:: y].
    case: em2 => -[e2 le2]; rewrite e2 in sn; have := sub2 sn; rewrite !inE => /or4P[/eqP e|/eqP e|/eqP e|/eqP e]; rewrite ?e // in dw' kw' *.
    - by case: (bad _ _ _ (sub0seq _) sa sb dw' kw').
    - by case: (bad _ _ _ _ sa sb dw' kw'); rewrite sub1seq !inE eqxx orbT.
    - by move: dw'; rewrite dec2 ltNge le2 andbF.
    - by case: (bad _ _ _ (sub0seq _) sa sb dw' kw').
    - by case: (bad _ _ _ _ sa sb dw' kw'); rewrite sub1seq !inE eqxx.
    - by move: dw'; rewrite dec2 ltNge le2 andbF.
  by subst m n; exact: (exchange xy yz l sg sa sd sb dw dw' kw kw').
case=> [[]|[]] u v x y z h1 h2 /subseq_catE[t1 [r [-> st1 /subseq_catE[m [t2 [-> sm st2]]]]]] lt.
- have := sub3 sm; rewrite !inE => /or4P[/eqP e|/eqP e|/eqP e|/or4P[/eqP e|/eqP e|/eqP e|/orP[/eqP e|/eqP e]]]; rewrite e in lt *.
  + by apply: keep => //; exact: sub0seq.
  + by apply: keep => //; apply: subs_1; rewrite !inE eqxx.
  + by apply: keep => //; apply: subs_1; rewrite !inE eqxx ?orbT.
  + by apply: keep => //; apply: subs_1; rewrite !inE eqxx ?orbT.
  + by apply: keep => //; exact: subs_xz.
  + by apply: keep => //; exact: subs_xy.
  + exists (t1 ++ [:: x; z] ++ t2); split; last by rewrite !size_cat.
      by apply: sub_mid => //; exact: subs_yz.
    by apply: lds_flip lt; exact: ltW (lt_le_trans h1 h2).
  + exists (t1 ++ [:: y; x; z] ++ t2); split; [exact: sub_mid| |by rewrite !size_cat].
    by apply: knuth1_lds lt; left; exact: KnuthA.
- have := sub3 sm; rewrite !inE => /or4P[/eqP e|/eqP e|/eqP e|/or4P[/eqP e|/eqP e|/eqP e|/orP[/eqP e|/eqP e]]]; rewrite e in lt *.
  + by apply: keep => //; exact: sub0seq.
  + by apply: keep => //; apply: subs_1; rewrite !inE eqxx ?orbT.
  + by apply: keep => //; apply: subs_1; rewrite !inE eqxx ?orbT.
  + by apply: keep => //; apply: subs_1; rewrite !inE eqxx ?orbT.
  + apply: (@swap _ _ _ _ x y z [:: x; y]) => //; [exact: ltW|exact: le_lt_trans h2|by right|exact: subs_xy|exact: subs_yz].
  + by apply: keep => //; exact: subs_yz.
  + by apply: keep => //; exact: subs_xz.
  + exists (t1 ++ [:: z; x; y] ++ t2); split; [exact: sub_mid| |by rewrite !size_cat].
    by apply: knuth1_lds lt; left; exact: KnuthB.
- have := sub3 sm; rewrite !inE => /or4P[/eqP e|/eqP e|/eqP e|/or4P[/eqP e|/eqP e|/eqP e|/orP[/eqP e|/eqP e]]]; rewrite e in lt *.
  + by apply: keep => //; exact: sub0seq.
  + by apply: keep => //; apply: subs_1; rewrite !inE eqxx ?orbT.
  + by apply: keep => //; apply: subs_1; rewrite !inE eqxx ?orbT.
  + by apply: keep => //; apply: subs_1; rewrite !inE eqxx ?orbT.
  + by apply: keep => //; exact: subs_xz.
  + by apply: keep => //; exact: subs_xy.
  + apply: (@swap _ _ _ _ x y z [:: y; z]) => //; [exact: ltW|exact: lt_le_trans h2|by left|exact: subs_yz|exact: subs_xy].
  + exists (t1 ++ [:: y; z; x] ++ t2); split; [exact: sub_mid| |by rewrite !size_cat].
    by apply: knuth1_lds lt; right; exact: KnuthA.
- have := sub3 sm; rewrite !inE => /or4P[/eqP e|/eqP e|/eqP e|/or4P[/eqP e|/eqP e|/eqP e|/orP[/eqP e|/eqP e]]]; rewrite e in lt *.
  + by apply: keep => //; exact: sub0seq.
  + by apply: keep => //; apply: subs_1; rewrite !inE eqxx ?orbT.
  + by apply: keep => //; apply: subs_1; rewrite !inE eqxx ?orbT.
  + by apply: keep => //; apply: subs_1; rewrite !inE eqxx ?orbT.
  + exists (t1 ++ [:: x; z] ++ t2); split; last by rewrite !size_cat.
      by apply: sub_mid => //; exact: subs_xy.
    by apply: lds_flip lt; exact: ltW (le_lt_trans h1 h2).
  + by apply: keep => //; exact: subs_yz.
  + by apply: keep => //; exact: subs_xz.
  + exists (t1 ++ [:: x; z; y] ++ t2); split; [exact: sub_mid| |by rewrite !size_cat].
    by apply: knuth1_lds lt; right; exact: KnuthB.
Qed.

Lemma knuth_greene k s s' t : knuth s s' -> subseq t s -> lds_le k t -> exists t', [/\ subseq t' s', lds_le k t' & size t' = size t].
Proof.
move=> h; elim: h t => [u|u v w _ IH h|u v w _ IH h] t st dt; first by exists t.
  have [t1 [s1 d1 <-]] := IH t st dt; exact: (knuth1_greene (or_introl h) s1 d1).
have [t1 [s1 d1 <-]] := IH t st dt; exact: (knuth1_greene (or_intror h) s1 d1).
Qed.

(** ** tableaux *)
Lemma dec_cat t1 t2 : dec (t1 ++ t2) = [&& allrel >%O t1 t2, dec t1 & dec t2].
Proof. by rewrite !decE pairwise_cat. Qed.
Lemma dec_incr t r : subseq t r -> sorted <=%O r -> dec t -> (size t <= 1)%N.
Proof.
move=> st so dt; have := subseq_sorted le_trans st so.
by case: t {st} dt => [|a [|b t]] //= /andP[ba _] /andP[ab _]; move: ba; rewrite ltNge ab.
Qed.

Lemma dec_rows (rs : seq (seq T)) t : all (sorted <=%O) rs -> subseq t (flatten rs) -> dec t -> (size t <= size rs)%N.
Proof.
elim: rs t => [|r rs IH] t; first by move=> _ /eqP ->.
move=> /= /andP[sr srs] /subseq_catE[t1 [t2 [-> s1 s2]]]; rewrite dec_cat => /and3P[_ d1 d2].
by rewrite size_cat -add1n leq_add ?(dec_incr s1) // IH.
Qed.

(** first column and remaining columns *)
Definition heads (rs : seq (seq T)) : seq T := pmap ohead rs.
Lemma column_split (rs : seq (seq T)) t : subseq t (flatten rs) ->
  exists t1 t2, [/\ subseq t1 t, subseq t2 t, size t = (size t1 + size t2)%N, subseq t1 (heads rs) & subseq t2 (flatten (map behead rs))].
Proof.
elim: rs t => [|r rs IH] t; first by move=> /eqP ->; exists [::], [::].
move=> /= /subseq_catE[a [b [-> sa /IH[t1 [t2 [s1 s2 sz h1 h2]]]]]].
case: r sa => [|x r] /=; first by move=> /eqP ->; exists t1, t2.
case: a => [|y a].
  move=> _; exists t1, t2; rewrite /= sz; split=> //; first exact: subseq_trans h1 (subseq_cons _ _).
  exact: subseq_trans h2 (suffix_subseq _ _).
case: eqP => [-> sa|_ sa].
  exists (x :: t1), (a ++ t2); split.
  - by rewrite /= eqxx; apply: subseq_trans s1 (suffix_subseq _ _).
  - by rewrite -[x :: a]cat1s -catA; apply: subseq_trans (suffix_subseq [:: x] _); rewrite cat_subseq.
  - by rewrite !size_cat sz /= addSn addnCA.
  - by rewrite /= eqxx.
  - by rewrite cat_subseq.
exists t1, ((y :: a) ++ t2); split.
- exact: subseq_trans s1 (suffix_subseq _ _).
- by rewrite cat_subseq.
- by rewrite !size_cat sz addnCA.
- exact: subseq_trans h1 (subseq_cons _ _).
- by rewrite cat_subseq.
Qed.

Lemma below_nil P : path (@below _ T) [::] P -> all (@nilp T) P.
Proof.
elim: P => //= r P IH /andP[/andP[sr _] pP]; move: sr; rewrite leqn0 => /nilP e; subst r.
exact: IH.
Qed.
Lemma heads_nil P : all (@nilp T) P -> heads P = [::].
Proof. by elim: P => //= r P IH /andP[/nilP -> /IH]. Qed.

Lemma heads_path a r P : path (@below _ T) (a :: r) P -> path <%O a (heads P).
Proof.
elim: P a r => //= b P IH a r /andP[ab pP].
case: b ab pP => [|b0 b] ab pP; first by rewrite /heads /= -/(heads P) heads_nil // below_nil.
rewrite /heads /= -/(heads P) (IH b0 b pP) andbT.
by move: ab => /(belowP a)[_ /(_ 0%N isT)].
Qed.
Lemma heads_sorted P : sorted (@below _ T) P -> sorted <%O (heads P).
Proof.
case: P => //= r P; case: r => [|a r] pP; first by rewrite /heads /= -/(heads P) heads_nil // below_nil.
exact: (heads_path pP).
Qed.

Lemma below_behead (a b : seq T) : below a b -> below (behead a) (behead b).
Proof.
case: a => [|a0 a]; first by case: b => [|b0 b] //.
case: b => [|b0 b] //=; first by rewrite /below; case: a.
by rewrite /below /= ltnS => /and3P[-> _ ->].
Qed.
Lemma sorted_behead P : sorted (@below _ T) P -> sorted (@below _ T) (map behead P).
Proof. by rewrite sorted_map; apply: sub_sorted => a b; exact: below_behead. Qed.

Definition ne (r : seq T) : bool := ~~ nilp r.
Lemma size_heads P : size (heads P) = count ne P.
Proof. by elim: P => //= r P IH; rewrite /heads /= -/(heads P); case: r => //= a r; rewrite IH. Qed.

Lemma count_take k P : sorted (@below _ T) P -> (minn k (count ne P) <= count ne (take k P))%N.
Proof.
elim: P k => [|r P IH] [|k] pP; rewrite ?min0n //=.
case: r pP => [|a r] pP /=.
  rewrite add0n; have -> : count ne P = 0%N; last by rewrite minn0.
  by apply/eqP; rewrite -leqn0 leqNgt -has_count; apply/hasPn => x /(allP (below_nil pP)); rewrite /ne => ->.
by rewrite !add1n minnSS ltnS IH //; exact: path_sorted pP.
Qed.

Lemma sumn_take k P : sumn (take k (shape P)) = (count ne (take k P) + sumn (take k (shape (map behead P))))%N.
Proof.
elim: P k => [|r P IH] [|k] //=; rewrite IH addnACA; congr addn.
by case: r.
Qed.

Lemma rev_dec t r : sorted <%O r -> subseq t (rev r) -> dec t.
Proof.
move=> so st; apply: (subseq_sorted (@gt_trans' d T) st).
by rewrite rev_sorted.
Qed.

Lemma greene_upper k P t : sorted (@below _ T) P -> subseq t (reading P) -> lds_le k t ->
  (size t <= sumn (take k (shape P)))%N.
Proof.
have [n] := ubnP (\max_(r <- P) size r); elim: n P t => // n IH P t; rewrite ltnS => le so st l.
case: n IH le => [|n] IH le.
  have : t = [::].
    apply/eqP; rewrite -subseq0; apply: subseq_trans st _; rewrite subseq0 -size_eq0 /reading size_flatten -leqn0.
    have : all (fun r : seq T => size r == 0%N) (rev P).
      apply/allP => r; rewrite mem_rev => rP; rewrite -leqn0; apply: leq_trans le.
      by rewrite (big_rem r) //= leq_maxl.
    by elim: (rev P) => //= r rs IHr /andP[/eqP -> /IHr].
  by move=> ->.
have [t1 [t2 [s1 s2 -> h1 h2]]] := column_split st.
rewrite sumn_take leq_add //.
  apply: leq_trans (count_take k so); rewrite leq_min -size_heads.
  have e : heads (rev P) = rev (heads P).
    elim: P {le so st h1 h2} => //= r P IHP; rewrite rev_cons -cats1 /heads pmap_cat -/(heads _) IHP /=.
    by case: r => [|a r]; rewrite /= ?cats0 // rev_cons -cats1.
  rewrite e in h1; rewrite (l _ s1 (rev_dec (heads_sorted so) h1)) /=.
  by rewrite -(size_rev (heads P)); exact: size_subseq.
apply: IH; last exact: lds_sub l.
- rewrite ltnS big_map; apply/bigmax_leqP_seq => r rP _; rewrite size_behead -ltnS.
  have : (size r <= n.+1)%N by apply: leq_trans le; rewrite (big_rem r) //= leq_maxl.
  by case: (size r).
- exact: sorted_behead.
- by rewrite /reading -map_rev.
Qed.

Lemma greene_lower k P : wf P -> exists t, [/\ subseq t (reading P), lds_le k t & size t = sumn (take k (shape P))].
Proof.
move=> w; exists (reading (take k P)); split.
- by rewrite -[in X in subseq _ X](cat_take_drop k P) /reading rev_cat flatten_cat suffix_subseq.
- move=> t st dt; apply: (@leq_trans (size (rev (take k P)))); last by rewrite size_rev size_take; case: ltnP.
  apply: dec_rows st dt; rewrite all_rev; apply/allP => r /mem_take rP.
  by have /andP[] := allP w r rP.
by rewrite /reading size_flatten /seq.shape map_rev sumn_rev /shape map_take.
Qed.

(** ** colourings *)
(** zs: items with colours; every colour class is weakly increasing *)
Definition coloured k (zs : seq (nat * T)) : Prop :=
  all (fun p => p.1 < k)%N zs /\ forall i, sorted <=%O [seq p.2 | p <- zs & p.1 == i].

Lemma coloured_lds k zs : coloured k zs -> lds_le k [seq p.2 | p <- zs].
Proof.
move=> [ck ci] t /subseqP[m sm ->] dm; rewrite -map_mask size_map.
rewrite -map_mask in dm; have sub : subseq (mask m zs) zs by exact: mask_subseq.
move: (mask m zs) sub dm => ws sub dm {m sm t}.
have le1 i : (count (fun p => p.1 == i) ws <= 1)%N.
  rewrite -size_filter -(size_map snd); apply: dec_incr (ci i) _.
    apply: map_subseq; rewrite subseq_filter filter_all /=; exact: subseq_trans (filter_subseq _ _) sub.
  by apply: (subseq_sorted (@gt_trans' d T)) dm; apply: map_subseq; exact: filter_subseq.
have : all (fun p => p.1 < k)%N ws by apply/allP => p /(mem_subseq sub) /(allP ck).
elim: k ws le1 {ck ci sub dm} => [|k IH] ws le1 kk; first by case: ws kk {le1}.
rewrite -(count_predC (fun p : nat * T => p.1 == k) ws) -add1n leq_add //.
rewrite -size_filter; apply: IH => [i|].
  by rewrite count_filter; apply: leq_trans (sub_count _ _) (le1 i) => p /= /andP[].
apply/allP => p; rewrite mem_filter /= => /andP[nk pw]; have := allP kk p pw; by rewrite ltnS leq_eqVlt (negbTE nk).
Qed.

(** greedy colouring: the colour of an item is the length of the longest strictly decreasing subsequence ending before it *)
Lemma greedy t : exists zs : seq (nat * T), [/\ [seq p.2 | p <- zs] = t, forall i, sorted <=%O [seq p.2 | p <- zs & p.1 == i] &
  forall p, p \in zs -> exists w, [/\ subseq (rcons w p.2) t, dec (rcons w p.2) & size w = p.1]].
Proof.
elim/last_ind: t => [|t x [zs [e so ex]]]; first by exists [::].
pose c := \max_(p <- zs | x < p.2) p.1.+1.
have cub p : p \in zs -> x < p.2 -> (p.1 < c)%N.
  by move=> pz xp; rewrite /c (big_rem p) //= xp leq_maxl.
have cex : exists w, [/\ subseq (rcons w x) (rcons t x), dec (rcons w x) & size w = c].
  have : c = 0%N \/ exists2 p, p \in zs & x < p.2 /\ c = p.1.+1.
    rewrite /c; elim: (zs) => [|p l [IH|[q ql [xq IH]]]]; rewrite ?big_nil ?big_cons; [by left|..].
      case: ifP => xp; last by left.
      by right; exists p; rewrite ?inE ?eqxx // IH maxn0.
    case: ifP => xp; last by right; exists q; rewrite ?inE ?ql ?orbT.
    rewrite IH; right; case: (leqP p.1.+1 q.1.+1) => h.
      by exists q; rewrite ?inE ?ql ?orbT //.
    by exists p; rewrite ?inE ?eqxx //.
  case=> [->|[p pz [xp ->]]].
    by exists [::]; rewrite /= -cats1; split=> //; exact: suffix_subseq.
  have [w [sw dw szw]] := ex p pz; exists (rcons w p.2); split; last by rewrite size_rcons szw.
    by rewrite -!cats1 in sw *; rewrite cat_subseq.
  by move: dw; rewrite -!cats1 -!catA /= dec2 dec1 => /and4P[-> _ -> _] /=; rewrite xp.
exists (rcons zs (c, x)); split.
- by rewrite map_rcons e.
- move=> i; rewrite filter_rcons /=; case: eqP => [ci|_]; last exact: so.
  rewrite map_rcons; have := so i; case E : [seq p.2 | p <- zs & p.1 == i] => [//|a l] /= pl.
  rewrite rcons_path pl /=; have : last a l \in [seq p.2 | p <- zs & p.1 == i] by rewrite E mem_last.
  case/mapP => p; rewrite mem_filter => /andP[/eqP pi pz] ->; rewrite leNgt; apply/negP => xp.
  by have := cub p pz xp; rewrite ci pi ltnn.
- move=> p; rewrite mem_rcons inE => /orP[/eqP -> //|pz].
  have [w [sw dw szw]] := ex p pz; exists w; split=> //.
  by apply: subseq_trans sw _; rewrite -cats1 prefix_subseq.
Qed.

Lemma lds_coloured k t : lds_le k t -> exists zs, [seq p.2 | p <- zs] = t /\ coloured k zs.
Proof.
move=> l; have [zs [e so ex]] := greedy t; exists zs; split=> //; split=> //.
apply/allP => p /ex[w [sw dw <-]]; by have := l _ sw dw; rewrite size_rcons.
Qed.
End Greene.
