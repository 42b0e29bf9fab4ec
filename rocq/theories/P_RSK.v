(** * C29, C30: the Robinson-Schensted-Knuth correspondence of exotic_dpps_core.RSK *)
From mathcomp Require Import all_ssreflect.
From Verif Require Import ExoticModel.
Set Implicit Arguments. Unset Strict Implicit. Unset Printing Implicit Defensive.
Import Order.Theory.
Local Open Scope order_scope.

(** ** Specification: tableaux, as lists of rows *)
Section Spec.
Variables (d : unit) (T : orderType d).
(** entry in row i, column j *)
Definition entry (x0 : T) (P : seq (seq T)) (i j : nat) : T := nth x0 (nth [::] P i) j.
Definition shape (P : seq (seq T)) : seq nat := [seq size r | r <- P].
(** the cell (i,j) lies in the tableau *)
Definition cell (P : seq (seq T)) (i j : nat) : bool := (i < size P)%N && (j < size (nth [::] P i))%N.
(** a partition: a nonincreasing list of positive integers *)
Definition partition (l : seq nat) : Prop := sorted geq l /\ all (fun m => 0 < m)%N l.
(** semistandard: rows weakly increasing, columns strictly increasing, the shape is a partition *)
Definition semistandard (x0 : T) (P : seq (seq T)) : Prop :=
  [/\ partition (shape P),
      forall i j, cell P i j.+1 -> entry x0 P i j <= entry x0 P i j.+1 &
      forall i j, cell P i.+1 j -> entry x0 P i j < entry x0 P i.+1 j].
End Spec.
(** standard: semistandard, with entries 1..n each exactly once *)
Definition standard (n : nat) (Q : seq (seq nat)) : Prop :=
  semistandard 0%N Q /\ perm_eq (flatten Q) (iota 1 n).

Section RSK.
Variables (d : unit) (T : orderType d).
Implicit Types (x y : T) (r row : seq T) (P : seq (seq T)) (Q : seq (seq nat)).

(** ** rows *)
Lemma bisectP x0 x row : sorted <=%O row -> ~~ (last x row <= x) ->
  let k := bisect_right row x in
  [/\ (k < size row)%N, x < nth x0 row k & forall j, (j < k)%N -> nth x0 row j <= x].
Proof.
move=> so nl k.
have h : has (fun y => x < y) row.
  apply/hasP; exists (last x row); last by rewrite ltNge.
  by case: row nl {so k} => [|a s] /=; [rewrite lexx|move=> _; rewrite mem_last].
split; first by rewrite /k /bisect_right -has_find.
- exact: (nth_find x0 h).
- by move=> j jk; rewrite leNgt; apply/negbT/(before_find x0).
Qed.

Lemma bisect_size x row : ~~ (last x row <= x) -> (bisect_right row x < size row)%N.
Proof.
move=> nl; rewrite /bisect_right -has_find; apply/hasP; exists (last x row); last by rewrite ltNge.
by case: row nl => [|a s] /=; [rewrite lexx|move=> _; rewrite mem_last].
Qed.

Lemma row_le x0 row i j : sorted <=%O row -> (i <= j < size row)%N -> nth x0 row i <= nth x0 row j.
Proof.
move=> so /andP[ij js]; apply: (sorted_leq_nth le_trans le_refl x0 so) => //; exact: leq_ltn_trans js.
Qed.

Lemma size_set_nth_in x0 row k y : (k < size row)%N -> size (set_nth x0 row k y) = size row.
Proof. by move=> ks; rewrite size_set_nth; apply/maxn_idPr. Qed.

Lemma set_nth_any x x0 row k y : (k < size row)%N -> set_nth x row k y = set_nth x0 row k y.
Proof. by elim: row k => [|a row IH] [|k] //= ks; rewrite IH. Qed.

Lemma sorted_bump x0 row k y : sorted <=%O row -> (k < size row)%N -> y <= nth x0 row k ->
  (forall j, (j < k)%N -> nth x0 row j <= y) -> sorted <=%O (set_nth x0 row k y).
Proof.
move=> so ks yk ky; apply/(sortedP x0) => i; rewrite size_set_nth_in // => is1.
have step : nth x0 row i <= nth x0 row i.+1 by apply: row_le; rewrite ?leqnSn.
rewrite !nth_set_nth /=; case: (altP (i =P k)) => [e|ne].
  by rewrite e (gtn_eqF (ltnSn k)); apply: le_trans yk _; rewrite -e.
by case: (altP (i.+1 =P k)) => [e1|//]; rewrite ky // -e1.
Qed.

Lemma sorted_rcons_row x row : sorted <=%O row -> last x row <= x -> sorted <=%O (rcons row x).
Proof. by case: row => [|a s] //=; rewrite rcons_path => -> ->. Qed.

(** ** columns: the row [b] fits strictly below the row [a] *)
Definition below (a b : seq T) : bool := (size b <= size a)%N && all (fun p => p.1 < p.2) (zip a b).

Lemma belowP x0 a b : reflect ((size b <= size a)%N /\ forall j, (j < size b)%N -> nth x0 a j < nth x0 b j) (below a b).
Proof.
apply: (iffP andP) => [[s /(all_nthP (x0, x0)) h]|[s h]]; split=> //.
  move=> j js; have := h j; rewrite size_zip (minn_idPr s) => /(_ js).
  rewrite nth_zip_cond size_zip (minn_idPr s) js /=.
  by [].
apply/(all_nthP (x0, x0)) => j; rewrite size_zip (minn_idPr s) => js.
by rewrite nth_zip_cond size_zip (minn_idPr s) js /=; apply: h.
Qed.

Lemma cons_path (e : rel (seq T)) a b P : path e a (b :: P) = e a b && path e b P.
Proof. by []. Qed.

Definition wf (P : seq (seq T)) : bool := all (fun r => (0 < size r)%N && sorted <=%O r) P.

Lemma wf_cons r P : wf (r :: P) = (0 < size r)%N && sorted <=%O r && wf P. Proof. by []. Qed.

(** the key step: what is bumped out of [r0] lands strictly below the new [r0] *)
Lemma insert_below x0 it x y r0 k P Q :
  sorted <=%O r0 -> (k < size r0)%N -> nth x0 r0 k = x -> y < x -> (forall j, (j < k)%N -> nth x0 r0 j <= y) ->
  wf P -> path below r0 P -> shape P = map size Q ->
  path below (set_nth x0 r0 k y) (rsk_insert it x P Q).1 /\ wf (rsk_insert it x P Q).1.
Proof.
elim: P Q r0 k x y => [|r1 P IH] [|q1 Q] r0 k x y so ks xk yx ky wP pP //=.
  move=> _; rewrite andbT; split=> //; apply/(belowP x0); rewrite size_set_nth_in //=; split; first exact: leq_trans ks.
  case=> // _; rewrite nth_set_nth /=; case: ifP => [/eqP e|ne]; first by [].
  by apply: le_lt_trans yx; apply: ky; rewrite lt0n eq_sym ne.
case=> s1 sPQ; move: pP wP; rewrite cons_path wf_cons => /andP[b1 pP] /andP[/andP[n1 so1] wP].
have [sz1 lt1] := belowP x0 _ _ b1.
have szb : size (set_nth x0 r0 k y) = size r0 by rewrite size_set_nth_in.
have kk j : (j <= k)%N -> nth x0 (set_nth x0 r0 k y) j < x.
  rewrite nth_set_nth /= leq_eqVlt => /orP[/eqP ->|jk]; first by rewrite eqxx.
  by rewrite ltn_eqF //; apply: le_lt_trans yx; apply: ky.
have col j : (j < size r1)%N -> nth x0 (set_nth x0 r0 k y) j < nth x0 r1 j.
  move=> js; rewrite nth_set_nth /=; case: (altP (j =P k)) => [e|_]; last exact: lt1.
  by apply: lt_trans yx _; rewrite -xk -e; apply: lt1.
case: ifP => [la|/negbT nla] /=.
  have sk : (size r1 <= k)%N.
    rewrite leqNgt; apply/negP => kr; have := lt1 _ kr; rewrite xk ltNge => /negP; apply.
    by apply: le_trans la; rewrite -nth_last (set_nth_default x0) ?prednK //; apply: row_le; rewrite // prednK // leqnn andbT -ltnS prednK.
  split; last by rewrite size_rcons sorted_rcons_row.
  apply/andP; split.
    apply/(belowP x0); rewrite szb size_rcons; split=> [|j]; first exact: leq_ltn_trans ks.
    rewrite ltnS nth_rcons leq_eqVlt => /orP[/eqP ->|js]; last by rewrite js; apply: col.
    by rewrite ltnn eqxx; apply: kk.
  case: P {IH wP sPQ} pP => // r2 P; rewrite !cons_path => /andP[b2 pP]; rewrite pP andbT.
  have [sz2 lt2] := belowP x0 _ _ b2; apply/(belowP x0); rewrite size_rcons; split=> [|j js]; first exact: leqW.
  by rewrite nth_rcons (leq_trans js sz2); apply: lt2.
set k1 := bisect_right r1 x; have [k1s xk1 k1y] := bisectP x0 so1 nla; rewrite -/k1 in k1s xk1 k1y.
have k1k : (k1 <= k)%N.
  case: (ltnP k (size r1)) => [kr|]; last exact: (leq_trans (ltnW k1s)).
  rewrite leqNgt; apply/negP => /k1y; rewrite leNgt; have := lt1 _ kr; by rewrite xk => ->.
have xE : nth x r1 k1 = nth x0 r1 k1 by apply: set_nth_default.
have [IH1 IH2] := IH Q r1 k1 (nth x r1 k1) x so1 k1s (esym xE) (eq_ind_r (fun z => x < z) xk1 xE) k1y wP pP sPQ.
rewrite (set_nth_any x x0) // IH1 IH2 size_set_nth_in // n1 andbT sorted_bump ?(ltW xk1) //; split=> //.
apply/(belowP x0); rewrite szb size_set_nth_in //; split=> // j js.
rewrite [X in _ < X]nth_set_nth /=; case: (altP (j =P k1)) => [->|_]; last exact: col.
exact: kk.
Qed.

Lemma insert_sorted it x P Q : wf P -> sorted below P -> shape P = map size Q ->
  sorted below (rsk_insert it x P Q).1 /\ wf (rsk_insert it x P Q).1.
Proof.
case: P Q => [|r1 P] [|q1 Q] //; rewrite wf_cons => /andP[/andP[n1 so1] wP] pP0 [s1 sPQ] /=.
have {pP0} pP : path below r1 P by exact: pP0.
case: ifP => [la|/negbT nla] /=.
  rewrite size_rcons sorted_rcons_row //; split=> //.
  case: P {wP sPQ} pP => // r2 P; rewrite !cons_path => /andP[b2 pP]; rewrite pP andbT.
  have [sz2 lt2] := belowP x _ _ b2; apply/(belowP x); rewrite size_rcons; split=> [|j js]; first exact: leqW.
  by rewrite nth_rcons (leq_trans js sz2); apply: lt2.
have [k1s xk1 k1y] := bisectP x so1 nla.
have [-> ->] := insert_below it so1 k1s (erefl _) xk1 k1y wP pP sPQ.
by rewrite size_set_nth_in // n1 sorted_bump // ltW.
Qed.

Lemma insert_shape it x P Q : shape P = map size Q -> shape (rsk_insert it x P Q).1 = map size (rsk_insert it x P Q).2.
Proof.
elim: P Q x => [|r1 P IH] [|q1 Q] x //= [s1 sPQ].
case: ifP => [la|/negbT nla] /=; first by rewrite !size_rcons s1 sPQ.
by rewrite IH // -s1 size_set_nth_in // bisect_size.
Qed.

(** ** content *)
Lemma perm_bump x0 row k y : (k < size row)%N -> perm_eq (nth x0 row k :: set_nth x0 row k y) (y :: row).
Proof.
elim: row k => [|a row IH] [|k] //= ks.
  by apply/permP => p /=; rewrite addnCA.
apply/permP => p /=; have /permP/(_ p)/= e := IH k ks.
by rewrite addnCA e addnCA.
Qed.

Lemma insert_perm it x P Q : shape P = map size Q -> perm_eq (flatten (rsk_insert it x P Q).1) (x :: flatten P).
Proof.
elim: P Q x => [|r1 P IH] [|q1 Q] x //= [s1 sPQ].
case: ifP => [la|/negbT nla] /=; first by rewrite -cats1 -catA perm_catCA.
have ks := bisect_size nla; have e := IH _ (nth x r1 (bisect_right r1 x)) sPQ.
rewrite (perm_catl _ e) -cat1s perm_catCA catA -[x :: _]cat_cons perm_cat2r.
exact: perm_bump.
Qed.

Lemma insert_permQ it x P Q : shape P = map size Q -> perm_eq (flatten (rsk_insert it x P Q).2) (it :: flatten Q).
Proof.
elim: P Q x => [|r1 P IH] [|q1 Q] x //= [s1 sPQ].
case: ifP => [la|/negbT nla] /=; first by rewrite -cats1 -catA perm_catCA.
by rewrite (perm_catl _ (IH _ _ sPQ)) -cat1s perm_catCA.
Qed.
End RSK.

Section Recording.
Variables (d : unit) (T : orderType d).
Implicit Types (x y : T) (P : seq (seq T)) (Q : seq (seq nat)).

(** the recording tableau: the new label is larger than all others *)
Notation belowN := (@below _ [orderType of nat]).
Lemma belowN_rcons it (q1 : seq nat) (Q : seq (seq nat)) : path belowN q1 Q -> path belowN (rcons q1 it) Q.
Proof.
case: Q => // q2 Q; rewrite !cons_path => /andP[b2 pQ]; rewrite pQ andbT.
have [sz2 lt2] := belowP 0%N _ _ b2; apply/(belowP 0%N); rewrite size_rcons; split=> [|j js]; first exact: leqW.
by rewrite nth_rcons (leq_trans js sz2); apply: lt2.
Qed.

Lemma sorted_rconsN it (q1 : seq nat) : all (fun m => m < it)%N q1 -> sorted leq q1 -> sorted leq (rcons q1 it).
Proof.
case: q1 => //= a q1 /andP[ha ha1] so1; rewrite rcons_path so1 /=; apply: ltnW.
by have := mem_last a q1; rewrite inE => /orP[/eqP -> //|/(allP ha1)].
Qed.

Lemma insert_Q_below it x q0 P Q : shape P = map size Q -> all (all (fun m => m < it)%N) (q0 :: Q) ->
  wf Q -> path belowN q0 Q -> path geq (size q0) (map size (rsk_insert it x P Q).2) ->
  path belowN q0 (rsk_insert it x P Q).2 /\ wf (rsk_insert it x P Q).2.
Proof.
have new (q q1 : seq nat) : all (fun m => m < it)%N q -> (size q1 < size q)%N ->
    (forall j, (j < size q1)%N -> nth 0%N q j < nth 0%N q1 j) -> belowN q (rcons q1 it).
  move=> aq sq h; apply/(belowP 0%N); rewrite size_rcons; split=> // j.
  rewrite ltnS nth_rcons leq_eqVlt => /orP[/eqP ->|js]; last by rewrite js h.
  by rewrite ltnn eqxx; apply/(all_nthP 0%N aq).
elim: P Q q0 x => [|r1 P IH] [|q1 Q] q0 x //.
  by move=> _ /= /andP[a0 _] _ _ /andP[s0 _]; rewrite andbT; split=> //; apply: (new q0 [::]).
move=> [s1 sPQ] /and3P[a0 a1 aQ]; rewrite wf_cons cons_path => /andP[/andP[n1 so1] wQ] /andP[b1 pQ] /=.
have [sz1 lt1] := belowP 0%N _ _ b1.
case: ifP => [la|/negbT nla] /= /andP[sq pq]; last first.
  have aQ1 : all (all (fun m => m < it)%N) (q1 :: Q) by apply/andP.
  have [h1 h2] := IH Q q1 (nth x r1 (bisect_right r1 x)) sPQ aQ1 wQ pQ pq.
  by rewrite b1 h1 n1 h2 so1.
rewrite !size_rcons in sq *; rewrite wQ andbT (sorted_rconsN a1 so1) new //=; split=> //.
exact: belowN_rcons.
Qed.

Lemma insert_Q it x P Q : shape P = map size Q -> all (all (fun m => m < it)%N) Q ->
  wf Q -> sorted belowN Q -> sorted geq (map size (rsk_insert it x P Q).2) ->
  sorted belowN (rsk_insert it x P Q).2 /\ wf (rsk_insert it x P Q).2.
Proof.
case: P Q => [|r1 P] [|q1 Q] // [s1 sPQ] /andP[a1 aQ]; rewrite wf_cons => /andP[/andP[n1 so1] wQ] pQ0 /=.
have {pQ0} pQ : path belowN q1 Q by exact: pQ0.
case: ifP => [la|/negbT nla] /= pq; last first.
  have aQ1 : all (all (fun m => m < it)%N) (q1 :: Q) by apply/andP.
  have [-> ->] := insert_Q_below sPQ aQ1 wQ pQ pq.
  by rewrite n1 so1.
by rewrite size_rcons wQ andbT (sorted_rconsN a1 so1); split=> //; apply: belowN_rcons.
Qed.

Lemma below_shape d' (T' : orderType d') (P : seq (seq T')) : sorted (@below _ T') P -> sorted geq (shape P).
Proof.
case: P => //= r P; elim: P r => //= r1 P IH r /andP[/andP[b1 _] pP].
by rewrite /= b1 IH.
Qed.

(** internal form of the semistandardness *)
Lemma semistandard_of d' (T' : orderType d') (x0 : T') (P : seq (seq T')) : wf P -> sorted (@below _ T') P -> semistandard x0 P.
Proof.
move=> wP sP; split.
- split; first exact: below_shape.
  by rewrite /shape all_map; apply: sub_all wP => r /andP[].
- move=> i j /andP[iP js]; apply: row_le; last by rewrite leqnSn.
  by have /andP[_] := all_nthP [::] wP i iP.
- move=> i j /andP[iP js]; have := sortedP [::] sP i iP.
  by case/(belowP x0) => _; apply.
Qed.

Lemma loop_inv it (s : seq T) P Q n : wf P -> sorted (@below _ T) P -> shape P = map size Q ->
  wf Q -> sorted belowN Q -> perm_eq (flatten Q) (iota 1 n) -> it = n.+1 ->
  let r := rsk_loop it s P Q in
  [/\ wf r.1, sorted (@below _ T) r.1, shape r.1 = map size r.2 & perm_eq (flatten r.1) (s ++ flatten P)] /\
  [/\ wf r.2, sorted belowN r.2 & perm_eq (flatten r.2) (iota 1 (n + size s))].
Proof.
elim: s it n P Q => [|x s IH] it n P Q wP sP sh wQ sQ pQ it1 /=; first by rewrite addn0.
have [sP' wP'] := insert_sorted it x wP sP sh.
have sh' := insert_shape it x sh.
have aQ : all (all (fun m => m < it)%N) Q.
  apply/allP => q qQ; apply/allP => m mq; have : m \in flatten Q by apply/flattenP; exists q.
  by rewrite (perm_mem pQ) mem_iota it1 => /andP[].
have sg : sorted geq (map size (rsk_insert it x P Q).2) by rewrite -sh'; apply: below_shape.
have [sQ' wQ'] := insert_Q sh aQ wQ sQ sg.
have pQ' : perm_eq (flatten (rsk_insert it x P Q).2) (iota 1 n.+1).
  apply: (perm_trans (insert_permQ it x sh)); rewrite -[n.+1]addn1 (iotaD 1 n 1) add1n -it1 perm_sym.
  by rewrite (perm_catC (iota 1 n) (iota it 1)) /= perm_cons perm_sym.
have [|[h1 h2 h3 h7] [h4 h5 h6]] := IH it.+1 n.+1 _ _ wP' sP' sh' wQ' sQ' pQ'; first by rewrite it1.
split; split=> //; last by rewrite -addSnnS.
apply: (perm_trans h7); have := insert_perm it x sh; rewrite -(perm_cat2l s) => h.
by apply: (perm_trans h); rewrite -cat1s perm_catCA.
Qed.

(** C29 *)
Theorem C29_insertion_tableau (x0 : T) (s : seq T) : semistandard x0 (RSK s).1 /\ perm_eq (flatten (RSK s).1) s.
Proof.
have [[h1 h2 _ h] _] := @loop_inv 1 s [::] [::] 0 isT isT erefl isT isT (perm_refl _) erefl.
rewrite cats0 in h.
by split=> //; apply: semistandard_of.
Qed.
Theorem C29_recording_tableau (s : seq T) : standard (size s) (RSK s).2.
Proof.
have [_ [h1 h2 h]] := @loop_inv 1 s [::] [::] 0 isT isT erefl isT isT (perm_refl _) erefl.
by split=> //; apply: semistandard_of.
Qed.
Theorem C29_same_shape (s : seq T) : shape (RSK s).1 = shape (RSK s).2.
Proof. by have [[_ _ -> _] _] := @loop_inv 1 s [::] [::] 0 isT isT erefl isT isT (perm_refl _) erefl. Qed.
End Recording.
