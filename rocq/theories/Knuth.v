(** * Knuth: plactic equivalence, decreasing subsequences and Greene's invariants (for C84, C85). *)
From mathcomp Require Import all_ssreflect.
From Verif Require Import ExoticModel P_RSK P_RSKinv P_Schensted.
Set Implicit Arguments. Unset Strict Implicit. Unset Printing Implicit Defensive.
Import Order.Theory.
Local Open Scope order_scope.

Lemma subseq_catE (T : eqType) (t a b : seq T) : subseq t (a ++ b) ->
  exists t1 t2, [/\ t = t1 ++ t2, subseq t1 a & subseq t2 b].
Proof.
elim: a t => [|x a IH] t /=; first by exists [::], t; rewrite ?sub0seq.
case: t => [|y t]; first by exists [::], [::]; rewrite ?sub0seq.
case: eqP => [-> /IH[t1 [t2 [-> s1 s2]]]|ne /IH[t1 [t2 [e s1 s2]]]].
  by exists (x :: t1), t2; rewrite /= eqxx.
by exists t1, t2; rewrite e; split=> //; exact: subseq_trans (subseq_cons _ _).
Qed.

Section Knuth.
Variables (d : unit) (T : orderType d).
Implicit Types (x y z : T) (s t u v w : seq T).

(** elementary Knuth relations *)
Inductive knuth1 : seq T -> seq T -> Prop :=
| KnuthA u v x y z : x < y -> y <= z -> knuth1 (u ++ [:: y; z; x] ++ v) (u ++ [:: y; x; z] ++ v)
| KnuthB u v x y z : x <= y -> y < z -> knuth1 (u ++ [:: x; z; y] ++ v) (u ++ [:: z; x; y] ++ v).
(** plactic equivalence *)
Inductive knuth : seq T -> seq T -> Prop :=
| knuth_refl s : knuth s s
| knuth_step s t u : knuth s t -> knuth1 t u -> knuth s u
| knuth_back s t u : knuth s t -> knuth1 u t -> knuth s u.

Lemma knuth_trans s t u : knuth s t -> knuth t u -> knuth s u.
Proof. by move=> st tu; elim: tu st => // {t u} [t u v _ IH h|t u v _ IH h] st; [apply: knuth_step h|apply: knuth_back h]; apply: IH. Qed.
Lemma knuth1_cat p q s t : knuth1 s t -> knuth1 (p ++ s ++ q) (p ++ t ++ q).
Proof.
case=> u v x y z h1 h2.
  by have := KnuthA (p ++ u) (v ++ q) h1 h2; rewrite /= -!catA.
by have := KnuthB (p ++ u) (v ++ q) h1 h2; rewrite /= -!catA.
Qed.
Lemma knuth_cat p q s t : knuth s t -> knuth (p ++ s ++ q) (p ++ t ++ q).
Proof.
elim=> [u|u v w _ IH h|u v w _ IH h]; first exact: knuth_refl.
  by apply: knuth_step IH _; apply: knuth1_cat.
by apply: knuth_back IH _; apply: knuth1_cat.
Qed.
Lemma knuth_catr p s t : knuth s t -> knuth (p ++ s) (p ++ t).
Proof. by move=> h; have := knuth_cat p [::] h; rewrite !cats0. Qed.
Lemma knuth_catl q s t : knuth s t -> knuth (s ++ q) (t ++ q).
Proof. by move=> h; exact: (knuth_cat [::] q h). Qed.
Lemma knuthA' x y z v : x < y -> y <= z -> knuth (y :: z :: x :: v) (y :: x :: z :: v).
Proof. by move=> h1 h2; exact: knuth_step (knuth_refl _) (KnuthA [::] v h1 h2). Qed.
Lemma knuthB' x y z v : x <= y -> y < z -> knuth (x :: z :: y :: v) (z :: x :: y :: v).
Proof. by move=> h1 h2; exact: knuth_step (knuth_refl _) (KnuthB [::] v h1 h2). Qed.

(** row insertion *)
Lemma knuth_right x y b : path <=%O y b -> x < y -> knuth (y :: b ++ [:: x]) (y :: x :: b).
Proof.
elim: b y => [|c b IH] y /=; first by move=> _ _; exact: knuth_refl.
move=> /andP[yc pb] xy; apply: knuth_trans (knuth_catr [:: y] (IH c pb (lt_le_trans xy yc))) _.
exact: knuthA'.
Qed.
Lemma knuth_left x y a b : sorted <=%O (rcons a x) -> x < y -> knuth (a ++ y :: x :: b) (y :: a ++ x :: b).
Proof.
elim: a => [|c a IH] /=; first by move=> _ _; exact: knuth_refl.
move=> pa xy; have sa : sorted <=%O (rcons a x) by exact: path_sorted pa.
apply: knuth_trans (knuth_catr [:: c] (IH sa xy)) _ => /=.
case: a {IH} pa sa => [|e a] /= /andP[ce pa] sa; first exact: knuthB'.
apply: knuthB' => //; apply: le_lt_trans xy.
by have := order_path_min le_trans pa; rewrite all_rcons => /andP[].
Qed.

Lemma knuth_bump x row (k := bisect_right row x) : sorted <=%O row -> ~~ (last x row <= x) ->
  knuth (row ++ [:: x]) (nth x row k :: set_nth x row k x).
Proof.
move=> so nla; have [ks xk kx] := bisectP x so nla.
rewrite -/k in ks xk kx.
have e : row = take k row ++ nth x row k :: drop k.+1 row by rewrite -drop_nth // cat_take_drop.
have -> : set_nth x row k x = take k row ++ x :: drop k.+1 row by rewrite set_nthE ks.
rewrite {1}e -catA /=; move: so; rewrite {1}e => so.
apply: knuth_trans (knuth_catr (take k row) (knuth_right _ xk)) _.
  by have := cat_sorted2 so => -[_].
apply: knuth_left => //; rewrite -cats1; have [st _] := cat_sorted2 so.
rewrite cats1; case E : (take k row) st => [//|c l] /= pl; rewrite rcons_path pl /=.
have sz : size (take k row) = k by rewrite size_take ks.
have k0 : (0 < k)%N by rewrite -sz E.
have := kx k.-1; rewrite ltn_predL k0 => /(_ isT); congr (_ <= _).
have := nth_last x (take k row); rewrite sz E /= => <-.
by rewrite -E nth_take // ltn_predL.
Qed.

(** the row reading of a tableau, from the last row to the first *)
Definition reading (P : seq (seq T)) : seq T := flatten (rev P).
Lemma reading_cons r P : reading (r :: P) = reading P ++ r.
Proof. by rewrite /reading rev_cons -cats1 flatten_cat /= cats0. Qed.

Lemma knuth_insert it x P Q : wf P -> shape P = map size Q -> knuth (reading P ++ [:: x]) (reading (rsk_insert it x P Q).1).
Proof.
elim: P Q x => [|r P IH] [|q Q] x //; first by move=> _ _; exact: knuth_refl.
rewrite wf_cons => /andP[/andP[_ so] w] [_ sh] /=.
case: ifP => [_|/negbT nla] /=.
  by rewrite !reading_cons -cats1 catA; exact: knuth_refl.
rewrite !reading_cons -catA; apply: knuth_trans (knuth_catr _ (knuth_bump so nla)) _.
by rewrite -cat1s catA; apply: knuth_catl; exact: IH.
Qed.

Lemma knuth_RSK s : knuth s (reading (RSK s).1).
Proof.
elim/last_ind: s => [|s x IH]; first exact: knuth_refl.
have [[w so sh _] _] := RSK_inv s; rewrite RSK_rcons -cats1.
by apply: knuth_trans (knuth_catl [:: x] IH) _; exact: knuth_insert.
Qed.

(** ** strictly decreasing subsequences *)
Definition dec t : bool := sorted >%O t.
(** no strictly decreasing subsequence longer than k *)
Definition lds_le k s : Prop := forall t, subseq t s -> dec t -> (size t <= k)%N.

Lemma gt_trans' : transitive (>%O : rel T). Proof. by move=> a b c h1 h2; exact: lt_trans h2 h1. Qed.
Lemma decE t : dec t = pairwise >%O t. Proof. exact: sorted_pairwise gt_trans' _. Qed.

Lemma lds_sub k s s' : subseq s' s -> lds_le k s -> lds_le k s'.
Proof. by move=> sub h t st; apply: h; exact: subseq_trans sub. Qed.

Lemma dec1 t1 p t2 : dec (t1 ++ p :: t2) = [&& all (fun a => p < a) t1, all (fun b => b < p) t2, dec t1 & dec t2].
Proof.
rewrite !decE pairwise_cat allrel_consr /=.
apply/idP/idP => [/and3P[/andP[-> _] -> /andP[-> ->]] //|/and4P[h1 h2 -> ->]].
rewrite h1 h2 /= !andbT; apply/allrelP => a b /(allP h1) pa /(allP h2) bp; exact: lt_trans bp pa.
Qed.
Lemma dec2 t1 p q t2 : dec (t1 ++ p :: q :: t2) = [&& all (fun a => p < a) t1, q < p, all (fun b => b < q) t2, dec t1 & dec t2].
Proof.
rewrite dec1; have -> : dec (q :: t2) = all (fun b => b < q) t2 && dec t2 by rewrite (dec1 [::] q t2).
rewrite /=.
apply/idP/idP => [/and4P[h1 /andP[-> _] -> /andP[-> ->]]|/and5P[-> qp h2 -> ->]]; first by rewrite h1.
by rewrite qp h2 /= !andbT; apply/allP => b /(allP h2) bq; exact: lt_trans bq qp.
Qed.
Lemma all_lt_le (l : seq T) p q : q <= p -> all (fun a => p < a) l -> all (fun a => q < a) l.
Proof. by move=> qp /allP h; apply/allP => a /h; exact: le_lt_trans. Qed.
Lemma all_gt_le (l : seq T) p q : p <= q -> all (fun b => b < p) l -> all (fun b => b < q) l.
Proof. by move=> pq /allP h; apply/allP => b /h bp; exact: lt_le_trans bp pq. Qed.

Lemma sub3 t x y z : subseq t [:: x; y; z] ->
  t \in [:: [::]; [:: x]; [:: y]; [:: z]; [:: x; y]; [:: x; z]; [:: y; z]; [:: x; y; z]].
Proof.
move=> /subseqP[m]; case: m => [|a [|b [|c [|? ?]]]] // _ ->.
by case: a; case: b; case: c; rewrite /= !inE eqxx ?orbT.
Qed.

Lemma sub_mid t1 t2 u v m m' : subseq t1 u -> subseq t2 v -> subseq m m' -> subseq (t1 ++ m ++ t2) (u ++ m' ++ v).
Proof. by move=> h1 h2 h3; rewrite !cat_subseq. Qed.

(** the length of the longest decreasing subsequences is a plactic invariant *)
Lemma subs_xz (x y z : T) : subseq [:: x; z] [:: x; y; z].
Proof. by rewrite /= eqxx; case: ifP => // _; rewrite eqxx. Qed.
Lemma subs_yz (x y z : T) : subseq [:: y; z] [:: x; y; z].
Proof. exact: subseq_cons. Qed.
Lemma subs_xy (x y z : T) : subseq [:: x; y] [:: x; y; z].
Proof. exact: (prefix_subseq [:: x; y] [:: z]). Qed.
Lemma subs_1 (a x y z : T) : a \in [:: x; y; z] -> subseq [:: a] [:: x; y; z].
Proof. by rewrite sub1seq. Qed.

Lemma knuth1_dec s s' t : knuth1 s s' \/ knuth1 s' s -> subseq t s -> dec t ->
  exists t', [/\ subseq t' s', dec t' & size t' = size t].
Proof.
have keep t1 t2 u v m m' : subseq t1 u -> subseq t2 v -> subseq m m' -> dec (t1 ++ m ++ t2) ->
   exists t', [/\ subseq t' (u ++ m' ++ v), dec t' & size t' = size (t1 ++ m ++ t2)].
  by move=> h1 h2 h3 dt; exists (t1 ++ m ++ t2); split=> //; exact: sub_mid.
case=> [[]|[]] u v x y z h1 h2 /subseq_catE[t1 [r [-> st1 /subseq_catE[m [t2 [-> sm st2]]]]]] dt.
- have := sub3 sm; rewrite !inE => /or4P[/eqP e|/eqP e|/eqP e|/or4P[/eqP e|/eqP e|/eqP e|/orP[/eqP e|/eqP e]]]; rewrite e in dt *.
  + by apply: keep => //; exact: sub0seq.
  + by apply: keep => //; apply: subs_1; rewrite !inE eqxx.
  + by apply: keep => //; apply: subs_1; rewrite !inE eqxx ?orbT.
  + by apply: keep => //; apply: subs_1; rewrite !inE eqxx ?orbT.
  + by move: dt; rewrite dec2 ltNge h2 andbF.
  + by apply: keep => //; exact: subs_xy.
  + exists (t1 ++ [:: y; x] ++ t2); split; last by rewrite !size_cat.
      by apply: sub_mid => //; exact: subs_xy.
    move: dt; rewrite !dec2 => /and5P[a1 _ -> -> ->]; by rewrite h1 (all_lt_le h2 a1).
  + by move: dt; rewrite (dec1 t1 y [:: z, x & t2]) /= ltNge h2 /= andbF.
- have := sub3 sm; rewrite !inE => /or4P[/eqP e|/eqP e|/eqP e|/or4P[/eqP e|/eqP e|/eqP e|/orP[/eqP e|/eqP e]]]; rewrite e in dt *.
  + by apply: keep => //; exact: sub0seq.
  + by apply: keep => //; apply: subs_1; rewrite !inE eqxx ?orbT.
  + by apply: keep => //; apply: subs_1; rewrite !inE eqxx ?orbT.
  + by apply: keep => //; apply: subs_1; rewrite !inE eqxx ?orbT.
  + by move: dt; rewrite dec2 ltNge (ltW (le_lt_trans h1 h2)) andbF.
  + by move: dt; rewrite dec2 ltNge h1 andbF.
  + by apply: keep => //; exact: subs_xz.
  + by move: dt; rewrite (dec1 t1 x [:: z, y & t2]) /= ltNge (ltW (le_lt_trans h1 h2)) /= andbF.
- have := sub3 sm; rewrite !inE => /or4P[/eqP e|/eqP e|/eqP e|/or4P[/eqP e|/eqP e|/eqP e|/orP[/eqP e|/eqP e]]]; rewrite e in dt *.
  + by apply: keep => //; exact: sub0seq.
  + by apply: keep => //; apply: subs_1; rewrite !inE eqxx ?orbT.
  + by apply: keep => //; apply: subs_1; rewrite !inE eqxx ?orbT.
  + by apply: keep => //; apply: subs_1; rewrite !inE eqxx ?orbT.
  + by apply: keep => //; exact: subs_xz.
  + by move: dt; rewrite dec2 ltNge h2 andbF.
  + by move: dt; rewrite dec2 ltNge (ltW (lt_le_trans h1 h2)) andbF.
  + by move: dt; rewrite (dec1 t1 y [:: x, z & t2]) /= [z < y]ltNge h2 /= !andbF.
- have := sub3 sm; rewrite !inE => /or4P[/eqP e|/eqP e|/eqP e|/or4P[/eqP e|/eqP e|/eqP e|/orP[/eqP e|/eqP e]]]; rewrite e in dt *.
  + by apply: keep => //; exact: sub0seq.
  + by apply: keep => //; apply: subs_1; rewrite !inE eqxx ?orbT.
  + by apply: keep => //; apply: subs_1; rewrite !inE eqxx ?orbT.
  + by apply: keep => //; apply: subs_1; rewrite !inE eqxx ?orbT.
  + exists (t1 ++ [:: z; y] ++ t2); split; last by rewrite !size_cat.
      by apply: sub_mid => //; exact: subs_yz.
    move: dt; rewrite !dec2 => /and5P[-> _ a2 -> ->]; by rewrite h2 (all_gt_le h1 a2).
  + by apply: keep => //; exact: subs_yz.
  + by move: dt; rewrite dec2 ltNge h1 andbF.
  + by move: dt; rewrite (dec1 t1 z [:: x, y & t2]) /= [y < x]ltNge h1 /= !andbF.
Qed.

Lemma knuth1_lds k s s' : knuth1 s s' \/ knuth1 s' s -> lds_le k s -> lds_le k s'.
Proof.
move=> h l t st dt; have h' : knuth1 s' s \/ knuth1 s s' by case: h; [right|left].
by have [t' [st' dt' <-]] := knuth1_dec h' st dt; exact: l.
Qed.
Lemma knuth_dec s s' t : knuth s s' -> subseq t s -> dec t -> exists t', [/\ subseq t' s', dec t' & size t' = size t].
Proof.
move=> h; elim: h t => [u|u v w _ IH h|u v w _ IH h] t st dt; first by exists t.
  have [t1 [s1 d1 <-]] := IH t st dt; exact: (knuth1_dec (or_introl h) s1 d1).
have [t1 [s1 d1 <-]] := IH t st dt; exact: (knuth1_dec (or_intror h) s1 d1).
Qed.
Lemma knuth_sym s t : knuth s t -> knuth t s.
Proof.
elim=> [u|u v w _ IH h|u v w _ IH h]; first exact: knuth_refl.
  exact: knuth_trans (knuth_back (knuth_refl _) h) IH.
exact: knuth_trans (knuth_step (knuth_refl _) h) IH.
Qed.
End Knuth.
