(** * Mcmc: transition operators of the MCMC samplers, reversibility. *)
From Coq Require Import String.
From mathcomp Require Import all_ssreflect all_algebra all_fingroup.
From mathcomp.algebra_tactics Require Import ring.
From Verif Require Import Prob Minor Chain ChainCons GenKernel Spectral McmcModel.
Set Implicit Arguments. Unset Strict Implicit. Unset Printing Implicit Defensive.
Import Order.Theory GRing.Theory Num.Theory.
Local Open Scope ring_scope.
Arguments E : simpl never.
Arguments possible : simpl never.

Section Mcmc.
Variables (R : rcfType) (N : nat).
Implicit Types (S : {set 'I_N}) (s : seq 'I_N) (K : 'M[R]_N) (st : state R N).

Lemma det_ST_pm K s : det_ST K s = pm K s. Proof. by []. Qed.

Lemma pm_items K s : uniq s -> pm K s = pmS K (items s).
Proof.
move=> u; apply: pm_perm; apply: uniq_perm => //; first exact: enum_uniq.
by move=> i; rewrite mem_enum inE.
Qed.

Lemma sum_items s (F : 'I_N -> R) : uniq s -> \sum_(x <- s) F x = \sum_(x in items s) F x.
Proof.
move=> u; rewrite -big_enum; apply: perm_big; apply: uniq_perm => //; first exact: enum_uniq.
by move=> i; rewrite mem_enum inE.
Qed.

Lemma card_items s : uniq s -> #|items s| = size s.
Proof. by move=> u; rewrite cardsE; apply/card_uniqP. Qed.

Lemma unif_E A T (pop : seq T) (k : T -> prog R A) f : (0 < size pop)%N ->
  E (unif pop k) f = (size pop)%:R^-1 * \sum_(x <- pop) E (k x) f.
Proof.
move=> s0; rewrite /unif [LHS]/E -/E; have nz : (size pop)%:R != 0 :> R by rewrite pnatr_eq0 -lt0n.
have -> : valid_weights pop (fun=> (size pop)%:R^-1 : R).
  have al c (t : seq T) : 0 <= c -> all (fun=> 0 <= c :> R) t by move=> c0; elim: t => //= _ t ->; rewrite c0.
  apply/andP; split; first by apply: al; rewrite invr_ge0 ler0n.
  by rewrite big_const_seq count_predT iter_addr_0 -[X in X *+ _]mul1r -mulrnAr -mulr_natr mulVf // mul1r.
by rewrite mulr_sumr.
Qed.

Lemma ret_E A (a : A) (f : A -> R) : E (Ret a) f = f a. Proof. by []. Qed.

Lemma flip_E A p (k : bool -> prog R A) f : E (Flip p k) f = clip p * E (k true) f + (1 - clip p) * E (k false) f.
Proof. by []. Qed.

Lemma unif_possible A (T : eqType) (pop : seq T) (k : T -> prog R A) a : possible (unif pop k) (inl a) ->
  exists2 x, x \in pop & possible (k x) (inl a).
Proof.
rewrite /unif /possible; case: ifP => // _ [s1 [x [s2 [-> _ px]]]].
by exists x => //; rewrite mem_cat inE eqxx orbT.
Qed.

Lemma flip_possible A p (k : bool -> prog R A) a : possible (Flip p k) (inl a) ->
  (0 < p /\ possible (k true) (inl a)) \/ possible (k false) (inl a).
Proof.
case=> [[c0 h]|[_ h]]; [left|by right]; split=> //.
by move: c0; rewrite /clip; case: (lerP p 0) => // _; rewrite ltxx.
Qed.

(** a consistent state of the samplers on a set of positive determinant *)
Definition good K st : Prop :=
  [/\ uniq st.1.1, st.1.2 = pm K st.1.1, 0 < pm K st.1.1 & st.2 = size st.1.1].

Definition stS st : {set 'I_N} := items st.1.1.

(** acceptance probability of a Metropolis move *)
Definition acc K S S' : R := clip (pmS K S' / pmS K S).

Lemma acc_min K S S' : 0 <= pmS K S -> 0 <= pmS K S' -> pmS K S * acc K S S' = Num.min (pmS K S) (pmS K S').
Proof.
rewrite /acc; move: (pmS K S) (pmS K S') => a b a0 b0.
have [->|a1] := eqVneq a 0; first by rewrite mul0r min_l.
have ap : 0 < a by rewrite lt_neqAle eq_sym a1.
rewrite /clip ler_pdivr_mulr // mul0r ler_pdivl_mulr // mul1r.
case: (leP b 0) => [bl|bp].
  have -> : b = 0 by apply/eqP; rewrite eq_le bl.
  by rewrite mulr0 min_r // ltW.
by case: (leP a b) => [ab|ba]; rewrite ?mulr1 // mulrCA divff // mulr1.
Qed.

(** ** generic stationarity *)
Fixpoint iterE (step : state R N -> prog R (state R N)) (n : nat) (f : state R N -> R) st : R :=
  if n is n'.+1 then E (step st) (iterE step n' f) else f st.

Lemma loop_last step clock n it st chain f : last [::] chain = st.1.1 ->
  E (mcmc_loop step None clock n it st chain) (fun ch => f (items (last [::] ch))) =
  iterE step n (fun st => f (stS st)) st.
Proof.
elim: n it st chain => [|n IH] it st chain l /=; first by rewrite ret_E l.
rewrite E_bind; apply: eq_E => st'; by rewrite IH // last_rcons.
Qed.

Section Generic.
Variables (K : 'M[R]_N) (ok : {set 'I_N} -> bool) (step : state R N -> prog R (state R N)).
Variable op : ({set 'I_N} -> R) -> {set 'I_N} -> R.
Hypothesis stepE : forall st f, good K st -> ok (stS st) -> E (step st) (fun st' => f (stS st')) = op f (stS st).
Hypothesis step_good : forall st st', good K st -> ok (stS st) -> possible (step st) (inl st') -> good K st' /\ ok (stS st').

Lemma iterE_op n f st : good K st -> ok (stS st) ->
  iterE step n (fun st => f (stS st)) st = iter n op f (stS st).
Proof.
elim: n st => //= n IH st g o.
rewrite (eq_E_possible (g := fun st' => iter n op f (stS st'))).
  exact: stepE.
by move=> st' /(step_good g o)[g' o']; apply: IH.
Qed.
End Generic.

(** ** AD *)
Definition togg S x : {set 'I_N} := if x \in S then S :\ x else x |: S.

Lemma toggK x : involutive (togg^~ x).
Proof.
move=> S; rewrite /togg; case xS: (x \in S); first by rewrite setD11 setD1K.
by rewrite setU11 setU1K ?xS.
Qed.

Lemma items_togg s x : uniq s -> items (if x \in s then rem x s else rcons s x) = togg (items s) x.
Proof.
move=> u; rewrite /togg inE; case: ifP => xs; apply/setP => i; rewrite !inE.
  by rewrite mem_rem_uniq // inE.
by rewrite mem_rcons in_cons.
Qed.

Lemma uniq_togg s x : uniq s -> uniq (if x \in s then rem x s else rcons s x).
Proof. by move=> u; case: ifP => xs; rewrite ?rem_uniq // rcons_uniq xs. Qed.

Definition ad_op K (f : {set 'I_N} -> R) S : R :=
  2%:R^-1 * (N%:R^-1 * \sum_x (acc K S (togg S x) * f (togg S x) + (1 - acc K S (togg S x)) * f S)) +
  2%:R^-1 * f S.

Lemma clip_half : clip (2%:R^-1 : R) = 2%:R^-1.
Proof. by rewrite clip01 // ?invr_ge0 ?ler0n // invf_le1 ?ltr0n // ler1n. Qed.
Lemma one_half : 1 - 2%:R^-1 = 2%:R^-1 :> R.
Proof. fixeq; by field. Qed.

Lemma ad_stepE K st f : (0 < N)%N -> good K st -> E (ad_step K st) (fun st' => f (stS st')) = ad_op K f (stS st).
Proof.
case: st => [[s d] n] N0 [u dE p nE]; simpl in u, dE, p, nE; rewrite /ad_step flip_E clip_half one_half; congr (_ * _ + _ * _).
rewrite unif_E ?size_enum_ord //; congr (_ * _); rewrite big_enum /=; apply: eq_bigr => x _.
rewrite det_ST_pm dE /acc /stS /= -(items_togg x u) -!pm_items ?uniq_togg //.
Qed.

Lemma ad_step_good K st st' : good K st -> possible (ad_step K st) (inl st') -> good K st'.
Proof.
case: st => [[s d] n] g; case: (g) => /= u dE p nE h0; have [[_ h1]|[->] //] := flip_possible h0.
have [x _ h2] := unif_possible h1; have [[ap [->]]|[->] //] := flip_possible h2; split=> //=; first exact: uniq_togg.
by move: ap; rewrite dE pmulr_lgt0 ?invr_gt0.
Qed.

Lemma ad_stationary K f : (0 < N)%N -> (forall S, 0 <= pmS K S) ->
  \sum_S pmS K S * ad_op K f S = \sum_S pmS K S * f S.
Proof.
move=> N0 p0; rewrite /ad_op.
pose M S S' := Num.min (pmS K S) (pmS K S').
have MC S S' : M S S' = M S' S by rewrite /M minC.
transitivity (\sum_S (pmS K S * f S + 2%:R^-1 * N%:R^-1 *
    \sum_x (M S (togg S x) * f (togg S x) - M S (togg S x) * f S))).
  apply: eq_bigr => S _.
  have -> : \sum_x (acc K S (togg S x) * f (togg S x) + (1 - acc K S (togg S x)) * f S) =
            N%:R * f S + \sum_x acc K S (togg S x) * (f (togg S x) - f S).
    rewrite -[N in N%:R * _]card_ord mulr_natl -sumr_const -big_split /=; apply: eq_bigr => x _; fixeq; ring.
  have -> : \sum_x (M S (togg S x) * f (togg S x) - M S (togg S x) * f S) =
            pmS K S * \sum_x acc K S (togg S x) * (f (togg S x) - f S).
    rewrite mulr_sumr; apply: eq_bigr => x _; rewrite /M -acc_min //; fixeq; ring.
  have nz : N%:R != 0 :> R by rewrite pnatr_eq0 -lt0n.
  have alg (a b c n : R) : n != 0 -> b * (2%:R^-1 * (n^-1 * (n * c + a)) + 2%:R^-1 * c) = b * c + 2%:R^-1 / n * (b * a).
    by move=> n0; field.
  exact: alg.
rewrite big_split /= -mulr_sumr [X in _ * X](_ : _ = 0) ?mulr0 ?addr0 //.
rewrite exchange_big big1 //= => x _; rewrite sumrB.
rewrite (reindex_inj (inv_inj (toggK x))) /=; apply/eqP; rewrite subr_eq0; apply/eqP.
by apply: eq_bigr => S _; rewrite toggK MC.
Qed.

(** pointwise detailed balance of AD *)
Lemma ad_op_point K S S' : S != S' ->
  ad_op K (fun X => (X == S')%:R) S = 2%:R^-1 * (N%:R^-1 * \sum_(x | togg S x == S') acc K S S').
Proof.
move=> ne; rewrite /ad_op (negbTE ne) mulr0 addr0; congr (_ * (_ * _)).
rewrite [RHS]big_mkcond; apply: eq_bigr => x _; rewrite mulr0 addr0.
by case: eqP => [->|_]; rewrite ?mulr1 ?mulr0.
Qed.

Lemma togg_eq S S' x : (togg S x == S') = (togg S' x == S).
Proof. by apply/eqP/eqP => <-; rewrite toggK. Qed.

Lemma ad_balance K S S' : (forall S, 0 <= pmS K S) ->
  pmS K S * ad_op K (fun X => (X == S')%:R) S = pmS K S' * ad_op K (fun X => (X == S)%:R) S'.
Proof.
move=> p0; have [-> //|ne] := eqVneq S S'.
have perm3 (a b c d : R) : a * (b * (c * d)) = b * (c * (a * d)) by ring.
rewrite !ad_op_point // 1?eq_sym // [LHS]perm3 [RHS]perm3; congr (_ * (_ * _)).
rewrite !mulr_sumr; apply: eq_big => [x|x _]; first exact: togg_eq.
by rewrite !acc_min // minC.
Qed.

(** ** exchange *)
Definition xch x t S : {set 'I_N} := t |: (S :\ x).

Lemma xch_tperm x t S : x \in S -> t \notin S -> xch x t S = [set tperm x t i | i in S].
Proof.
move=> xS tS; apply/setP => i; rewrite !inE.
have -> : (i \in [set tperm x t i | i in S]) = (tperm x t i \in S).
  apply/imsetP/idP => [[j jS ->]|h]; first by rewrite tpermK.
  by exists (tperm x t i); rewrite ?tpermK.
case: tpermP => [->|->|/eqP ix /eqP it].
- by rewrite eqxx /= orbF (negbTE tS); apply/eqP => e; rewrite e (negbTE tS) in xS.
- by rewrite eqxx xS.
- by rewrite (negbTE it) ix.
Qed.

Lemma tpermS_inv x t : involutive (fun S => [set tperm x t i | i in S]).
Proof.
move=> S; apply/setP => i; apply/imsetP/idP => [[j /imsetP[l lS ->] ->]|iS]; first by rewrite tpermK.
by exists (tperm x t i); rewrite ?tpermK //; apply/imsetP; exists i.
Qed.

Lemma mem_tpermS x t i S : (i \in [set tperm x t j | j in S]) = (tperm x t i \in S).
Proof.
apply/imsetP/idP => [[j jS ->]|h]; first by rewrite tpermK.
by exists (tperm x t i); rewrite ?tpermK.
Qed.

Lemma card_xch x t S : x \in S -> t \notin S -> #|xch x t S| = #|S|.
Proof. by move=> xS tS; rewrite xch_tperm // card_imset //; exact: perm_inj. Qed.

(** any symmetric weight on exchange pairs is balanced *)
Lemma xch_reversible (ok : pred {set 'I_N}) (M : {set 'I_N} -> {set 'I_N} -> R) (f : {set 'I_N} -> R) :
  (forall S S', M S S' = M S' S) -> (forall S x t, x \in S -> t \notin S -> ok (xch x t S) = ok S) ->
  \sum_(S | ok S) \sum_(x in S) \sum_(t in ~: S) M S (xch x t S) * f (xch x t S) =
  \sum_(S | ok S) \sum_(x in S) \sum_(t in ~: S) M S (xch x t S) * f S.
Proof.
move=> MC okx.
have flat (F : {set 'I_N} -> 'I_N -> 'I_N -> R) :
    \sum_(S | ok S) \sum_(x in S) \sum_(t in ~: S) F S x t =
    \sum_x \sum_t \sum_(S : {set 'I_N} | [&& ok S, x \in S & t \notin S]) F S x t.
  transitivity (\sum_(S | ok S) \sum_x \sum_t (if (x \in S) && (t \notin S) then F S x t else 0)).
    apply: eq_bigr => S _; rewrite big_mkcond; apply: eq_bigr => x _.
    case: ifP => xS /=; last by rewrite big1.
    by rewrite big_mkcond; apply: eq_bigr => t _; rewrite inE.
  rewrite exchange_big; apply: eq_bigr => x _; rewrite exchange_big; apply: eq_bigr => t _ /=.
  by rewrite -big_mkcondr.
rewrite !flat [RHS]exchange_big; apply: eq_bigr => x _; apply: eq_bigr => t _.
rewrite (reindex_inj (inv_inj (tpermS_inv t x))) /=.
have cond S : [&& ok [set tperm t x j | j in S], x \in [set tperm t x j | j in S] & t \notin [set tperm t x j | j in S]] =
    [&& ok S, t \in S & x \notin S].
  rewrite !mem_tpermS tpermR tpermL.
  case tS: (t \in S); rewrite ?andbF //; case xS: (x \in S); rewrite ?andbF //=.
  by rewrite -xch_tperm ?xS // okx ?xS.
apply: eq_big => S; first exact: cond.
move=> h; move: (h); rewrite cond => /and3P[_ tS xS].
rewrite -xch_tperm //.
have -> : xch x t (xch t x S) = S.
  apply/setP => i; rewrite !inE; case: (eqVneq i t) => [->|it]; first by rewrite tS.
  by case: (eqVneq i x) => [->|ix] /=; rewrite ?(negbTE xS) //= it.
by rewrite MC.
Qed.

(** ** E *)
Definition e_op K (f : {set 'I_N} -> R) S : R :=
  2%:R^-1 * (#|S|%:R^-1 * \sum_(x in S) ((N - #|S|)%:R^-1 * \sum_(t in ~: S)
     (acc K S (xch x t S) * f (xch x t S) + (1 - acc K S (xch x t S)) * f S))) + 2%:R^-1 * f S.

Lemma size_others s : uniq s -> size (others s) = (N - size s)%N.
Proof.
move=> u; rewrite /others size_filter; apply/eqP; rewrite -(eqn_add2r (size s)) subnK; last first.
  by rewrite -(card_uniqP u) -[X in (_ <= X)%N]card_ord; apply: max_card.
have -> : size s = count (fun i => i \in s) (enum 'I_N).
  rewrite -size_filter -(card_uniqP u) cardE; congr size.
  by rewrite {1}/enum_mem enumT; apply: eq_filter => i.
by rewrite addnC count_predC size_enum_ord.
Qed.

Lemma sum_others s (F : 'I_N -> R) : \sum_(t <- others s) F t = \sum_(t in ~: items s) F t.
Proof.
rewrite /others big_filter big_enum_cond /=; apply: eq_bigl => t; by rewrite !inE.
Qed.

Lemma sum_iota s (F : 'I_N -> R) x0 : \sum_(i <- iota 0 (size s)) F (nth x0 s i) = \sum_(x <- s) F x.
Proof. by rewrite (big_nth x0) /index_iota subn0. Qed.

Lemma items_set_nth s i t : uniq s -> (i < size s)%N -> t \notin s -> 
  items (set_nth t s i t) = xch (nth t s i) t (items s) /\ uniq (set_nth t s i t).
Proof.
move=> u il ts.
have e : set_nth t s i t = take i s ++ t :: drop i.+1 s by rewrite set_nthE il.
have sE : s = take i s ++ nth t s i :: drop i.+1 s by rewrite -drop_nth // cat_take_drop.
move: (u) (ts); rewrite {1 2}sE cat_uniq /= !mem_cat !inE !negb_or => /andP[u1 /andP[/andP[n2 h2] /andP[n1 u2]]] /and3P[t1 tn t2].
split.
  apply/setP => j; rewrite e !inE mem_cat inE.
  have -> : (j \in s) = [|| j \in take i s, j == nth t s i | j \in drop i.+1 s] by rewrite {1}sE mem_cat inE.
  case: (eqVneq j t) => [->|jt] /=; first by rewrite orbT.
  case: (eqVneq j (nth t s i)) => [->|jn] //=; by rewrite (negbTE n2) (negbTE n1).
by rewrite e cat_uniq /= u1 u2 /= negb_or t1 h2 t2.
Qed.

Lemma e_stepE K st f : good K st -> (0 < #|stS st| < N)%N ->
  E (e_step K st) (fun st' => f (stS st')) = e_op K f (stS st).
Proof.
case: st => [[s d] n] [u dE p nE]; simpl in u, dE, p, nE; rewrite /stS /= card_items // => /andP[s0 sN].
rewrite /e_step flip_E clip_half one_half; congr (_ * _ + _ * _).
rewrite nE unif_E size_iota // card_items //; congr (_ * _).
have x0 : 'I_N by case: (s) s0 => [|x].
rewrite -sum_items // -(sum_iota _ _ x0) !big_seq; apply: eq_bigr => i; rewrite mem_iota add0n /= => il.
rewrite unif_E size_others ?subn_gt0 //; congr (_ * _); rewrite sum_others; apply: eq_bigr => t.
rewrite !inE => ts; have [iE ui] := items_set_nth u il ts.
by rewrite (set_nth_default t) // flip_E !ret_E det_ST_pm dE /acc /stS /= -iE -!pm_items.
Qed.

Lemma e_step_good K st st' : good K st -> possible (e_step K st) (inl st') ->
  good K st' /\ #|stS st'| = #|stS st|.
Proof.
case: st => [[s d] n] g; case: (g) => u dE p nE; simpl in u, dE, p, nE.
move=> h0; have [[_ h1]|[->] //] := flip_possible h0.
have [i] := unif_possible h1; rewrite mem_iota add0n nE => /= il h2.
have [t] := unif_possible h2; rewrite mem_filter => /andP[ts _] h3.
have [[ap [->]]|[->] //] := flip_possible h3.
have [iE ui] := items_set_nth u il ts; rewrite /stS /= !card_items //.
have sz : size (set_nth t s i t) = size s by rewrite size_set_nth; apply/maxn_idPr.
split=> //; split=> //=.
by move: ap; rewrite dE pmulr_lgt0 ?invr_gt0.
Qed.

Lemma e_stationary K k f : (0 < k < N)%N -> (forall S, 0 <= pmS K S) ->
  \sum_(S : {set 'I_N} | #|S| == k) pmS K S * e_op K f S = \sum_(S : {set 'I_N} | #|S| == k) pmS K S * f S.
Proof.
move=> /andP[k0 kN] p0; rewrite /e_op.
pose M S S' := Num.min (pmS K S) (pmS K S').
have MC S S' : M S S' = M S' S by rewrite /M minC.
pose c : R := 2%:R^-1 * (k%:R^-1 * (N - k)%:R^-1).
transitivity (\sum_(S : {set 'I_N} | #|S| == k) (pmS K S * f S + c *
    (\sum_(x in S) \sum_(t in ~: S) M S (xch x t S) * f (xch x t S) - \sum_(x in S) \sum_(t in ~: S) M S (xch x t S) * f S))).
  apply: eq_bigr => S /eqP Sk; rewrite Sk.
  have -> : \sum_(x in S) ((N - k)%:R^-1 * \sum_(t in ~: S) (acc K S (xch x t S) * f (xch x t S) + (1 - acc K S (xch x t S)) * f S)) =
     k%:R * f S + (N - k)%:R^-1 * \sum_(x in S) \sum_(t in ~: S) acc K S (xch x t S) * (f (xch x t S) - f S).
    have -> : k%:R * f S = \sum_(x in S) f S by rewrite sumr_const Sk mulr_natl.
    rewrite mulr_sumr -big_split /=; apply: eq_bigr => x _.
    have -> : \sum_(t in ~: S) (acc K S (xch x t S) * f (xch x t S) + (1 - acc K S (xch x t S)) * f S) =
      (N - k)%:R * f S + \sum_(t in ~: S) acc K S (xch x t S) * (f (xch x t S) - f S).
      have -> : (N - k)%N = #|~: S| by rewrite cardsCs setCK card_ord Sk.
      rewrite mulr_natl -sumr_const -big_split /=; apply: eq_bigr => t _; fixeq; ring.
    by rewrite mulrDr mulKf // pnatr_eq0 -lt0n subn_gt0.
  have -> : \sum_(x in S) \sum_(t in ~: S) M S (xch x t S) * f (xch x t S) - \sum_(x in S) \sum_(t in ~: S) M S (xch x t S) * f S =
     pmS K S * \sum_(x in S) \sum_(t in ~: S) acc K S (xch x t S) * (f (xch x t S) - f S).
    rewrite mulr_sumr -sumrB; apply: eq_bigr => x _; rewrite mulr_sumr -sumrB; apply: eq_bigr => t _.
    by rewrite /M -acc_min //; fixeq; ring.
  have nz : k%:R != 0 :> R by rewrite pnatr_eq0 -lt0n.
  have alg (a b v n m : R) : n != 0 -> b * (2%:R^-1 * (n^-1 * (n * v + m * a)) + 2%:R^-1 * v) = b * v + 2%:R^-1 * (n^-1 * m) * (b * a).
    by move=> n0; field.
  exact: alg.
rewrite big_split /= -mulr_sumr sumrB (@xch_reversible (fun S => #|S| == k) M f) ?subrr ?mulr0 ?addr0 //.
by move=> S x t xS tS; rewrite card_xch.
Qed.

Lemma e_op_point K S S' : S != S' ->
  e_op K (fun X => (X == S')%:R) S =
  2%:R^-1 * (#|S|%:R^-1 * ((N - #|S|)%:R^-1 * \sum_(x in S) \sum_(t in ~: S) acc K S S' * (xch x t S == S')%:R)).
Proof.
move=> ne; rewrite /e_op (negbTE ne) mulr0 addr0; congr (_ * (_ * _)).
rewrite mulr_sumr; apply: eq_bigr => x _; congr (_ * _); apply: eq_bigr => t _; rewrite mulr0 addr0.
by case: eqP => [->|_]; rewrite ?mulr1 ?mulr0.
Qed.

Lemma e_balance K S S' : (forall S, 0 <= pmS K S) -> #|S| = #|S'| ->
  pmS K S * e_op K (fun X => (X == S')%:R) S = pmS K S' * e_op K (fun X => (X == S)%:R) S'.
Proof.
move=> p0 eqc; have [-> //|ne] := eqVneq S S'.
have perm4 (a b c d e : R) : a * (b * (c * (d * e))) = b * (c * (d * (a * e))) by ring.
rewrite !e_op_point // 1?eq_sym // [LHS]perm4 [RHS]perm4 eqc; congr (_ * (_ * (_ * _))).
pose M A B : R := (if ((A == S) && (B == S')) || ((A == S') && (B == S)) then Num.min (pmS K S) (pmS K S') else 0).
have MC A B : M A B = M B A by rewrite /M orbC [(A == S) && _]andbC [(A == S') && _]andbC.
have := @xch_reversible predT M (fun X => (X == S')%:R) MC (fun _ _ _ _ _ => erefl).
rewrite (bigD1 S) //= [X in _ + X]big1 ?addr0; last first.
  move=> A AS; apply: big1 => x _; apply: big1 => t _; rewrite /M (negbTE AS) /=.
  case: (eqVneq (xch x t A) S') => [->|]; rewrite ?mulr0 // mulr1.
  by rewrite [S' == S]eq_sym (negbTE ne) andbF.
rewrite [RHS](bigD1 S') //= [X in _ = _ + X]big1 ?addr0; last first.
  by move=> A AS; apply: big1 => x _; apply: big1 => t _; rewrite (negbTE AS) mulr0.
move=> e; rewrite !mulr_sumr.
transitivity (\sum_(i in S) \sum_(t in ~: S) M S (xch i t S) * (xch i t S == S')%:R).
  apply: eq_bigr => x _; rewrite mulr_sumr; apply: eq_bigr => t _.
  rewrite mulrA acc_min // /M eqxx /=; case: eqP => [->|_]; rewrite ?mulr0 ?eqxx //.
rewrite e; apply: eq_bigr => x _; rewrite mulr_sumr; apply: eq_bigr => t _.
rewrite mulrA acc_min // /M eqxx /= [S' == S]eq_sym (negbTE ne) /= mulr1.
by case: eqP => _; rewrite ?mulr1 ?mulr0 // minC.
Qed.

(** ** AED *)
Definition thr (n : nat) : R * R * R :=
  let r : R := n%:R / N%:R in
  (2%:R^-1 * (1 - r) ^+ 2, 2%:R^-1 * (1 - r), 2%:R^-1 * (r ^+ 2 + (1 - r))).

Definition accA K S t : R := clip (pmS K (t |: S) / pmS K S * (#|S|.+1)%:R / (N%:R - #|S|%:R)).
Definition accD K S x : R := clip (pmS K (S :\ x) / pmS K S * #|S|%:R / (N%:R - (#|S|%:R - 1))).

Definition aed_op K (f : {set 'I_N} -> R) S : R :=
  let: (a, b, c) := thr #|S| in
  f S + a * ((N - #|S|)%:R^-1 * \sum_(t in ~: S) accA K S t * (f (t |: S) - f S))
      + (b - a) * (#|S|%:R^-1 * ((N - #|S|)%:R^-1 *
            \sum_(x in S) \sum_(t in ~: S) acc K S (xch x t S) * (f (xch x t S) - f S)))
      + (c - b) * (#|S|%:R^-1 * \sum_(x in S) accD K S x * (f (S :\ x) - f S)).

Lemma thr_ok n : (0 < N)%N -> (n <= N)%N ->
  let: (a, b, c) := thr n in [/\ 0 <= a, 0 <= b - a, 0 <= c - b & 0 <= 1 - c].
Proof.
move=> N0 nN; rewrite /thr; set r : R := n%:R / N%:R.
have r0 : 0 <= r by rewrite divr_ge0 ?ler0n.
have r1 : r <= 1 by rewrite ler_pdivr_mulr ?ltr0n // mul1r ler_nat.
have q0 : 0 <= 1 - r by rewrite subr_ge0.
have h0 : 0 <= 2%:R^-1 :> R by rewrite invr_ge0 ler0n.
split.
- by rewrite mulr_ge0 // exprn_ge0.
- have -> : 2%:R^-1 * (1 - r) - 2%:R^-1 * (1 - r) ^+ 2 = 2%:R^-1 * (r * (1 - r)) by fixeq; ring.
  by rewrite mulr_ge0 // mulr_ge0.
- have -> : 2%:R^-1 * (r ^+ 2 + (1 - r)) - 2%:R^-1 * (1 - r) = 2%:R^-1 * r ^+ 2 by fixeq; ring.
  by rewrite mulr_ge0 // exprn_ge0.
- have -> : 1 - 2%:R^-1 * (r ^+ 2 + (1 - r)) = 2%:R^-1 + 2%:R^-1 * (r * (1 - r)) by fixeq; field.
  by rewrite addr_ge0 // mulr_ge0 // mulr_ge0.
Qed.

Lemma cell_E A (a b c : R) (k : nat -> prog R A) f : [/\ 0 <= a, 0 <= b - a, 0 <= c - b & 0 <= 1 - c] ->
  E (cell a b c k) f = a * E (k 0%N) f + (b - a) * E (k 1%N) f + (c - b) * E (k 2%N) f + (1 - c) * E (k 3%N) f.
Proof.
case=> h0 h1 h2 h3; rewrite /cell /E -/E; have -> : valid_weights (iota 0 4) (nth 0 [:: a; b - a; c - b; 1 - c]).
  rewrite /valid_weights /= h0 h1 h2 h3 /= !big_cons big_nil /=; apply/eqP; fixeq; ring.
by rewrite /= !big_cons big_nil /= addr0 !addrA.
Qed.

Lemma items_del_at s i x0 : uniq s -> (i < size s)%N ->
  items (del_at s i) = items s :\ nth x0 s i /\ uniq (del_at s i) /\ size (del_at s i) = (size s).-1.
Proof.
move=> u il; have sE : s = take i s ++ nth x0 s i :: drop i.+1 s by rewrite -drop_nth // cat_take_drop.
move: (u); rewrite {1}sE cat_uniq /= !negb_or => /andP[u1 /andP[/andP[n2 h2] /andP[n1 u2]]].
split; [|split].
- apply/setP => j; rewrite !inE mem_cat.
  have -> : (j \in s) = [|| j \in take i s, j == nth x0 s i | j \in drop i.+1 s] by rewrite {1}sE mem_cat inE.
  by case: (eqVneq j (nth x0 s i)) => [->|jn] //=; rewrite (negbTE n2) (negbTE n1).
- by rewrite cat_uniq u1 h2 u2.
- by rewrite size_cat size_drop size_take il -[in RHS](subnKC il) addSn.
Qed.

Lemma avg_sum (A : {set 'I_N}) (u v w : R) (F G : 'I_N -> R) (m : nat) (Am : #|A| = m) (m0 : (0 < m)%N) :
  m%:R^-1 * (\sum_(t in A) (u + v * F t + w * G t)) =
  u + v * (m%:R^-1 * \sum_(t in A) F t) + w * (m%:R^-1 * \sum_(t in A) G t).
Proof.
move: m0; rewrite -Am => m0; rewrite !big_split /= sumr_const -!mulr_sumr -[u *+ _]mulr_natl.
have nz : #|A|%:R != 0 :> R by rewrite pnatr_eq0 -lt0n.
move: (#|A|%:R) nz => k nz.
have alg (x y : R) : k^-1 * (k * u + v * x + w * y) = u + v * (k^-1 * x) + w * (k^-1 * y) by field.
exact: alg.
Qed.

Lemma aed_stepE K st f : good K st -> (#|stS st| < N)%N ->
  E (aed_step K st) (fun st' => f (stS st')) = aed_op K f (stS st).
Proof.
case: st => [[s d] n] [u dE p nE]; simpl in u, dE, p, nE; rewrite /stS /= card_items // => sN.
have N0 : (0 < N)%N by exact: leq_ltn_trans sN.
have ok := thr_ok N0 (ltnW sN); rewrite /aed_op card_items //.
have x0 : 'I_N by exact: Ordinal N0.
rewrite nE /aed_step; move: ok; rewrite /thr; set a := _ * _ ^+ 2; set b := _ * (1 - _); set c := _ * (_ + _) => ok.
have sub0 : (0 < N - size s)%N by rewrite subn_gt0.
have fin (X : 'I_N -> 'I_N -> R) (idx : seq nat) (pick : nat -> 'I_N) : True by [].
have inner i : (size s == 0%N) || (i < size s)%N ->
  E (unif (others s) (fun t => cell a b c (fun c0 =>
      if c0 == 0%N then Flip (det_ST K (rcons s t) / d * (size s).+1%:R / (N%:R - (size s)%:R))
         (fun acc => Ret (if acc then (rcons s t, det_ST K (rcons s t), (size s).+1) else (s, d, size s)))
      else if c0 == 1%N then if (i < size s)%N then Flip (det_ST K (rcons (del_at s i) t) / d)
         (fun acc => Ret (if acc then (rcons (del_at s i) t, det_ST K (rcons (del_at s i) t), size s) else (s, d, size s)))
         else Raise IndexError
      else if c0 == 2%N then if (i < size s)%N then Flip (det_ST K (del_at s i) / d * (size s)%:R / (N%:R - ((size s)%:R - 1)))
         (fun acc => Ret (if acc then (del_at s i, det_ST K (del_at s i), (size s).-1) else (s, d, size s)))
         else Raise IndexError
      else Ret (s, d, size s)))) (fun st' => f (items st'.1.1)) =
  f (items s) + a * ((N - size s)%:R^-1 * \sum_(t in ~: items s) accA K (items s) t * (f (t |: items s) - f (items s)))
  + (if (i < size s)%N then
       (b - a) * ((N - size s)%:R^-1 * \sum_(t in ~: items s) acc K (items s) (xch (nth x0 s i) t (items s)) * (f (xch (nth x0 s i) t (items s)) - f (items s)))
       + (c - b) * (accD K (items s) (nth x0 s i) * (f (items s :\ nth x0 s i) - f (items s))) else 0).
  move=> ii; rewrite unif_E size_others // sum_others.
  pose D : R := if (i < size s)%N then (c - b) * (accD K (items s) (nth x0 s i) * (f (items s :\ nth x0 s i) - f (items s))) else 0.
  pose W : R := if (i < size s)%N then b - a else 0.
  rewrite (eq_bigr (fun t => (f (items s) + D) + a * (accA K (items s) t * (f (t |: items s) - f (items s))) +
      W * (acc K (items s) (xch (nth x0 s i) t (items s)) * (f (xch (nth x0 s i) t (items s)) - f (items s))))).
    rewrite avg_sum //; last by rewrite cardsCs setCK card_ord card_items.
    by rewrite /D /W; case: ifP => il; rewrite ?mul0r ?addr0 //; rewrite -!addrA; congr (_ + _); rewrite addrCA; congr (_ + _); rewrite addrC.
  move=> t; rewrite !inE => ts; rewrite cell_E //=.
  have iR : items (rcons s t) = t |: items s by apply/setP => j; rewrite !inE mem_rcons inE.
  have uR : uniq (rcons s t) by rewrite rcons_uniq ts.
  rewrite flip_E !ret_E /= iR /D /W.
  have -> : clip (det_ST K (rcons s t) / d * (size s).+1%:R / (N%:R - (size s)%:R)) = accA K (items s) t.
    by rewrite /accA -iR det_ST_pm dE -!pm_items // card_items.
  case: ifP => il; last first.
    have s0 : size s = 0%N by move: ii; rewrite il orbF => /eqP.
    have b0 : b - a = 0 by rewrite /a /b s0 mul0r subr0 expr1n subrr.
    have c0 : c - b = 0 by rewrite /c /b s0 mul0r expr0n /= add0r subrr.
    rewrite b0 c0 !mul0r !addr0 (_ : 1 - c = 1 - a); first by fixeq; ring.
    by rewrite -[c](subrK b) c0 add0r -[b](subrK a) b0 add0r.
  have [iD [uD sD]] := items_del_at x0 u il.
  have nD : nth x0 s i \in s by exact: mem_nth.
  have tD : t \notin del_at s i.
    by move: ts; apply: contra; have := congr1 (fun A : {set 'I_N} => t \in A) iD; rewrite !inE => -> /andP[].
  have iX : items (rcons (del_at s i) t) = xch (nth x0 s i) t (items s).
    by rewrite /xch -iD; apply/setP => j; rewrite !inE mem_rcons inE.
  have uX : uniq (rcons (del_at s i) t) by rewrite rcons_uniq tD.
  rewrite !flip_E !ret_E /= iX iD.
  have -> : clip (det_ST K (rcons (del_at s i) t) / d) = acc K (items s) (xch (nth x0 s i) t (items s)).
    by rewrite /acc -iX det_ST_pm dE -!pm_items.
  have -> : clip (det_ST K (del_at s i) / d * (size s)%:R / (N%:R - ((size s)%:R - 1))) = accD K (items s) (nth x0 s i).
    by rewrite /accD -iD det_ST_pm dE -!pm_items // card_items.
  by fixeq; ring.
rewrite unif_E size_iota; last by case: eqP => // /eqP; rewrite -lt0n.
have [s0|s0] := eqVneq (size s) 0%N.
  rewrite (eq_bigr (fun _ => f (items s) + a * ((N - size s)%:R^-1 * \sum_(t in ~: items s) accA K (items s) t * (f (t |: items s) - f (items s))))); last first.
    by move=> i _; rewrite inner ?s0 // addr0.
  rewrite big_const_seq count_predT size_iota iter_addr_0 mulrnAr -mulrnAl -[_^-1 *+ _]mulr_natr mulVf ?mul1r; last by rewrite pnatr_eq0 -lt0n.
  have e0 : items s = set0 by move/size0nil: s0 => ->; apply/setP => j; rewrite !inE.
  by rewrite e0 ![\sum_(x in set0) _]big_set0 !mulr0 !addr0.
have sp : (0 < size s)%N by rewrite lt0n.
rewrite big_seq (eq_bigr (fun i => (fun x => (f (items s) + a * ((N - size s)%:R^-1 * \sum_(t in ~: items s) accA K (items s) t * (f (t |: items s) - f (items s)))) +
    ((b - a) * ((N - size s)%:R^-1 * \sum_(t in ~: items s) acc K (items s) (xch x t (items s)) * (f (xch x t (items s)) - f (items s)))
       + (c - b) * (accD K (items s) x * (f (items s :\ x) - f (items s))))) (nth x0 s i))); last first.
  by move=> i; rewrite mem_iota add0n => /= il; rewrite inner ?il ?orbT.
rewrite -big_seq (sum_iota s (fun x => (f (items s) + a * ((N - size s)%:R^-1 * \sum_(t in ~: items s) accA K (items s) t * (f (t |: items s) - f (items s)))) +
    ((b - a) * ((N - size s)%:R^-1 * \sum_(t in ~: items s) acc K (items s) (xch x t (items s)) * (f (xch x t (items s)) - f (items s)))
       + (c - b) * (accD K (items s) x * (f (items s :\ x) - f (items s)))))) sum_items //.
under eq_bigr do rewrite addrA.
rewrite avg_sum ?card_items //; congr (_ + _); congr (_ + _ * _).
by rewrite -mulr_sumr.
Qed.

Lemma cell_possible A (a b c : R) (k : nat -> prog R A) x : possible (cell a b c k) (inl x) ->
  exists2 i, (i < 4)%N & possible (k i) (inl x).
Proof.
rewrite /cell /possible; case: ifP => // _ [s1 [i [s2 [e _ px]]]]; exists i => //.
have : i \in iota 0 4 by rewrite e mem_cat inE eqxx orbT.
by rewrite mem_iota.
Qed.

Lemma aed_step_good K st st' : good K st -> possible (aed_step K st) (inl st') -> good K st'.
Proof.
case: st => [[s d] n] g; case: (g) => u dE p nE; simpl in u, dE, p, nE => h.
have [i _ h1] := unif_possible h; have [t] := unif_possible h1.
rewrite mem_filter => /andP[ts _] h2; have [c _ h3] := cell_possible h2.
have rat z x : 0 < z / d * x -> 0 <= x -> 0 < z.
  rewrite dE => zx x0; have xp : 0 < x.
    by rewrite lt_neqAle x0 andbT eq_sym; apply/eqP => xe; rewrite xe mulr0 ltxx in zx.
  by move: zx; rewrite pmulr_lgt0 // pmulr_lgt0 ?invr_gt0.
have uR : uniq (rcons s t) by rewrite rcons_uniq ts.
have nN : (n <= N)%N by rewrite nE -(card_uniqP u) -[X in (_ <= X)%N]card_ord; apply: max_card.
move: h3; case: (c == 0%N).
  move=> h3; have [[ap [->]]|[->] //] := flip_possible h3; split=> //=; last by rewrite size_rcons nE.
  by move: ap; rewrite -mulrA => /rat; apply; rewrite mulr_ge0 ?ler0n // invr_ge0 subr_ge0 ler_nat.
have x0 : 'I_N by exact: t.
case: (c == 1%N).
  case: ifP => // il h3; have [[ap [->]]|[->] //] := flip_possible h3.
  have [iD [uD sD]] := items_del_at x0 u il.
  have tD : t \notin del_at s i.
    by move: ts; apply: contra; have := congr1 (fun A : {set 'I_N} => t \in A) iD; rewrite !inE => -> /andP[].
  split=> //=; first by rewrite rcons_uniq tD.
    by move: ap; rewrite -[_ / d]mulr1 => /rat; apply; rewrite ler01.
  by rewrite size_rcons sD nE prednK // (leq_ltn_trans _ il).
case: (c == 2%N).
  case: ifP => // il h3; have [[ap [->]]|[->] //] := flip_possible h3.
  have [iD [uD sD]] := items_del_at x0 u il.
  split=> //=; last by rewrite sD nE.
  move: ap; rewrite -mulrA => /rat; apply; rewrite mulr_ge0 ?ler0n // invr_ge0 opprB addrA subr_ge0.
  by rewrite ler_paddr ?ler01 // ler_nat.
by case=> ->.
Qed.

(** point probabilities of AED *)
Lemma aed_op_add K S t : (#|S| < N)%N -> t \notin S ->
  aed_op K (fun X => (X == t |: S)%:R) S = (thr #|S|).1.1 / (N - #|S|)%:R * accA K S t.
Proof.
move=> SN tS; have ne : (S == t |: S) = false.
  by apply/eqP => e; rewrite e setU11 in tS.
rewrite /aed_op; case: (thr _) => [[a b] c] /=; rewrite ne add0r.
rewrite (bigD1 t) ?inE //= eqxx subr0 mulr1 [X in a * (_ * (_ + X))]big1 ?addr0; last first.
  move=> t' /andP[]; rewrite inE => t'S t't; rewrite (_ : (_ == _) = false) ?subr0 ?mulr0 //.
  apply/eqP => e; have := setU11 t' S; rewrite e !inE (negbTE t't) /=; exact/negP.
rewrite [X in (b - a) * (_ * (_ * X))]big1 ?mulr0 ?addr0; last first.
  move=> x xS; rewrite big1 // => t'; rewrite inE => t'S.
  rewrite (_ : (_ == _) = false) ?subr0 ?mulr0 //; apply/eqP => e.
  have := congr1 (fun A : {set 'I_N} => #|A|) e; rewrite card_xch // cardsU1 tS add1n => /eqP.
  by rewrite -{1}[#|S|]addn0 -addn1 eqn_add2l.
rewrite big1 ?mulr0 ?addr0 ?mulrA //.
move=> x xS; rewrite (_ : (_ == _) = false) ?subr0 ?mulr0 //; apply/eqP => e.
by have := setU11 t S; rewrite -e !inE (negbTE tS) andbF.
Qed.

Lemma aed_op_del K S x : x \in S ->
  aed_op K (fun X => (X == S :\ x)%:R) S = ((thr #|S|).2 - (thr #|S|).1.2) / #|S|%:R * accD K S x.
Proof.
move=> xS; have ne : (S == S :\ x) = false.
  by apply/eqP => e; move: (xS); rewrite {1}e setD11.
rewrite /aed_op; case: (thr _) => [[a b] c] /=; rewrite ne add0r.
rewrite [X in a * (_ * X)]big1 ?mulr0 ?add0r; last first.
  move=> t; rewrite inE => tS; rewrite (_ : (_ == _) = false) ?subr0 ?mulr0 //; apply/eqP => e.
  by have := setU11 t S; rewrite e !inE (negbTE tS) andbF.
rewrite [X in (b - a) * (_ * (_ * X))]big1 ?mulr0 ?add0r; last first.
  move=> y yS; rewrite big1 // => t; rewrite inE => tS.
  rewrite (_ : (_ == _) = false) ?subr0 ?mulr0 //; apply/eqP => e.
  have := congr1 (fun A : {set 'I_N} => #|A|) e; rewrite card_xch // (cardsD1 x) xS add1n => /eqP.
  by rewrite eq_sym -{1}[#|_ :\ x|]addn0 -addn1 eqn_add2l.
rewrite (bigD1 x) //= eqxx subr0 mulr1 [X in (c - b) * (_ * (_ + X))]big1 ?addr0 ?mulrA //.
move=> y /andP[yS yx]; rewrite (_ : (_ == _) = false) ?subr0 ?mulr0 //.
by apply/eqP => e; have := setD11 y S; rewrite e !inE yx yS.
Qed.

Lemma aed_op_xch K S x t : x \in S -> t \notin S ->
  aed_op K (fun X => (X == xch x t S)%:R) S =
  ((thr #|S|).1.2 - (thr #|S|).1.1) / #|S|%:R / (N - #|S|)%:R * acc K S (xch x t S).
Proof.
move=> xS tS; have xt : x != t by apply/eqP => e; rewrite -e xS in tS.
have txch : t \in xch x t S by rewrite !inE eqxx.
have xxch : x \notin xch x t S by rewrite !inE eqxx /= orbF.
have ne : (S == xch x t S) = false by apply/eqP => e; rewrite e txch in tS.
rewrite /aed_op; case: (thr _) => [[a b] c] /=; rewrite ne add0r.
rewrite [X in a * (_ * X)]big1 ?mulr0 ?add0r; last first.
  move=> u; rewrite inE => uS; rewrite (_ : (_ == _) = false) ?subr0 ?mulr0 //; apply/eqP => e.
  have := congr1 (fun A : {set 'I_N} => #|A|) e; rewrite card_xch // cardsU1 uS add1n => /eqP.
  by rewrite eq_sym -{1}[#|S|]addn0 -addn1 eqn_add2l.
rewrite [X in (c - b) * (_ * X)]big1 ?mulr0 ?addr0; last first.
  move=> y yS; rewrite (_ : (_ == _) = false) ?subr0 ?mulr0 //; apply/eqP => e.
  by move: txch; rewrite -e !inE (negbTE tS) andbF.
rewrite (bigD1 x) //= [X in (b - a) * (_ * (_ * (_ + X)))]big1 ?addr0; last first.
  move=> y /andP[yS yx]; apply: big1 => u; rewrite inE => uS.
  rewrite (_ : (_ == _) = false) ?subr0 ?mulr0 //; apply/eqP => e.
  by have := xxch; rewrite -e !inE xS [x == y]eq_sym yx orbT.
rewrite (bigD1 t) ?inE //= eqxx subr0 mulr1 [X in (b - a) * (_ * (_ * (_ + X)))]big1 ?addr0 ?mulrA //.
move=> u /andP[]; rewrite inE => uS ut; rewrite (_ : (_ == _) = false) ?subr0 ?mulr0 //; apply/eqP => e.
have : u \in xch x u S by rewrite !inE eqxx.
by rewrite e !inE (negbTE ut) (negbTE uS) andbF.
Qed.

(** ** chains *)
Section Chains.
Variable step : state R N -> prog R (state R N).

Lemma loop_inv (P : state R N -> Prop) T_max clock n it st chain ch :
  (forall st st', P st -> possible (step st) (inl st') -> P st') -> P st ->
  possible (mcmc_loop step T_max clock n it st chain) (inl ch) ->
  exists ext, [/\ ch = chain ++ ext, (size ext <= n)%N &
     forall s : seq 'I_N, s \in ext -> exists2 st', P st' & s = st'.1.1].
Proof.
move=> Pstep; elim: n it st chain => [|n IH] it st chain Pst /=.
  by case=> ->; exists [::]; rewrite cats0.
move=> h; have [st' ps h1] := bind_possible h; have Pst' := Pstep _ _ Pst ps.
case: ifP h1 => _ h1.
  move: h1 => [->]; exists [:: st'.1.1]; rewrite -cats1; split=> // S; rewrite inE => /eqP ->; by exists st'.
have [ext [-> sz al]] := IH _ _ _ Pst' h1; exists (st'.1.1 :: ext); rewrite cat_rcons; split=> // S.
by rewrite inE => /orP[/eqP ->|/al //]; exists st'.
Qed.

(** length of the chain: n steps unless the clock stops the loop *)
Lemma loop_size T_max clock n it st chain ch :
  possible (mcmc_loop step T_max clock n it st chain) (inl ch) ->
  size ch = (size chain + minn n (find (stops T_max clock) (iota it n)).+1)%N.
Proof.
elim: n it st chain => [|n IH] it st chain /=; first by case=> ->; rewrite min0n addn0.
move=> h; have [st' ps] := bind_possible h; case: ifP => _; last first.
  by move/IH => ->; rewrite size_rcons addSnnS minnSS.
by case=> ->; rewrite size_rcons minnSS minn0 addn1.
Qed.

Lemma find_none clock it n : find (stops (None : option R) clock) (iota it n) = n.
Proof. by elim: n it => //= n IH it; rewrite IH. Qed.

Lemma loop_total (P : state R N -> Prop) T_max clock n it st chain :
  (forall st st', P st -> possible (step st) (inl st') -> P st') ->
  (forall st, P st -> total (step st)) -> P st ->
  total (mcmc_loop step T_max clock n it st chain).
Proof.
move=> Pstep tot; elim: n it st chain => [|n IH] it st chain Pst /=; first by rewrite /total ret_E.
rewrite /total E_bind -[RHS](tot _ Pst); apply: eq_E_possible => st' ps.
by case: ifP => _; rewrite ?ret_E //; apply: IH; apply: Pstep ps.
Qed.
End Chains.

End Mcmc.
