(** * P_PolyPot: the Gibbs sampler of the tridiagonal model with a polynomial potential (C44, C67). *)
From mathcomp Require Import all_ssreflect all_algebra all_real_closed.
From mathcomp.algebra_tactics Require Import ring.
From mathcomp Require Import zify.
From Verif Require Import Prob PolyPotModel PolyPotCond.
Set Implicit Arguments. Unset Strict Implicit. Unset Printing Implicit Defensive.
Import Order.Theory GRing.Theory Num.Theory.
Local Open Scope ring_scope.

(** ** Specification *)
Section Spec.
Variable R : rcfType.

(** what happens during a run: the coefficient refreshed, the law asked for, the number drawn *)
Inductive event := Ev of coef & request R & R.
Inductive runs (A : Type) : gprog R A -> seq event -> A + exn -> Prop :=
  | RRet x : runs (GRet R x) [::] (inl x)
  | RRaise e : runs (@GRaise R A e) [::] (inr e)
  | RDraw c q k x es o : runs (k x) es o -> runs (GDraw c q k) (Ev c q x :: es) o.

(** the coefficients (a_k), (b_k) of the Jacobi matrix *)
Definition coefs_st : Type := (nat -> R) * (nat -> R).
Definition refresh (st : coefs_st) (c : coef) (x : R) : coefs_st :=
  match c with CoefA i => (upd st.1 i x, st.2) | CoefB i => (st.1, upd st.2 i x) end.
Fixpoint after (st : coefs_st) (es : seq event) : coefs_st :=
  if es is Ev c _ x :: es' then after (refresh st c x) es' else st.
Definition start : coefs_st := (fun _ => 0, fun _ => 0).
(** the coefficients b are positive, the coefficients a are real *)
Definition in_support (c : coef) (x : R) : bool := if c is CoefB _ then 0 < x else true.
Definition value (st : coefs_st) (c : coef) : R := match c with CoefA i => st.1 i | CoefB i => st.2 i end.

(** the joint log-density of the coefficients of the tridiagonal model of size N = n+1; [ln] stands for the logarithm *)
Definition log_joint (ln : R -> R) (beta : R) (V : {poly R}) (n : nat) (st : coefs_st) : R :=
  \sum_(1 <= i < n.+1) (beta / 2%:R * (n.+1 - i)%:R - 1) * ln (st.2 i)
  - beta * n.+1%:R / 2%:R * trV V (jacobi n st.1 st.2).
(** the log-density of the law that is asked for *)
Definition log_asked (ln : R -> R) (q : request R) (x : R) : R :=
  match q with
  | ExactQuartic P => - P.[x]
  | Mala _ _ P => - P.[x]
  | ExactGamma shape P => (shape - 1) * ln x - P.[x]
  end.
Definition start_of (q : request R) : option R := if q is Mala x0 _ _ then Some x0 else None.

(** the law asked for is the conditional law of the coefficient c given all the others *)
Definition is_conditional beta V n (st : coefs_st) (c : coef) (q : request R) : Prop :=
  forall ln x y, in_support c x -> in_support c y ->
    log_joint ln beta V n (refresh st c x) - log_joint ln beta V n (refresh st c y) = log_asked ln q x - log_asked ln q y.
(** what is asked for at each step of a run satisfies Q, as long as the numbers drawn before lie in the support *)
Fixpoint all_requests (Q : coefs_st -> coef -> request R -> Prop) (st : coefs_st) (es : seq event) : Prop :=
  if es is Ev c q x :: es' then
    Q st c q /\ (in_support c x -> all_requests Q (refresh st c x) es')
  else Logic.True.
(** the law asked for is right, and a Markov chain is started from the current value *)
Definition right beta V n (st : coefs_st) (c : coef) (q : request R) : Prop :=
  is_conditional beta V n st c q /\ (forall x0, start_of q = Some x0 -> x0 = value st c).

(** the families of laws for which the exact samplers are meant: alpha x^4 + beta x^2 + gamma x with alpha, beta >= 0, not
    both zero, and x^(shape-1) exp(-(beta x^2 + gamma x)) with shape > 0 and beta, gamma >= 0, not both zero *)
Definition well_posed (q : request R) : Prop :=
  match q with
  | ExactQuartic P => exists al be ga, [/\ P = al *: 'X^4 + be *: 'X^2 + ga *: 'X, 0 <= al, 0 <= be & 0 < al \/ 0 < be]
  | ExactGamma s P => exists be ga, [/\ P = be *: 'X^2 + ga *: 'X, 0 < s, 0 <= be, 0 <= ga & 0 < be \/ 0 < ga]
  | Mala _ _ _ => Logic.True
  end.
(** the potentials for which the exact conditional sampler is offered *)
Definition exact_supported (V : {poly R}) : Prop :=
  [/\ V`_3 = 0, (size V <= 5)%N & forall k, ~~ odd k -> (0 < k)%N -> 0 <= V`_k].
Definition valid (es : seq event) : bool := all (fun '(Ev c _ x) => in_support c x) es.
Definition updated (es : seq event) : seq coef := [seq let: Ev c _ _ := e in c | e <- es].
(** one sweep: a_1, b_1, a_2, b_2, ..., a_N *)
Definition sweep (N : nat) : seq coef :=
  flatten [seq if (i < N)%N then [:: CoefA i; CoefB i] else [:: CoefA i] | i <- iota 1 N].
(** the spectrum of the Jacobi matrix, computed by the library *)
Definition spectrum (eigt : seq R -> seq R -> seq R) (N : nat) (st : coefs_st) : seq R :=
  eigt [seq st.1 i | i <- iota 1 N] [seq Num.sqrt (st.2 i) | i <- iota 1 N.-1].
End Spec.

Section Proof.
Variable R : rcfType.
Implicit Types (a b : seq R) (st : coefs_st R).

Lemma runs_draw A c q (k : R -> gprog R A) es o : runs (GDraw c q k) es o ->
  exists x es', es = Ev c q x :: es' /\ runs (k x) es' o.
Proof. by move=> h; inversion h; subst; eauto. Qed.
Lemma runs_ret A (x : A) es o : runs (GRet R x) es o -> es = [::] /\ o = inl x.
Proof. by move=> h; inversion h; subst. Qed.
Lemma runs_raise A e es (o : A + exn) : runs (@GRaise R A e) es o -> es = [::] /\ o = inr e.
Proof. by move=> h; inversion h; subst. Qed.

Lemma runs_bind A B (m : gprog R A) (f : A -> gprog R B) es o : runs (gbind m f) es o ->
  (exists es1 es2 x, [/\ es = es1 ++ es2, runs m es1 (inl x) & runs (f x) es2 o])
  \/ (exists e, runs m es (inr e) /\ o = inr e).
Proof.
elim: m es => [x|e|c q k IH] es /= h.
- by left; exists [::], es, x; split=> //; constructor.
- by right; exists e; have [-> ->] := runs_raise h; split=> //; constructor.
have [x [es' [-> h']]] := runs_draw h.
have [[es1 [es2 [y [-> h1 h2]]]]|[e [h1 ->]]] := IH _ _ h'.
  by left; exists (Ev c q x :: es1), es2, y; split=> //; constructor.
by right; exists e; split=> //; constructor.
Qed.

Lemma after_cat st es1 es2 : after st (es1 ++ es2) = after (after st es1) es2.
Proof. by elim: es1 st => [//|[c q x] es1 IH] st /=; rewrite IH. Qed.

Lemma valid_cat (es1 es2 : seq (event R)) : valid (es1 ++ es2) = valid es1 && valid es2.
Proof. exact: all_cat. Qed.

Lemma right_cat Q st es1 es2 : all_requests Q st es1 ->
  (valid es1 -> all_requests Q (after st es1) es2) -> all_requests Q st (es1 ++ es2).
Proof.
elim: es1 st => [st _ h|[c q x] es1 IH st [h1 h3] h]; first exact: h.
by split=> // sx; apply: IH; [exact: h3|move=> v; apply: h; rewrite /= sx].
Qed.
Lemma requests_impl (Q Q' : coefs_st R -> coef -> request R -> Prop) st es :
  (forall st c q, Q st c q -> Q' st c q) -> all_requests Q st es -> all_requests Q' st es.
Proof. by move=> h; elim: es st => [//|[c q x] es IH] st [h1 h2]; split; [exact: h|move=> sx; apply/IH/h2]. Qed.

(** internal: what is proved of every request *)
Definition nice (exact : bool) beta V n st c q : Prop :=
  right beta V n st c q /\ (exact -> exact_supported V -> 0 < beta -> 0 < V`_2 \/ 0 < V`_4 -> well_posed q).

(** the arrays of the program hold the current coefficients *)
Record rep (N : nat) (st : coefs_st R) (l : seq R * seq R) : Prop := Rep {
  rep_sa : size l.1 = (N + 3)%N; rep_sb : size l.2 = (N + 3)%N;
  rep_a : forall k, l.1`_k = st.1 k; rep_b : forall k, l.2`_k = st.2 k;
  rep_b0 : st.2 0%N = 0; rep_bN : forall k, (N <= k)%N -> st.2 k = 0; rep_bp : forall k, 0 <= st.2 k }.

Lemma eq_jac n (a b a' b' : nat -> R) : a =1 a' -> b =1 b' -> jacobi n a b = jacobi n a' b'.
Proof. by move=> ea eb; apply/matrixP => u v; rewrite !mxE !ea !eb. Qed.

Lemma small_V (V : {poly R}) : exact_supported V ->
  [/\ V`_3 = 0, V`_5 = 0, V`_6 = 0, 0 <= V`_2 & 0 <= V`_4].
Proof. by move=> [h3 h5 he]; split=> //; [..|exact: he|exact: he]; rewrite nth_default // (leq_trans h5). Qed.

Lemma sum7 (F : nat -> {poly R}) : \sum_(k < 7) F k = F 0%N + F 1%N + F 2%N + F 3%N + F 4%N + F 5%N + F 6%N.
Proof. by rewrite !big_ord_recl big_ord0 /= addr0 !addrA. Qed.

Lemma posed_quartic beta (V : {poly R}) n i (a b : nat -> R) : (forall k, 0 <= b k) ->
  exact_supported V -> 0 < beta -> 0 < V`_2 \/ 0 < V`_4 ->
  well_posed (ExactQuartic ((2%:R^-1 * beta * n.+1%:R) *: \sum_(k < 7) V`_k *: PA i a b k)).
Proof.
move=> bp /small_V [h3 h5 h6 h2 h4] b0 pos.
have c0 : 0 < 2%:R^-1 * beta * n.+1%:R by rewrite !mulr_gt0 ?invr_gt0 ?ltr0n.
move: (2%:R^-1 * beta * n.+1%:R) c0 => c c0.
have bb : 0 <= b i.-1 + b i by rewrite addr_ge0.
exists (c * V`_4), (c * (V`_2 + V`_4 * (4%:R * (b i.-1 + b i)))),
  (c * (V`_1 + V`_4 * (4%:R * (a i.-1 * b i.-1 + a i.+1 * b i)))); split.
- rewrite (sum7 (fun k => V`_k *: _ k)) h3 h5 h6 /PA /poly1d /= !cons_poly_def.
  rewrite -!mul_polyC; ring.
- by rewrite mulr_ge0 // ltW.
- by rewrite mulr_ge0 ?(ltW c0) // addr_ge0 // !mulr_ge0 // ler0n.
case: pos => pos; [right|left]; rewrite pmulr_rgt0 //.
by rewrite ltr_paddr // !mulr_ge0 // ler0n.
Qed.

Lemma posed_gamma beta (V : {poly R}) n i (a b : nat -> R) z : (forall k, 0 <= b k) -> (i < n.+1)%N ->
  exact_supported V -> 0 < beta -> 0 < V`_2 \/ 0 < V`_4 ->
  well_posed (ExactGamma (2%:R^-1 * beta * (n.+1 - i)%:R) ((2%:R^-1 * beta * n.+1%:R) *: \sum_(k < 7) V`_k *: PB i a b z k)).
Proof.
move=> bp hi /small_V [h3 h5 h6 h2 h4] b0 pos.
have c0 : 0 < 2%:R^-1 * beta * n.+1%:R by rewrite !mulr_gt0 ?invr_gt0 ?ltr0n.
move: (2%:R^-1 * beta * n.+1%:R) c0 => c c0.
have q0 : 0 <= a i ^+ 2 + a i * a i.+1 + a i.+1 ^+ 2.
  have -> : a i ^+ 2 + a i * a i.+1 + a i.+1 ^+ 2 = (a i + a i.+1 / 2%:R) ^+ 2 + 3%:R * (a i.+1 / 2%:R) ^+ 2 by field.
  by rewrite addr_ge0 ?sqr_ge0 // mulr_ge0 ?ler0n ?sqr_ge0.
have q1 : 0 <= a i ^+ 2 + a i * a i.+1 + a i.+1 ^+ 2 + b i.-1 + b i.+1 by apply: addr_ge0 => //; apply: addr_ge0.
exists (c * (2%:R * V`_4)), (c * (2%:R * V`_2 + V`_4 * (4%:R * (a i ^+ 2 + a i * a i.+1 + a i.+1 ^+ 2 + b i.-1 + b i.+1)))); split.
- rewrite (sum7 (fun k => V`_k *: _ k)) h3 h5 h6 /PB /poly1d /= !cons_poly_def.
  rewrite -!mul_polyC; ring.
- by rewrite !mulr_gt0 ?invr_gt0 ?ltr0n // subn_gt0.
- by rewrite mulr_ge0 ?(ltW c0) // mulr_ge0 ?ler0n.
- by rewrite mulr_ge0 ?(ltW c0) // addr_ge0 // !mulr_ge0 // ler0n.
case: pos => pos; [right|left]; rewrite pmulr_rgt0 ?pmulr_rgt0 ?ltr0n //.
by rewrite ltr_paddr // ?pmulr_rgt0 ?ltr0n // !mulr_ge0 // ler0n.
Qed.

Lemma step_ok beta (V : {poly R}) exact steps n i st l es o : (size V <= 7)%N -> (0 < i <= n.+1)%N -> rep n.+1 st l ->
  runs (gibbs_step beta V exact steps n.+1 i l) es o ->
  [/\ all_requests (nice exact beta V n) st es,
      updated es = (if (i < n.+1)%N then [:: CoefA i; CoefB i] else [:: CoefA i])
    & exists l', o = inl l' /\ (valid es -> rep n.+1 (after st es) l')].
Proof.
case: l => a b sz hi [/= sa sb ra rb b0 bN bp]; rewrite /gibbs_step.
have i0 : (0 < i)%N by case/andP: hi.
rewrite P_a_condE //=.
set Pa := \sum_(k < 7) _.
have ea : Pa = \sum_(k < 7) V`_k *: PA i st.1 st.2 k.
  rewrite /Pa; apply: eq_bigr => k _; congr (_ *: _).
  by rewrite /PA; case: (val k) => [|[|[|[|[|[|[|m]]]]]]] //=; rewrite ?(ra, rb).
move=> h; have [x [es' [-> h']]] := runs_draw h; move: h'; clear h.
set q := (if exact then _ else _).
have right_a : is_conditional beta V n st (CoefA i) q.
  move=> ln y z _ _; rewrite /log_joint /=.
  have := @cond_a R n i st.1 st.2 V y z hi b0 (bN _ (leqnn _)) bp sz => /=; rewrite -ea.
  have -> : log_asked ln q y - log_asked ln q z = - (2%:R^-1 * beta * n.+1%:R) * (Pa.[y] - Pa.[z]).
    by rewrite /q; case: (exact) => /=; rewrite !hornerZ; ring.
  move: (trV _ _) (trV _ _) (\sum_(1 <= _ < _) _) => t u v <-.
  by rewrite (_ : beta * n.+1%:R / 2%:R = 2%:R^-1 * beta * n.+1%:R); ring.
have start_a x0 : start_of q = Some x0 -> x0 = value st (CoefA i).
  by rewrite /q; case: (exact) => //= -[<-].
have posed_a : exact -> exact_supported V -> 0 < beta -> 0 < V`_2 \/ 0 < V`_4 -> well_posed q.
  by rewrite /q; case: (exact) => // _; rewrite ea; apply: posed_quartic.
have rep' : rep n.+1 (refresh st (CoefA i) x) (set_nth 0 a i x, b).
  split=> //=; first by rewrite size_set_nth sa; lia.
  by move=> k; rewrite nth_set_nth /= /upd; case: eqP.
case: ifP => hn; last first.
  move=> h; have [-> ->] := runs_ret h; rewrite /=; split=> //.
  by exists (set_nth 0 a i x, b).
have hi' : (0 < i <= n)%N by lia.
have bl : b`_(size b).-1 = 0 by rewrite rb bN // sb; lia.
have b0l : b`_0 = 0 by rewrite rb.
rewrite P_b_condE //=.
set Pb := \sum_(k < 7) _.
have eb : Pb = \sum_(k < 7) V`_k *: PB i (upd st.1 i x) st.2 (st.2 (i - 2)%N) k.
  rewrite /Pb; apply: eq_bigr => k _; congr (_ *: _).
  by rewrite /PB; case: (val k) => [|[|[|[|[|[|[|m]]]]]]] //=; rewrite ?(rep_a rep', rb).
move=> h; have [y [es'' [-> h']]] := runs_draw h; have [-> ->] := runs_ret h'; rewrite /=; clear h h'.
have right_b : is_conditional beta V n (refresh st (CoefA i) x) (CoefB i)
    (ExactGamma (2%:R^-1 * beta * (n.+1 - i)%:R) ((2%:R^-1 * beta * n.+1%:R) *: Pb)).
  move=> ln u v /ltW u0 /ltW v0; rewrite /log_joint /=.
  have := @cond_b R n i (upd st.1 i x) st.2 V u v hi' b0 (bN _ (leqnn _)) bp sz u0 v0 => /=; rewrite -eb.
  rewrite !hornerZ.
  have sm w : \sum_(1 <= i0 < n.+1) (beta / 2%:R * (n.+1 - i0)%:R - 1) * ln (upd st.2 i w i0)
     = (beta / 2%:R * (n.+1 - i)%:R - 1) * ln w
       + \sum_(1 <= i0 < n.+1 | i0 != i) (beta / 2%:R * (n.+1 - i0)%:R - 1) * ln (st.2 i0).
    rewrite (bigD1_seq i) ?mem_index_iota ?i0 ?hn ?iota_uniq //=.
    congr (_ + _); first by rewrite /upd eqxx.
    by apply: eq_bigr => k /negPf nk; rewrite /upd nk.
  rewrite !sm; move: (trV _ _) (trV _ _) (\sum_(1 <= _ < _ | _) _) => t t' w e.
  have -> : Pb.[u] = t' - t + Pb.[v] by rewrite e subrK.
  by field.
have posed_b : exact -> exact_supported V -> 0 < beta -> 0 < V`_2 \/ 0 < V`_4 -> well_posed (ExactGamma (2%:R^-1 * beta * (n.+1 - i)%:R) ((2%:R^-1 * beta * n.+1%:R) *: Pb)).
  by move=> _ hs b1 s1; rewrite eb; apply: posed_gamma => //; lia.
split=> //; last first.
  exists (set_nth 0 a i x, set_nth 0 b i y); split=> //; rewrite /= andbT => y0; case: rep' => /= sa' sb' ra' rb' b0' bN' bp'.
  split=> //=.
  - by rewrite size_set_nth sb; lia.
  - by move=> k; rewrite nth_set_nth /= /upd rb; case: eqP.
  - by rewrite /upd ltn_eqF.
  - by move=> k hk; rewrite /upd gtn_eqF ?bN // (leq_trans _ hk).
  by move=> k; rewrite /upd; case: eqP => // _; apply: ltW.
Qed.

Lemma cond_total i a b (V : {poly R}) : (size V <= 7)%N ->
  (exists P, P_a_cond i a b V = inl P) /\ (exists P, P_b_cond i a b V = inl P).
Proof.
move=> sz; rewrite /P_a_cond /P_b_cond.
have -> : (7 < order V)%N = false by apply/negbTE; rewrite -leqNgt /order (leq_trans (leq_pred _)) // (leq_trans sz).
by split; eexists.
Qed.

Lemma step_shape beta (V : {poly R}) exact steps N i l es o : (size V <= 7)%N ->
  runs (gibbs_step beta V exact steps N i l) es o ->
  updated es = (if (i < N)%N then [:: CoefA i; CoefB i] else [:: CoefA i]) /\ exists l', o = inl l'.
Proof.
case: l => a b sz; rewrite /gibbs_step; have [[P ->] _] := cond_total i a b sz => /= h.
have [x [es' [-> h']]] := runs_draw h; move: h'; clear h; case: ifP => hn h.
  move: h; have [_ [Q ->]] := cond_total i (set_nth 0 a i x) b sz => /= h.
  have [y [es'' [-> h']]] := runs_draw h; have [-> ->] := runs_ret h'.
  by split=> //; eexists.
by have [-> ->] := runs_ret h; split=> //; eexists.
Qed.

Lemma indices_shape beta (V : {poly R}) exact steps N idx l es o : (size V <= 7)%N ->
  runs (gibbs_indices beta V exact steps N idx l) es o ->
  updated es = flatten [seq if (i < N)%N then [:: CoefA i; CoefB i] else [:: CoefA i] | i <- idx]
  /\ exists l', o = inl l'.
Proof.
move=> sz; elim: idx l es => [|i idx IH] l es /= h.
  by have [-> ->] := runs_ret h; split=> //; eexists.
have [[es1 [es2 [l1 [-> h1 h2]]]]|[e [h1 _]]] := runs_bind h; last first.
  by have [_ [l' //]] := step_shape sz h1.
have [u1 _] := step_shape sz h1; have [u2 ho] := IH _ _ h2; split=> //.
by rewrite -u1 -u2 /updated map_cat.
Qed.

Lemma indices_ok beta (V : {poly R}) exact steps n idx st l es l' : (size V <= 7)%N -> all (fun i => 0 < i <= n.+1)%N idx ->
  rep n.+1 st l -> runs (gibbs_indices beta V exact steps n.+1 idx l) es (inl l') ->
  all_requests (nice exact beta V n) st es /\ (valid es -> rep n.+1 (after st es) l').
Proof.
move=> sz; elim: idx st l es => [|i idx IH] st l es /= al rp h.
  by have [-> [->]] := runs_ret h; split.
case/andP: al => hi al; have [[es1 [es2 [l1 [-> h1 h2]]]]|[e [h1 //]]] := runs_bind h.
have [r1 _ [l1' [[e] v1]]] := step_ok sz hi rp h1; rewrite -{}e in v1.
split; first by apply: right_cat => // v; have [] := IH _ _ _ al (v1 v) h2.
by rewrite valid_cat => /andP[w1 w2]; rewrite after_cat; have [_] := IH _ _ _ al (v1 w1) h2; apply.
Qed.

Lemma passes_shape T beta (V : {poly R}) exact steps N (out : _ -> T) p l acc es o : (size V <= 7)%N ->
  runs (gibbs_passes beta V exact steps N out p l acc) es o ->
  updated es = flatten (nseq p (sweep N)) /\ exists r, o = inl r.
Proof.
move=> sz; elim: p l acc es => [|p IH] l acc es /= h.
  by have [-> ->] := runs_ret h; split=> //; eexists.
have [[es1 [es2 [l1 [-> h1 h2]]]]|[e [h1 _]]] := runs_bind h; last first.
  by have [_ [l' //]] := indices_shape sz h1.
have [u1 _] := indices_shape sz h1; have [u2 ho] := IH _ _ _ h2; split=> //.
by rewrite -u2 /sweep -u1 /updated map_cat.
Qed.

Lemma passes_ok T beta (V : {poly R}) exact steps n (out : _ -> T) (F : _ -> T) p st l acc es l' acc' :
  (forall st l, rep n.+1 st l -> out l = F st) -> (size V <= 7)%N ->
  rep n.+1 st l -> runs (gibbs_passes beta V exact steps n.+1 out p l acc) es (inl (l', acc')) ->
  all_requests (nice exact beta V n) st es /\ (valid es -> rep n.+1 (after st es) l' /\
    acc' = acc ++ [seq F (after st (take (k * size (sweep n.+1)) es)) | k <- iota 1 p]).
Proof.
move=> hout sz; elim: p st l acc es => [|p IH] st l acc es rp /= h.
  by have [-> [-> ->]] := runs_ret h; split=> // _; split=> //; rewrite cats0.
have [[es1 [es2 [l1 [-> h1 h2]]]]|[e [h1 //]]] := runs_bind h.
have al : all (fun i => 0 < i <= n.+1)%N (iota 1 n.+1) by apply/allP => i; rewrite mem_iota.
have [r1 v1] := indices_ok sz al rp h1.
have [u1 _] := @indices_shape beta V exact steps n.+1 (iota 1 n.+1) l es1 _ sz h1.
have sz1 : size es1 = size (sweep n.+1) by rewrite /sweep -u1 size_map.
split; first by apply: right_cat => // v; have [] := IH _ _ _ _ (v1 v) h2.
rewrite valid_cat => /andP[w1 w2]; rewrite after_cat; have [_] := IH _ _ _ _ (v1 w1) h2 => /(_ w2) [h3 ->]; split=> //.
rewrite cat_rcons (hout _ _ (v1 w1)) mul1n -{1}sz1 take_size_cat //; congr (_ ++ _ :: _).
rewrite (iotaDl 1 1) -map_comp; apply: eq_map => k /=.
by rewrite mulnDl mul1n -sz1 takeD take_size_cat // drop_size_cat // after_cat sz1.
Qed.

Lemma slice (l : seq R) (f : nat -> R) N : (forall k, l`_k = f k) -> (N < size l)%N ->
  take N (drop 1 l) = [seq f i | i <- iota 1 N].
Proof.
move=> lf sz; have st : size (take N (drop 1 l)) = N by rewrite size_takel // size_drop; lia.
apply: (@eq_from_nth _ 0) => [|k hk]; first by rewrite st size_map size_iota.
rewrite st in hk; rewrite nth_take // nth_drop lf (nth_map 0%N) ?size_iota // nth_iota //.
Qed.

Lemma spectrum_rep eigt n st l : rep n.+1 st l -> eig_of eigt n.+1 l = spectrum eigt n.+1 st.
Proof.
case: l => a b [/= sa sb ra rb _ _ _]; rewrite /eig_of /spectrum /=; congr eigt.
  by apply: slice => //; rewrite sa; lia.
by rewrite (slice rb) ?sb ?addSn // -?map_comp //; lia.
Qed.

Lemma rep_start N : rep N (start R) (nseq (N + 3) 0, nseq (N + 3) 0).
Proof. by split; rewrite /= ?size_nseq // => k; rewrite nth_nseq if_same. Qed.

(** ** The constructor *)
Definition accepted (beta : R) (V : {poly R}) : Prop :=
  [/\ 0 < beta, (size V <= 7)%N, V`_5 = 0, ~~ odd (size V).-1 & 0 <= lead_coef V].

Theorem C67_constructor beta (V : {poly R}) :
  (accepted beta V -> init beta V = inl (V - (V`_0)%:P)) /\ (~ accepted beta V -> init beta V = inr ValueError).
Proof.
rewrite /init /accepted /order.
have e0 : (if V`_0 != 0 then V - (V`_0)%:P else V) = V - (V`_0)%:P.
  by case: eqP => [->|//]; rewrite polyC0 subr0.
case: (ltrP 0 beta) => hb /=; last by split=> // -[].
case: ltnP => hs; first by split=> // -[_ h]; move: hs; rewrite ltnNge (leq_trans (leq_pred _)) // (leq_trans h).
case: eqP => h5 /=; last by split=> // -[].
case ho: (odd _); first by split=> // -[].
rewrite -[V`_(size V).-1]/(lead_coef V); case: ltrP => hl; first by split=> // -[].
rewrite e0; split=> // ne; case: ne; split=> //.
have : (size V).-1 != 7%N by apply/eqP => e; rewrite e in ho.
by move: hs; lia.
Qed.

Lemma init_inv beta (V V' : {poly R}) : init beta V = inl V' -> accepted beta V /\ V' = V - (V`_0)%:P.
Proof.
have [h1 h2] := C67_constructor beta V.
have [ac|na] : accepted beta V \/ ~ accepted beta V.
  rewrite /accepted; case: (boolP [&& 0 < beta, (size V <= 7)%N, V`_5 == 0, ~~ odd (size V).-1 & 0 <= lead_coef V]).
    by case/and5P => ? ? /eqP ? ? ?; left.
  by move=> h; right => -[? ? /eqP ? ? ?]; case/negP: h; apply/and5P.
- by rewrite h1 // => -[<-].
by rewrite h2.
Qed.

Lemma trV_shift n (V : {poly R}) c (J J' : 'M[R]_n.+1) : trV (V - c%:P) J - trV (V - c%:P) J' = trV V J - trV V J'.
Proof. by rewrite /trV !rmorphB /= !horner_mx_C !raddfB /=; ring. Qed.

Lemma shift_right beta (V : {poly R}) c n st cc q : right beta (V - c%:P) n st cc q -> right beta V n st cc q.
Proof.
move=> [h1 h2]; split=> // ln y z sy sz; rewrite -(h1 ln y z sy sz) /log_joint.
have := @trV_shift n V c (jacobi n (refresh st cc y).1 (refresh st cc y).2) (jacobi n (refresh st cc z).1 (refresh st cc z).2).
move: (\sum_(1 <= _ < _) _) (\sum_(1 <= _ < _) _) (trV V _) (trV V _) (trV (V - _) _) (trV (V - _) _) => s1 s2 t1 t2 u1 u2 h.
have -> : t2 = u2 - u1 + t1 by rewrite h subrK.
ring.
Qed.

Lemma size_shift (V : {poly R}) c : (size V <= 7)%N -> (size (V - c%:P)%R <= 7)%N.
Proof.
move=> h; rewrite (leq_trans (size_add _ _)) // geq_max h size_opp (leq_trans (size_polyC_leq1 _)) //.
Qed.

Variable eigt : seq R -> seq R -> seq R.

Lemma even_coefsP (V : {poly R}) : reflect (forall k, ~~ odd k -> (0 < k)%N -> 0 <= V`_k) (all (fun c => 0 <= c) (even_coefs V)).
Proof.
apply: (iffP allP) => [h k ok k0|h x /mapP[k]]; last first.
  by rewrite mem_filter mem_iota => /andP[ok /andP[k2 _]] ->; apply: h => //; apply: ltn_trans k2.
case: (ltnP k (size V)) => hk; last by rewrite nth_default.
apply: h; apply/mapP; exists k => //; rewrite mem_filter ok mem_iota.
by have : k != 1%N by [apply/eqP => e; rewrite e in ok]; lia.
Qed.

Lemma supported_dec (V : {poly R}) : exact_supported V \/ ~ exact_supported V.
Proof.
case: (altP (V`_3 =P 0)) => h3; last by right => -[/eqP]; rewrite (negPf h3).
case: (leqP (size V) 5) => h5; last by right => -[_]; rewrite leqNgt h5.
by case: (even_coefsP V) => he; [left|right => -[]].
Qed.

(** sample_mcmc once the checks have passed *)
Lemma sample_mcmcE beta (V : {poly R}) N p (exact : bool) steps : (exact -> exact_supported V) ->
  sample_mcmc eigt beta V N p exact steps =
  gbind (gibbs_passes beta V exact steps N (eig_of eigt N) p (nseq (N + 3) 0, nseq (N + 3) 0) [::])
    (fun r => GRet R (eig_of eigt N r.1, r.2)).
Proof.
rewrite /sample_mcmc; case: exact => [/(_ isT) [h3 h4 he]|_] //.
rewrite h3 eqxx /= ifF; last by apply/negbTE; rewrite -ltnNge /order; lia.
by move/even_coefsP: he => ->.
Qed.

Lemma sample_mcmc_raise beta (V : {poly R}) N p steps : ~ exact_supported V ->
  sample_mcmc eigt beta V N p true steps = @GRaise R _ ValueError.
Proof.
move=> ns; rewrite /sample_mcmc /=; case: eqP => // h3 /=; case: leqP => // h5; case: even_coefsP => // he.
by case: ns; split=> //; move: h5; rewrite /order; lia.
Qed.

Lemma run_nice beta (V V' : {poly R}) n passes exact steps es o :
  init beta V = inl V' -> runs (sample_mcmc eigt beta V' n.+1 passes exact steps) es o ->
  all_requests (nice exact beta V' n) (start R) es.
Proof.
move=> /init_inv [[_ sz _ _ _] ->] h.
have sz' := size_shift (V`_0) sz.
have [hx|hx] : (exact -> exact_supported (V - (V`_0)%:P)) \/ (exact /\ ~ exact_supported (V - (V`_0)%:P)).
  by case: (exact); last (by left); case: (supported_dec (V - (V`_0)%:P)) => hh; [left|right].
- move: h; rewrite sample_mcmcE // => h.
  have [[es1 [es2 [[l1 acc] [-> h1 h2]]]]|[e [h1 _]]] := runs_bind h; last first.
    by have [_ [r]] := passes_shape sz' h1.
  have [-> _] := runs_ret h2; rewrite cats0.
  by have [] := passes_ok (@spectrum_rep eigt n) sz' (rep_start n.+1) h1.
case: hx => ex nx; rewrite ex sample_mcmc_raise // in h.
by have [-> _] := runs_raise h.
Qed.

(** C44: every one dimensional law asked for by the Gibbs sampler is the conditional law, given the current values of all
    the other coefficients, of the joint law of the tridiagonal model with the potential V given by the user. *)
Theorem C44_gibbs_conditionals beta (V V' : {poly R}) n passes exact steps es o :
  init beta V = inl V' -> runs (sample_mcmc eigt beta V' n.+1 passes exact steps) es o ->
  all_requests (right beta V n) (start R) es.
Proof.
move=> hi h; have := run_nice hi h; have [_ ->] := init_inv hi; apply: requests_impl => st c q [hr _].
exact: shift_right hr.
Qed.

(** the two polynomials, as functions of the arrays *)
Theorem C44_polynomial_a n i (a b : seq R) (V : {poly R}) : (size V <= 7)%N -> (0 < i <= n.+1)%N ->
  b`_0 = 0 -> b`_n.+1 = 0 -> (forall k, 0 <= b`_k) ->
  exists P, P_a_cond i a b V = inl P /\ forall x y,
    trV V (jacobi n (upd (fun k => a`_k) i x) (fun k => b`_k)) - P.[x] =
    trV V (jacobi n (upd (fun k => a`_k) i y) (fun k => b`_k)) - P.[y].
Proof.
move=> sz hi b0 bN bp; eexists; split; first by apply: P_a_condE => //; case/andP: hi.
move=> x y; have := @cond_a R n i (fun k => a`_k) (fun k => b`_k) V x y hi b0 bN bp sz => /=.
exact: subr_swap.
Qed.

Theorem C44_polynomial_b n i (a b : seq R) (V : {poly R}) : (size V <= 7)%N -> (0 < i <= n)%N ->
  b`_0 = 0 -> b`_n.+1 = 0 -> b`_(size b).-1 = 0 -> (forall k, 0 <= b`_k) ->
  exists P, P_b_cond i a b V = inl P /\ forall x y, 0 <= x -> 0 <= y ->
    trV V (jacobi n (fun k => a`_k) (upd (fun k => b`_k) i x)) - P.[x] =
    trV V (jacobi n (fun k => a`_k) (upd (fun k => b`_k) i y)) - P.[y].
Proof.
move=> sz hi b0 bN bl bp; eexists; split; first by apply: P_b_condE => //; case/andP: hi.
move=> x y x0 y0; have := @cond_b R n i (fun k => a`_k) (fun k => b`_k) V x y hi b0 bN bp sz x0 y0 => /=.
exact: subr_swap.
Qed.

(** C68: in exact mode, all the laws asked for are in the families of the exact samplers *)
Theorem C68_exact_mode_well_posed beta (V V' : {poly R}) n passes steps es o :
  init beta V = inl V' -> (1 < size V)%N -> runs (sample_mcmc eigt beta V' n.+1 passes true steps) es o ->
  all_requests (fun _ _ q => well_posed q) (start R) es.
Proof.
move=> hi s1 h; have hn := run_nice hi h; have [[b0 sz h5 od ld] e] := init_inv hi.
case: (supported_dec V') => [hs|ns]; last first.
  by rewrite sample_mcmc_raise // in h; have [-> _] := runs_raise h.
apply: (requests_impl _ hn) => st c q [_ h2]; apply: h2 => //.
have [_ _ he] := hs; have c0 k : V'`_k.+1 = V`_k.+1 by rewrite e coefB coefC subr0.
have lc : 0 < V`_(size V).-1 by rewrite lt_def lead_coef_eq0 ld -size_poly_gt0 (ltn_trans _ s1).
have sz5 : (size V <= 5)%N.
  have [_ h45 _] := hs; rewrite -(subrK (V`_0)%:P V) (leq_trans (size_add _ _)) // -e geq_max h45.
  by rewrite (leq_trans (size_polyC_leq1 _)).
have [e2|e4] : (size V).-1 = 2%N \/ (size V).-1 = 4%N.
  by move: s1 sz5 od; case: (size V) => [|[|[|[|[|[|//]]]]]] //=; [left|right].
- by left; rewrite c0 -e2.
by right; rewrite c0 -e4.
Qed.

(** log-density of what the selected method returns: log-density of its proposals plus log-probability of keeping *)
Definition log_returned (ln : R -> R) (m : gamma_method R) (x : R) : R :=
  match m with
  | GammaCall s t => (s - 1) * ln x - x / t
  | GammaReject s t c => (s - 1) * ln x - x / t - c * x ^+ 2
  | TruncGauss b mu v => - (x - b) ^+ 2 / (2%:R * v) - (b - mu) * (x - b) / v
  | Devroye s P => (s - 1) * ln x - P.[x]     (* see C46 *)
  end.
Definition log_keep (m : gamma_method R) (x : R) : R :=
  match m with
  | GammaReject _ _ c => - c * x ^+ 2
  | TruncGauss b mu v => - (b - mu) * (x - b) / v
  | _ => 0
  end.
Definition scale_of (m : gamma_method R) : R :=
  match m with GammaCall _ t => t | GammaReject _ t _ => t | TruncGauss _ _ v => v | Devroye _ _ => 1 end.

(** the selected method is exact for the well-posed laws (with gamma > 0): the probability of keeping is at most 1 and what is
    returned has the law asked for *)
Theorem C68_gamma_method_exact shape (be ga : R) ln x : 0 < shape -> 0 <= be -> 0 < ga -> 0 < x ->
  let P := be *: 'X^2 + ga *: 'X in let m := select_method shape P in
  [/\ 0 < scale_of m, log_keep m x <= 0 & log_returned ln m x = log_asked ln (ExactGamma shape P) x].
Proof.
move=> s0 b0 g0 x0 P m; rewrite /m /select_method.
have p2 : P`_2 = be by rewrite coefD !coefZ coefXn coefX /= mulr1 mulr0 addr0.
have p1 : P`_1 = ga by rewrite coefD !coefZ coefXn coefX /= mulr1 mulr0 add0r.
have px : P.[x] = be * x ^+ 2 + ga * x by rewrite hornerD !hornerZ hornerXn hornerX.
have gn : ga != 0 by rewrite gt_eqF.
rewrite p2 p1; case: (altP (be =P 0)) => bn.
  by rewrite /= px bn; split; [rewrite divr_gt0 ?ltr01|rewrite lexx|rewrite div1r invrK; ring].
have bp : 0 < be by rewrite lt_def bn.
case: (ltrP shape 1) => h1.
  rewrite /= px; split; first by rewrite divr_gt0 ?ltr01.
    by rewrite mulNr oppr_le0 mulr_ge0 ?sqr_ge0.
  by rewrite div1r invrK; ring.
case: eqP => [e|_]; last by rewrite /= ltr01 lexx.
rewrite /= px e; split.
- by rewrite divr_gt0 ?invr_gt0 ?ltr0n.
- have -> : - (0 - - 2%:R^-1 * ga / be) * (x - 0) / (2%:R^-1 / be) = - (ga * x).
    by field.
  by rewrite oppr_le0 mulr_ge0 // ltW.
by field.
Qed.

Lemma valid_run A (m : gprog R A) : exists es o, runs m es o /\ valid es.
Proof.
elim: m => [x|e|c q k IH]; [by exists [::], (inl x); split=> //; constructor|by exists [::], (inr e); split=> //; constructor|].
have [es [o [h v]]] := IH 1; exists (Ev c q 1 :: es), o; split; first by constructor.
by rewrite /= v andbT; case: (c) => //= k'; rewrite ltr01.
Qed.
Lemma some_run A (m : gprog R A) : exists es o, runs m es o.
Proof. by have [es [o [h _]]] := valid_run m; exists es, o. Qed.

Lemma draw2 A c q (k : R -> gprog R A) c' q' k' x y : k x = GDraw c' q' k' ->
  exists es o, runs (GDraw c q k) (Ev c q x :: Ev c' q' y :: es) o.
Proof.
move=> e; have [es [o h]] := some_run (k' y); exists es, o; apply: RDraw; rewrite e; exact: RDraw.
Qed.

(** the first two requests of a run of size 2 *)
Lemma two_requests beta (V : {poly R}) x y : (size V <= 7)%N ->
  exists q es o, runs (sample_mcmc eigt beta V 2 1 false 0)
    (Ev (CoefA 1) q x ::
     Ev (CoefB 1) (ExactGamma (2%:R^-1 * beta * 1%:R)
       ((2%:R^-1 * beta * 2%:R) *: \sum_(k < 7) V`_k *: PB 1 (fun k => [:: 0; x; 0; 0; 0]`_k) (fun k => [:: 0; 0; 0; 0; 0]`_k) 0 k)) y
     :: es) o.
Proof.
move=> sz; rewrite sample_mcmcE //= /gibbs_step P_a_condE //=.
by eexists; apply: draw2; rewrite /= P_b_condE.
Qed.

(** ... but not for a potential of degree 6: the cubic term of the conditional is ignored when shape < 1.
    Reachable case: V = x^6, beta = 1, N = 2, a_1 = 1. *)
Theorem C68_sextic_refuted (ln : R -> R) : exists V' q0 shape P y es o,
  [/\ init 1 'X^6 = inl V',
      runs (sample_mcmc eigt 1 V' 2 1 false 0) (Ev (CoefA 1) q0 1 :: Ev (CoefB 1) (ExactGamma shape P) y :: es) o &
      log_returned ln (select_method shape P) 1 - log_asked ln (ExactGamma shape P) 1
      != log_returned ln (select_method shape P) 2%:R - log_asked ln (ExactGamma shape P) 2%:R].
Proof.
have sz : (size ('X^6 : {poly R}) <= 7)%N by rewrite size_polyXn.
have [q [es [o h]]] := @two_requests 1 ('X^6) 1 1 sz; move: h.
set shape := 2%:R^-1 * _ * _; set P : {poly R} := _ *: _ => h.
exists ('X^6), q, shape, P, 1, es, o; split=> //.
  have [-> //] := C67_constructor 1 ('X^6 : {poly R}); first by rewrite coefXn /= polyC0 subr0.
  by split; rewrite ?ltr01 ?size_polyXn ?coefXn // lead_coefXn ler01.
have eP : P = 2%:R *: 'X^3 + 9%:R *: 'X^2 + 6%:R *: 'X.
  rewrite /P (sum7 (fun k => ('X^6)`_k *: _ k)) !coefXn /= !scale0r !add0r scale1r /PB /poly1d /= !cons_poly_def.
  have -> : 2%:R^-1 * 1 * 2%:R = 1 :> R by field.
  rewrite scale1r -!mul_polyC.
  rewrite !(mulr0, mul0r, addr0, add0r, expr1n, mulr1, expr0n, polyC0) /= -!natrM.
  by rewrite [in RHS]exprSr expr2 !mulrDl !mulrA.
have p2 : P`_2 = 9%:R by rewrite eP !coefD !coefZ !coefXn coefX /= !mulr0 mulr1 add0r addr0.
have p1 : P`_1 = 6%:R by rewrite eP !coefD !coefZ !coefXn coefX /= !mulr0 mulr1 !add0r.
have px x : P.[x] = 2%:R * x ^+ 3 + 9%:R * x ^+ 2 + 6%:R * x by rewrite eP !hornerD !hornerZ !hornerXn hornerX.
have s1 : shape < 1 by rewrite /shape !mulr1 invf_lt1 ?ltr0n ?ltr1n.
rewrite /select_method p2 p1 pnatr_eq0 s1 /= !px -subr_eq0.
set d := (X in X != 0); have -> : d = - 14%:R by rewrite /d; field.
by rewrite oppr_eq0 pnatr_eq0.
Qed.

(** ... nor for the double well potential V = x^4 - x^2 (beta = 1, N = 2, a_1 = 0), for which numpy is asked for a gamma
    variable with a negative scale and raises ValueError *)
Theorem C68_double_well_refuted : exists V' q0 shape P y es o,
  [/\ init 1 ('X^4 - 'X^2) = inl V',
      runs (sample_mcmc eigt 1 V' 2 1 false 0) (Ev (CoefA 1) q0 0 :: Ev (CoefB 1) (ExactGamma shape P) y :: es) o &
      if select_method shape P is GammaReject _ scale _ then gamma_raises scale else false].
Proof.
pose V : {poly R} := 'X^4 - 'X^2.
have sz : size V = 5%N by rewrite /V size_addl size_polyXn ?size_opp ?size_polyXn.
have sz7 : (size V <= 7)%N by rewrite sz.
have [q [es [o h]]] := @two_requests 1 V 0 1 sz7; move: h.
set shape := 2%:R^-1 * _ * _; set P : {poly R} := _ *: _ => h.
have cf k : V`_k = (k == 4%N)%:R - (k == 2%N)%:R by rewrite /V coefB !coefXn.
exists V, q, shape, P, 1, es, o; split=> //.
  have [-> //] := C67_constructor 1 V; first by rewrite cf /= subr0 polyC0 subr0.
  split; rewrite ?ltr01 ?sz ?cf //=; first by rewrite subrr.
  by rewrite /lead_coef sz cf /= subr0 ler01.
have eP : P = 2%:R *: 'X^2 - 2%:R *: 'X.
  rewrite /P (sum7 (fun k => V`_k *: _ k)) !cf /= /PB /poly1d /= !cons_poly_def.
  have -> : 2%:R^-1 * 1 * 2%:R = 1 :> R by field.
  rewrite scale1r -!mul_polyC.
  rewrite !(mulr0, mul0r, addr0, add0r, expr1n, mulr1, expr0n, polyC0, subrr, subr0, sub0r) /=.
  by rewrite polyCN polyC1 mulN1r mul1r expr2 mulrA addrC.
have p2 : P`_2 = 2%:R by rewrite eP coefB !coefZ !coefXn coefX /= !mulr0 mulr1 subr0.
have p1 : P`_1 = - 2%:R by rewrite eP coefB !coefZ !coefXn coefX /= !mulr0 mulr1 sub0r.
have s1 : shape < 1 by rewrite /shape !mulr1 invf_lt1 ?ltr0n ?ltr1n.
by rewrite /select_method p2 p1 pnatr_eq0 s1 /= /gamma_raises div1r invr_lt0 oppr_lt0 ltr0n.
Qed.

(** C67: which coefficients are refreshed, in which order, and what is returned *)
Theorem C67_run beta (V V' : {poly R}) n passes exact steps es o :
  init beta V = inl V' -> runs (sample_mcmc eigt beta V' n.+1 passes exact steps) es o ->
  (exact -> exact_supported V) ->
  updated es = flatten (nseq passes (sweep n.+1)) /\
  exists final chain, o = inl (final, chain) /\
   (valid es -> final = spectrum eigt n.+1 (after (start R) es) /\
     chain = [seq spectrum eigt n.+1 (after (start R) (take (k * size (sweep n.+1)) es)) | k <- iota 1 passes]).
Proof.
move=> /init_inv [[_ sz _ _ _] ->] h hx.
have sz' := size_shift (V`_0) sz.
have hx' : exact -> exact_supported (V - (V`_0)%:P).
  move=> /hx [h3 h4 he]; split.
  - by rewrite coefB coefC subr0.
  - by rewrite (leq_trans (size_add _ _)) // geq_max h4 size_opp (leq_trans (size_polyC_leq1 _)).
  by move=> k ok k0; rewrite coefB coefC gtn_eqF // subr0 he.
move: h; rewrite sample_mcmcE // => h.
have [[es1 [es2 [[l1 acc] [-> h1 h2]]]]|[e [h1 _]]] := runs_bind h; last first.
  by have [_ [r]] := passes_shape sz' h1.
have [-> ->] := runs_ret h2; rewrite cats0; split; first by have [] := passes_shape sz' h1.
exists (eig_of eigt n.+1 l1), acc; split=> // v.
have [_ /(_ v) [rp ->]] := passes_ok (@spectrum_rep eigt n) sz' (rep_start n.+1) h1.
by rewrite (spectrum_rep eigt rp).
Qed.

Theorem C67_exact_unsupported beta (V V' : {poly R}) n passes steps es o :
  init beta V = inl V' -> ~ exact_supported V -> runs (sample_mcmc eigt beta V' n.+1 passes true steps) es o ->
  es = [::] /\ o = inr ValueError.
Proof.
move=> /init_inv [[_ sz _ _ _] ->] ns; rewrite sample_mcmc_raise; first exact: runs_raise.
move=> [h3 h4 he]; apply: ns; split.
- by move: h3; rewrite coefB coefC subr0.
- rewrite -(subrK (V`_0)%:P V) (leq_trans (size_add _ _)) // geq_max h4 (leq_trans (size_polyC_leq1 _)) //.
by move=> k ok k0; move: (he k ok k0); rewrite coefB coefC gtn_eqF // subr0.
Qed.

(** an instance: V = x^4 + x^2 is accepted, is supported in exact mode, and has a run all of whose draws lie in the support *)
Theorem C44_instance beta n passes : 0 < beta ->
  let V : {poly R} := 'X^4 + 'X^2 in
  [/\ init beta V = inl V, exact_supported V, (1 < size V)%N &
      exists es o, runs (sample_mcmc eigt beta V n.+1 passes true 0) es o /\ valid es].
Proof.
move=> b0 V.
have sz : size V = 5%N by rewrite /V size_addl size_polyXn ?size_polyXn.
have cf k : V`_k = (k == 4%N)%:R + (k == 2%N)%:R by rewrite /V coefD !coefXn.
split; last exact: valid_run; last by rewrite sz.
  have [-> //] := C67_constructor beta V; first by rewrite cf /= addr0 polyC0 subr0.
  split; rewrite ?sz ?cf //=; first by rewrite addr0.
  by rewrite /lead_coef sz cf /= addr0 ler01.
split; rewrite ?sz ?cf //=; first by rewrite addr0.
by move=> k _ _; rewrite cf addr_ge0 // ler0n.
Qed.
End Proof.

