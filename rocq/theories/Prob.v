(** * Prob: random programs.

    A random program is a term of a free monad over the primitives of
    [numpy.random.RandomState] that DPPy uses:
    - [Flip p k]      : [rng.rand() < p]; the result is [true] with probability [clip p 0 1]
                        ([rng.rand()] is uniform on [0,1));
    - [Choice pop w k]: [rng.choice(pop, p = w)]; numpy raises [ValueError] when a weight is
                        negative or when the weights do not sum to 1 (in particular when
                        [pop] is empty), otherwise element [x] is returned with probability [w x].
      (numpy tests the sum up to a floating point tolerance; numbers are exact here);
    - [Raise e]       : a Python exception.

    Used by: dppy/exact_sampling.py (rng.choice at l.118,206,272,491,...; rng.rand at l.348,392,1280...)
    and dppy/mcmc_sampling.py. *)
From mathcomp Require Import all_ssreflect all_algebra.
Set Implicit Arguments. Unset Strict Implicit. Unset Printing Implicit Defensive.
Import Order.Theory GRing.Theory Num.Theory.
Local Open Scope ring_scope.

Inductive exn := ValueError | IndexError | TypeError | AttributeError | ZeroDivisionError | UnboundLocalError
  | RecursionError | KeyError | FloatingPointError | NotImplementedError | LinAlgError.

Section Prog.
Variable R : rcfType.

Inductive prog (A : Type) : Type :=
| Ret of A
| Raise of exn
| Flip of R & (bool -> prog A)
| Choice : forall T : Type, seq T -> (T -> R) -> (T -> prog A) -> prog A.

Fixpoint bind A B (m : prog A) (g : A -> prog B) : prog B :=
  match m with
  | Ret a => g a
  | Raise e => Raise B e
  | Flip p k => Flip p (fun b => bind (k b) g)
  | Choice T pop w k => Choice pop w (fun x => bind (k x) g)
  end.

(** Probability that [rng.rand() < p]. *)
Definition clip (p : R) : R := if p <= 0 then 0 else if 1 <= p then 1 else p.

(** numpy's validation of the vector of probabilities. *)
Definition valid_weights T (pop : seq T) (w : T -> R) : bool :=
  all (fun x => 0 <= w x) pop && (\sum_(x <- pop) w x == 1).

(** Expectation of [f] over the executions that return normally. *)
Fixpoint E A (m : prog A) (f : A -> R) : R :=
  match m with
  | Ret a => f a
  | Raise _ => 0
  | Flip p k => clip p * E (k true) f + (1 - clip p) * E (k false) f
  | Choice T pop w k =>
      if valid_weights pop w then \sum_(x <- pop) w x * E (k x) f else 0
  end.

(** Probability that the program returns a value satisfying [Q]. *)
Definition Pr A (m : prog A) (Q : A -> bool) : R := E m (fun a => (Q a)%:R).

(** The program returns normally with probability one. *)
Definition total A (m : prog A) : Prop := E m (fun _ => 1) = 1.

(** [possible m o]: outcome [o] (a value or an exception) is reached along branches that all have
    positive probability. *)
Fixpoint possible A (m : prog A) (o : A + exn) : Prop :=
  match m with
  | Ret a => o = inl a
  | Raise e => o = inr e
  | Flip p k => (0 < clip p /\ possible (k true) o) \/ (clip p < 1 /\ possible (k false) o)
  | Choice T pop w k =>
      if valid_weights pop w
      then exists s1 x s2, [/\ pop = s1 ++ x :: s2, 0 < w x & possible (k x) o]
      else o = inr ValueError
  end.

Lemma E_bind A B (m : prog A) (g : A -> prog B) f :
  E (bind m g) f = E m (fun a => E (g a) f).
Proof.
elim: m => //= [p k IH|T pop w k IH]; first by rewrite !IH.
by case: ifP => // _; apply: eq_bigr => x _; rewrite IH.
Qed.

Lemma eq_E A (m : prog A) f g : f =1 g -> E m f = E m g.
Proof.
move=> fg; elim: m => //= [p k IH|T pop w k IH]; first by rewrite !IH.
by case: ifP => // _; apply: eq_bigr => x _; rewrite IH.
Qed.

Lemma clip_ge0 p : 0 <= clip p.
Proof. by rewrite /clip; case: (lerP p 0) => [_|/ltW p0]; [exact: lexx|case: (lerP 1 p) => _ //; exact: ler01]. Qed.

Lemma clip_le1 p : clip p <= 1.
Proof. by rewrite /clip; case: (lerP p 0) => [_|p0]; [exact: ler01|case: (lerP 1 p) => [_|/ltW //]; exact: lexx]. Qed.

Lemma clip01 p : 0 <= p -> p <= 1 -> clip p = p.
Proof.
move=> p0 p1; rewrite /clip; case: (lerP p 0) => [p0'|_].
  by apply/eqP; rewrite eq_le p0 p0'.
by case: (lerP 1 p) => [p1'|//]; apply/eqP; rewrite eq_le p1 p1'.
Qed.

Lemma E_ge0 A (m : prog A) f : (forall a, 0 <= f a) -> 0 <= E m f.
Proof.
move=> f0; elim: m => //= [p k IH|T pop w k IH].
  by rewrite addr_ge0 // mulr_ge0 ?clip_ge0 ?subr_ge0 ?clip_le1.
case: ifP => // /andP[w0 _]; elim: pop w0 => [|x pop IHp] /=; first by rewrite big_nil.
by move=> /andP[wx wp]; rewrite big_cons addr_ge0 ?mulr_ge0 // IHp.
Qed.

Lemma E_add A (m : prog A) f g : E m (fun a => f a + g a) = E m f + E m g.
Proof.
elim: m => //= [_|p k IH|T pop w k IH]; first by rewrite addr0.
  by rewrite !IH !mulrDr addrACA.
case: ifP => _; last by rewrite addr0.
by rewrite -big_split /=; apply: eq_bigr => x _; rewrite IH mulrDr.
Qed.

Lemma E_scale A (m : prog A) c f : E m (fun a => c * f a) = c * E m f.
Proof.
elim: m => //= [_|p k IH|T pop w k IH]; first by rewrite mulr0.
  by rewrite !IH mulrDr !mulrA ![_ * c]mulrC.
case: ifP => _; last by rewrite mulr0.
by rewrite big_distrr /=; apply: eq_bigr => x _; rewrite IH mulrCA.
Qed.

Lemma E_zero A (m : prog A) : E m (fun _ => 0) = 0.
Proof.
elim: m => //= [p k IH|T pop w k IH]; first by rewrite !IH !mulr0 addr0.
by case: ifP => // _; apply: big1 => x _; rewrite IH mulr0.
Qed.

Lemma E_sum A (m : prog A) (I : Type) (s : seq I) (P : pred I) (F : I -> A -> R) :
  E m (fun a => \sum_(i <- s | P i) F i a) = \sum_(i <- s | P i) E m (F i).
Proof.
elim: s => [|i s IH].
  by rewrite big_nil -[RHS](E_zero m); apply: eq_E => a; rewrite big_nil.
rewrite big_cons -IH; case: ifP => Pi; last by apply: eq_E => a; rewrite big_cons Pi.
by rewrite -E_add; apply: eq_E => a; rewrite big_cons Pi.
Qed.

Lemma E_le A (m : prog A) f g : (forall a, f a <= g a) -> E m f <= E m g.
Proof.
move=> fg; rewrite -subr_ge0.
have -> : E m g - E m f = E m (fun a => g a + -1 * f a).
  by rewrite E_add E_scale mulN1r.
by apply: E_ge0 => a; rewrite mulN1r subr_ge0.
Qed.

Lemma E1_le1 A (m : prog A) : E m (fun _ => 1) <= 1.
Proof.
elim: m => //= [_|p k IH|T pop w k IH]; first exact: ler01.
  apply: (@le_trans _ _ (clip p * 1 + (1 - clip p) * 1)); last by rewrite !mulr1 addrC subrK.
  by apply: ler_add; apply: ler_wpmul2l; rewrite ?subr_ge0 ?clip_le1 ?clip_ge0.
case: ifP => [/andP[w0 /eqP w1]|_]; last exact: ler01.
rewrite -[X in _ <= X]w1; elim: {w1} pop w0 => [|x pop IHp] /=; first by rewrite !big_nil.
move=> /andP[wx wp]; rewrite !big_cons ler_add ?IHp //.
by rewrite -[X in _ <= X]mulr1 ler_wpmul2l.
Qed.

(** A program that returns with probability one cannot raise on a path of positive probability. *)
Lemma total_no_raise A (m : prog A) e : total m -> ~ possible m (inr e).
Proof.
rewrite /total; elim: m => //= [e'|p k IH|T pop w k IH].
- by move=> /eqP; rewrite eq_sym oner_eq0.
- move=> tot; have p0 := clip_ge0 p; have p1 := clip_le1 p.
  have l1 := E1_le1 (k true); have l2 := E1_le1 (k false).
  have d0 : clip p * (1 - E (k true) (fun=> 1)) + (1 - clip p) * (1 - E (k false) (fun=> 1)) = 0.
    rewrite !mulrBr !mulr1 addrACA -opprD tot addrCA subrr addr0 subrr //.
  move/eqP: d0; rewrite paddr_eq0 ?mulr_ge0 ?subr_ge0 // !mulf_eq0 => /andP[d1 d2].
  case=> [[pp pk]|[pp pk]].
    move: d1; rewrite (gt_eqF pp) /= subr_eq0 => /eqP d1.
    exact: (IH true (esym d1) pk).
  move: d2; rewrite subr_eq0 gt_eqF //= subr_eq0 => /eqP d2.
  exact: (IH false (esym d2) pk).
- case: ifP => [/andP[w0 /eqP w1]|_]; last by move=> /eqP; rewrite eq_sym oner_eq0.
  move=> tot [s1 [x [s2 [def wx px]]]].
  have d0 : \sum_(y <- pop) w y * (1 - E (k y) (fun=> 1)) = 0.
    under eq_bigr do rewrite mulrBr mulr1.
    by rewrite big_split /= sumrN tot w1 subrr.
  have ge s : all (fun x => 0 <= w x) s -> 0 <= \sum_(y <- s) w y * (1 - E (k y) (fun=> 1)).
    elim: s => [|y s IHs] /=; first by rewrite big_nil.
    by move=> /andP[wy ws]; rewrite big_cons addr_ge0 ?IHs // mulr_ge0 ?subr_ge0 ?E1_le1.
  move: w0 d0; rewrite def all_cat big_cat big_cons /= => /and3P[a1 a2 a3] /eqP.
  rewrite paddr_eq0 ?addr_ge0 ?ge ?mulr_ge0 ?subr_ge0 ?E1_le1 // => /andP[_].
  rewrite paddr_eq0 ?ge ?mulr_ge0 ?subr_ge0 ?E1_le1 // => /andP[].
  rewrite mulf_eq0 (gt_eqF wx) /= subr_eq0 => /eqP d1 _.
  exact: (IH x (esym d1) px).
Qed.

(** A value returned along a path of positive probability has an indicator of positive expectation;
    contrapositively, an event of probability one holds of every possible result. *)
Lemma possible_pos A (m : prog A) a (Q : A -> bool) :
  possible m (inl a) -> Q a -> 0 < Pr m Q.
Proof.
rewrite /Pr; elim: m => //= [b [->] ->|p k IH|T pop w k IH]; first exact: ltr01.
- have f0 (b : bool) : 0 <= E (k b) (fun a : A => (Q a)%:R) by apply: E_ge0 => ?; exact: ler0n.
  move=> [[pp pk]|[pp pk]] Qa.
    by rewrite ltr_paddr ?mulr_ge0 ?subr_ge0 ?clip_le1 // mulr_gt0 // IH.
  by rewrite ltr_paddl ?mulr_ge0 ?clip_ge0 // mulr_gt0 ?subr_gt0 // IH.
- case: ifP => [/andP[w0 _]|_ //] [s1 [x [s2 [def wx px]]]] Qa.
  have ge s : all (fun x => 0 <= w x) s -> 0 <= \sum_(y <- s) w y * E (k y) (fun a : A => (Q a)%:R).
    elim: s => [|y s IHs] /=; first by rewrite big_nil.
    move=> /andP[wy ws]; rewrite big_cons addr_ge0 ?IHs // mulr_ge0 //.
    by apply: E_ge0 => ?; exact: ler0n.
  move: w0; rewrite def all_cat /= big_cat big_cons /= => /and3P[a1 a2 a3].
  by rewrite ltr_paddl ?ge // ltr_paddr ?ge // mulr_gt0 // IH.
Qed.

Lemma almost_sure A (m : prog A) (Q : A -> bool) a :
  Pr m (fun a => ~~ Q a) = 0 -> possible m (inl a) -> Q a.
Proof.
move=> z pa; apply: contraT => nQ.
by move: (possible_pos (Q := fun a => ~~ Q a) pa nQ); rewrite z ltxx.
Qed.

(** expectations only depend on the possible results *)
Lemma eq_E_possible A (m : prog A) f g : (forall a, possible m (inl a) -> f a = g a) -> E m f = E m g.
Proof.
elim: m => //= [a fg|p k IH fg|T pop w k IH fg]; first exact: fg.
- congr (_ + _).
    have [->|z] := eqVneq (clip p) 0; first by rewrite !mul0r.
    congr (_ * _); apply: IH => a pa; apply: fg; left; split=> //.
    by rewrite lt_neqAle eq_sym z clip_ge0.
  have [->|z] := eqVneq (clip p) 1; first by rewrite subrr !mul0r.
  congr (_ * _); apply: IH => a pa; apply: fg; right; split=> //.
  by rewrite lt_neqAle z clip_le1.
- case: ifP fg => // /andP[w0 _] fg.
  have sub s1 s2 : pop = s1 ++ s2 -> \sum_(x <- s2) w x * E (k x) f = \sum_(x <- s2) w x * E (k x) g.
    elim: s2 s1 => [|x s2 IHs] s1 e; first by rewrite !big_nil.
    rewrite !big_cons; congr (_ + _); last by apply: (IHs (rcons s1 x)); rewrite cat_rcons.
    have wx : 0 <= w x by move: w0; rewrite e all_cat /= => /and3P[].
    have [->|z] := eqVneq (w x) 0; first by rewrite !mul0r.
    congr (_ * _); apply: IH => a pa; apply: fg; exists s1, x, s2; split=> //.
    by rewrite lt_neqAle eq_sym z.
  exact: (sub [::]).
Qed.

Lemma PrC A (m : prog A) (Q : A -> bool) :
  Pr m (fun a => ~~ Q a) = E m (fun _ => 1) - Pr m Q.
Proof.
apply/eqP; rewrite eq_sym subr_eq eq_sym; apply/eqP.
rewrite /Pr -E_add; apply: eq_E => a; by case: (Q a); rewrite ?add0r ?addr0.
Qed.

Lemma E_le_mass A (m : prog A) (Q : A -> bool) : Pr m Q <= 1.
Proof.
apply: le_trans (E1_le1 m); apply: E_le => a; by case: (Q a); rewrite ?ler01.
Qed.

Lemma possible_bind_raise A B (m : prog A) (g : A -> prog B) e : possible (bind m g) (inr e) ->
  possible m (inr e) \/ exists2 a, possible m (inl a) & possible (g a) (inr e).
Proof.
elim: m => [a|e'|p k IH|T pop w k IH] /= h.
- by right; exists a.
- by left; case: h => ->.
- case: h => [[c h]|[c h]]; case: (IH _ h) => [h1|[a h1 h2]].
  + by left; left.
  + by right; exists a => //; left.
  + by left; right.
  + by right; exists a => //; right.
- move: h; case: ifP => v h; last by left; case: h => ->.
  move: h => [s1 [x [s2 [e1 w0 h1]]]]; case: (IH _ h1) => [h2|[a h2 h3]].
    by left; exists s1, x, s2.
  by right; exists a => //; exists s1, x, s2.
Qed.

End Prog.
Arguments Ret {R A}. Arguments Raise {R A}.

(** [ring]/[field] after putting the equation in the carrier type of the real closed field. *)
Ltac fixeq :=
  match goal with
  | R : rcfType |- @eq _ ?a ?b => change (@eq (Num.RealClosedField.sort R) a b)
  end.
