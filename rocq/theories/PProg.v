(** * PProg: random programs that also draw Poisson variables.

    [Draw m k] runs one of the finite random programs of Prob.v (rng.rand, rng.choice, ...), [Pois lam k] is
    [rng.poisson(lam)] (numpy raises [ValueError] when lam is negative).
    Used by intermediate_sampling.py l.371 and l.715.  Numbers are the real numbers of the standard library. *)
From Coq Require Import Reals FunctionalExtensionality Lra.
From Coquelicot Require Import Coquelicot.
From mathcomp Require Import all_ssreflect all_algebra.
From Verif Require Import Prob Rstruct.
Set Implicit Arguments. Unset Strict Implicit. Unset Printing Implicit Defensive.
Import Order.Theory GRing.Theory Num.Theory.
Local Open Scope ring_scope.
Notation RR := R_rcfType.
Variant is_sum (a : nat -> R) (l : R) : Prop := IsSum of @is_series R_AbsRing R_NormedModule a l.
Definition summable (a : nat -> R) : Prop := @ex_series R_AbsRing R_NormedModule a.

Lemma eq_is_sum a b l : a =1 b -> is_sum a l -> is_sum b l.
Proof. by move=> ab [h]; split; exact: is_series_ext ab h. Qed.
Lemma is_sum_scale c a l : is_sum a l -> is_sum (fun t => c * a t) (c * l).
Proof. by move=> [h]; split; exact: is_series_scal. Qed.
Lemma is_sum_add a b l l' : is_sum a l -> is_sum b l' -> is_sum (fun t => a t + b t) (l + l').
Proof. by move=> [h] [h']; split; exact: is_series_plus. Qed.
Lemma is_sum_shift a l : a 0%N = 0 -> is_sum (fun t => a t.+1) l -> is_sum a l.
Proof.
move=> a0 [h]; split; apply: is_series_decr_1; suff -> : plus l (opp (a 0%N)) = l by [].
by rewrite a0 /plus /opp /= RoppE RplusE oppr0 addr0.
Qed.
Lemma is_sum_Series a l : is_sum a l -> Series a = l.
Proof. by move=> [h]; exact: is_series_unique. Qed.
Lemma Series_is_sum a : summable a -> is_sum a (Series a).
Proof. by move=> h; split; exact: Series_correct. Qed.
Lemma is_sum_summable a l : is_sum a l -> summable a.
Proof. by move=> [h]; exists l. Qed.
Lemma summable_le a b : (forall t, 0 <= a t <= b t) -> summable b -> summable a.
Proof.
move=> h; apply: ex_series_le => t; rewrite /norm /= /abs /=.
by have /andP[/RleP h1 /RleP h2] := h t; rewrite Rabs_pos_eq.
Qed.
Lemma SeriesZ c a : Series (fun t => c * a t) = c * Series a.
Proof. exact: Series_scal_l. Qed.
Lemma SeriesD a b : summable a -> summable b -> Series (fun t => a t + b t) = Series a + Series b.
Proof. exact: Series_plus. Qed.
Lemma Series_mono a b : (forall t, 0 <= a t <= b t) -> summable b -> Series a <= Series b.
Proof. by move=> h sb; apply/RleP; apply: Series_le => // t; have /andP[/RleP h1 /RleP h2] := h t. Qed.

(** the Poisson weights *)
Definition pois (lam : R) (t : nat) : R := exp (- lam) * (lam ^+ t / (t`!)%:R).

Inductive pprog (A : Type) : Type :=
| PRet of A
| PRaise of exn
| Draw : forall T : Type, prog RR T -> (T -> pprog A) -> pprog A
| Pois of R & (nat -> pprog A).
Arguments PRaise {A}.

Fixpoint pbind A B (m : pprog A) (g : A -> pprog B) : pprog B :=
  match m with
  | PRet a => g a
  | PRaise e => PRaise e
  | Draw T p k => Draw p (fun x => pbind (k x) g)
  | Pois lam k => Pois lam (fun t => pbind (k t) g)
  end.

(** Expectation of [f] over the executions that return normally. *)
Fixpoint PE A (m : pprog A) (f : A -> R) : R :=
  match m with
  | PRet a => f a
  | PRaise _ => 0
  | Draw T p k => E (R := RR) p (fun x => PE (k x) f)
  | Pois lam k => if lam < 0 then 0 else Series (fun t => pois lam t * PE (k t) f)
  end.

(** Probability of returning a value that satisfies [Q]. *)
Definition PPr A (m : pprog A) (Q : A -> bool) : R := PE m (fun a => (Q a)%:R).

(** all the series met in [PE m f] converge *)
Fixpoint converges A (m : pprog A) (f : A -> R) : Prop :=
  match m with
  | PRet _ | PRaise _ => Logic.True
  | Draw T p k => forall x, converges (k x) f
  | Pois lam k => (0 <= lam -> summable (fun t => pois lam t * PE (k t) f)) /\ forall t, converges (k t) f
  end.

Lemma is_sum_exp (x : R) : is_sum (fun t => x ^+ t / (t`!)%:R) (exp x).
Proof.
split; have := is_exp_Reals x; rewrite /is_pseries => h; apply: is_series_ext h => t /=.
rewrite -RinvE /scal /= /mult /= pow_n_pow RpowE RmultE; congr (_ * / _)%coqR.
rewrite -INRE; congr INR; elim: t => // t IH; by rewrite factS -IH /= mulSn.
Qed.

(** factorial moments *)
Lemma is_sum_ffact (x : R) m : is_sum (fun t => x ^+ t / (t`!)%:R * (t ^_ m)%:R) (x ^+ m * exp x).
Proof.
elim: m => [|m IH].
  by rewrite expr0 mul1r; apply: eq_is_sum (is_sum_exp x) => t; rewrite ffactn0 mulr1.
apply: is_sum_shift; first by rewrite /= ffact0n mulr0.
rewrite exprS -mulrA; apply: eq_is_sum (is_sum_scale x IH) => t.
rewrite ffactSS factS exprS !natrM.
have t0 : (t.+1)%:R != 0 :> R by rewrite pnatr_eq0.
have f0 : (t`!)%:R != 0 :> R by rewrite pnatr_eq0 -lt0n fact_gt0.
by rewrite -!mulrA; congr (_ * (_ * _)); rewrite invfM [_ / _]mulrC -mulrA mulKf.
Qed.

Lemma exp_gt0 x : 0 < exp x. Proof. by apply/RltP; exact: exp_pos. Qed.
Lemma expD x y : exp (x + y) = exp x * exp y. Proof. exact: exp_plus. Qed.
Lemma exp00 : exp 0 = 1. Proof. exact: exp_0. Qed.
Lemma expN x : exp (- x) * exp x = 1. Proof. by rewrite -expD addNr exp00. Qed.
Lemma pois_ge0 lam t : 0 <= lam -> 0 <= pois lam t.
Proof. by move=> l0; rewrite mulr_ge0 ?divr_ge0 ?exprn_ge0 ?ler0n // ltW // exp_gt0. Qed.
Lemma pois_sum lam : is_sum (pois lam) 1.
Proof. by rewrite -(expN lam); apply: is_sum_scale; exact: is_sum_exp. Qed.
(** E[x^t t(t-1)...(t-m+1)] for a Poisson variable t *)
Lemma pois_ffact lam x m :
  is_sum (fun t => pois lam t * (x ^+ t * (t ^_ m)%:R)) (exp (lam * x - lam) * (lam * x) ^+ m).
Proof.
have -> : exp (lam * x - lam) * (lam * x) ^+ m = exp (- lam) * ((lam * x) ^+ m * exp (lam * x)).
  by rewrite expD mulrC [in RHS]mulrCA [exp (- lam) * _]mulrC.
apply: eq_is_sum (is_sum_scale _ (is_sum_ffact (lam * x) m)) => t.
by rewrite /pois exprMn -!mulrA; congr (_ * (_ * _)); exact: mulrCA.
Qed.

Section Laws.
Implicit Types (A : Type).

Lemma eq_PE A (m : pprog A) f g : f =1 g -> PE m f = PE m g.
Proof.
move=> fg; elim: m => //= [T p k IH|lam k IH]; first exact: eq_E.
by case: ifP => // _; apply: Series_ext => t; rewrite IH.
Qed.
Lemma PE_bind A B (m : pprog A) (g : A -> pprog B) f : PE (pbind m g) f = PE m (fun a => PE (g a) f).
Proof.
elim: m => //= [T p k IH|lam k IH]; first exact: eq_E.
by case: ifP => // _; apply: Series_ext => t; rewrite IH.
Qed.
Lemma PE_scale A (m : pprog A) c f : PE m (fun a => c * f a) = c * PE m f.
Proof.
elim: m => //= [_|T p k IH|lam k IH]; first by rewrite mulr0.
  by rewrite -E_scale; apply: eq_E.
case: ifP => // _; first by rewrite mulr0.
rewrite -SeriesZ; apply: Series_ext => t; rewrite IH; exact: mulrCA.
Qed.

Lemma E_const_le A (m : prog RR A) c : 0 <= c -> E m (fun _ => c) <= c.
Proof.
move=> c0; rewrite -{2}[c]mulr1; rewrite (@eq_E _ _ m _ (fun _ => c * 1)); last by move=> a; rewrite mulr1.
by rewrite E_scale ler_wpmul2l //; exact: (E_le_mass m (fun _ => true)).
Qed.

Lemma PE_bnd A (m : pprog A) f C : 0 <= C -> (forall a, 0 <= f a <= C) -> (0 <= PE m f <= C) /\ converges m f.
Proof.
move=> C0 fb; elim: m => [a|e|T p k IH|lam k IH] /=; first by split.
- by rewrite lexx.
- split; last by move=> x; case: (IH x).
  have h x : 0 <= PE (k x) f <= C by case: (IH x).
  apply/andP; split; first by apply: E_ge0 => x; case/andP: (h x).
  by apply: le_trans (E_const_le p C0); apply: E_le => x; case/andP: (h x).
- have h t : 0 <= PE (k t) f <= C by case: (IH t).
  have [l0|l0] := ltrP lam 0; first by rewrite lexx C0; split=> //; split=> [//|t]; case: (IH t).
  have hb t : 0 <= pois lam t * PE (k t) f <= C * pois lam t.
    by have /andP[h1 h2] := h t; rewrite mulr_ge0 ?pois_ge0 //= mulrC ler_wpmul2r ?pois_ge0.
  have sC := is_sum_scale C (pois_sum lam); rewrite mulr1 in sC.
  have sm := summable_le hb (is_sum_summable sC).
  split; last by split=> // t; case: (IH t).
  apply/andP; split; last by rewrite -[X in _ <= X](is_sum_Series sC); apply: Series_mono => //; exact: is_sum_summable sC.
  have z : is_sum (fun _ => 0) 0 by have := is_sum_scale 0 (pois_sum lam); rewrite mul0r; apply: eq_is_sum => t; rewrite mul0r.
  by rewrite -[X in X <= _](is_sum_Series z); apply: Series_mono => // t; rewrite lexx /=; case/andP: (hb t).
Qed.

Lemma PE_add_conv A (m : pprog A) f g : converges m f -> converges m g ->
  PE m (fun a => f a + g a) = PE m f + PE m g.
Proof.
elim: m => //= [_ _ _|T p k IH cf cg|lam k IH [cf1 cf2] [cg1 cg2]]; first by rewrite addr0.
  by rewrite -E_add; apply: eq_E => x; exact: IH.
case: ltrP => l0; first by rewrite addr0.
rewrite -SeriesD; [|exact: cf1|exact: cg1].
by apply: Series_ext => t; rewrite IH // -[RHS]mulrDr.
Qed.
End Laws.
