(** * LoopTerm: almost sure termination of a random loop (no model of code here).
    [loop fuel s]: run [step] while [run] holds, at most [fuel] times; None: still running. *)
From mathcomp Require Import all_ssreflect all_algebra.
From Verif Require Import Prob McmcModel Mcmc Finite.
Set Implicit Arguments. Unset Strict Implicit. Unset Printing Implicit Defensive.
Import Order.Theory GRing.Theory Num.Theory.
Local Open Scope ring_scope.

Lemma E_le_poss (R : rcfType) A (m : prog R A) f g : (forall a, possible m (inl a) -> f a <= g a) -> E m f <= E m g.
Proof.
move=> fg; rewrite (@eq_E_possible _ _ m f (fun a => Num.min (f a) (g a))) => [|a /fg h]; last by rewrite min_l.
by apply: E_le => a; rewrite le_minl lexx orbT.
Qed.

Lemma noraise_total (R : rcfType) A (m : prog R A) : (forall x, ~ possible m (inr x)) -> total m.
Proof.
rewrite /total; elim: m => [a|x|p k IH|T pop w k IH] h.
- by [].
- by case: (h x).
- rewrite flip_E; have e1 : clip p * E (k true) (fun=> 1) = clip p.
    have [->|z] := eqVneq (clip p) 0; first by rewrite mul0r.
    rewrite IH ?mulr1 // => x px; case: (h x); left; split=> //; by rewrite lt_neqAle eq_sym z clip_ge0.
  have e2 : (1 - clip p) * E (k false) (fun=> 1) = 1 - clip p.
    have [->|z] := eqVneq (clip p) 1; first by rewrite subrr mul0r.
    rewrite IH ?mulr1 // => x px; case: (h x); right; split=> //; by rewrite lt_neqAle z clip_le1.
  by rewrite e1 e2 addrC subrK.
- move: h; rewrite /possible -/possible [LHS]/E -/E; case: ifP => [/andP[w0 /eqP w1]|_] h; last by case: (h ValueError).
  have sub s1 s2 : pop = s1 ++ s2 -> \sum_(x <- s2) w x * E (k x) (fun=> 1) = \sum_(x <- s2) w x.
    elim: s2 s1 => [|x s2 IHs] s1 e; first by rewrite !big_nil.
    rewrite !big_cons; congr (_ + _); last by apply: (IHs (rcons s1 x)); rewrite cat_rcons.
    have wx : 0 <= w x by move: w0; rewrite e all_cat /= => /and3P[].
    have [->|z] := eqVneq (w x) 0; first by rewrite !mul0r.
    rewrite IH ?mulr1 // => y py; case: (h y); exists s1, x, s2; split=> //; by rewrite /= lt_neqAle eq_sym z.
  rewrite -[RHS]w1; exact: (sub [::]).
Qed.

Section Loop.
Variables (R : rcfType) (S A : Type) (step : S -> prog R S) (run : S -> bool) (out : S -> A).

Fixpoint loop (fuel : nat) (s : S) : prog R (option A) :=
  if run s then if fuel is f.+1 then bind (step s) (loop f) else Ret None else Ret (Some (out s)).
Lemma loopE fuel s : loop fuel s = if run s then if fuel is f.+1 then bind (step s) (loop f) else Ret None else Ret (Some (out s)).
Proof. by case: fuel. Qed.

Definition isNone (o : option A) := if o is None then true else false.
Definition isSome' (o : option A) := if o is None then false else true.
Definition q f s : R := Pr (loop f s) isNone.

Variable inv : S -> Prop.
Hypothesis inv_step : forall s s', inv s -> run s -> possible (step s) (inl s') -> inv s'.
Hypothesis step_total : forall s, inv s -> run s -> total (step s).

Lemma q_ge0 f s : 0 <= q f s.
Proof. by apply: E_ge0 => a; rewrite ler0n. Qed.

Lemma loop_total f s : inv s -> total (loop f s).
Proof.
rewrite /total; elim: f s => [|f IH] s si; rewrite loopE; case: ifP => rs; rewrite ?ret_E //.
by rewrite E_bind -[RHS](step_total si rs); apply: eq_E_possible => s' h; apply: IH; apply: inv_step h.
Qed.

Lemma done_q f s : inv s -> Pr (loop f s) isSome' = 1 - q f s.
Proof.
move=> si; rewrite -(loop_total f si) /q /Pr; apply/eqP; rewrite eq_sym subr_eq -E_add; apply/eqP; apply: eq_E.
by move=> [a|] /=; rewrite ?addr0 ?add0r.
Qed.

Lemma q_add B f K s : inv s -> (forall s, inv s -> q f s <= B) -> q (K + f) s <= B * q K s.
Proof.
move=> si qB; elim: K s si => [|K IH] s si.
  rewrite add0n {2}/q loopE /Pr; case: ifP => rs; rewrite ret_E /= ?mulr1 ?qB //.
  by rewrite mulr0 /q loopE rs /Pr ret_E.
rewrite addSn /q !loopE; case: ifP => rs; last by rewrite /Pr !ret_E mulr0.
rewrite /Pr !E_bind -E_scale; apply: E_le_poss => s' h; apply: IH; exact: inv_step h.
Qed.

Variables (phi : S -> nat) (K : nat) (eps : R).
Hypotheses (eps0 : 0 <= eps) (eps1 : eps <= 1).
Hypothesis phi_le : forall s, inv s -> (phi s <= K)%N.
Hypothesis phi_gt0 : forall s, inv s -> run s -> (0 < phi s)%N.
Hypothesis progress : forall s, inv s -> run s -> eps <= Pr (step s) (fun s' => ~~ run s' || (phi s' < phi s)%N).

Lemma done_ge k s : inv s -> (phi s <= k)%N -> eps ^+ k <= Pr (loop k s) isSome'.
Proof.
elim: k s => [|k IH] s si sk; rewrite loopE; case: ifP => rs.
- by have := phi_gt0 si rs; rewrite ltnNge sk.
- by rewrite /Pr ret_E.
- rewrite /Pr E_bind exprSr; apply: (@le_trans _ _ (eps ^+ k * Pr (step s) (fun s' => ~~ run s' || (phi s' < phi s)%N))).
    by rewrite ler_wpmul2l ?exprn_ge0 // progress.
  rewrite /Pr -E_scale; apply: E_le_poss => s' h; have si' := inv_step si rs h.
  case: (boolP (run s')) => rs' /=; last first.
    by rewrite mulr1 loopE (negbTE rs') ret_E /= exprn_ile1.
  case: ltnP => hp; last by rewrite mulr0; apply: E_ge0 => a; rewrite ler0n.
  by rewrite mulr1; apply: IH => //; rewrite -ltnS; apply: leq_trans sk.
- by rewrite /Pr ret_E /= exprn_ile1.
Qed.

Theorem loop_term k fuel s : inv s -> (k * K <= fuel)%N -> q fuel s <= (1 - eps ^+ K) ^+ k.
Proof.
move=> si; move/subnK <-; rewrite addnC.
have q1 f s' : inv s' -> q f s' <= 1 by move=> _; apply: E_le_mass.
apply: le_trans (q_add _ si (q1 (fuel - k * K)%N)) _; rewrite mul1r; elim: k s si => [|k IH] s si.
  by rewrite mul0n expr0 q1.
rewrite mulSn exprSr [X in _ <= X]mulrC; rewrite mulrC.
apply: le_trans (q_add _ si (B := (1 - eps ^+ K) ^+ k) _) _ => //.
rewrite ler_wpmul2l ?exprn_ge0 ?subr_ge0 ?exprn_ile1 //.
by rewrite -[q K s](subKr 1) -done_q // ler_add2l ler_opp2 done_ge // phi_le.
Qed.
End Loop.

(** distance to a set of nodes of a connected graph *)
Section Dist.
Variables (n : nat) (g : rel 'I_n.+1).
Notation V := 'I_n.+1.
Hypothesis gc : forall u v, connect g u v.
Implicit Type C : {set V}.

Fixpoint reachC C (k : nat) (u : V) : bool := if k is k'.+1 then reachC C k' u || [exists v, g u v && reachC C k' v] else u \in C.
Definition gdist C u : nat := find (fun k => reachC C k u) (iota 0 n.+1).

Lemma reachC_path C u p : path g u p -> last u p \in C -> reachC C (size p) u.
Proof.
elim: p u => //= v p IH u /andP[uv pp] lC; apply/orP; right; apply/existsP; exists v; by rewrite uv IH.
Qed.
Lemma reachC_le C k k' u : (k <= k')%N -> reachC C k u -> reachC C k' u.
Proof. by move/subnK <-; elim: (k' - k)%N => //= j IH /IH ->. Qed.
Lemma reachC_n C u : C != set0 -> reachC C n u.
Proof.
case/set0Pn => c cC; have /connectP[p pp cE] := gc u c.
move: cE; case/shortenP: pp => q pq uq _ cE; apply: reachC_le (reachC_path pq _); last by rewrite -cE.
have := max_card (mem (u :: q)); rewrite card_ord (card_uniqP uq) /= ltnS //.
Qed.
Lemma gdist_has C u : C != set0 -> has (fun k => reachC C k u) (iota 0 n.+1).
Proof. by move=> C0; apply/hasP; exists n; rewrite ?mem_iota ?add0n ?ltnSn // reachC_n. Qed.
Lemma gdist_le C u : C != set0 -> (gdist C u <= n)%N.
Proof. by move=> C0; have := gdist_has u C0; rewrite has_find size_iota. Qed.
Lemma gdist_reach C u : C != set0 -> reachC C (gdist C u) u.
Proof.
move=> C0; have := nth_find 0%N (gdist_has u C0); rewrite nth_iota ?add0n //.
by have := gdist_le u C0; rewrite ltnS.
Qed.
Lemma gdist_min C u k : C != set0 -> reachC C k u -> (gdist C u <= k)%N.
Proof.
move=> C0 rk; rewrite leqNgt; apply/negP => h.
have := before_find 0%N h; rewrite nth_iota ?add0n ?rk //.
by apply: leq_trans h _; apply: leq_trans (gdist_le u C0) _.
Qed.
Lemma gdist_step C u : C != set0 -> u \notin C -> exists2 v, g u v & (gdist C v < gdist C u)%N.
Proof.
move=> C0 uC; have := gdist_reach u C0; case e : (gdist C u) => [|k] /=; first by rewrite (negbTE uC).
case/orP => [/(gdist_min C0)|/existsP[v /andP[uv rv]]]; first by rewrite e ltnn.
by exists v => //; rewrite ltnS; apply: gdist_min.
Qed.
Lemma gdist_gt0 C u : C != set0 -> u \notin C -> (0 < gdist C u)%N.
Proof. by move=> C0 uC; have [v _ h] := gdist_step C0 uC; apply: leq_trans h. Qed.
End Dist.
