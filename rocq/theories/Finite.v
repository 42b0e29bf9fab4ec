(** * Finite: program logic for the methods of FiniteDPP. *)
From Coq Require Import String.
From mathcomp Require Import all_ssreflect all_algebra.
From Verif Require Import Prob UtilsModel ExactModel McmcModel FiniteModel Spectral.
Set Implicit Arguments. Unset Strict Implicit. Unset Printing Implicit Defensive.
Import Order.Theory GRing.Theory Num.Theory.
Local Open Scope ring_scope.

Section Holds.
Variable R : rcfType.

(** every execution returns normally a value satisfying Q *)
Definition holds A (m : prog R A) (Q : A -> Prop) : Prop :=
  forall o, possible m o -> if o is inl a then Q a else False.

Lemma holds_ret A (a : A) (Q : A -> Prop) : Q a -> holds (Ret a) Q.
Proof. by move=> Qa o /= ->. Qed.

Lemma possible_bind A B (m : prog R A) (g : A -> prog R B) o : possible (bind m g) o ->
  (exists2 a, possible m (inl a) & possible (g a) o) \/ (exists2 e, possible m (inr e) & o = inr e).
Proof.
case: o => [b|e] h; first by left; exact: (bind_possible h).
by case: (possible_bind_raise h) => [h1|h1]; [right; exists e|left].
Qed.

Lemma holds_bind A B (m : prog R A) (g : A -> prog R B) Q :
  holds m (fun a => holds (g a) Q) -> holds (bind m g) Q.
Proof.
move=> h o po; case: (possible_bind po) => [[a pa pg]|[e pe _]]; first exact: (h _ pa).
by case: (h _ pe).
Qed.

Lemma holds_catch A (m : prog R A) (Q : A + exn -> Prop) : (forall o, possible m o -> Q o) -> holds (catch m) Q.
Proof.
elim: m Q => [a|e|p k IH|T pop w k IH] Q h o /=.
- by move=> ->; apply: h.
- by move=> ->; apply: h.
- by case=> [[c]|[c]]; apply: (IH _ Q) => o' po'; apply: h => /=; [left|right].
- move: h => /=; case: ifP => [v h /=|_ h]; last by move=> ->; apply: h.
  rewrite v => -[s1 [x [s2 [e wx px]]]]; apply: (IH x Q) px => o' po'; apply: h.
  by exists s1, x, s2.
Qed.

Lemma holds_imp A (m : prog R A) (P Q : A -> Prop) : (forall a, P a -> Q a) -> holds m P -> holds m Q.
Proof. by move=> PQ h [a|e] p; [apply: PQ; exact: (h _ p)|exact: (h _ p)]. Qed.

Lemma E_catch A (m : prog R A) f : E (catch m) f =
  E m (fun a => f (inl a)) + E (catch m) (fun r => if r is inr e then f (inr e) else 0).
Proof.
elim: m => [a|e|p k IH|T pop w k IH] /=.
- by rewrite addr0.
- by rewrite add0r.
- by rewrite IH [E (catch (k false)) f]IH !mulrDr addrACA.
- case: ifP => v /=; last by rewrite add0r.
  by rewrite v -big_split /=; apply: eq_bigr => x _; rewrite IH mulrDr.
Qed.

(** no exception: catching changes nothing *)
Lemma E_catch_total A (m : prog R A) f : (forall e, ~ possible m (inr e)) -> E (catch m) f = E m (fun a => f (inl a)).
Proof.
move=> h; rewrite E_catch -[RHS]addr0; congr (_ + _).
rewrite -[RHS](E_zero (catch m)); apply: eq_E_possible => -[a|e] // pc.
have hh : holds (catch m) (fun r => if r is inr _ then False else True).
  by apply: holds_catch => -[//|e'] pe; exact: (h e').
by case: (hh _ pc).
Qed.

(** a program without a possible exception returns with probability one *)
Lemma no_raise_total A (m : prog R A) : (forall e, ~ possible m (inr e)) -> total m.
Proof.
rewrite /total; elim: m => [a|e|p k IH|T pop w k IH] h //=.
- by case: (h e).
- have eqc c b : (c = 0 \/ (forall e, ~ possible (k b) (inr e))) -> c * E (k b) (fun=> 1) = c.
    by case=> [->|hb]; [rewrite mul0r|rewrite IH ?mulr1].
  rewrite !eqc; first by rewrite addrC subrK.
  + have [e1|ne1] := eqVneq (clip p) 1; first by left; rewrite e1 subrr.
    by right=> e pe; apply: (h e); right; rewrite lt_neqAle ne1 clip_le1.
  + have [e1|ne1] := eqVneq (clip p) 0; first by left.
    by right=> e pe; apply: (h e); left; rewrite lt_neqAle eq_sym ne1 clip_ge0.
- move: h => /=; case: ifP => [v h|_ h]; last by case: (h ValueError).
  case/andP: v => v0 /eqP v1; rewrite -[RHS]v1.
  have sub s1 s2 : pop = s1 ++ s2 -> \sum_(x <- s2) w x * E (k x) (fun=> 1) = \sum_(x <- s2) w x.
    elim: s2 s1 => [|x s2 IHs] s1 e; first by rewrite !big_nil.
    rewrite !big_cons; congr (_ + _); last by apply: (IHs (rcons s1 x)); rewrite cat_rcons.
    have wx : 0 <= w x by move: v0; rewrite e all_cat /= => /and3P[].
    have [->|z] := eqVneq (w x) 0; first by rewrite !mul0r.
    rewrite IH ?mulr1 // => e' pe'; apply: (h e'); exists s1, x, s2; split=> //.
    by rewrite lt_neqAle eq_sym z.
  exact: (sub [::]).
Qed.

End Holds.

Section Logic.
Variables (R : rcfType) (N : nat) (vrest arest : Type).
Notation dpp := (dpp R N vrest arest).
Notation meth := (@meth R N vrest arest).

Definition mwp A (m : meth A) (s : dpp) (Q : dpp -> A + exn -> Prop) : Prop := holds (m s) (fun sr => Q sr.1 sr.2).

Lemma mwp_bind A B (m : meth A) (g : A -> meth B) s Q :
  mwp m s (fun s' r => match r with inl a => mwp (g a) s' Q | inr e => Q s' (inr e) end) -> mwp (mbind m g) s Q.
Proof.
move=> h; apply: holds_bind; apply: holds_imp h => -[s' [a|e]] //= h.
exact: holds_ret.
Qed.
Lemma mwp_ret A (a : A) s (Q : dpp -> A + exn -> Prop) : Q s (inl a) -> mwp (mret a) s Q.
Proof. exact: (@holds_ret R _ (s, inl a) (fun sr => Q sr.1 sr.2)). Qed.
Lemma mwp_raise A e s (Q : dpp -> A + exn -> Prop) : Q s (inr e) -> mwp (@mraise R N vrest arest A e) s Q.
Proof. exact: (@holds_ret R _ (s, inr e) (fun sr => Q sr.1 sr.2)). Qed.
Lemma mwp_get s (Q : dpp -> dpp + exn -> Prop) : Q s (inl s) -> mwp (@get R N vrest arest) s Q.
Proof. exact: (@holds_ret R _ (s, inl s) (fun sr => Q sr.1 sr.2)). Qed.
Lemma mwp_modify f s (Q : dpp -> unit + exn -> Prop) : Q (f s) (inl tt) -> mwp (modify f) s Q.
Proof. exact: (@holds_ret R _ (f s, inl tt) (fun sr => Q sr.1 sr.2)). Qed.
Lemma mwp_lift A (m : prog R A) s (Q : dpp -> A + exn -> Prop) :
  (forall o, possible m o -> Q s o) -> mwp (lift m) s Q.
Proof.
move=> h; apply: holds_bind; apply: holds_catch => o po; apply: holds_ret; exact: h.
Qed.
Lemma mwp_need A (o : option A) s (Q : dpp -> A + exn -> Prop) :
  (forall a, o = Some a -> Q s (inl a)) -> (o = None -> Q s (inr TypeError)) -> mwp (need o) s Q.
Proof. by case: o => [a|] h h'; [apply: mwp_ret; exact: h|apply: mwp_raise; exact: h']. Qed.
Lemma mwp_check A (r : option A + exn) s (Q : dpp -> A + exn -> Prop) :
  (forall a, r = inl (Some a) -> Q s (inl a)) -> (forall e, Q s (inr e)) -> mwp (check r) s Q.
Proof. by case: r => [[a|]|e] h h'; [apply: mwp_ret; exact: h|apply: mwp_raise|apply: mwp_raise]. Qed.
Lemma mwp_imp A (m : meth A) s (P Q : dpp -> A + exn -> Prop) :
  (forall s' r, P s' r -> Q s' r) -> mwp m s P -> mwp m s Q.
Proof. by move=> PQ; apply: holds_imp => -[s' r]; exact: PQ. Qed.

Lemma possible_mwp A (m : meth A) s Q s' r : mwp m s Q -> possible (m s) (inl (s', r)) -> Q s' r.
Proof. by move=> h p; exact: (h _ p). Qed.
End Logic.
Arguments mwp : simpl never.
Arguments is_geq_0 : simpl never. Arguments is_in_01 : simpl never. Arguments checked : simpl never. Arguments tol8 : simpl never.
