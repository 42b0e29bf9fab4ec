(** * Rstruct: Coq's real numbers as a real closed field of the Mathematical Components library,
    so that the theorems of this development over an arbitrary [rcfType] can be used together with exp, ln and series.
    No code of DPPy is modelled here.  Standard library axioms used: the construction of the reals, functional extensionality,
    excluded middle and [constructive_indefinite_description] (ClassicalEpsilon). *)
From Coq Require Import Reals Rtrigo_def Ranalysis1 Rsqrt_def Epsilon ClassicalEpsilon FunctionalExtensionality Lra.
From mathcomp Require Import all_ssreflect all_algebra.
Set Implicit Arguments. Unset Strict Implicit. Unset Printing Implicit Defensive.
Import GRing.Theory Num.Theory.
Delimit Scope R_scope with coqR.

Definition eqR (x y : R) : bool := if Req_EM_T x y is left _ then true else false.
Lemma eqRP : Equality.axiom eqR.
Proof. by move=> x y; rewrite /eqR; case: Req_EM_T => h; constructor. Qed.
Definition R_eqMixin := EqMixin eqRP.
Canonical R_eqType := Eval hnf in EqType R R_eqMixin.

Definition R_find (P : pred R) (n : nat) : option R :=
  match excluded_middle_informative (exists x, P x) with
  | left h => Some (sval (constructive_indefinite_description _ h))
  | right _ => None
  end.
Lemma R_choiceP : Choice.mixin_of R.
Proof.
exists R_find.
- move=> P n x; rewrite /R_find; case: excluded_middle_informative => // h [<-].
  by case: constructive_indefinite_description.
- by move=> P h; exists 0%N; rewrite /R_find; case: excluded_middle_informative.
- by move=> P Q /functional_extensionality ->.
Qed.
Canonical R_choiceType := Eval hnf in ChoiceType R R_choiceP.

Lemma RplusA : associative Rplus. Proof. by move=> *; rewrite Rplus_assoc. Qed.
Definition R_zmodMixin := ZmodMixin RplusA Rplus_comm Rplus_0_l Rplus_opp_l.
Canonical R_zmodType := Eval hnf in ZmodType R R_zmodMixin.

Lemma RmultA : associative Rmult. Proof. by move=> *; rewrite Rmult_assoc. Qed.
Lemma R1_neq0 : R1 != R0. Proof. by apply/eqP/R1_neq_R0. Qed.
Definition R_ringMixin := RingMixin RmultA Rmult_1_l Rmult_1_r Rmult_plus_distr_r Rmult_plus_distr_l R1_neq0.
Canonical R_ringType := Eval hnf in RingType R R_ringMixin.
Canonical R_comRingType := Eval hnf in ComRingType R Rmult_comm.

Definition Rinvx r := if r != 0%coqR then (/ r)%coqR else r.
Definition unit_R (r : R) := r != 0%coqR.
Lemma RmultRinvx : {in unit_R, left_inverse 1%coqR Rinvx Rmult}.
Proof. by move=> r; rewrite -topredE /unit_R /Rinvx => /= rNZ; rewrite rNZ Rinv_l //; exact/eqP. Qed.
Lemma RinvxRmult : {in unit_R, right_inverse 1%coqR Rinvx Rmult}.
Proof. by move=> r; rewrite -topredE /unit_R /Rinvx => /= rNZ; rewrite rNZ Rinv_r //; exact/eqP. Qed.
Lemma intro_unit_R x y : (y * x)%coqR = 1%coqR /\ (x * y)%coqR = 1%coqR -> unit_R x.
Proof. by move=> [yx1 _]; apply: contra_eqN yx1 => /eqP->; rewrite Rmult_0_r eq_sym R1_neq0. Qed.
Lemma Rinvx_out : {in predC unit_R, Rinvx =1 id}.
Proof. by move=> x; rewrite inE/= /Rinvx -if_neg => ->. Qed.
Definition R_unitRingMixin := UnitRingMixin RmultRinvx RinvxRmult intro_unit_R Rinvx_out.
Canonical R_unitRing := Eval hnf in UnitRingType R R_unitRingMixin.
Canonical R_comUnitRingType := Eval hnf in [comUnitRingType of R].
Lemma R_idomainMixin x y : (x * y)%coqR = 0%coqR :> R -> (x == 0%coqR) || (y == 0%coqR).
Proof. by move=> /Rmult_integral[]->; rewrite eqxx ?orbT. Qed.
Canonical R_idomainType := Eval hnf in IdomainType R R_idomainMixin.
Lemma R_field_mixin : GRing.Field.mixin_of [unitRingType of R]. Proof. by []. Qed.
Definition R_fieldIdomainMixin := FieldIdomainMixin R_field_mixin.
Canonical R_fieldType := FieldType R R_field_mixin.

Definition Rleb (x y : R) : bool := if Rle_dec x y is left _ then true else false.
Definition Rltb (x y : R) : bool := if Rlt_dec x y is left _ then true else false.
Lemma RlebP x y : reflect (Rle x y) (Rleb x y).
Proof. by rewrite /Rleb; case: Rle_dec => h; constructor. Qed.
Lemma RltbP x y : reflect (x < y)%coqR (Rltb x y).
Proof. by rewrite /Rltb; case: Rlt_dec => h; constructor. Qed.

Local Open Scope R_scope.
Lemma Rle_a x y : Rleb 0 x -> Rleb 0 y -> Rleb 0 (x + y).
Proof. by move=> /RlebP h1 /RlebP h2; apply/RlebP; lra. Qed.
Lemma Rle_m x y : Rleb 0 x -> Rleb 0 y -> Rleb 0 (x * y).
Proof. by move=> /RlebP h1 /RlebP h2; apply/RlebP; exact: Rmult_le_pos. Qed.
Lemma Rle_anti x : Rleb 0 x -> Rleb x 0 -> x = 0%coqR.
Proof. by move=> /RlebP h1 /RlebP h2; exact: Rle_antisym. Qed.
Lemma Rle_sub x y : Rleb 0 (y - x) = Rleb x y.
Proof. by apply/RlebP/RlebP => h; lra. Qed.
Lemma Rle_tot x : Rleb 0 x || Rleb x 0.
Proof.
case: (Rle_dec 0 x) => h; first by apply/orP; left; apply/RlebP.
by apply/orP; right; apply/RlebP; lra.
Qed.
Lemma Rle_norm x : Rleb 0 x -> Rabs x = x.
Proof. by move=> /RlebP h; apply: Rabs_pos_eq. Qed.
Lemma Rlt_def x y : Rltb x y = (y != x) && Rleb x y.
Proof.
apply/RltbP/andP => [h|[/eqP ne /RlebP h]]; first by split; [apply/eqP; lra|apply/RlebP; lra].
by case: h => // h; case: ne.
Qed.
Definition R_leMixin : realLeMixin [idomainType of R] :=
  @RealLeMixin [idomainType of R] Rleb Rltb Rabs Rle_a Rle_m Rle_anti Rle_sub Rle_tot Rabs_Ropp Rle_norm Rlt_def.
Local Close Scope R_scope.
Canonical R_porderType := POrderType ring_display R R_leMixin.
Canonical R_latticeType := LatticeType R R_leMixin.
Canonical R_distrLatticeType := DistrLatticeType R R_leMixin.
Canonical R_orderType := OrderType R R_leMixin.
Canonical R_numDomainType := NumDomainType R R_leMixin.
Canonical R_normedZmodType := NormedZmodType R R R_leMixin.
Canonical R_numFieldType := [numFieldType of R].
Canonical R_realDomainType := [realDomainType of R].
Canonical R_realFieldType := [realFieldType of R].

(** the operations and the order of mathcomp are those of the standard library *)
Local Open Scope ring_scope.
Lemma RleE (x y : R) : (x <= y) = Rleb x y. Proof. by []. Qed.
Lemma RltE (x y : R) : (x < y) = Rltb x y. Proof. by []. Qed.
Lemma RleP (x y : R) : reflect (Rle x y) (x <= y). Proof. exact: RlebP. Qed.
Lemma RltP (x y : R) : reflect (Rlt x y) (x < y). Proof. exact: RltbP. Qed.
Lemma RplusE (x y : R) : Rplus x y = x + y. Proof. by []. Qed.
Lemma RminusE (x y : R) : Rminus x y = x - y. Proof. by []. Qed.
Lemma RoppE (x : R) : Ropp x = - x. Proof. by []. Qed.
Lemma RmultE (x y : R) : Rmult x y = x * y. Proof. by []. Qed.
Lemma R0E : R0 = 0. Proof. by []. Qed.
Lemma R1E : R1 = 1. Proof. by []. Qed.
Lemma RinvE (x : R) : Rinv x = x^-1.
Proof.
have [->|h] := eqVneq x 0; first by rewrite invr0; exact: RinvImpl.Rinv_def || exact: Rinv_0.
by rewrite /GRing.inv /= /Rinvx h.
Qed.
Lemma RdivE (x y : R) : Rdiv x y = x / y. Proof. by rewrite /Rdiv RinvE. Qed.
Lemma RpowE (x : R) n : pow x n = x ^+ n.
Proof. by elim: n => [|n IH]; rewrite ?expr0 // exprS -IH. Qed.
Lemma INRE n : INR n = n%:R.
Proof. by elim: n => // n IH; rewrite S_INR IH -addn1 natrD. Qed.
Lemma RabsE (x : R) : Rabs x = `|x|. Proof. by []. Qed.

Lemma horner_continuous (p : {poly R}) : continuity (fun x => p.[x]).
Proof.
elim/poly_ind: p => [|p c IH].
  have -> : (fun x => (0 : {poly R}).[x]) = (fun=> R0) by apply: functional_extensionality => x; rewrite horner0.
  exact: continuity_const.
have -> : (fun x => (p * 'X + c%:P).[x]) = (fun x => Rplus (Rmult p.[x] x) c).
  by apply: functional_extensionality => x; rewrite hornerMXaddC.
apply: continuity_plus; last exact: continuity_const.
apply: continuity_mult => //; exact: derivable_continuous derivable_id.
Qed.

Lemma R_rcf : Num.real_closed_axiom [numDomainType of R].
Proof.
move=> p a b /RleP ab /andP[/RleP pa /RleP pb].
have [e|na] := Req_dec p.[a] 0; first by exists a; [apply/andP; split; apply/RleP; lra|apply/rootP].
have [e|nb] := Req_dec p.[b] 0; first by exists b; [apply/andP; split; apply/RleP; lra|apply/rootP].
have [e|ne] := Req_dec a b; first by exfalso; apply: na; apply: Rle_antisym => //; rewrite e.
have [||| z [[z1 z2] z3]] := @IVT (fun x => p.[x]) a b (@horner_continuous p).
- by case: ab.
- by case: pa => // /esym.
- by case: pb => // /esym.
exists z; first by apply/andP; split; apply/RleP.
exact/rootP.
Qed.
Canonical R_rcfType := RcfType R R_rcf.
Lemma R_archi : Num.archimedean_axiom [numDomainType of R].
Proof.
move=> x; have [h _] := archimed (Rabs x); have x0 := Rabs_pos x.
exists (Z.to_nat (up (Rabs x))); rewrite -INRE; apply/RltP; rewrite INR_IZR_INZ Z2Nat.id //.
by apply: le_IZR; apply: Rle_trans x0 _; apply: Rlt_le.
Qed.
Canonical R_archiFieldType := ArchiFieldType R R_archi.

(** from now on, expressions of type R are read in the ring scope of mathcomp *)
Global Bind Scope ring_scope with R.
Global Arguments exp _%ring_scope.
Global Arguments ln _%ring_scope.
