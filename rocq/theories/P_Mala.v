(** * P_Mala: the Metropolis adjusted Langevin step (C45). *)
From Coq Require Import Reals List Lra.
From Coquelicot Require Import Coquelicot.
From Verif Require Import MalaModel.
Import ListNotations.
Open Scope R_scope.

(** ** Specification *)
(** the derivative of the potential *)
Definition slope (V : list R) (x : R) : R := Derive (peval V) x.
(** the Gaussian density of mean m and standard deviation s *)
Definition gauss (m s y : R) : R := exp (- (y - m) ^ 2 / (2 * s ^ 2)) / (s * sqrt (2 * PI)).
(** the Langevin proposal from x *)
Definition langevin (V : list R) (s x y : R) : R := gauss (x - s ^ 2 / 2 * slope V x) s y.
(** the probability that a uniform draw makes the step move from x to y *)
Definition move_prob (V : list R) (s x y : R) : R := Rmin 1 (exp (mala_acceptance V s x y)).
(** detailed balance between x and y for the density p *)
Definition balance (p : R -> R) (V : list R) (s x y : R) : Prop :=
  p x * langevin V s x y * move_prob V s x y = p y * langevin V s y x * move_prob V s y x.
Definition target (V : list R) (x : R) : R := exp (- peval V x).

(** ** The derivative of a polynomial *)
Lemma der_step c p x d : is_derive (peval p) x d -> is_derive (fun y => c + y * peval p y) x (peval p x + x * d).
Proof.
intros h.
replace (peval p x + x * d) with (0 + (1 * peval p x + x * d)) by ring.
apply (is_derive_plus (fun _ => c) (fun y => y * peval p y)); [apply @is_derive_const|].
apply (is_derive_mult (fun y => y) (peval p)); [apply @is_derive_id|exact h|intros; apply Rmult_comm].
Qed.
Lemma is_derive_peval p x : exists d, is_derive (peval p) x d /\ forall k, peval (pderiv_from k p) x = INR k * peval p x + x * d.
Proof.
induction p as [|c p IH].
  exists 0; split; [simpl; apply @is_derive_const|intros k; simpl; ring].
destruct IH as [d [h1 h2]].
exists (peval p x + x * d); split.
  apply (is_derive_ext (fun y => c + y * peval p y)); [reflexivity|].
  exact (der_step c p x d h1).
intros k; simpl peval; rewrite h2, S_INR; ring.
Qed.

Lemma slope_ok V x : peval (pderiv V) x = slope V x.
Proof.
destruct V as [|c p]; simpl.
  unfold slope; symmetry; apply is_derive_unique; simpl; apply @is_derive_const.
destruct (is_derive_peval p x) as [d [h1 h2]].
rewrite h2; unfold slope; symmetry; apply is_derive_unique.
apply (is_derive_ext (fun y => c + y * peval p y)); [reflexivity|].
replace (INR 1 * peval p x + x * d) with (peval p x + x * d) by (simpl; ring).
exact (der_step c p x d h1).
Qed.

(** ** The step *)
(** the proposal has the Langevin law: it is a Gaussian draw of the right mean and standard deviation *)
Theorem C45_proposal V s x z : mala_proposal V s x z = (x - s ^ 2 / 2 * slope V x) + s * z.
Proof. unfold mala_proposal; rewrite slope_ok; lra. Qed.

(** a uniform draw u leads to a move exactly when u < move_prob (up to u in (0,1)) *)
Theorem C45_move V s x z u : 0 < u < 1 ->
  let y := mala_proposal V s x z in
  (u < move_prob V s x y -> mala_step V s x z u = y) /\ (~ u < move_prob V s x y -> mala_step V s x z u = x).
Proof.
intros [u0 u1] y; unfold mala_step; fold y.
assert (e : u < move_prob V s x y <-> ln u < mala_acceptance V s x y).
  unfold move_prob; split.
    intros h; apply exp_lt_inv; rewrite exp_ln by exact u0; apply Rlt_le_trans with (1 := h); apply Rmin_r.
  intros h; apply Rmin_glb_lt; [exact u1|]; rewrite <- (exp_ln u u0); apply exp_increasing, h.
destruct (Rlt_dec (ln u) (mala_acceptance V s x y)); split; intros h; tauto.
Qed.

Lemma min_exp c : Rmin 1 (exp c) = exp c * Rmin 1 (exp (- c)).
Proof.
destruct (Rle_dec 0 c) as [h|h].
  rewrite Rmin_left by (rewrite <- exp_0; destruct h as [h|<-]; [left; apply exp_increasing, h|right; reflexivity]).
  rewrite Rmin_right by (rewrite <- exp_0; destruct h as [h|<-]; [left; apply exp_increasing; lra|right; f_equal; lra]).
  rewrite <- exp_plus, <- exp_0; f_equal; lra.
rewrite Rmin_right by (rewrite <- exp_0; left; apply exp_increasing; lra).
rewrite Rmin_left by (rewrite <- exp_0; left; apply exp_increasing; lra).
lra.
Qed.

Lemma acc_anti V s x y : mala_acceptance V s y x = - mala_acceptance V s x y.
Proof. unfold mala_acceptance; ring. Qed.

(** the discrepancy between the two Gaussian exponents *)
Definition gap V s x y := (x - y + s ^ 2 / 2 * slope V y) ^ 2 - (y - x + s ^ 2 / 2 * slope V x) ^ 2.

Lemma flow V s x y (r : R -> R) : s <> 0 -> exp (r x) * langevin V s x y * move_prob V s x y =
  exp (r x - r y + peval V x - peval V y + gap V s x y / s ^ 2) * (exp (r y) * langevin V s y x * move_prob V s y x).
Proof.
intros s0; unfold move_prob at 1; rewrite min_exp, <- acc_anti; fold (move_prob V s y x).
unfold langevin, gauss.
set (k := s * sqrt (2 * PI)).
set (e1 := - (y - (x - s ^ 2 / 2 * slope V x)) ^ 2 / (2 * s ^ 2)).
set (e2 := - (x - (y - s ^ 2 / 2 * slope V y)) ^ 2 / (2 * s ^ 2)).
set (c := mala_acceptance V s x y).
assert (e : r x + e1 + c = r x - r y + peval V x - peval V y + gap V s x y / s ^ 2 + r y + e2).
  unfold e1, e2, c, mala_acceptance, gap; rewrite !slope_ok; replace 0.5 with (/ 2) by lra; field; exact s0.
transitivity (exp (r x + e1 + c) * (/ k * move_prob V s y x)).
  rewrite !exp_plus; unfold Rdiv; ring.
rewrite e, !exp_plus; unfold Rdiv; ring.
Qed.

Lemma sgm V s x y : s <> 0 -> 0 < s -> 0 < langevin V s x y.
Proof.
intros _ h; unfold langevin, gauss; apply Rdiv_lt_0_compat; [apply exp_pos|].
apply Rmult_lt_0_compat; [exact h|apply sqrt_lt_R0; generalize PI_RGT_0; lra].
Qed.
Lemma move_pos V s x y : 0 < move_prob V s x y.
Proof. unfold move_prob; apply Rmin_glb_lt; [lra|apply exp_pos]. Qed.

(** ** C45: detailed balance *)
(** for the density exp(r): detailed balance holds between x and y exactly when the two exponents match *)
Lemma balance_exp V s x y (r : R -> R) : 0 < s ->
  (balance (fun x => exp (r x)) V s x y <-> r x - r y + peval V x - peval V y + gap V s x y / s ^ 2 = 0).
Proof.
intros s0; unfold balance; rewrite flow by lra.
set (F := exp (r y) * langevin V s y x * move_prob V s y x).
assert (F0 : 0 < F).
  unfold F; apply Rmult_lt_0_compat; [apply Rmult_lt_0_compat; [apply exp_pos|apply sgm; lra]|apply move_pos].
split; intros h.
  apply exp_inv; rewrite exp_0; apply Rmult_eq_reg_r with F; lra.
rewrite h, exp_0; ring.
Qed.

(** for the target exp(-V), detailed balance holds between x and y exactly when the two squares of the correction coincide *)
Theorem C45_balance_iff V s x y : 0 < s -> (balance (target V) V s x y <-> gap V s x y = 0).
Proof.
intros s0; unfold target; rewrite (balance_exp V s x y (fun x => - peval V x) s0).
assert (0 < s ^ 2) by (apply pow_lt, s0).
split; intros h.
  assert (e : gap V s x y / s ^ 2 = 0) by lra.
  replace (gap V s x y) with (gap V s x y / s ^ 2 * s ^ 2) by (field; lra); rewrite e; ring.
rewrite h; unfold Rdiv; ring.
Qed.

Lemma quad_slope k x : slope [0; 0; k / 2] x = k * x.
Proof. rewrite <- slope_ok; simpl; field. Qed.

(** the standard Gaussian target, the step of the library: detailed balance fails between 0 and 1 *)
Theorem C45_refuted : ~ balance (target [0; 0; 1 / 2]) [0; 0; 1 / 2] 0.01 0 1.
Proof.
rewrite C45_balance_iff by lra; unfold gap; rewrite !quad_slope; lra.
Qed.

(** a Gaussian target exp(-k x^2/2): the chain is reversible, but for the Gaussian density of precision 3k - s^2 k^2/2:
    for a small step the stationary variance is one third of the variance asked for *)
Theorem C45_gaussian_wrong_law k s x y : 0 < s ->
  balance (fun x => exp (- (3 * k - s ^ 2 * k ^ 2 / 2) * x ^ 2 / 2)) [0; 0; k / 2] s x y.
Proof.
intros s0; rewrite (balance_exp _ s x y (fun x => - (3 * k - s ^ 2 * k ^ 2 / 2) * x ^ 2 / 2) s0).
unfold gap; rewrite !quad_slope; simpl; field; lra.
Qed.

(** what holds: detailed balance for a constant potential *)
Theorem C45_flat_partial c s x y : 0 < s -> balance (target [c]) [c] s x y.
Proof.
intros s0; rewrite (C45_balance_iff _ _ _ _ s0); unfold gap.
rewrite <- !slope_ok; simpl; ring.
Qed.

(** the opposite sign of the correction gives detailed balance for every potential *)
Definition corrected_acceptance V s x y : R :=
  peval V x - peval V y
  + 1 / (2 * s ^ 2) * ((y - x + s ^ 2 / 2 * slope V x) ^ 2 - (x - y + s ^ 2 / 2 * slope V y) ^ 2).
Theorem C45_corrected V s x y : 0 < s ->
  target V x * langevin V s x y * Rmin 1 (exp (corrected_acceptance V s x y)) =
  target V y * langevin V s y x * Rmin 1 (exp (corrected_acceptance V s y x)).
Proof.
intros s0; rewrite min_exp.
assert (e0 : corrected_acceptance V s y x = - corrected_acceptance V s x y) by (unfold corrected_acceptance; ring).
rewrite e0; set (M := Rmin 1 _).
unfold target, langevin, gauss.
set (e1 := - (y - (x - s ^ 2 / 2 * slope V x)) ^ 2 / (2 * s ^ 2)).
set (e2 := - (x - (y - s ^ 2 / 2 * slope V y)) ^ 2 / (2 * s ^ 2)).
assert (e : - peval V x + e1 + corrected_acceptance V s x y = - peval V y + e2).
  unfold e1, e2, corrected_acceptance; field; lra.
transitivity (exp (- peval V x + e1 + corrected_acceptance V s x y) * (/ (s * sqrt (2 * PI)) * M)).
  rewrite !exp_plus; unfold Rdiv; ring.
rewrite e, exp_plus; unfold Rdiv; ring.
Qed.
