(** * C46, C69: the rejection sampler of sampler_exact_convex_quartic is exact, iteration by iteration *)
From Coq Require Import Reals List Lra Psatz.
From Coquelicot Require Import Coquelicot.
From Verif Require Import Dev12Model.
Import ListNotations.
Open Scope R_scope.

(** ** Specification *)
(** The support of the target: everything, or (0, oo) for the generalised gamma; both are shifted by the mode. *)
Definition in_support (gm : option R) (x : R) : Prop := match gm with None => Logic.True | Some m => - m < x end.

(** [g u v w] integrated over the unit cube, one variable after the other: when [g] is the indicator function of an event,
    the probability of this event for independent uniform draws u, v, w *)
Definition cube_integral (g : R -> R -> R -> R) (p : R) : Prop :=
  exists (G1 : R -> R -> R) (G2 : R -> R),
    (forall u v, 0 < u < 1 -> 0 < v < 1 -> is_RInt (g u v) 0 1 (G1 u v)) /\
    (forall v, 0 < v < 1 -> is_RInt (fun u => G1 u v) 0 1 (G2 v)) /\
    is_RInt G2 0 1 p.

(** the event: the iteration with draws u, v, w is accepted, with a proposal in (x0, x1] *)
Definition hit (log_f : R -> R) (b a : R) (gm : option R) (x0 x1 u v w : R) : R :=
  let X := dev12_proposal log_f b a gm u v in
  if dev12_accept log_f b a X w then if Rlt_dec x0 X then if Rle_dec X x1 then 1 else 0 else 0 else 0.

Definition concave_on (D : R -> Prop) (f : R -> R) : Prop :=
  forall x y t, D x -> D y -> 0 <= t <= 1 -> t * f x + (1 - t) * f y <= f (t * x + (1 - t) * y).

(** ** Generic part *)
Section Generic.
Variables (f : R -> R) (b a : R) (gm : option R).
Let D := in_support gm.
Hypothesis fconc : concave_on D f.
Hypothesis fcont : forall x, D x -> continuous f x.
Hypothesis fmax : forall x, D x -> f x <= f 0.
Hypothesis hb : b < 0.
Hypothesis ha : 0 < a.
Hypothesis D2b : D (2 * b).
Let La := f a - f (2 * a).
Let Lb := f b - f (2 * b).
Hypothesis La0 : 0 < La.
Hypothesis Lb0 : 0 < Lb.

Lemma D_up x y : D x -> x <= y -> D y.
Proof. clear; unfold D, in_support; destruct gm; [lra | trivial]. Qed.

(** concavity through three points *)
Lemma conc3 x y z : D x -> D z -> x < y < z -> (z - y) * f x + (y - x) * f z <= (z - x) * f y.
Proof.
intros Dx Dz H.
assert (Ht : 0 <= (z - y) / (z - x) <= 1).
{ split; [apply Rlt_le, Rdiv_lt_0_compat; lra|].
  apply (Rmult_le_reg_r (z - x)); [lra|]. unfold Rdiv; rewrite Rmult_assoc, Rinv_l; lra. }
pose proof (fconc x z _ Dx Dz Ht) as C.
replace ((z - y) / (z - x) * x + (1 - (z - y) / (z - x)) * z) with y in C by (field; lra).
apply (Rmult_le_compat_l (z - x)) in C; [|lra].
replace ((z - x) * ((z - y) / (z - x) * f x + (1 - (z - y) / (z - x)) * f z))
  with ((z - y) * f x + (y - x) * f z) in C by (field; lra).
exact C.
Qed.

Lemma f_right x y : 0 <= x < y -> f y <= f x.
Proof.
intros H.
assert (D0 : D 0) by (apply (D_up (2 * b)); [exact D2b | lra]).
assert (Dy : D y) by (apply (D_up 0); [exact D0 | lra]).
destruct (Req_dec x 0) as [->|Hx]; [apply fmax; exact Dy|].
pose proof (conc3 0 x y D0 Dy ltac:(lra)).
pose proof (fmax y Dy). nra.
Qed.
Lemma f_left x y : D x -> x < y <= 0 -> f x <= f y.
Proof.
intros Dx H.
assert (D0 : D 0) by (apply (D_up x); [exact Dx | lra]).
destruct (Req_dec y 0) as [->|Hy]; [apply fmax; exact Dx|].
pose proof (conc3 x y 0 Dx D0 ltac:(lra)).
pose proof (fmax x Dx). nra.
Qed.

Lemma envelope x : D x -> f x <= log_h f b a x.
Proof.
intros Dx. unfold log_h. fold La Lb.
destruct (Rlt_dec x (2 * b)) as [h1|h1].
{ pose proof (conc3 x (2 * b) b Dx (D_up _ b D2b ltac:(lra)) ltac:(lra)) as C.
  assert (E : (b - x) * (Lb / b) + f b = f b - (b - x) * Lb / (- b)) by (field; lra).
  rewrite E.
  apply (Rmult_le_reg_r (- b)); [lra|].
  replace ((f b - (b - x) * Lb / - b) * - b) with (- b * f b - (b - x) * Lb) by (field; lra).
  unfold Lb. nra. }
destruct (Rlt_dec x b) as [h2|h2]; [apply f_left; [exact Dx | lra]|].
destruct (Rlt_dec x a) as [h3|h3]; [apply fmax; exact Dx|].
destruct (Rlt_dec x (2 * a)) as [h4|h4].
{ destruct (Req_dec x a) as [->|]; [lra | apply f_right; lra]. }
assert (E : (a - x) * (La / a) + f a = f a - (x - a) * La / a) by (field; lra).
rewrite E.
destruct (Req_dec x (2 * a)) as [->|Hx].
{ replace ((2 * a - a) * La / a) with La by (field; lra). unfold La; lra. }
pose proof (conc3 a (2 * a) x (D_up _ a D2b ltac:(lra)) Dx ltac:(lra)) as C.
apply (Rmult_le_reg_r a); [lra|].
replace ((f a - (x - a) * La / a) * a) with (a * f a - (x - a) * La) by (field; lra).
unfold La. nra.
Qed.

(** *** The masses of the five pieces of the envelope *)
Let e := match gm with Some m => exp (- (m + 2 * b) / (Rabs b / Lb)) | None => 0 end.
Let m1 := (a - b) * exp (f 0).
Let m2 := a * exp (f a).
Let m3 := - b * exp (f b).
Let m4 := a / La * exp (f (2 * a)).
Let m5 := - b / Lb * exp (f (2 * b)) * (1 - e).
Let Z := m1 + m2 + m3 + m4 + m5.

Lemma absb : Rabs b = - b. Proof. apply Rabs_left; lra. Qed.
Lemma e01 : 0 <= e < 1.
Proof.
clear fconc fcont fmax. unfold e. destruct gm as [m|] eqn:E; [|lra].
split; [apply Rlt_le, exp_pos|].
rewrite <- exp_0. apply exp_increasing. rewrite absb.
assert (0 < m + 2 * b) by (unfold D, in_support in D2b; lra).
assert (0 < (m + 2 * b) / (- b / Lb)) by (apply Rdiv_lt_0_compat; [lra|]; apply Rdiv_lt_0_compat; lra).
unfold Rdiv in *; lra.
Qed.
Lemma masses_pos : 0 < m1 /\ 0 < m2 /\ 0 < m3 /\ 0 < m4 /\ 0 < m5.
Proof.
pose proof e01.
assert (0 < a / La) by (apply Rdiv_lt_0_compat; lra).
assert (0 < - b / Lb) by (apply Rdiv_lt_0_compat; lra).
unfold m1, m2, m3, m4, m5.
repeat split; repeat first [assumption | apply exp_pos | lra | apply Rmult_lt_0_compat].
Qed.
Lemma lse_1 : lse f b a gm 1 = ln m1.
Proof. unfold lse, logsumexp; simpl. rewrite absb. f_equal. unfold m1. ring. Qed.
Lemma lse_2 : lse f b a gm 2 = ln (m1 + m2).
Proof. unfold lse, logsumexp; simpl. rewrite absb. f_equal. unfold m1, m2. ring. Qed.
Lemma lse_3 : lse f b a gm 3 = ln (m1 + m2 + m3).
Proof. unfold lse, logsumexp; simpl. rewrite absb. f_equal. unfold m1, m2, m3. ring. Qed.
Lemma lse_4 : lse f b a gm 4 = ln (m1 + m2 + m3 + m4).
Proof. unfold lse, logsumexp; simpl. rewrite absb. f_equal. unfold m1, m2, m3, m4, La. ring. Qed.
Lemma log_Z : log_Z_h f b a gm = ln Z.
Proof.
clear fconc fcont fmax. unfold log_Z_h, logsumexp, a_lse, b_lse, Z; f_equal.
unfold m1, m2, m3, m4, m5, e. destruct gm as [m|] eqn:E; simpl; rewrite absb; fold La Lb; [|ring].
assert (X : exp (f b + (1 + m / b) * Lb) = exp (f (2 * b)) * exp (- (m + 2 * b) / (- b / Lb))).
{ rewrite <- exp_plus. f_equal. unfold Lb. field. unfold Lb in Lb0. lra. }
rewrite X. field. lra.
Qed.
Lemma Z_pos : 0 < Z. Proof. pose proof masses_pos. unfold Z. lra. Qed.

(** *** The proposal, region by region *)
Lemma ln_cmp v c : 0 < v -> 0 < c -> (ln v + ln Z <= ln c <-> v <= c / Z).
Proof.
intros hv hc. pose proof Z_pos as hZ.
assert (hvZ : 0 < v * Z) by (apply Rmult_lt_0_compat; lra).
rewrite <- ln_mult by lra. split; intro H.
- assert (v * Z <= c).
  { destruct (Rle_lt_dec (v * Z) c) as [|h]; [assumption|]. apply ln_increasing in h; lra. }
  apply (Rmult_le_reg_r Z); [lra|]. unfold Rdiv; rewrite Rmult_assoc, Rinv_l; lra.
- assert (v * Z <= c).
  { apply (Rmult_le_compat_r Z) in H; [|lra]. unfold Rdiv in H; rewrite Rmult_assoc, Rinv_l in H; lra. }
  destruct (Rle_lt_or_eq_dec _ _ H0) as [h| ->]; [left; apply ln_increasing; lra | lra].
Qed.

Let X1 u := b + (a - b) * u.
Let X2 u := a + a * u.
Let X3 u := b + b * u.
Let X4 u := 2 * a - a / La * ln u.
Let X5 u := 2 * b + - b / Lb * ln (1 - u * (1 - e)).

Lemma proposal_region u v : 0 < v < 1 ->
  dev12_proposal f b a gm u v =
  if Rle_dec v (m1 / Z) then X1 u else
  if Rle_dec v ((m1 + m2) / Z) then X2 u else
  if Rle_dec v ((m1 + m2 + m3) / Z) then X3 u else
  if Rle_dec v ((m1 + m2 + m3 + m4) / Z) then X4 u else X5 u.
Proof.
intros hv. unfold dev12_proposal. rewrite log_Z, lse_1, lse_2, lse_3, lse_4.
pose proof masses_pos as (h1 & h2 & h3 & h4 & h5).
assert (C := fun c hc => ln_cmp v c ltac:(lra) hc).
assert (EX5 : 2 * b + Rabs b / (f b - f (2 * b)) * ln (1 - u * (1 - match gm with
   | Some mode => exp (- (mode + 2 * b) / (Rabs b / (f b - f (2 * b)))) | None => 0 end)) = X5 u).
{ unfold X5, e. rewrite absb. reflexivity. }
repeat match goal with |- context [Rle_dec (ln v + ln Z) (ln ?c)] =>
  let K := fresh in assert (K := C c ltac:(lra));
  destruct (Rle_dec (ln v + ln Z) (ln c)); destruct (Rle_dec v (c / Z)); try tauto; try reflexivity end.
Qed.

(** *** Integrating over w *)
Let weight (x0 x1 X : R) : R :=
  if Rlt_dec x0 X then if Rle_dec X x1 then exp (f X - log_h f b a X) else 0 else 0.

Lemma int_const (g : R -> R) (x y c : R) : x <= y -> (forall u, x < u < y -> g u = c) -> is_RInt g x y ((y - x) * c).
Proof.
intros h H. apply (is_RInt_ext (fun _ => c)).
- intros u; rewrite Rmin_left, Rmax_right by lra. intro; symmetry; apply H; lra.
- apply (is_RInt_const (V := R_NormedModule)).
Qed.

Lemma chasles (g : R -> R) x y z l1 l2 l : l = l1 + l2 -> is_RInt g x y l1 -> is_RInt g y z l2 -> is_RInt g x z l.
Proof. intros -> h1 h2. exact (is_RInt_Chasles (V := R_NormedModule) g x y z l1 l2 h1 h2). Qed.

Lemma int_w x0 x1 u v : D (dev12_proposal f b a gm u v) ->
  is_RInt (hit f b a gm x0 x1 u v) 0 1 (weight x0 x1 (dev12_proposal f b a gm u v)).
Proof.
unfold hit. set (X := dev12_proposal f b a gm u v). intros DX.
set (d := f X - log_h f b a X).
assert (hd : d <= 0) by (pose proof (envelope X DX); unfold d; lra).
assert (hp : 0 < exp d <= 1).
{ split; [apply exp_pos|]. rewrite <- exp_0. destruct hd as [hd| ->]; [left; apply exp_increasing; exact hd | lra]. }
unfold weight. fold d.
assert (K : forall (c : R), is_RInt (fun w => if dev12_accept f b a X w then c else 0) 0 1 (exp d * c)).
{ intro c. apply (chasles _ 0 (exp d) 1 ((exp d - 0) * c) ((1 - exp d) * 0)); [ring| |].
  - apply int_const; [lra|]. intros w hw. unfold dev12_accept. fold d.
    destruct (Rle_dec (ln w) d) as [|n]; [reflexivity|]. exfalso; apply n.
    rewrite <- (ln_exp d). left; apply ln_increasing; lra.
  - apply int_const; [lra|]. intros w hw. unfold dev12_accept. fold d.
    destruct (Rle_dec (ln w) d) as [n|]; [exfalso|reflexivity].
    rewrite <- (ln_exp d) in n. pose proof (ln_increasing (exp d) w ltac:(lra) ltac:(lra)). lra. }
destruct (Rlt_dec x0 X); [destruct (Rle_dec X x1)|].
- rewrite <- (Rmult_1_r (exp d)). apply K.
- pose proof (K 0) as K0; rewrite Rmult_0_r in K0; exact K0.
- pose proof (K 0) as K0; rewrite Rmult_0_r in K0; exact K0.
Qed.

(** *** Integrating over u, in a region *)
Lemma econt x : D x -> continuous (fun y => exp (f y)) x.
Proof.
intros Dx. apply (continuous_comp f exp); [apply fcont; exact Dx|].
apply (ex_derive_continuous exp). eexists; apply is_derive_exp.
Qed.
Let G (y : R) : R := RInt (fun x => exp (f x)) 0 y.
Lemma D0 : D 0. Proof. apply (D_up (2 * b)); [exact D2b | lra]. Qed.
Lemma exI x y : D x -> D y -> ex_RInt (fun t => exp (f t)) x y.
Proof.
intros Dx Dy. apply (ex_RInt_continuous (V := R_CompleteNormedModule)). intros z hz. apply econt.
destruct (Rle_dec x y); [apply (D_up x); [exact Dx | rewrite Rmin_left in hz; lra]
                       | apply (D_up y); [exact Dy | rewrite Rmin_right in hz; lra]].
Qed.
Lemma IG x y : D x -> D y -> RInt (fun t => exp (f t)) x y = G y - G x.
Proof.
intros Dx Dy. unfold G.
pose proof (RInt_Chasles (V := R_CompleteNormedModule) (fun t => exp (f t)) 0 x y (exI 0 x D0 Dx) (exI x y Dx Dy)) as H.
unfold plus in H; simpl in H. lra.
Qed.

Lemma region (X X' cl : R -> R) (x0 x1 u0 u1 c : R) :
  0 <= u0 -> u0 <= u1 -> u1 <= 1 -> c <> 0 ->
  (forall u, u0 <= u <= u1 -> is_derive X u (X' u) /\ continuous X' u /\ D (X u)) ->
  (forall u, 0 < u < 1 -> exp (log_h f b a (X u)) * X' u = c) ->
  (forall u x, 0 < u < 1 -> X u < cl x -> X u < x) ->
  (forall u x, 0 < u < 1 -> X u > cl x -> X u > x) ->
  (forall u, 0 < u < 1 -> u < u0 \/ u1 < u -> X u < cl x0 \/ cl x1 < X u) ->
  (forall u, u0 < u < u1 -> cl x0 < X u < cl x1) ->
  is_RInt (fun u => weight x0 x1 (X u)) 0 1 ((G (X u1) - G (X u0)) / c).
Proof.
intros h0 h01 h1 hc hX hh hlt hgt hout hin.
assert (OUT : forall u, 0 < u < 1 -> u < u0 \/ u1 < u -> weight x0 x1 (X u) = 0).
{ intros u hu ho. unfold weight.
  destruct (hout u hu ho) as [h|h].
  - apply hlt in h; [|exact hu]. destruct (Rlt_dec x0 (X u)); [lra | reflexivity].
  - apply hgt in h; [|exact hu]. destruct (Rlt_dec x0 (X u)); [destruct (Rle_dec (X u) x1); [lra|]|]; reflexivity. }
apply (chasles _ 0 u0 1 ((u0 - 0) * 0) ((G (X u1) - G (X u0)) / c)); [ring | |].
{ apply int_const; [lra|]. intros u hu. apply OUT; lra. }
apply (chasles _ u0 u1 1 ((G (X u1) - G (X u0)) / c) ((1 - u1) * 0)); [ring | |].
2: { apply int_const; [lra|]. intros u hu. apply OUT; lra. }
apply (is_RInt_ext (fun u => scal (/ c) (scal (X' u) (exp (f (X u)))))).
{ rewrite Rmin_left, Rmax_right by lra. intros u hu.
  destruct (hin u hu) as [i0 i1]. apply hgt in i0; [|lra]. apply hlt in i1; [|lra].
  unfold weight. destruct (Rlt_dec x0 (X u)); [|lra]. destruct (Rle_dec (X u) x1); [|lra].
  unfold scal, mult; simpl; unfold mult; simpl.
  pose proof (hh u ltac:(lra)) as E.
  unfold Rminus. rewrite exp_plus, exp_Ropp.
  pose proof (exp_pos (log_h f b a (X u))).
  rewrite <- E. field. split; [lra|]. intro Z0; rewrite Z0 in E; lra. }
replace ((G (X u1) - G (X u0)) / c) with (scal (/ c) (RInt (fun t => exp (f t)) (X u0) (X u1))).
2: { rewrite IG; [unfold scal; simpl; unfold mult; simpl; field; exact hc | apply hX; lra | apply hX; lra]. }
apply (is_RInt_scal (V := R_NormedModule)).
apply (is_RInt_comp (V := R_CompleteNormedModule) (fun t => exp (f t)) X X').
- rewrite Rmin_left, Rmax_right by lra. intros u hu. apply econt. apply hX; lra.
- rewrite Rmin_left, Rmax_right by lra. intros u hu. split; apply hX; lra.
Qed.

Let cl (lo hi x : R) : R := Rmax lo (Rmin x hi).
Lemma cl_range lo hi x : lo <= hi -> lo <= cl lo hi x <= hi.
Proof. intro h. unfold cl. unfold Rmax, Rmin. destruct (Rle_dec x hi); destruct (Rle_dec lo _); lra. Qed.
Lemma cl_lt lo hi x X : lo < X < hi -> X < cl lo hi x -> X < x.
Proof. intro h. unfold cl. unfold Rmax, Rmin. destruct (Rle_dec x hi); destruct (Rle_dec lo _); lra. Qed.
Lemma cl_gt lo hi x X : lo < X < hi -> X > cl lo hi x -> X > x.
Proof. intro h. unfold cl. unfold Rmax, Rmin. destruct (Rle_dec x hi); destruct (Rle_dec lo _); lra. Qed.
Lemma cl_mono lo hi x y : lo <= hi -> x <= y -> cl lo hi x <= cl lo hi y.
Proof. intros h h'. unfold cl. unfold Rmax, Rmin. destruct (Rle_dec x hi); destruct (Rle_dec y hi); repeat destruct (Rle_dec lo _); lra. Qed.

Lemma lin_der p q u : is_derive (fun t => p + q * t) u q.
Proof. auto_derive; [trivial | ring]. Qed.

Lemma region_lin_inc p q h x0 x1 : 0 < q -> D p -> x0 <= x1 ->
  (forall x, p < x < p + q -> log_h f b a x = h) ->
  is_RInt (fun u => weight x0 x1 (p + q * u)) 0 1 ((G (cl p (p + q) x1) - G (cl p (p + q) x0)) / (q * exp h)).
Proof.
intros hq Dp h01 hh.
pose proof (cl_range p (p + q) x0 ltac:(lra)) as r0. pose proof (cl_range p (p + q) x1 ltac:(lra)) as r1.
pose proof (cl_mono p (p + q) x0 x1 ltac:(lra) h01) as r01.
set (y0 := cl p (p + q) x0) in *. set (y1 := cl p (p + q) x1) in *.
assert (e0 : p + q * ((y0 - p) / q) = y0) by (field; lra).
assert (e1 : p + q * ((y1 - p) / q) = y1) by (field; lra).
pose proof (exp_pos h).
assert (B : forall u, 0 < u < 1 -> p < p + q * u < p + q) by (intros; nra).
rewrite <- e0 at 1. rewrite <- e1 at 1.
apply (region (fun u => p + q * u) (fun _ => q) (cl p (p + q))).
- apply Rmult_le_pos; [lra | left; apply Rinv_0_lt_compat; lra].
- apply (Rmult_le_reg_l q); [lra|]. lra.
- apply (Rmult_le_reg_l q); [lra|]. lra.
- apply Rgt_not_eq, Rmult_lt_0_compat; lra.
- intros u hu. split; [apply lin_der|]. split; [apply continuous_const|].
  apply (D_up p); [exact Dp|].
  assert (0 <= u) by (apply Rle_trans with ((y0 - p) / q); [apply Rmult_le_pos; [lra | left; apply Rinv_0_lt_compat; lra] | lra]).
  nra.
- intros u hu. rewrite hh by (apply B; exact hu). ring.
- intros u x hu. apply cl_lt. apply B; exact hu.
- intros u x hu. apply cl_gt. apply B; exact hu.
- intros u hu [o|o]; [left | right]; fold y0 y1; [rewrite <- e0 | rewrite <- e1]; nra.
- intros u hu. fold y0 y1; rewrite <- e0, <- e1; nra.
Qed.
Lemma region_lin_dec p q h x0 x1 : 0 < q -> D (p - q) -> x0 <= x1 ->
  (forall x, p - q < x < p -> log_h f b a x = h) ->
  is_RInt (fun u => weight x0 x1 (p + - q * u)) 0 1 ((G (cl (p - q) p x1) - G (cl (p - q) p x0)) / (q * exp h)).
Proof.
intros hq Dp h01 hh.
pose proof (cl_range (p - q) p x0 ltac:(lra)) as r0. pose proof (cl_range (p - q) p x1 ltac:(lra)) as r1.
pose proof (cl_mono (p - q) p x0 x1 ltac:(lra) h01) as r01.
set (y0 := cl (p - q) p x0) in *. set (y1 := cl (p - q) p x1) in *.
assert (e0 : p + - q * ((p - y0) / q) = y0) by (field; lra).
assert (e1 : p + - q * ((p - y1) / q) = y1) by (field; lra).
pose proof (exp_pos h).
assert (B : forall u, 0 < u < 1 -> p - q < p + - q * u < p) by (intros; nra).
assert (k1 : 0 <= (p - y1) / q) by (apply Rmult_le_pos; [lra | left; apply Rinv_0_lt_compat; lra]).
assert (k0 : (p - y0) / q <= 1) by (apply (Rmult_le_reg_l q); [lra|]; lra).
replace ((G y1 - G y0) / (q * exp h)) with
  ((G (p + - q * ((p - y0) / q)) - G (p + - q * ((p - y1) / q))) / (- q * exp h)) by (rewrite e0, e1; field; lra).
apply (region (fun u => p + - q * u) (fun _ => - q) (cl (p - q) p)).
- exact k1.
- apply (Rmult_le_reg_l q); [lra|]. lra.
- exact k0.
- apply Rlt_not_eq. assert (0 < q * exp h) by (apply Rmult_lt_0_compat; lra). lra.
- intros u hu. split; [apply lin_der|]. split; [apply continuous_const|].
  apply (D_up (p - q)); [exact Dp|]. nra.
- intros u hu. rewrite hh by (apply B; exact hu). ring.
- intros u x hu. apply cl_lt. apply B; exact hu.
- intros u x hu. apply cl_gt. apply B; exact hu.
- intros u hu [o|o]; [right | left]; fold y0 y1; [rewrite <- e1 | rewrite <- e0]; nra.
- intros u hu. fold y0 y1; rewrite <- e0, <- e1; nra.
Qed.

Lemma exp_le x y : x <= y -> exp x <= exp y.
Proof. intros [h| ->]; [left; apply exp_increasing; exact h | lra]. Qed.

Lemma region_right x0 x1 : x0 <= x1 ->
  is_RInt (fun u => weight x0 x1 (X4 u)) 0 1 ((G (Rmax x1 (2 * a)) - G (Rmax x0 (2 * a))) / m4).
Proof.
intros h01.
set (mu := a / La). assert (hmu : 0 < mu) by (apply Rdiv_lt_0_compat; lra).
set (c4 := fun x => Rmax x (2 * a)).
set (y0 := c4 x0). set (y1 := c4 x1).
assert (r0 : 2 * a <= y0) by apply Rmax_r. assert (r1 : 2 * a <= y1) by apply Rmax_r.
assert (r01 : y0 <= y1) by (apply Rle_max_compat_r; exact h01).
set (U := fun y => exp (- (y - 2 * a) / mu)).
assert (XU : forall y, X4 (U y) = y) by (intro y; unfold X4, U; fold mu; rewrite ln_exp; field; lra).
assert (U0 : forall y, 0 < U y) by (intro; apply exp_pos).
assert (Umono : forall y z, y <= z -> U z <= U y).
{ intros y z h; apply exp_le. unfold Rdiv; apply Rmult_le_compat_r; [left; apply Rinv_0_lt_compat; lra | lra]. }
assert (U2a : U (2 * a) = 1) by (unfold U; rewrite <- exp_0; f_equal; field; lra).
assert (X4dec : forall u u', 0 < u -> u < u' -> X4 u' < X4 u).
{ intros u u' hu h. unfold X4. fold mu. pose proof (ln_increasing u u' hu h). nra. }
pose proof masses_pos as (_ & _ & _ & hm4 & _).
change (Rmax x1 (2 * a)) with y1; change (Rmax x0 (2 * a)) with y0.
replace ((G y1 - G y0) / m4) with ((G (X4 (U y0)) - G (X4 (U y1))) / (- m4)) by (rewrite !XU; field; lra).
assert (B : forall u, 0 < u < 1 -> 2 * a < X4 u).
{ intros u hu. pose proof (X4dec u 1 ltac:(lra) ltac:(lra)) as k. unfold X4 at 1 in k. rewrite ln_1 in k. lra. }
apply (region X4 (fun u => - mu / u) c4 x0 x1 (U y1) (U y0) (- m4)).
- left; apply U0.
- apply Umono; exact r01.
- rewrite <- U2a. apply Umono; exact r0.
- lra.
- intros u hu. pose proof (U0 y1). split; [|split].
  + unfold X4. fold mu. auto_derive; [lra | field; lra].
  + apply (ex_derive_continuous (fun u => - mu / u)). auto_derive. lra.
  + apply (D_up 0); [exact D0|].
    apply Rle_trans with y0; [lra|].
    rewrite <- (XU y0).
    destruct (proj2 hu) as [k| ->]; [left; apply X4dec; lra | lra].
- intros u hu. unfold log_h. pose proof (B u hu).
  destruct (Rlt_dec (X4 u) (2 * b)); [lra|]. destruct (Rlt_dec (X4 u) b); [lra|].
  destruct (Rlt_dec (X4 u) a); [lra|]. destruct (Rlt_dec (X4 u) (2 * a)); [lra|]. fold La.
  unfold X4. replace ((a - (2 * a - a / La * ln u)) * (La / a) + f a) with (f (2 * a) + ln u)
    by (unfold La; field; unfold La in La0; lra).
  rewrite exp_plus, exp_ln by lra. unfold m4. fold mu. field. lra.
- intros u x hu. unfold c4. pose proof (B u hu). unfold Rmax. destruct (Rle_dec x (2 * a)); lra.
- intros u x hu. unfold c4. pose proof (B u hu). unfold Rmax. destruct (Rle_dec x (2 * a)); lra.
- intros u hu [o|o]; [right | left].
  + fold y1. rewrite <- (XU y1). apply X4dec; lra.
  + fold y0. rewrite <- (XU y0). apply X4dec; [apply U0 | exact o].
- intros u hu. fold y0 y1. pose proof (U0 y1). split.
  + rewrite <- (XU y0). apply X4dec; lra.
  + rewrite <- (XU y1). apply X4dec; lra.
Qed.

Lemma region_left x0 x1 : D x0 -> x0 <= x1 ->
  is_RInt (fun u => weight x0 x1 (X5 u)) 0 1 ((G (Rmin x1 (2 * b)) - G (Rmin x0 (2 * b))) / m5).
Proof.
intros Dx0 h01.
set (mu := - b / Lb). assert (hmu : 0 < mu) by (apply Rdiv_lt_0_compat; lra).
set (c5 := fun x => Rmin x (2 * b)).
set (y0 := c5 x0). set (y1 := c5 x1).
assert (r0 : y0 <= 2 * b) by apply Rmin_r. assert (r1 : y1 <= 2 * b) by apply Rmin_r.
assert (r01 : y0 <= y1) by (apply Rle_min_compat_r; exact h01).
pose proof e01 as he. set (q := 1 - e) in *. assert (hq : 0 < q <= 1) by (unfold q; lra).
set (U := fun y => (1 - exp ((y - 2 * b) / mu)) / q).
assert (E : forall y, 1 - U y * q = exp ((y - 2 * b) / mu)) by (intro; unfold U; field; lra).
assert (XU : forall y, X5 (U y) = y) by (intro y; unfold X5; fold mu q; rewrite E, ln_exp; field; lra).
assert (Umono : forall y z, y <= z -> U z <= U y).
{ intros y z h. apply (Rmult_le_reg_r q); [lra|].
  assert (exp ((y - 2 * b) / mu) <= exp ((z - 2 * b) / mu)).
  { apply exp_le. unfold Rdiv; apply Rmult_le_compat_r; [left; apply Rinv_0_lt_compat; lra | lra]. }
  pose proof (E y); pose proof (E z). lra. }
assert (U2b : U (2 * b) = 0).
{ unfold U. replace ((2 * b - 2 * b) / mu) with 0 by (field; lra). rewrite exp_0. field; lra. }
assert (Dy0 : D y0) by (unfold y0, c5, Rmin; destruct (Rle_dec x0 (2 * b)); assumption).
assert (eU : e <= exp ((y0 - 2 * b) / mu)).
{ assert (Emu : Rabs b / Lb = mu) by (rewrite absb; reflexivity). clearbody mu.
  unfold e. clear -Dy0 Emu hmu. unfold D, in_support in Dy0. destruct gm as [m|].
  - rewrite Emu. apply exp_le. unfold Rdiv; apply Rmult_le_compat_r; [left; apply Rinv_0_lt_compat; lra | lra].
  - left; apply exp_pos. }
assert (U1 : U y0 <= 1).
{ apply (Rmult_le_reg_r q); [lra|]. pose proof (E y0). unfold q in *. lra. }
assert (X5dec : forall u u', u < u' -> 0 < 1 - u' * q -> X5 u' < X5 u).
{ intros u u' h h'. unfold X5. fold mu q.
  pose proof (ln_increasing (1 - u' * q) (1 - u * q) ltac:(lra) ltac:(nra)). nra. }
pose proof masses_pos as (_ & _ & _ & _ & hm5).
change (Rmin x1 (2 * b)) with y1; change (Rmin x0 (2 * b)) with y0.
replace ((G y1 - G y0) / m5) with ((G (X5 (U y0)) - G (X5 (U y1))) / (- m5)) by (rewrite !XU; field; lra).
assert (P : forall u, 0 < u < 1 -> 0 < 1 - u * q) by (intros; nra).
assert (P' : forall u, u <= U y0 -> 0 < 1 - u * q).
{ intros u hu. pose proof (E y0). pose proof (exp_pos ((y0 - 2 * b) / mu)). nra. }
assert (B : forall u, 0 < u < 1 -> X5 u < 2 * b).
{ intros u hu. pose proof (X5dec 0 u ltac:(lra) (P u hu)) as k. unfold X5 at 2 in k.
  rewrite Rmult_0_l, Rminus_0_r, ln_1 in k. lra. }
apply (region X5 (fun u => - mu * q / (1 - u * q)) c5 x0 x1 (U y1) (U y0) (- m5)).
- rewrite <- U2b. apply Umono; exact r1.
- apply Umono; exact r01.
- exact U1.
- lra.
- intros u hu. pose proof (P' u ltac:(lra)). split; [|split].
  + unfold X5. fold mu q. auto_derive; [lra | field; lra].
  + apply (ex_derive_continuous (fun u => - mu * q / (1 - u * q))). auto_derive. lra.
  + apply (D_up y0); [exact Dy0|].
    rewrite <- (XU y0).
    destruct (proj2 hu) as [k| ->]; [left; apply X5dec; [exact k | apply P'; lra] | lra].
- intros u hu. unfold log_h. pose proof (B u hu). pose proof (P u hu).
  destruct (Rlt_dec (X5 u) (2 * b)); [|lra]. fold Lb.
  unfold X5. fold q. replace ((b - (2 * b + - b / Lb * ln (1 - u * q))) * (Lb / b) + f b) with (f (2 * b) + ln (1 - u * q))
    by (unfold Lb; field; unfold Lb in Lb0; lra).
  rewrite exp_plus, exp_ln by lra. unfold m5. fold mu q. field. lra.
- intros u x hu. unfold c5. pose proof (B u hu). unfold Rmin. destruct (Rle_dec x (2 * b)); lra.
- intros u x hu. unfold c5. pose proof (B u hu). unfold Rmin. destruct (Rle_dec x (2 * b)); lra.
- intros u hu [o|o]; [right | left].
  + fold y1. rewrite <- (XU y1). apply X5dec; [exact o|]. rewrite E; apply exp_pos.
  + fold y0. rewrite <- (XU y0). apply X5dec; [exact o | apply P; exact hu].
- intros u hu. fold y0 y1. split.
  + rewrite <- (XU y0). apply X5dec; [lra | apply P'; lra].
  + rewrite <- (XU y1). apply X5dec; [lra | apply P'; lra].
Qed.

(** *** The proposal stays in the support *)
Lemma proposal_support u v : 0 < u < 1 -> 0 < v < 1 -> D (dev12_proposal f b a gm u v).
Proof.
clear fconc fcont fmax. intros hu hv. rewrite proposal_region by exact hv.
assert (mu4 : 0 < a / La) by (apply Rdiv_lt_0_compat; lra).
repeat match goal with |- context [Rle_dec ?x ?y] => destruct (Rle_dec x y) end.
- apply (D_up (2 * b)); [exact D2b | unfold X1; nra].
- apply (D_up (2 * b)); [exact D2b | unfold X2; nra].
- apply (D_up (2 * b)); [exact D2b | unfold X3; nra].
- apply (D_up (2 * b)); [exact D2b |]. unfold X4.
  pose proof (ln_increasing u 1 ltac:(lra) ltac:(lra)). rewrite ln_1 in H. nra.
- unfold X5. pose proof e01 as he. pose proof absb as hab.
  assert (mu5 : 0 < - b / Lb) by (apply Rdiv_lt_0_compat; lra).
  unfold D, in_support. destruct gm as [m|]; [|exact I].
  set (mu := - b / Lb) in *.
  assert (K : - (m + 2 * b) / mu < ln (1 - u * (1 - e))).
  { rewrite <- (ln_exp (- (m + 2 * b) / mu)). apply ln_increasing; [apply exp_pos|].
    unfold e in *; rewrite hab in *; fold mu in he |- *. nra. }
  apply (Rmult_lt_compat_l mu) in K; [|lra].
  replace (mu * (- (m + 2 * b) / mu)) with (- (m + 2 * b)) in K by (field; lra). lra.
Qed.

(** *** The law of an iteration *)
Lemma one_iteration x0 x1 : D x0 -> x0 <= x1 ->
  cube_integral (hit f b a gm x0 x1) (RInt (fun x => exp (f x)) x0 x1 / exp (log_Z_h f b a gm)).
Proof.
intros Dx0 h01.
assert (Dx1 : D x1) by (apply (D_up x0); assumption).
rewrite log_Z, exp_ln by exact Z_pos. rewrite IG by assumption.
pose proof masses_pos as (p1 & p2 & p3 & p4 & p5). pose proof Z_pos as pZ.
set (i1 := (G (cl b a x1) - G (cl b a x0)) / m1).
set (i2 := (G (cl a (2 * a) x1) - G (cl a (2 * a) x0)) / m2).
set (i3 := (G (cl (2 * b) b x1) - G (cl (2 * b) b x0)) / m3).
set (i4 := (G (Rmax x1 (2 * a)) - G (Rmax x0 (2 * a))) / m4).
set (i5 := (G (Rmin x1 (2 * b)) - G (Rmin x0 (2 * b))) / m5).
set (G2 := fun v => if Rle_dec v (m1 / Z) then i1 else if Rle_dec v ((m1 + m2) / Z) then i2 else
  if Rle_dec v ((m1 + m2 + m3) / Z) then i3 else if Rle_dec v ((m1 + m2 + m3 + m4) / Z) then i4 else i5).
exists (fun u v => weight x0 x1 (dev12_proposal f b a gm u v)), G2.
split; [|split].
- intros u v hu hv. apply int_w. apply proposal_support; assumption.
- intros v hv.
  apply (is_RInt_ext (fun u => weight x0 x1 (if Rle_dec v (m1 / Z) then X1 u else
    if Rle_dec v ((m1 + m2) / Z) then X2 u else
    if Rle_dec v ((m1 + m2 + m3) / Z) then X3 u else
    if Rle_dec v ((m1 + m2 + m3 + m4) / Z) then X4 u else X5 u))).
  { intros u _. rewrite proposal_region by exact hv. reflexivity. }
  unfold G2.
  destruct (Rle_dec v (m1 / Z)).
  { unfold i1. replace (cl b a) with (cl b (b + (a - b))) by (f_equal; ring).
    apply (region_lin_inc b (a - b) (f 0)); [lra | apply (D_up (2 * b)); [exact D2b | lra] | exact h01 |].
    intros x hx. unfold log_h.
    destruct (Rlt_dec x (2 * b)); [lra|]. destruct (Rlt_dec x b); [lra|]. destruct (Rlt_dec x a); [reflexivity | lra]. }
  destruct (Rle_dec v ((m1 + m2) / Z)).
  { unfold i2. replace (cl a (2 * a)) with (cl a (a + a)) by (f_equal; ring).
    apply (region_lin_inc a a (f a)); [lra | apply (D_up (2 * b)); [exact D2b | lra] | exact h01 |].
    intros x hx. unfold log_h.
    destruct (Rlt_dec x (2 * b)); [lra|]. destruct (Rlt_dec x b); [lra|]. destruct (Rlt_dec x a); [lra|].
    destruct (Rlt_dec x (2 * a)); [reflexivity | lra]. }
  destruct (Rle_dec v ((m1 + m2 + m3) / Z)).
  { unfold i3. replace (cl (2 * b) b) with (cl (b - - b) b) by (f_equal; ring).
    apply (is_RInt_ext (fun u => weight x0 x1 (b + - - b * u))).
    { intros u _. unfold X3. f_equal. ring. }
    apply (region_lin_dec b (- b) (f b)); [lra | apply (D_up (2 * b)); [exact D2b | lra] | exact h01 |].
    intros x hx. unfold log_h.
    destruct (Rlt_dec x (2 * b)); [lra|]. destruct (Rlt_dec x b); [reflexivity | lra]. }
  destruct (Rle_dec v ((m1 + m2 + m3 + m4) / Z)).
  { apply region_right; exact h01. }
  apply region_left; assumption.
- assert (o : forall c, 0 < c -> 0 < c / Z) by (intros; apply Rdiv_lt_0_compat; lra).
  set (v1 := m1 / Z) in *. set (v2 := (m1 + m2) / Z) in *. set (v3 := (m1 + m2 + m3) / Z) in *.
  set (v4 := (m1 + m2 + m3 + m4) / Z) in *.
  assert (k1 : 0 < v1) by (apply o; lra).
  assert (E2 : v2 - v1 = m2 / Z) by (unfold v2, v1; field; lra).
  assert (E3 : v3 - v2 = m3 / Z) by (unfold v3, v2; field; lra).
  assert (E4 : v4 - v3 = m4 / Z) by (unfold v4, v3; field; lra).
  assert (E5 : 1 - v4 = m5 / Z) by (unfold v4, Z; field; unfold Z in pZ; lra).
  pose proof (o m2 p2). pose proof (o m3 p3). pose proof (o m4 p4). pose proof (o m5 p5).
  apply (chasles _ 0 v1 1 ((v1 - 0) * i1) ((v2 - v1) * i2 + ((v3 - v2) * i3 + ((v4 - v3) * i4 + (1 - v4) * i5)))).
  { rewrite E2, E3, E4, E5. unfold v1, i1, i2, i3, i4, i5.
    assert (TEL : forall x, G (Rmin x (2 * b)) + G (cl (2 * b) b x) + G (cl b a x) + G (cl a (2 * a) x) + G (Rmax x (2 * a))
             = G x + G (2 * b) + G b + G a + G (2 * a)).
    { intro x. unfold cl, Rmax, Rmin.
      destruct (Rle_dec x (2 * b)); destruct (Rle_dec x b); destruct (Rle_dec x a); destruct (Rle_dec x (2 * a)); try lra;
      repeat match goal with |- context [Rle_dec ?p ?q] => destruct (Rle_dec p q); try lra end.
      all: repeat match goal with h : ?p <= ?q |- _ => assert (p = q) by lra; subst; clear h end; try lra. }
    pose proof (TEL x0) as T0. pose proof (TEL x1) as T1.
    transitivity ((G (Rmin x1 (2 * b)) + G (cl (2 * b) b x1) + G (cl b a x1) + G (cl a (2 * a) x1) + G (Rmax x1 (2 * a))
      - (G (Rmin x0 (2 * b)) + G (cl (2 * b) b x0) + G (cl b a x0) + G (cl a (2 * a) x0) + G (Rmax x0 (2 * a)))) / Z).
    { rewrite T0, T1. field. lra. }
    field. lra. }
  { apply int_const; [lra|]. intros v hv. unfold G2. fold v1. destruct (Rle_dec v v1); [reflexivity | lra]. }
  apply (chasles _ v1 v2 1 ((v2 - v1) * i2) ((v3 - v2) * i3 + ((v4 - v3) * i4 + (1 - v4) * i5))); [ring | |].
  { apply int_const; [lra|]. intros v hv. unfold G2. fold v1 v2. destruct (Rle_dec v v1); [lra|].
    destruct (Rle_dec v v2); [reflexivity | lra]. }
  apply (chasles _ v2 v3 1 ((v3 - v2) * i3) ((v4 - v3) * i4 + (1 - v4) * i5)); [ring | |].
  { apply int_const; [lra|]. intros v hv. unfold G2. fold v1 v2 v3. destruct (Rle_dec v v1); [lra|].
    destruct (Rle_dec v v2); [lra|]. destruct (Rle_dec v v3); [reflexivity | lra]. }
  apply (chasles _ v3 v4 1 ((v4 - v3) * i4) ((1 - v4) * i5)); [ring | |].
  { apply int_const; [lra|]. intros v hv. unfold G2. fold v1 v2 v3 v4. destruct (Rle_dec v v1); [lra|].
    destruct (Rle_dec v v2); [lra|]. destruct (Rle_dec v v3); [lra|]. destruct (Rle_dec v v4); [reflexivity | lra]. }
  { apply int_const; [lra|]. intros v hv. unfold G2. fold v1 v2 v3 v4. destruct (Rle_dec v v1); [lra|].
    destruct (Rle_dec v v2); [lra|]. destruct (Rle_dec v v3); [lra|]. destruct (Rle_dec v v4); [lra | reflexivity]. }
Qed.

(** *** The total mass of the envelope *)
Lemma int_exp_lin (g : R -> R) k s x y : s <> 0 -> x <= y -> (forall t, x < t < y -> g t = exp (k + s * t)) ->
  is_RInt g x y ((exp (k + s * y) - exp (k + s * x)) / s).
Proof.
intros hs h H.
apply (is_RInt_ext (fun t => exp (k + s * t))).
{ rewrite Rmin_left, Rmax_right by lra. intros t ht; symmetry; apply H; exact ht. }
replace ((exp (k + s * y) - exp (k + s * x)) / s) with (minus (exp (k + s * y) / s) (exp (k + s * x) / s)).
2: { unfold minus, plus, opp; simpl. field; exact hs. }
apply (is_RInt_derive (V := R_CompleteNormedModule) (fun t => exp (k + s * t) / s)).
- intros t _. auto_derive; [trivial | field; exact hs].
- intros t _. apply (ex_derive_continuous (fun t => exp (k + s * t))). auto_derive. trivial.
Qed.

Lemma int_envelope x y : x <= 2 * b -> 2 * a <= y ->
  is_RInt (fun t => exp (log_h f b a t)) x y
    (m1 + m2 + m3 + m4 * (1 - exp (- (y - 2 * a) / (a / La))) + - b / Lb * exp (f (2 * b)) * (1 - exp ((x - 2 * b) / (- b / Lb)))).
Proof.
intros hx hy.
assert (H : forall p q c, p <= q -> (forall t, p < t < q -> log_h f b a t = c) ->
   is_RInt (fun t => exp (log_h f b a t)) p q ((q - p) * exp c)).
{ intros p q c h E. apply int_const; [exact h|]. intros u hu. rewrite E by exact hu. reflexivity. }
apply (chasles _ x (2 * b) y (- b / Lb * exp (f (2 * b)) * (1 - exp ((x - 2 * b) / (- b / Lb))))
   (m3 + (m1 + (m2 + m4 * (1 - exp (- (y - 2 * a) / (a / La))))))); [ring | |].
{ replace (- b / Lb * exp (f (2 * b)) * (1 - exp ((x - 2 * b) / (- b / Lb)))) with
  ((exp ((f b + Lb) + (- Lb / b) * (2 * b)) - exp ((f b + Lb) + (- Lb / b) * x)) / (- Lb / b)).
  - apply int_exp_lin; [|lra|].
    + assert (0 < Lb / - b) by (apply Rdiv_lt_0_compat; lra).
      replace (- Lb / b) with (Lb / - b) by (field; lra). lra.
    + intros t ht. unfold log_h. destruct (Rlt_dec t (2 * b)); [|lra]. fold Lb. f_equal. field. lra.
  - replace ((f b + Lb) + (- Lb / b) * (2 * b)) with (f (2 * b)) by (unfold Lb; field; lra).
    replace ((f b + Lb) + (- Lb / b) * x) with (f (2 * b) + (x - 2 * b) / (- b / Lb)) by (unfold Lb; field; unfold Lb in Lb0; lra).
    rewrite exp_plus. field. lra. }
apply (chasles _ (2 * b) b y m3 (m1 + (m2 + m4 * (1 - exp (- (y - 2 * a) / (a / La)))))); [ring | |].
{ replace m3 with ((b - 2 * b) * exp (f b)) by (unfold m3; ring). apply H; [lra|]. intros t ht. unfold log_h.
  destruct (Rlt_dec t (2 * b)); [lra|]. destruct (Rlt_dec t b); [reflexivity | lra]. }
apply (chasles _ b a y m1 (m2 + m4 * (1 - exp (- (y - 2 * a) / (a / La))))); [ring | |].
{ apply H; [lra|]. intros t ht. unfold log_h.
  destruct (Rlt_dec t (2 * b)); [lra|]. destruct (Rlt_dec t b); [lra|]. destruct (Rlt_dec t a); [reflexivity | lra]. }
apply (chasles _ a (2 * a) y m2 (m4 * (1 - exp (- (y - 2 * a) / (a / La))))); [ring | |].
{ replace m2 with ((2 * a - a) * exp (f a)) by (unfold m2; ring). apply H; [lra|]. intros t ht. unfold log_h.
  destruct (Rlt_dec t (2 * b)); [lra|]. destruct (Rlt_dec t b); [lra|]. destruct (Rlt_dec t a); [lra|].
  destruct (Rlt_dec t (2 * a)); [reflexivity | lra]. }
replace (m4 * (1 - exp (- (y - 2 * a) / (a / La)))) with
  ((exp ((f a + La) + (- La / a) * y) - exp ((f a + La) + (- La / a) * (2 * a))) / (- La / a)).
- apply int_exp_lin; [|lra|].
  + assert (0 < La / a) by (apply Rdiv_lt_0_compat; lra).
    replace (- La / a) with (- (La / a)) by (field; lra). lra.
  + intros t ht. unfold log_h. destruct (Rlt_dec t (2 * b)); [lra|]. destruct (Rlt_dec t b); [lra|].
    destruct (Rlt_dec t a); [lra|]. destruct (Rlt_dec t (2 * a)); [lra|]. fold La. f_equal. field. lra.
- replace ((f a + La) + (- La / a) * (2 * a)) with (f (2 * a)) by (unfold La; field; lra).
  replace ((f a + La) + (- La / a) * y) with (f (2 * a) + - (y - 2 * a) / (a / La)) by (unfold La; field; unfold La in La0; lra).
  rewrite exp_plus. unfold m4. field. lra.
Qed.
Lemma log_Z_exp : exp (log_Z_h f b a gm) = Z. Proof. rewrite log_Z; apply exp_ln, Z_pos. Qed.
End Generic.

(** ** The two families of densities *)
Lemma ln_le_sub1 x : 0 < x -> ln x <= x - 1.
Proof.
intros h. destruct (Req_dec x 1) as [->|n]; [rewrite ln_1; lra|].
pose proof (exp_ineq1 (ln x)) as H.
assert (ln x <> 0). { intro E. apply n. rewrite <- (exp_ln x h), E, exp_0. reflexivity. }
specialize (H H0). rewrite exp_ln in H by exact h. lra.
Qed.
Lemma sq_convex x y t : 0 <= t <= 1 -> (t * x + (1 - t) * y) ^ 2 <= t * x ^ 2 + (1 - t) * y ^ 2.
Proof.
intros h. assert (0 <= t * (1 - t)) by nra.
replace (t * x ^ 2 + (1 - t) * y ^ 2) with ((t * x + (1 - t) * y) ^ 2 + t * (1 - t) * (x - y) ^ 2) by ring.
pose proof (pow2_ge_0 (x - y)). nra.
Qed.
Lemma four_convex x y t : 0 <= t <= 1 -> (t * x + (1 - t) * y) ^ 4 <= t * x ^ 4 + (1 - t) * y ^ 4.
Proof.
intros h. pose proof (sq_convex x y t h) as h1. pose proof (sq_convex (x ^ 2) (y ^ 2) t h) as h2.
replace ((t * x + (1 - t) * y) ^ 4) with (((t * x + (1 - t) * y) ^ 2) ^ 2) by ring.
replace (x ^ 4) with ((x ^ 2) ^ 2) by ring. replace (y ^ 4) with ((y ^ 2) ^ 2) by ring.
apply Rle_trans with (2 := h2). apply pow_incr. split; [apply pow2_ge_0 | exact h1].
Qed.
Lemma quartic_convex al be ga x y t : 0 <= al -> 0 <= be -> 0 <= t <= 1 ->
  quartic al be ga (t * x + (1 - t) * y) <= t * quartic al be ga x + (1 - t) * quartic al be ga y.
Proof.
intros h1 h2 h. unfold quartic.
pose proof (four_convex x y t h). pose proof (sq_convex x y t h). nra.
Qed.
Lemma ln_concave x y t : 0 < x -> 0 < y -> 0 <= t <= 1 -> t * ln x + (1 - t) * ln y <= ln (t * x + (1 - t) * y).
Proof.
intros hx hy h. set (m := t * x + (1 - t) * y).
assert (hm : 0 < m).
{ unfold m. destruct (Req_dec t 0) as [->|n]; [lra|]. assert (0 < t * x) by (apply Rmult_lt_0_compat; lra).
  assert (0 <= (1 - t) * y) by (apply Rmult_le_pos; lra). lra. }
assert (h1 := ln_le_sub1 (x / m) ltac:(apply Rdiv_lt_0_compat; lra)).
assert (h2 := ln_le_sub1 (y / m) ltac:(apply Rdiv_lt_0_compat; lra)).
rewrite ln_div in h1, h2 by lra.
assert (E : t * (x / m) + (1 - t) * (y / m) = 1).
{ replace (t * (x / m) + (1 - t) * (y / m)) with ((t * x + (1 - t) * y) / m) by (field; lra). fold m. field. lra. }
nra.
Qed.

Lemma quartic_derive al be ga x : is_derive (quartic al be ga) x (4 * al * x ^ 3 + 2 * be * x + ga).
Proof. unfold quartic. auto_derive; [trivial | ring]. Qed.
Lemma stationary al be ga m d : is_derive (quartic al be ga) m d -> d = 4 * al * m ^ 3 + 2 * be * m + ga.
Proof.
intros h. rewrite <- (is_derive_unique _ _ _ (quartic_derive al be ga m)). symmetry. apply is_derive_unique. exact h.
Qed.

Section Quartic.
Variables (al be ga m : R).
Hypotheses (hal : 0 <= al) (hbe : 0 <= be) (hpos : 0 < al + be) (hm : is_derive (quartic al be ga) m 0).
Let f := log_f_quartic al be ga m.
Lemma qE : ga = - (4 * al * m ^ 3 + 2 * be * m).
Proof. pose proof (stationary _ _ _ _ _ hm). lra. Qed.
Lemma q_conc : concave_on (in_support None) f.
Proof.
intros x y t _ _ ht. unfold f, log_f_quartic.
replace (t * x + (1 - t) * y + m) with (t * (x + m) + (1 - t) * (y + m)) by ring.
pose proof (quartic_convex al be ga (x + m) (y + m) t hal hbe ht). lra.
Qed.
Lemma q_cont x : continuous f x.
Proof. apply (ex_derive_continuous f). unfold f, log_f_quartic, quartic. auto_derive. trivial. Qed.
Lemma q_shift x : f 0 - f x = al * x ^ 2 * ((x + 2 * m) ^ 2 + 2 * m ^ 2) + be * x ^ 2.
Proof. unfold f, log_f_quartic, quartic. rewrite qE. ring. Qed.
Lemma q_max x : f x <= f 0.
Proof.
pose proof (q_shift x). pose proof (pow2_ge_0 x). pose proof (pow2_ge_0 (x + 2 * m)). pose proof (pow2_ge_0 m).
assert (0 <= al * x ^ 2) by (apply Rmult_le_pos; lra).
assert (0 <= al * x ^ 2 * ((x + 2 * m) ^ 2 + 2 * m ^ 2)) by (apply Rmult_le_pos; lra).
assert (0 <= be * x ^ 2) by (apply Rmult_le_pos; lra). lra.
Qed.
Lemma q_drop x : x <> 0 -> 0 < f x - f (2 * x).
Proof.
intro hx. pose proof (q_shift x). pose proof (q_shift (2 * x)).
assert (E : f x - f (2 * x) = al * x ^ 2 * (15 * x ^ 2 + 28 * m * x + 18 * m ^ 2) + be * (3 * x ^ 2)).
{ replace (f x - f (2 * x)) with ((f 0 - f (2 * x)) - (f 0 - f x)) by ring. rewrite H, H0. ring. }
rewrite E.
assert (hx2 : 0 < x ^ 2) by (apply pow2_gt_0; exact hx).
assert (hd : 0 < 15 * x ^ 2 + 28 * m * x + 18 * m ^ 2).
{ replace (15 * x ^ 2 + 28 * m * x + 18 * m ^ 2) with (18 * (m + 7 / 9 * x) ^ 2 + 37 / 9 * x ^ 2) by field.
  pose proof (pow2_ge_0 (m + 7 / 9 * x)). lra. }
assert (0 <= al * x ^ 2) by (apply Rmult_le_pos; lra).
destruct hal as [k| <-].
- assert (0 < al * x ^ 2 * (15 * x ^ 2 + 28 * m * x + 18 * m ^ 2)) by (apply Rmult_lt_0_compat; [apply Rmult_lt_0_compat|]; lra).
  assert (0 <= be * (3 * x ^ 2)) by (apply Rmult_le_pos; lra). lra.
- assert (0 < be * (3 * x ^ 2)) by (apply Rmult_lt_0_compat; lra). lra.
Qed.
End Quartic.

Section Gamma.
Variables (sh be ga m : R).
Hypotheses (hsh : 1 < sh) (hbe : 0 <= be) (hm0 : 0 < m)
  (hm : exists d, is_derive (quartic 0 be ga) m d /\ m * d - (sh - 1) = 0).
Let f := log_f_gamma sh be ga m.
Let c := (sh - 1) / m.
Lemma gE : 2 * be * m + ga = c.
Proof.
destruct hm as (d & hd & E). pose proof (stationary _ _ _ _ _ hd) as E'.
assert (d = 2 * be * m + ga) by lra. subst d. unfold c. apply (Rmult_eq_reg_l m); [|lra].
replace (m * ((sh - 1) / m)) with (sh - 1) by (field; lra). lra.
Qed.
Lemma g_conc : concave_on (in_support (Some m)) f.
Proof.
intros x y t hx hy ht. simpl in hx, hy. unfold f, log_f_gamma.
replace (t * x + (1 - t) * y + m) with (t * (x + m) + (1 - t) * (y + m)) by ring.
pose proof (quartic_convex 0 be ga (x + m) (y + m) t (Rle_refl 0) hbe ht).
pose proof (ln_concave (x + m) (y + m) t ltac:(lra) ltac:(lra) ht). nra.
Qed.
Lemma g_cont x : in_support (Some m) x -> continuous f x.
Proof. simpl; intro h. apply (ex_derive_continuous f). unfold f, log_f_gamma, quartic. auto_derive. lra. Qed.
Lemma g_diff x y : in_support (Some m) x -> in_support (Some m) y ->
  f x - f y = (sh - 1) * ln ((x + m) / (y + m)) + be * (y ^ 2 - x ^ 2) + c * (y - x).
Proof.
simpl; intros hx hy. unfold f, log_f_gamma, quartic. rewrite ln_div by lra.
rewrite <- gE. ring.
Qed.
Lemma ln_ge r : 0 < r -> 1 - / r <= ln r.
Proof.
intros h. pose proof (ln_le_sub1 (/ r) (Rinv_0_lt_compat _ h)) as H. rewrite ln_Rinv in H by exact h. lra.
Qed.
Lemma g_max x : in_support (Some m) x -> f x <= f 0.
Proof.
intros hx. assert (h0 : in_support (Some m) 0) by (simpl; lra). simpl in hx.
assert (0 <= f 0 - f x); [|lra]. rewrite g_diff by (simpl; lra).
pose proof (ln_ge ((0 + m) / (x + m)) ltac:(apply Rdiv_lt_0_compat; lra)) as L.
replace (/ ((0 + m) / (x + m))) with ((x + m) / m) in L by (field; lra).
assert (E : c * (x - 0) = (sh - 1) * (x / m)) by (unfold c; field; lra). rewrite E.
replace ((x + m) / m) with (1 + x / m) in L by (field; lra).
pose proof (pow2_ge_0 x). assert (0 <= be * (x ^ 2 - 0 ^ 2)) by (apply Rmult_le_pos; lra). nra.
Qed.
Lemma g_drop x : x <> 0 -> in_support (Some m) (2 * x) -> 0 < f x - f (2 * x).
Proof.
intros hx h2. assert (h1 : in_support (Some m) x) by (simpl in *; lra).
rewrite g_diff by assumption. simpl in h1, h2.
pose proof (ln_ge ((x + m) / (2 * x + m)) ltac:(apply Rdiv_lt_0_compat; lra)) as L.
replace (/ ((x + m) / (2 * x + m))) with (1 + x / (x + m)) in L by (field; lra).
assert (E : c * (2 * x - x) = (sh - 1) * (x / m)) by (unfold c; field; lra). rewrite E.
assert (K : 0 < x / m - x / (x + m)).
{ replace (x / m - x / (x + m)) with (x ^ 2 / (m * (x + m))) by (field; lra).
  apply Rdiv_lt_0_compat; [apply pow2_gt_0; exact hx | apply Rmult_lt_0_compat; lra]. }
pose proof (pow2_ge_0 x). assert (0 <= be * ((2 * x) ^ 2 - x ^ 2)) by (apply Rmult_le_pos; [lra | nra]). nra.
Qed.
End Gamma.

(** ** Theorems *)
(** The envelope dominates the density, whatever b < 0 < a the numerical root finding returned. *)
Theorem C46_envelope_quartic al be ga mode b a :
  0 <= al -> 0 <= be -> 0 < al + be -> is_derive (quartic al be ga) mode 0 -> b < 0 < a ->
  let log_f := log_f_quartic al be ga mode in
  forall x, exp (log_f x) <= exp (log_h log_f b a x).
Proof.
intros h1 h2 h3 h4 h5 log_f x. apply exp_le.
apply (envelope log_f b a None); try lra; try exact I.
- apply q_conc; assumption.
- intros; apply q_max; assumption.
Qed.
Theorem C46_envelope_gamma sh be ga mode b a :
  1 < sh -> 0 <= be -> 0 < mode -> (exists d, is_derive (quartic 0 be ga) mode d /\ mode * d - (sh - 1) = 0) ->
  - mode < 2 * b -> b < 0 < a ->
  let log_f := log_f_gamma sh be ga mode in
  forall x, - mode < x -> exp (log_f x) <= exp (log_h log_f b a x).
Proof.
intros h1 h2 h3 h4 h5 h6 log_f x hx. apply exp_le.
apply (envelope log_f b a (Some mode)); try lra; try exact hx; try exact h5.
- apply g_conc; assumption.
- intros; apply g_max; assumption.
Qed.

(** One iteration: the probability that it is accepted with a proposal in (x0, x1] is the integral of the density over
    (x0, x1], up to one constant: accepted proposals follow exactly the density. *)
Theorem C46_law_quartic al be ga mode b a x0 x1 :
  0 <= al -> 0 <= be -> 0 < al + be -> is_derive (quartic al be ga) mode 0 -> b < 0 < a -> x0 <= x1 ->
  let log_f := log_f_quartic al be ga mode in
  cube_integral (hit log_f b a None x0 x1) (RInt (fun x => exp (log_f x)) x0 x1 / exp (log_Z_h log_f b a None)).
Proof.
intros h1 h2 h3 h4 h5 h6 log_f.
apply (one_iteration log_f b a None); try lra; try exact I.
- apply q_conc; assumption.
- intros; apply q_cont; assumption.
- intros; apply q_max; assumption.
- apply q_drop; try assumption; lra.
- apply q_drop; try assumption; lra.
Qed.
Theorem C46_law_gamma sh be ga mode b a x0 x1 :
  1 < sh -> 0 <= be -> 0 < mode -> (exists d, is_derive (quartic 0 be ga) mode d /\ mode * d - (sh - 1) = 0) ->
  - mode < 2 * b -> b < 0 < a -> - mode < x0 <= x1 ->
  let log_f := log_f_gamma sh be ga mode in
  cube_integral (hit log_f b a (Some mode) x0 x1)
    (RInt (fun x => exp (log_f x)) x0 x1 / exp (log_Z_h log_f b a (Some mode))).
Proof.
intros h1 h2 h3 h4 h5 h6 h7 log_f.
apply (one_iteration log_f b a (Some mode)); try (simpl; lra).
- apply g_conc; assumption.
- intros; apply g_cont; assumption.
- intros; apply g_max; assumption.
- apply g_drop; try assumption; simpl; lra.
- apply g_drop; try assumption; simpl; lra.
Qed.

(** log_Z_h is the logarithm of the total mass of the envelope. *)
Lemma lim_exp_lin A B C k s : s < 0 -> is_lim (fun x => A + B * (C - exp (k + s * x))) p_infty (A + B * C).
Proof.
intros hs.
assert (L1 : is_lim (fun x => k + s * x) p_infty m_infty).
{ apply (is_lim_plus _ _ _ k m_infty); [apply is_lim_const | | reflexivity].
  replace m_infty with (Rbar_mult s p_infty).
  - apply is_lim_scal_l, is_lim_id.
  - simpl. destruct (Rle_dec 0 s); [exfalso; lra|]. reflexivity. }
assert (L2 : is_lim (fun x => exp (k + s * x)) p_infty 0).
{ apply (is_lim_comp exp (fun x => k + s * x) p_infty 0 m_infty is_lim_exp_m L1).
  exists 0. intros x _. discriminate. }
assert (L3 : is_lim (fun x => C - exp (k + s * x)) p_infty C).
{ replace (Finite C) with (Finite (C - 0)) by (f_equal; ring).
  apply (is_lim_minus _ _ _ C 0); [apply is_lim_const | exact L2 | reflexivity]. }
apply (is_lim_plus _ _ _ A (B * C)); [apply is_lim_const | | reflexivity].
apply (is_lim_scal_l _ B p_infty C L3).
Qed.
Theorem C46_mass_quartic al be ga mode b a :
  0 <= al -> 0 <= be -> 0 < al + be -> is_derive (quartic al be ga) mode 0 -> b < 0 < a ->
  let log_f := log_f_quartic al be ga mode in
  is_lim (fun x => RInt (fun t => exp (log_h log_f b a t)) (- x) x) p_infty (exp (log_Z_h log_f b a None)).
Proof.
intros h1 h2 h3 h4 h5 log_f.
assert (La0 : 0 < log_f a - log_f (2 * a)) by (apply q_drop; try assumption; lra).
assert (Lb0 : 0 < log_f b - log_f (2 * b)) by (apply q_drop; try assumption; lra).
rewrite (log_Z_exp log_f b a None) by (try lra; exact I).
set (La := log_f a - log_f (2 * a)) in *. set (Lb := log_f b - log_f (2 * b)) in *.
set (C := (a - b) * exp (log_f 0) + a * exp (log_f a) + - b * exp (log_f b)).
assert (ra : 0 < La / a) by (apply Rdiv_lt_0_compat; lra).
assert (rb : 0 < Lb / - b) by (apply Rdiv_lt_0_compat; lra).
pose proof (is_lim_plus' _ _ _ _ _ (lim_exp_lin C (a / La * exp (log_f (2 * a))) 1 (2 * La) (- (La / a)) ltac:(lra))
   (lim_exp_lin 0 (- b / Lb * exp (log_f (2 * b))) 1 (2 * Lb) (- (Lb / - b)) ltac:(lra))) as H.
replace (C + a / La * exp (log_f (2 * a)) * 1 + (0 + - b / Lb * exp (log_f (2 * b)) * 1))
  with (C + a / La * exp (log_f (2 * a)) + - b / Lb * exp (log_f (2 * b)) * (1 - 0)) in H by ring.
revert H. apply is_lim_ext_loc. exists (2 * a - 2 * b). intros x hx.
symmetry. apply is_RInt_unique.
pose proof (int_envelope log_f b a ltac:(lra) ltac:(lra) La0 Lb0 (- x) x ltac:(lra) ltac:(lra)) as H.
fold La Lb C in H.
replace (2 * La + - (La / a) * x) with (- (x - 2 * a) / (a / La)) by (field; lra).
replace (2 * Lb + - (Lb / - b) * x) with ((- x - 2 * b) / (- b / Lb)) by (field; lra).
match goal with |- is_RInt _ _ _ ?g => match type of H with is_RInt _ _ _ ?h => replace g with h by ring end end.
exact H.
Qed.
Theorem C46_mass_gamma sh be ga mode b a :
  1 < sh -> 0 <= be -> 0 < mode -> (exists d, is_derive (quartic 0 be ga) mode d /\ mode * d - (sh - 1) = 0) ->
  - mode < 2 * b -> b < 0 < a ->
  let log_f := log_f_gamma sh be ga mode in
  is_lim (fun x => RInt (fun t => exp (log_h log_f b a t)) (- mode) x) p_infty (exp (log_Z_h log_f b a (Some mode))).
Proof.
intros h1 h2 h3 h4 h5 h6 log_f.
assert (La0 : 0 < log_f a - log_f (2 * a)) by (apply g_drop; try assumption; simpl; lra).
assert (Lb0 : 0 < log_f b - log_f (2 * b)) by (apply g_drop; try assumption; simpl; lra).
rewrite (log_Z_exp log_f b a (Some mode)) by (try lra; simpl; lra).
set (La := log_f a - log_f (2 * a)) in *. set (Lb := log_f b - log_f (2 * b)) in *.
set (C := (a - b) * exp (log_f 0) + a * exp (log_f a) + - b * exp (log_f b)).
assert (ra : 0 < La / a) by (apply Rdiv_lt_0_compat; lra).
rewrite (Rabs_left b) by lra.
set (t := - b / Lb * exp (log_f (2 * b)) * (1 - exp (- (mode + 2 * b) / (- b / Lb)))).
pose proof (lim_exp_lin (C + t) (a / La * exp (log_f (2 * a))) 1 (2 * La) (- (La / a)) ltac:(lra)) as H.
replace (C + t + a / La * exp (log_f (2 * a)) * 1) with (C + a / La * exp (log_f (2 * a)) + t) in H by ring.
revert H. apply is_lim_ext_loc. exists (2 * a). intros x hx.
symmetry. apply is_RInt_unique.
pose proof (int_envelope log_f b a ltac:(lra) ltac:(lra) La0 Lb0 (- mode) x ltac:(lra) ltac:(lra)) as H.
fold La Lb C in H.
replace (- mode - 2 * b) with (- (mode + 2 * b)) in H by ring. fold t in H.
replace (2 * La + - (La / a) * x) with (- (x - 2 * a) / (a / La)) by (field; lra).
match goal with |- is_RInt _ _ _ ?g => match type of H with is_RInt _ _ _ ?h => replace g with h by ring end end.
exact H.
Qed.

(** The proposals of the gamma case are positive once shifted back: X + mode > 0. *)
Theorem C46_gamma_support sh be ga mode b a u v :
  1 < sh -> 0 <= be -> 0 < mode -> (exists d, is_derive (quartic 0 be ga) mode d /\ mode * d - (sh - 1) = 0) ->
  - mode < 2 * b -> b < 0 < a -> 0 < u < 1 -> 0 < v < 1 ->
  0 < dev12_proposal (log_f_gamma sh be ga mode) b a (Some mode) u v + mode.
Proof.
intros h1 h2 h3 h4 h5 h6 hu hv. set (log_f := log_f_gamma sh be ga mode).
assert (La0 : 0 < log_f a - log_f (2 * a)) by (apply g_drop; try assumption; simpl; lra).
assert (Lb0 : 0 < log_f b - log_f (2 * b)) by (apply g_drop; try assumption; simpl; lra).
pose proof (proposal_support log_f b a (Some mode) ltac:(lra) ltac:(lra) ltac:(simpl; lra) La0 Lb0 u v hu hv) as H.
simpl in H. lra.
Qed.

(** The loop returns the first accepted proposal, shifted by the mode ... *)
Theorem C69_loop_partial f b a gm mode draws n :
  let X := fun i => dev12_proposal f b a gm (fst (fst (draws i))) (snd (fst (draws i))) in
  let acc := fun i => dev12_accept f b a (X i) (snd (draws i)) in
  (n < 100)%nat -> acc n = true -> (forall i, (i < n)%nat -> acc i = false) ->
  dev12 f b a gm mode draws = X n + mode.
Proof.
intros X acc hn hacc hrej. unfold dev12.
assert (K : forall fuel it last, (it <= n)%nat -> (n < it + fuel)%nat ->
   dev12_loop f b a gm fuel mode last draws it = X n + mode).
{ induction fuel as [|fuel IH]; intros it last hit hfu; [lia|].
  simpl. destruct (draws it) as [[U V] W] eqn:E.
  assert (EX : X it = dev12_proposal f b a gm U V) by (unfold X; rewrite E; reflexivity).
  assert (EA : acc it = dev12_accept f b a (X it) W) by (unfold acc; rewrite E; reflexivity).
  rewrite <- EX, <- EA.
  destruct (Nat.eq_dec it n) as [->|ne]; [rewrite hacc; reflexivity|].
  rewrite hrej by lia. apply IH; lia. }
apply K; lia.
Qed.
(** ... but gives up after 100 rejections and returns a rejected proposal. *)
Theorem C69_gives_up f b a gm mode draws :
  let X := fun i => dev12_proposal f b a gm (fst (fst (draws i))) (snd (fst (draws i))) in
  let acc := fun i => dev12_accept f b a (X i) (snd (draws i)) in
  (forall i, (i < 100)%nat -> acc i = false) -> dev12 f b a gm mode draws = X 99%nat + mode.
Proof.
intros X acc hrej. unfold dev12.
assert (K : forall fuel it last, (0 < fuel)%nat -> (it + fuel = 100)%nat ->
   dev12_loop f b a gm fuel mode last draws it = X 99%nat + mode).
{ induction fuel as [|fuel IH]; intros it last hp hfu; [lia|].
  simpl. destruct (draws it) as [[U V] W] eqn:E.
  assert (EX : X it = dev12_proposal f b a gm U V) by (unfold X; rewrite E; reflexivity).
  assert (EA : acc it = dev12_accept f b a (X it) W) by (unfold acc; rewrite E; reflexivity).
  rewrite <- EX, <- EA, hrej by lia.
  destruct fuel; [simpl; replace it with 99%nat by lia; reflexivity | apply IH; lia]. }
apply K; lia.
Qed.

(** exp(-x^4): all the hypotheses above hold, and there are draws for which the 100 proposals are rejected. *)
Example C46_instance_quartic : is_derive (quartic 1 0 0) 0 0.
Proof. replace 0 with (4 * 1 * 0 ^ 3 + 2 * 0 * 0 + 0) at 4 by ring. apply quartic_derive. Qed.
Example C46_instance_gamma : exists d, is_derive (quartic 0 (1 / 4) (1 / 2)) 1 d /\ 1 * d - (2 - 1) = 0.
Proof. eexists; split; [apply quartic_derive | field]. Qed.
Theorem C69_refuted :
  let log_f := log_f_quartic 1 0 0 0 in
  exists U V W, 0 < U < 1 /\ 0 < V < 1 /\ 0 < W < 1 /\
    dev12_accept log_f (-1) 1 (dev12_proposal log_f (-1) 1 None U V) W = false /\
    dev12 log_f (-1) 1 None 0 (fun _ => (U, V, W)) = dev12_proposal log_f (-1) 1 None U V.
Proof.
intro log_f.
assert (La0 : 0 < log_f 1 - log_f (2 * 1)) by (apply q_drop; try lra; apply C46_instance_quartic).
assert (Lb0 : 0 < log_f (-1) - log_f (2 * -1)) by (apply q_drop; try lra; apply C46_instance_quartic).
pose proof (masses_pos log_f (-1) 1 None ltac:(lra) ltac:(lra) I La0 Lb0) as (p1 & p2 & p3 & p4 & p5).
set (m1 := (1 - -1) * exp (log_f 0)) in *. set (m2 := 1 * exp (log_f 1)) in *.
set (m3 := - -1 * exp (log_f (-1))) in *. set (m4 := 1 / (log_f 1 - log_f (2 * 1)) * exp (log_f (2 * 1))) in *.
set (m5 := - -1 / (log_f (-1) - log_f (2 * -1)) * exp (log_f (2 * -1)) * (1 - 0)) in *.
assert (A : dev12_accept log_f (-1) 1 (1 / 2) (19 / 20) = false).
{ unfold dev12_accept, log_h. 
  destruct (Rlt_dec (1 / 2) (2 * -1)); [lra|]. destruct (Rlt_dec (1 / 2) (-1)); [lra|].
  destruct (Rlt_dec (1 / 2) 1); [|lra].
  destruct (Rle_dec (ln (19 / 20)) (log_f (1 / 2) - log_f 0)) as [h|]; [|reflexivity]. exfalso.
  assert (E : log_f (1 / 2) - log_f 0 = - (1 / 16)) by (unfold log_f, log_f_quartic, quartic; field).
  rewrite E in h. pose proof (ln_ge (19 / 20) ltac:(lra)). 
  replace (/ (19 / 20)) with (20 / 19) in H by field. lra. }
exists (3 / 4), (m1 / (m1 + m2 + m3 + m4 + m5)), (19 / 20).
assert (hV : 0 < m1 / (m1 + m2 + m3 + m4 + m5) < 1).
{ split; [apply Rdiv_lt_0_compat; lra|]. apply (Rmult_lt_reg_r (m1 + m2 + m3 + m4 + m5)); [lra|].
  unfold Rdiv; rewrite Rmult_assoc, Rinv_l; lra. }
assert (P : dev12_proposal log_f (-1) 1 None (3 / 4) (m1 / (m1 + m2 + m3 + m4 + m5)) = 1 / 2).
{ rewrite (proposal_region log_f (-1) 1 None ltac:(lra) ltac:(lra) I La0 Lb0 (3 / 4) _ hV).
  fold m1 m2 m3 m4 m5. destruct (Rle_dec _ _) as [|n]; [field | exfalso; apply n; lra]. }
repeat split; try lra.
- rewrite P; exact A.
- rewrite (C69_gives_up log_f (-1) 1 None 0 (fun _ => (3 / 4, m1 / (m1 + m2 + m3 + m4 + m5), 19 / 20))).
  + simpl. ring.
  + intros i _. simpl. rewrite P; exact A.
Qed.
