(** * P_Proj: properties C01-C05 and C12 (projection DPPs).

    [isproj K] : K is real symmetric with K K = K.  [pm K ys] is the determinant of the submatrix of K indexed by the
    list ys, [pmS K S] by the set S (Minor.v); [Pr m Q] is the probability that the program returns a value satisfying Q;
    [total m]: it returns normally with probability 1; [possible m (inl X)]: X is returned along positive-probability
    branches; [possible m (inr e)]: exception e is. *)
From Coq Require Import String.
From mathcomp Require Import all_ssreflect all_algebra.
From mathcomp.algebra_tactics Require Import ring.
From Verif Require Import Prob Minor Chain ChainCons ExactModel ProjGS ProjEig ProjKuTa ProjSchur ProjChol ProjAll QRex.
Set Implicit Arguments. Unset Strict Implicit. Unset Printing Implicit Defensive.
Import Order.Theory GRing.Theory Num.Theory.
Local Open Scope ring_scope.

Section Kernel.
Variables (R : rcfType) (N : nat) (K : 'M[R]_N).
Hypothesis P : isproj K.

(** ** C01: mode 'GS' *)
Theorem C01_GS_marginals (T : {set 'I_N}) :
  Pr (proj_dpp_sampler_kernel K "GS" None) (fun X => T \subset set_of N X) = pmS K T.
Proof. exact: (kernel_marginal (or_introl erefl)). Qed.

Theorem C01_GS_ordered_law size (ys : seq 'I_N) : size_ok size (\rank K) ->
  Pr (proj_dpp_sampler_kernel K "GS" size) (fun X => X == [seq val y | y <- ys]) =
  if seq.size ys == (if size is Some k then k else \rank K) then pm K ys / (\rank K ^_ seq.size ys)%:R else 0.
Proof. exact: (kernel_ordered (or_introl erefl)). Qed.

Theorem C01_GS_set_law size (S : {set 'I_N}) : size_ok size (\rank K) ->
  Pr (proj_dpp_sampler_kernel K "GS" size) (fun X => set_of N X == S) =
  if #|S| == (if size is Some k then k else \rank K) then pmS K S / 'C(\rank K, #|S|)%:R else 0.
Proof. exact: (kernel_set (or_introl erefl)). Qed.

Theorem C01_GS_never_fails size : size_ok size (\rank K) ->
  total (proj_dpp_sampler_kernel K "GS" size) /\ forall e, ~ possible (proj_dpp_sampler_kernel K "GS" size) (inr e).
Proof.
move=> sz; have t : total (proj_dpp_sampler_kernel K "GS" size) by exact: (kernel_total (or_introl erefl)).
by split=> // e; exact: total_no_raise.
Qed.

Theorem C01_GS_valid_items size X : size_ok size (\rank K) ->
  possible (proj_dpp_sampler_kernel K "GS" size) (inl X) ->
  [/\ uniq X, all (fun x => (x < N)%N) X & seq.size X = (if size is Some k then k else \rank K)].
Proof. exact: (kernel_valid (or_introl erefl)). Qed.

(** ** C02: mode 'Chol' *)
Theorem C02_Chol_marginals (T : {set 'I_N}) :
  Pr (proj_dpp_sampler_kernel K "Chol" None) (fun X => T \subset set_of N X) = pmS K T.
Proof. exact: (kernel_marginal (or_intror (or_introl erefl))). Qed.

Theorem C02_Chol_ordered_law size (ys : seq 'I_N) : size_ok size (\rank K) ->
  Pr (proj_dpp_sampler_kernel K "Chol" size) (fun X => X == [seq val y | y <- ys]) =
  if seq.size ys == (if size is Some k then k else \rank K) then pm K ys / (\rank K ^_ seq.size ys)%:R else 0.
Proof. exact: (kernel_ordered (or_intror (or_introl erefl))). Qed.

Theorem C02_Chol_set_law size (S : {set 'I_N}) : size_ok size (\rank K) ->
  Pr (proj_dpp_sampler_kernel K "Chol" size) (fun X => set_of N X == S) =
  if #|S| == (if size is Some k then k else \rank K) then pmS K S / 'C(\rank K, #|S|)%:R else 0.
Proof. exact: (kernel_set (or_intror (or_introl erefl))). Qed.

Theorem C02_Chol_never_fails size : size_ok size (\rank K) ->
  total (proj_dpp_sampler_kernel K "Chol" size) /\ forall e, ~ possible (proj_dpp_sampler_kernel K "Chol" size) (inr e).
Proof.
move=> sz; have t : total (proj_dpp_sampler_kernel K "Chol" size) by exact: (kernel_total (or_intror (or_introl erefl))).
by split=> // e; exact: total_no_raise.
Qed.

Theorem C02_Chol_valid_items size X : size_ok size (\rank K) ->
  possible (proj_dpp_sampler_kernel K "Chol" size) (inl X) ->
  [/\ uniq X, all (fun x => (x < N)%N) X & seq.size X = (if size is Some k then k else \rank K)].
Proof. exact: (kernel_valid (or_intror (or_introl erefl))). Qed.

(** ** C03: mode 'Schur' *)
Theorem C03_Schur_marginals (T : {set 'I_N}) :
  Pr (proj_dpp_sampler_kernel K "Schur" None) (fun X => T \subset set_of N X) = pmS K T.
Proof. exact: (kernel_marginal (or_intror (or_intror erefl))). Qed.

Theorem C03_Schur_ordered_law size (ys : seq 'I_N) : size_ok size (\rank K) ->
  Pr (proj_dpp_sampler_kernel K "Schur" size) (fun X => X == [seq val y | y <- ys]) =
  if seq.size ys == (if size is Some k then k else \rank K) then pm K ys / (\rank K ^_ seq.size ys)%:R else 0.
Proof. exact: (kernel_ordered (or_intror (or_intror erefl))). Qed.

Theorem C03_Schur_set_law size (S : {set 'I_N}) : size_ok size (\rank K) ->
  Pr (proj_dpp_sampler_kernel K "Schur" size) (fun X => set_of N X == S) =
  if #|S| == (if size is Some k then k else \rank K) then pmS K S / 'C(\rank K, #|S|)%:R else 0.
Proof. exact: (kernel_set (or_intror (or_intror erefl))). Qed.

Theorem C03_Schur_never_fails size : size_ok size (\rank K) ->
  total (proj_dpp_sampler_kernel K "Schur" size) /\ forall e, ~ possible (proj_dpp_sampler_kernel K "Schur" size) (inr e).
Proof.
move=> sz; have t : total (proj_dpp_sampler_kernel K "Schur" size) by exact: (kernel_total (or_intror (or_intror erefl))).
by split=> // e; exact: total_no_raise.
Qed.

Theorem C03_Schur_valid_items size X : size_ok size (\rank K) ->
  possible (proj_dpp_sampler_kernel K "Schur" size) (inl X) ->
  [/\ uniq X, all (fun x => (x < N)%N) X & seq.size X = (if size is Some k then k else \rank K)].
Proof. exact: (kernel_valid (or_intror (or_intror erefl))). Qed.

(** ** C12: size check and mode dispatch *)
Theorem C12_size_too_large mode s : (\rank K < s)%N -> proj_dpp_sampler_kernel K mode (Some s) = Raise ValueError.
Proof. exact: kernel_size_error. Qed.

Theorem C12_unknown_mode mode size : mode <> "GS"%string -> mode <> "Chol"%string -> mode <> "Schur"%string ->
  proj_dpp_sampler_kernel K mode size = Raise ValueError.
Proof. by move=> h1 h2 h3; apply: kernel_mode_error => -[|[|]]. Qed.

Theorem C12_kernel_succeeds_iff mode size :
  (exists X, possible (proj_dpp_sampler_kernel K mode size) (inl X)) <->
  (mode = "GS"%string \/ mode = "Chol"%string \/ mode = "Schur"%string) /\ size_ok size (\rank K).
Proof. exact: kernel_succeeds_iff. Qed.
End Kernel.

Section Eig.
Variables (R : rcfType) (N r : nat) (V : 'M[R]_(N, r)).
Hypothesis oV : V^T *m V = 1%:M.
Variable qr : forall r : nat, 'M[R]_(N, r) -> 'M[R]_(N, r).
Hypothesis qrP : qr_contract qr.

(** ** C04: mode 'GS' *)
Theorem C04_GS_marginals (T : {set 'I_N}) :
  Pr (proj_dpp_sampler_eig qr V "GS" None) (fun X => T \subset items X) = pmS (V *m V^T) T.
Proof. exact: (eig_marginal qrP oV (or_introl erefl)). Qed.

Theorem C04_GS_ordered_law size (ys : seq 'I_N) : size_ok size r ->
  Pr (proj_dpp_sampler_eig qr V "GS" size) (fun X => X == ys) =
  if seq.size ys == (if size is Some k then k else r) then pm (V *m V^T) ys / (r ^_ seq.size ys)%:R else 0.
Proof. exact: (eig_ordered qrP oV (or_introl erefl)). Qed.

Theorem C04_GS_set_law size (S : {set 'I_N}) : size_ok size r ->
  Pr (proj_dpp_sampler_eig qr V "GS" size) (fun X => items X == S) =
  if #|S| == (if size is Some k then k else r) then pmS (V *m V^T) S / 'C(r, #|S|)%:R else 0.
Proof. exact: (eig_set qrP oV (or_introl erefl)). Qed.

Theorem C04_GS_never_fails size : size_ok size r ->
  total (proj_dpp_sampler_eig qr V "GS" size) /\ forall e, ~ possible (proj_dpp_sampler_eig qr V "GS" size) (inr e).
Proof.
move=> sz; have t : total (proj_dpp_sampler_eig qr V "GS" size) by exact: (eig_total qrP oV (or_introl erefl)).
by split=> // e; exact: total_no_raise.
Qed.

Theorem C04_GS_valid_items size X : size_ok size r ->
  possible (proj_dpp_sampler_eig qr V "GS" size) (inl X) -> uniq X /\ seq.size X = (if size is Some k then k else r).
Proof. exact: (eig_valid qrP oV (or_introl erefl)). Qed.

(** ** C04: mode 'GS_bis' *)
Theorem C04_GS_bis_marginals (T : {set 'I_N}) :
  Pr (proj_dpp_sampler_eig qr V "GS_bis" None) (fun X => T \subset items X) = pmS (V *m V^T) T.
Proof. exact: (eig_marginal qrP oV (or_intror (or_introl erefl))). Qed.

Theorem C04_GS_bis_ordered_law size (ys : seq 'I_N) : size_ok size r ->
  Pr (proj_dpp_sampler_eig qr V "GS_bis" size) (fun X => X == ys) =
  if seq.size ys == (if size is Some k then k else r) then pm (V *m V^T) ys / (r ^_ seq.size ys)%:R else 0.
Proof. exact: (eig_ordered qrP oV (or_intror (or_introl erefl))). Qed.

Theorem C04_GS_bis_set_law size (S : {set 'I_N}) : size_ok size r ->
  Pr (proj_dpp_sampler_eig qr V "GS_bis" size) (fun X => items X == S) =
  if #|S| == (if size is Some k then k else r) then pmS (V *m V^T) S / 'C(r, #|S|)%:R else 0.
Proof. exact: (eig_set qrP oV (or_intror (or_introl erefl))). Qed.

Theorem C04_GS_bis_never_fails size : size_ok size r ->
  total (proj_dpp_sampler_eig qr V "GS_bis" size) /\ forall e, ~ possible (proj_dpp_sampler_eig qr V "GS_bis" size) (inr e).
Proof.
move=> sz; have t : total (proj_dpp_sampler_eig qr V "GS_bis" size) by exact: (eig_total qrP oV (or_intror (or_introl erefl))).
by split=> // e; exact: total_no_raise.
Qed.

Theorem C04_GS_bis_valid_items size X : size_ok size r ->
  possible (proj_dpp_sampler_eig qr V "GS_bis" size) (inl X) -> uniq X /\ seq.size X = (if size is Some k then k else r).
Proof. exact: (eig_valid qrP oV (or_intror (or_introl erefl))). Qed.

(** ** C05: mode 'KuTa12' *)
Theorem C05_KuTa12_marginals (T : {set 'I_N}) :
  Pr (proj_dpp_sampler_eig qr V "KuTa12" None) (fun X => T \subset items X) = pmS (V *m V^T) T.
Proof. exact: (eig_marginal qrP oV (or_intror (or_intror erefl))). Qed.

Theorem C05_KuTa12_ordered_law size (ys : seq 'I_N) : size_ok size r ->
  Pr (proj_dpp_sampler_eig qr V "KuTa12" size) (fun X => X == ys) =
  if seq.size ys == (if size is Some k then k else r) then pm (V *m V^T) ys / (r ^_ seq.size ys)%:R else 0.
Proof. exact: (eig_ordered qrP oV (or_intror (or_intror erefl))). Qed.

Theorem C05_KuTa12_set_law size (S : {set 'I_N}) : size_ok size r ->
  Pr (proj_dpp_sampler_eig qr V "KuTa12" size) (fun X => items X == S) =
  if #|S| == (if size is Some k then k else r) then pmS (V *m V^T) S / 'C(r, #|S|)%:R else 0.
Proof. exact: (eig_set qrP oV (or_intror (or_intror erefl))). Qed.

Theorem C05_KuTa12_never_fails size : size_ok size r ->
  total (proj_dpp_sampler_eig qr V "KuTa12" size) /\ forall e, ~ possible (proj_dpp_sampler_eig qr V "KuTa12" size) (inr e).
Proof.
move=> sz; have t : total (proj_dpp_sampler_eig qr V "KuTa12" size) by exact: (eig_total qrP oV (or_intror (or_intror erefl))).
by split=> // e; exact: total_no_raise.
Qed.

Theorem C05_KuTa12_valid_items size X : size_ok size r ->
  possible (proj_dpp_sampler_eig qr V "KuTa12" size) (inl X) -> uniq X /\ seq.size X = (if size is Some k then k else r).
Proof. exact: (eig_valid qrP oV (or_intror (or_intror erefl))). Qed.

Theorem C12_eig_unknown_mode mode size : (0 < r)%N ->
  mode <> "GS"%string -> mode <> "GS_bis"%string -> mode <> "KuTa12"%string ->
  proj_dpp_sampler_eig qr V mode size = Raise ValueError.
Proof. by move=> r0 h1 h2 h3; apply: eig_mode_error => // -[|[|]]. Qed.
End Eig.

(** ** Non-vacuity: a concrete projection of rank 2 on 3 items, I - J/3, and an orthonormal 2-frame. *)
Section Examples.
Variable R : rcfType.
Definition Kex : 'M[R]_3 := \matrix_(i, j) ((i == j)%:R - 3%:R^-1).

Lemma Kex_proj : isproj Kex.
Proof.
split; first by apply/matrixP => i j; rewrite !mxE eq_sym.
have h3 : 3%:R != 0 :> R by rewrite pnatr_eq0.
apply/matrixP => i j; rewrite !mxE !big_ord_recl big_ord0 !mxE.
by move: i j => [[|[|[|i]]] hi] // [[|[|[|j]]] hj] //; rewrite -!val_eqE /=; fixeq; field.
Qed.

Lemma Kex_rank : \rank Kex = 2%N.
Proof.
have := proj_trace_rank Kex_proj; rewrite /mxtrace !big_ord_recl big_ord0 !mxE /=.
have h3 : 3%:R != 0 :> R by rewrite pnatr_eq0.
move=> h; apply/eqP; rewrite -(eqr_nat R) -h; apply/eqP; by fixeq; field.
Qed.

(** the sampler returns the ordered sample (0, 1) with probability 1/6 *)
Example C01_instance : Pr (proj_dpp_sampler_kernel Kex "GS" None) (fun X => X == [:: 0%N; 1%N]) = 6%:R^-1.
Proof.
pose i0 : 'I_3 := @Ordinal 3 0 isT; pose i1 : 'I_3 := @Ordinal 3 1 isT.
have := C01_GS_ordered_law Kex_proj [:: i0; i1] (size := None) isT.
rewrite Kex_rank /= (_ : 2 ^_ 2 = 2)%N // => ->.
have h3 : 3%:R != 0 :> R by rewrite pnatr_eq0.
have h6 : 6%:R != 0 :> R by rewrite pnatr_eq0.
rewrite pm_cons ?pm1 !mxE ?eqxx /=; rewrite -?val_eqE /=.
  by fixeq; field.
by rewrite subr_eq0 eq_sym invr_eq1 pnatr_eq1.
Qed.

Definition Vex : 'M[R]_(3, 2) := \matrix_(i, j) (val i == val j)%:R.
Lemma Vex_ortho : Vex^T *m Vex = 1%:M.
Proof.
apply/matrixP => i j; rewrite !mxE !big_ord_recl big_ord0 !mxE.
by move: i j => [[|[|i]] hi] // [[|[|j]] hj] //; rewrite -!val_eqE /= ?mul0r ?mulr0 ?mul1r ?addr0 ?add0r.
Qed.
Example C05_instance :
  Pr (proj_dpp_sampler_eig (@gs_qr R 3) Vex "KuTa12" None) (fun X => setT \subset items X) = pmS (Vex *m Vex^T) setT.
Proof. exact: (C05_KuTa12_marginals Vex_ortho (@gs_qr_contract R 3)). Qed.
End Examples.

Print Assumptions C01_GS_marginals.
Print Assumptions C02_Chol_ordered_law.
Print Assumptions C03_Schur_ordered_law.
Print Assumptions C04_GS_bis_set_law.
Print Assumptions C05_KuTa12_marginals.
