(** * Dev12Model: model of the log-concave rejection sampler of sampler_exact_convex_quartic
    (dppy/beta_ensemble_polynomial_potential_core.py l.171-310) over the real numbers of the standard library.

    The uniform draws U, V, W of an iteration are arguments (positive, see the theorems: [np.log(0)] is not modelled).  The
    numerical root finding (find_mode_*, find_*_b_*, l.27-128) is not modelled: the mode, [b] and [a] are arguments and the
    theorems state which equations they are assumed to satisfy. *)
From Coq Require Import Reals List Lra.
Import ListNotations.
Open Scope R_scope.

(** log_f for exp(-(alpha x^4 + beta x^2 + gamma x)) (l.202-203) *)
Definition quartic (al be ga x : R) : R := al * x ^ 4 + be * x ^ 2 + ga * x.
Definition log_f_quartic (al be ga mode x : R) : R := - quartic al be ga (x + mode).
(** log_f for x^(shape-1) exp(-(beta x^2 + gamma x)) (l.227-228) *)
Definition log_f_gamma (shape be ga mode x : R) : R := (shape - 1) * ln (x + mode) - quartic 0 be ga (x + mode).

Section Dev12.
Variables (log_f : R -> R) (b a : R).
(** [Some mode] in the gamma case, [None] otherwise (shape is None) *)
Variable gamma_mode : option R.

Let abs_b := Rabs b.                                                              (* l.233 *)
Let log_f_b_2b := log_f b - log_f (2 * b).                                        (* l.235-237 *)
Let log_f_a_2a := log_f a - log_f (2 * a).

(** the envelope (l.240-250) *)
Definition log_h (x : R) : R :=
  if Rlt_dec x (2 * b) then (b - x) * (log_f_b_2b / b) + log_f b
  else if Rlt_dec x b then log_f b
  else if Rlt_dec x a then log_f 0
  else if Rlt_dec x (2 * a) then log_f a
  else (a - x) * (log_f_a_2a / a) + log_f a.

(** a_lse, b_lse, trunc (l.259-267) *)
Definition a_lse : list R :=
  [log_f 0; log_f a; log_f b; log_f (2 * a); log_f (2 * b)] ++
  match gamma_mode with Some mode => [log_f b + (1 + mode / b) * log_f_b_2b] | None => [] end.
Definition b_lse : list R :=
  [a + abs_b; a; abs_b; a / log_f_a_2a; abs_b / log_f_b_2b] ++
  match gamma_mode with Some _ => [- abs_b / log_f_b_2b] | None => [] end.

(** scipy.special.logsumexp(a=.., b=..) *)
Fixpoint wsum (la lb : list R) : R :=
  match la, lb with x :: la', w :: lb' => w * exp x + wsum la' lb' | _, _ => 0 end.
Definition logsumexp (la lb : list R) : R := ln (wsum la lb).
Definition lse (k : nat) : R := logsumexp (firstn k a_lse) (firstn k b_lse).
Definition log_Z_h : R := logsumexp a_lse b_lse.                                  (* l.269 *)

(** the proposal (l.274-302) *)
Definition dev12_proposal (U V : R) : R :=
  let log_V := ln V + log_Z_h in                                                  (* l.275 *)
  if Rle_dec log_V (lse 1) then b + (a - b) * U                                   (* l.281-284 *)
  else if Rle_dec log_V (lse 2) then a + a * U                                    (* l.285-288 *)
  else if Rle_dec log_V (lse 3) then b + b * U                                    (* l.289-292 *)
  else if Rle_dec log_V (lse 4) then
    let mu := a / log_f_a_2a in 2 * a - mu * ln U                                 (* l.293-297 *)
  else
    let mu := abs_b / log_f_b_2b in                                               (* l.298-302 *)
    let e := match gamma_mode with Some mode => exp (- (mode + 2 * b) / mu) | None => 0 end in
    2 * b + mu * ln (1 - U * (1 - e)).

Definition dev12_accept (X W : R) : bool := if Rle_dec (ln W) (log_f X - log_h X) then true else false.   (* l.305 *)

(** the loop (l.271-310): at most [fuel] iterations; if none is accepted the last proposal is returned *)
Fixpoint dev12_loop (fuel : nat) (mode last : R) (draws : nat -> R * R * R) (it : nat) : R :=
  match fuel with
  | O => last + mode
  | S fuel' =>
      let '(U, V, W) := draws it in
      let X := dev12_proposal U V in
      if dev12_accept X W then X + mode else dev12_loop fuel' mode X draws (S it)
  end.
Definition dev12 (mode : R) (draws : nat -> R * R * R) : R := dev12_loop 100 mode 0 draws 0.
End Dev12.
