(** * BlessModel: model of dppy/bless.py: estimate_rls_bless, reduce_lambda, bless, bless_size.

    Data points are elements of an abstract type [T] (the rows of X_data), the kernel eval_L is a function [k] on pairs of
    points ([eval_L(A, B)] is the matrix of its values, [evaluate_L_diagonal] the list of the [k x x]).
    Numbers are exact: the inverse square root computed from a SVD and the filter of the singular values that are zero up to
    rounding (utils.py l.230-265) are replaced by the inverse of the matrix.  [rng.rand(n) <= p] is a list of independent
    Bernoulli draws.  [np.geomspace] is not modelled: the list of the regularisations is an argument.
    Progress bars are omitted. *)
From mathcomp Require Import all_ssreflect all_algebra.
From Verif Require Import Prob.
Set Implicit Arguments. Unset Strict Implicit. Unset Printing Implicit Defensive.
Import Order.Theory GRing.Theory Num.Theory.
Local Open Scope ring_scope.

Section Model.
Variables (R : rcfType) (T : Type) (k : T -> T -> R).
Notation prog := (prog R).

(** CentersDictionary (l.32-33) *)
Record dict := Dict { d_idx : seq nat; d_X : seq T; d_probs : seq R; d_lam : R; d_over : R }.

(** eval_L(A, B) *)
Definition eval_L (A B : seq T) : 'M[R]_(size A, size B) :=
  \matrix_(i, j) k (tnth (in_tuple A) i) (tnth (in_tuple B) j).

(** the estimate of one point (l.48-69): (k(x,x) - k_D(x)^T (K_DD + lam diag(probs))^-1 k_D(x)) / lam *)
Definition rls_estimate (D : dict) (lam_new : R) (x : T) : R :=
  let K_DU := eval_L (d_X D) [:: x] in                                            (* l.51 *)
  let M := eval_L (d_X D) (d_X D) + lam_new *: diag_mx (\row_i (d_probs D)`_i) in (* l.59 *)
  (k x x - (K_DU^T *m invmx M *m K_DU) 0 0) / lam_new.                            (* l.60-69 *)

(** estimate_rls_bless (l.36-75) *)
Definition estimate_rls_bless (D : dict) (X : seq T) (lam_new : R) : seq R + exn :=
  let rls := [seq rls_estimate D lam_new x | x <- X] in
  if has (fun r => r < 0) rls then inr ValueError else inl rls.                   (* l.71-73 *)

(** rng.rand(n) <= p *)
Fixpoint rand_le (p : seq R) : prog (seq bool) :=
  if p is a :: p' then Flip a (fun b => bind (rand_le p') (fun bs => Ret (b :: bs))) else Ret [::].

(** reduce_lambda (l.78-151) *)
Definition reduce_lambda (X_data : seq T) (D : dict) (lam_new : R) (over : option R) : prog dict :=
  let n := size X_data in
  let q := odflt (d_over D) over in                                               (* l.99-100 *)
  if d_lam D / lam_new < 1 then Raise ValueError else                             (* l.102-105 *)
  let ucb := [seq Num.min (q * k x x / (k x x + lam_new)) 1 | x <- X_data] in     (* l.107-111 *)
  bind (rand_le ucb) (fun U =>                                                    (* l.113 *)
  if count id U == 0%N then Raise ValueError else                                 (* l.114-118 *)
  let X_U := mask U X_data in                                                     (* l.120 *)
  let ucb_U := mask U ucb in
  match estimate_rls_bless D X_U lam_new with                                     (* l.122 *)
  | inr e => Raise e
  | inl rls =>
    let probs := [seq Num.min (q * ru.1) ru.2 | ru <- zip rls ucb_U] in           (* l.125 *)
    let reject := [seq pu.1 / pu.2 | pu <- zip probs ucb_U] in                    (* l.126 *)
    if has (fun p => p < 0) probs then Raise ValueError else                      (* l.128-130 *)
    let deff := (\sum_(p <- reject) p) / q in                                     (* l.132 *)
    if q * deff < 1 then Raise ValueError else                                    (* l.134-136 *)
    bind (rand_le reject) (fun selected =>                                        (* l.138 *)
    if count id selected == 0%N then Raise ValueError else                        (* l.139-142 *)
    Ret (Dict (mask selected (mask U (iota 0 n))) (mask selected X_U) (mask selected probs) lam_new q))  (* l.144-151 *)
  end).

(** the first dictionary (bless l.227, 234-244; bless_size l.358-373): point 0 is always selected, with probability q * 1. *)
Definition ucb_init (X_data : seq T) (q lam : R) : seq R := [seq q * k x x / (k x x + lam) | x <- X_data].
Definition first_dict (X_data : seq T) (q lam : R) : prog dict :=
  bind (rand_le (ucb_init X_data q lam)) (fun sel =>
  let sel := if sel is _ :: sel' then true :: sel' else sel in
  let ucb := if ucb_init X_data q lam is _ :: u then q * 1 :: u else [::] in
  if X_data is [::] then Raise IndexError else                                    (* selected_init[0] *)
  Ret (Dict (mask sel (iota 0 (size X_data))) (mask sel X_data) (mask sel ucb) lam q)).

(** the choice of lam_init (l.226-230); [None]: not finished after [fuel] iterations *)
Fixpoint lam_init_loop (fuel : nat) (X_data : seq T) (q lam : R) : option R :=
  if \sum_(u <- ucb_init X_data q lam) u <= 10%:R then
    (if fuel is fuel'.+1 then lam_init_loop fuel' X_data q (lam / (5%:R / 4%:R)) else None)
  else Some lam.

(** the loop over the regularisations (l.251-267), popped from the end of the list *)
Fixpoint bless_loop (X_data : seq T) (D : dict) (lams : seq R) : prog dict :=
  if lams is lam_new :: lams' then bind (reduce_lambda X_data D lam_new None) (fun D' => bless_loop X_data D' lams')
  else Ret D.

(** bless (l.154-269); [fuel] bounds the loop of lam_init, [geomspace lam_init] is the list of the regularisations.
    [None]: the loop of lam_init has not finished. *)
Definition bless (fuel : nat) (geomspace : R -> seq R) (X_data : seq T) (q : R) : option (prog dict) :=
  if lam_init_loop fuel X_data q (size X_data)%:R is Some lam_init then
    Some (bind (first_dict X_data q lam_init) (fun D =>                           (* l.234-244 *)
          match rev (geomspace lam_init) with                                     (* l.246 *)
          | [::] => Raise IndexError                                              (* l.249 *)
          | _ :: lams => bless_loop X_data D lams                                 (* l.252-269 *)
          end))
  else None.

(** the loop of bless_size (l.379-413): lam_max, lam_min and the dictionary *)
Fixpoint bless_size_loop (X_data : seq T) (size_final : R) (D : dict) (lam_max lam_min lam_new deff_new : R) (lams : seq R) :
    prog (R * R * dict) :=
  if lams is lam :: lams' then
    let lam_old := lam_new in let deff_old := deff_new in                         (* l.381-382 *)
    bind (reduce_lambda X_data D lam None) (fun D' =>                             (* l.384-390 *)
    let deff := (size (d_idx D'))%:R / d_over D' in                               (* l.391-392 *)
    let lam_max := if (deff_old <= (size_final - 1) / 2%:R) && ((size_final - 1) / 2%:R <= deff)
                   then lam_old else lam_max in                                   (* l.395-396 *)
    if 2%:R * (size_final + 1) <= deff then Ret (lam_max, lam, D')                (* l.398-400 *)
    else bless_size_loop X_data size_final D' lam_max lam_min lam deff lams')
  else Ret (lam_max, lam_min, D).

(** bless_size (l.272-413) *)
Definition bless_size (geomspace : R -> seq R) (X_data : seq T) (size_final q : R) : prog (R * R * dict) :=
  let lam_init := (\sum_(x <- X_data) k x x) / (size_final - 1) in                (* l.346-349 *)
  bind (first_dict X_data q lam_init) (fun D =>                                   (* l.358-373 *)
  match rev (geomspace lam_init) with
  | [::] => Raise IndexError                                                      (* l.376 *)
  | lam_new :: lams => bless_size_loop X_data size_final D lam_init 1 lam_new (size_final - 1) lams   (* l.351-352, 377 *)
  end).
End Model.
