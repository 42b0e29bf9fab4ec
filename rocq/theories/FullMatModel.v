(** * FullMatModel: model of the full matrix samplers of dppy/random_matrices.py.

    Entries are exact complex numbers (real matrices are embedded).  The k-th call [rng.randn(m, n)] of a sampler is the
    oracle [randn k m n].  LAPACK routines are oracles; their contracts are hypotheses of the theorems. *)
From Coq Require Import String.
From mathcomp Require Import all_ssreflect all_algebra.
From mathcomp.real_closed Require Import complex.
From Verif Require Import Prob.
Set Implicit Arguments. Unset Strict Implicit. Unset Printing Implicit Defensive.
Import Order.Theory GRing.Theory Num.Theory.
Local Open Scope ring_scope.

Section Full.
Variable R : rcfType.
Notation C := (complex R).

(** [A.conj()], [A.conj().T], and [U + 1j * V] *)
Definition conjm m n (A : 'M[C]_(m, n)) : 'M[C]_(m, n) := \matrix_(i, j) conjc (A i j).
Definition adjm m n (A : 'M[C]_(m, n)) : 'M[C]_(n, m) := \matrix_(i, j) conjc (A j i).
Definition rmx m n (U : 'M[R]_(m, n)) : 'M[C]_(m, n) := \matrix_(i, j) Complex (U i j) 0.
Definition cmx m n (U V : 'M[R]_(m, n)) : 'M[C]_(m, n) := \matrix_(i, j) Complex (U i j) (V i j).

Variable randn : nat -> forall m n, 'M[R]_(m, n).
Definition crandn k m n : 'M[C]_(m, n) := cmx (randn k m n) (randn k.+1 m n).
(** [np.block([[X, Y], [-Y.conj(), X.conj()]])] (l.40, l.106, l.185-186, l.286) *)
Definition quat m n (X Y : 'M[C]_(m, n)) : 'M[C]_(m + m, n + n) := block_mx X Y (- conjm Y) (conjm X).

Variable eigvalsh : forall n, 'M[C]_n -> seq R.       (* scipy.linalg.eigvalsh *)
Variable eigvals : forall n, 'M[C]_n -> seq C.        (* scipy.linalg.eigvals *)
Variable eigvecsh : forall n, 'M[C]_n -> 'M[C]_n.     (* second component of scipy.linalg.eigh *)
Variable qr : forall n, 'M[C]_n -> 'M[C]_n * 'M[C]_n. (* scipy.linalg.qr *)

(** hermite_sampler_full (l.25-47) *)
Definition hermite_sampler_full (N : nat) (beta : R) : seq R + exn :=
  let fin n (A : 'M[C]_n) := inl [seq x / Num.sqrt 2%:R | x <- eigvalsh (A + adjm A)] in  (* l.47 *)
  if beta == 1 then fin N (rmx (randn 0 N N))                                             (* l.30 *)
  else if beta == 2%:R then fin N (crandn 0 N N)                                          (* l.33 *)
  else if beta == 4%:R then fin (N + N)%N (quat (crandn 0 N N) (crandn 2 N N))            (* l.36-40 *)
  else inr ValueError.                                                                    (* l.42 *)

(** laguerre_sampler_full (l.92-113) *)
Definition laguerre_sampler_full (M N : nat) (beta : R) : seq R + exn :=
  let fin n m (A : 'M[C]_(n, m)) := inl (eigvalsh (A *m adjm A)) in                       (* l.113 *)
  if beta == 1 then fin N M (rmx (randn 0 N M))
  else if beta == 2%:R then fin N M (crandn 0 N M)
  else if beta == 4%:R then fin (N + N)%N (M + M)%N (quat (crandn 0 N M) (crandn 2 N M))
  else inr ValueError.

(** jacobi_sampler_full (l.165-196); [la.inv] raises LinAlgError on a singular matrix *)
Definition jacobi_sampler_full (M_1 M_2 N : nat) (beta : R) : seq R + exn :=
  let fin n m1 m2 (X : 'M[C]_(n, m1)) (Y : 'M[C]_(n, m2)) :=
    let X_tmp := X *m adjm X in                                                           (* l.193 *)
    let Y_tmp := Y *m adjm Y in                                                           (* l.194 *)
    if X_tmp + Y_tmp \in unitmx
    then inl [seq complex.Re z | z <- eigvals (X_tmp *m invmx (X_tmp + Y_tmp))]           (* l.196 *)
    else inr LinAlgError in
  if beta == 1 then fin N M_1 M_2 (rmx (randn 0 N M_1)) (rmx (randn 1 N M_2))
  else if beta == 2%:R then fin N M_1 M_2 (crandn 0 N M_1) (crandn 2 N M_2)
  else if beta == 4%:R then
    fin (N + N)%N (M_1 + M_1)%N (M_2 + M_2)%N
        (quat (crandn 0 N M_1) (crandn 2 N M_1)) (quat (crandn 4 N M_2) (crandn 6 N M_2))
  else inr ValueError.

(** circular_sampler_full (l.263-320) *)
Definition circular_sampler_full (N : nat) (beta : R) (haar_mode : string) : seq C + exn :=
  if String.eqb haar_mode "Hermite" then                                                  (* l.273 *)
    let fin n (A : 'M[C]_n) := inl (eigvals (eigvecsh (A + adjm A))) in                   (* l.293, l.320 *)
    if beta == 1 then fin N (rmx (randn 0 N N))
    else if beta == 2%:R then fin N (crandn 0 N N)
    else if beta == 4%:R then fin (N + N)%N (quat (crandn 0 N N) (crandn 2 N N))
    else inr ValueError
  else if String.eqb haar_mode "QR" then                                                  (* l.295 *)
    let fin n (A : 'M[C]_n) :=
      let: (Q, R_) := qr A in                                                             (* l.310 *)
      inl (eigvals (\matrix_(i < n, j < n) (Q i j * (R_ j j / `|R_ j j|)))) in            (* l.311-312, l.320 *)
    if beta == 1 then fin N (rmx (randn 0 N N))
    else if beta == 2%:R then fin N (crandn 0 N N)
    else inr ValueError
  else inr ValueError.                                                                    (* l.314 *)

(** ginibre_sampler_full (l.370-377) *)
Definition ginibre_sampler_full (N : nat) : seq C :=
  [seq z / Complex (Num.sqrt 2%:R) 0 | z <- eigvals (crandn 0 N N)].
End Full.
