(** * UtilsModel: model of the argument checks of dppy/utils.py (l.108-227).

    Python arrays of shape (m, n) are matrices ['M_(m, n)], one dimensional arrays are sequences, [None] is [None].
    A check returns its argument unchanged or raises: the result type is [A + exn]. *)
From mathcomp Require Import all_ssreflect all_algebra.
From Verif Require Import Prob.
Set Implicit Arguments. Unset Strict Implicit. Unset Printing Implicit Defensive.
Import Order.Theory GRing.Theory Num.Theory.
Local Open Scope ring_scope.

Section Utils.
Variable R : rcfType.

(** numpy's default tolerances, and [np.isclose(a, b)]: |a - b| <= atol + rtol * |b| (numpy). *)
Definition atol : R := (10 ^ 8)%:R^-1.
Definition rtol : R := (10 ^ 5)%:R^-1.
Definition isclose (a b : R) : bool := `|a - b| <= atol + rtol * `|b|.

(** Optional argument: None is passed through (l.110, l.123, l.139, l.159, l.176, l.192, l.203, l.214). *)
Definition checked A (test : A -> bool) (a : option A) : option A + exn :=
  if a is Some x then (if test x then inl (Some x) else inr ValueError) else inl None.

(** is_square (l.108-117) *)
Definition is_square m n (a : option 'M[R]_(m, n)) := checked (fun _ => m == n) a.

(** Entry [array[i, j]] (0 outside the array: never read by the callers below). *)
Definition entry m n (A : 'M[R]_(m, n)) (i j : nat) : R :=
  if insub i is Some i' then if insub j is Some j' then A i' j' else 0 else 0.

(** is_symmetric (l.120-133): square, and the leading block of at most 20 rows is close to its transpose. *)
Definition is_symmetric m n (a : option 'M[R]_(m, n)) :=
  checked (fun M => (m == n) && all (fun i => all (fun j => isclose (entry M j i) (entry M i j)) (iota 0 (minn 20 m)))
                                    (iota 0 (minn 20 m))) a.

(** is_projection (l.136-153) with col_idx = None: square, and for each of the first at most 20 columns the squared
    norm of the column is close to the diagonal entry. *)
Definition is_projection m n (a : option 'M[R]_(m, n)) :=
  checked (fun M => (m == n) && all (fun j => isclose (\sum_(i < m) entry M i j * entry M i j) (entry M j j))
                                    (iota 0 (minn 20 m))) a.

(** is_orthonormal_columns (l.156-170) with col_idx = None: Gram matrix of the first at most 5 columns.
    The array is given by its columns. *)
Definition is_orthonormal_columns N (a : option (seq 'cV[R]_N)) :=
  checked (fun U => all (fun i => all (fun j => isclose (\sum_(k < N) (nth (0 : 'cV[R]_N) U i) k 0 * (nth (0 : 'cV[R]_N) U j) k 0) (i == j)%:R)
                                      (iota 0 (minn 5 (size U)))) (iota 0 (minn 5 (size U)))) a.

(** tol = 1e-8 of l.173, l.189, l.200 *)
Definition tol8 : R := (10 ^ 8)%:R^-1.

(** is_equal_to_O_or_1 (l.173-186) *)
Definition is_equal_to_O_or_1 (a : option (seq R)) :=
  checked (all (fun x => (`|x| <= tol8) (+) (`|1 - x| <= tol8))) a.

(** is_in_01 (l.189-197) *)
Definition is_in_01 (a : option (seq R)) := checked (all (fun x => (- tol8 <= x) && (x <= 1 + tol8))) a.

(** is_geq_0 (l.200-208) *)
Definition is_geq_0 (a : option (seq R)) := checked (all (fun x => - tol8 <= x)) a.

(** is_full_row_rank (l.211-227); numpy's matrix_rank is modelled by the exact rank. *)
Definition is_full_row_rank N (a : option {d : nat & 'M[R]_(d, N)}) :=
  checked (fun A : {d : nat & 'M[R]_(d, N)} => (tag A <= N)%N && (\rank (tagged A) == tag A)) a.

End Utils.
