(** * OpeModel: model of dppy/multivariate_jacobi_ope.py

    Modelled: compute_ordering (l.636-671), compute_degrees_1D_polynomials (l.935-943), the acceptance loop of
    MultivariateJacobiOPE.sample (l.425-451) for an arbitrary proposal and arbitrary feature vectors
    (eval_multiD_polynomials), and the rejection loop of sample_chain_rule_proposal (l.336-361).
    Not modelled: the values of the Jacobi polynomials, of their norms and of the rejection bounds (special functions of
    scipy), the plots. *)
From mathcomp Require Import all_ssreflect all_algebra.
From Verif Require Import Prob McmcModel.
Set Implicit Arguments. Unset Strict Implicit. Unset Printing Implicit Defensive.
Import Order.Theory GRing.Theory Num.Theory.
Local Open Scope ring_scope.

(** itertools.product(l, repeat=d): tuples in lexicographic order *)
Fixpoint product_repeat (l : seq nat) (d : nat) : seq (seq nat) :=
  if d is d'.+1 then [seq x :: t | x <- l, t <- product_repeat l d'] else [:: [::]].

(** filter(lambda x: m in x, itt.product(range(m + 1), repeat=d)) (l.667-668) *)
Definition layer (d m : nat) : seq (seq nat) := [seq t <- product_repeat (iota 0 m.+1) d | m \in t].

(** ndarray.astype(np.int16) on a natural number: two's complement wrap-around.
    Simplification: numpy documents the out-of-range conversion of a float as platform dependent; this is what x86-64
    does for values below 2^31. *)
Definition int16 (z : nat) : int :=
  let r := (z %% 65536)%N in if (r < 32768)%N then r%:Z else r%:Z - 65536%:Z.

(** range(z + 1) *)
Definition py_range_succ (z : int) : seq nat := if z is Posz n then iota 0 n.+1 else [::].

(** compute_ordering (l.664-671): [fl] is np.floor(N**(1.0/d)) as computed in floating point *)
Definition compute_ordering (fl N d : nat) : seq (seq nat) :=
  let layer_max := int16 fl in                                                                   (* l.664 *)
  take N (flatten [seq layer d m | m <- py_range_succ layer_max]).                               (* l.666-671 *)

(** compute_degrees_1D_polynomials (l.935-943): the array degrees, as a function of row and column *)
Definition max_degrees (ordering : seq (seq nat)) (j : nat) : nat := \max_(t <- ordering) nth 0%N t j.   (* np.max(., axis=0), l.89 *)
Definition degrees_1D (ordering : seq (seq nat)) (i j : nat) : nat :=
  if (max_degrees ordering j < i)%N then 0%N else i.

Section Sampler.
Variables (R : rcfType) (X : Type) (N : nat).
Notation prog := (prog R).
Variables (feat : X -> 'rV[R]_N) (proposal : prog X).

Definition dotr (u v : 'rV[R]_N) : R := (u *m v^T) 0 0.

(** phi[n] -= phi[:n].dot(phi[n]).dot(phi[:n]) (l.440) *)
Definition residual (phi : seq 'rV[R]_N) (v : 'rV[R]_N) : 'rV[R]_N := v - \sum_(w <- phi) dotr w v *: w.

(** the inner loop over the trials (l.430-449): the accepted (or last proposed) point, its row of phi, and whether a
    proposal was accepted (a message is printed otherwise).  [prev]: last proposal; when nb_trials_max = 0 the message
    refers to the unbound variable trial. *)
Fixpoint trials (nb : nat) (phi : seq 'rV[R]_N) (prev : option (X * 'rV[R]_N)) : prog (X * 'rV[R]_N * bool) :=
  if nb is nb'.+1 then
    bind proposal (fun x =>                                                                      (* l.433 *)
      let v := feat x in                                                                         (* l.438 *)
      let K_xx := dotr v v in                                                                    (* l.439 *)
      let r := residual phi v in                                                                 (* l.440 *)
      let schur := dotr r r in                                                                   (* l.441 *)
      Flip (schur / K_xx) (fun acc =>                                                            (* l.444 *)
        if acc then Ret (x, (Num.sqrt schur)^-1 *: r, true)                                      (* l.446-447 *)
        else trials nb' phi (Some (x, r))))
  else if prev is Some xr then Ret (xr, false) else Raise UnboundLocalError.                   (* l.449 *)

(** the outer loop (l.428-449): the points, the rows of phi, and whether no failure message was printed *)
Fixpoint ope_loop (nb_trials_max n : nat) (sample : seq X) (phi : seq 'rV[R]_N) (ok : bool)
  : prog (seq X * seq 'rV[R]_N * bool) :=
  if n is n'.+1 then
    bind (trials nb_trials_max phi None) (fun r =>
      ope_loop nb_trials_max n' (rcons sample r.1.1) (rcons phi r.1.2) (ok && r.2))
  else Ret (sample, phi, ok).
Definition ope_sample (nb_trials_max : nat) : prog (seq X * seq 'rV[R]_N * bool) :=
  ope_loop nb_trials_max N [::] [::] true.
End Sampler.

(** sample_chain_rule_proposal (l.336-361): ind uniform, then at most nb_trials_max proposals x ~ w_eq, accepted when
    rand * bound_ind < target_ind(x), target_ind(x) = P_k(x)^2/||P_k||^2 * w(x)/w_eq(x) *)
Section Proposal.
Variables (R : rcfType) (X : Type) (N : nat).
Variables (draw_eq : prog R X) (target : nat -> X -> R) (bound : nat -> R).
Fixpoint proposal_trials (nb ind : nat) (prev : option X) : prog R (X * bool) :=
  if nb is nb'.+1 then
    bind draw_eq (fun x =>                                                                       (* l.346 *)
      Flip (target ind x / bound ind) (fun acc =>                                                (* l.356 *)
        if acc then Ret (x, true) else proposal_trials nb' ind (Some x)))
  else if prev is Some x then Ret (x, false) else Raise UnboundLocalError.                     (* l.359-361 *)
Definition sample_chain_rule_proposal (nb_trials_max : nat) : prog R (X * bool) :=
  unif (iota 0 N) (fun ind => proposal_trials nb_trials_max ind None).                           (* l.336 *)
End Proposal.
