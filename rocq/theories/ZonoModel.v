(** * ZonoModel: model of the zonotope sampler of dppy/mcmc_sampling.py (l.418-614).

    The linear programs solved by cvxopt/glpk are oracles, deterministic functions of their data; [None] stands for a
    problem without optimal solution (cvxopt then returns {'x': None}).  The directions [rng.randn(r, 1)] and the uniform
    numbers used to place x1 are oracles indexed by the iteration; the acceptance test is a [Flip].
    [time.time()] readings are an oracle, as in McmcModel.v.  Numbers are exact reals. *)
From mathcomp Require Import all_ssreflect all_algebra.
From Verif Require Import Prob McmcModel.
Set Implicit Arguments. Unset Strict Implicit. Unset Printing Implicit Defensive.
Import Order.Theory GRing.Theory Num.Theory.
Local Open Scope ring_scope.

Section Zono.
Variables (R : rcfType) (r N : nat).
Variable A_zono : 'M[R]_(r, N).
Variable eps : R.                                       (* 1e-5, default value of l.418 *)
Variable c : 'cV[R]_N.                                  (* lin_obj, l.499 *)

(** solvers.lp(c, G, h, A, x)['x'] (l.566, l.595): min c.y subject to A y = x, 0 <= y <= 1 *)
Variable lp_tile : 'cV[R]_r -> option 'cV[R]_N.
(** solvers.lp(s * c_mM, G_mM, h, [-d A], x)['x'][0] (l.588-589): min s * alpha subject to x + alpha d = A lambda,
    0 <= lambda <= 1; s is 1 or -1 *)
Variable lp_line : R -> 'cV[R]_r -> 'cV[R]_r -> option R.

(** extract_basis (l.418-448): np.where returns the indices in increasing order *)
Definition extract_basis (y : 'cV[R]_N) : seq 'I_N := [seq i <- enum 'I_N | (eps < y i 0) && (y i 0 < 1 - eps)].

(** A_zono[:, B] and its determinant (l.575, l.603) *)
Definition cols (B : seq 'I_N) : 'M[R]_r := \matrix_(i, j) nth 0 [seq A_zono i b | b <- B] j.
Definition det_tile (B : seq 'I_N) : R := \det (cols B).

(** The loop l.562-568; [fuel] bounds the number of rounds, [Running] is a loop that has not ended yet. *)
Inductive wres := Done of seq 'I_N | Failed of exn | Running.
Fixpoint init_tile (fuel : nat) (x0 : 'cV[R]_r) (B : seq 'I_N) : wres :=
  if size B == r then Done B
  else if fuel is f.+1 then
    match lp_tile x0 with
    | Some y => init_tile f x0 (extract_basis y)
    | None => Failed TypeError                          (* extract_basis(np.asarray(None)) *)
    end
  else Running.

Definition zstate := ('cV[R]_r * seq 'I_N * R)%type.    (* x0, B_x0, det_B_x0 *)

(** one iteration (l.581-608) *)
Definition zono_step (d : 'cV[R]_r) (u : R) (st : zstate) : prog R zstate :=
  let: (x0, B_x0, det_B_x0) := st in
  match lp_line 1 d x0, lp_line (-1) d x0 with          (* l.588-589 *)
  | Some alpha_m, Some alpha_M =>
      let x1 := x0 + (alpha_m + (alpha_M - alpha_m) * u) *: d in                 (* l.592 *)
      match lp_tile x1 with                             (* l.595 *)
      | Some y =>
          let B_x1 := extract_basis y in                (* l.597 *)
          if size B_x1 != r then Ret st               (* l.600-601 *)
          else
            let det_B_x1 := det_tile B_x1 in            (* l.603 *)
            Flip `|det_B_x1 / det_B_x0| (fun acc =>     (* l.604 *)
              Ret (if acc then (x1, B_x1, det_B_x1) else st))
      | None => Raise TypeError
      end
  | _, _ => Raise TypeError                         (* None[0] *)
  end.

(** the loop l.579-612; [ds it], [us it] are the draws of iteration [it] *)
Fixpoint zono_loop (ds : nat -> 'cV[R]_r) (us : nat -> R) (T_max : option R) (clock : nat -> R) (n it : nat)
    (st : zstate) (chain : seq (seq 'I_N)) : prog R (seq (seq 'I_N)) :=
  if n is n'.+1 then
    bind (zono_step (ds it) (us it) st) (fun st' =>
      let chain' := rcons chain st'.1.2 in
      if stops T_max clock it then Ret chain'
      else zono_loop ds us T_max clock n' it.+1 st' chain')
  else Ret chain.

(** zonotope_sampler (l.451-614) from the initial point [x0]; [None] when the initialisation loop is still running after
    [fuel] rounds.  The chain is a preallocated array of zeros with nb_iter rows (l.571). *)
Definition zonotope_sampler (fuel : nat) (x0 : 'cV[R]_r) ds us (nb_iter : nat) T_max clock
    : option (prog R (seq (seq nat))) :=
  match init_tile fuel x0 [::] with
  | Done B_x0 =>
      Some (if nb_iter == 0%N then Raise IndexError                          (* l.572 *)
            else bind (zono_loop ds us T_max clock nb_iter.-1 1 (x0, B_x0, det_tile B_x0) [:: B_x0]) (fun chain =>
              Ret ([seq [seq val i | i <- S] | S <- chain] ++ nseq (nb_iter - size chain) (nseq r 0%N))))
  | Failed x => Some (Raise x)
  | Running => None
  end.
End Zono.
