(** * ExoticModel: model of dppy/exotic_dpps_core.py (l.142-208) and of the classes CarriesProcess, DescentProcess,
      VirtualDescentProcess and PoissonizedPlancherel of dppy/exotic_dpps.py (l.124-334).

    Numpy integer vectors are sequences; the [sample] methods are modelled by the program that draws the element appended
    to list_of_samples (they return None).  Plots are not modelled. *)
From mathcomp Require Import all_ssreflect all_algebra.
From Verif Require Import Prob McmcModel.
Set Implicit Arguments. Unset Strict Implicit. Unset Printing Implicit Defensive.
Import Order.Theory GRing.Theory Num.Theory.
Local Open Scope ring_scope.

Section Draws.
Variable R : rcfType.
Notation prog := (prog R).

(** sigma[j], sigma[i] = sigma[i], sigma[j] (exotic_dpps_core.py l.158) *)
Definition swap_at (s : seq nat) (j i : nat) : seq nat :=
  set_nth 0%N (set_nth 0%N s j (nth 0%N s i)) i (nth 0%N s j).

(** uniform_permutation, the loop for i in range(N - 1, 0, -1) (l.154-158); rng.randint(0, i + 1) is uniform *)
Fixpoint shuffle (i : nat) (sigma : seq nat) : prog (seq nat) :=
  if i is i'.+1 then
    unif (iota 0 i.+1) (fun j =>                                                                 (* l.155 *)
      shuffle i' (if j == i then sigma else swap_at sigma j i))                                  (* l.156-158 *)
  else Ret sigma.

(** uniform_permutation (l.142-164) *)
Definition uniform_permutation (N : nat) : prog (seq nat) := shuffle N.-1 (iota 0 N).

(** np.where(b)[0] *)
Definition np_where (b : seq bool) : seq nat := [seq i <- iota 0 (size b) | nth false b i].

(** s[:-1] > s[1:] *)
Definition drops (s : seq nat) : seq bool := [seq (p.2 < p.1)%N | p <- zip (take (size s).-1 s) (behead s)].

(** DescentProcess.sample (exotic_dpps.py l.197-214) *)
Definition descent_sample (n : nat) : prog (seq nat) :=
  bind (uniform_permutation n) (fun sigma => Ret [seq i.+1 | i <- np_where (drops sigma)]).

(** rng.randint(0, base, size): i.i.d. digits *)
Fixpoint digits (base n : nat) : prog (seq nat) :=
  if n is n'.+1 then unif (iota 0 base) (fun a => bind (digits base n') (fun s => Ret (a :: s))) else Ret [::].

(** np.cumsum(A) *)
Definition cumsum (A : seq nat) : seq nat := scanl addn 0%N A.

(** CarriesProcess.sample (exotic_dpps.py l.154-171) *)
Definition carries_of (base : nat) (A : seq nat) : seq nat :=
  let B := [seq (c %% base)%N | c <- cumsum A] in                                                (* l.167 *)
  [seq i.+1 | i <- np_where (drops B)].                                                          (* l.169 *)
Definition carries_sample (base n : nat) : prog (seq nat) :=
  bind (digits base n) (fun A => Ret (carries_of base A)).

(** rng.binomial(n=2, p=x_0): the number of successes of two independent trials *)
Definition binomial2 (x0 : R) : prog nat := Flip x0 (fun a => Flip x0 (fun b => Ret (a + b)%N)).
Fixpoint draw_Y (x0 : R) (n : nat) : prog (seq bool) :=
  if n is n'.+1 then bind (binomial2 x0) (fun c => bind (draw_Y x0 n') (fun s => Ret ((c != 1%N) :: s))) else Ret [::].

(** VirtualDescentProcess.sample (exotic_dpps.py l.245-276) *)
Definition virtual_of (n : nat) (X Y : seq bool) : seq nat :=
  [seq i <- iota 0 n | (~~ nth false Y i && nth false Y i.+1)
                       || (~~ nth false Y i && ~~ nth false Y i.+1 && nth false X i)].
Definition virtual_descent_sample (x0 : R) (n : nat) : prog (seq nat) :=
  bind (uniform_permutation n.+1) (fun sigma =>                                                  (* l.266 *)
  bind (draw_Y x0 n.+1) (fun Y =>                                                                (* l.270 *)
  Ret (virtual_of n (drops sigma) Y))).                                                          (* l.272 *)

(** VirtualDescentProcess.__init__ (l.227-232) and the reference intensities _bernoulli_param (l.151, l.194, l.242) *)
Definition virtual_descent_init (x0 : R) : R + exn := if 0 <= x0 <= 1 then inl x0 else inr ValueError.
Definition carries_param (base : nat) : R := 2%:R^-1 * (1 - 1 / base%:R).
Definition descent_param : R := 2%:R^-1.
Definition virtual_descent_param (x0 : R) : R := 2%:R^-1 * (1 - x0 ^+ 2).
End Draws.

Section RSK.
Variables (d : unit) (T : orderType d).
Local Open Scope order_scope.

(** bisect_right(row, x) on an increasing row: the index of the first element larger than x (exotic_dpps_core.py l.199) *)
Definition bisect_right (row : seq T) (x : T) : nat := find (fun y => x < y) row.

(** RSK, the loop over the rows (l.190-206): insertion of x, recorded as [it] *)
Fixpoint rsk_insert (it : nat) (x : T) (P : seq (seq T)) (Q : seq (seq nat)) : seq (seq T) * seq (seq nat) :=
  match P, Q with
  | row_P :: P', row_Q :: Q' =>
      if last x row_P <= x then (rcons row_P x :: P', rcons row_Q it :: Q')                      (* l.193-196 *)
      else
        let k := bisect_right row_P x in
        let r := rsk_insert it (nth x row_P k) P' Q' in
        (set_nth x row_P k x :: r.1, row_Q :: r.2)                                               (* l.199-201 *)
  | _, _ => (rcons P [:: x], rcons Q [:: it])                                                    (* l.204-206 *)
  end.

(** RSK (l.167-208) *)
Fixpoint rsk_loop (it : nat) (s : seq T) (P : seq (seq T)) (Q : seq (seq nat)) : seq (seq T) * seq (seq nat) :=
  if s is x :: s' then let r := rsk_insert it x P Q in rsk_loop it.+1 s' r.1 r.2 else (P, Q).
Definition RSK (s : seq T) : seq (seq T) * seq (seq nat) := rsk_loop 1 s [::] [::].
End RSK.

Section Plancherel.
Variable R : rcfType.
(** PoissonizedPlancherel.sample (exotic_dpps.py l.316-334); N = rng.poisson(theta) is an argument: the element appended
    to list_of_young_diag and the element appended to list_of_samples *)
Definition young_diag (sigma : seq nat) : seq nat := [seq size row | row <- (RSK sigma).1].
Definition maya_points (lam : seq nat) : seq R :=
  [seq (nth 0%N lam i)%:R - (2%:R^-1 + i%:R) | i <- iota 0 (size lam)].
Definition plancherel_sample (N : nat) : prog R (seq nat * seq R) :=
  bind (uniform_permutation R N) (fun sigma => Ret (young_diag sigma, maya_points (young_diag sigma))).
End Plancherel.
