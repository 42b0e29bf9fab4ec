(** * McmcModel: model of dppy/mcmc_sampling.py (l.24-412).

    States are Python lists of items.  [time.time()] readings are an oracle [clock]. *)
From Coq Require Import String.
From mathcomp Require Import all_ssreflect all_algebra.
From Verif Require Import Prob.
Set Implicit Arguments. Unset Strict Implicit. Unset Printing Implicit Defensive.
Import Order.Theory GRing.Theory Num.Theory.
Local Open Scope ring_scope.

Section Model.
Variables (R : rcfType) (N : nat).
Notation prog := (prog R).
Notation item := 'I_N.

(** utils.py det_ST (l.76-105) with T = None: det of the submatrix on rows and columns S (1 when S = []). *)
Definition det_ST (K : 'M[R]_N) (S : seq item) : R :=
  \det (\matrix_(a < size S, b < size S) K (tnth (in_tuple S) a) (tnth (in_tuple S) b)).

(** [rng.choice(pop)]: uniform; numpy raises ValueError on an empty population. *)
Definition unif A T (pop : seq T) (k : T -> prog A) : prog A :=
  Choice pop (fun _ => (size pop)%:R^-1) k.

(** [np.delete(ground_set, S0)] *)
Definition others (S0 : seq item) : seq item := [seq i <- enum 'I_N | i \notin S0].

(** One draw [U = rng.rand()] compared with thresholds a <= b <= c <= 1 (l.193-222): the index of the cell
    [0,a), [a,b), [b,c), [c,1) that contains U. *)
Definition cell A (a b c : R) (k : nat -> prog A) : prog A :=
  Choice (iota 0 4) (fun i => nth 0 [:: a; b - a; c - b; 1 - c] i) k.

(** [del S1[i]] *)
Definition del_at (S : seq item) (i : nat) : seq item := take i S ++ drop i.+1 S.

(** Current sample, its determinant and its size (S0, det_S0, size_S0). *)
Definition state := (seq item * R * nat)%type.

(** add_exchange_delete_sampler, one iteration (l.187-234) *)
Definition aed_step (K : 'M[R]_N) (st : state) : prog state :=
  let: (S0, det_S0, size_S0) := st in
  unif (iota 0 (if size_S0 == 0%N then N else size_S0)) (fun s_ind =>           (* l.189 *)
  unif (others S0) (fun t =>                                                    (* l.191 *)
    let ratio := size_S0%:R / N%:R in                                           (* l.194 *)
    let half : R := 2%:R^-1 in
    cell (half * (1 - ratio) ^+ 2) (half * (1 - ratio)) (half * (ratio ^+ 2 + (1 - ratio))) (fun c =>
      if c == 0%N then                                                          (* l.197 add *)
        let S1 := rcons S0 t in
        let det_S1 := det_ST K S1 in
        Flip (det_S1 / det_S0 * (size_S0.+1)%:R / (N%:R - size_S0%:R)) (fun acc => (* l.201 *)
          Ret (if acc then (S1, det_S1, size_S0.+1) else st))
      else if c == 1%N then                                                     (* l.209 exchange *)
        if (s_ind < size S0)%N then
          let S1 := rcons (del_at S0 s_ind) t in
          let det_S1 := det_ST K S1 in
          Flip (det_S1 / det_S0) (fun acc =>                                    (* l.214 *)
            Ret (if acc then (S1, det_S1, size_S0) else st))
        else Raise IndexError
      else if c == 2%N then                                                     (* l.222 delete *)
        if (s_ind < size S0)%N then
          let S1 := del_at S0 s_ind in
          let det_S1 := det_ST K S1 in
          Flip (det_S1 / det_S0 * size_S0%:R / (N%:R - (size_S0%:R - 1))) (fun acc => (* l.226 *)
            Ret (if acc then (S1, det_S1, size_S0.-1) else st))
        else Raise IndexError
      else Ret st))).                                                           (* l.234 *)

(** add_delete_sampler, one iteration (l.297-317) *)
Definition ad_step (K : 'M[R]_N) (st : state) : prog state :=
  let: (S0, det_S0, size_S0) := st in
  Flip 2%:R^-1 (fun b =>                                                        (* l.297 *)
    if b then
      unif (enum 'I_N) (fun s =>                                                (* l.301 *)
        let S1 := if s \in S0 then rem s S0 else rcons S0 s in                  (* l.302-305 *)
        let det_S1 := det_ST K S1 in
        Flip (det_S1 / det_S0) (fun acc =>                                      (* l.309 *)
          Ret (if acc then (S1, det_S1, size S1) else st)))
    else Ret st).

(** basis_exchange_sampler, one iteration (l.385-406); [size_S0] is the constant [size] (l.372). *)
Definition e_step (K : 'M[R]_N) (st : state) : prog state :=
  let: (S0, det_S0, size) := st in
  Flip 2%:R^-1 (fun b =>                                                        (* l.385 *)
    if b then
      unif (iota 0 size) (fun s_ind =>                                          (* l.390 *)
      unif (others S0) (fun t =>                                                (* l.392 *)
        let S1 := set_nth t S0 s_ind t in                                       (* l.393 *)
        let det_S1 := det_ST K S1 in
        Flip (det_S1 / det_S0) (fun acc =>                                      (* l.398 *)
          Ret (if acc then (S1, det_S1, size) else st))))
    else Ret st).

(** The iteration shared by the three samplers (l.185-240, l.294-323, l.382-412): run the step, record the new
    current state, and stop early when [T_max] is given (and non zero) and time.time() - t_start < T_max.
    [clock i] is the reading of time.time() after iteration [i], [clock 0] is t_start; [n] iterations remain. *)
Definition stops (T_max : option R) (clock : nat -> R) (it : nat) : bool :=
  if T_max is Some T then (T != 0) && (clock it - clock 0%N < T) else false.

Fixpoint mcmc_loop (step : state -> prog state) (T_max : option R) (clock : nat -> R) (n it : nat)
    (st : state) (chain : seq (seq item)) : prog (seq (seq item)) :=
  if n is n'.+1 then
    bind (step st) (fun st' =>
      let chain' := rcons chain st'.1.1 in
      if stops T_max clock it then Ret chain'
      else mcmc_loop step T_max clock n' it.+1 st' chain')
  else Ret chain.

Definition init_state (K : 'M[R]_N) (s_init : seq item) : state := (s_init, det_ST K s_init, size s_init).

(** add_exchange_delete_sampler (l.134-240) *)
Definition add_exchange_delete_sampler K s_init nb_iter T_max clock : prog (seq (seq item)) :=
  mcmc_loop (aed_step K) T_max clock nb_iter.-1 1 (init_state K s_init) [:: s_init].

(** add_delete_sampler (l.243-323) *)
Definition add_delete_sampler K s_init nb_iter T_max clock : prog (seq (seq item)) :=
  mcmc_loop (ad_step K) T_max clock nb_iter.-1 1 (init_state K s_init) [:: s_init].

(** basis_exchange_sampler (l.326-412): the chain is a preallocated array of zeros with nb_iter rows, so a chain cut
    short by T_max is padded by rows of zeros; nb_iter = 0 makes the store chain[0] = S0 (l.377) fail. *)
Definition basis_exchange_sampler K s_init nb_iter T_max clock : prog (seq (seq nat)) :=
  if nb_iter == 0%N then Raise IndexError
  else bind (mcmc_loop (e_step K) T_max clock nb_iter.-1 1 (init_state K s_init) [:: s_init]) (fun chain =>
    Ret ([seq [seq val i | i <- S] | S <- chain] ++ nseq (nb_iter - size chain) (nseq (size s_init) 0%N))).

(** [rng.choice(n, size=k, replace=False)]: uniform over the ordered k-tuples of distinct elements of range(n);
    numpy raises ValueError when k > n. *)
Definition choice_norep A n k (g : seq 'I_n -> prog A) : prog A :=
  if (n < k)%N then Raise ValueError
  else unif [seq tval t | t <- [seq t <- enum {: k.-tuple 'I_n} | uniq (tval t)]] g.

(** One trial of initialize_AED_sampler (l.87-88): draw N elements of range(2N) without replacement and keep, in
    increasing order (np.intersect1d), those that belong to range(N). *)
Definition aed_trial : prog (seq item) :=
  choice_norep (n := 2 * N) N (fun T => Ret [seq i <- enum 'I_N | nat_of_ord i \in [seq nat_of_ord j | j <- T]]).

(** One trial of initialize_AD_and_E_sampler (l.120-122); [size if size else rng.randint(1, N+1)]. *)
Definition ad_e_trial (size : option nat) : prog (seq item) :=
  match size with
  | Some k.+1 => choice_norep k.+1 (fun T => Ret T)
  | _ => unif (iota 1 N) (fun k => choice_norep k (fun T => Ret T))
  end.

(** The for/else loop of initialize_AED_sampler (l.83-96) and initialize_AD_and_E_sampler (l.116-131): each round first
    tests the previous draw, then draws again; [S0], [det_S0] is the previous draw. *)
Fixpoint init_loop (K : 'M[R]_N) (tol : R) (trial : prog (seq item)) (rounds : nat) (S0 : seq item) (det_S0 : R)
    : prog (seq item) :=
  if rounds is r.+1 then
    if tol < det_S0 then Ret S0
    else bind trial (fun S1 => init_loop K tol trial r S1 (det_ST K S1))
  else Raise ValueError.

(** l.66-96 and l.99-131, nb_trials = 100; [tol] is the constant 1e-9. *)
Definition initialize_AED_sampler (tol : R) K := init_loop K tol aed_trial 100 [::] 0.
Definition initialize_AD_and_E_sampler (tol : R) K size := init_loop K tol (ad_e_trial size) 100 [::] 0.

(** dpp_sampler_mcmc (l.24-63).  The result of each sampler is a list of lists of integers.  Another mode leaves the variable
    [sampl] unbound: UnboundLocalError. *)
Definition dpp_sampler_mcmc (tol : R) K (mode : string) (s_init : option (seq item)) nb_iter T_max size clock : prog (seq (seq nat)) :=
  let or_init init := if s_init is Some s then Ret s else init in
  let nats (ch : seq (seq item)) : prog (seq (seq nat)) := Ret [seq [seq val i | i <- S] | S <- ch] in
  if String.eqb mode "AED" then
    bind (or_init (initialize_AED_sampler tol K)) (fun s => bind (add_exchange_delete_sampler K s nb_iter T_max clock) nats)
  else if String.eqb mode "AD" then
    bind (or_init (initialize_AD_and_E_sampler tol K None)) (fun s => bind (add_delete_sampler K s nb_iter T_max clock) nats)
  else if String.eqb mode "E" then
    bind (or_init (initialize_AD_and_E_sampler tol K size)) (fun s => basis_exchange_sampler K s nb_iter T_max clock)
  else Raise UnboundLocalError.

End Model.
