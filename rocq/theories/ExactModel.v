(** * ExactModel: model of dppy/exact_sampling.py (l.20-663 and l.1244-1341).

    Conventions: real symmetric kernels (complex Hermitian ones are not modelled), exact arithmetic,
    arrays are total functions on their index type, in-place updates return the new array. *)
From Coq Require Import String.
From mathcomp Require Import all_ssreflect all_algebra.
From Verif Require Import Prob.
Set Implicit Arguments. Unset Strict Implicit. Unset Printing Implicit Defensive.
Import Order.Theory GRing.Theory Num.Theory.
Local Open Scope ring_scope.

Section Model.
Variables (R : rcfType) (N : nat).
Notation prog := (prog R).
Notation item := 'I_N.

(** [np.rint(np.trace(K)).astype(int)] (l.37, l.105, l.193, l.257): nearest integer, searched in 0..N
    (the trace of a projection of size N always lies there). *)
Definition rint (x : R) : nat := find (fun n : nat => `|x - n%:R| <= 2%:R^-1) (iota 0 N.+1).

(** [size = rank if size is None else size] (l.106, l.194, l.258, l.472, ...) *)
Definition get_size (size : option nat) (rank : nat) : nat := if size is Some s then s else rank.

(** proj_dpp_sampler_kernel_GS, main loop (l.205-219).
    [n] counts the remaining iterations, [it] is the Python loop variable;
    [sampl] is the already filled prefix of the array [sampl]. *)
Fixpoint kernel_GS_loop (K : 'M[R]_N) (rank size n it : nat) (sampl : seq item)
    (avail : item -> bool) (c : item -> nat -> R) (norm_2 : item -> R) : prog (seq item) :=
  if n is n'.+1 then
    (* l.206  j = rng.choice(ground_set[avail], p=np.abs(norm_2[avail]) / (rank - it)) *)
    Choice [seq i <- enum 'I_N | avail i] (fun i => `|norm_2 i| / (rank%:R - it%:R)) (fun j =>
      let sampl' := rcons sampl j in                                          (* l.209 *)
      if it.+1 == size then Ret sampl'                                        (* l.210 break *)
      else
        let avail' := fun i => avail i && (i != j) in                         (* l.213 *)
        let c' := fun i t =>                                                  (* l.214 *)
          if avail' i && (t == it)
          then (K i j - \sum_(s < it) c i s * c j s) / Num.sqrt (norm_2 j) else c i t in
        let norm_2' := fun i =>                                               (* l.217 *)
          if avail' i then norm_2 i - c' i it ^+ 2 else norm_2 i in
        kernel_GS_loop K rank size n' it.+1 sampl' avail' c' norm_2')
  else Ret sampl.

(** proj_dpp_sampler_kernel_GS (l.155-219) *)
Definition proj_dpp_sampler_kernel_GS (K : 'M[R]_N) (size : option nat) : prog (seq item) :=
  let rank := rint (\tr K) in
  let sz := get_size size rank in
  kernel_GS_loop K rank sz sz 0 [::] (fun _ => true) (fun _ _ => 0) (fun i => K i i).

(** The array permutation used by the swaps below: exchange [j] and [t]. *)
Definition swap (j t i : nat) : nat := if i == j then t else if i == t then j else i.

(** proj_dpp_sampler_kernel_Chol, swap of rows/columns [j] <= [t] of the lower triangle of [A] (l.120-132).
    The assignments are executed in the order of the source; conj and .real are the identity on reals. *)
Definition chol_swap (A : nat -> nat -> R) (j t : nat) : nat -> nat -> R :=
  let A1 := fun a b => (* l.122 A[t+1:, [j,t]] = A[t+1:, [t,j]] *)
    if (t < a)%N then (if b == j then A a t else if b == t then A a j else A a b) else A a b in
  let A2 := fun a b => (* l.125 A[j+1:t, j] = A[t, j+1:t] *)
    if (j < a < t)%N && (b == j) then A1 t a else A1 a b in
  let A3 := fun a b => (* l.126 A[t, j+1:t] = tmp, tmp = old A[j+1:t, j] (l.124) *)
    if (a == t) && (j < b < t)%N then A1 b j else A2 a b in
  let A4 := fun a b => (* l.130 A[[j,t],[j,t]] = A[[t,j],[t,j]] *)
    if (a == j) && (b == j) then A3 t t else if (a == t) && (b == t) then A3 j j else A3 a b in
  fun a b => (* l.132 A[[j,t], :j] = A[[t,j], :j] *)
    if (b < j)%N then (if a == j then A4 t b else if a == t then A4 j b else A4 a b) else A4 a b.

(** proj_dpp_sampler_kernel_Chol, main loop (l.115-150).  Only the sample is returned (the factor
    A[:size,:size] of l.152 is discarded by the callers of this module, l.46). *)
Fixpoint kernel_Chol_loop (rank size n j : nat) (A : nat -> nat -> R) (d : nat -> R)
    (orig : nat -> nat) : prog (seq nat) :=
  if n is n'.+1 then
    (* l.118 t = rng.choice(range(j, N), p=np.abs(d[j:]) / (rank - j)) *)
    Choice (iota j (N - j)) (fun t => `|d t| / (rank%:R - j%:R)) (fun t =>
      let A1 := chol_swap A j t in                                             (* l.120-132 *)
      let orig' := fun i => orig (swap j t i) in                               (* l.135 *)
      let d1 := fun i => d (swap j t i) in                                     (* l.136 *)
      let A2 := fun a b => if (a == j) && (b == j) then Num.sqrt (d1 j) else A1 a b in (* l.138 *)
      if j.+1 == size then Ret [seq orig' i | i <- iota 0 size]                (* l.140 break, l.152 *)
      else
        let A3 := fun a b => (* l.144-145 *)
          if (j < a)%N && (b == j)
          then (A2 a j - \sum_(s < j) A2 a s * A2 j s) / A2 j j else A2 a b in
        let d2 := fun i => if (j < i)%N then d1 i - A3 i j ^+ 2 else d1 i in   (* l.150 *)
        kernel_Chol_loop rank size n' j.+1 A3 d2 orig')
  else Ret [seq orig i | i <- iota 0 size].

(** [A = K.copy()], as an array indexed by numbers (l.110) *)
Definition arr (K : 'M[R]_N) (a b : nat) : R :=
  if insub a is Some i then if insub b is Some j then K i j else 0 else 0.

(** proj_dpp_sampler_kernel_Chol (l.62-152) *)
Definition proj_dpp_sampler_kernel_Chol (K : 'M[R]_N) (size : option nat) : prog (seq nat) :=
  let rank := rint (\tr K) in
  let sz := get_size size rank in
  kernel_Chol_loop rank sz sz 0 (arr K) (fun i => arr K i i) id.

(** proj_dpp_sampler_kernel_Schur, main loop (l.270-311); [Kinv] is the array [K_inv],
    [schur_comp] the array of Schur complements. *)
Fixpoint kernel_Schur_loop (K : 'M[R]_N) (rank size n it : nat) (sampl : seq item)
    (avail : item -> bool) (Kinv : nat -> nat -> R) (schur_comp : item -> R) : prog (seq item) :=
  if n is n'.+1 then
    (* l.272 *)
    Choice [seq i <- enum 'I_N | avail i] (fun i => `|schur_comp i| / (rank%:R - it%:R)) (fun j =>
      let sampl' := rcons sampl j in                                           (* l.275 *)
      let avail' := fun i => avail i && (i != j) in                            (* l.275 *)
      let s := fun a => nth j sampl a in                                       (* sampl[a], a < it *)
      let continue (Kinv' : nat -> nat -> R) : prog (seq item) :=
        let s' := fun a => nth j sampl' a in
        let schur_comp' := fun i => (* l.309-311 *)
          if avail' i
          then K i i - \sum_(b < it.+1) (\sum_(a < it.+1) K i (s' a) * Kinv' a b) * K i (s' b)
          else schur_comp i in
        kernel_Schur_loop K rank size n' it.+1 sampl' avail' Kinv' schur_comp' in
      if it == 0%N then                                                        (* l.285 *)
        continue (fun a b => if (a == 0%N) && (b == 0%N) then 1 / K j j else Kinv a b)
      else if it == 1%N then                                                   (* l.288-292 *)
        let i := s 0%N in
        let D := K i i * K j j - K j i ^+ 2 in
        continue (fun a b =>
          if (a == 0%N) && (b == 0%N) then K j j / D
          else if (a == 0%N) && (b == 1%N) then - K j i / D
          else if (a == 1%N) && (b == 0%N) then - K j i / D
          else if (a == 1%N) && (b == 1%N) then K i i / D
          else Kinv a b)
      else if (it.+1 < size)%N then                                            (* l.294-302 *)
        let temp := fun a => \sum_(b < it) Kinv a b * K (s b) j in
        let schur_j := K j j - \sum_(a < it) K j (s a) * temp a in
        continue (fun a b =>
          if (a < it)%N && (b < it)%N then Kinv a b + temp a * (temp b / schur_j)
          else if (a < it)%N && (b == it) then - temp a / schur_j
          else if (a == it) && (b < it)%N then - temp b / schur_j
          else if (a == it) && (b == it) then 1 / schur_j
          else Kinv a b)
      else Ret sampl')                                                         (* l.304 break *)
  else Ret sampl.

(** proj_dpp_sampler_kernel_Schur (l.222-313) *)
Definition proj_dpp_sampler_kernel_Schur (K : 'M[R]_N) (size : option nat) : prog (seq item) :=
  let rank := rint (\tr K) in
  let sz := get_size size rank in
  kernel_Schur_loop K rank sz sz 0 [::] (fun _ => true) (fun _ _ => 0) (fun i => K i i).

(** proj_dpp_sampler_kernel (l.25-59): size check and dispatch on the mode string.
    Samples are returned as Python lists of integers. *)
Definition ints (m : prog (seq item)) : prog (seq nat) := bind m (fun ys => Ret [seq val y | y <- ys]).

Definition proj_dpp_sampler_kernel (K : 'M[R]_N) (mode : string) (size : option nat) : prog (seq nat) :=
  let dispatch :=
    if String.eqb mode "GS" then ints (proj_dpp_sampler_kernel_GS K size)
    else if String.eqb mode "Chol" then proj_dpp_sampler_kernel_Chol K size
    else if String.eqb mode "Schur" then ints (proj_dpp_sampler_kernel_Schur K size)
    else Raise ValueError in                                                   (* l.52-57 *)
  match size with                                                              (* l.36 if size: *)
  | Some (s.+1 as k) => if (rint (\tr K) < k)%N then Raise ValueError else dispatch
  | _ => dispatch
  end.

(** dpp_sampler_generic_kernel, main loop (l.346-354); returns the sample only (the callers,
    finite_dpps.py l.353, discard the factor A).  A division by a zero pivot (l.353), which numpy turns into nan/inf
    with a warning, is modelled as an exception, so that "never raises" means "never divides by zero". *)
Fixpoint generic_kernel_loop (js : seq item) (A : 'M[R]_N) (sample : seq item) : prog (seq item) :=
  if js is j :: js' then
    Flip (A j j) (fun b =>
      let sample' := if b then rcons sample j else sample in                   (* l.349 *)
      let ajj := if b then A j j else A j j - 1 in                             (* l.351 *)
      if ajj == 0 then Raise ZeroDivisionError else
      let A' := \matrix_(a, b)                                                 (* l.353-354 *)
         if (j < a)%N && (j < b)%N then A a b - A a j / ajj * A j b
         else if (j < a)%N && (b == j) then A a j / ajj
         else if (a == j) && (b == j) then ajj else A a b in
      generic_kernel_loop js' A' sample')
  else Ret sample.

(** dpp_sampler_generic_kernel (l.322-357) *)
Definition dpp_sampler_generic_kernel (K : 'M[R]_N) : prog (seq item) :=
  generic_kernel_loop (enum 'I_N) K [::].

(** A matrix of eigenvectors with an arbitrary number of columns is a sequence of columns. *)
Definition colmx (cols : seq 'cV[R]_N) : 'M[R]_(N, size cols) :=
  \matrix_(i, j) (tnth (in_tuple cols) j) i 0.

(** dpp_eig_vecs_selector (l.364-394): one Bernoulli variable per eigenvector, columns kept in order. *)
Fixpoint dpp_eig_vecs_selector (ber_params : seq R) (eig_vecs : seq 'cV[R]_N) : prog (seq 'cV[R]_N) :=
  match ber_params, eig_vecs with
  | p :: ps, v :: vs =>
      Flip p (fun b => bind (dpp_eig_vecs_selector ps vs) (fun sel => Ret (if b then v :: sel else sel)))
  | _, _ => Ret [::]
  end.

Section Eig.
Variable r : nat.

(** [V[i,:].dot(V[j,:])] *)
Definition rowdot (V : 'M[R]_(N, r)) (i j : item) : R := \sum_(k < r) V i k * V j k.

(** proj_dpp_sampler_eig_GS, main loop (l.489-502) *)
Fixpoint eig_GS_loop (V : 'M[R]_(N, r)) (size n it : nat) (sampl : seq item)
    (avail : item -> bool) (c : item -> nat -> R) (norms_2 : item -> R) : prog (seq item) :=
  if n is n'.+1 then
    Choice [seq i <- enum 'I_N | avail i] (fun i => `|norms_2 i| / (r%:R - it%:R)) (fun j => (* l.491 *)
      let sampl' := rcons sampl j in                                           (* l.493 *)
      if it.+1 == size then Ret sampl'                                         (* l.494 *)
      else
        let avail' := fun i => avail i && (i != j) in                          (* l.497 *)
        let c' := fun i t =>                                                   (* l.498-500 *)
          if avail' i && (t == it)
          then (rowdot V i j - \sum_(s < it) c i s * c j s) / Num.sqrt (norms_2 j) else c i t in
        let norms_2' := fun i =>                                               (* l.502 *)
          if avail' i then norms_2 i - c' i it ^+ 2 else norms_2 i in
        eig_GS_loop V size n' it.+1 sampl' avail' c' norms_2')
  else Ret sampl.

(** proj_dpp_sampler_eig_GS (l.444-504) *)
Definition proj_dpp_sampler_eig_GS (V : 'M[R]_(N, r)) (size : option nat) : prog (seq item) :=
  let sz := get_size size r in
  eig_GS_loop V sz sz 0 [::] (fun _ => true) (fun _ _ => 0) (fun i => rowdot V i i).

(** proj_dpp_sampler_eig_GS_bis, main loop (l.554-596); [V] is overwritten. *)
Fixpoint eig_GS_bis_loop (size n it : nat) (V : 'M[R]_(N, r)) (sampl : seq item)
    (avail : item -> bool) (contrib : item -> nat -> R) (norms_2 : item -> R) : prog (seq item) :=
  if n is n'.+1 then
    Choice [seq i <- enum 'I_N | avail i] (fun i => `|norms_2 i| / (r%:R - it%:R)) (fun j => (* l.558 *)
      let sampl' := rcons sampl j in                                           (* l.560 *)
      if it.+1 == size then Ret sampl'                                         (* l.561 *)
      else
        let avail' := fun i => avail i && (i != j) in                          (* l.575 *)
        let V1 := \matrix_(i, k)                                               (* l.576 *)
          (if i == j then V j k - \sum_(s < it) contrib j s * V (nth j sampl s) k else V i k) in
        let contrib' := fun i t =>                                             (* l.579 *)
          if avail' i && (t == it) then rowdot V1 i j else contrib i t in
        let V2 := \matrix_(i, k) (if i == j then V1 j k / norms_2 j else V1 i k) in (* l.587 *)
        let norms_2' := fun i =>                                               (* l.596 *)
          if avail' i then norms_2 i - contrib' i it ^+ 2 / norms_2 j else norms_2 i in
        eig_GS_bis_loop size n' it.+1 V2 sampl' avail' contrib' norms_2')
  else Ret sampl.

(** proj_dpp_sampler_eig_GS_bis (l.508-598) *)
Definition proj_dpp_sampler_eig_GS_bis (V : 'M[R]_(N, r)) (size : option nat) : prog (seq item) :=
  let sz := get_size size r in
  eig_GS_bis_loop sz sz 0 V [::] (fun _ => true) (fun _ _ => 0) (fun i => rowdot V i i).

End Eig.

(** scipy.linalg.qr(W, mode='economic')[0] is an oracle [qr] (l.659). *)
Section KuTa12.
Variable qr : forall r : nat, 'M[R]_(N, r) -> 'M[R]_(N, r).

(** proj_dpp_sampler_eig_KuTa12, main loop (l.646-661); [rank0] is the initial number of columns (l.632). *)
Fixpoint eig_KuTa12_loop (rank0 size n it : nat) (sampl : seq item) (r : nat) (V : 'M[R]_(N, r))
   : prog (seq item) :=
  if n is n'.+1 then
    Choice (enum 'I_N) (fun i => `|rowdot V i i| / (rank0%:R - it%:R)) (fun j => (* l.643, l.648, l.661 *)
      let sampl' := rcons sampl j in                                           (* l.649 *)
      if it.+1 == size then Ret sampl'                                         (* l.650 *)
      else
        if [pick k | V j k != 0] is Some k then                                (* l.655 *)
          let V1 := \matrix_(i, l) (V i l - V i k / V j k * V j l) in          (* l.657 *)
          eig_KuTa12_loop rank0 size n' it.+1 sampl' (qr (col' k V1))          (* l.659 *)
        else Raise IndexError)
  else Ret sampl.

(** proj_dpp_sampler_eig_KuTa12 (l.601-663) *)
Definition proj_dpp_sampler_eig_KuTa12 r (V : 'M[R]_(N, r)) (size : option nat) : prog (seq item) :=
  let sz := get_size size r in
  eig_KuTa12_loop r sz sz 0 [::] V.

(** proj_dpp_sampler_eig (l.399-440): dispatch; no column gives the empty sample, whatever the mode and size. *)
Definition proj_dpp_sampler_eig r (V : 'M[R]_(N, r)) (mode : string) (size : option nat) : prog (seq item) :=
  if r == 0%N then Ret [::]                                                    (* l.418, l.438 *)
  else if String.eqb mode "GS" then proj_dpp_sampler_eig_GS V size
  else if String.eqb mode "GS_bis" then proj_dpp_sampler_eig_GS_bis V size
  else if String.eqb mode "KuTa12" then proj_dpp_sampler_eig_KuTa12 V size
  else Raise ValueError.

(** finite_dpps.py sample_exact l.392-401 (phases 1 and 2 of the spectral method, from the eigenvalues of K;
    the non-projection branch l.397). *)
Definition dpp_sampler_eig (eig_vals : seq R) (eig_vecs : seq 'cV[R]_N) (mode : string) : prog (seq item) :=
  bind (dpp_eig_vecs_selector eig_vals eig_vecs) (fun V => proj_dpp_sampler_eig (colmx V) mode None).

(** finite_dpps.py sample_exact l.414-417: eigenvalues of L are converted to eigenvalues of K. *)
Definition dpp_sampler_eig_L (L_eig_vals : seq R) (eig_vecs : seq 'cV[R]_N) (mode : string) : prog (seq item) :=
  dpp_sampler_eig [seq g / (1 + g) | g <- L_eig_vals] eig_vecs mode.

(** finite_dpps.py sample_exact l.394-395, l.400: projection kernel with known spectrum, eigenvectors with
    eigenvalue > 0.5 are kept. *)
Definition dpp_sampler_eig_proj (K_eig_vals : seq R) (eig_vecs : seq 'cV[R]_N) (mode : string) : prog (seq item) :=
  proj_dpp_sampler_eig (colmx (mask [seq 2%:R^-1 < l | l <- K_eig_vals] eig_vecs)) mode None.

End KuTa12.

(** elementary_symmetric_polynomials (l.1306-1341): row [k] of the table from row [k-1];
    [esp_row lam prev] computes E[k, 0..N] with E[k,0] = 0 and
    E[k,n] = E[k,n-1] + eig_vals[n-1] * E[k-1,n-1] (l.1339). *)
Fixpoint esp_row (lam : seq R) (prev : seq R) (acc : R) : seq R :=
  match lam, prev with
  | l :: lam', p :: prev' => acc :: esp_row lam' prev' (acc + l * p)
  | _, _ => [:: acc]
  end.

Fixpoint elementary_symmetric_polynomials (lam : seq R) (size : nat) : seq (seq R) :=
  if size is k.+1 then
    let T := elementary_symmetric_polynomials lam k in
    rcons T (esp_row lam (nth [::] T k) 0)
  else [:: nseq (seq.size lam).+1 1].                                          (* l.1334 *)

(** [E_poly[k, n]] of a table *)
Definition tget (T : seq (seq R)) (k n : nat) : R := nth 0 (nth [::] T k) n.

(** k_dpp_eig_vecs_selector, main loop (l.1294-1300): [n] goes from N down to 1; [sel] is the filled suffix of
    ind_selected (already chosen indices, increasing).  Index errors of E_poly[k, n] are modelled; for [k = 0]
    (only possible when size = 0) Python reads the last row E_poly[-1, n-1] and the store into the empty array
    ind_selected raises IndexError. *)
Fixpoint k_dpp_loop (lam : seq R) (T : seq (seq R)) (k n : nat) (sel : seq nat) : prog (seq nat) :=
  if n is n'.+1 then
    if (size T <= k)%N then Raise IndexError
    else
      let km1 := if k is k'.+1 then k' else (size T).-1 in
      Flip (nth 0 lam n' * tget T km1 n' / tget T k n'.+1) (fun b =>           (* l.1296 *)
        if b then
          if k is k'.+1 then                                                   (* l.1297-1298 *)
            if k' == 0%N then Ret (n' :: sel) else k_dpp_loop lam T k' n' (n' :: sel)
          else Raise IndexError
        else k_dpp_loop lam T k n' sel)
  else Ret (nseq k 0%N ++ sel).       (* entries never written keep their initial value 0 (l.1293) *)

(** k_dpp_eig_vecs_selector (l.1244-1302), returning the array ind_selected; [eps] is np.finfo(float).eps,
    [nbrows] the number of rows of eig_vecs (l.1282). *)
Definition k_dpp_eig_vecs_selector (eps : R) (nbrows : nat) (lam : seq R) (size : nat)
    (E_poly : option (seq (seq R))) : prog (seq nat) :=
  if lam is l0 :: lam' then
    let mx := foldl Order.max l0 lam' in
    let tol := mx * nbrows%:R * eps in                                          (* l.1285 *)
    let rank := count (fun l => tol < l) lam in                                 (* l.1286 *)
    if (rank < size)%N then Raise ValueError                                    (* l.1287 *)
    else
      let T := if E_poly is Some T then T else elementary_symmetric_polynomials lam size in
      k_dpp_loop lam T size (seq.size lam) [::]
  else Raise ValueError.                                                        (* np.max of an empty array *)

(** finite_dpps.py sample_exact_k_dpp l.646-661: phases 1 and 2 of the k-DPP spectral sampler.  The columns
    eig_vecs[:, ind_selected] (l.1302) are gathered in the order of ind_selected. *)
Definition k_dpp_sampler_eig (qr : forall r : nat, 'M[R]_(N, r) -> 'M[R]_(N, r)) (eps : R) (lam : seq R)
    (vs : seq 'cV[R]_N) (size : nat) (E_poly : option (seq (seq R))) (mode : string) : prog (seq item) :=
  bind (k_dpp_eig_vecs_selector eps N lam size E_poly) (fun ind =>
    proj_dpp_sampler_eig qr (colmx [seq nth 0 vs i | i <- ind]) mode None).

End Model.
