(** * FiniteModel: model of the class FiniteDPP (dppy/finite_dpps.py l.104-937), and of the drivers of the intermediate
      samplers (dppy/exact_sampling.py l.666-1241).

    A FiniteDPP object is a record of attributes; a method is a function from the object to a random program that returns
    the modified object together with a result or an exception: attributes assigned before an exception stay assigned.
    Simplifications: real kernels; every attribute refers to the same ground set of size N; the object [rng] is implicit;
    messages, warnings and plots are not modelled. *)
From Coq Require Import String.
From mathcomp Require Import all_ssreflect all_algebra.
From Verif Require Import Prob UtilsModel ExactModel McmcModel.
Set Implicit Arguments. Unset Strict Implicit. Unset Printing Implicit Defensive.
Import Order.Theory GRing.Theory Num.Theory.
Local Open Scope ring_scope.

Section Catch.
Variable R : rcfType.

(** Run [m] and turn a Python exception into a value. *)
Fixpoint catch A (m : prog R A) : prog R (A + exn) :=
  match m with
  | Ret a => Ret (inl a)
  | Raise e => Ret (inr e)
  | Flip p k => Flip p (fun b => catch (k b))
  | Choice T pop w k => if valid_weights pop w then Choice pop w (fun x => catch (k x)) else Ret (inr ValueError)
  end.
End Catch.

Section Model.
Variables (R : rcfType) (N : nat).
Notation prog := (prog R).
Notation item := 'I_N.
Notation mat := 'M[R]_N.

(** ** Intermediate samplers: the cached information (intermediate_sampling.py l.33-45).
    Only the fields read or written by the drivers are explicit; the others are the abstract [vrest], [arest]. *)
Variables (vrest arest : Type).

Record vfx_info := VfxInfo { vfx_s : R; vfx_rej : nat; vfx_rest : vrest }.
Record alpha_info := AlphaInfo { al_hat : R; al_min : R; al_max : R; al_k : option nat;
  al_rej : nat; al_trial : nat; al_switches : nat; al_rest : arest }.

(** Keyword arguments of the vfx / alpha samplers are the abstract [vparams]. *)
Variable vparams : Type.
(** vfx_sampling_precompute_constants followed by the assignment of q (exact_sampling.py l.765-772, l.998-1007). *)
Variable vfx_precompute : vparams -> option nat -> prog vfx_info.
(** vfx_sampling_do_sampling_loop (intermediate_sampling.py l.324): a sample and its rejection count. *)
Variable vfx_do_sampling_loop : vparams -> vfx_info -> prog (seq item * nat).
(** alpha_dpp_sampling_precompute_constants followed by the assignment of r (l.874-881, l.1136-1145). *)
Variable alpha_precompute : vparams -> option nat -> prog alpha_info.
(** alpha_dpp_sampling_do_sampling_loop: a sample, its rejection count and the updated information. *)
Variable alpha_do_sampling_loop : vparams -> alpha_info -> prog (seq item * nat * alpha_info).
(** Reset of the upper bounds on the leverage scores for a new alpha (l.1214-1215). *)
Variable alpha_reset : R -> arest -> arest.
Variables (max_iter_size_rejection : vparams -> nat) (early_stop : vparams -> bool).   (* l.1009, l.1147, l.1165 *)

Definition info := (vfx_info + alpha_info)%type.

(** dpp_vfx_sampler (l.666-776).  An information computed by the alpha sampler has no attribute q: AttributeError
    (intermediate_sampling.py l.370). *)
Definition dpp_vfx_sampler (pr : vparams) (i : option info) : prog (seq item * info) :=
  match i with
  | Some (inr _) => Raise AttributeError
  | _ => bind (if i is Some (inl v) then Ret v else vfx_precompute pr None) (fun v =>
         bind (vfx_do_sampling_loop pr v) (fun sr => Ret (sr.1, inl v)))
  end.

(** alpha_dpp_sampler (l.779-889).  An information computed by the vfx sampler has no attribute r / dict_alphadpp. *)
Definition alpha_dpp_sampler (pr : vparams) (i : option info) : prog (seq item * info) :=
  match i with
  | Some (inl _) => Raise AttributeError
  | _ => bind (if i is Some (inr a) then Ret a else alpha_precompute pr None) (fun a =>
         bind (alpha_do_sampling_loop pr a) (fun sra => Ret (sra.1.1, inr sra.2)))
  end.

(** k_dpp_vfx_sampler, rejection on the size (l.1011-1026); [n] rounds remain. *)
Fixpoint vfx_size_loop (pr : vparams) (size n : nat) (v : vfx_info) : prog (seq item * info) :=
  if n is n'.+1 then
    bind (vfx_do_sampling_loop pr v) (fun sr =>
      let v' := VfxInfo (vfx_s v) (vfx_rej v + sr.2) (vfx_rest v) in
      if seq.size sr.1 == size then Ret (sr.1, inl v') else vfx_size_loop pr size n' v')
  else Raise ValueError.

(** k_dpp_vfx_sampler (l.895-1028); an alpha information has no attribute s (l.997). *)
Definition k_dpp_vfx_sampler (pr : vparams) (size : nat) (i : option info) : prog (seq item * info) :=
  match i with
  | Some (inr _) => Raise AttributeError
  | _ => bind (match i with
               | Some (inl v) => if isclose (vfx_s v) size%:R then Ret v else vfx_precompute pr (Some size)
               | _ => vfx_precompute pr (Some size) end) (fun v =>
         vfx_size_loop pr size (max_iter_size_rejection pr) v)
  end.

(** np.ceil(np.sqrt(size)) (l.1148) *)
Definition ceil_sqrt (n : nat) : nat := find (fun m => n <= m ^ 2)%N (iota 0 n.+1).

(** alpha_k_dpp_sampler, main loop (l.1168-1230): [n] rounds remain, [over] is trial_count_overall, [sc] sample_count,
    [tc] trial_count, [un]/[ov] the under/over counts, [out] the variable sampl_out (None when unbound), [good] is
    found_good_alpha.  After the loop, l.1231-1241. *)
Definition alpha_finish (good : bool) (out : option (seq item)) (a : alpha_info) : prog (seq item * info) :=
  let a' := if good then AlphaInfo (al_hat a) (al_hat a) (al_hat a) (al_k a) (al_rej a) (al_trial a)
                                   (al_switches a).+1 (al_rest a) else a in
  if out is Some x then Ret (x, inr a') else Raise UnboundLocalError.

Fixpoint alpha_size_loop (pr : vparams) (size n over sc tc un ov : nat) (out : option (seq item)) (good : bool)
    (a : alpha_info) : prog (seq item * info) :=
  if n is n'.+1 then
    bind (alpha_do_sampling_loop pr a) (fun sra =>
      let: (sampl, rej, a0) := sra in
      let tc1 := tc.+1 in let over1 := over.+1 in                                                (* l.1175-1176 *)
      let hit := seq.size sampl == size in
      let out1 := if hit then Some sampl else out in                                             (* l.1187 *)
      let a1 := if hit && (al_trial a0 == 0%N)                                                   (* l.1188 *)
                then AlphaInfo (al_hat a0) (al_min a0) (al_max a0) (al_k a0) (al_rej a0) over1 (al_switches a0) (al_rest a0)
                else a0 in
      let sc1 := (sc + hit)%N in                                                                 (* l.1190 *)
      if hit && early_stop pr then alpha_finish good out1 a1                                     (* l.1191 *)
      else
        let un1 := (un + (seq.size sampl < size))%N in                                           (* l.1193 *)
        let ov1 := (ov + (size < seq.size sampl))%N in                                           (* l.1195 *)
        let a2 := if al_trial a1 == 0%N                                                          (* l.1198 *)
                  then AlphaInfo (al_hat a1) (al_min a1) (al_max a1) (al_k a1) (al_rej a1 + rej) (al_trial a1)
                                 (al_switches a1) (al_rest a1) else a1 in
        if sc1 == 2%N then alpha_finish true out1 a2                                             (* l.1201 *)
        else if tc1 == ceil_sqrt size then                                                       (* l.1205 *)
          let mn := if (ov1 < un1)%N then al_hat a2 else al_min a2 in                            (* l.1206-1207 *)
          let mx := if (ov1 < un1)%N then al_max a2 else al_hat a2 in                            (* l.1208-1209 *)
          let g := Num.sqrt (mn * mx) in                                                         (* l.1211 *)
          let a3 := AlphaInfo g mn mx (al_k a2) (al_rej a2) (al_trial a2) (al_switches a2)
                              (alpha_reset g (al_rest a2)) in                                    (* l.1213-1215 *)
          if (mx / mn <= 1 + ((size%:R + 3%:R) ^+ 2)^-1) && (0 < sc1)%N                          (* l.1218 *)
          then alpha_finish true out1 a3
          else alpha_size_loop pr size n' over1 sc1 0 0 0 out1 good
                 (AlphaInfo g mn mx (al_k a3) (al_rej a3) (al_trial a3) (al_switches a3).+1 (al_rest a3))
        else alpha_size_loop pr size n' over1 sc1 tc1 un1 ov1 out1 good a2)
  else Raise ValueError.                                                                     (* l.1226 *)

(** alpha_k_dpp_sampler (l.1031-1241); a vfx information has no attribute k (l.1135). *)
Definition alpha_k_dpp_sampler (pr : vparams) (size : nat) (i : option info) : prog (seq item * info) :=
  match i with
  | Some (inl _) => Raise AttributeError
  | _ => bind (match i with
               | Some (inr a) => if al_k a == Some size then Ret a else alpha_precompute pr (Some size)
               | _ => alpha_precompute pr (Some size) end) (fun a =>
         alpha_size_loop pr size (max_iter_size_rejection pr) 0 0 0 0 0 None
           (al_max a / al_min a <= 1 + ((size%:R + 3%:R) ^+ 2)^-1) a)
  end.

(** ** The object *)

(** An element of list_of_samples: a sample (exact samplers) or a whole chain (MCMC). *)
Inductive entry := Sample of seq nat | Chain of seq (seq nat).

(** Attributes assigned by __init__ (l.106-167).  An array of eigenvectors is the sequence of its columns.
    [eval_L] stands for the pair of attributes eval_L, X_data (when both are given) through the matrix eval_L(X_data).
    L_dual (l.150-156) is not stored: it is Phi Phi^T when Phi = L_gram_factor has d < N rows, see [has_dual]. *)
Record dpp := Dpp {
  kernel_type : string; projection : bool;
  K_ : option mat; K_eig_vals : option (seq R); eig_vecs : option (seq 'cV[R]_N);
  A_zono : option {d : nat & 'M[R]_(d, N)};
  L_ : option mat; L_eig_vals : option (seq R); L_gram_factor : option {d : nat & 'M[R]_(d, N)};
  eval_L : option mat; intermediate_sample_info : option info;
  sampling_mode : string; list_of_samples : seq entry; size_k_dpp : nat; E_poly : option (seq (seq R)) }.

Definition set_K x s := Dpp (kernel_type s) (projection s) (Some x) (K_eig_vals s) (eig_vecs s) (A_zono s) (L_ s)
  (L_eig_vals s) (L_gram_factor s) (eval_L s) (intermediate_sample_info s) (sampling_mode s) (list_of_samples s) (size_k_dpp s) (E_poly s).
Definition set_K_eig_vals x s := Dpp (kernel_type s) (projection s) (K_ s) (Some x) (eig_vecs s) (A_zono s) (L_ s)
  (L_eig_vals s) (L_gram_factor s) (eval_L s) (intermediate_sample_info s) (sampling_mode s) (list_of_samples s) (size_k_dpp s) (E_poly s).
Definition set_eig_vecs x s := Dpp (kernel_type s) (projection s) (K_ s) (K_eig_vals s) (Some x) (A_zono s) (L_ s)
  (L_eig_vals s) (L_gram_factor s) (eval_L s) (intermediate_sample_info s) (sampling_mode s) (list_of_samples s) (size_k_dpp s) (E_poly s).
Definition set_L x s := Dpp (kernel_type s) (projection s) (K_ s) (K_eig_vals s) (eig_vecs s) (A_zono s) (Some x)
  (L_eig_vals s) (L_gram_factor s) (eval_L s) (intermediate_sample_info s) (sampling_mode s) (list_of_samples s) (size_k_dpp s) (E_poly s).
Definition set_L_eig_vals x s := Dpp (kernel_type s) (projection s) (K_ s) (K_eig_vals s) (eig_vecs s) (A_zono s) (L_ s)
  (Some x) (L_gram_factor s) (eval_L s) (intermediate_sample_info s) (sampling_mode s) (list_of_samples s) (size_k_dpp s) (E_poly s).
Definition set_info x s := Dpp (kernel_type s) (projection s) (K_ s) (K_eig_vals s) (eig_vecs s) (A_zono s) (L_ s)
  (L_eig_vals s) (L_gram_factor s) (eval_L s) (Some x) (sampling_mode s) (list_of_samples s) (size_k_dpp s) (E_poly s).
Definition set_mode x s := Dpp (kernel_type s) (projection s) (K_ s) (K_eig_vals s) (eig_vecs s) (A_zono s) (L_ s)
  (L_eig_vals s) (L_gram_factor s) (eval_L s) (intermediate_sample_info s) x (list_of_samples s) (size_k_dpp s) (E_poly s).
Definition set_samples x s := Dpp (kernel_type s) (projection s) (K_ s) (K_eig_vals s) (eig_vecs s) (A_zono s) (L_ s)
  (L_eig_vals s) (L_gram_factor s) (eval_L s) (intermediate_sample_info s) (sampling_mode s) x (size_k_dpp s) (E_poly s).
Definition set_size x s := Dpp (kernel_type s) (projection s) (K_ s) (K_eig_vals s) (eig_vecs s) (A_zono s) (L_ s)
  (L_eig_vals s) (L_gram_factor s) (eval_L s) (intermediate_sample_info s) (sampling_mode s) (list_of_samples s) x (E_poly s).
Definition set_E_poly x s := Dpp (kernel_type s) (projection s) (K_ s) (K_eig_vals s) (eig_vecs s) (A_zono s) (L_ s)
  (L_eig_vals s) (L_gram_factor s) (eval_L s) (intermediate_sample_info s) (sampling_mode s) (list_of_samples s) (size_k_dpp s) (Some x).

(** ** Methods *)
Definition meth A := dpp -> prog (dpp * (A + exn)).
Definition mret A (a : A) : meth A := fun s => Ret (s, inl a).
Definition mraise A (e : exn) : meth A := fun s => Ret (s, inr e).
Definition mbind A B (m : meth A) (g : A -> meth B) : meth B := fun s =>
  bind (m s) (fun sr => match sr.2 with inl a => g a sr.1 | inr e => Ret (sr.1, inr e) end).
Definition get : meth dpp := fun s => Ret (s, inl s).
Definition modify (f : dpp -> dpp) : meth unit := fun s => Ret (f s, inl tt).
Definition lift A (m : prog A) : meth A := fun s => bind (catch m) (fun r => Ret (s, r)).
(** Use of an attribute that may be None: TypeError. *)
Definition need A (o : option A) : meth A := if o is Some a then mret a else mraise A TypeError.
(** A check of utils.py on a value that is not None. *)
Definition check A (r : option A + exn) : meth A :=
  match r with inl (Some a) => mret a | inl None => mraise A TypeError | inr e => mraise A e end.
Definition is_correlation s := String.eqb (kernel_type s) "correlation".
(** L_dual is not None (l.152-156) *)
Definition has_dual s := if L_gram_factor s is Some Phi then (tag Phi < N)%N else false.

(** Oracles: [scipy.linalg.eigh] (eigenvalues and the columns of eigenvectors), [scipy.linalg.qr(_, mode='economic')[0]],
    np.finfo(float).eps, the tolerance 1e-9 of the MCMC initialisation, and Python's recursion limit. *)
Variable eigh : forall n : nat, 'M[R]_n -> seq R * seq 'cV[R]_n.
Variable qr : forall r : nat, 'M[R]_(N, r) -> 'M[R]_(N, r).
Variables (eps tol : R) (limit : nat).

(** (eig_vecs * vals).dot(eig_vecs.T) (l.841, l.896) *)
Definition recompose (vals : seq R) (vecs : seq 'cV[R]_N) : mat :=
  colmx vecs *m diag_mx (\row_(i < size vecs) nth 0 vals i) *m (colmx vecs)^T.

(** Orthonormal columns of la.qr(A_zono.T) (l.454, l.616, l.849) *)
Definition qr_cols (A : {d : nat & 'M[R]_(d, N)}) : seq 'cV[R]_N :=
  [seq col j (qr (tagged A)^T) | j <- enum 'I_(tag A)].

(** eig / (1.0 - eig) under np.seterr(divide='raise') (l.664-665, l.918-919) *)
Definition to_L_eig (lam : seq R) : meth (seq R) :=
  if has (fun l => 1 - l == 0) lam then mraise _ FloatingPointError else mret [seq l / (1 - l) | l <- lam].

(** compute_K (l.819-867) and compute_L (l.869-937); [fuel] is the remaining recursion depth. *)
Fixpoint compute (wantK : bool) (fuel : nat) : meth unit :=
  if fuel is f.+1 then
    let cK := compute true f in let cL := compute false f in
    mbind get (fun s =>
    if wantK then
      if K_ s is Some _ then mret tt                                                             (* l.829 *)
      else if K_eig_vals s is Some lam then                                                      (* l.838 *)
        mbind (need (eig_vecs s)) (fun vs => modify (set_K (recompose lam vs)))
      else if A_zono s is Some A then                                                            (* l.843-850 *)
        mbind (modify (set_K_eig_vals (nseq (tag A) 1))) (fun _ =>
        mbind (modify (set_eig_vecs (qr_cols A))) (fun _ =>
        modify (set_K (colmx (qr_cols A) *m (colmx (qr_cols A))^T))))
      else if L_eig_vals s is Some gam then                                                      (* l.852-856 *)
        mbind (modify (set_K_eig_vals [seq g / (1 + g) | g <- gam])) (fun _ => cK)
      else if L_ s is Some L then                                                                (* l.858-863 *)
        mbind (modify (fun s => set_L_eig_vals (eigh L).1 (set_eig_vecs (eigh L).2 s))) (fun _ =>
        mbind (check (is_geq_0 (Some (eigh L).1))) (fun _ => cK))
      else mbind cL (fun _ => cK)                                                                (* l.865-867 *)
    else
      if L_ s is Some _ then mret tt                                                             (* l.879 *)
      else if is_correlation s && projection s then mraise _ ValueError                          (* l.884 *)
      else if L_eig_vals s is Some gam then                                                      (* l.893 *)
        mbind (need (eig_vecs s)) (fun vs => modify (set_L (recompose gam vs)))
      else if L_gram_factor s is Some Phi then                                                   (* l.898 *)
        modify (set_L ((tagged Phi)^T *m tagged Phi))
      else if eval_L s is Some L then modify (set_L L)                                           (* l.903-912 *)
      else if K_eig_vals s is Some lam then                                                      (* l.914-926 *)
        mbind (to_L_eig lam) (fun gam => mbind (modify (set_L_eig_vals gam)) (fun _ => cL))
      else if K_ s is Some K then                                                                (* l.928-933 *)
        mbind (modify (fun s => set_K_eig_vals (eigh K).1 (set_eig_vecs (eigh K).2 s))) (fun _ =>
        mbind (check (is_in_01 (Some (eigh K).1))) (fun _ => cL))
      else mbind cK (fun _ => cL))                                                               (* l.935-937 *)
  else mraise _ RecursionError.

Definition compute_K := compute true limit.
Definition compute_L := compute false limit.

(** self.list_of_samples.append(sampl); return sampl (l.466-467, l.702-703) *)
Definition record_sample (x : seq nat) : meth (seq nat) := fun s =>
  Ret (set_samples (rcons (list_of_samples s) (Sample x)) s, inl x).

(** assignment of the pair (sampl, self.intermediate_sample_info) (l.364, l.382, l.560, l.579) *)
Definition record_info (m : prog (seq item * info)) : meth (seq nat) :=
  mbind (lift m) (fun xi => mbind (modify (set_info xi.2)) (fun _ => record_sample [seq val i | i <- xi.1])).

(** eigenvalues and eigenvectors of L from its dual, V = Phi^T W Theta^(-1/2) (l.425, l.676).
    Division by sqrt(0), which numpy turns into nan/inf, yields 0 here. *)
Definition dual_vecs (Phi : {d : nat & 'M[R]_(d, N)}) (theta : seq R) (W : seq 'cV[R]_(tag Phi)) : seq 'cV[R]_N :=
  [seq (tagged Phi)^T *m ((Num.sqrt wt.2)^-1 *: wt.1) | wt <- zip W theta].

(** sample_exact (l.264-467) *)
Fixpoint sample_exact_rec (fuel : nat) (mode : string) (pr : vparams) : meth (seq nat) :=
  if fuel is f.+1 then
    let again := sample_exact_rec f mode pr in
    mbind (modify (set_mode mode)) (fun _ => mbind get (fun s =>
    if String.eqb mode "Schur" then                                                              (* l.336 *)
      if is_correlation s && projection s then
        mbind compute_K (fun _ => mbind get (fun s => mbind (need (K_ s)) (fun K =>
        mbind (lift (proj_dpp_sampler_kernel K mode None)) record_sample)))
      else mraise _ ValueError
    else if String.eqb mode "Chol" then                                                          (* l.347 *)
      mbind compute_K (fun _ => mbind get (fun s => mbind (need (K_ s)) (fun K =>
      mbind (lift (if is_correlation s && projection s then proj_dpp_sampler_kernel K mode None
                   else ints (dpp_sampler_generic_kernel K))) record_sample)))
    else if String.eqb mode "vfx" then                                                           (* l.355 *)
      if eval_L s is Some _ then record_info (dpp_vfx_sampler pr (intermediate_sample_info s))
      else mraise _ ValueError
    else if String.eqb mode "alpha" then                                                         (* l.373 *)
      if eval_L s is Some _ then record_info (alpha_dpp_sampler pr (intermediate_sample_info s))
      else mraise _ ValueError
    else if K_eig_vals s is Some lam then                                                        (* l.392-401 *)
      mbind (need (eig_vecs s)) (fun vs =>
      mbind (lift (ints (if is_correlation s && projection s then dpp_sampler_eig_proj qr lam vs mode
                         else dpp_sampler_eig qr lam vs mode))) record_sample)
    else if L_eig_vals s is Some gam then                                                        (* l.414 *)
      mbind (modify (set_K_eig_vals [seq g / (1 + g) | g <- gam])) (fun _ => again)
    else if (if has_dual s then L_gram_factor s else None) is Some Phi then                      (* l.419-428 *)
      let th := eigh (tagged Phi *m (tagged Phi)^T) in
      mbind (modify (set_L_eig_vals th.1)) (fun _ =>
      mbind (check (is_geq_0 (Some th.1))) (fun _ =>
      let gam := [seq Order.max g 0 | g <- th.1] in
      mbind (modify (set_L_eig_vals gam)) (fun _ =>
      mbind (modify (set_eig_vecs (dual_vecs gam th.2))) (fun _ => again))))
    else if (if projection s then K_ s else None) is Some K then                                 (* l.432 *)
      mbind (lift (proj_dpp_sampler_kernel K mode None)) record_sample
    else if K_ s is Some K then                                                                  (* l.436-440 *)
      mbind (modify (fun s => set_K_eig_vals (eigh K).1 (set_eig_vecs (eigh K).2 s))) (fun _ =>
      mbind (check (is_in_01 (Some (eigh K).1))) (fun _ => again))
    else if L_ s is Some L then                                                                  (* l.442-446 *)
      mbind (modify (fun s => set_L_eig_vals (eigh L).1 (set_eig_vecs (eigh L).2 s))) (fun _ =>
      mbind (check (is_geq_0 (Some (eigh L).1))) (fun _ => again))
    else if A_zono s is Some A then                                                              (* l.450-456 *)
      mbind (modify (fun s => set_K_eig_vals (nseq (tag A) 1) (set_eig_vecs (qr_cols A) s))) (fun _ => again)
    else if eval_L s is Some _ then mbind compute_L (fun _ => again)                             (* l.458 *)
    else mraise _ ValueError))                                                                   (* l.463 *)
  else mraise _ RecursionError.

Definition sample_exact := sample_exact_rec limit.

(** sample_exact_k_dpp (l.469-703) *)
Fixpoint sample_exact_k_dpp_rec (fuel : nat) (size : nat) (mode : string) (pr : vparams) : meth (seq nat) :=
  if fuel is f.+1 then
    let again := sample_exact_k_dpp_rec f size mode pr in
    mbind (modify (fun s => set_size size (set_mode mode s))) (fun _ => mbind get (fun s =>      (* l.549-550 *)
    if String.eqb mode "vfx" then                                                                (* l.552 *)
      if eval_L s is Some _ then record_info (k_dpp_vfx_sampler pr size (intermediate_sample_info s))
      else mraise _ ValueError
    else if String.eqb mode "alpha" then                                                         (* l.571 *)
      if eval_L s is Some _ then record_info (alpha_k_dpp_sampler pr size (intermediate_sample_info s))
      else mraise _ ValueError
    else if projection s then                                                                    (* l.591 *)
      if is_correlation s then
        if K_eig_vals s is Some lam then                                                         (* l.594, l.604 *)
          if size != rint N (\sum_(l <- lam) l) then mraise _ ValueError                         (* l.601 *)
          else mbind (need (eig_vecs s)) (fun vs =>
               mbind (lift (ints (proj_dpp_sampler_eig qr (colmx (mask [seq 2%:R^-1 < l | l <- lam] vs)) mode (Some size))))
                     record_sample)
        else if A_zono s is Some A then                                                          (* l.596, l.612-621 *)
          if size != tag A then mraise _ ValueError
          else mbind (modify (fun s => set_K_eig_vals (nseq (tag A) 1) (set_eig_vecs (qr_cols A) s))) (fun _ =>
               mbind (lift (ints (proj_dpp_sampler_eig qr (colmx (qr_cols A)) mode (Some size)))) record_sample)
        else mbind (need (K_ s)) (fun K =>                                                       (* l.598, l.623 *)
          if size != rint N (\tr K) then mraise _ ValueError
          else mbind (lift (proj_dpp_sampler_kernel K mode (Some size))) record_sample)
      else if L_eig_vals s is Some gam then                                                      (* l.630 *)
        mbind (need (eig_vecs s)) (fun vs =>
        mbind (lift (ints (proj_dpp_sampler_eig qr (colmx (mask [seq 2%:R^-1 < l | l <- gam] vs)) mode (Some size))))
              record_sample)
      else mbind compute_L (fun _ => mbind get (fun s => mbind (need (L_ s)) (fun L =>           (* l.637-643 *)
           mbind (lift (proj_dpp_sampler_kernel L mode (Some size))) record_sample)))
    else if L_eig_vals s is Some gam then                                                        (* l.646 *)
      mbind (if (if E_poly s is Some _ then (size_k_dpp s < size)%N else true)                   (* l.650 *)
             then modify (set_E_poly (elementary_symmetric_polynomials gam size)) else mret tt) (fun _ =>
      mbind get (fun s => mbind (need (eig_vecs s)) (fun vs =>
      mbind (lift (k_dpp_eig_vecs_selector eps N gam size (E_poly s))) (fun ind =>               (* l.654 *)
      mbind (modify (set_size size)) (fun _ =>                                                   (* l.659 *)
      mbind (lift (ints (proj_dpp_sampler_eig qr (colmx [seq nth 0 vs i | i <- ind]) mode None))) record_sample)))))
    else if K_eig_vals s is Some lam then                                                        (* l.663 *)
      mbind (to_L_eig lam) (fun gam => mbind (modify (set_L_eig_vals gam)) (fun _ => again))
    else if (if has_dual s then L_gram_factor s else None) is Some Phi then                      (* l.670-679 *)
      let th := eigh (tagged Phi *m (tagged Phi)^T) in
      mbind (modify (set_L_eig_vals th.1)) (fun _ =>
      mbind (check (is_geq_0 (Some th.1))) (fun _ =>
      mbind (modify (set_eig_vecs (dual_vecs th.1 th.2))) (fun _ => again)))
    else if L_ s is Some L then                                                                  (* l.681-685 *)
      mbind (modify (fun s => set_L_eig_vals (eigh L).1 (set_eig_vecs (eigh L).2 s))) (fun _ =>
      mbind (check (is_geq_0 (Some (eigh L).1))) (fun _ => again))
    else if K_ s is Some K then                                                                  (* l.687-691 *)
      mbind (modify (fun s => set_K_eig_vals (eigh K).1 (set_eig_vecs (eigh K).2 s))) (fun _ =>
      mbind (check (is_in_01 (Some (eigh K).1))) (fun _ => again))
    else if eval_L s is Some _ then mbind compute_L (fun _ => again)                             (* l.693 *)
    else mraise _ ValueError))                                                                   (* l.699 *)
  else mraise _ RecursionError.

Definition sample_exact_k_dpp := sample_exact_k_dpp_rec limit.

(** Keyword arguments of the MCMC samplers, with the readings of the clock. *)
Record mcmc_params := McmcParams { p_init : option (seq item); p_nb_iter : nat; p_T_max : option R;
  p_size : option nat; p_clock : nat -> R }.
(** zonotope_sampler (mcmc_sampling.py l.451-614) is a parameter here. *)
Variable zonotope_sampler : {d : nat & 'M[R]_(d, N)} -> mcmc_params -> prog (seq (seq nat)).

(** self.list_of_samples.append(chain); return chain[-1] (l.798-799) *)
Definition record_chain (c : seq (seq nat)) : meth (seq nat) := fun s =>
  Ret (set_samples (rcons (list_of_samples s) (Chain c)) s,
         if c is x :: c' then inl (last x c') else inr IndexError).

(** sample_mcmc (l.706-799) *)
Definition sample_mcmc (mode : string) (p : mcmc_params) : meth (seq nat) :=
  let run M := mbind (lift (dpp_sampler_mcmc tol M mode (p_init p) (p_nb_iter p) (p_T_max p) (p_size p) (p_clock p))) record_chain in
  mbind (modify (set_mode mode)) (fun _ => mbind get (fun s =>
  if String.eqb mode "zonotope" then                                                             (* l.760 *)
    if A_zono s is Some A then mbind (lift (zonotope_sampler A p)) record_chain else mraise _ ValueError
  else if String.eqb mode "E" then                                                               (* l.769 *)
    if is_correlation s && projection s then
      mbind compute_K (fun _ => mbind get (fun s => mbind (need (K_ s)) (fun K =>
      if p_size p == Some (rint N (\tr K)) then run K else mraise _ ValueError)))                (* l.775-780 *)
    else mbind compute_L (fun _ => mbind get (fun s => mbind (need (L_ s)) run))
  else if String.eqb mode "AED" || String.eqb mode "AD" then                                     (* l.785 *)
    mbind compute_L (fun _ => mbind get (fun s => mbind (need (L_ s)) run))
  else mraise _ ValueError)).                                                                    (* l.789 *)

(** sample_mcmc_k_dpp (l.801-817): the mode is forced to 'E'. *)
Definition sample_mcmc_k_dpp (size : nat) (p : mcmc_params) : meth (seq nat) :=
  mbind (modify (fun s => set_size size (set_mode "E" s))) (fun _ =>
  sample_mcmc "E" (McmcParams (p_init p) (p_nb_iter p) (p_T_max p) (Some size) (p_clock p))).

(** flush_samples (l.252-261): the table E_poly is kept. *)
Definition flush_samples : meth unit := modify (fun s => set_size 0 (set_samples [::] s)).

(** ** Histories: a user calls methods one after the other, catching exceptions. *)
Inductive call :=
| SampleExact of string & vparams
| SampleExactKdpp of nat & string & vparams
| SampleMcmc of string & mcmc_params
| SampleMcmcKdpp of nat & mcmc_params
| FlushSamples
| ComputeK
| ComputeL.

(** Some x: the call returned the sample x; None: it returned nothing. *)
Definition exec (c : call) : meth (option (seq nat)) :=
  let some (m : meth (seq nat)) := mbind m (fun x => mret (Some x)) in
  let none (m : meth unit) := mbind m (fun _ => mret None) in
  match c with
  | SampleExact mode pr => some (sample_exact mode pr)
  | SampleExactKdpp k mode pr => some (sample_exact_k_dpp k mode pr)
  | SampleMcmc mode p => some (sample_mcmc mode p)
  | SampleMcmcKdpp k p => some (sample_mcmc_k_dpp k p)
  | FlushSamples => none flush_samples
  | ComputeK => none compute_K
  | ComputeL => none compute_L
  end.

(** The history: the results of the calls, in order, with the final object. *)
Fixpoint run (cs : seq call) (s : dpp) : prog (dpp * seq (option (seq nat) + exn)) :=
  if cs is c :: cs' then
    bind (exec c s) (fun sr => bind (run cs' sr.1) (fun s_rs => Ret (s_rs.1, sr.2 :: s_rs.2)))
  else Ret (s, [::]).

(** ** Constructor (l.104-176) and __check_args_coherence (l.192-242) *)

(** Keyword arguments: [None] means that the key is absent; a present key may carry the value None. *)
Record kwargs := Kwargs {
  kw_K : option (option mat);
  kw_K_eig_dec : option (option (seq R) * option (seq 'cV[R]_N));
  kw_A_zono : option (option {d : nat & 'M[R]_(d, N)});
  kw_L : option (option mat);
  kw_L_eig_dec : option (option (seq R) * option (seq 'cV[R]_N));
  kw_L_gram_factor : option (option {d : nat & 'M[R]_(d, N)});
  (** (eval_L, X_data): eval_L is callable or not and eval_L(X_data) is the given matrix; X_data well shaped or not *)
  kw_L_eval_X_data : option ((bool * mat) * bool);
  kw_other_keys : seq string }.

(** The projection argument: a Python bool or something else. *)
Inductive pyobj := PyBool of bool | PyOther.

Definition oget_ A (o : option (option A)) : option A := if o is Some x then x else None.

Definition check_args_coherence (kt : string) (proj : pyobj) (kw : kwargs) : bool + exn :=
  match proj with
  | PyOther => inr AttributeError                      (* l.196-198: self.is_projection does not exist *)
  | PyBool b =>
      if String.eqb kt "correlation" then                                                        (* l.204 *)
        if kw_K kw || kw_K_eig_dec kw || kw_A_zono kw
        then inl (b || kw_A_zono kw)                                                             (* l.206-212 *)
        else inr ValueError
      else if String.eqb kt "likelihood" then                                                    (* l.222 *)
        if kw_L kw || kw_L_eig_dec kw || kw_L_gram_factor kw || kw_L_eval_X_data kw
        then inl b else inr ValueError
      else inr ValueError                                                                        (* l.236 *)
  end.

Definition rbind A B (r : A + exn) (g : A -> B + exn) : B + exn := match r with inl a => g a | inr e => inr e end.

Definition init (kt : string) (proj : pyobj) (kw : kwargs) : dpp + exn :=
  rbind (check_args_coherence kt proj kw) (fun p =>
  rbind (is_symmetric (oget_ (kw_K kw))) (fun K0 =>                                              (* l.121 *)
  rbind (if p then is_projection K0 else inl K0) (fun K0 =>
  let: (ev, vecs) := if kw_K_eig_dec kw is Some d then d else (None, None) in                    (* l.125 *)
  rbind (if p then is_equal_to_O_or_1 ev else is_in_01 ev) (fun K_ev =>
  rbind (is_orthonormal_columns vecs) (fun vecs0 =>                                              (* l.130 *)
  rbind (is_full_row_rank (oget_ (kw_A_zono kw))) (fun A =>                                      (* l.132 *)
  rbind (is_symmetric (oget_ (kw_L kw))) (fun L0 =>                                              (* l.136 *)
  rbind (if p then is_projection L0 else inl L0) (fun L0 =>
  let: (ev, vecs) := if kw_L_eig_dec kw is Some d then d else (None, None) in                    (* l.140 *)
  rbind (if p then is_equal_to_O_or_1 ev else is_geq_0 ev) (fun L_ev =>
  rbind (if vecs0 is Some _ then inl vecs0 else is_orthonormal_columns vecs) (fun vecs1 =>       (* l.145 *)
  let Phi := oget_ (kw_L_gram_factor kw) in                                                      (* l.149 *)
  let L1 := if Phi is Some F then                                                                (* l.152-160 *)
              if (tag F < N)%N then L0
              else if L0 is None then Some ((tagged F)^T *m tagged F) else L0
            else L0 in
  rbind (if kw_L_eval_X_data kw is Some (f, X) then                                              (* l.166-176 *)
           if f.1 && X then inl (Some f.2) else inr ValueError
         else inl None) (fun ev_L =>
  inl (Dpp kt p K0 K_ev vecs1 A L1 L_ev Phi ev_L None "GS" [::] 0 None)))))))))))).

End Model.
