(** * VfxModel: model of dppy/intermediate_sampling.py (DPP-VFX and alpha-DPP samplers).

    [L] is the matrix of the values of eval_L on X_data; a dictionary of points of X_data is given by the list of its indices.
    [eigh] is numpy.linalg.eigh (and numpy.linalg.svd, which is applied to a positive semidefinite matrix at l.212), [qr] is
    scipy.linalg.qr (only met in a mode that is not used here), [eps] is np.finfo(float).eps.
    Numbers are the real numbers: no rounding.  Progress bars are omitted. *)
From Coq Require Import Reals String.
From mathcomp Require Import all_ssreflect all_algebra.
From Verif Require Import Prob Rstruct PProg ExactModel.
From Verif Require FiniteModel.
Set Implicit Arguments. Unset Strict Implicit. Unset Printing Implicit Defensive.
Import Order.Theory GRing.Theory Num.Theory.
Local Open Scope ring_scope.

Section Model.
Variables (n : nat) (L : 'M[R]_n).
Variable eigh : forall m : nat, 'M[R]_m -> seq R * seq 'cV[R]_m.
Variable qr : forall N r : nat, 'M[R]_(N, r) -> 'M[R]_(N, r).
Variable eps : R.
Notation item := 'I_n.

(** np.sqrt *)
Definition rsqrt (x : R) : R := Num.sqrt (x : RR).

(** eval_L(X_data[D], X_data[D']) and eval_L(X_data[D], X_data) *)
Definition evalL (D D' : seq item) : 'M[R]_(size D, size D') := \matrix_(i, j) L (tnth (in_tuple D) i) (tnth (in_tuple D') j).
Definition evalLX (D : seq item) : 'M[R]_(size D, n) := \matrix_(i, j) L (tnth (in_tuple D) i) j.

(** utils.py l.239: threshold of the eigenvalues that are considered to be zero *)
Definition thresh (vals : seq R) : R := (\big[Num.max/0]_(x <- vals) `|x|) * (size vals)%:R * eps.

(** stable_filter (utils.py l.230-254); np.max of an empty array is a ValueError *)
Definition stable_filter m (vals : seq R) (vecs : seq 'cV[R]_m) : (seq R * seq 'cV[R]_m) + exn :=
  if vals is [::] then inr ValueError else
  let keep := [seq thresh vals < `|x| | x <- vals] in
  if has (fun x => x <= - thresh vals) vals then inr ValueError
  else inl (mask keep vals, mask keep vecs).

(** stable_invert_root (utils.py l.257-266) followed by the product S_root_inv * U.T (l.71, l.216) *)
Definition inv_root m (vals : seq R) (vecs : seq 'cV[R]_m) : 'M[R]_(size vecs, m) :=
  \matrix_(i, j) ((rsqrt (nth 0 vals i))^-1 * tnth (in_tuple vecs) i j 0).

(** ** DPP-VFX *)

(** _IntermediateSampleInfo (l.33-36), without the rejection counter *)
Record vinfo := VInfo { v_alpha : R; v_logdet : R; v_q : R; v_s : R; v_z : R; v_rls : item -> R }.

(** estimate_rls_from_embedded_points (l.48-82) *)
Definition estimate_embedded m (eigvec : seq 'cV[R]_m) (eigvals : seq R) (B_bar_T : 'M[R]_(m, n)) (diag_L diag_L_hat : item -> R)
    (alpha_star : R) : (item -> R) + exn :=
  match stable_filter [seq Num.max x 0 | x <- eigvals] eigvec with                       (* l.69 *)
  | inr e => inr e
  | inl (Sv, U) =>
    let X_precond := inv_root Sv U *m B_bar_T in                                          (* l.71-73 *)
    let rls := fun j => diag_L j * alpha_star - diag_L_hat j * alpha_star + \sum_i X_precond i j ^+ 2 in  (* l.75-77 *)
    if [forall j, 0 <= rls j] then inl rls else inr ValueError                           (* l.79-81 *)
  end.

(** The eigenvalues of I + A, and B_bar_T (l.211-239), from the dictionary D_A.
    [brentq] (l.269-273) is an argument of [vfx_precompute]: it returns a root in [10 eps, 1], or does not converge. *)
Definition vfx_B_bar (D_A : seq item) : {m : nat & 'M[R]_(m, n)} + exn :=
  let: (S_DD, U_DD) := eigh (evalL D_A D_A) in                                           (* l.212 *)
  match stable_filter S_DD U_DD with                                                     (* l.213 *)
  | inr e => inr e
  | inl (Sv, U) => inl (existT (fun m => 'M[R]_(m, n)) (size U) (inv_root Sv U *m evalLX D_A))  (* l.216-220 *)
  end.

(** vfx_sampling_precompute_constants, phase 2 (l.211-321), for the dictionary D_A; q is set by the caller
    (exact_sampling.py l.771-772, l.1005-1007): q_func(s), by default s * s. *)
Definition vfx_precompute (D_A : seq item) (desired : option R) (brentq : (R -> R) -> option R) (q_func : R -> R) : vinfo + exn :=
  match vfx_B_bar D_A with
  | inr e => inr e
  | inl (existT m B_bar_T) =>
    let diag_L := fun j => L j j in                                                      (* l.196 *)
    let diag_L_hat := fun j => \sum_i B_bar_T i j ^+ 2 in                                (* l.221 *)
    let trace_L := \sum_j diag_L j in
    let trace_L_hat := \sum_j diag_L_hat j in                                            (* l.222 *)
    let I_A_mm := B_bar_T *m B_bar_T^T + 1%:M in                                         (* l.227-228 *)
    let: (eigvals, eigvec) := eigh I_A_mm in                                             (* l.235 *)
    if has (fun x => x <= 1) eigvals then inr ValueError else                            (* l.237-239 *)
    let natural := trace_L - trace_L_hat + \sum_(x <- eigvals) (x - 1) / x in            (* l.241 *)
    if natural < 0 then inr ValueError else                                              (* l.243-245 *)
    match (if desired is Some k then
             if natural <= k then None                                                   (* l.252-259 *)
             else brentq (fun x => x * trace_L - x * trace_L_hat
                                   + \sum_(e <- eigvals) (e - 1) / (e - 1 + x^-1) - k)   (* l.263-280 *)
           else Some 1) with                                                             (* l.250-251 *)
    | None => inr ValueError
    | Some alpha_star =>
      let eigvals := [seq x + (alpha_star^-1 - 1) | x <- eigvals] in                     (* l.284 *)
      match estimate_embedded eigvec eigvals B_bar_T diag_L diag_L_hat alpha_star with   (* l.285-290 *)
      | inr e => inr e
      | inl rls =>
        let s := \sum_j rls j in                                                         (* l.299 *)
        if s < 0 then inr ValueError else
        let z := \sum_(x <- eigvals) (x - alpha_star^-1) / x in                          (* l.304 *)
        let logdet_I_A := \sum_(x <- eigvals) ln (alpha_star * x) in                     (* l.307 *)
        if logdet_I_A < 0 then inr ValueError                                            (* l.309-311 *)
        else inl (VInfo alpha_star logdet_I_A (q_func s) s z rls)                        (* l.313-319 *)
      end
    end
  end.

(** rng.choice(n, size=t, p=p, replace=True) (l.374-377); the weights are validated even when t = 0 *)
Fixpoint choices (p : item -> R) (t : nat) : prog RR (seq item) :=
  if t is t'.+1 then Choice (R := RR) (enum item) p (fun i => bind (choices p t') (fun s => Ret (R := RR) (i :: s))) else Ret (R := RR) [::].
Definition rng_choice (p : item -> R) (t : nat) : prog RR (seq item) :=
  if valid_weights (R := RR) (enum item) p then choices p t else Raise (R := RR) ValueError.

(** np.unique (l.378): the sorted list of the distinct elements *)
Definition unique (sigma : seq item) : seq item := [seq i <- enum item | i \in sigma].

(** np.ceil *)
Definition ceil (x : R) : R := - IZR (Int_part (- x)).

(** phase 4 (l.429-446, l.794-809): the sample of the DPP with likelihood kernel L_tilda on the list [u], drawn by
    FiniteDPP(kernel_type='likelihood', L_eig_dec=(E, U)).sample_exact() in its default mode 'GS' (see C21, C53 for the object) *)
Definition phase4 (u : seq item) (L_tilda : 'M[R]_(size u)) : prog RR (seq item) :=
  let: (E, U) := eigh L_tilda in
  bind (dpp_sampler_eig_L (R := RR) (qr (N := size u)) E U "GS") (fun S_tilda => Ret (R := RR) [seq tnth (in_tuple u) j | j <- S_tilda]).

(** W_square_inv (l.391-393) *)
Definition vfx_W_square_inv (I : vinfo) (sigma : seq item) : 'rV[R]_(size (unique sigma)) :=
  \row_j (v_q I * v_rls I (tnth (in_tuple (unique sigma)) j) / (v_s I * (count_mem (tnth (in_tuple (unique sigma)) j) sigma)%:R)).

(** I_L_sigma (l.395-397) *)
Definition vfx_I_L_sigma (I : vinfo) (sigma : seq item) : 'M[R]_(size (unique sigma)) :=
  v_alpha I *: evalL (unique sigma) (unique sigma) + diag_mx (vfx_W_square_inv I sigma).

(** acc_thresh (l.404-410), when the determinant is positive *)
Definition vfx_acc_thresh (I : vinfo) (sigma : seq item) (t : nat) : R :=
  v_z I + ln (\det (vfx_I_L_sigma I sigma)) - \sum_j ln (vfx_W_square_inv I sigma 0 j) - v_logdet I - t%:R * v_s I / v_q I.

(** L_tilda (l.431-434).  Broadcasting makes W a square matrix: W[i,j] = sqrt(s c_j) / sqrt(q l_i). *)
Definition vfx_L_tilda (I : vinfo) (sigma : seq item) : 'M[R]_(size (unique sigma)) :=
  let u := in_tuple (unique sigma) in
  let W := fun i j => rsqrt (v_s I * (count_mem (tnth u j) sigma)%:R) / rsqrt (v_q I * v_rls I (tnth u i)) in
  \matrix_(i, j) (v_alpha I * W j i * L (tnth u i) (tnth u j) * W i j).

(** one iteration of the rejection loop (l.368-422) and phase 4; [None]: rejected.
    [np.log(rng.rand()) <= acc_thresh] holds with probability min(1, exp(acc_thresh)) (0 when log det is -inf). *)
Definition vfx_iter (I : vinfo) : pprog (option (seq item)) :=
  Pois (ceil (v_q I * exp (v_s I / v_q I))) (fun t =>                                    (* l.370-371 *)
  Draw (rng_choice (fun i => v_rls I i / v_s I) t) (fun sigma =>                         (* l.374-377 *)
  let d := \det (vfx_I_L_sigma I sigma) in
  if d < 0 then PRaise ValueError else                                                   (* l.399-402 *)
  if d == 0 then PRet None else
  let acc := vfx_acc_thresh I sigma t in
  if 10%:R^-1 <= acc then PRaise ValueError else                                         (* l.412-414 *)
  Draw (Flip (R := RR) (exp acc) (fun b => Ret (R := RR) b)) (fun accept =>                     (* l.416 *)
  if accept then Draw (phase4 (vfx_L_tilda I sigma)) (fun S => PRet (Some S)) else PRet None))).

(** the rejection loop: a sample and rej_iter (l.368-446) *)
Fixpoint vfx_loop (I : vinfo) (max_iter rej : nat) : pprog (seq item * nat) :=
  if max_iter is m.+1 then
    pbind (vfx_iter I) (fun o => if o is Some X then PRet (X, rej) else vfx_loop I m rej.+1)
  else PRaise ValueError.                                                                (* l.423-427 *)
Definition vfx_do_sampling_loop (I : vinfo) (max_iter : nat) : pprog (seq item * nat) := vfx_loop I max_iter 0.

(** k_dpp_vfx_sampler, rejection on the size (exact_sampling.py l.1011-1026) *)
Fixpoint k_vfx_loop (I : vinfo) (size max_iter rounds : nat) : pprog (seq item) :=
  if rounds is r.+1 then
    pbind (vfx_do_sampling_loop I max_iter) (fun sr => if seq.size sr.1 == size then PRet sr.1 else k_vfx_loop I size max_iter r)
  else PRaise ValueError.

(** ** alpha-DPP *)

(** the fields of _IntermediateSampleInfoAlphaRescale that the sampling loop reads (l.38-45); the dictionary is given by the
    indices of its points and their probabilities *)
Record ainfo := AInfo { a_alpha : R; a_r : R; a_D : seq item; a_probs : seq R; a_vals : seq R; a_vecs : seq 'cV[R]_(size a_D);
  a_bound : item -> R; a_valid : item -> bool }.

(** L_hat (l.579-583) *)
Definition alpha_L_hat (D : seq item) (probs : seq R) : 'M[R]_(size D) :=
  \matrix_(i, j) ((rsqrt (nth 0 probs j))^-1 * evalL D D i j * (rsqrt (nth 0 probs i))^-1).

(** estimate_rls_from_weighted_dict_eigendecomp for one point (l.105-118) *)
Definition estimate_weighted (D : seq item) (probs vals : seq R) (vecs : seq 'cV[R]_(size D)) (alpha : R) (x : item) : R :=
  let L_Dx := fun i : 'I_(size D) => (rsqrt (nth 0 probs i))^-1 * L (tnth (in_tuple D) i) x in       (* l.105, l.112-113 *)
  let E := fun k : 'I_(size vecs) => (\sum_i tnth (in_tuple vecs) k i 0 * L_Dx i) * rsqrt ((alpha * nth 0 vals k + 1)^-1) in  (* l.114-115 *)
  alpha * (L x x - alpha * \sum_k E k ^+ 2).                                             (* l.117-118 *)

(** alpha_dpp_sampling_precompute_constants, phase 2 (l.578-661), for the dictionary (D, probs, lam); r is set by the caller
    (exact_sampling.py l.880-881, l.1143-1145): r_func(deff), by default deff. *)
Definition alpha_precompute (D : seq item) (probs : seq R) (lam : R) (desired : option R) (brentq : (R -> R) -> option R)
    (r_func : R -> R) : ainfo + exn :=
  let: (vals0, vecs0) := eigh (alpha_L_hat D probs) in                                   (* l.584 *)
  match stable_filter vals0 vecs0 with                                                   (* l.586 *)
  | inr e => inr e
  | inl (vals, vecs) =>
    let rls := [seq estimate_weighted probs vals vecs lam^-1 x | x <- D] in              (* l.588-594 *)
    if has (fun x => x < 0) rls then inr ValueError else                                 (* l.120-122 *)
    let natural := \sum_(rp <- zip rls probs) rp.1 / rp.2 in                             (* l.596 *)
    if natural < 0 then inr ValueError else                                              (* l.598-600 *)
    match (if desired is Some k then
             if natural <= k then None                                                   (* l.607-614 *)
             else if brentq (fun x => \sum_(e <- vals) (1 - (x * e + 1)^-1) - k) is Some a then  (* l.618-630 *)
                    if 1 < a then None else Some a                                       (* l.631-635 *)
                  else None
           else Some 1) with
    | None => inr ValueError
    | Some alpha_hat =>
      let deff := \sum_(e <- vals) (1 - (alpha_hat * e + 1)^-1) in                       (* l.637 *)
      inl (@AInfo alpha_hat (r_func deff) D probs vals vecs (fun j => alpha_hat * L j j) (fun _ => false))  (* l.644-659 *)
    end
  end.

(** rng.poisson(lam=vector) (l.715): independent draws *)
Fixpoint poisson_vec (l : seq item) (lam : item -> R) : pprog (item -> nat) :=
  if l is i :: l' then
    Pois (lam i) (fun t => pbind (poisson_vec l' lam) (fun f => PRet (fun j => if j == i then t else f j)))
  else PRet (fun _ => 0%N).

(** rng.binomial(n, p) (l.740): the number of successes in n independent trials; ValueError when p is not in [0,1] *)
Fixpoint trials (m : nat) (p : R) : prog RR nat :=
  if m is m'.+1 then Flip (R := RR) p (fun b => bind (trials m' p) (fun k => Ret (R := RR) (b + k)%N)) else Ret (R := RR) 0%N.
Definition binomial (m : nat) (p : R) : prog RR nat := if 0 <= p <= 1 then trials m p else Raise (R := RR) ValueError.
Fixpoint binomial_vec (l : seq item) (c : item -> nat) (p : item -> R) : prog RR (item -> nat) :=
  if l is i :: l' then
    bind (binomial (c i) (p i)) (fun k => bind (binomial_vec l' c p) (fun f => Ret (R := RR) (fun j => if j == i then k else f j)))
  else Ret (R := RR) c.

(** A (l.754) and L_tilda = alpha_hat A L_sigma A (l.799) *)
Definition alpha_L_tilda (I : ainfo) (bound : item -> R) (c : item -> nat) (u : seq item) : 'M[R]_(size u) :=
  let A := fun i : 'I_(size u) => rsqrt ((c (tnth (in_tuple u) i))%:R / (a_r I * bound (tnth (in_tuple u) i))) in
  \matrix_(i, j) (a_alpha I * A j * evalL u u i j * A i).

(** acc_thresh (l.763-774), when the determinant is positive *)
Definition alpha_acc_thresh (I : ainfo) (bound : item -> R) (c : item -> nat) : R :=
  let u := [seq i <- enum item | c i != 0%N] in
  let deff := \sum_(e <- a_vals I) (1 - (a_alpha I * e + 1)^-1) in
  let log_det := \sum_(e <- a_vals I) ln (1 + a_alpha I * e) in
  deff + ln (\det (alpha_L_tilda I bound c u + 1%:M)) - log_det - (\sum_i c i)%:R / a_r I.

(** the estimates of the leverage scores used by the loop (l.722-728) *)
Definition a_est (I : ainfo) : item -> R := estimate_weighted (a_probs I) (a_vals I) (a_vecs I) (a_alpha I).

(** one iteration (l.712-787) and phase 4: the sample ([None]: rejected) and the new rls_bound, rls_bound_valid *)
Definition alpha_iter (I : ainfo) (bound : item -> R) (valid : item -> bool) : pprog (option (seq item) * (item -> R) * (item -> bool)) :=
  pbind (poisson_vec (enum item) (fun i => a_r I * exp (a_r I)^-1 * bound i)) (fun s_vec =>          (* l.715 *)
  let idx := [seq i <- enum item | (s_vec i != 0%N) && ~~ valid i] in                    (* l.717-720 *)
  if has (fun i => a_est I i < 0) idx then PRaise ValueError else                        (* l.120-122 *)
  if has (fun i => bound i < a_est I i) idx then PRaise ValueError else                  (* l.730-733 *)
  let bound' := fun i => if i \in idx then a_est I i else bound i in                     (* l.735 *)
  let valid' := fun i => (i \in idx) || valid i in                                       (* l.736 *)
  Draw (binomial_vec idx s_vec (fun i => bound' i / bound i)) (fun c =>                  (* l.738-740 *)
  let u := [seq i <- enum item | c i != 0%N] in                                          (* l.743 *)
  let d := \det (alpha_L_tilda I bound' c u + 1%:M) in                                   (* l.754-758 *)
  if d < 0 then PRaise ValueError else                                                   (* l.759-761 *)
  if d == 0 then PRet (None, bound', valid') else
  let acc := alpha_acc_thresh I bound' c in
  if 0 <= acc then PRaise ValueError else                                                (* l.776-778 *)
  Draw (Flip (R := RR) (exp acc) (fun b => Ret (R := RR) b)) (fun accept =>                     (* l.780 *)
  if accept then Draw (phase4 (alpha_L_tilda I bound' c u)) (fun S => PRet (Some S, bound', valid'))
  else PRet (None, bound', valid')))).

(** the rejection loop (l.712-814): a sample, rej_iter and the updated bounds *)
Fixpoint alpha_loop (I : ainfo) (max_iter rej : nat) (bound : item -> R) (valid : item -> bool) : pprog (seq item * nat * ainfo) :=
  if max_iter is m.+1 then
    pbind (alpha_iter I bound valid) (fun o =>
      if o.1.1 is Some X then PRet (X, rej, @AInfo (a_alpha I) (a_r I) (a_D I) (a_probs I) (a_vals I) (a_vecs I) o.1.2 o.2)
      else alpha_loop I m rej.+1 o.1.2 o.2)
  else PRaise ValueError.
Definition alpha_do_sampling_loop (I : ainfo) (max_iter : nat) : pprog (seq item * nat * ainfo) :=
  alpha_loop I max_iter 0 (a_bound I) (a_valid I).

(** successive calls of alpha_dpp_sampler that hand over the cached information (exact_sampling.py l.873-889,
    finite_dpps.py l.373-389); [Ms] are the values of max_iter.  The random_state of every call continues the same stream. *)
Fixpoint alpha_calls (I : ainfo) (Ms : seq nat) : pprog (seq (seq item)) :=
  if Ms is M :: Ms' then
    pbind (alpha_do_sampling_loop I M) (fun o => pbind (alpha_calls o.2 Ms') (fun Xs => PRet (o.1.1 :: Xs)))
  else PRet [::].

(** alpha_k_dpp_sampler, rejection on the size with a search for alpha (exact_sampling.py l.1147-1241): [rounds] rounds remain,
    [sc] is sample_count, [tc] trial_count, [un] and [ov] the under/over counts, [out] the variable sampl_out ([None]: unbound),
    [mn] and [mx] are alpha_min and alpha_max.  The counters kept for statistics (alpha_switches, trial_to_first_sample,
    rej_to_first_sample) are omitted, see FiniteModel for them. *)
Definition alpha_k_finish (out : option (seq item)) : pprog (seq item) :=
  if out is Some X then PRet X else PRaise UnboundLocalError.                             (* l.1241 *)
Fixpoint alpha_k_loop (size max_iter : nat) (early_stop : bool) (rounds sc tc un ov : nat) (out : option (seq item))
    (mn mx : R) (I : ainfo) : pprog (seq item) :=
  if rounds is rounds'.+1 then
    pbind (alpha_do_sampling_loop I max_iter) (fun o =>                                   (* l.1169-1173 *)
      let sampl := o.1.1 in let I1 := o.2 in
      let tc1 := tc.+1 in                                                                  (* l.1175 *)
      let hit := seq.size sampl == size in                                                 (* l.1186 *)
      let out1 := if hit then Some sampl else out in                                       (* l.1187 *)
      let sc1 := (sc + hit)%N in                                                           (* l.1190 *)
      if hit && early_stop then alpha_k_finish out1 else                                   (* l.1191-1192 *)
      let un1 := (un + (seq.size sampl < size))%N in                                       (* l.1193-1194 *)
      let ov1 := (ov + (size < seq.size sampl))%N in                                       (* l.1195-1196 *)
      if sc1 == 2%N then alpha_k_finish out1                                               (* l.1201-1203 *)
      else if tc1 == FiniteModel.ceil_sqrt size then                                       (* l.1205, l.1148 *)
        let mn1 := if (ov1 < un1)%N then a_alpha I1 else mn in                             (* l.1206-1207 *)
        let mx1 := if (ov1 < un1)%N then mx else a_alpha I1 in                             (* l.1208-1209 *)
        let g := rsqrt (mn1 * mx1) in                                                      (* l.1211 *)
        let I2 := @AInfo g (a_r I1) (a_D I1) (a_probs I1) (a_vals I1) (a_vecs I1) (fun j => g * L j j) (fun _ => false) in  (* l.1212-1215 *)
        if (mx1 / mn1 <= 1 + ((size%:R + 3%:R) ^+ 2)^-1) && (0 < sc1)%N then alpha_k_finish out1  (* l.1217-1220, l.1149 *)
        else alpha_k_loop size max_iter early_stop rounds' sc1 0 0 0 out1 mn1 mx1 I2       (* l.1222-1225 *)
      else alpha_k_loop size max_iter early_stop rounds' sc1 tc1 un1 ov1 out1 mn mx I1)
  else PRaise ValueError.                                                                  (* l.1226-1230 *)
End Model.
