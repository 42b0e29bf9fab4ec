(** * BetaModel: model of dppy/beta_ensembles.py (the objects; plotting is reduced to the points that are displayed).

    An ensemble object is a record.  Points are exact complex numbers (real points are embedded).  The random draws made by
    one call are the argument [draws] of that call.  [np.inf] is [MInf].  The random matrix samplers are those of
    RandMatModel.v and FullMatModel.v. *)
From Coq Require Import String.
From mathcomp Require Import all_ssreflect all_algebra.
From mathcomp.real_closed Require Import complex.
From Verif Require Import Prob RandMatModel FullMatModel.
Set Implicit Arguments. Unset Strict Implicit. Unset Printing Implicit Defensive.
Import Order.Theory GRing.Theory Num.Theory.
Local Open Scope ring_scope.

Section Beta.
Variable R : rcfType.
Notation C := (complex R).

(** Python numbers: an int or a float; [isinstance(beta, int)] is [is_int]. *)
Inductive pynum := PInt of int | PFloat of R.
Definition pyval (b : pynum) : R := match b with PInt k => k%:~R | PFloat x => x end.
Definition is_int (b : pynum) : bool := if b is PInt _ then true else false.

Inductive klass := Hermite | Laguerre | Jacobi | Circular | Ginibre.
Inductive mval := MNone | MFin of R | MInf.

(** self.params (l.58, 125, 389, 720, 1016, 1207); an absent key is None *)
Record pars := Pars {
  size_N : nat;
  p_loc : option R; p_scale : option R; p_shape : option R; p_a : option R; p_b : option R;
  size_M : option mval; size_M1 : option mval; size_M2 : option mval;
  haar : option string }.

Record ens := Ens {
  cls : klass; beta_ : pynum; params : pars; sampling_mode : string; list_of_samples : seq (seq C) }.

Definition pts := seq C.
Definition real_pts (l : seq R) : pts := [seq Complex x 0 | x <- l].

(** Draws of one call. *)
Record draws := Draws {
  d_randn : nat -> forall m n, 'M[R]_(m, n);      (* rng.randn(m, n) *)
  d_randv : nat -> nat -> seq R;                  (* rng.randn(n) *)
  d_normal : nat -> nat -> R -> R -> R;           (* rng.normal *)
  d_gamma : nat -> nat -> R -> R -> R;            (* rng.gamma *)
  d_beta : nat -> nat -> R -> R -> R;             (* rng.beta *)
  d_circ : nat -> C }.                            (* np.exp(2j pi rng.rand()) *)

Variable eigt : seq R -> seq R -> seq R.
Variable eigvalsh : forall n, 'M[C]_n -> seq R.
Variable eigvals : forall n, 'M[C]_n -> seq C.
Variable eigvecsh : forall n, 'M[C]_n -> 'M[C]_n.
Variable qr : forall n, 'M[C]_n -> 'M[C]_n * 'M[C]_n.

(** BetaEnsemble.__init__ (l.50-61): the message of the error l.53 reads [self.beta], which does not exist yet *)
Definition base_init (c : klass) (beta : pynum) : ens + exn :=
  if ~~ (0 <= pyval beta) then inr AttributeError
  else inl (Ens c beta (Pars 10 None None None None None None None None None) "" [::]).

(** params.update in the constructors *)
Definition upd_params (f : pars -> pars) (e : ens) : ens :=
  Ens (cls e) (beta_ e) (f (params e)) (sampling_mode e) (list_of_samples e).
Definition set_mode (m : string) (e : ens) : ens := Ens (cls e) (beta_ e) (params e) m (list_of_samples e).

Definition init_ensemble (c : klass) (beta : pynum) : ens + exn :=
  match c with
  | Hermite =>                                                                    (* l.119-127 *)
      rb (base_init Hermite beta) (fun e =>
      inl (upd_params (fun p => Pars 10 (Some 0) (Some (Num.sqrt 2%:R)) None None None None None None None) e))
  | Laguerre =>                                                                   (* l.385-391 *)
      rb (base_init Laguerre beta) (fun e =>
      inl (upd_params (fun p => Pars 10 None (Some 2%:R) (Some 0) None None (Some MNone) None None None) e))
  | Jacobi =>                                                                     (* l.716-722 *)
      rb (base_init Jacobi beta) (fun e =>
      inl (upd_params (fun p => Pars 10 None None None (Some 1) (Some 1) None (Some MNone) (Some MNone) None) e))
  | Circular =>                                                                   (* l.1010-1017 *)
      if ~~ is_int beta then inr ValueError else base_init Circular beta
  | Ginibre =>                                                                    (* l.1199-1208 *)
      if pyval beta != 2%:R then inr ValueError else base_init Ginibre beta
  end.

Definition Beta e := pyval (beta_ e).

(** [self.list_of_samples.append(sampl); return sampl], or the exception of the sampler *)
Definition finish (r : pts + exn) (e : ens) : (pts + exn) * ens :=
  match r with
  | inl s => (inl s, Ens (cls e) (beta_ e) (params e) (sampling_mode e) (rcons (list_of_samples e) s))
  | inr x => (inr x, e)
  end.

Definition rpts (r : seq R + exn) : pts + exn := match r with inl l => inl (real_pts l) | inr x => inr x end.
(** scalar parameters and size: n i.i.d. draws; [rng.beta] raises ValueError unless a, b > 0, etc. *)
Definition iid_gamma (d : draws) (shape scale : R) (n : nat) : seq R + exn := rng_gamma (d_gamma d) 0 (nseq n shape) scale.
Definition iid_beta (d : draws) (a b : R) (n : nat) : seq R + exn :=
  if (a <= 0) || (b <= 0) then inr ValueError else rng_beta (d_beta d) 0 (nseq n a) (nseq n b).

(** HermiteEnsemble.sample_full_model (l.129-169) *)
Definition hermite_full (d : draws) (N : nat) (e : ens) : (pts + exn) * ens :=
  let e := set_mode "full" e in                                                   (* l.154 *)
  let e := upd_params (fun p => Pars N (Some 0) (Some (Num.sqrt 2%:R)) (p_shape p) (p_a p) (p_b p)
             (size_M p) (size_M1 p) (size_M2 p) (haar p)) e in                    (* l.155-156 *)
  finish (if Beta e == 0 then rpts (rng_normal (d_normal d) 0 0 (Num.sqrt 2%:R) N) (* l.158-162 *)
          else rpts (hermite_sampler_full (d_randn d) eigvalsh N (Beta e))) e.    (* l.164-169 *)

(** HermiteEnsemble.sample_banded_model (l.171-224) *)
Definition hermite_banded (d : draws) (loc scale : R) (N : nat) (e : ens) : (pts + exn) * ens :=
  let e := set_mode "banded" e in
  let e := upd_params (fun p => Pars N (Some loc) (Some scale) (p_shape p) (p_a p) (p_b p)
             (size_M p) (size_M1 p) (size_M2 p) (haar p)) e in
  finish (if Beta e == 0 then rpts (rng_normal (d_normal d) 0 loc scale N)        (* l.210-214 *)
          else rpts (mu_ref_normal_sampler_tridiag eigt (d_normal d) (d_gamma d) loc scale (Beta e) N)) e. (* l.216 *)

Definition set_laguerre (shape scale : R) (N : nat) (M : mval) : ens -> ens :=
  upd_params (fun p => Pars N (p_loc p) (Some scale) (Some shape) (p_a p) (p_b p) (Some M)
    (size_M1 p) (size_M2 p) (haar p)).

(** i.i.d. branch of Laguerre (l.437-447, l.533-543) *)
Definition laguerre_iid (d : draws) (shape scale : R) (N : nat) : pts + exn :=
  if 0 < shape then rpts (iid_gamma d shape scale N) else inr ValueError.

(** LaguerreEnsemble.sample_full_model (l.393-456) *)
Definition laguerre_full (d : draws) (N M : nat) (e : ens) : (pts + exn) * ens :=
  let e := set_mode "full" e in                                                   (* l.423 *)
  if (N <= M)%N then                                                              (* l.425 *)
    let shape := 2%:R^-1 * Beta e * (M - N + 1)%:R in                             (* l.427 *)
    let e := set_laguerre shape 2%:R N (MFin M%:R) e in                           (* l.433-435 *)
    finish (if Beta e == 0 then laguerre_iid d shape 2%:R N
            else rpts (laguerre_sampler_full (d_randn d) eigvalsh M N (Beta e))) e
  else (inr ValueError, e).                                                       (* l.429-431 *)

(** LaguerreEnsemble.sample_banded_model (l.458-553); [not size_M] holds for None and for 0 *)
Definition laguerre_banded (d : draws) (shape scale : R) (N : nat) (M : option nat) (e : ens) : (pts + exn) * ens :=
  let e := set_mode "banded" e in                                                 (* l.512 *)
  let run shape scale M e :=
    let e := set_laguerre shape scale N M e in                                    (* l.529-531 *)
    finish (if Beta e == 0 then laguerre_iid d shape scale N                      (* l.533-543 *)
            else rpts (mu_ref_gamma_sampler_tridiag eigt (d_gamma d) shape scale (Beta e) N)) e in
  if (if M is Some m then m == 0%N else true) then                                (* l.514 *)
    run shape scale (if 0 < Beta e then MFin (2%:R / Beta e * shape + N%:R - 1) else MInf) e  (* l.515-518 *)
  else
    let m := odflt 0%N M in
    if (N <= m)%N then run (2%:R^-1 * Beta e * (m - N + 1)%:R) 2%:R (MFin m%:R) e (* l.520-522 *)
    else (inr ValueError, e).                                                     (* l.524-527 *)

Definition set_jacobi (a b : R) (N : nat) (M1 M2 : mval) : ens -> ens :=
  upd_params (fun p => Pars N (p_loc p) (p_scale p) (p_shape p) (Some a) (Some b) (size_M p)
    (Some M1) (Some M2) (haar p)).

(** JacobiEnsemble.sample_full_model (l.724-794) *)
Definition jacobi_full (d : draws) (N M1 M2 : nat) (e : ens) : (pts + exn) * ens :=
  let e := set_mode "full" e in
  if (N <= M1)%N && (N <= M2)%N then                                              (* l.765 *)
    let a := 2%:R^-1 * Beta e * (M1 - N + 1)%:R in                                (* l.767 *)
    let b := 2%:R^-1 * Beta e * (M2 - N + 1)%:R in                                (* l.768 *)
    let e := set_jacobi a b N (MFin M1%:R) (MFin M2%:R) e in                      (* l.777-779 *)
    finish (if Beta e == 0 then rpts (iid_beta d a b N)                           (* l.781-785 *)
            else rpts (jacobi_sampler_full (d_randn d) eigvals M1 M2 N (Beta e))) e
  else (inr ValueError, e).                                                       (* l.770-775 *)

(** JacobiEnsemble.sample_banded_model (l.796-899) *)
Definition jacobi_banded (d : draws) (a b : R) (N : nat) (M1 M2 : option nat) (e : ens) : (pts + exn) * ens :=
  let e := set_mode "banded" e in
  let run a b M1 M2 e :=
    let e := set_jacobi a b N M1 M2 e in                                          (* l.881-883 *)
    finish (if Beta e == 0 then rpts (iid_beta d a b N)                           (* l.885-890 *)
            else rpts (mu_ref_beta_sampler_tridiag eigt (d_beta d) a b (Beta e) N)) e in
  let truthy M := if M is Some m then m != 0%N else false in
  if ~~ (truthy M1 && truthy M2) then                                             (* l.860 *)
    if 0 < Beta e then run a b (MFin (2%:R / Beta e * a + N%:R - 1)) (MFin (2%:R / Beta e * b + N%:R - 1)) e
    else run a b MInf MInf e                                                      (* l.862-867 *)
  else
    let m1 := odflt 0%N M1 in let m2 := odflt 0%N M2 in
    if (N <= m1)%N && (N <= m2)%N then                                            (* l.869 *)
      run (2%:R^-1 * Beta e * (m1 - N + 1)%:R) (2%:R^-1 * Beta e * (m2 - N + 1)%:R) (MFin m1%:R) (MFin m2%:R) e
    else (inr ValueError, e).                                                     (* l.874-879 *)

(** i.i.d. uniform points of the circle (l.1048, l.1086) *)
Definition circ_iid (d : draws) (N : nat) : pts + exn := inl (mkseq (d_circ d) N).

(** CircularEnsemble.sample_full_model (l.1019-1057) *)
Definition circular_full (d : draws) (N : nat) (haar_mode : string) (e : ens) : (pts + exn) * ens :=
  let e := set_mode "full" e in
  let e := upd_params (fun p => Pars N (p_loc p) (p_scale p) (p_shape p) (p_a p) (p_b p)
             (size_M p) (size_M1 p) (size_M2 p) (Some haar_mode)) e in
  finish (if Beta e == 0 then circ_iid d N
          else circular_sampler_full (d_randn d) eigvals eigvecsh qr N (Beta e) haar_mode) e.

(** CircularEnsemble.sample_banded_model (l.1059-1094) *)
Definition circular_banded (d : draws) (N : nat) (e : ens) : (pts + exn) * ens :=
  let e := set_mode "banded" e in
  let e := upd_params (fun p => Pars N (p_loc p) (p_scale p) (p_shape p) (p_a p) (p_b p)
             (size_M p) (size_M1 p) (size_M2 p) (haar p)) e in
  finish (if Beta e == 0 then circ_iid d N
          else match beta_ e with
               | PInt b => mu_ref_unif_unit_circle_sampler_quindiag eigvals (d_randv d) b N
               | PFloat _ => inr ValueError
               end) e.

(** GinibreEnsemble.sample_full_model (l.1210-1230), sample_banded_model (l.1232-1235) *)
Definition ginibre_full (d : draws) (N : nat) (e : ens) : (pts + exn) * ens :=
  let e := upd_params (fun p => Pars N (p_loc p) (p_scale p) (p_shape p) (p_a p) (p_b p)
             (size_M p) (size_M1 p) (size_M2 p) (haar p)) e in
  finish (inl (ginibre_sampler_full (d_randn d) eigvals N)) e.
Definition ginibre_banded (e : ens) : (pts + exn) * ens := (inr NotImplementedError, e).

(** Calls on an object. *)
Inductive call :=
| HermiteFull of nat | HermiteBanded of R & R & nat
| LaguerreFull of nat & nat | LaguerreBanded of R & R & nat & option nat
| JacobiFull of nat & nat & nat | JacobiBanded of R & R & nat & option nat & option nat
| CircularFull of nat & string | CircularBanded of nat
| GinibreFull of nat | GinibreBanded.

(** A call with keyword arguments of another class raises TypeError before anything happens. *)
Definition sample (d : draws) (c : call) (e : ens) : (pts + exn) * ens :=
  match cls e, c with
  | Hermite, HermiteFull N => hermite_full d N e
  | Hermite, HermiteBanded loc scale N => hermite_banded d loc scale N e
  | Laguerre, LaguerreFull N M => laguerre_full d N M e
  | Laguerre, LaguerreBanded shape scale N M => laguerre_banded d shape scale N M e
  | Jacobi, JacobiFull N M1 M2 => jacobi_full d N M1 M2 e
  | Jacobi, JacobiBanded a b N M1 M2 => jacobi_banded d a b N M1 M2 e
  | Circular, CircularFull N h => circular_full d N h e
  | Circular, CircularBanded N => circular_banded d N e
  | Ginibre, GinibreFull N => ginibre_full d N e
  | Ginibre, GinibreBanded => ginibre_banded e
  | _, _ => (inr TypeError, e)
  end.

(** flush_samples (l.75-78) *)
Definition flush (e : ens) : ens := Ens (cls e) (beta_ e) (params e) (sampling_mode e) [::].

(** normalize_points: the new contents of the array passed (Hermite l.226-274, Laguerre l.555-604, Jacobi l.901-904,
    Circular l.1096-1099, Ginibre l.1237-1250); None when a parameter has no numerical value. *)
Definition mget (m : option mval) : option R := if m is Some (MFin x) then Some x else None.
Definition normalized (e : ens) (x : pts) : option pts :=
  let p := params e in
  let K (r : R) : C := Complex r 0 in
  match cls e with
  | Hermite =>
      let x1 := if String.eqb (sampling_mode e) "banded"
                then (if p_loc p is Some loc then if p_scale p is Some s then
                        Some [seq (z - K loc) / K (Num.sqrt 2%:R^-1 * s) | z <- x] else None else None)
                else Some x in                                                    (* l.261-266 *)
      omap (fun x1 => if 0 < Beta e then [seq z / K (Num.sqrt (Beta e * (size_N p)%:R)) | z <- x1] else x1) x1
  | Laguerre =>
      let x1 := if String.eqb (sampling_mode e) "banded"
                then (if p_scale p is Some s then Some [seq z / K (2%:R^-1 * s) | z <- x] else None)
                else Some x in                                                    (* l.591-595 *)
      if 0 < Beta e then
        if mget (size_M p) is Some m then omap (fun x1 => [seq z / K (Beta e * m) | z <- x1]) x1 else None
      else x1
  | Jacobi | Circular => Some x
  | Ginibre => Some [seq z / K (Num.sqrt (size_N p)%:R) | z <- x]                 (* l.1250 *)
  end.

(** [ens.normalize_points(ens.list_of_samples[i])]: Hermite and Laguerre update the array in place (-=, /=), Ginibre
    builds a new one. *)
Definition normalize_recorded (i : nat) (e : ens) : (pts + exn) * ens :=
  if (i < size (list_of_samples e))%N then
    let x := nth [::] (list_of_samples e) i in
    if normalized e x is Some y then
      (inl y, Ens (cls e) (beta_ e) (params e) (sampling_mode e)
        (match cls e with Hermite | Laguerre => set_nth [::] (list_of_samples e) i y | _ => list_of_samples e end))
    else (inr TypeError, e)
  else (inr IndexError, e).

(** points displayed by plot / hist with normalization=True (l.276-283, 606-613, 906-911, 1101-1106, 1252-1259):
    a copy of the last sample, normalised *)
Definition displayed (e : ens) : pts + exn :=
  if list_of_samples e is x :: s then
    if normalized e (last x s) is Some y then inl y else inr TypeError
  else inr ValueError.

(** Histories of calls on one object. *)
Inductive op := Sample of draws & call | Flush | Normalize of nat | Display.
Definition exec (o : op) (e : ens) : (pts + exn) * ens :=
  match o with
  | Sample d c => sample d c e
  | Flush => (inl [::], flush e)
  | Normalize i => normalize_recorded i e
  | Display => (displayed e, e)
  end.
Fixpoint run (os : seq op) (e : ens) : seq (pts + exn) * ens :=
  if os is o :: os' then
    let: (r, e1) := exec o e in let: (rs, e2) := run os' e1 in (r :: rs, e2)
  else ([::], e).
End Beta.
