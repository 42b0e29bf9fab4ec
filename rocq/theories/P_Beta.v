(** * P_Beta: beta ensemble objects over arbitrary histories of calls (C48, C62, C63). *)
From Coq Require Import String.
From mathcomp Require Import all_ssreflect all_algebra all_real_closed.
From mathcomp.real_closed Require Import complex.
From mathcomp.algebra_tactics Require Import ring.
From Verif Require Import Prob RandMatModel RandMat P_RandMat P_Circular FullMatModel P_FullMat BetaModel.
Set Implicit Arguments. Unset Strict Implicit. Unset Printing Implicit Defensive.
Import Order.Theory GRing.Theory Num.Theory.
Local Open Scope ring_scope.

Section P.
Variable R : rcfType.
Notation C := (complex R).
Notation ens := (ens R).
Notation call := (call R).
Notation draws := (draws R).
Notation pts := (pts R).
Variable eigt : seq R -> seq R -> seq R.
Variable eigvalsh : forall n, 'M[C]_n -> seq R.
Variable eigvals : forall n, 'M[C]_n -> seq C.
Variable eigvecsh : forall n, 'M[C]_n -> 'M[C]_n.
Variable qr : forall n, 'M[C]_n -> 'M[C]_n * 'M[C]_n.
Notation sample := (sample eigt eigvalsh eigvals eigvecsh qr).
Notation exec := (exec eigt eigvalsh eigvals eigvecsh qr).
Notation run := (run eigt eigvalsh eigvals eigvecsh qr).

(** ** Specification *)
(** the samples a user expects to be recorded, from the calls and their outcomes *)
Fixpoint recorded (h : seq pts) (os : seq (op R)) (outs : seq (pts + exn)) : seq pts :=
  match os, outs with
  | o :: os', r :: outs' =>
      recorded (match o, r with
                | Sample _ _, inl s => rcons h s
                | Flush, _ => [::]
                | _, _ => h
                end) os' outs'
  | _, _ => h
  end.
(** normalize_points applied to a recorded array modifies it for the Hermite and Laguerre ensembles (C62_normalize_refuted) *)
Definition safe_op (k : klass) (o : op R) : bool :=
  match o, k with Normalize _, (Hermite | Laguerre) => false | _, _ => true end.
(** the number of points asked for *)
Definition asked (c : call) : nat :=
  match c with
  | HermiteFull N | HermiteBanded _ _ N | LaguerreFull N _ | LaguerreBanded _ _ N _ | JacobiFull N _ _
  | JacobiBanded _ _ N _ _ | CircularFull N _ | CircularBanded N | GinibreFull N => N
  | GinibreBanded => 0%N
  end.
Definition is_full (c : call) : bool :=
  match c with HermiteFull _ | LaguerreFull _ _ | JacobiFull _ _ _ | CircularFull _ _ => true | _ => false end.

(** ** Every call: failure leaves the history unchanged, success appends exactly the returned sample *)
Lemma finishP (r : pts + exn) (e : ens) : let: (o, e') := finish r e in
  [/\ cls e' = cls e, beta_ e' = beta_ e, params e' = params e, o = r &
      list_of_samples e' = if r is inl s then rcons (list_of_samples e) s else list_of_samples e].
Proof. by case: r. Qed.

Definition eff (k : klass) (e : ens) (x : (pts + exn) * ens) : Prop :=
  [/\ cls x.2 = k, beta_ x.2 = beta_ e &
      list_of_samples x.2 = if x.1 is inl s then rcons (list_of_samples e) s else list_of_samples e].
Lemma eff_finish k e e0 r : cls e0 = k -> beta_ e0 = beta_ e -> list_of_samples e0 = list_of_samples e ->
  eff k e (finish r e0).
Proof. by case: r => [s|x] h1 h2 h3; split; rewrite /= ?h1 ?h2 ?h3. Qed.

Lemma sample_eff d c e : eff (cls e) e (sample d c e).
Proof.
rewrite /BetaModel.sample; case ec: (cls e); case: c => * //;
  try (by split); try (by apply: eff_finish).
- by rewrite /laguerre_full; cbv zeta; case: ifP => _; [apply: eff_finish|split].
- by rewrite /laguerre_banded; cbv zeta; case: ifP => _; last case: ifP => _; [apply: eff_finish|apply: eff_finish|split].
- by rewrite /jacobi_full; cbv zeta; case: ifP => _; [apply: eff_finish|split].
- rewrite /jacobi_banded; cbv zeta; case: ifP => _; first by case: ifP => _; apply: eff_finish.
  by case: ifP => _; [apply: eff_finish|split].
Qed.

Lemma exec_cls o e : cls (exec o e).2 = cls e.
Proof.
case: o => [d c||i|] //=; first by have [] := sample_eff d c e.
by rewrite /normalize_recorded; case: ifP => // _; case: (normalized _ _).
Qed.
Theorem C48_history_append_only_partial os e : all (safe_op (cls e)) os ->
  let: (outs, e') := run os e in
  list_of_samples e' = recorded (list_of_samples e) os outs /\ size outs = size os.
Proof.
elim: os e => [|o os IH] e //= /andP[so sos].
have := exec_cls o e; case eo: (exec o e) => [r e1] /= ce1; rewrite -ce1 in sos.
have := IH e1 sos; case: (run os e1) => rs e2 [h1 h2]; split; last by rewrite /= h2.
rewrite h1 /=; congr (recorded _ _ _); case: o so eo => [d c||i|] //= so.
- by move=> eo; have := sample_eff d c e; rewrite eo => -[_ _ ->].
- by case=> _ <-.
- rewrite /normalize_recorded; case: ifP => _; last by case=> _ <-.
  by case: (normalized _ _) => [y|]; case=> _ <- //=; case: (cls e) so.
by case=> _ <-.
Qed.

Theorem C48_failure_keeps_history d c e x e' : sample d c e = (inr x, e') ->
  [/\ list_of_samples e' = list_of_samples e, cls e' = cls e & beta_ e' = beta_ e].
Proof. by move=> E; have := sample_eff d c e; rewrite E => -[-> -> ->]. Qed.

(** ** Contracts *)
Hypothesis eigtP : eigvalsh_tridiagonal_contract eigt.
Hypothesis eigvalshP : eigvalsh_ok eigvalsh.
Hypothesis eigvalsP : eigvals_ok eigvals.
Hypothesis eigvecshP : eigvecsh_ok eigvecsh.
Hypothesis qrP : qr_ok qr.

Record draws_ok (d : draws) : Prop := DrawsOk {
  dk_gamma : forall k i a s, 0 <= a -> 0 <= s -> 0 <= d_gamma d k i a s;
  dk_beta : forall k i a b, 0 < a -> 0 < b -> 0 <= d_beta d k i a b <= 1;
  dk_circ : forall i, `|d_circ d i| = 1;
  dk_randv : randn_ok (d_randv d);
  dk_qr : forall N (A : 'M[C]_N), A = rmx (d_randn d 0 N N) \/ A = crandn (d_randn d) 0 N N -> forall i, (qr A).2 i i != 0 }.

(** the support of the reference measure of each ensemble *)
Definition in_support (k : klass) (z : C) : bool :=
  match k with
  | Hermite => complex.Im z == 0
  | Laguerre => 0 <= z
  | Jacobi => 0 <= z <= 1
  | Circular => `|z| == 1
  | Ginibre => true
  end.

Lemma all_mkseq (T : Type) (P : pred T) (f : nat -> T) n : (forall i, (i < n)%N -> P (f i)) -> all P (mkseq f n).
Proof. by move=> h; rewrite all_map; apply/allP => i; rewrite mem_iota => /andP[_ lt] /=; exact: h. Qed.
Lemma rng_normal_size nr k a s n l : @rng_normal R nr k a s n = inl l -> size l = n.
Proof. by rewrite /rng_normal; case: ifP => // _ [<-]; rewrite size_mkseq. Qed.

Lemma sup_real (l : seq R) : all (in_support Hermite) (real_pts l).
Proof. by rewrite all_map; apply/allP => x _ /=. Qed.
Lemma sup_lag (l : seq R) : all (fun x => 0 <= x) l -> all (in_support Laguerre) (real_pts l).
Proof. by rewrite all_map => h; apply: sub_all h => x /=; rewrite ler0c. Qed.
Lemma sup_jac (l : seq R) : all (fun x => 0 <= x <= 1) l -> all (in_support Jacobi) (real_pts l).
Proof. by rewrite all_map => h; apply: sub_all h => x /= /andP[a b]; rewrite ler0c a /= -[1]/(1%:C)%C lecR. Qed.
Lemma rptsE r s : @rpts R r = inl s -> exists2 l, r = inl l & s = real_pts l.
Proof. by case: r => [l|x] //= [<-]; exists l. Qed.

(** the number of points of a successful call *)
Definition returned (c : call) (e : ens) : nat :=
  if is_full c && (Beta e == 4%:R) then (asked c + asked c)%N else asked c.

Lemma b04 : (0 == 4%:R :> R) = false. Proof. by rewrite (eqr_nat R 0 4). Qed.

Lemma lag_iid_ok d shape scale n s : draws_ok d -> laguerre_iid d shape scale n = inl s ->
  size s = n /\ all (in_support Laguerre) s.
Proof.
move=> dk; rewrite /laguerre_iid; case: ifP => // s0 /rptsE[l El ->]; rewrite size_map.
move: El; rewrite /iid_gamma /rng_gamma; case: ifP => // /negbT; rewrite negb_or -leNgt => /andP[_ sc0] [<-].
rewrite size_mkseq size_nseq; split=> //; apply: sup_lag; apply: all_mkseq => i lt.
apply: (dk_gamma dk) => //; rewrite nth_nseq; case: ifP => // _; exact: ltW.
Qed.
Lemma jac_iid_ok d a b n s : draws_ok d -> rpts (iid_beta d a b n) = inl s -> size s = n /\ all (in_support Jacobi) s.
Proof.
move=> dk /rptsE[l]; rewrite /iid_beta; case: ifP => // /negbT; rewrite negb_or -!ltNge => /andP[a0 b0].
rewrite /rng_beta; case: ifP => // _ [<-] ->; rewrite size_map size_mkseq size_nseq; split=> //.
apply: sup_jac; apply: all_mkseq => i lt.
by apply: (dk_beta dk); rewrite nth_nseq lt.
Qed.

Lemma sample_ok d c e s e' : draws_ok d -> (0 < asked c)%N -> sample d c e = (inl s, e') ->
  [/\ size s = returned c e, all (in_support (cls e)) s, size_N (params e') = asked c, cls e' = cls e & beta_ e' = beta_ e].
Proof.
move=> dk; have eff0 := sample_eff d c e; move: eff0; rewrite /BetaModel.sample /returned.
have Fin e0 r : finish r e0 = (inl s, e') -> r = inl s /\ params e' = params e0 by case: r => //= a [<- <-].
case ec: (cls e) => [||||]; case: c => [N|loc scale N|N M|shape scale N M|N M1 M2|a b N M1 M2|N h|N|N|] eff N0 E //;
  (move: eff; rewrite E => -[/= c1 c2 _]); rewrite /= in N0 *; move: E.
- rewrite /hermite_full => /Fin [r ->]; split=> //=; rewrite ?c1 ?ec //; move: r.
    rewrite /Beta /=; case: eqP => [->|_] /rptsE [l El ->]; rewrite size_map ?b04.
      exact: rng_normal_size El.
    by have [-> _] := C61_hermite_full eigvalshP N0 El; rewrite /npoints.
  by case: ifP => _ /rptsE [l _ ->]; exact: sup_real.
- rewrite /hermite_banded => /Fin [r ->]; split=> //=; rewrite ?c1 ?ec //; move: r.
    rewrite /Beta /=; case: eqP => [_|_] /rptsE [l El ->]; rewrite size_map.
      exact: rng_normal_size El.
    by have [-> _ _] := C60_normal_moments eigtP (dk_gamma dk) N0 El.
  by case: ifP => _ /rptsE [l _ ->]; exact: sup_real.
- rewrite /laguerre_full; cbv zeta; case: ifP => // _ /Fin [r ->].
  suff [h1 h2] : size s = (if Beta e == 4%:R then (N + N)%N else N) /\ all (in_support Laguerre) s by split=> //; rewrite c1 ec.
  move: r; rewrite /Beta /=; case: eqP => [->|_]; first by rewrite b04; exact: lag_iid_ok.
  move=> /rptsE[l El ->]; rewrite size_map; have [-> pos _] := C61_laguerre_full eigvalshP N0 El.
  by split=> //; exact: sup_lag.
- suff run0 shape' scale' M' : finish (if Beta e == 0 then laguerre_iid d shape' scale' N
            else rpts (mu_ref_gamma_sampler_tridiag eigt (d_gamma d) shape' scale' (Beta e) N))
       (set_laguerre shape' scale' N M' (set_mode "banded" e)) = (inl s, e') ->
     [/\ size s = N, all (in_support Laguerre) s, size_N (params e') = N, cls e' = Laguerre & beta_ e' = beta_ e].
    by rewrite /laguerre_banded; cbv zeta; case: ifP => _; last case: ifP => // _; apply: run0.
  move=> /Fin [r ->].
  suff [h1 h2] : size s = N /\ all (in_support Laguerre) s by split=> //; rewrite c1 ec.
  move: r; case: eqP => [_|_]; first exact: lag_iid_ok.
  move=> /rptsE[l El ->]; rewrite size_map; have [-> pos _ _] := C41_gamma_support eigtP (dk_gamma dk) N0 El.
  by split=> //; exact: sup_lag.
- rewrite /jacobi_full; cbv zeta; case: ifP => // _ /Fin [r ->].
  suff [h1 h2] : size s = (if Beta e == 4%:R then (N + N)%N else N) /\ all (in_support Jacobi) s by split=> //; rewrite c1 ec.
  move: r; rewrite /Beta /=; case: eqP => [->|_]; first by rewrite b04; exact: jac_iid_ok.
  move=> /rptsE[l El ->]; rewrite size_map; have [-> pos] := C61_jacobi_full eigvalsP El.
  by split=> //; exact: sup_jac.
- suff run0 a' b' M1' M2' : finish (if Beta e == 0 then rpts (iid_beta d a' b' N)
            else rpts (mu_ref_beta_sampler_tridiag eigt (d_beta d) a' b' (Beta e) N))
       (set_jacobi a' b' N M1' M2' (set_mode "banded" e)) = (inl s, e') ->
     [/\ size s = N, all (in_support Jacobi) s, size_N (params e') = N, cls e' = Jacobi & beta_ e' = beta_ e].
    rewrite /jacobi_banded; cbv zeta; case: ifP => _; first by case: ifP => _; apply: run0.
    by case: ifP => // _; apply: run0.
  move=> /Fin [r ->].
  suff [h1 h2] : size s = N /\ all (in_support Jacobi) s by split=> //; rewrite c1 ec.
  move: r; case: eqP => [_|_]; first exact: jac_iid_ok.
  move=> /rptsE[l El ->]; rewrite size_map; have [-> pos _ _] := C42_beta_support eigtP (dk_beta dk) N0 El.
  by split=> //; exact: sup_jac.
- rewrite /circular_full => /Fin [r ->].
  suff [h1 h2] : size s = (if Beta e == 4%:R then (N + N)%N else N) /\ all (in_support Circular) s by split=> //; rewrite c1 ec.
  move: r; rewrite /Beta /=; case: eqP => [->|_].
    rewrite b04 /circ_iid => -[<-]; rewrite size_mkseq; split=> //; apply: all_mkseq => i _ /=.
    by rewrite (dk_circ dk).
  move=> El; have [-> u] := C61_circular_full eigvalsP eigvecshP qrP (fun _ => @dk_qr d dk N) El.
  by split=> //; apply/allP => x /u /= ->.
- rewrite /circular_banded => /Fin [r ->].
  suff [h1 h2] : size s = N /\ all (in_support Circular) s by split=> //; rewrite c1 ec.
  move: r; rewrite /Beta /=; case: eqP => [_|_].
    rewrite /circ_iid => -[<-]; rewrite size_mkseq; split=> //; apply: all_mkseq => i _ /=.
    by rewrite (dk_circ dk).
  case: (beta_ e) => // b El; have [-> u _] := C43_circular_support eigvalsP (dk_randv dk) N0 El.
  by split=> //; apply/allP => x /u /= ->.
rewrite /ginibre_full => /Fin [[<-] ->]; split=> //; rewrite ?c1 ?ec //.
  by rewrite size_map; exact: roots_size (eigvalsP _).
by apply/allP => x _.
Qed.

(** ** C48: success *)
(** One sample of the right size in the support, recorded last; the size parameter is the one asked for.  The samples of
    the full models with beta = 4 have twice as many points (see C48_size_refuted). *)
Theorem C48_sample_partial d c e s e' : draws_ok d -> (0 < asked c)%N -> sample d c e = (inl s, e') ->
  ~~ (is_full c && (Beta e == 4%:R)) ->
  [/\ size s = size_N (params e'), size_N (params e') = asked c, all (in_support (cls e)) s &
      list_of_samples e' = rcons (list_of_samples e) s].
Proof.
move=> dk N0 E nb; have [h1 h2 h3 _ _] := sample_ok dk N0 E; have := sample_eff d c e; rewrite E => -[/= _ _ ->].
by rewrite h3 h1 /returned (negbTE nb).
Qed.
Theorem C48_sample_beta4 d c e s e' : draws_ok d -> (0 < asked c)%N -> sample d c e = (inl s, e') ->
  is_full c -> Beta e = 4%:R ->
  [/\ size s = (2 * size_N (params e'))%N, size_N (params e') = asked c, all (in_support (cls e)) s &
      list_of_samples e' = rcons (list_of_samples e) s].
Proof.
move=> dk N0 E fc b4; have [h1 h2 h3 _ _] := sample_ok dk N0 E; have := sample_eff d c e; rewrite E => -[/= _ _ ->].
by rewrite h3 h1; split=> //; rewrite /returned fc b4 eqxx /= mul2n addnn.
Qed.

(** The recorded parameters describe the sample: those of the reference measure that were asked for, and, for the Laguerre
    and Jacobi ensembles, reference parameters and matrix sizes tied by k = beta/2 (M - N + 1). *)
Definition given (M : option nat) : bool := if M is Some m.+1 then true else false.
Definition tied (beta : R) (N : nat) (k : option R) (M : option (mval R)) : Prop :=
  0 < beta -> exists2 m, M = Some (MFin m) & k = Some (2%:R^-1 * beta * (m - N%:R + 1)).
Definition describes (c : call) (beta : R) (p : pars R) : Prop :=
  match c with
  | HermiteFull _ => p_loc p = Some 0 /\ p_scale p = Some (Num.sqrt 2%:R)
  | HermiteBanded loc scale _ => p_loc p = Some loc /\ p_scale p = Some scale
  | LaguerreFull N M => [/\ p_scale p = Some 2%:R, size_M p = Some (MFin M%:R) & tied beta N (p_shape p) (size_M p)]
  | LaguerreBanded shape scale N M =>
      tied beta N (p_shape p) (size_M p) /\
      (if given M then p_scale p = Some 2%:R /\ size_M p = Some (MFin (odflt 0%N M)%:R)
       else p_shape p = Some shape /\ p_scale p = Some scale)
  | JacobiFull N M1 M2 =>
      [/\ size_M1 p = Some (MFin M1%:R), size_M2 p = Some (MFin M2%:R),
          tied beta N (p_a p) (size_M1 p) & tied beta N (p_b p) (size_M2 p)]
  | JacobiBanded a b N M1 M2 =>
      [/\ tied beta N (p_a p) (size_M1 p), tied beta N (p_b p) (size_M2 p) &
          if given M1 && given M2
          then size_M1 p = Some (MFin (odflt 0%N M1)%:R) /\ size_M2 p = Some (MFin (odflt 0%N M2)%:R)
          else p_a p = Some a /\ p_b p = Some b]
  | CircularFull _ h => haar p = Some h
  | _ => Logic.True
  end.

Lemma tied_M (beta : R) N M : (N <= M)%N -> tied beta N (Some (2%:R^-1 * beta * (M - N + 1)%:R)) (Some (MFin M%:R)).
Proof. by move=> le _; exists M%:R => //; rewrite natrD natrB. Qed.
Lemma tied_k (beta k : R) N M' : M' = (if 0 < beta then MFin (2%:R / beta * k + N%:R - 1) else MInf R) ->
  tied beta N (Some k) (Some M').
Proof.
move=> -> b0; rewrite b0; eexists; first reflexivity.
congr Some; have : beta != 0 by rewrite gt_eqF.
have : (2%:R : R) != 0 by rewrite pnatr_eq0.
by move=> h2 hb; field; rewrite hb.
Qed.

Theorem C48_params_describe d c e s e' : sample d c e = (inl s, e') -> describes c (Beta e) (params e').
Proof.
have Fin e0 r : finish r e0 = (inl s, e') -> params e' = params e0 by case: r => //= a [_ <-].
rewrite /BetaModel.sample.
case: (cls e); case: c => [N|loc scale N|N M|shape scale N M|N M1 M2|a b N M1 M2|N h|N|N|] //.
- by rewrite /hermite_full => /Fin ->.
- by rewrite /hermite_banded => /Fin ->.
- rewrite /laguerre_full; cbv zeta; case: ifP => // le /Fin -> /=; split=> //; exact: tied_M.
- rewrite /laguerre_banded; cbv zeta; case: M => [[|m]|].
  + by rewrite eqxx => /Fin -> /=; split=> //; exact: tied_k.
  + by rewrite [_.+1 == _]/=; case: ifP => // le /Fin ->; split; first exact (@tied_M (Beta e) N m.+1 le).
  + by move=> /Fin -> /=; split=> //; exact: tied_k.
- rewrite /jacobi_full; cbv zeta; case: ifP => // /andP[l1 l2] /Fin -> /=; split=> //; exact: tied_M.
- rewrite /jacobi_banded; cbv zeta => E.
have [g|g] := boolP (given M1 && given M2).
  move: E g; case: M1 => [[|m1]|] //; case: M2 => [[|m2]|] //= + _.
  case: ifP => // /andP[l1 l2] /Fin ->; split; [exact (@tied_M (Beta e) N m1.+1 l1)|exact (@tied_M (Beta e) N m2.+1 l2)|by []].
by move: E g; case: M1 => [[|m1]|]; case: M2 => [[|m2]|] //=; case: ifP => b0 /Fin -> _; split=> //; apply: tied_k; rewrite b0.
by rewrite /circular_full => /Fin ->.
Qed.

(** ** C48: failure *)
(** states of the object that the constructors can produce *)
Definition wf (e : ens) : Prop :=
  [/\ 0 <= Beta e, cls e = Circular -> is_int (beta_ e) & cls e = Ginibre -> Beta e = 2%:R].
Theorem C48_init_wf k b e : init_ensemble k b = inl e ->
  [/\ wf e, cls e = k, beta_ e = b, size_N (params e) = 10%N & list_of_samples e = [::]].
Proof.
rewrite /wf /Beta; case: k; rewrite /= ?/rb /base_init.
- by case: ifP => // /negbFE h [<-].
- by case: ifP => // /negbFE h [<-].
- by case: ifP => // /negbFE h [<-].
- by case: ifP => // /negbFE hi; case: ifP => // /negbFE h [<-].
- by case: ifP => // /negbFE /eqP hi; case: ifP => // /negbFE h [<-].
Qed.
Lemma sample_wf d c e : wf e -> wf (sample d c e).2.
Proof. by move=> w; have [h1 h2 _] := sample_eff d c e; rewrite /wf /Beta h1 h2. Qed.
Lemma exec_wf o e : wf e -> wf (exec o e).2.
Proof.
case: o => [d c||i|] //=; first exact: sample_wf.
by rewrite /normalize_recorded; case: ifP => // _; case: (normalized _ _).
Qed.
Theorem C48_run_wf os e : wf e -> wf (run os e).2.
Proof.
elim: os e => //= o os IH e /(exec_wf o); case: (exec o e) => r e1 /= /IH.
by case: (run os e1).
Qed.

(** the calls of each class, and the documented validity conditions *)
Definition call_of (k : klass) (c : call) : bool :=
  match k, c with
  | Hermite, (HermiteFull _ | HermiteBanded _ _ _) | Laguerre, (LaguerreFull _ _ | LaguerreBanded _ _ _ _)
  | Jacobi, (JacobiFull _ _ _ | JacobiBanded _ _ _ _ _) | Circular, (CircularFull _ _ | CircularBanded _)
  | Ginibre, (GinibreFull _ | GinibreBanded) => true
  | _, _ => false
  end.
Definition b124 (b : R) := [|| b == 1, b == 2%:R | b == 4%:R].
Definition valid (c : call) (b : R) : bool :=
  match c with
  | HermiteFull _ => (b == 0) || b124 b
  | HermiteBanded _ scale _ => 0 <= scale
  | LaguerreFull N M => (N <= M)%N && b124 b
  | LaguerreBanded shape scale N M =>
      if given M then (N <= odflt 0 M)%N && (0 < b)
      else (0 <= scale) && (if b == 0 then 0 < shape else 0 <= shape)
  | JacobiFull N M1 M2 => [&& (N <= M1)%N, (N <= M2)%N & b124 b]
  | JacobiBanded a b' N M1 M2 =>
      if given M1 && given M2 then [&& (N <= odflt 0 M1)%N, (N <= odflt 0 M2)%N & 0 < b] else (0 < a) && (0 < b')
  | CircularFull _ h =>
      [|| b == 0, String.eqb h "Hermite" && b124 b | String.eqb h "QR" && ((b == 1) || (b == 2%:R))]
  | CircularBanded _ => true
  | GinibreFull _ => true
  | GinibreBanded => false
  end.

Definition outcome (T : Type) (r : T + exn) (v : bool) : Prop := if r is inr x then ~~ v /\ x = ValueError else v.
Lemma outcome_finish r (e : ens) v : outcome r v -> outcome (finish r e).1 v.
Proof. by case: r. Qed.
Lemma outcome_rpts r v : outcome r v -> outcome (@rpts R r) v.
Proof. by case: r. Qed.
Lemma out_normal nr k loc (s : R) n : outcome (@rng_normal R nr k loc s n) (0 <= s).
Proof. by rewrite /rng_normal ltNge; case: ifP => [h|/negbFE //]; split. Qed.
Lemma out_hermite nr ga loc (s b : R) n : 0 < b -> outcome (mu_ref_normal_sampler_tridiag eigt nr ga loc s b n) (0 <= s).
Proof.
move=> b0; have [s0|s0] := boolP (0 <= s); first by have [l ->] := C60_normal_total eigt nr ga loc n b0 s0.
by rewrite /mu_ref_normal_sampler_tridiag b0 /= /rng_normal ltNge s0.
Qed.
Lemma mem0_b2 (b : R) n : (0 < n)%N -> 0 \in [seq 2%:R^-1 * b * k%:R | k <- arange_down n].
Proof. by move=> n0; apply/mapP; exists 0%N; rewrite ?mulr0 // mem_rev mem_iota. Qed.
Lemma out_gamma ga (sh s b : R) n : 0 < b -> (0 < n)%N ->
  outcome (mu_ref_gamma_sampler_tridiag eigt ga sh s b n) ((0 <= s) && (0 <= sh)).
Proof.
move=> b0 n0; have [/andP[s0 h0]|h] := boolP ((0 <= s) && (0 <= sh)).
  by have [l ->] := C41_gamma_total eigt ga n b0 h0 s0.
rewrite /mu_ref_gamma_sampler_tridiag b0 /= /rng_gamma.
case: ifP => //= /negbT; rewrite negb_or -leNgt => /andP[/hasPn h1 s0].
by move: h; rewrite s0 /= => /negP[]; rewrite leNgt -[sh]add0r; apply: h1; apply: map_f; exact: mem0_b2.
Qed.
Lemma out_beta bd (a b' b : R) n : 0 < b -> (0 < n)%N ->
  outcome (mu_ref_beta_sampler_tridiag eigt bd a b' b n) ((0 < a) && (0 < b')).
Proof.
move=> b0 n0; have [/andP[s0 h0]|h] := boolP ((0 < a) && (0 < b')).
  by have [l ->] := C42_beta_total eigt bd n b0 s0 h0.
rewrite /mu_ref_beta_sampler_tridiag b0 /= /rng_beta.
case: ifP => //= /negbT; rewrite negb_or => /andP[/hasPn h1 /hasPn h2].
move: h => /negP[]; rewrite !ltNge -[a]add0r -[b']add0r.
by rewrite h1 ?h2 //; apply: map_f; exact: mem0_b2.
Qed.
Lemma out_iid_gamma d (sh s : R) n : outcome (laguerre_iid d sh s n) ((0 <= s) && (0 < sh)).
Proof.
rewrite /laguerre_iid; case: ifP => [sh0|]; last by rewrite andbF.
rewrite andbT; apply: outcome_rpts; rewrite /iid_gamma /rng_gamma; case: ifP => [|/negbT].
  by case/orP => [/hasP[x /nseqP[-> _]]|]; rewrite ?ltNge // ltW.
by rewrite negb_or -leNgt => /andP[].
Qed.
Lemma out_iid_beta d (a b : R) n : outcome (rpts (iid_beta d a b n)) ((0 < a) && (0 < b)).
Proof.
apply: outcome_rpts; rewrite /iid_beta; case: ifP => [|/negbT]; first by rewrite !ltNge => /orP[] ->; rewrite ?andbF.
rewrite negb_or -!ltNge => /andP[a0 b0]; rewrite a0 b0 /= /rng_beta; case: ifP => //.
by case/orP => /hasP[x /nseqP[-> _]]; rewrite leNgt ?a0 ?b0.
Qed.

(** The exact success condition of every call on a constructible object.  The only exceptions other than ValueError are
    LinAlgError (full Jacobi model, when the sum of the two Wishart matrices drawn is singular) and
    NotImplementedError (banded Ginibre model). *)
Theorem C48_outcome d c e : wf e -> call_of (cls e) c -> (0 < asked c)%N ->
  match (sample d c e).1 return Prop with
  | inl _ => valid c (Beta e)
  | inr x => (~~ valid c (Beta e) /\ x = ValueError) \/ ((exists N M1 M2, c = JacobiFull R N M1 M2) /\ x = LinAlgError)
  end.
Proof.
case=> b0 wc wg.
suff : call_of (cls e) c -> (0 < asked c)%N -> (if c is JacobiFull _ _ _ then
    if (sample d c e).1 is inr LinAlgError then Logic.True else outcome (sample d c e).1 (valid c (Beta e))
    else outcome (sample d c e).1 (valid c (Beta e))).
  move=> h cc N0; move: (h cc N0); case: (sample d c e).1 => [s|x] /=; first by case: (c).
  case: (c) => *; first [by left|idtac].
  match goal with h : match x with _ => _ end |- _ => move: h end; case: x => // h'; first [by left|by right; split=> //; do 3!eexists].
move=> + N0; rewrite /BetaModel.sample.
case ec: (cls e); case: c N0 => [N|loc scale N|N M|shape scale N M|N M1 M2|a b N M1 M2|N h|N|N|] //= N0 _.
- apply: outcome_finish; rewrite /Beta /=; case: ifP => [_|n0]; first by rewrite /rng_normal ltNge sqrtr_ge0.
  apply: outcome_rpts; rewrite /hermite_sampler_full /b124.
  by do 3!(case: ifP => //= _).
- apply: outcome_finish; rewrite /Beta /=; case: ifP => [_|n0]; apply: outcome_rpts; first exact: out_normal.
  by apply: out_hermite; rewrite lt_def n0.
- rewrite /laguerre_full; cbv zeta; case: ifP => [le|nle]; last by [].
  apply: outcome_finish; rewrite /Beta /=; case: eqP => [->|n0].
    by rewrite /laguerre_iid mulr0 mul0r ltxx /b124 !(eq_sym 0) oner_eq0 !pnatr_eq0.
  by apply: outcome_rpts; rewrite /laguerre_sampler_full /b124; do 3!(case: ifP => //= _).
- rewrite /laguerre_banded; cbv zeta.
  have run0 sh sc M' : outcome (finish (if Beta e == 0 then laguerre_iid d sh sc N
            else rpts (mu_ref_gamma_sampler_tridiag eigt (d_gamma d) sh sc (Beta e) N))
       (set_laguerre sh sc N M' (set_mode "banded" e))).1 ((0 <= sc) && (if Beta e == 0 then 0 < sh else 0 <= sh)).
    apply: outcome_finish; case: ifP => [_|n0]; first exact: out_iid_gamma.
    by apply: outcome_rpts; apply: out_gamma => //; rewrite lt_def n0.
  case: M => [[|m]|]; [exact: run0| |exact: run0].
  rewrite [_.+1 == _]/=; case: ifP => [le|nle]; last by [].
  suff <- : (0 <= 2%:R :> R) && (if Beta e == 0 then 0 < 2%:R^-1 * Beta e * (m.+1 - N + 1)%:R
                                 else 0 <= 2%:R^-1 * Beta e * (m.+1 - N + 1)%:R) = (0 < Beta e) by exact: run0.
  rewrite ler0n /=; case: eqP => [->|/eqP nb]; first by rewrite mulr0 mul0r ltxx.
  by rewrite lt_def nb b0 !mulr_ge0 ?invr_ge0 ?ler0n.
- rewrite /jacobi_full; cbv zeta; case: ifP => [/andP[-> ->]|]; last by rewrite andbA => ->.
  rewrite /Beta /=; case: eqP => [->|n0] /=.
    have := out_iid_beta d 0 0 N; rewrite ltxx /= mulr0 !mul0r /b124 !(eq_sym 0) oner_eq0 !pnatr_eq0 /=.
    by case: (rpts _) => //= x [_ ->].
  rewrite /jacobi_sampler_full /b124 /Beta /=; do 3!(case: ifP => /= _; first by case: ifP).
  by [].
- have run0 a' b' M1' M2' : outcome (finish (if Beta e == 0 then rpts (iid_beta d a' b' N)
            else rpts (mu_ref_beta_sampler_tridiag eigt (d_beta d) a' b' (Beta e) N))
       (set_jacobi a' b' N M1' M2' (set_mode "banded" e))).1 ((0 < a') && (0 < b')).
    apply: outcome_finish; case: ifP => [_|n0]; first exact: out_iid_beta.
    by apply: outcome_rpts; apply: out_beta => //; rewrite lt_def n0.
  rewrite /jacobi_banded; cbv zeta.
  case: M1 => [[|m1]|]; case: M2 => [[|m2]|]; try by (case: ifP => _; apply: run0).
  rewrite [given _ && _]/= [odflt _ _]/= [odflt _ _]/= [~~ _]/= andbA.
  case: ifP => [le|nle]; last by [].
  have pos m : (0 < 2%:R^-1 * Beta e * (m.+1 - N + 1)%:R) = (0 < Beta e).
    by rewrite pmulr_lgt0 ?ltr0n ?addn1 // pmulr_rgt0 // invr_gt0 ltr0n.
  suff <- : (0 < 2%:R^-1 * Beta e * (m1.+1 - N + 1)%:R) && (0 < 2%:R^-1 * Beta e * (m2.+1 - N + 1)%:R) = (0 < Beta e).
    exact: run0.
  by rewrite !pos andbb.
- apply: outcome_finish; rewrite /Beta /=; case: ifP => //= n0; rewrite /circular_sampler_full /b124.
  case: ifP => /= [eH|_].
    have -> : String.eqb h "QR" = false by move/String.eqb_eq: eH => ->.
    by do 3!(case: ifP => //= _).
  case: ifP => //= _; do 2!(case: ifP => /= _; first by case: (qr _)).
  by [].
- apply: outcome_finish; have := wc ec; have := b0; rewrite /Beta /=; case: ifP => //= n0.
  case: (beta_ e) n0 => //= b n0 bb _; rewrite /mu_ref_unif_unit_circle_sampler_quindiag.
  by move: n0 bb; rewrite intr_eq0 ler0z lt_def => -> ->.
Qed.
Theorem C48_ginibre_banded d e : cls e = Ginibre -> sample d (GinibreBanded R) e = (inr NotImplementedError, e).
Proof. by rewrite /BetaModel.sample => ->. Qed.


(** ** C62: displayed points *)
(** the documented change of variable, in terms of the parameters of the call that produced the sample *)
Definition affine (loc scale : R) (z : C) : C := (z - Complex loc 0) / Complex scale 0.
Definition doc_normalization (c : call) (beta : R) (z : C) : C :=
  match c with
  | HermiteFull N => if 0 < beta then affine 0 (Num.sqrt (beta * N%:R)) z else z
  | HermiteBanded loc scale N =>
      let z1 := affine loc (Num.sqrt 2%:R^-1 * scale) z in
      if 0 < beta then affine 0 (Num.sqrt (beta * N%:R)) z1 else z1
  | LaguerreFull N M => if 0 < beta then affine 0 (beta * M%:R) z else z
  | LaguerreBanded shape scale N M =>
      let z1 := affine 0 (2%:R^-1 * (if given M then 2%:R else scale)) z in
      let m := if given M then (odflt 0%N M)%:R else 2%:R / beta * shape + N%:R - 1 in
      if 0 < beta then affine 0 (beta * m) z1 else z1
  | GinibreFull N => affine 0 (Num.sqrt N%:R) z
  | _ => z
  end.
Lemma affine0 sc z : affine 0 sc z = z / Complex sc 0.
Proof. by rewrite /affine -[Complex 0 0]/(0 : C) subr0. Qed.

(** right after a successful call, the points displayed are the documented function of the points returned *)
Theorem C62_display_after_success_partial d c e s e' : sample d c e = (inl s, e') ->
  displayed e' = inl (map (doc_normalization c (Beta e)) s).
Proof.
move=> E; have [c1 c2 lE] := sample_eff d c e; rewrite E /= in c1 c2 lE.
have Fin e0 r : finish r e0 = (inl s, e') -> params e' = params e0 /\ sampling_mode e' = sampling_mode e0.
  by case: r => //= a [_ <-].
suff nE : normalized e' s = Some (map (doc_normalization c (Beta e)) s).
  rewrite /displayed lE; case: (list_of_samples e) => [|x l] /=; rewrite ?last_rcons; by rewrite nE.
have id0 (f : C -> C) (l : seq C) : (forall z, f z = z) -> l = map f l.
  by move=> h; rewrite -[LHS]map_id; apply: eq_map => z; rewrite h.
rewrite /normalized c1 /Beta c2 /=; move: E; rewrite /BetaModel.sample.
case: (cls e); case: c => [N|loc scale N|N M|shape scale N M|N M1 M2|a b N M1 M2|N h|N|N|] //.
- rewrite /hermite_full => /Fin [-> ->]; rewrite /doc_normalization /=; congr Some.
  by case: ifP => _; [apply: eq_map => z /=; rewrite affine0|apply: id0].
- rewrite /hermite_banded => /Fin [-> ->]; rewrite /doc_normalization /=; congr Some.
  by case: ifP => _; rewrite -?map_comp; apply: eq_map => z /=; rewrite ?affine0.
- rewrite /laguerre_full; cbv zeta; case: ifP => // _ /Fin [-> ->]; rewrite /doc_normalization /=.
  by case: ifP => _; congr Some; [apply: eq_map => z /=; rewrite affine0|apply: id0].
- rewrite /laguerre_banded; cbv zeta; case: M => [[|m]|].
  + rewrite eqxx => /Fin [-> ->] /=; rewrite /Beta /doc_normalization /=; case: ifP => bE /=; rewrite ?bE /=; congr Some; rewrite -?map_comp;
      by apply: eq_map => z /=; rewrite ?affine0.
  + rewrite [_.+1 == _]/=; case: ifP => // _ /Fin [-> ->]; rewrite /Beta [params _]/= [sampling_mode _]/=.
    rewrite /doc_normalization; cbn [String.eqb Ascii.eqb Bool.eqb p_scale size_M mget given odflt oapp].
    by case: ifP => bE /=; rewrite ?bE /=; congr Some; rewrite -?map_comp; apply: eq_map => z /=; rewrite ?affine0.
  + move=> /Fin [-> ->] /=; rewrite /Beta /doc_normalization /=; case: ifP => bE /=; rewrite ?bE /=; congr Some; rewrite -?map_comp;
      by apply: eq_map => z /=; rewrite ?affine0.
- by move=> _; congr Some; exact: id0.
- by move=> _; congr Some; exact: id0.
- by move=> _; congr Some; exact: id0.
- by move=> _; congr Some; exact: id0.
rewrite /ginibre_full => /Fin [-> _] /=; congr Some; apply: eq_map => z /=; by rewrite affine0.
Qed.
(** displaying does not modify the object, and normalising a recorded array does not for three of the classes *)
Theorem C62_display_pure e : exec (@Display R) e = (displayed e, e).
Proof. by []. Qed.
Theorem C62_normalize_pure_partial i e : cls e <> Hermite -> cls e <> Laguerre -> (exec (Normalize R i) e).2 = e.
Proof.
rewrite /= /normalize_recorded; case: ifP => // _; case: e => k b p m l /=.
by case: k => // _ _; case: (normalized _ _).
Qed.

(** ** C63: every recorded sample lies in the support of the reference measure, after any history *)
Definition op_ok (o : op R) : Prop :=
  if o is Sample d c then draws_ok d /\ (0 < asked c)%N else Logic.True.
Theorem C63_recorded_in_support os e : (forall i, (i < size os)%N -> op_ok (nth (Flush R) os i)) ->
  all (safe_op (cls e)) os -> all (all (in_support (cls e))) (list_of_samples e) ->
  all (all (in_support (cls e))) (list_of_samples (run os e).2).
Proof.
elim: os e => [|o os IH] e //= ok /andP[so sos] le.
have := exec_cls o e; case eo: (exec o e) => [r e1] /= ce1.
have {}IH := IH e1 (fun i => ok i.+1); rewrite ce1 in IH.
suff /(IH sos) : all (all (in_support (cls e))) (list_of_samples e1) by case: (run os e1).
have := ok 0%N isT; case: o so eo {ok} => [d c||i|] //= so.
- move=> eo [dk N0]; have := sample_eff d c e; rewrite eo => -[_ _ /= ->].
  by case: r eo => // s eo; have [_ h _ _ _] := sample_ok dk N0 eo; rewrite all_rcons h.
- by case=> _ <-.
- rewrite /normalize_recorded; case: ifP => _; last by case=> _ <-.
  by case: (normalized _ _) => [y|]; case=> _ <- //=; case: (cls e) so le.
by case=> _ <-.
Qed.
Corollary C63_from_constructor k b e os : init_ensemble k b = inl e ->
  (forall i, (i < size os)%N -> op_ok (nth (Flush R) os i)) -> all (safe_op k) os ->
  all (all (in_support k)) (list_of_samples (run os e).2).
Proof.
move=> /C48_init_wf [_ <- _ _ l0] ok so; apply: C63_recorded_in_support => //; by rewrite l0.
Qed.
End P.

(** ** Counterexamples: what the code does not guarantee *)
Section Refuted.
Variable R : rcfType.
Notation C := (complex R).
Let vecs0 := fun n (_ : 'M[C]_n) => 1%:M : 'M[C]_n.
Let qr0 := fun n (A : 'M[C]_n) => (1%:M : 'M[C]_n, A).
Notation sample := (sample (@eig0 R) (@eigvalsh0 R) (@eigvals0 R) vecs0 qr0).
Notation run := (run (@eig0 R) (@eigvalsh0 R) (@eigvals0 R) vecs0 qr0).

(** draws that meet every assumption of the theorems above *)
Definition draws0 : draws R :=
  Draws (fun _ m n => \matrix_(i < m, j < n) (i == j :> nat)%:R) (@randn0 R) (fun _ _ _ _ => 1) (fun _ _ _ _ => 1) (fun _ _ _ _ => 2%:R^-1)
        (fun _ => 1).
Lemma draws0_ok : draws_ok qr0 draws0.
Proof.
split=> //=.
- by move=> *; rewrite ler01.
- by move=> *; rewrite invr_ge0 ler0n invf_le1 ?ltr0n // ler1n.
- by move=> i; rewrite normr1.
- exact: randn0P.
move=> N A [] -> i; rewrite !mxE /= eqxx.
  by rewrite -[Complex 1 0]/(1 : C) oner_eq0.
by apply/eqP => -[/eqP]; rewrite oner_eq0.
Qed.

(** C48: the full models with beta = 4 return (and record) 2N points while size_N is N *)
Theorem C48_size_refuted N e : (0 < N)%N -> init_ensemble Hermite (PInt R 4) = inl e ->
  exists s e', [/\ sample draws0 (HermiteFull R N) e = (inl s, e'), size_N (params e') = N & size s = (N + N)%N].
Proof.
move=> N0 /C48_init_wf [w ce be _ _].
have b4 : Beta e = 4%:R by rewrite /Beta be.
have := C48_outcome (@eig0 R) (@eigvalsh0 R) (@eigvals0 R) vecs0 qr0 draws0 (c := HermiteFull R N) w.
rewrite ce => /(_ isT N0).
case E: (sample _ _ _) => [[s|x] e'] /=; last first.
  by rewrite b4 /b124 eqxx !orbT => -[[]|[[? [? [?]]]]].
move=> _; exists s, e'; split=> //.
  by have [] := sample_ok (@eig0P R) (@eigvalsh0P R) (@eigvals0P R) (@eigvecsh0P R) (@qr0P R) (c := HermiteFull R N) draws0_ok N0 E.
have [-> _ _ _ _] := sample_ok (@eig0P R) (@eigvalsh0P R) (@eigvals0P R) (@eigvecsh0P R) (@qr0P R) (c := HermiteFull R N) draws0_ok N0 E.
by rewrite /returned /= b4 eqxx.
Qed.

(** C48: a negative beta is reported with AttributeError instead of ValueError *)
Theorem C48_negative_beta_refuted : init_ensemble Hermite (PInt R (-1)) = inr AttributeError /\
  (forall k b, pyval b < 0 -> k <> Circular -> k <> Ginibre -> init_ensemble k b = inr AttributeError :> ens R + exn).
Proof.
split; first by rewrite /= /base_init /= ler0N1.
by move=> k b; rewrite ltNge => /negbTE h; case: k => // _ _; rewrite /= /base_init h.
Qed.
Theorem C48_constructor_partial k (b : pynum R) : 0 <= pyval b ->
  match init_ensemble k b with
  | inl e => (k = Circular -> is_int b) /\ (k = Ginibre -> pyval b = 2%:R)
  | inr x => x = ValueError /\ ((k = Circular /\ ~~ is_int b) \/ (k = Ginibre /\ pyval b <> 2%:R))
  end.
Proof.
move=> b0; case: k; rewrite /= /base_init b0 //=.
- by case: ifP => [h|/negbFE h] //=; split=> //; left.
by case: ifP => [/eqP h|/negbFE /eqP h] //=; split=> //; right.
Qed.

Definition h0 : ens R := Ens Hermite (PInt R 0) (Pars 10 (Some 0) (Some (Num.sqrt 2%:R)) None None None None None None None) "" [::].
Lemma h0E : init_ensemble Hermite (PInt R 0) = inl h0.
Proof. by rewrite /= /base_init /= lexx. Qed.

Lemma sq2_pos : 0 < Num.sqrt 2%:R^-1 :> R.
Proof. by rewrite sqrtr_gt0 invr_gt0 ltr0n. Qed.
(** C62: after a failed call, the last sample is displayed with the parameters of the failed call *)
Theorem C62_failed_call_refuted : exists e1 e2 s,
  [/\ sample draws0 (HermiteBanded 0 1 2) h0 = (inl s, e1),
      sample draws0 (HermiteBanded 5%:R (-1) 2) e1 = (inr ValueError, e2) & displayed e2 <> displayed e1].
Proof.
eexists; eexists; eexists; split.
- by rewrite /BetaModel.sample /= /hermite_banded /Beta /= eqxx /rng_normal ltr10 /=; reflexivity.
- by rewrite /BetaModel.sample /= /hermite_banded /Beta /= eqxx /rng_normal ltrN10 /=; reflexivity.
rewrite /displayed /normalized /Beta /= ltxx /= => -[] + _ _.
rewrite mulr1 mulrN1 => + _; have := sq2_pos; move: (Num.sqrt 2%:R^-1 : R) => r r0.
rewrite subrr !mul0r !subr0 expr0n /= !addr0 sqrrN mul1r mulNr mulrN -mulNr opprB => /eqP.
rewrite -subr_eq0 -[X in _ - X]mul1r -mulrBl mulf_eq0 mulf_eq0 invr_eq0 sqrf_eq0 (gt_eqF r0) !orbF.
rewrite -addrA -opprD -[1 + 1]/(2%:R) -natrB // pnatr_eq0.
by [].
Qed.

(** C62: normalize_points on a recorded array changes the record *)
Theorem C62_normalize_refuted : exists e1 s y e2,
  [/\ sample draws0 (HermiteBanded 0 1 2) h0 = (inl s, e1), exec (@eig0 R) (@eigvalsh0 R) (@eigvals0 R) vecs0 qr0 (Normalize R 0) e1 = (inl y, e2),
      list_of_samples e1 = [:: s] & list_of_samples e2 <> [:: s]].
Proof.
eexists; eexists; eexists; eexists; split.
- by rewrite /BetaModel.sample /= /hermite_banded /Beta /= eqxx /rng_normal ltr10 /=; reflexivity.
- by rewrite /= /normalize_recorded /= /normalized /Beta /= ltxx /=; reflexivity.
- by [].
move=> /= [] + _.
rewrite mulr1 => h _ _; move: h; have := sq2_pos; have : (Num.sqrt 2%:R^-1 : R) ^+ 2 = 2%:R^-1.
  by rewrite sqr_sqrtr // invr_ge0 ler0n.
move: (Num.sqrt 2%:R^-1 : R) => r rE r0; rewrite !subrr !mul0r !subr0 expr0n /= !addr0 mul1r => h.
have : r = r ^+ 2 by rewrite -[LHS](divfK (_ : r ^+ 2 != 0)) ?h ?mul1r // expf_neq0 // gt_eqF.
move/eqP; rewrite -subr_eq0 expr2 -{1}[r]mulr1 -mulrBr mulf_eq0 (gt_eqF r0) /= subr_eq0 => /eqP r1.
by move: rE; rewrite -r1 expr1n => /eqP; rewrite eq_sym invr_eq1 (eqr_nat R 2 1).
Qed.

(** An instance: a Laguerre object with beta = 2, two successful calls and a failing one; two samples of nonnegative
    points are recorded, of sizes 3 and 2. *)
Definition hist0 : seq (op R) :=
  [:: Sample draws0 (LaguerreBanded 1 1 3 None); Sample draws0 (LaguerreFull R 3 1); Display R;
      Sample draws0 (LaguerreBanded 1 1 2 (Some 4%N))].
Lemma hist0_ok i : (i < size hist0)%N -> op_ok qr0 (nth (Flush R) hist0 i).
Proof. by case: i => [|[|[|[|i]]]] //= _; split=> //; exact: draws0_ok. Qed.
Example C63_instance e : init_ensemble Laguerre (PInt R 2) = inl e ->
  let: (outs, e') := run hist0 e in
  exists s1 s2 y, [/\ outs = [:: inl s1; inr ValueError; inl y; inl s2], list_of_samples e' = [:: s1; s2],
    size s1 = 3%N, size s2 = 2%N & all (fun z => 0 <= z) (s1 ++ s2)].
Proof.
move=> E; have := C63_from_constructor (@eig0P R) (@eigvalsh0P R) (@eigvals0P R) (@eigvecsh0P R) (@qr0P R) E hist0_ok isT.
have [w ce be _ l0] := C48_init_wf E.
have b2 : Beta e = 2%:R by rewrite /Beta be.
have OUT := C48_outcome (@eig0 R) (@eigvalsh0 R) (@eigvals0 R) vecs0 qr0 draws0.
have EFF := sample_eff (@eig0 R) (@eigvalsh0 R) (@eigvals0 R) vecs0 qr0 draws0.
have OK := sample_ok (@eig0P R) (@eigvalsh0P R) (@eigvals0P R) (@eigvecsh0P R) (@qr0P R) draws0_ok.
rewrite /hist0; cbn [BetaModel.run exec].
have := OUT (LaguerreBanded 1 1 3 None) e w; rewrite ce => /(_ isT isT).
case E1: (sample _ _ e) => [[s1|x1] e1] /=; last first.
  by rewrite !ler01 b2 (eqr_nat R 2 0) => -[[]|[[? [? []]]]].
move=> _; have [c1 b1 l1] := EFF (LaguerreBanded 1 1 3 None) e; rewrite E1 /= in c1 b1 l1.
have w1 := sample_wf (@eig0 R) (@eigvalsh0 R) (@eigvals0 R) vecs0 qr0 draws0 (LaguerreBanded 1 1 3 None) w.
rewrite E1 /= in w1; rewrite ce in c1.
have sz1 : size s1 = 3%N by have [-> _ _ _ _] := OK (LaguerreBanded 1 1 3 None) e s1 e1 isT E1.
have -> : sample draws0 (LaguerreFull R 3 1) e1 = (inr ValueError, set_mode "full" e1).
  by rewrite /BetaModel.sample c1.
have [y dE] : exists y, displayed (set_mode "full" e1) = inl y.
  have [t _] := C48_params_describe E1; have bp : 0 < Beta e by rewrite b2 ltr0n.
  have [m mE _] := t bp.
  have B1 : Beta e1 = 2%:R by rewrite /Beta b1.
  rewrite /displayed /= l1 l0 /= /normalized /= c1 mE /= /Beta b1 -/(Beta e) b2 ltr0n; by eexists.
rewrite dE.
set e2 := set_mode _ _.
have w2 : wf e2 by [].
have c2 : cls e2 = Laguerre by [].
have := OUT (LaguerreBanded 1 1 2 (Some 4%N)) e2 w2; rewrite c2 => /(_ isT isT).
have B2 : Beta e2 = 2%:R by rewrite /Beta /= b1.
case E3: (sample _ _ e2) => [[s3|x3] e3] /=; last first.
  by rewrite B2 ltr0n => -[[]|[[? [? []]]]].
move=> _; have [c3 b3 l3] := EFF (LaguerreBanded 1 1 2 (Some 4%N)) e2; rewrite E3 /= in c3 b3 l3.
have sz3 : size s3 = 2%N by have [-> _ _ _ _] := OK (LaguerreBanded 1 1 2 (Some 4%N)) e2 s3 e3 isT E3.
rewrite l3 l1 l0 /= andbT => sup; exists s1, s3, y; split=> //; by rewrite all_cat.
Qed.
End Refuted.
Print Assumptions C48_history_append_only_partial.
Print Assumptions C48_sample_partial.
Print Assumptions C48_params_describe.
Print Assumptions C48_outcome.
Print Assumptions C62_display_after_success_partial.
Print Assumptions C63_from_constructor.
Print Assumptions C63_instance.
