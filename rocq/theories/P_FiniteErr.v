(** * P_FiniteErr: properties C23 (shared cache of the intermediate samplers), C24 (sizes of intermediate k-DPP samples),
      C25 (constructor), C54 (invalid kernels). *)
From Coq Require Import String.
From mathcomp Require Import all_ssreflect all_algebra.
From mathcomp.algebra_tactics Require Import ring.
From Verif Require Import Prob Minor Chain ChainCons UtilsModel ExactModel ProjGS ProjKuTa ProjAll GenKernel Spectral LEnsemble QRex P_Proj P_Gen P_Spectral Kdpp P_Kdpp McmcModel P_Mcmc FiniteModel Finite SpecLemmas P_FiniteHist P_FiniteCoh P_FiniteLaw EighEx P_FiniteKdpp P_Utils.
Set Implicit Arguments. Unset Strict Implicit. Unset Printing Implicit Defensive.
Import Order.Theory GRing.Theory Num.Theory.
Local Open Scope ring_scope.

Section Intermediate.
Variables (R : rcfType) (N : nat) (vrest arest vparams : Type).
Notation dpp := (dpp R N vrest arest).
Notation item := 'I_N.
(** the inner samplers are arbitrary programs *)
Variable vfx_pre : vparams -> option nat -> prog R (vfx_info R vrest).
Variable vfx_loop : vparams -> vfx_info R vrest -> prog R (seq item * nat).
Variable al_pre : vparams -> option nat -> prog R (alpha_info R arest).
Variable al_loop : vparams -> alpha_info R arest -> prog R (seq item * nat * alpha_info R arest).
Variable al_reset : R -> arest -> arest.
Variables (max_iter : vparams -> nat) (early : vparams -> bool).
Variable eigh : forall n : nat, 'M[R]_n -> seq R * seq 'cV[R]_n.
Variable qr : forall r : nat, 'M[R]_(N, r) -> 'M[R]_(N, r).
Variables (eps tol : R) (limit : nat).
Hypothesis limit_pos : (0 < limit)%N.
Notation sample_exact := (@sample_exact R N vrest arest vparams vfx_pre vfx_loop al_pre al_loop eigh qr limit).
Notation sample_exact_k_dpp := (@sample_exact_k_dpp R N vrest arest vparams vfx_pre vfx_loop al_pre al_loop al_reset max_iter early eigh qr eps limit).
Notation k_dpp_vfx_sampler := (@k_dpp_vfx_sampler R N vrest arest vparams vfx_pre vfx_loop max_iter).
Notation alpha_k_dpp_sampler := (@alpha_k_dpp_sampler R N vrest arest vparams al_pre al_loop al_reset max_iter early).

(** ** C24 *)
Lemma vfx_size_loop_size pr k n v X i : possible (@vfx_size_loop R N vrest arest vparams vfx_loop pr k n v) (inl (X, i)) -> size X = k.
Proof.
elim: n v => //= n IH v h; have [[Y rej] _ /=] := Spectral.bind_possible h.
by case: eqP => [e /= [-> _]|_]; [exact: e|exact: IH].
Qed.

Lemma vfx_size_loop_exn pr k n v e : (forall v e, ~ possible (vfx_loop pr v) (inr e)) ->
  possible (@vfx_size_loop R N vrest arest vparams vfx_loop pr k n v) (inr e) -> e = ValueError.
Proof.
move=> nl; elim: n v => [|n IH] v /=; first by case=> ->.
move=> h; case: (possible_bind_raise h) => [h1|[[Y rej] _ /=]]; first by case: (nl _ _ h1).
by case: eqP => // _; exact: IH.
Qed.

Theorem C24_vfx_size pr k i X i' : possible (k_dpp_vfx_sampler pr k i) (inl (X, i')) -> size X = k.
Proof.
by rewrite /FiniteModel.k_dpp_vfx_sampler; case: i => [[v|a]|] //= h; have [w _] := Spectral.bind_possible h; exact: vfx_size_loop_size.
Qed.

(** with inner samplers that never fail, the only failure is ValueError (budget exhausted) *)
Theorem C24_vfx_failure pr k i e : (forall o e, ~ possible (vfx_pre pr o) (inr e)) -> (forall v e, ~ possible (vfx_loop pr v) (inr e)) ->
  (if i is Some (inr _) then false else true) ->
  possible (k_dpp_vfx_sampler pr k i) (inr e) -> e = ValueError.
Proof.
move=> np nl; rewrite /FiniteModel.k_dpp_vfx_sampler.
case: i => [[v|a]|] //= _ h; case: (possible_bind_raise h) => [|[w _]]; try exact: vfx_size_loop_exn.
  by case: ifP => _ // h1; case: (np _ _ h1).
by move=> h1; case: (np _ _ h1).
Qed.

Definition out_ok k (sc : nat) (out : option (seq item)) : Prop :=
  if out is Some x then size x = k else sc = 0%N.

Lemma alpha_finish_size k sc good out a X i : out_ok k sc out -> 
  possible (@alpha_finish R N vrest arest good out a) (inl (X, i)) -> size X = k.
Proof. by case: out => [x|] //= sx [-> _]. Qed.
Lemma alpha_finish_exn k sc good out a e : out_ok k sc out -> (0 < sc)%N ->
  ~ possible (@alpha_finish R N vrest arest good out a) (inr e).
Proof. by case: out => [x|] //= ->. Qed.

Lemma alpha_loop_size pr k n over sc tc un ov out good a X i : out_ok k sc out ->
  possible (@alpha_size_loop R N vrest arest vparams al_loop al_reset early pr k n over sc tc un ov out good a) (inl (X, i)) -> size X = k.
Proof.
elim: n over sc tc un ov out a => //= n IH over sc tc un ov out a ok h.
have [[[Y rej] a0] _ {h}] := Spectral.bind_possible h.
have ok' : out_ok k (sc + (size Y == k))%N (if size Y == k then Some Y else out).
  by case: eqP => [//|_]; rewrite addn0.
case: ifP => _; first exact: alpha_finish_size ok'.
case: ifP => _; first exact: alpha_finish_size ok'.
case: ifP => _; last exact: IH.
by case: ifP => _; [exact: alpha_finish_size ok'|exact: IH].
Qed.

Lemma alpha_loop_exn pr k n over sc tc un ov out good a e : (forall a e, ~ possible (al_loop pr a) (inr e)) -> out_ok k sc out ->
  possible (@alpha_size_loop R N vrest arest vparams al_loop al_reset early pr k n over sc tc un ov out good a) (inr e) -> e = ValueError.
Proof.
move=> nl; elim: n over sc tc un ov out a => [|n IH] over sc tc un ov out a ok /=; first by case.
move=> h; case: (possible_bind_raise h) => [h1|[[[Y rej] a0] _ {h}]]; first by case: (nl _ _ h1).
have ok' : out_ok k (sc + (size Y == k))%N (if size Y == k then Some Y else out).
  by case: eqP => [//|_]; rewrite addn0.
case: ifP => [/andP[/eqP e1 _]|_].
  by move=> p; exfalso; apply: (alpha_finish_exn ok' _ p); rewrite e1 eqxx addn1.
case: ifP => [/eqP e2|_]; first by move=> p; exfalso; apply: (alpha_finish_exn ok' _ p); rewrite e2.
case: ifP => _; last exact: IH.
by case: ifP => [/andP[_ h]|_]; [move=> p; exfalso; exact: (alpha_finish_exn ok' _ p)|exact: IH].
Qed.

Theorem C24_alpha_size pr k i X i' : possible (alpha_k_dpp_sampler pr k i) (inl (X, i')) -> size X = k.
Proof.
by rewrite /FiniteModel.alpha_k_dpp_sampler; case: i => [[v|a]|] //= h; have [w _] := Spectral.bind_possible h; exact: alpha_loop_size.
Qed.

Theorem C24_alpha_failure pr k i e : (forall o e, ~ possible (al_pre pr o) (inr e)) -> (forall a e, ~ possible (al_loop pr a) (inr e)) ->
  (if i is Some (inl _) then false else true) ->
  possible (alpha_k_dpp_sampler pr k i) (inr e) -> e = ValueError.
Proof.
move=> np nl; rewrite /FiniteModel.alpha_k_dpp_sampler.
case: i => [[v|a]|] //= _ h; case: (possible_bind_raise h) => [|[w _]]; try exact: alpha_loop_exn.
  by case: ifP => _ // h1; case: (np _ _ h1).
by move=> h1; case: (np _ _ h1).
Qed.

(** the same through the object *)
Lemma kdpp_inter mode pr k s : mode = "vfx"%string \/ mode = "alpha"%string -> 
  sample_exact_k_dpp k mode pr s = (if eval_L s is Some _ then
     record_info (if String.eqb mode "vfx" then k_dpp_vfx_sampler pr k (intermediate_sample_info s) else alpha_k_dpp_sampler pr k (intermediate_sample_info s))
     else mraise _ ValueError) (set_size k (set_mode mode s)).
Proof.
by rewrite /FiniteModel.sample_exact_k_dpp; case: limit limit_pos => // f _ [->|->]; rewrite /= /mbind /=; case: (eval_L s).
Qed.
Lemma dpp_inter mode pr s : mode = "vfx"%string \/ mode = "alpha"%string -> 
  sample_exact mode pr s = (if eval_L s is Some _ then
     record_info (if String.eqb mode "vfx" then @dpp_vfx_sampler R N vrest arest vparams vfx_pre vfx_loop pr (intermediate_sample_info s)
                  else @alpha_dpp_sampler R N vrest arest vparams al_pre al_loop pr (intermediate_sample_info s))
     else mraise _ ValueError) (set_mode mode s).
Proof.
by rewrite /FiniteModel.sample_exact; case: limit limit_pos => // f _ [->|->]; rewrite /= /mbind /=; case: (eval_L s).
Qed.

Lemma record_info_inl m s s' X : possible (@record_info R N vrest arest m s) (inl (s', inl X)) ->
  exists2 xi, possible m (inl xi) & X = [seq val i | i <- xi.1] /\ intermediate_sample_info s' = Some xi.2.
Proof.
have h : mwp (record_info m) s (fun s' r => if r is inl X then
   exists2 xi, possible m (inl xi) & X = [seq val i | i <- xi.1] /\ intermediate_sample_info s' = Some xi.2 else True).
  rewrite /record_info; apply: mwp_bind; apply: mwp_lift => -[xi|e] pxi //; mstep; mstep; apply: holds_ret => /=; by exists xi.
by move=> p; exact: (possible_mwp h p).
Qed.

Theorem C24_sample_exact_k_dpp k mode pr s s' X : mode = "vfx"%string \/ mode = "alpha"%string ->
  possible (sample_exact_k_dpp k mode pr s) (inl (s', inl X)) -> size X = k.
Proof.
move=> md; rewrite kdpp_inter //; case: (eval_L s) => // M p.
have [[Y i] pY [-> _]] := record_info_inl p; rewrite size_map.
by move: pY; case: ifP => _; [exact: C24_vfx_size|exact: C24_alpha_size].
Qed.

(** ** C23 *)

(** a call draws from the inner sampler with the cached information, whatever computed it *)
Definition draws (m : prog R (dpp * (seq nat + exn))) (m0 : prog R (seq item)) : Prop :=
  forall Q, Pr_returns m Q = Pr m0 (fun X => Q [seq val i | i <- X]).

Lemma draws_info m s : draws (@record_info R N vrest arest m s) (bind m (fun xi => Ret xi.1)).
Proof.
move=> Q; rewrite /Pr_returns /record_info /mbind E_lift // /Pr [RHS]E_bind; apply: eq_E => xi.
by rewrite !E_bind.
Qed.

Lemma vfx_size_loop_tag pr0 k n v xi : possible (@vfx_size_loop R N vrest arest vparams vfx_loop pr0 k n v) (inl xi) -> if xi.2 is inl _ then true else false.
Proof.
elim: n v => //= n IH v h; have [[Y rej] _ /=] := Spectral.bind_possible h.
by case: eqP => [e /= [->]|_]; [|exact: IH].
Qed.
Lemma alpha_finish_tag good out a xi : possible (@alpha_finish R N vrest arest good out a) (inl xi) -> if xi.2 is inr _ then true else false.
Proof. by case: out => [x|] //= [->]. Qed.
Lemma alpha_loop_tag pr0 k n over sc tc un ov out good a xi :
  possible (@alpha_size_loop R N vrest arest vparams al_loop al_reset early pr0 k n over sc tc un ov out good a) (inl xi) -> if xi.2 is inr _ then true else false.
Proof.
elim: n over sc tc un ov out a => //= n IH over sc tc un ov out a h.
have [[[Y rej] a0] _ {h}] := Spectral.bind_possible h.
case: ifP => _; first exact: alpha_finish_tag.
case: ifP => _; first exact: alpha_finish_tag.
case: ifP => _; last exact: IH.
by case: ifP => _; [exact: alpha_finish_tag|exact: IH].
Qed.

Lemma dpp_vfx_tag pr i xi : possible (@dpp_vfx_sampler R N vrest arest vparams vfx_pre vfx_loop pr i) (inl xi) -> if xi.2 is inl _ then true else false.
Proof.
rewrite /dpp_vfx_sampler; case: i => [[v|a]|] //= h.
  by have [w _ [->]] := Spectral.bind_possible h.
by have [w _ h1] := Spectral.bind_possible h; have [y _ [->]] := Spectral.bind_possible h1.
Qed.
Lemma alpha_dpp_tag pr i xi : possible (@alpha_dpp_sampler R N vrest arest vparams al_pre al_loop pr i) (inl xi) -> if xi.2 is inr _ then true else false.
Proof.
rewrite /alpha_dpp_sampler; case: i => [[v|a]|] //= h.
  by have [w _ [->]] := Spectral.bind_possible h.
by have [w _ h1] := Spectral.bind_possible h; have [y _ [->]] := Spectral.bind_possible h1.
Qed.

(** after a successful DPP or k-DPP call in one mode, every call in the other mode fails with AttributeError *)
Theorem C23_modes_interfere_refuted mode mode' pr pr' s0 s1 X (first : option nat) :
  (mode = "vfx"%string /\ mode' = "alpha"%string) \/ (mode = "alpha"%string /\ mode' = "vfx"%string) ->
  possible (if first is Some k then sample_exact_k_dpp k mode pr s0 else sample_exact mode pr s0) (inl (s1, inl X)) ->
  eval_L s1 ->
  (forall o, possible (sample_exact mode' pr' s1) o -> exists s2, o = inl (s2, inr AttributeError)) /\
  (forall k o, possible (sample_exact_k_dpp k mode' pr' s1) o -> exists s2, o = inl (s2, inr AttributeError)).
Proof.
move=> mm p1 eV.
have [i1 ei1 tg] : exists2 i, intermediate_sample_info s1 = Some i & (if i is inl _ then mode' = "alpha"%string else mode' = "vfx"%string).
  case: first p1 => [k|].
    rewrite kdpp_inter; last by case: mm => -[->]; [left|right].
    case: (eval_L s0) => // M p; have [xi pxi [_ ei]] := record_info_inl p; exists xi.2 => //.
    case: mm pxi => -[-> ->] /=.
    + rewrite /FiniteModel.k_dpp_vfx_sampler; case: (intermediate_sample_info s0) => [[v|a]|] //= h; have [w _ /vfx_size_loop_tag] := Spectral.bind_possible h; by case: (xi.2).
    + rewrite /FiniteModel.alpha_k_dpp_sampler; case: (intermediate_sample_info s0) => [[v|a]|] //= h; have [w _ /alpha_loop_tag] := Spectral.bind_possible h; by case: (xi.2).
  rewrite dpp_inter; last by case: mm => -[->]; [left|right].
  case: (eval_L s0) => // M p; have [xi pxi [_ ei]] := record_info_inl p; exists xi.2 => //.
  case: mm pxi => -[-> ->] /=.
  - by move/dpp_vfx_tag; case: (xi.2).
  - by move/alpha_dpp_tag; case: (xi.2).
have md' : mode' = "vfx"%string \/ mode' = "alpha"%string by case: (i1) tg => _; [right|left].
case eV': (eval_L s1) eV => [M|] // _; split=> [o|k o].
  rewrite dpp_inter // eV'; case: i1 tg ei1 => [v|a] -> ei1 /=; rewrite ei1 /record_info /mbind /lift /= => po;
    by eexists; exact: po.
rewrite kdpp_inter // eV'; case: i1 tg ei1 => [v|a] -> ei1 /=; rewrite ei1 /record_info /mbind /lift /= => po;
  by eexists; exact: po.
Qed.

(** the information rescaled for k-DPPs of size k is reused by a later DPP call: on a fresh object, after a successful
    k-DPP call, a DPP call samples with the constants precomputed for expected size k *)
Theorem C23_rescaled_information_refuted k pr pr' s0 s1 X : intermediate_sample_info s0 = None ->
  possible (sample_exact_k_dpp k "vfx" pr s0) (inl (s1, inl X)) -> eval_L s1 ->
  exists v v', [/\ possible (vfx_pre pr (Some k)) (inl v), vfx_s v' = vfx_s v, vfx_rest v' = vfx_rest v &
    draws (sample_exact "vfx" pr' s1) (bind (vfx_loop pr' v') (fun xr => Ret xr.1))].
Proof.
move=> e0; rewrite kdpp_inter; last by left.
case: (eval_L s0) => // M p; have [xi pxi [_ ei]] := record_info_inl p.
case eV: (eval_L s1) => [M'|] // _; move: pxi; rewrite /= e0 => h; have [v pv pl] := Spectral.bind_possible h.
have [v' [e1 e2 ex]] : exists v', [/\ vfx_s v' = vfx_s v, vfx_rest v' = vfx_rest v & xi.2 = inl v'].
  elim: (max_iter pr) v pl {h pv} => //= n IH v h; have [[Y rej] _ /=] := Spectral.bind_possible h.
  case: eqP => [_ /= [->]|_ /IH [v' [e1 e2 e3]]]; last by exists v'.
  by eexists; split; last reflexivity.
exists v, v'; split=> // Q; rewrite dpp_inter; last by left.
rewrite eV /= ei ex draws_info /Pr /= !E_bind; apply: eq_E => xr; by rewrite /= .
Qed.

(** what remains true: an object that only ever uses one of the two modes never meets the clash *)
Definition matches (mode : string) (s : dpp) : Prop :=
  match intermediate_sample_info s with
  | None => True
  | Some (inl _) => mode = "vfx"%string
  | Some (inr _) => mode = "alpha"%string
  end.
(** a call that does not use the other intermediate sampler *)
Definition only (mode : string) (c : call R N vparams) : Prop :=
  match c with
  | SampleExact m _ | SampleExactKdpp _ m _ => m = "vfx"%string \/ m = "alpha"%string -> m = mode
  | _ => True
  end.
Variable zono : {d : nat & 'M[R]_(d, N)} -> mcmc_params R N -> prog R (seq (seq nat)).
Notation exec := (@exec R N vrest arest vparams vfx_pre vfx_loop al_pre al_loop al_reset max_iter early eigh qr eps tol limit zono).
Notation run := (@run R N vrest arest vparams vfx_pre vfx_loop al_pre al_loop al_reset max_iter early eigh qr eps tol limit zono).

Definition kept (s s' : dpp) : Prop := eval_L s' = eval_L s /\ intermediate_sample_info s' = intermediate_sample_info s.

Lemma compute_kept b f s : mwp (@compute R N vrest arest eigh qr b f) s (fun s' _ => kept s s').
Proof.
elim: f b s => [|f IH] b s /=; first by mstep.
have use b' (s1 : dpp) : kept s s1 -> mwp (compute eigh qr b' f) s1 (fun s' _ => kept s s').
  by move=> [e1 e2]; apply: mwp_imp (IH b' s1) => s' r [e3 e4]; split; [rewrite e3|rewrite e4].
case: b; repeat ((apply: use => //) || (apply: mwp_imp (use _ _ _) => // s' [a|e] //= es) || (mstep => //=)).
Qed.

Lemma kept_trans s1 s2 s3 : kept s1 s2 -> kept s2 s3 -> kept s1 s3.
Proof. by case=> a b [c d]; split; congruence. Qed.

Lemma matches_kept mode s s' : kept s s' -> matches mode s -> matches mode s'.
Proof. by rewrite /matches => -[_ ->]. Qed.

Lemma exact_kept f mode pr s : mode <> "vfx"%string -> mode <> "alpha"%string ->
  mwp (@sample_exact_rec R N vrest arest vparams vfx_pre vfx_loop al_pre al_loop eigh qr limit f mode pr) s (fun s' _ => kept s s').
Proof.
move=> nv na; elim: f s => [|f IH] s /=; first by mstep.
have use (s1 : dpp) : kept s s1 -> mwp (@sample_exact_rec R N vrest arest vparams vfx_pre vfx_loop al_pre al_loop eigh qr limit f mode pr) s1 (fun s' _ => kept s s').
  by move=> e1; apply: mwp_imp (IH s1) => s' r e2; exact: kept_trans e1 e2.
have rec x (s1 : dpp) : kept s s1 -> mwp (@record_sample R N vrest arest x) s1 (fun s' _ => kept s s').
  by move=> e; apply: holds_ret.
have cmp b (s1 : dpp) : kept s s1 -> mwp (compute eigh qr b limit) s1 (fun s' _ => kept s s').
  by move=> e1; apply: mwp_imp (@compute_kept b limit s1) => s' r; exact: kept_trans.
have -> : String.eqb mode "vfx" = false by apply/String.eqb_neq.
have -> : String.eqb mode "alpha" = false by apply/String.eqb_neq.
repeat ((apply: use => //) || (apply: rec => //) || (apply: mwp_imp (cmp _ _ _) => // ? [?|?] ? //) || (mstep => //=)).
Qed.

Lemma kdpp_kept f k mode pr s : mode <> "vfx"%string -> mode <> "alpha"%string ->
  mwp (@sample_exact_k_dpp_rec R N vrest arest vparams vfx_pre vfx_loop al_pre al_loop al_reset max_iter early eigh qr eps limit f k mode pr) s (fun s' _ => kept s s').
Proof.
move=> nv na; elim: f s => [|f IH] s /=; first by mstep.
have use (s1 : dpp) : kept s s1 -> mwp (@sample_exact_k_dpp_rec R N vrest arest vparams vfx_pre vfx_loop al_pre al_loop al_reset max_iter early eigh qr eps limit f k mode pr) s1 (fun s' _ => kept s s').
  by move=> e1; apply: mwp_imp (IH s1) => s' r e2; exact: kept_trans e1 e2.
have rec x (s1 : dpp) : kept s s1 -> mwp (@record_sample R N vrest arest x) s1 (fun s' _ => kept s s').
  by move=> e; apply: holds_ret.
have cmp b (s1 : dpp) : kept s s1 -> mwp (compute eigh qr b limit) s1 (fun s' _ => kept s s').
  by move=> e1; apply: mwp_imp (@compute_kept b limit s1) => s' r; exact: kept_trans.
have -> : String.eqb mode "vfx" = false by apply/String.eqb_neq.
have -> : String.eqb mode "alpha" = false by apply/String.eqb_neq.
repeat ((apply: use => //) || (apply: rec => //) || (apply: mwp_imp (cmp _ _ _) => // ? [?|?] ? //) || (mstep => //=)).
Qed.

Lemma mcmc_kept mode p s : mwp (@sample_mcmc R N vrest arest eigh qr tol limit zono mode p) s (fun s' _ => kept s s').
Proof.
have rec c (s1 : dpp) : kept s s1 -> mwp (@record_chain R N vrest arest c) s1 (fun s' _ => kept s s').
  by move=> e; apply: holds_ret.
have cmp b (s1 : dpp) : kept s s1 -> mwp (compute eigh qr b limit) s1 (fun s' _ => kept s s').
  by move=> e1; apply: mwp_imp (@compute_kept b limit s1) => s' r; exact: kept_trans.
rewrite /sample_mcmc.
repeat ((apply: rec => //) || (apply: mwp_imp (cmp _ _ _) => // ? [?|?] ? //) || (mstep => //=)).
Qed.

Definition inv mode (s s' : dpp) : Prop := eval_L s' = eval_L s /\ matches mode s'.

Lemma record_info_inv mode m s : matches mode s -> (forall xi, possible m (inl xi) -> if xi.2 is inl _ then mode = "vfx"%string else mode = "alpha"%string) ->
  mwp (@record_info R N vrest arest m) s (fun s' _ => inv mode s s').
Proof.
move=> ms h; rewrite /record_info; apply: mwp_bind; apply: mwp_lift => -[xi|e] po; last by split.
mstep; mstep; apply: holds_ret; split=> //=; rewrite /matches /=.
by have := h _ po; case: (xi.2).
Qed.

Lemma exec_inv mode c s : mode = "vfx"%string \/ mode = "alpha"%string -> only mode c -> matches mode s ->
  mwp (exec c) s (fun s' _ => inv mode s s').
Proof.
move=> md oc ms.
have fin A B (m : meth R N vrest arest A) (g : A -> B) : mwp m s (fun s' _ => inv mode s s') ->
    mwp (mbind m (fun x => mret (g x))) s (fun s' _ => inv mode s s').
  by move=> h; apply: mwp_bind; apply: mwp_imp h => s' [x|e] i //; apply: mwp_ret.
have kp A (m : meth R N vrest arest A) : mwp m s (fun s' _ => kept s s') -> mwp m s (fun s' _ => inv mode s s').
  by apply: mwp_imp => s' r ks; split; [case: ks|exact: matches_kept ks ms].
case: c oc => [m pr|k m pr|m p|k p| | |] oc /=; apply: fin.
- case: (String.string_dec m "vfx") => [ev|nv]; last case: (String.string_dec m "alpha") => [ea|na].
  + have em : m = mode by apply: oc; left.
    rewrite /mwp dpp_inter; last by left.
    subst mode m; rewrite /=; case eL: (eval_L s) => [M|]; last by apply: holds_ret; split.
    apply: (@record_info_inv _ _ (set_mode "vfx" s)); first exact: ms.
    by move=> xi /dpp_vfx_tag; case: (xi.2).
  + have em : m = mode by apply: oc; right.
    rewrite /mwp dpp_inter; last by right.
    subst mode m; rewrite /=; case eL: (eval_L s) => [M|]; last by apply: holds_ret; split.
    apply: (@record_info_inv _ _ (set_mode "alpha" s)); first exact: ms.
    by move=> xi /alpha_dpp_tag; case: (xi.2).
  + by apply: kp; exact: exact_kept.
- case: (String.string_dec m "vfx") => [ev|nv]; last case: (String.string_dec m "alpha") => [ea|na].
  + have em : m = mode by apply: oc; left.
    rewrite /mwp kdpp_inter; last by left.
    subst mode m; rewrite /=; case eL: (eval_L s) => [M|]; last by apply: holds_ret; split.
    apply: (@record_info_inv _ _ (set_size k (set_mode "vfx" s))); first exact: ms.
    move=> xi /=; rewrite /FiniteModel.k_dpp_vfx_sampler; case: (intermediate_sample_info s) => [[v|a]|] //= h; have [w _ /vfx_size_loop_tag] := Spectral.bind_possible h; by case: (xi.2).
  + have em : m = mode by apply: oc; right.
    rewrite /mwp kdpp_inter; last by right.
    subst mode m; rewrite /=; case eL: (eval_L s) => [M|]; last by apply: holds_ret; split.
    apply: (@record_info_inv _ _ (set_size k (set_mode "alpha" s))); first exact: ms.
    move=> xi /=; rewrite /FiniteModel.alpha_k_dpp_sampler; case: (intermediate_sample_info s) => [[v|a]|] //= h; have [w _ /alpha_loop_tag] := Spectral.bind_possible h; by case: (xi.2).
  + by apply: kp; exact: kdpp_kept.
- by apply: kp; exact: mcmc_kept.
- by apply: kp; rewrite /sample_mcmc_k_dpp; apply: mwp_bind; apply: mwp_modify; exact: mcmc_kept.
- by apply: mwp_modify; split.
- by apply: kp; exact: compute_kept.
- by apply: kp; exact: compute_kept.
Qed.

(** Any history of calls that uses at most one of the two intermediate samplers: the next call of that sampler never fails
    (DPP), or fails only with ValueError, the exhaustion of its budget (k-DPP). *)
Theorem C23_single_mode_partial mode cs pr k s s1 rs : mode = "vfx"%string \/ mode = "alpha"%string ->
  (forall o e, ~ possible (vfx_pre pr o) (inr e)) -> (forall v e, ~ possible (vfx_loop pr v) (inr e)) ->
  (forall o e, ~ possible (al_pre pr o) (inr e)) -> (forall a e, ~ possible (al_loop pr a) (inr e)) ->
  eval_L s -> intermediate_sample_info s = None ->
  (forall j, (j < size cs)%N -> only mode (nth (@FlushSamples R N vparams) cs j)) ->
  possible (run cs s) (inl (s1, rs)) ->
  (forall s2 e, ~ possible (sample_exact mode pr s1) (inl (s2, inr e))) /\
  (forall s2 e, possible (sample_exact_k_dpp k mode pr s1) (inl (s2, inr e)) -> e = ValueError).
Proof.
move=> md vp vl ap al eV i0 oc p.
have [eV1 m1] : eval_L s1 /\ matches mode s1.
  have m0 : matches mode s by rewrite /matches i0.
  elim: cs s s1 rs eV {i0} m0 oc p => [|c cs IH] s s1 rs eV m0 oc /=; first by case=> -> _.
  move=> h; have [[s2 r] p1 h1] := Spectral.bind_possible h.
  have [[s3 rs3] p3 [-> _]] := Spectral.bind_possible h1.
  have [eV2 m2] := possible_mwp (exec_inv md (oc 0%N isT) m0) p1.
  apply: (IH _ _ _ _ m2 _ p3); first by rewrite eV2.
  by move=> j lj; exact: (oc j.+1).
have ri m e s0 s2 : possible (@record_info R N vrest arest m s0) (inl (s2, inr e)) -> possible m (inr e).
  have h : mwp (record_info m) s0 (fun s' r => if r is inr e then possible m (inr e) else True).
    rewrite /record_info; apply: mwp_bind; apply: mwp_lift => -[xi|e'] pxi //; mstep; mstep; exact: holds_ret.
  by move=> p'; exact: (possible_mwp h p').
case eV': (eval_L s1) eV1 => [M|] // _; split=> s2 e.
  rewrite dpp_inter // eV' => /ri; move: m1; rewrite /matches.
  case: md => -> /=; case: (intermediate_sample_info s1) => [[v|a]|] //= _ h;
    try (by case: (possible_bind_raise h) => [|[y _ //]]; exact: vl);
    try (by case: (possible_bind_raise h) => [|[y _ //]]; exact: al).
  + case: (possible_bind_raise h) => [|[y _ h1]]; first exact: vp.
    by case: (possible_bind_raise h1) => [|[z _ //]]; exact: vl.
  + case: (possible_bind_raise h) => [|[y _ h1]]; first exact: ap.
    by case: (possible_bind_raise h1) => [|[z _ //]]; exact: al.
rewrite kdpp_inter // eV' => /ri; move: m1; rewrite /matches.
case: md => -> /= m1; [apply: C24_vfx_failure => //|apply: C24_alpha_failure => //]; move: m1;
  by case: (intermediate_sample_info s1) => [[v|a]|].
Qed.

(** and the DPP call draws from the inner sampler with the cached constants, or with freshly computed ones *)
Theorem C23_vfx_draws_partial pr s : eval_L s -> matches "vfx" s ->
  draws (sample_exact "vfx" pr s)
    (bind (if intermediate_sample_info s is Some (inl v) then Ret v else vfx_pre pr None) (fun v =>
     bind (vfx_loop pr v) (fun xr => Ret xr.1))).
Proof.
move=> eV ms Q; rewrite dpp_inter; last by left.
case eV': (eval_L s) eV => [M|] // _; rewrite draws_info /= /FiniteModel.dpp_vfx_sampler.
move: ms; rewrite /matches; case: (intermediate_sample_info s) => [[v|a]|] //= _;
  by rewrite /Pr !E_bind /= ?E_bind; apply: eq_E => x; rewrite ?E_bind /=.
Qed.
End Intermediate.

Local Arguments is_symmetric : simpl never. Local Arguments is_projection : simpl never.
(** ** C25: the constructor *)
Section Constructor.
Variables (R : rcfType) (N : nat) (vrest arest : Type).
Notation dpp := (dpp R N vrest arest).
Notation init := (@init R N vrest arest).

(** the parameters documented for a kernel type *)
Definition documented (kt : string) (kw : kwargs R N) : Prop :=
  (kt = "correlation"%string /\ (kw_K kw : bool) || kw_K_eig_dec kw || kw_A_zono kw) \/
  (kt = "likelihood"%string /\ (kw_L kw : bool) || kw_L_eig_dec kw || kw_L_gram_factor kw || kw_L_eval_X_data kw).

Lemma check_coh kt b kw : (exists p, check_args_coherence kt (PyBool b) kw = inl p) <-> documented kt kw.
Proof.
rewrite /check_args_coherence /documented; split.
  case: String.eqb_spec => [->|nc]; first by case: ifP => [h _|_ []//]; left.
  by case: String.eqb_spec => [->|nl]; [case: ifP => [h _|_ []//]; right|case].
by case=> -[-> h]; rewrite /= h; eexists; reflexivity.
Qed.

(** with a boolean projection flag, a refusal is always a ValueError *)
Theorem C25_refuses_with_ValueError_partial kt b kw e : init kt (PyBool b) kw = inr e -> e = ValueError.
Proof.
have ce A (test : A -> bool) a e0 : checked test a = inr e0 -> e0 = ValueError by rewrite /checked; case: a => [x|] //; case: ifP => // _ [].
have ri A B (r : A + exn) (g : A -> B + exn) : (forall e0, r = inr e0 -> e0 = ValueError) ->
   (forall a, g a = inr e -> e = ValueError) -> rbind r g = inr e -> e = ValueError.
  by case: r => [a|e0] h1 h2 /=; [exact: h2|case=> <-; exact: h1].
have si (b0 : bool) A (r r' : A + exn) : (forall e0, r = inr e0 -> e0 = ValueError) -> (forall e0, r' = inr e0 -> e0 = ValueError) ->
   forall e0, (if b0 then r else r') = inr e0 -> e0 = ValueError by case: b0.
rewrite /FiniteModel.init; apply: (ri) => [e0|p].
  rewrite /check_args_coherence; case: ifP => _; first by case: ifP => // _ [].
  by case: ifP => _; [case: ifP => // _ []|case].
apply: (ri) => [e0|K0]; first exact: (ce).
apply: (ri) => [|K1]; first by apply: (si) => // e0; exact: (ce).
case: (if kw_K_eig_dec kw is Some d then d else (None, None)) => ev vecs.
apply: (ri) => [|K_ev]; first by apply: (si) => e0; exact: (ce).
apply: (ri) => [e0|vecs0]; first exact: (ce).
apply: (ri) => [e0|A]; first exact: (ce).
apply: (ri) => [e0|L0]; first exact: (ce).
apply: (ri) => [|L1]; first by apply: (si) => // e0; exact: (ce).
case: (if kw_L_eig_dec kw is Some d then d else (None, None)) => ev' vecs'.
apply: (ri) => [|L_ev]; first by apply: (si) => e0; exact: (ce).
apply: (ri) => [e0|vecs1]; first by case: vecs0 => // *; apply: ce; eassumption.
apply: (ri) => // e0; case: (kw_L_eval_X_data kw) => [[[f X] Y]|] //=.
by case: ifP => // _ [].
Qed.

(** an accepted combination is documented: the kernel type is one of the two and at least one of its parameters is given *)
Theorem C25_accepts_documented kt b kw (s : dpp) : init kt (PyBool b) kw = inl s ->
  documented kt kw /\ kernel_type s = kt /\ projection s = b || (String.eqb kt "correlation" && kw_A_zono kw).
Proof.
move=> e; have [_ _ _ ek ec] := init_fresh e; split; first by apply/(check_coh _ b); exists (projection s).
split=> //; move: ec; rewrite /check_args_coherence.
case: String.eqb_spec => [_|nc]; first by case: ifP => // _ [].
by rewrite orbF; case: String.eqb_spec => // el; case: ifP => // _ [].
Qed.

(** an undocumented combination is refused with ValueError, whatever the other arguments *)
Theorem C25_refuses_undocumented kt b kw : ~ documented kt kw -> init kt (PyBool b) kw = inr ValueError.
Proof.
move=> nd; case e: (init kt (PyBool b) kw) => [s|e0]; first by case: nd; have [] := C25_accepts_documented e.
by rewrite (C25_refuses_with_ValueError_partial e).
Qed.

(** a projection flag that is not a bool is refused, but not with ValueError *)
Theorem C25_projection_flag_refuted kt kw : init kt (@PyOther) kw = inr AttributeError.
Proof. by []. Qed.

(** parameters of the other kernel type, unknown keys, and parameters equal to None are accepted *)
Theorem C25_foreign_parameter_refuted (L : 'M[R]_N) : L^T = L ->
  exists s : dpp, [/\ init "correlation" (PyBool false) (Kwargs (Some (Some (2%:R^-1)%:M)) None None (Some (Some L)) None None None [::]) = inl s,
   K_ s = Some (2%:R^-1)%:M & L_ s = Some L].
Proof.
move=> sL; have cs (M : 'M[R]_N) : M^T = M -> is_symmetric (Some M) = inl (Some M) by have [] := C40_accepts M.
have sh : ((2%:R^-1)%:M : 'M[R]_N)^T = (2%:R^-1)%:M by rewrite tr_scalar_mx.
rewrite /FiniteModel.init /= cs // cs // /=; eexists; split; first reflexivity; by [].
Qed.

Theorem C25_unknown_keys_refuted kt b kw keys (s : dpp) : init kt (PyBool b) kw = inl s ->
  init kt (PyBool b) (Kwargs (kw_K kw) (kw_K_eig_dec kw) (kw_A_zono kw) (kw_L kw) (kw_L_eig_dec kw) (kw_L_gram_factor kw) (kw_L_eval_X_data kw) keys) = inl s.
Proof. by []. Qed.

Theorem C25_None_refuted : exists s : dpp,
  init "correlation" (PyBool false) (Kwargs (Some None) None None None None None None [::]) = inl s /\
  [/\ K_ s = None, K_eig_vals s = None, A_zono s = None, L_ s = None & L_eig_vals s = None].
Proof. by eexists; split; first reflexivity. Qed.
End Constructor.

(** ** C54: an invalid correlation kernel is rejected only once *)
Section Invalid.
Variables (R : rcfType) (N : nat) (vrest arest vparams : Type).
Notation dpp := (dpp R N vrest arest).
Notation item := 'I_N.
Variable vfx_pre : vparams -> option nat -> prog R (vfx_info R vrest).
Variable vfx_loop : vparams -> vfx_info R vrest -> prog R (seq item * nat).
Variable al_pre : vparams -> option nat -> prog R (alpha_info R arest).
Variable al_loop : vparams -> alpha_info R arest -> prog R (seq item * nat * alpha_info R arest).
Variable eigh : forall n : nat, 'M[R]_n -> seq R * seq 'cV[R]_n.
Variable qr : forall r : nat, 'M[R]_(N, r) -> 'M[R]_(N, r).
Variable limit : nat.
Hypothesis eighP : eigh_contract eigh.
Hypothesis qrP : qr_contract qr.
Hypothesis limit_ok : (10 <= limit)%N.
Notation sample_exact := (@sample_exact R N vrest arest vparams vfx_pre vfx_loop al_pre al_loop eigh qr limit).

(** an eigenvalue outside [0, 1], beyond the tolerance 1e-8 of the check *)
Definition bad_eigenvalue (M : 'M[R]_N) : Prop :=
  exists (v : 'cV[R]_N) (mu : R), [/\ v != 0, M *m v = mu *: v & (mu < - (10 ^ 8)%:R^-1) || (1 + (10 ^ 8)%:R^-1 < mu)].

Lemma bad_spectrum (M : 'M[R]_N) lam vs : spectral_decomposition M lam vs -> bad_eigenvalue M ->
  is_in_01 (Some lam) = inr ValueError.
Proof.
move=> [sz o ME] [v [mu [nz ev bad]]]; rewrite /is_in_01 /checked.
case: ifP => // al; exfalso.
have t0 : 0 < (10 ^ 8)%:R^-1 :> R by rewrite invr_gt0 ltr0n expn_gt0.
have mu0 : mu != 0.
  by apply/eqP => m0; move: bad; rewrite m0 oppr_gt0 ltNge (ltW t0) /= ltNge addr_ge0 ?ler01 ?(ltW t0).
set V := colmx vs in o ME; set D := diag_mx _ in ME.
pose w := V^T *m v.
have Dw : D *m w = mu *: w.
  by rewrite /w scalemxAr -ev ME !mulmxA o mul1mx.
have w0 : w != 0.
  apply/negP => /eqP w0; case/negP: nz; have : M *m v = 0 by rewrite ME -mulmxA -/w w0 mulmx0.
  by rewrite ev => /eqP; rewrite scaler_eq0 (negbTE mu0).
have [i wi] : exists i, w i 0 != 0.
  by apply/existsP; apply: contraR w0 => /existsPn h; apply/eqP/colP => i; rewrite [RHS]mxE; have := h i; rewrite negbK => /eqP.
have em : lam`_i = mu.
  apply: (mulIf wi); have := congr1 (fun x : 'cV[R]_(size vs) => x i 0) Dw.
  by rewrite mul_diag_mx; move: (w) => w1; rewrite !mxE.
have li : (i < size lam)%N by rewrite sz.
have := allP al _ (mem_nth 0 li); rewrite em /tol8 => /andP[h1 h2].
by case/orP: bad; rewrite ltNge ?h1 ?h2.
Qed.

Variables (M : 'M[R]_N) (mode : string) (pr : vparams).
Hypothesis md : eig_mode mode.
Hypothesis sM : M^T = M.
Hypothesis bad : bad_eigenvalue M.
Variable s : dpp.
Hypothesis es : init vrest arest "correlation" (PyBool false) (kwargs_of (ByK M)) = inl s.

Lemma after_first : exists s1, [/\ sample_exact mode pr s = Ret (s1, inr ValueError), list_of_samples s1 = [::],
   K_eig_vals s1 = Some (eigh M).1, eig_vecs s1 = Some (eigh M).2 & projection s1 = false].
Proof.
have [_ sd] := eighP sM; have ch := bad_spectrum sd bad.
move: es; rewrite /init /= (proj1 (C40_accepts M) sM) /= => -[<-].
have [e1 e2 e3 e4] := eigmode_skip md.
rewrite /FiniteModel.sample_exact; case: limit limit_ok => // f _.
by rewrite /= /mbind /= e1 e2 e3 e4 /= ch /=; eexists; split; first reflexivity.
Qed.

(** the first call is refused and records nothing *)
Theorem C54_first_call_partial : exists s1, sample_exact mode pr s = Ret (s1, inr ValueError) /\ list_of_samples s1 = [::].
Proof. by have [s1 [h1 h2 _ _ _]] := after_first; exists s1. Qed.

(** but the same call made a second time always returns a sample *)
Theorem C54_second_call_refuted : exists s1, sample_exact mode pr s = Ret (s1, inr ValueError) /\
  total (sample_exact mode pr s1) /\
  forall o, possible (sample_exact mode pr s1) o -> exists s2 X, o = inl (s2, inl X) /\ list_of_samples s2 = [:: Sample X].
Proof.
have [s1 [h1 h2 h3 h4 h5]] := after_first; exists s1; split=> //.
have [_ sd] := eighP sM; have [e1 e2 e3 e4] := eigmode_skip md.
have e : sample_exact mode pr s1 = mbind (lift (ints (dpp_sampler_eig qr (eigh M).1 (eigh M).2 mode))) (@record_sample R N vrest arest) (set_mode mode s1).
  rewrite /FiniteModel.sample_exact; case: limit limit_ok => // f _.
  by rewrite /= /mbind /= e1 e2 e3 e4 /= h3 h4 /= h5 andbF.
have [t nr] := C07_never_fails qrP sd md.
have ok : mwp (mbind (lift (ints (dpp_sampler_eig qr (eigh M).1 (eigh M).2 mode))) (@record_sample R N vrest arest)) (set_mode mode s1)
   (fun s2 r => if r is inl X then list_of_samples s2 = [:: Sample X] else False).
  apply: mwp_bind; apply: mwp_lift => -[X|ex] po; first by apply: holds_ret => /=; rewrite h2.
  rewrite /ints in po; case: (possible_bind_raise po) => [|[y _ //]]; exact: nr.
rewrite e; split; first by apply: no_raise_total => ex pe; case: (ok _ pe).
by move=> o po; have := ok _ po; case: o po => // -[s2 [X|//]] _ /= h; exists s2, X.
Qed.
End Invalid.

(** ** the hypotheses are met *)
Section Instances.
Variable R : rcfType.

Example C54_instance n : bad_eigenvalue (2%:R%:M : 'M[R]_n.+1) /\ (2%:R%:M : 'M[R]_n.+1)^T = 2%:R%:M /\
  exists s : dpp R n.+1 unit unit, init unit unit "correlation" (PyBool false) (kwargs_of (ByK (2%:R%:M : 'M[R]_n.+1))) = inl s.
Proof.
have st : (2%:R%:M : 'M[R]_n.+1)^T = 2%:R%:M by rewrite tr_scalar_mx.
split; last first.
  by split=> //; rewrite /init /= (proj1 (C40_accepts _) st) /=; eexists; reflexivity.
exists (delta_mx 0 0), 2%:R; split.
- by apply/eqP => /matrixP/(_ 0 0); rewrite !mxE /= => /eqP; rewrite oner_eq0.
- by rewrite mul_scalar_mx.
apply/orP; right; rewrite -[2%:R]/(1 + 1) ltr_add2l invf_lt1 ?ltr0n ?expn_gt0 // ltr1n.
by rewrite -[1%N](expn0 10) ltn_exp2l.
Qed.

(** an object with eval_L; inner samplers that return the item 0, then nothing, for ever *)
Local Definition ex_obj : dpp R 1 unit unit :=
  Dpp "likelihood" false None None None None None None None (Some 1%:M) None "GS" [::] 0 None.
Local Definition ex_vpre (_ : unit) (_ : option nat) : prog R (vfx_info R unit) := Ret (VfxInfo 1 0 tt).
Local Definition ex_vloop (_ : unit) (_ : vfx_info R unit) : prog R (seq 'I_1 * nat) :=
  Flip 2%:R^-1 (fun b => Ret (if b then [:: ord0] else [::], 1%N)).
Local Definition ex_apre (_ : unit) (_ : option nat) : prog R (alpha_info R unit) := Ret (AlphaInfo 1 1 1 None 0 0 0 tt).
Local Definition ex_aloop (_ : unit) (a : alpha_info R unit) : prog R (seq 'I_1 * nat * alpha_info R unit) :=
  Flip 2%:R^-1 (fun b => Ret (if b then [:: ord0] else [::], 1%N, a)).
Variables (eigh : forall n : nat, 'M[R]_n -> seq R * seq 'cV[R]_n) (qr : forall r : nat, 'M[R]_(1, r) -> 'M[R]_(1, r)) (eps : R).
Notation kcall := (@sample_exact_k_dpp R 1 unit unit unit ex_vpre ex_vloop ex_apre ex_aloop (fun _ r => r) (fun _ => 1%N) (fun _ => true) eigh qr eps 10).

Lemma ex_half : 0 < clip (2%:R^-1 : R) /\ clip (2%:R^-1 : R) < 1.
Proof.
have h0 : 0 < 2%:R^-1 :> R by rewrite invr_gt0 ltr0n.
have h1 : 2%:R^-1 < 1 :> R by rewrite invf_lt1 ?ltr0n // ltr1n.
have -> : clip 2%:R^-1 = 2%:R^-1 :> R by apply: clip01; exact: ltW.
by [].
Qed.

Example C23_instance : exists s1, [/\ possible (kcall 1 "vfx" tt ex_obj) (inl (s1, inl [:: 0%N])), eval_L s1 &
  exists i, intermediate_sample_info s1 = Some (inl i)].
Proof.
rewrite kdpp_inter //; last by left.
have [h0 _] := ex_half.
by eexists; split; [rewrite /= /record_info /mbind /lift /=; left; split=> //; rewrite /=; reflexivity|by []|eexists; reflexivity].
Qed.

Example C24_instance mode : mode = "vfx"%string \/ mode = "alpha"%string ->
  (exists s1, possible (kcall 1 mode tt ex_obj) (inl (s1, inl [:: 0%N]))) /\
  exists s1, possible (kcall 1 mode tt ex_obj) (inl (s1, inr ValueError)).
Proof.
have [h0 h1] := ex_half.
move=> md; rewrite kdpp_inter //; case: md => ->; rewrite /= /record_info /mbind /lift /=; split.
- by eexists; left; split=> //=; reflexivity.
- by eexists; right; split=> //=; reflexivity.
- by eexists; left; split=> //=; reflexivity.
- rewrite /ceil_sqrt /=; eexists; right; split=> //=.
  by rewrite andbF /=; reflexivity.
Qed.
End Instances.

Print Assumptions C23_modes_interfere_refuted.
Print Assumptions C23_single_mode_partial.
Print Assumptions C24_sample_exact_k_dpp.
Print Assumptions C25_accepts_documented.
Print Assumptions C54_second_call_refuted.
