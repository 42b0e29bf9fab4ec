(** * P_FiniteLaw: C21 (constructor, compute_K, compute_L) and C53 (the law of sample_exact after any history of calls). *)
From Coq Require Import String.
From mathcomp Require Import all_ssreflect all_algebra.
From mathcomp.algebra_tactics Require Import ring.
From Verif Require Import Prob Minor Chain ChainCons UtilsModel ExactModel ProjGS ProjKuTa ProjAll GenKernel Spectral LEnsemble QRex P_Proj P_Gen P_Spectral McmcModel P_Mcmc FiniteModel Finite SpecLemmas P_FiniteHist P_FiniteCoh.
Set Implicit Arguments. Unset Strict Implicit. Unset Printing Implicit Defensive.
Import Order.Theory GRing.Theory Num.Theory.
Local Open Scope ring_scope.

Section Law.
Variables (R : rcfType) (N : nat) (vrest arest vparams : Type).
Notation dpp := (dpp R N vrest arest).
Notation item := 'I_N.
Variable vfx_pre : vparams -> option nat -> prog R (vfx_info R vrest).
Variable vfx_loop : vparams -> vfx_info R vrest -> prog R (seq item * nat).
Variable al_pre : vparams -> option nat -> prog R (alpha_info R arest).
Variable al_loop : vparams -> alpha_info R arest -> prog R (seq item * nat * alpha_info R arest).
Variable al_reset : R -> arest -> arest.
Variables (max_iter : vparams -> nat) (early : vparams -> bool).
Variable eigh : forall n : nat, 'M[R]_n -> seq R * seq 'cV[R]_n.
Variable qr : forall r : nat, 'M[R]_(N, r) -> 'M[R]_(N, r).
Variables (eps tol : R) (limit : nat).
Variable zono : {d : nat & 'M[R]_(d, N)} -> mcmc_params R N -> prog R (seq (seq nat)).
Hypothesis eighP : eigh_contract eigh.
Hypothesis qrP : qr_contract qr.
(** Python's default recursion limit is 1000 *)
Hypothesis limit_ok : (10 <= limit)%N.

Notation sample_exact := (@sample_exact R N vrest arest vparams vfx_pre vfx_loop al_pre al_loop eigh qr limit).
Notation sample_exact_rec := (@sample_exact_rec R N vrest arest vparams vfx_pre vfx_loop al_pre al_loop eigh qr limit).
Notation exec := (@exec R N vrest arest vparams vfx_pre vfx_loop al_pre al_loop al_reset max_iter early eigh qr eps tol limit zono).
Notation run := (@run R N vrest arest vparams vfx_pre vfx_loop al_pre al_loop al_reset max_iter early eigh qr eps tol limit zono).
Notation compute := (@compute R N vrest arest eigh qr).

Section K.
Variable K : 'M[R]_N.
Notation coherent := (@coherent R N vrest arest K).

(** ** compute_K and compute_L *)
Theorem C21_compute_K s : coherent s ->
  exists s', [/\ compute_K eigh qr limit s = Ret (s', inl tt), coherent s', frozen s s' & K_ s' = Some K].
Proof.
move=> c; have [s' [r [e [c' f'] p t]]] := compute_spec eighP qrP true limit c.
have er : r = inl tt by apply: t; apply: leq_trans limit_ok; rewrite /depthK; do 3!case: ifP => // _.
by exists s'; split=> //; [rewrite -er; exact: e|exact: p].
Qed.

Theorem C21_compute_L s : coherent s ->
  L_ s || ~~ (is_correlation s && projection s) -> (exists L, is_L_of K L) ->
  exists s' L, [/\ compute_L eigh qr limit s = Ret (s', inl tt), coherent s', frozen s s', L_ s' = Some L & is_L_of K L].
Proof.
move=> c h hL; have [s' [r [e [c' f'] p t]]] := compute_spec eighP qrP false limit c.
have er : r = inl tt by apply: t; split=> //; apply: leq_trans limit_ok; rewrite /depthL; do 3!case: ifP => // _.
by have [L eL lK] := p er; exists s', L; split=> //; rewrite -er; exact: e.
Qed.

(** compute_L fails, and says so, exactly when the DPP has no likelihood kernel *)
Theorem C21_compute_L_refuses s : coherent s -> ~ (exists L, is_L_of K L) ->
  exists s' e, [/\ compute_L eigh qr limit s = Ret (s', inr e), coherent s' & frozen s s'].
Proof.
move=> c h; have [s' [r [e [c' f'] p t]]] := compute_spec eighP qrP false limit c.
case: r e p t => [[]|ex] e p t; last by exists s', ex.
by case: h; have [L _ lK] := p erefl; exists L.
Qed.

(** ** the law of a sampler *)
Definition samples_K (m : prog R (seq nat)) : Prop :=
  total m /\ forall T : {set item}, Pr m (fun X => T \subset set_of N X) = pmS K T.

Lemma samples_ints m : total m -> (forall T : {set item}, Pr m (fun X => T \subset items X) = pmS K T) -> samples_K (ints m).
Proof.
move=> t h; split=> [|T]; first by rewrite /total /ints E_bind.
by rewrite -h /Pr /ints E_bind; apply: eq_E => X; rewrite -set_of_val.
Qed.

Lemma sd_proj lam vs : isproj K -> spectral_decomposition K lam vs -> all (fun l => (l == 0) || (l == 1)) lam.
Proof.
move=> [_ iK] [sz o KE]; apply/(all_nthP 0) => i il.
rewrite sz in il; set V := colmx vs in o KE; set D := diag_mx _ in KE.
have DE : V^T *m K *m V = D by rewrite KE !mulmxA o mul1mx -mulmxA o mulmx1.
have DD : D *m D = D.
  have VK : V^T *m K = D *m V^T by rewrite KE !mulmxA o mul1mx.
  by rewrite -{2}DE !mulmxA -VK -[V^T *m K *m K]mulmxA iK DE.
have := congr1 (fun M : 'M_(size vs) => M (Ordinal il) (Ordinal il)) DD.
rewrite /D mul_diag_mx !mxE /= eqxx mulr1n => h.
by rewrite -[X in _ || X]subr_eq0 -mulf_eq0 mulrBr mulr1 h subrr.
Qed.

Definition eig_mode (mode : string) : Prop := mode = "GS"%string \/ mode = "GS_bis"%string \/ mode = "KuTa12"%string.

Lemma eig_samples mode lam vs (b : bool) : eig_mode mode -> is_dpp_kernel K -> (b -> isproj K) ->
  spectral_decomposition K lam vs ->
  samples_K (ints (if b then dpp_sampler_eig_proj qr lam vs mode else dpp_sampler_eig qr lam vs mode)).
Proof.
move=> md dK bp sd; case: b bp => bp; apply: samples_ints.
- rewrite /dpp_sampler_eig_proj; have [_ o _] := sd.
  by apply: (eig_total qrP (ortho_sub (mask_subseq _ _) o) md).
- by move=> T; apply: (C07_projection_spectrum qrP sd md); apply: sd_proj sd; exact: bp.
- by have [] := C07_never_fails qrP sd md.
- by move=> T; apply: (C07_marginals qrP sd md); exact: sd_dpp sd dK.
Qed.

Lemma kernel_samples mode : kernel_mode mode -> isproj K -> samples_K (proj_dpp_sampler_kernel K mode None).
Proof. by move=> md p; split=> [|T]; [exact: kernel_total|exact: kernel_marginal]. Qed.

Lemma generic_samples : is_dpp_kernel K -> samples_K (ints (dpp_sampler_generic_kernel K)).
Proof. by move=> dK; apply: samples_ints => [|T]; [have [] := C06_never_fails dK|exact: C06_marginals]. Qed.

(** the call reduces to one call of an exact sampler *)
Variables (mode : string) (pr : vparams).
Definition fair f (s : dpp) : Prop := exists m s',
  sample_exact_rec f mode pr s = mbind (lift m) (@record_sample R N vrest arest) s' /\ samples_K m.

(** a dense projection correlation kernel is only sampled with the modes of proj_dpp_sampler_kernel *)
Definition no_dense_proj (s : dpp) : Prop := is_correlation s && projection s -> K_ s -> K_eig_vals s : bool.

Section Eigmode.
Hypothesis md : eig_mode mode.

Lemma eigmode_skip : [/\ String.eqb mode "Schur" = false, String.eqb mode "Chol" = false, String.eqb mode "vfx" = false &
  String.eqb mode "alpha" = false].
Proof. by case: md => [->|[->|->]]. Qed.

Lemma fair_K_eig f s : coherent s -> K_eig_vals s -> fair f.+1 s.
Proof.
move=> c; case e: (K_eig_vals s) => [lam|] // _; have [e1 e2 e3 e4] := eigmode_skip.
have [vs ev sd] := co_K_eig c e.
rewrite /fair /= /mbind /= e1 e2 e3 e4 /= e ev /=.
exists (ints (if is_correlation s && projection s then dpp_sampler_eig_proj qr lam vs mode else dpp_sampler_eig qr lam vs mode)), (set_mode mode s).
by split=> //; apply: eig_samples sd => //; [exact: co_dpp c|exact: co_proj c].
Qed.

Lemma step_L_eig f s gam : K_eig_vals s = None -> L_eig_vals s = Some gam ->
  sample_exact_rec f.+1 mode pr s = sample_exact_rec f mode pr (set_K_eig_vals [seq g / (1 + g) | g <- gam] (set_mode mode s)).
Proof. by move=> eK e; have [e1 e2 e3 e4] := eigmode_skip; rewrite /= /mbind /= e1 e2 e3 e4 /= eK e. Qed.

Lemma fair_step f s s' : sample_exact_rec f.+1 mode pr s = sample_exact_rec f mode pr s' -> fair f s' -> fair f.+1 s.
Proof. by rewrite /fair => ->. Qed.

Lemma fair_L_eig f s : coherent s -> L_eig_vals s -> fair f.+2 s.
Proof.
move=> c; case eK: (K_eig_vals s) => [lam|]; first by move=> _; apply: fair_K_eig; rewrite ?eK.
case e: (L_eig_vals s) => [gam|] // _; apply: fair_step (step_L_eig _ eK e) _; apply: fair_K_eig => //.
have [c1 _] := ok_mode mode c.
by have [] := @ok_set_K_eig _ _ _ _ _ (set_mode mode s) gam c1 eK e.
Qed.

Lemma step_dual f s F : coherent s -> K_eig_vals s = None -> L_eig_vals s = None ->
  L_gram_factor s = Some F -> (tag F < N)%N ->
  exists2 s', sample_exact_rec f.+1 mode pr s = sample_exact_rec f mode pr s' & coherent s' /\ L_eig_vals s'.
Proof.
move=> c eK eL eG dN; have [e1 e2 e3 e4] := eigmode_skip.
have [lK] := co_gram c eG; rewrite dN => rf.
have [szW sd] := eighP (n := tag F) (M := tagged F *m (tagged F)^T) (etrans (trmx_mul _ _) (congr1 (fun X => X *m _) (trmxK _))).
have [t0 sd'] := dual_sd rf szW sd.
have t0' : all (fun g => 0 <= g) (eigh (tagged F *m (tagged F)^T)).1 by apply: sub_all t0 => x; exact: ltW.
have em : [seq Order.max g 0 | g <- (eigh (tagged F *m (tagged F)^T)).1] = (eigh (tagged F *m (tagged F)^T)).1.
  by rewrite -[RHS]map_id; apply/eq_in_map => g /(allP t0') g0; rewrite max_l.
exists (set_L_eig_vals (eigh (tagged F *m (tagged F)^T)).1 (set_eig_vecs (dual_vecs (eigh (tagged F *m (tagged F)^T)).1 (eigh (tagged F *m (tagged F)^T)).2) (set_mode mode s))).
  by rewrite /= /mbind /= e1 e2 e3 e4 /= eK eL /= /has_dual /= eG dN check_geq0 //= em.
split=> //; have [c1 _] := ok_mode mode c.
have noA : A_zono s = None by case eA: (A_zono s) => [A|] //; have [_ _ _ []] := co_A c eA; rewrite eG.
by have [] := @ok_L_decomp _ _ _ _ _ (set_mode mode s) _ _ _ c1 noA eK eL lK sd'.
Qed.

Lemma fair_dual f s F : coherent s -> K_eig_vals s = None -> L_eig_vals s = None ->
  L_gram_factor s = Some F -> (tag F < N)%N -> fair f.+3 s.
Proof.
by move=> c eK eL eG dN; have [s' e [c' h]] := step_dual f.+2 c eK eL eG dN; apply: fair_step e _; exact: fair_L_eig.
Qed.

Lemma step_proj_K f s : coherent s -> K_eig_vals s = None -> L_eig_vals s = None -> has_dual s = false ->
  projection s -> K_ s -> mode = "GS"%string -> fair f.+1 s.
Proof.
move=> c eK eL nd p; case e: (K_ s) => [M|] // _ em; have MK := co_K c e; rewrite MK in e.
have cor : is_correlation s by apply/negPn/negP => nc; have := co_like_K c nc; rewrite e eK => /(_ isT).
rewrite /fair em /= /mbind /= eK eL /= -[has_dual _]/(has_dual s) nd p e /=.
exists (proj_dpp_sampler_kernel K "GS" None), (set_mode "GS" s); split=> //.
by apply: kernel_samples; [left|apply: (co_proj c); rewrite cor p].
Qed.

Lemma fair_K f s : coherent s -> K_eig_vals s = None -> L_eig_vals s = None -> has_dual s = false ->
  (projection s && K_ s -> mode = "GS"%string) -> K_ s -> fair f.+2 s.
Proof.
move=> c eK eL nd hp k; case ep: (projection s); first by apply: step_proj_K; rewrite ?ep //; apply: hp; rewrite ep k.
case e: (K_ s) k => [M|] // _; have MK := co_K c e; rewrite MK in e; have [e1 e2 e3 e4] := eigmode_skip.
have sd := eigh_K eighP (co_dpp c).
apply: (@fair_step _ _ (set_K_eig_vals (eigh K).1 (set_eig_vecs (eigh K).2 (set_mode mode s)))).
  move: f.+1 => g; rewrite /= /mbind /= e1 e2 e3 e4 /= eK eL /= -[has_dual _]/(has_dual s) nd ep e /=.
  by rewrite check_in01 ?(sd_dpp sd (co_dpp c)).
apply: fair_K_eig => //; have [c1 _] := ok_mode mode c.
by have [] := @ok_K_decomp _ _ _ _ _ (set_mode mode s) _ _ c1 eK eL sd.
Qed.

Lemma fair_A f s : coherent s -> (projection s && K_ s -> ~~ K_eig_vals s -> mode = "GS"%string) -> A_zono s -> fair f.+2 s.
Proof.
move=> c nd; case eA: (A_zono s) => [A|] // _; have [e1 e2 e3 e4] := eigmode_skip.
have [cp rf KE [l0 le0 g0 _]] := co_A c eA.
case eKe: (K_eig_vals s) => [lam|]; first by apply: fair_K_eig; rewrite ?eKe.
have hd : has_dual s = false by rewrite /has_dual g0.
case eK: (K_ s) => [M|]; first by apply: fair_K => //; rewrite ?eK //; move=> h; apply: nd; rewrite ?eK ?eKe.
have sd := sd_qr qrP rf; rewrite -KE in sd.
apply: (@fair_step _ _ (set_K_eig_vals (nseq (tag A) 1) (set_eig_vecs (qr_cols qr A) (set_mode mode s)))).
  move: f.+1 => g; rewrite /= /mbind /= e1 e2 e3 e4 /= eKe le0 /= -[has_dual _]/(has_dual s) hd /= eK; by case: ifP; rewrite l0 eA.
apply: fair_K_eig => //; have [c1 _] := ok_mode mode c.
by have [] := @ok_K_decomp _ _ _ _ _ (set_mode mode s) _ _ c1 eKe le0 sd.
Qed.

Lemma fair_L f s : coherent s -> (projection s && K_ s -> ~~ K_eig_vals s -> mode = "GS"%string) -> L_ s -> fair f.+3 s.
Proof.
move=> c nd; case eL: (L_ s) => [L|] // _; have [e1 e2 e3 e4] := eigmode_skip.
case eKe: (K_eig_vals s) => [lam|]; first by apply: fair_K_eig; rewrite ?eKe.
case eLe: (L_eig_vals s) => [gam|]; first by apply: fair_L_eig; rewrite ?eLe.
case hd: (has_dual s).
  by move: hd; rewrite /has_dual; case eG: (L_gram_factor s) => [F|] // dN; apply: fair_dual dN.
case eK: (K_ s) => [M|].
  by apply: fair_K => //; rewrite ?eK //; move=> h; apply: nd; rewrite ?eK ?eKe.
have lK := co_L c eL; have [sd g0] := eigh_L eighP lK.
apply: (@fair_step _ _ (set_L_eig_vals (eigh L).1 (set_eig_vecs (eigh L).2 (set_mode mode s)))).
  move: f.+2 => g; rewrite /= /mbind /= e1 e2 e3 e4 /= eKe eLe /= -[has_dual _]/(has_dual s) hd /= eK; case: ifP => _; by rewrite eL check_geq0.
apply: fair_L_eig => //; have [c1 _] := ok_mode mode c.
have noA : A_zono s = None by case eA: (A_zono s) => [A|] //; have [_ _ _ []] := co_A c eA; rewrite eL.
by have [] := @ok_L_decomp _ _ _ _ _ (set_mode mode s) _ _ _ c1 noA eKe eLe lK sd.
Qed.

Lemma fair_eig f s : coherent s -> (projection s && K_ s -> ~~ K_eig_vals s -> mode = "GS"%string) -> fair f.+4 s.
Proof.
move=> c nd; have [e1 e2 e3 e4] := eigmode_skip.
case eKe: (K_eig_vals s) => [lam|]; first by apply: fair_K_eig; rewrite ?eKe.
case eLe: (L_eig_vals s) => [gam|]; first by apply: fair_L_eig; rewrite ?eLe.
case hd: (has_dual s).
  by move: hd; rewrite /has_dual; case eG: (L_gram_factor s) => [F|] // dN; apply: fair_dual dN.
case eK: (K_ s) => [M|].
  by apply: fair_K => //; rewrite ?eK //; move=> h; apply: nd; rewrite ?eK ?eKe.
case eL: (L_ s) => [L|]; first by apply: fair_L; rewrite ?eL // eK andbF.
case eA: (A_zono s) => [A|]; first by apply: fair_A; rewrite ?eA // eK andbF.
have nc : ~~ is_correlation s by apply/negP => cc; have := co_corr c cc; rewrite eK eKe eA.
have eV : eval_L s.
  have := co_like c nc; rewrite eL eLe; case eG: (L_gram_factor s) => [F|] //=.
  by have [_] := co_gram c eG; move: hd; rewrite /has_dual eG => ->; rewrite eL.
have [c1 _] := ok_mode mode c.
have [s1 [L [ec c2 [fz _] eL1 lK]]] : exists s' L, [/\ compute_L eigh qr limit (set_mode mode s) = Ret (s', inl tt),
     coherent s', frozen (set_mode mode s) s', L_ s' = Some L & is_L_of K L].
  apply: C21_compute_L c1 _ _; last by exact: like_L (co_like c nc).
  by rewrite -[is_correlation _ && _]/(is_correlation s && projection s) (negbTE nc) orbT.
apply: (@fair_step _ _ s1).
  move: f.+3 => g; rewrite /= /mbind /= e1 e2 e3 e4 /= eKe eLe /= -[has_dual _]/(has_dual s) hd /= eK; case: ifP => _; rewrite eL eA;
  by case eV' : (eval_L s) eV => [M|] // _; rewrite ec.
apply: fair_L => //; last by rewrite eL1.
move=> /andP[_ k]; rewrite (co_like_K c2) //; move: nc; rewrite /is_correlation; have [-> _] := fz; by [].
Qed.
End Eigmode.

(** the modes that are valid for an object: 'GS' and 'Chol' always; 'Schur' for projection correlation kernels;
    'GS_bis' and 'KuTa12' unless the object is a projection DPP known only by its dense kernel K *)
Definition valid_mode (s : dpp) : Prop :=
  mode = "GS"%string \/ mode = "Chol"%string \/ (mode = "Schur"%string /\ is_correlation s && projection s) \/
  ((mode = "GS_bis"%string \/ mode = "KuTa12"%string) /\ ~~ [&& projection s, K_ s : bool & ~~ K_eig_vals s]).

Lemma fair_exact f s : coherent s -> valid_mode s -> fair f.+4 s.
Proof.
move=> c; case=> [em|[em|[[em cp]|[em nd]]]].
- by apply: fair_eig => //; left.
- have [c1 _] := ok_mode mode c.
  have [s' [ec c' [[fk [fp _]] _] eK]] := C21_compute_K c1.
  exists (if is_correlation s' && projection s' then proj_dpp_sampler_kernel K "Chol" None
                   else ints (dpp_sampler_generic_kernel K)), s'; split.
    by move: f.+3 => g; rewrite em in ec *; rewrite /= /mbind /= ec /= eK.
  case cp: (_ && _); last by apply: generic_samples; exact: co_dpp c.
  by apply: kernel_samples; [right; left|apply: (co_proj c')].
- have [c1 _] := ok_mode mode c.
  have [s' [ec c' [[fk [fp _]] _] eK]] := C21_compute_K c1.
  exists (proj_dpp_sampler_kernel K "Schur" None), s'; split.
    move: f.+3 => g; rewrite em in ec *; rewrite /= /mbind /=.
    by rewrite -[is_correlation _ && _]/(is_correlation s && projection s) cp /= ec /= eK.
  by apply: kernel_samples; [right; right|apply: (co_proj c)].
apply: fair_eig => //; first by right.
by move=> /andP[p k] ke; case/negP: nd; rewrite p k.
Qed.

(** Observed result of a call: the probability that it returns a sample satisfying Q. *)
Definition Pr_returns (m : prog R (dpp * (seq nat + exn))) (Q : seq nat -> bool) : R :=
  E m (fun sr => if sr.2 is inl X then (Q X)%:R else 0).

Lemma fair_Pr f s Q m s' : sample_exact_rec f mode pr s = mbind (lift m) (@record_sample R N vrest arest) s' ->
  total m -> Pr_returns (sample_exact_rec f mode pr s) Q = Pr m Q.
Proof.
move=> e t; rewrite /Pr_returns e /mbind /lift !E_bind E_catch_total; last by move=> ex; exact: total_no_raise.
by apply: eq_E => x.
Qed.

Lemma fair_sample s : coherent s -> valid_mode s -> fair limit s.
Proof. by move=> c v; case: limit limit_ok => [|[|[|[|f]]]] // _; exact: fair_exact. Qed.

Theorem C53_never_fails s : coherent s -> valid_mode s ->
  Pr_returns (sample_exact mode pr s) (fun _ => true) = 1 /\
  forall s' e, ~ possible (sample_exact mode pr s) (inl (s', inr e)).
Proof.
move=> c v; rewrite /FiniteModel.sample_exact.
have [m [s1 [e [t h]]]] := fair_sample c v; split; first by rewrite (fair_Pr _ e t).
move=> s' ex; rewrite e => p.
have w : mwp (mbind (lift m) (@record_sample R N vrest arest)) s1 (fun _ r => exists X, r = inl X).
  mstep; mstep; last by case: (total_no_raise t po).
  by apply: holds_ret; eexists.
by have [X] := @possible_mwp _ _ _ _ _ _ _ (fun _ r => exists X, r = inl X) _ _ w p.
Qed.

(** C53: P(T is included in the sample) = det K_T *)
Theorem C53_marginals s (T : {set item}) : coherent s -> valid_mode s ->
  Pr_returns (sample_exact mode pr s) (fun X => T \subset set_of N X) = pmS K T.
Proof.
move=> c v; rewrite /FiniteModel.sample_exact.
by have [m [s1 [e [t h]]]] := fair_sample c v; rewrite (fair_Pr _ e t) h.
Qed.

Lemma samples_point m (S : {set item}) : is_dpp_kernel K -> samples_K m ->
  Pr m (fun X => set_of N X == S) = `|\det (K - \matrix_(i, j) ((i == j) && (i \notin S))%:R)|.
Proof.
move=> dK [t h].
pose m' := bind m (fun X => Ret (enum (set_of N X))).
have e Q : Pr m' (fun X => Q (items X)) = Pr m (fun X => Q (set_of N X)).
  rewrite /m' /Pr E_bind; apply: eq_E => X /=; congr (nat_of_bool (Q _))%:R.
  by apply/setP => i; rewrite inE mem_enum.
rewrite -(e (fun A => A == S)) -(C06_point_law dK) (@same_marginals _ _ m' (dpp_sampler_generic_kernel K)) // => T.
by rewrite (e (fun A => T \subset A)) h C06_marginals.
Qed.

Theorem C53_point_law s (S : {set item}) : coherent s -> valid_mode s ->
  Pr_returns (sample_exact mode pr s) (fun X => set_of N X == S) =
  `|\det (K - \matrix_(i, j) ((i == j) && (i \notin S))%:R)|.
Proof.
move=> c v; rewrite /FiniteModel.sample_exact.
have [m [s1 [e sm]]] := fair_sample c v; have [t h] := sm.
by rewrite (fair_Pr _ e t) samples_point //; exact: co_dpp c.
Qed.

Lemma point_L L (S : {set item}) : is_L_of K L ->
  `|\det (K - \matrix_(i, j) ((i == j) && (i \notin S))%:R)| = pmS L S / \det (1%:M + L).
Proof.
move=> lK; have [sd g0] := eigh_L eighP lK; have sdK := sd_L_to_K lK sd.
have [sz o LE] := (sdE _ _ _).1 sd; have [_ _ KE] := (sdE _ _ _).1 sdK.
by rewrite {1}KE L_point // -LE.
Qed.

(** C53 for likelihood kernels: P(sample = S) = det L_S / det(I + L) *)
Theorem C53_L_ensemble s L (S : {set item}) : coherent s -> is_L_of K L -> valid_mode s ->
  Pr_returns (sample_exact mode pr s) (fun X => set_of N X == S) = pmS L S / \det (1%:M + L).
Proof. by move=> c lK v; rewrite C53_point_law // (point_L S lK). Qed.

(** after any history of calls on the object *)
Theorem C53_after_any_history cs s0 s rs (T : {set item}) : coherent s0 -> possible (run cs s0) (inl (s, rs)) ->
  valid_mode s -> Pr_returns (sample_exact mode pr s) (fun X => T \subset set_of N X) = pmS K T.
Proof. by move=> c p v; have [c' _] := C21_history eighP qrP c p; exact: C53_marginals. Qed.
End K.
End Law.

(** ** The constructor builds coherent objects *)
Local Arguments is_symmetric : simpl never. Local Arguments is_projection : simpl never.
Local Arguments is_orthonormal_columns : simpl never. Local Arguments is_equal_to_O_or_1 : simpl never.
Local Arguments is_full_row_rank : simpl never.
Section Constructor.
Variables (R : rcfType) (N : nat) (vrest arest : Type).

(** one way of describing a DPP (documentation of FiniteDPP, l.62-90) *)
Inductive param :=
| ByK of 'M[R]_N | ByKeig of seq R & seq 'cV[R]_N | ByA of {d : nat & 'M[R]_(d, N)}
| ByL of 'M[R]_N | ByLeig of seq R & seq 'cV[R]_N | ByGram of {d : nat & 'M[R]_(d, N)} | ByEval of 'M[R]_N.

Definition kwargs_of (p : param) : kwargs R N :=
  match p with
  | ByK M => Kwargs (Some (Some M)) None None None None None None [::]
  | ByKeig lam vs => Kwargs None (Some (Some lam, Some vs)) None None None None None [::]
  | ByA A => Kwargs None None (Some (Some A)) None None None None [::]
  | ByL M => Kwargs None None None (Some (Some M)) None None None [::]
  | ByLeig gam vs => Kwargs None None None None (Some (Some gam, Some vs)) None None [::]
  | ByGram F => Kwargs None None None None None (Some (Some F)) None [::]
  | ByEval M => Kwargs None None None None None None (Some ((true, M), true)) [::]
  end.
Definition kind (p : param) : string :=
  match p with ByK _ | ByKeig _ _ | ByA _ => "correlation"%string | _ => "likelihood"%string end.

(** the parameters describe the DPP with correlation kernel K; [b] is the argument projection *)
Definition describes (K : 'M[R]_N) (b : bool) (p : param) : Prop :=
  match p with
  | ByK M => [/\ M = K, is_dpp_kernel K & b -> isproj K]
  | ByKeig lam vs => [/\ spectral_decomposition K lam vs, is_dpp_kernel K & b -> isproj K]
  | ByA A => row_free (tagged A) /\ K = (tagged A)^T *m invmx (tagged A *m (tagged A)^T) *m tagged A
  | ByL M => is_L_of K M /\ (b -> isproj M)
  | ByLeig gam vs => exists L, [/\ is_L_of K L, spectral_decomposition L gam vs & b -> isproj L]
  | ByGram F => is_L_of K ((tagged F)^T *m tagged F) /\ (row_free (tagged F) \/ (N <= tag F)%N)
  | ByEval M => is_L_of K M
  end.

Lemma isclose_refl (x : R) : isclose x x.
Proof.
rewrite /isclose subrr normr0 addr_ge0 ?mulr_ge0 ?normr_ge0 // /atol /rtol invr_ge0 ler0n //.
Qed.

Lemma sym_ok (M : 'M[R]_N) : M^T = M -> is_symmetric (Some M) = inl (Some M).
Proof.
move=> sM; rewrite /is_symmetric /checked ifT // eqxx /=; apply/allP => i _; apply/allP => j _.
have -> : UtilsModel.entry M j i = UtilsModel.entry M i j.
  by rewrite /UtilsModel.entry; case: insubP => [j' _ _|_]; case: insubP => [i' _ _|_] //; rewrite -{1}sM mxE.
exact: isclose_refl.
Qed.

Lemma proj_ok (M : 'M[R]_N) : isproj M -> is_projection (Some M) = inl (Some M).
Proof.
move=> [sM iM]; rewrite /is_projection /checked ifT // eqxx /=; apply/allP => j.
rewrite mem_iota => /andP[_]; rewrite add0n leq_min => /andP[_ jN].
have -> : \sum_(i < N) UtilsModel.entry M i j * UtilsModel.entry M i j = UtilsModel.entry M j j.
  have eE (a c : 'I_N) : UtilsModel.entry M a c = M a c by rewrite /UtilsModel.entry !valK.
  rewrite -[j]/(val (Ordinal jN)) eE -{3}iM mxE; apply: eq_bigr => i _.
  by rewrite !eE -{1}sM mxE.
exact: isclose_refl.
Qed.

Lemma cols_ok (vs : seq 'cV[R]_N) : (colmx vs)^T *m colmx vs = 1%:M -> is_orthonormal_columns (Some vs) = inl (Some vs).
Proof.
move=> o; rewrite /is_orthonormal_columns /checked ifT //; apply/allP => i.
rewrite mem_iota => /andP[_]; rewrite add0n leq_min => /andP[_ ivs]; apply/allP => j.
rewrite mem_iota => /andP[_]; rewrite add0n leq_min => /andP[_ jvs].
have := congr1 (fun M : 'M_(size vs) => M (Ordinal ivs) (Ordinal jvs)) o.
rewrite /= [in X in _ = X]mxE -val_eqE /= => e.
have -> : \sum_(k < N) (nth 0 vs i) k 0 * (nth 0 vs j) k 0 = (i == j)%:R; last exact: isclose_refl.
by rewrite -e !mxE; apply: eq_bigr => k _; rewrite !mxE !(tnth_nth 0).
Qed.

Lemma geq0_ok (v : seq R) : all (fun g => 0 <= g) v -> is_geq_0 (Some v) = inl (Some v).
Proof.
move=> v0; rewrite /is_geq_0 /checked ifT //.
by apply: sub_all v0 => x x0; apply: le_trans x0; rewrite oppr_le0 tol8_ge0.
Qed.
Lemma in01_ok (v : seq R) : all (fun g => 0 <= g <= 1) v -> is_in_01 (Some v) = inl (Some v).
Proof.
move=> v0; rewrite /is_in_01 /checked ifT //.
apply: sub_all v0 => x /andP[x0 x1]; apply/andP; split.
  by apply: le_trans x0; rewrite oppr_le0 tol8_ge0.
by apply: le_trans x1 _; rewrite ler_addl tol8_ge0.
Qed.
Lemma tol8_lt1 : tol8 R < 1.
Proof. by rewrite invf_lt1 ?ltr0n // ltr1n. Qed.
Lemma O1_ok (v : seq R) : all (fun l => (l == 0) || (l == 1)) v -> is_equal_to_O_or_1 (Some v) = inl (Some v).
Proof.
move=> v0; rewrite /is_equal_to_O_or_1 /checked ifT //; apply: sub_all v0 => x.
have n1 : (1 <= tol8 R) = false by apply/negbTE; rewrite -ltNge tol8_lt1.
by case/orP => /eqP ->; rewrite ?normr0 ?subr0 ?normr1 ?subrr ?normr0 tol8_ge0 n1.
Qed.

Lemma isproj_dpp (M : 'M[R]_N) : isproj M -> is_dpp_kernel M.
Proof. by move=> p; rewrite -[M]scale1r; apply: half_proj_kernel; rewrite ?ler01 ?lexx. Qed.

Lemma zono_proj d (A : 'M[R]_(d, N)) : row_free A -> isproj (A^T *m invmx (A *m A^T) *m A).
Proof.
move=> rf; have uA : A *m A^T \in unitmx.
  rewrite -row_free_unit; apply: inj_row_free => u uAA.
  have : (u *m A) *m (u *m A)^T = 0 by rewrite trmx_mul mulmxA -(mulmxA u) uAA mul0mx.
  move=> /(congr1 (fun M : 'M_1 => M 0 0)); rewrite [RHS]mxE => /sq_row_eq0 uA.
  by apply: (row_free_inj rf); rewrite uA mul0mx.
split; first by rewrite !trmx_mul trmxK trmx_inv trmx_mul trmxK mulmxA.
by rewrite -!mulmxA [A *m (A^T *m _)]mulmxA (mulKVmx uA).
Qed.

Lemma is_L_dpp (K L : 'M[R]_N) gam vs : is_L_of K L -> spectral_decomposition L gam vs -> is_dpp_kernel K.
Proof.
move=> lK sd; have [pL _] := lK; have g0 := sd_psd sd pL.
have [sz o ->] := (sdE _ _ _).1 (sd_L_to_K lK sd); apply: kern_dpp_kernel => //; exact: gam01.
Qed.

Lemma init_ok kt b (kw : kwargs R N) p ev vecs ev' vecs' :
  check_args_coherence kt (PyBool b) kw = inl p ->
  is_symmetric (oget_ (kw_K kw)) = inl (oget_ (kw_K kw)) ->
  (p -> is_projection (oget_ (kw_K kw)) = inl (oget_ (kw_K kw))) ->
  (if kw_K_eig_dec kw is Some d then d else (None, None)) = (ev, vecs) ->
  (if p then is_equal_to_O_or_1 ev else is_in_01 ev) = inl ev ->
  is_orthonormal_columns vecs = inl vecs ->
  is_full_row_rank (oget_ (kw_A_zono kw)) = inl (oget_ (kw_A_zono kw)) ->
  is_symmetric (oget_ (kw_L kw)) = inl (oget_ (kw_L kw)) ->
  (p -> is_projection (oget_ (kw_L kw)) = inl (oget_ (kw_L kw))) ->
  (if kw_L_eig_dec kw is Some d then d else (None, None)) = (ev', vecs') ->
  (if p then is_equal_to_O_or_1 ev' else is_geq_0 ev') = inl ev' ->
  is_orthonormal_columns vecs' = inl vecs' ->
  (if kw_L_eval_X_data kw is Some (f, X) then f.1 && X else true) ->
  init vrest arest kt (PyBool b) kw = inl (Dpp kt p (oget_ (kw_K kw)) ev (if vecs is Some _ then vecs else vecs')
    (oget_ (kw_A_zono kw)) (if oget_ (kw_L_gram_factor kw) is Some F then
              if (tag F < N)%N then oget_ (kw_L kw)
              else if oget_ (kw_L kw) is None then Some ((tagged F)^T *m tagged F) else oget_ (kw_L kw)
            else oget_ (kw_L kw)) ev' (oget_ (kw_L_gram_factor kw))
    (if kw_L_eval_X_data kw is Some (f, _) then Some f.2 else None) None "GS" [::] 0 None).
Proof.
move=> h1 h2 h3 h4 h5 h6 h7 h8 h9 h10 h11 h12 h13; rewrite /init h1 /= h2 /=.
have -> : (if p then is_projection (oget_ (kw_K kw)) else inl (oget_ (kw_K kw))) = inl (oget_ (kw_K kw)) by case: (p) h3 => // ->.
rewrite /= h4 h5 /= h6 /= h7 /= h8 /=.
have -> : (if p then is_projection (oget_ (kw_L kw)) else inl (oget_ (kw_L kw))) = inl (oget_ (kw_L kw)) by case: (p) h9 => // ->.
rewrite /= h10 h11 /=.
have -> : (if vecs is Some _ then inl vecs else is_orthonormal_columns vecs') = inl (if vecs is Some _ then vecs else vecs') by case: (vecs).
rewrite /=; case: (kw_L_eval_X_data kw) h13 => [[f X] ->|] //.
Qed.

Variable eigh : forall n : nat, 'M[R]_n -> seq R * seq 'cV[R]_n.
Hypothesis eighP : eigh_contract eigh.

(** C21: a valid description is accepted and yields a coherent object *)
Theorem C21_constructor K b p : describes K b p ->
  exists2 s, init vrest arest (kind p) (PyBool b) (kwargs_of p) = inl s & coherent K s.
Proof.
have LK L : is_L_of K L -> is_dpp_kernel K.
  by move=> lK; have [sd _] := eigh_L eighP lK; exact: is_L_dpp lK sd.
have i1 (c : bool) : (if c then is_equal_to_O_or_1 None else is_in_01 None) = inl None :> option (seq R) + exn by case: c.
have i2 (c : bool) : (if c then is_equal_to_O_or_1 None else is_geq_0 None) = inl None :> option (seq R) + exn by case: c.
case: p => [M|lam vs|A|M|gam vs|F|M] /=.
- case=> -> dK bp; have [sK _] := dK.
  eexists.
    apply: (@init_ok _ _ _ b) => //; rewrite /= ?orbF ?sym_ok //= => pb; rewrite proj_ok //; exact: bp.
  by constructor=> //= M' [<-].
- case=> sd dK bp; have [_ o _] := sd.
  eexists.
    apply: (@init_ok _ _ _ b) => //=; rewrite ?orbF ?cols_ok //.
    by case: b bp => bp; rewrite ?O1_ok ?in01_ok // ?(sd_dpp sd dK) //; apply: sd_proj sd; exact: bp.
  constructor=> //=.
  by move=> l [<-]; exists vs.
- case=> rf KE; have pK : isproj K by rewrite KE; exact: zono_proj.
  have dK := isproj_dpp pK.
  eexists.
    apply: (@init_ok _ _ _ true) => //=; first by rewrite orbT.
    rewrite /is_full_row_rank /checked ifT //=.
    by move: rf; rewrite /row_free => /eqP rk; rewrite rk eqxx andbT -{1}rk rank_leq_col.
  by constructor=> //= A' [<-].
- case=> lK bp; have dK := LK _ lK; have [[sM _] _] := lK.
  eexists.
    apply: (@init_ok _ _ _ b) => //=; rewrite ?sym_ok // => pb; rewrite proj_ok //; exact: bp.
  by constructor=> //= M' [<-].
- case=> L [lK sd bp]; have dK := LK _ lK; have [pL _] := lK; have [_ o _] := sd.
  eexists.
    apply: (@init_ok _ _ _ b) => //=; rewrite ?cols_ok //.
    by case: b bp => bp; rewrite ?O1_ok ?geq0_ok // ?(sd_psd sd pL) //; apply: sd_proj sd; exact: bp.
  by constructor=> //= g [<-]; exists vs, L.
- case=> lK hF; have dK := LK _ lK.
  eexists; first by apply: (@init_ok _ _ _ b).
  constructor=> //=.
  + by case: ifP => // _ M [<-].
  + by move=> F' [<-]; split=> //; case dN: (tag F < N)%N => //; case: hF => //; rewrite leqNgt dN.
  + by case: ifP => // _; rewrite ?orbT.
- move=> lK; have dK := LK _ lK.
  eexists; first by apply: (@init_ok _ _ _ b).
  by constructor=> //= M' [<-].
Qed.
End Constructor.

Print Assumptions C21_history.
Print Assumptions C21_constructor.
Print Assumptions C53_after_any_history.
Print Assumptions C53_L_ensemble.
