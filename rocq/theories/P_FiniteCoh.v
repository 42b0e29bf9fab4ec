(** * P_FiniteCoh: properties C21 (the caches of a FiniteDPP object stay coherent and never change) and C53 (the law of
      sample_exact after any history of calls). *)
From Coq Require Import String.
From mathcomp Require Import all_ssreflect all_algebra.
From mathcomp.algebra_tactics Require Import ring.
From Verif Require Import Prob Minor Chain ChainCons UtilsModel ExactModel ProjGS ProjKuTa ProjAll GenKernel Spectral LEnsemble QRex P_Proj P_Gen P_Spectral McmcModel P_Mcmc FiniteModel Finite SpecLemmas P_FiniteHist.
Set Implicit Arguments. Unset Strict Implicit. Unset Printing Implicit Defensive.
Import Order.Theory GRing.Theory Num.Theory.
Local Open Scope ring_scope.

Section Coherent.
Variables (R : rcfType) (N : nat) (vrest arest : Type).
Notation dpp := (dpp R N vrest arest).

(** [coherent K s]: every attribute of the object s that is set describes the DPP with correlation kernel K. *)
Record coherent (K : 'M[R]_N) (s : dpp) : Prop := Coherent {
  co_dpp : is_dpp_kernel K;
  co_proj : is_correlation s && projection s -> isproj K;
  co_K : forall M, K_ s = Some M -> M = K;
  co_K_eig : forall lam, K_eig_vals s = Some lam ->
    exists2 vs, eig_vecs s = Some vs & spectral_decomposition K lam vs;
  co_L : forall M, L_ s = Some M -> is_L_of K M;
  co_L_eig : forall gam, L_eig_vals s = Some gam ->
    exists vs L, [/\ eig_vecs s = Some vs, spectral_decomposition L gam vs & is_L_of K L];
  co_A : forall A, A_zono s = Some A ->
    [/\ is_correlation s && projection s, row_free (tagged A),
        K = (tagged A)^T *m invmx (tagged A *m (tagged A)^T) *m tagged A &
        [/\ L_ s = None, L_eig_vals s = None, L_gram_factor s = None & eval_L s = None]];
  co_gram : forall F, L_gram_factor s = Some F ->
    is_L_of K ((tagged F)^T *m tagged F) /\ (if (tag F < N)%N then row_free (tagged F) else L_ s : bool);
  co_eval : forall M, eval_L s = Some M -> is_L_of K M;
  (** the parametrization: a correlation kernel has a K attribute, a likelihood kernel an L attribute *)
  co_corr : is_correlation s -> K_ s || K_eig_vals s || A_zono s;
  co_like : ~~ is_correlation s -> L_ s || L_eig_vals s || L_gram_factor s || eval_L s;
  co_like_K : ~~ is_correlation s -> K_ s -> K_eig_vals s : bool;
  co_vecs : eig_vecs s -> K_eig_vals s || L_eig_vals s;
  co_E : forall T, E_poly s = Some T -> exists2 gam, L_eig_vals s = Some gam &
    exists k, T = elementary_symmetric_polynomials gam k }.

(** [frozen s s']: the attributes set in s have the same value in s'. *)
Definition keeps A (o o' : option A) : Prop := forall a, o = Some a -> o' = Some a.
Definition frozen (s s' : dpp) : Prop :=
  (kernel_type s' = kernel_type s /\ projection s' = projection s /\ A_zono s' = A_zono s /\
   L_gram_factor s' = L_gram_factor s /\ eval_L s' = eval_L s) /\
  [/\ keeps (K_ s) (K_ s'), keeps (K_eig_vals s) (K_eig_vals s'), keeps (L_ s) (L_ s'),
      keeps (L_eig_vals s) (L_eig_vals s') & keeps (eig_vecs s) (eig_vecs s')].

Lemma keeps_refl A (o : option A) : keeps o o. Proof. by []. Qed.
Lemma keeps_none A (o : option A) : keeps None o. Proof. by []. Qed.
Lemma frozen_refl s : frozen s s. Proof. by split=> //; split; exact: keeps_refl. Qed.
Lemma frozen_trans s1 s2 s3 : frozen s1 s2 -> frozen s2 s3 -> frozen s1 s3.
Proof.
move=> [[a1 [a2 [a3 [a4 a5]]]] [b1 b2 b3 b4 b5]] [[c1 [c2 [c3 [c4 c5]]]] [d1 d2 d3 d4 d5]].
split; first by rewrite c1 c2 c3 c4 c5.
by split=> x xs; [exact/d1/b1|exact/d2/b2|exact/d3/b3|exact/d4/b4|exact/d5/b5].
Qed.

(** ** elementary transitions *)
Variables (K : 'M[R]_N).
Definition ok s s' : Prop := coherent K s' /\ frozen s s'.

Lemma ok_refl s : coherent K s -> ok s s. Proof. by split=> //; exact: frozen_refl. Qed.
Lemma ok_trans s1 s2 s3 : ok s1 s2 -> ok s2 s3 -> ok s1 s3.
Proof. by move=> [_ f1] [c f2]; split=> //; exact: frozen_trans f1 f2. Qed.

Ltac fz := by split=> //=; split=> /=; try exact: keeps_refl; move=> ? //=; congruence.

Lemma ok_mode s m : coherent K s -> ok s (set_mode m s). Proof. by case=> *; split; [constructor|fz]. Qed.
Lemma ok_size s m : coherent K s -> ok s (set_size m s). Proof. by case=> *; split; [constructor|fz]. Qed.
Lemma ok_samples s m : coherent K s -> ok s (set_samples m s). Proof. by case=> *; split; [constructor|fz]. Qed.
Lemma ok_info s m : coherent K s -> ok s (set_info m s). Proof. by case=> *; split; [constructor|fz]. Qed.


Ltac cdes c := case: c => c_dpp c_proj c_K c_K_eig c_L c_L_eig c_A c_gram c_eval c_corr c_like c_like_K c_vecs c_E.

Lemma ok_set_K s : coherent K s -> K_ s = None -> (~~ is_correlation s -> K_eig_vals s) -> ok s (set_K K s).
Proof.
move=> c k0 h; split; last by fz.
cdes c; constructor=> //=; first by move=> M [<-].
by move=> n _; exact: h.
Qed.

Lemma ok_set_K_eig s gam : coherent K s -> K_eig_vals s = None -> L_eig_vals s = Some gam ->
  ok s (set_K_eig_vals [seq g / (1 + g) | g <- gam] s).
Proof.
move=> c k0 l; split; last by fz.
cdes c; constructor=> //=.
- move=> lam [<-]; have [vs [L [e sd lK]]] := c_L_eig _ l; exists vs => //; exact: sd_L_to_K sd.
- by rewrite orbT.
Qed.

Lemma ok_K_decomp s lam vs : coherent K s -> K_eig_vals s = None -> L_eig_vals s = None ->
  spectral_decomposition K lam vs -> ok s (set_K_eig_vals lam (set_eig_vecs vs s)).
Proof.
move=> c k0 l sd.
have v : eig_vecs s = None.
  by have := co_vecs c; case: (eig_vecs s) => // ? /(_ isT); rewrite k0 l.
split; last by fz.
cdes c; constructor=> //=.
- by move=> lam' [<-]; exists vs.
- by move=> gam; rewrite l.
- by rewrite orbT.
Qed.

Lemma ok_L_decomp s gam vs L : coherent K s -> A_zono s = None -> K_eig_vals s = None -> L_eig_vals s = None ->
  is_L_of K L -> spectral_decomposition L gam vs -> ok s (set_L_eig_vals gam (set_eig_vecs vs s)).
Proof.
move=> c a0 k0 l lK sd.
have v : eig_vecs s = None.
  by have := co_vecs c; case: (eig_vecs s) => // ? /(_ isT); rewrite k0 l.
split; last by fz.
cdes c; constructor=> //=.
- by move=> lam'; rewrite k0.
- by move=> gam' [<-]; exists vs, L.
- by move=> A; rewrite a0.
- by rewrite orbT.
- by rewrite orbT.
- by move=> T /c_E[g]; rewrite l.
Qed.

Lemma ok_set_L s L : coherent K s -> A_zono s = None -> L_ s = None -> is_L_of K L -> ok s (set_L L s).
Proof.
move=> c a0 l0 lK; split; last by fz.
cdes c; constructor=> //=.
- by move=> M [<-].
- by move=> A; rewrite a0.
- by move=> F eF; have [? ?] := c_gram _ eF; split=> //; case: ifP => // h; move: (c_gram _ eF); rewrite h => -[].
Qed.

Lemma ok_set_L_eig s lam : coherent K s -> A_zono s = None -> L_eig_vals s = None -> K_eig_vals s = Some lam ->
  ~~ has (fun l => 1 - l == 0) lam -> ok s (set_L_eig_vals [seq l / (1 - l) | l <- lam] s).
Proof.
move=> c a0 l0 k h; split; last by fz.
cdes c; constructor=> //=.
- move=> gam [<-]; have [vs e sd] := c_K_eig _ k.
  have l01 := sd_dpp sd c_dpp.
  have lt1 : all (fun l => 0 <= l < 1) lam.
    apply/allP => l ll; have /andP[-> l1] := allP l01 _ ll; rewrite lt_neqAle l1 andbT.
    by apply: contra h => e1; apply/hasP; exists l => //; rewrite subr_eq0 eq_sym.
  have [_ sd' lK] := sd_K_to_L lt1 sd; by exists vs, (kern [seq l / (1 - l) | l <- lam] vs).
- by move=> A; rewrite a0.
- by rewrite orbT.
- by rewrite orbT.
- by move=> T /c_E[g]; rewrite l0.
Qed.

Lemma ok_E_poly s gam k : coherent K s -> L_eig_vals s = Some gam ->
  ok s (set_E_poly (elementary_symmetric_polynomials gam k) s).
Proof.
move=> c l; split; last by fz.
cdes c; constructor=> //= T [<-]; exists gam => //; by exists k.
Qed.
End Coherent.

Section Compute.
Variables (R : rcfType) (N : nat) (vrest arest : Type).
Notation dpp := (dpp R N vrest arest).
Variable eigh : forall n : nat, 'M[R]_n -> seq R * seq 'cV[R]_n.
Variable qr : forall r : nat, 'M[R]_(N, r) -> 'M[R]_(N, r).
Hypothesis eighP : eigh_contract eigh.
Hypothesis qrP : qr_contract qr.
Variable K : 'M[R]_N.
Notation coherent := (@coherent R N vrest arest K).
Notation ok := (@ok R N vrest arest K).
Notation compute := (@compute R N vrest arest eigh qr).

Lemma tol8_ge0 : 0 <= tol8 R. Proof. by rewrite invr_ge0 ler0n. Qed.

Lemma check_geq0 (v : seq R) (s : dpp) : all (fun g => 0 <= g) v -> check (is_geq_0 (Some v)) s = Ret (s, inl v).
Proof.
move=> v0; rewrite /check /is_geq_0 /checked ifT //.
by apply: sub_all v0 => x x0; apply: le_trans x0; rewrite oppr_le0 tol8_ge0.
Qed.

Lemma check_in01 (v : seq R) (s : dpp) : all (fun g => 0 <= g <= 1) v -> check (is_in_01 (Some v)) s = Ret (s, inl v).
Proof.
move=> v0; rewrite /check /is_in_01 /checked ifT //.
apply: sub_all v0 => x /andP[x0 x1]; apply/andP; split.
  by apply: le_trans x0; rewrite oppr_le0 tol8_ge0.
by apply: le_trans x1 _; rewrite ler_addl tol8_ge0.
Qed.

Lemma no_one L lam vs : is_L_of K L -> spectral_decomposition K lam vs -> has (fun l => 1 - l == 0) lam = false.
Proof.
move=> lK sd; have [_ [_ inv]] := is_L_of_dpp lK.
apply/negbTE; rewrite -all_predC; apply/(all_nthP 0) => i il /=.
have iv : (i < size vs)%N by have [szl _ _] := sd; rewrite -szl.
have [_ n] := sd_entry (Ordinal iv) sd.
apply/negP => /eqP l1.
have Kv : K *m tnth (in_tuple vs) (Ordinal iv) = tnth (in_tuple vs) (Ordinal iv).
  have [sz o ->] := sd.
  have -> : tnth (in_tuple vs) (Ordinal iv) = colmx vs *m delta_mx (Ordinal iv) 0.
    by rewrite -colE; apply/colP => k; rewrite !mxE.
  rewrite -!mulmxA [(colmx vs)^T *m _]mulmxA o mul1mx; congr (_ *m _).
  apply/colP => k; rewrite mul_diag_mx !mxE /= eqxx andbT.
  by case: (k =P Ordinal iv) => [->|_]; rewrite ?mulr0 //= mulr1; apply/eqP; rewrite eq_sym -subr_eq0 l1.
have : tnth (in_tuple vs) (Ordinal iv) = 0.
  by rewrite -[LHS]mul1mx -(mulmx1C inv) -mulmxA mulmxBl mul1mx Kv subrr mulmx0.
by move=> z; move: n; rewrite z mulmx0 mxE => /esym/eqP; rewrite oner_eq0.
Qed.

(** recursion depth used by compute_K and compute_L *)
Definition depthK (s : dpp) : nat :=
  if K_ s || K_eig_vals s || A_zono s then 1%N else if L_eig_vals s then 2%N else if L_ s then 3%N else 4%N.
Definition depthL (s : dpp) : nat :=
  if [|| L_ s, L_eig_vals s, L_gram_factor s | eval_L s] then 1%N else if K_eig_vals s then 2%N else 3%N.

Lemma coh_noA s : coherent s -> is_correlation s && projection s = false -> A_zono s = None.
Proof. by move=> c cp; case e: (A_zono s) => [A|] //; have [] := co_A c e; rewrite cp. Qed.

Lemma eigh_K : is_dpp_kernel K -> spectral_decomposition K (eigh K).1 (eigh K).2.
Proof. by case=> sK _; have [] := eighP sK. Qed.
Lemma eigh_L L : is_L_of K L -> spectral_decomposition L (eigh L).1 (eigh L).2 /\ all (fun g => 0 <= g) (eigh L).1.
Proof. by case=> pL _; have [sL _] := pL; have [_ sd] := eighP sL; split=> //; exact: sd_psd sd pL. Qed.

Lemma like_L s : coherent s -> L_ s || L_eig_vals s || L_gram_factor s || eval_L s -> exists L, is_L_of K L.
Proof.
move=> c; case e1: (L_ s) => [L|] /=; first by exists L; exact: co_L e1.
case e2: (L_eig_vals s) => [g|] /=; first by have [vs [L [_ _ ?]]] := co_L_eig c e2; exists L.
case e3: (L_gram_factor s) => [F|] /=; first by exists ((tagged F)^T *m tagged F); have [] := co_gram c e3.
by case e4: (eval_L s) => [L|] // _; exists L; exact: co_eval e4.
Qed.

Lemma compute_spec b f s : coherent s -> exists s' r, [/\ compute b f s = Ret (s', r), ok s s',
  r = inl tt -> (if b then K_ s' = Some K else exists2 L, L_ s' = Some L & is_L_of K L) &
  (if b then is_true (depthK s <= f)%N
   else [/\ L_ s || ~~ (is_correlation s && projection s), exists L, is_L_of K L & (depthL s <= f)%N]) -> r = inl tt].
Proof.
elim: f b s => [|f IH] b s c.
  exists s, (inr RecursionError); split=> //; first exact: ok_refl.
  case: b; first by rewrite /depthK; do 3!case: ifP => // _.
  by case=> _ _; rewrite /depthL; do 2!case: ifP => // _.
case: b.
- (* compute_K *)
  rewrite /= /mbind /=; case eK: (K_ s) => [M|].
    by exists s, (inl tt); split=> //; [exact: ok_refl|rewrite eK (co_K c eK)].
  case eKe: (K_eig_vals s) => [lam|].
    have [vs ev sd] := co_K_eig c eKe; rewrite ev /=.
    have -> : recompose lam vs = K by have [sz _ ->] := sd.
    by exists (set_K K s), (inl tt); split=> //; apply: ok_set_K => //; rewrite eKe.
  case eA: (A_zono s) => [A|].
    have [cp rf KE [l0 le0 _ _]] := co_A c eA.
    have sd := sd_qr qrP rf; rewrite -KE in sd.
    have -> : colmx (qr_cols qr A) *m (colmx (qr_cols qr A))^T = K.
      have [_ _ ->] := (sdE _ _ _).1 sd.
      have <- : nseq (size (qr_cols qr A)) (1 : R) = nseq (tag A) 1 by rewrite size_map -cardT card_ord.
      by rewrite kern_ones colmx_gram.
    have o1 := ok_K_decomp c eKe le0 sd.
    exists (set_K K (set_eig_vecs (qr_cols qr A) (set_K_eig_vals (nseq (tag A) 1) s))), (inl tt); split=> //.
    apply: (ok_trans o1); apply: ok_set_K => //; exact: (proj1 o1).
  case eLe: (L_eig_vals s) => [gam|].
    have o1 := ok_set_K_eig c eKe eLe; have [c1 _] := o1.
    have [s' [r [e ok' p t]]] := IH true _ c1; exists s', r; split=> //; first exact: ok_trans o1 ok'.
    by rewrite /depthK eK eKe eA eLe /= => f1; apply: t; rewrite /depthK /= orbT /=; move: f1; rewrite ltnS.
  case eL: (L_ s) => [L|].
    have lK := co_L c eL; have [sd g0] := eigh_L lK.
    rewrite check_geq0 //=.
    have o1 := ok_L_decomp c eA eKe eLe lK sd; have [c1 _] := o1.
    have [s' [r [e ok' p t]]] := IH true _ c1; exists s', r; split=> //; first exact: ok_trans o1 ok'.
    by rewrite /depthK eK eKe eA eLe eL /= => f1; apply: t; rewrite /depthK /= eK eKe eA /=; move: f1; rewrite ltnS.
  have [s1 [r1 [e1 o1 p1 t1]]] := IH false s c.
  rewrite -/compute e1 /=; case: r1 e1 p1 t1 => [[]|ex] e1 p1 t1; last first.
    exists s1, (inr ex); split=> //.
    rewrite /depthK eK eKe eA eLe eL /= => f1; suff : inr ex = inl tt :> unit + exn by [].
    have nc : ~~ is_correlation s.
      by apply/negP => cc; have := co_corr c cc; rewrite eK eKe eA.
    apply: t1; split; first by rewrite (negbTE nc) orbT.
      exact: like_L (co_like c nc).
    by have := co_like c nc; rewrite /depthL eL eLe /= => ->; move: (f) f1 => [|?].
  have [c1 _] := o1; have [L1 eL1 lK1] := p1 erefl.
  have [s' [r [e ok' p t]]] := IH true _ c1; exists s', r; split=> //; first exact: ok_trans o1 ok'.
  rewrite /depthK eK eKe eA eLe eL /= => f1; apply: t.
  by rewrite /depthK eL1; move: (f) f1 => [|[|[|?]]] // _; do 3!case: ifP => // _.
(* compute_L *)
rewrite /= /mbind /=; case eL: (L_ s) => [M|].
  exists s, (inl tt); split=> //; [exact: ok_refl|by exists M; rewrite ?eL; [|exact: co_L eL]].
case cp: (is_correlation s && projection s).
  by exists s, (inr ValueError); split=> //=; [exact: ok_refl|case].
have eA := coh_noA c cp.
case eLe: (L_eig_vals s) => [gam|].
  have [vs [L [ev sd lK]]] := co_L_eig c eLe; rewrite ev /=.
  have -> : recompose gam vs = L by have [sz _ ->] := sd.
  by exists (set_L L s), (inl tt); split=> //; [exact: ok_set_L|exists L].
case eG: (L_gram_factor s) => [F|].
  have [lK _] := co_gram c eG.
  exists (set_L ((tagged F)^T *m tagged F) s), (inl tt); split=> //; first exact: ok_set_L.
  by exists ((tagged F)^T *m tagged F).
case eV: (eval_L s) => [L|].
  have lK := co_eval c eV.
  by exists (set_L L s), (inl tt); split=> //; [exact: ok_set_L|exists L].
case eKe: (K_eig_vals s) => [lam|].
  have [vs ev sd] := co_K_eig c eKe.
  rewrite /to_L_eig; case hl: (has _ _).
    exists s, (inr FloatingPointError); split=> //; first exact: ok_refl.
    by case=> _ [L lK] _; rewrite (no_one lK sd) in hl.
  rewrite /=; have o1 := ok_set_L_eig c eA eLe eKe (negbT hl); have [c1 _] := o1.
  have [s' [r [e ok' p t]]] := IH false _ c1; exists s', r; split=> //; first exact: ok_trans o1 ok'.
  rewrite /depthL eL eLe eG eV eKe /= => -[_ ex f1]; apply: t; split=> //.
    by rewrite -[is_correlation _ && _]/(is_correlation s && projection s) cp orbT.
  by rewrite /depthL /= orbT.
case eK: (K_ s) => [M|].
  have MK := co_K c eK; rewrite MK in eK *; clear MK M.
  have sd := eigh_K (co_dpp c); rewrite check_in01 ?(sd_dpp sd (co_dpp c)) //=.
  have o1 := ok_K_decomp c eKe eLe sd; have [c1 _] := o1.
  have [s' [r [e ok' p t]]] := IH false _ c1; exists s', r; split=> //; first exact: ok_trans o1 ok'.
  rewrite /depthL eL eLe eG eV eKe /= => -[_ ex f1]; apply: t; split=> //.
    by rewrite -[is_correlation _ && _]/(is_correlation s && projection s) cp orbT.
  by rewrite /depthL /= eL eLe eG eV.
have [s1 [r1 [e1 o1 p1 t1]]] := IH true s c.
case cc: (is_correlation s).
  by have := co_corr c cc; rewrite eK eKe eA.
by have := co_like c (negbT cc); rewrite eL eLe eG eV.
Qed.

End Compute.

Section Histories.
Variables (R : rcfType) (N : nat) (vrest arest vparams : Type).
Notation dpp := (dpp R N vrest arest).
Notation item := 'I_N.
(** the intermediate samplers and the zonotope sampler are arbitrary *)
Variable vfx_pre : vparams -> option nat -> prog R (vfx_info R vrest).
Variable vfx_loop : vparams -> vfx_info R vrest -> prog R (seq item * nat).
Variable al_pre : vparams -> option nat -> prog R (alpha_info R arest).
Variable al_loop : vparams -> alpha_info R arest -> prog R (seq item * nat * alpha_info R arest).
Variable al_reset : R -> arest -> arest.
Variables (max_iter : vparams -> nat) (early : vparams -> bool).
Variable eigh : forall n : nat, 'M[R]_n -> seq R * seq 'cV[R]_n.
Variable qr : forall r : nat, 'M[R]_(N, r) -> 'M[R]_(N, r).
Variables (eps tol : R) (limit : nat).
Variable zono : {d : nat & 'M[R]_(d, N)} -> mcmc_params R N -> prog R (seq (seq nat)).
Hypothesis eighP : eigh_contract eigh.
Hypothesis qrP : qr_contract qr.
Variable K : 'M[R]_N.
Notation coherent := (@coherent R N vrest arest K).
Notation ok := (@ok R N vrest arest K).

Notation sample_exact := (@sample_exact R N vrest arest vparams vfx_pre vfx_loop al_pre al_loop eigh qr limit).
Notation sample_exact_rec := (@sample_exact_rec R N vrest arest vparams vfx_pre vfx_loop al_pre al_loop eigh qr limit).
Notation sample_exact_k_dpp_rec := (@sample_exact_k_dpp_rec R N vrest arest vparams vfx_pre vfx_loop al_pre al_loop al_reset max_iter early eigh qr eps limit).
Notation sample_exact_k_dpp := (@sample_exact_k_dpp R N vrest arest vparams vfx_pre vfx_loop al_pre al_loop al_reset max_iter early eigh qr eps limit).
Notation sample_mcmc := (@sample_mcmc R N vrest arest eigh qr tol limit zono).
Notation sample_mcmc_k_dpp := (@sample_mcmc_k_dpp R N vrest arest eigh qr tol limit zono).
Notation exec := (@exec R N vrest arest vparams vfx_pre vfx_loop al_pre al_loop al_reset max_iter early eigh qr eps tol limit zono).
Notation run := (@run R N vrest arest vparams vfx_pre vfx_loop al_pre al_loop al_reset max_iter early eigh qr eps tol limit zono).
Notation mwp := (@mwp R N vrest arest).

Lemma compute_mwp b f s0 s : ok s0 s -> mwp (@compute R N vrest arest eigh qr b f) s (fun s' _ => ok s0 s').
Proof.
move=> o; have [c _] := o; have [s' [r [e o' _ _]]] := compute_spec eighP qrP b f c.
by rewrite /Finite.mwp e; apply: holds_ret; exact: ok_trans o o'.
Qed.

Lemma record_ok x s0 s : ok s0 s -> mwp (@record_sample R N vrest arest x) s (fun s' _ => ok s0 s').
Proof. by move=> o; apply: holds_ret; apply: ok_trans (o) _; apply: ok_samples; case: o. Qed.

Lemma record_info_ok m s0 s : ok s0 s -> mwp (@record_info R N vrest arest m) s (fun s' _ => ok s0 s').
Proof.
move=> o; rewrite /record_info; mstep; mstep => //; mstep; mstep; apply: record_ok.
by apply: ok_trans (o) _; apply: ok_info; case: o.
Qed.

Lemma record_chain_ok c s0 s : ok s0 s -> mwp (@record_chain R N vrest arest c) s (fun s' _ => ok s0 s').
Proof. by move=> o; apply: holds_ret; apply: ok_trans (o) _; apply: ok_samples; case: o. Qed.

Lemma mwp_eq A (m : meth R N vrest arest A) s s' r (Q : dpp -> A + exn -> Prop) : m s = Ret (s', r) -> Q s' r -> mwp m s Q.
Proof. by rewrite /Finite.mwp => -> q; apply: holds_ret. Qed.

Lemma exact_ok f mode pr s0 s : ok s0 s -> mwp (sample_exact_rec f mode pr) s (fun s' _ => ok s0 s').
Proof.
elim: f s => [|f IH] s o /=; first by mstep.
mstep; mstep; mstep; mstep; rewrite -/sample_exact_rec.
have {o}[c fz] : ok s0 (set_mode mode s) by apply: ok_trans (o) _; apply: ok_mode; case: o.
move: (set_mode mode s) c fz => {}s c fz; have o : ok s0 s by [].
have use (s1 : dpp) : ok s s1 -> mwp (sample_exact_rec f mode pr) s1 (fun s' _ => ok s0 s').
  by move=> o1; apply: IH; exact: ok_trans o1.
have cmp b : mwp (@compute R N vrest arest eigh qr b limit) s (fun s' _ => ok s0 s').
  exact: compute_mwp.
mstep.
  mstep; last by mstep.
  by mstep; apply: mwp_imp (cmp true) => s1 [u|e] o1 //; repeat mstep => //; exact: record_ok.
mstep.
  by mstep; apply: mwp_imp (cmp true) => s1 [u|e] o1 //; repeat mstep => //; exact: record_ok.
mstep; first by mstep; [exact: record_info_ok|mstep].
mstep; first by mstep; [exact: record_info_ok|mstep].
case eKe: (K_eig_vals s) => [lam|]; first by repeat mstep => //; exact: record_ok.
case eLe: (L_eig_vals s) => [gam|].
  by mstep; mstep; apply: use; exact: ok_set_K_eig.
case eD: (if has_dual s then L_gram_factor s else None) => [Phi|].
  move: eD; rewrite /has_dual; case eG: (L_gram_factor s) => [F|] //; case: ifP => // dN [ePhi].
  move: Phi ePhi => _ <-.
  have [lK] := co_gram c eG; rewrite dN => rf.
  have [szW sd] := eighP (n := tag F) (M := tagged F *m (tagged F)^T) (etrans (trmx_mul _ _) (congr1 (fun X => X *m _) (trmxK _))).
  have [t0 sd'] := dual_sd rf szW sd.
  have t0' : all (fun g => 0 <= g) (eigh (tagged F *m (tagged F)^T)).1 by apply: sub_all t0 => x; exact: ltW.
  mstep; mstep; mstep; apply: mwp_eq (check_geq0 _ t0') _; mstep; mstep; mstep; mstep.
  have -> : [seq Order.max g 0 | g <- (eigh (tagged F *m (tagged F)^T)).1] = (eigh (tagged F *m (tagged F)^T)).1.
    by rewrite -[RHS]map_id; apply/eq_in_map => g /(allP t0') g0; rewrite max_l.
  apply: use; apply: ok_L_decomp lK sd' => //.
  by case eA: (A_zono s) => [A|] //; have [_ _ _ []] := co_A c eA; rewrite eG.
case eP: (if projection s then K_ s else None) => [M|]; first by repeat mstep => //; exact: record_ok.
case eK: (K_ s) => [M|].
  have MK := co_K c eK; rewrite MK in eK *; clear MK M eP.
  have sd := eigh_K eighP (co_dpp c).
  mstep; mstep; mstep; apply: mwp_eq (check_in01 _ (sd_dpp sd (co_dpp c))) _; apply: use.
  exact: ok_K_decomp.
case eL: (L_ s) => [L|].
  have lK := co_L c eL; have [sd g0] := eigh_L eighP lK.
  mstep; mstep; mstep; apply: mwp_eq (check_geq0 _ g0) _; apply: use; apply: ok_L_decomp lK sd => //.
  by case eA: (A_zono s) => [A|] //; have [_ _ _ []] := co_A c eA; rewrite eL.
case eA: (A_zono s) => [A|].
  have [cp rf KE [l0 le0 _ _]] := co_A c eA.
  have sd := sd_qr qrP rf; rewrite -KE in sd.
  by mstep; mstep; apply: use; exact: ok_K_decomp.
case eV: (eval_L s) => [L|]; last by mstep.
mstep; apply: mwp_imp (cmp false) => s1 [u|e] o1 //; exact: IH.
Qed.

Lemma k_dpp_ok f k mode pr s0 s : ok s0 s -> mwp (sample_exact_k_dpp_rec f k mode pr) s (fun s' _ => ok s0 s').
Proof.
elim: f s => [|f IH] s o /=; first by mstep.
mstep; mstep; mstep; mstep; rewrite -/sample_exact_k_dpp_rec.
have {o}[c fz] : ok s0 (set_size k (set_mode mode s)).
  have o1 : ok s0 (set_mode mode s) by apply: ok_trans (o) _; apply: ok_mode; case: o.
  by apply: ok_trans (o1) _; apply: ok_size; case: o1.
move: (set_size _ _) c fz => {}s c fz; have o : ok s0 s by [].
have use (s1 : dpp) : ok s s1 -> mwp (sample_exact_k_dpp_rec f k mode pr) s1 (fun s' _ => ok s0 s').
  by move=> o1; apply: IH; exact: ok_trans o1.
have cmp b : mwp (@compute R N vrest arest eigh qr b limit) s (fun s' _ => ok s0 s').
  exact: compute_mwp.
have noA : L_ s || L_gram_factor s -> A_zono s = None.
  by case eA: (A_zono s) => [A|] //; have [_ _ _ [-> _ -> _]] := co_A c eA.
mstep; first by mstep; [exact: record_info_ok|mstep].
mstep; first by mstep; [exact: record_info_ok|mstep].
case ep: (projection s).
  case ec: (is_correlation s).
    case eKe: (K_eig_vals s) => [lam|]; first by repeat mstep => //; exact: record_ok.
    case eA: (A_zono s) => [A|]; last by repeat mstep => //; exact: record_ok.
    mstep; first by mstep.
    have [cp rf KE [l0 le0 _ _]] := co_A c eA.
    have sd := sd_qr qrP rf; rewrite -KE in sd.
    have o1 := ok_K_decomp c eKe le0 sd.
    mstep; mstep; mstep; mstep; last by exact: ok_trans o1.
    by apply: record_ok; exact: ok_trans o1.
  case eLe: (L_eig_vals s) => [gam|]; first by repeat mstep => //; exact: record_ok.
  by mstep; apply: mwp_imp (cmp false) => s1 [u|e] o1 //; repeat mstep => //; exact: record_ok.
case eLe: (L_eig_vals s) => [gam|].
  mstep.
  apply: (@mwp_imp _ _ _ _ _ _ _ (fun s' (r : unit + exn) => ok s0 s' /\ r = inl tt)).
    move=> s1 r [o1 ->]; mstep; mstep; mstep; mstep => //; mstep; mstep => //; mstep; mstep; mstep; mstep.
      by apply: record_ok; apply: ok_trans (o1) _; apply: ok_size; case: o1.
    by apply: ok_trans (o1) _; apply: ok_size; case: o1.
  mstep; last by mstep.
  by mstep; split=> //; apply: ok_trans (o) _; exact: ok_E_poly.
case eKe: (K_eig_vals s) => [lam|].
  mstep; mstep; mstep; first by mstep.
  mstep; mstep; mstep; apply: use; apply: ok_set_L_eig; rewrite ?eb1 //.
  by apply: coh_noA c _; rewrite ep andbF.
case eD: (if has_dual s then L_gram_factor s else None) => [Phi|].
  move: eD; rewrite /has_dual; case eG: (L_gram_factor s) => [F|] //; case: ifP => // dN [ePhi].
  move: Phi ePhi => _ <-.
  have [lK] := co_gram c eG; rewrite dN => rf.
  have [szW sd] := eighP (n := tag F) (M := tagged F *m (tagged F)^T) (etrans (trmx_mul _ _) (congr1 (fun X => X *m _) (trmxK _))).
  have [t0 sd'] := dual_sd rf szW sd.
  have t0' : all (fun g => 0 <= g) (eigh (tagged F *m (tagged F)^T)).1 by apply: sub_all t0 => x; exact: ltW.
  mstep; mstep; mstep; apply: mwp_eq (check_geq0 _ t0') _; mstep; mstep.
  by apply: use; apply: ok_L_decomp lK sd' => //; apply: noA; rewrite eG orbT.
case eL: (L_ s) => [L|].
  have lK := co_L c eL; have [sd g0] := eigh_L eighP lK.
  mstep; mstep; mstep; apply: mwp_eq (check_geq0 _ g0) _; apply: use; apply: ok_L_decomp lK sd => //.
  by apply: noA; rewrite eL.
case eK: (K_ s) => [M|].
  have MK := co_K c eK; rewrite MK in eK *; clear MK M.
  have sd := eigh_K eighP (co_dpp c).
  mstep; mstep; mstep; apply: mwp_eq (check_in01 _ (sd_dpp sd (co_dpp c))) _; apply: use.
  exact: ok_K_decomp.
case eV: (eval_L s) => [L|]; last by mstep.
mstep; apply: mwp_imp (cmp false) => s1 [u|e] o1 //; exact: IH.
Qed.

Lemma mcmc_ok mode p s0 s : ok s0 s -> mwp (sample_mcmc mode p) s (fun s' _ => ok s0 s').
Proof.
move=> o; rewrite /FiniteModel.sample_mcmc; mstep; mstep; mstep; mstep.
have {}o : ok s0 (set_mode mode s) by apply: ok_trans (o) _; apply: ok_mode; case: o.
have cmp b : mwp (@compute R N vrest arest eigh qr b limit) (set_mode mode s) (fun s' _ => ok s0 s').
  exact: compute_mwp.
mstep; first by repeat mstep => //; exact: record_chain_ok.
mstep.
  mstep; mstep; apply: mwp_imp (cmp _) => s1 [u|e] o1 //; repeat mstep => //; exact: record_chain_ok.
mstep; last by mstep.
mstep; apply: mwp_imp (cmp _) => s1 [u|e] o1 //; repeat mstep => //; exact: record_chain_ok.
Qed.

Lemma exec_ok c s0 s : ok s0 s -> mwp (exec c) s (fun s' _ => ok s0 s').
Proof.
move=> o; case: c => [mode pr|k mode pr|mode p|k p||*|*] /=; mstep.
- by apply: mwp_imp (@exact_ok limit mode pr _ _ o) => s1 [u|e] o1 //; mstep.
- by apply: mwp_imp (@k_dpp_ok limit k mode pr _ _ o) => s1 [u|e] o1 //; mstep.
- by apply: mwp_imp (@mcmc_ok mode p _ _ o) => s1 [u|e] o1 //; mstep.
- rewrite /FiniteModel.sample_mcmc_k_dpp; mstep; mstep.
  have o1 : ok s0 (set_mode "E" s) by apply: ok_trans (o) _; apply: ok_mode; case: o.
  have o2 : ok s0 (set_size k (set_mode "E" s)) by apply: ok_trans (o1) _; apply: ok_size; case: o1.
  by apply: mwp_imp (@mcmc_ok "E" _ _ _ o2) => s1 [u|e] o3 //; mstep.
- rewrite /flush_samples; mstep; mstep.
  have o1 : ok s0 (set_samples [::] s) by apply: ok_trans (o) _; apply: ok_samples; case: o.
  by apply: ok_trans (o1) _; apply: ok_size; case: o1.
- by apply: mwp_imp (@compute_mwp _ limit _ _ o) => s1 [u|e] o1 //; mstep.
- by apply: mwp_imp (@compute_mwp _ limit _ _ o) => s1 [u|e] o1 //; mstep.
Qed.

(** C21: after any history of calls (whatever they returned or raised), every attribute of the object still describes the
    same DPP, and an attribute that was set keeps its value. *)
Theorem C21_history cs s s' rs : coherent s -> possible (run cs s) (inl (s', rs)) -> coherent s' /\ frozen s s'.
Proof.
move=> c; suff h : forall s1, ok s s1 -> possible (run cs s1) (inl (s', rs)) -> ok s s' by apply: h; exact: ok_refl.
elim: cs rs => [|c1 cs IH] rs s1 o /=; first by case=> -> _.
move=> p; have [[s2 r2] p2 /= p3] := Spectral.bind_possible p.
have o2 : ok s s2 by exact: (@possible_mwp _ _ _ _ _ _ _ (fun s' _ => ok s s') s2 r2 (@exec_ok c1 _ _ o) p2).
by have [[s3 rs3] p4 [es _]] := Spectral.bind_possible p3; apply: (IH rs3 s2 o2); rewrite es.
Qed.
End Histories.
