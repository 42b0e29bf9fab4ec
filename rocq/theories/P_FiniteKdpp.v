(** * P_FiniteKdpp: property C22 (k-DPP calls with changing sizes on one FiniteDPP object). *)
From Coq Require Import String.
From mathcomp Require Import all_ssreflect all_algebra.
From mathcomp.algebra_tactics Require Import ring.
From Verif Require Import Prob Minor Chain ChainCons UtilsModel ExactModel ProjGS ProjKuTa ProjAll GenKernel Spectral LEnsemble QRex P_Proj P_Gen P_Spectral Kdpp P_Kdpp McmcModel P_Mcmc FiniteModel Finite SpecLemmas P_FiniteHist P_FiniteCoh P_FiniteLaw EighEx.
Set Implicit Arguments. Unset Strict Implicit. Unset Printing Implicit Defensive.
Import Order.Theory GRing.Theory Num.Theory.
Local Open Scope ring_scope.

Lemma E_catch0 (R : rcfType) A (m : prog R A) f : (forall e, f (inr e) = 0) -> E (catch m) f = E m (fun a => f (inl a)).
Proof.
move=> h; rewrite E_catch -[RHS]addr0; congr (_ + _).
by rewrite -[RHS](E_zero (catch m)); apply: eq_E => -[a|e].
Qed.

Lemma E_lift (R : rcfType) (N : nat) (vrest arest : Type) A B (m : prog R A) (s : dpp R N vrest arest)
    (g : dpp R N vrest arest * (A + exn) -> prog R B) f :
  (forall e, E (g (s, inr e)) f = 0) -> E (bind (lift m s) g) f = E m (fun a => E (g (s, inl a)) f).
Proof.
move=> h; rewrite /lift !E_bind; transitivity (E (catch m) (fun r => E (g (s, r)) f)); first exact: eq_E.
exact: E_catch0.
Qed.

Section Kdpp.
Variables (R : rcfType) (N : nat) (vrest arest vparams : Type).
Notation dpp := (dpp R N vrest arest).
Notation item := 'I_N.
Variable vfx_pre : vparams -> option nat -> prog R (vfx_info R vrest).
Variable vfx_loop : vparams -> vfx_info R vrest -> prog R (seq item * nat).
Variable al_pre : vparams -> option nat -> prog R (alpha_info R arest).
Variable al_loop : vparams -> alpha_info R arest -> prog R (seq item * nat * alpha_info R arest).
Variable al_reset : R -> arest -> arest.
Variables (max_iter : vparams -> nat) (early : vparams -> bool).
Variable eigh : forall n : nat, 'M[R]_n -> seq R * seq 'cV[R]_n.
Variable qr : forall r : nat, 'M[R]_(N, r) -> 'M[R]_(N, r).
Variables (eps tol : R) (limit : nat).
Variable zono : {d : nat & 'M[R]_(d, N)} -> mcmc_params R N -> prog R (seq (seq nat)).
Hypothesis eighP : eigh_contract eigh.
Hypothesis qrP : qr_contract qr.
Hypothesis limit_ok : (10 <= limit)%N.
Hypothesis eps0 : 0 <= eps.

Notation sample_exact_rec := (@sample_exact_rec R N vrest arest vparams vfx_pre vfx_loop al_pre al_loop eigh qr limit).
Notation sample_mcmc := (@sample_mcmc R N vrest arest eigh qr tol limit zono).
Notation kdpp_rec := (@sample_exact_k_dpp_rec R N vrest arest vparams vfx_pre vfx_loop al_pre al_loop al_reset max_iter early eigh qr eps limit).
Notation sample_exact_k_dpp := (@sample_exact_k_dpp R N vrest arest vparams vfx_pre vfx_loop al_pre al_loop al_reset max_iter early eigh qr eps limit).
Notation exec := (@exec R N vrest arest vparams vfx_pre vfx_loop al_pre al_loop al_reset max_iter early eigh qr eps tol limit zono).
Notation run := (@run R N vrest arest vparams vfx_pre vfx_loop al_pre al_loop al_reset max_iter early eigh qr eps tol limit zono).

Variables (K L : 'M[R]_N).
Hypothesis lK : is_L_of K L.
Notation coherent := (@coherent R N vrest arest K).
Variables (k : nat) (mode : string) (pr : vparams).
Hypothesis md : eig_mode mode.

Definition kfair f (s : dpp) : Prop := exists gam vs T,
  [/\ spectral_decomposition L gam vs,
      match T with None => True | Some T => exists2 s, (k <= s)%N & T = elementary_symmetric_polynomials gam s end &
      forall Q, Pr_returns (kdpp_rec f k mode pr s) Q = Pr (k_dpp_sampler_eig qr eps gam vs k T mode) (fun X => Q [seq val i | i <- X])].

(** the cached table, if any, has at least k+1 rows *)
Definition table_ok (s : dpp) : Prop := forall T, E_poly s = Some T -> (k < size T)%N.

Lemma mode_skip : String.eqb mode "vfx" = false /\ String.eqb mode "alpha" = false.
Proof. by case: md => [->|[->|->]]. Qed.

Lemma kfair_L_eig f s : coherent s -> projection s = false -> table_ok s -> L_eig_vals s -> kfair f.+1 s.
Proof.
move=> c np tk; case e: (L_eig_vals s) => [gam|] // _; have [e1 e2] := mode_skip.
have [vs [L' [ev sd lK']]] := co_L_eig c e; rewrite -(is_L_of_unique lK lK') in sd.
exists gam, vs, (Some (if E_poly s is Some T then T else elementary_symmetric_polynomials gam k)); split=> //.
  case eT: (E_poly s) => [T|]; last by exists k.
  have [g [eg [k' TE]]] := co_E c eT; exists k'; last by move: eg; rewrite e => -[->].
  by have := tk _ eT; rewrite TE (proj1 (C09_table_shape _ _)) ltnS.
move=> Q; rewrite /Pr_returns /= /mbind /= e1 e2 /= np e /=.
have -> : (if E_poly s is Some _ then (k < k)%N else true) = ~~ (E_poly s) by rewrite ltnn; case: (E_poly s).
have tail T (s1 : dpp) : E (bind (lift (k_dpp_eig_vecs_selector eps N gam k (Some T)) s1) (fun sr => match sr.2 with
     | inl ind => bind (lift (ints (proj_dpp_sampler_eig qr (colmx [seq nth 0 vs i | i <- ind]) mode None)) (set_size k sr.1))
         (fun sr0 => match sr0.2 with inl a => @record_sample R N vrest arest a sr0.1 | inr e0 => Ret (sr0.1, inr e0) end)
     | inr e0 => Ret (sr.1, inr e0) end)) (fun sr => if sr.2 is inl X then (Q X)%:R else 0) =
   Pr (k_dpp_sampler_eig qr eps gam vs k (Some T) mode) (fun X => Q [seq val i | i <- X]).
  rewrite E_lift // /Pr /k_dpp_sampler_eig E_bind; apply: eq_E => ind.
  by rewrite [LHS]E_lift // /ints E_bind; apply: eq_E => X.
by case eT: (E_poly s) => [T|] /=; rewrite ?eT ev /=; exact: tail.
Qed.

Lemma kfair_step f s s' : kdpp_rec f.+1 k mode pr s = kdpp_rec f k mode pr s' -> kfair f s' -> kfair f.+1 s.
Proof. by rewrite /kfair => ->. Qed.

Lemma ok_start s : coherent s -> coherent (set_size k (set_mode mode s)).
Proof. by move=> c; have [c1 _] := ok_mode mode c; have [] := ok_size k c1. Qed.

Lemma kfair_K_eig f s : coherent s -> projection s = false -> table_ok s -> K_eig_vals s -> kfair f.+2 s.
Proof.
move=> c np tk; case eL: (L_eig_vals s) => [gam|]; first by move=> _; apply: kfair_L_eig; rewrite ?eL.
case e: (K_eig_vals s) => [lam|] // _; have [e1 e2] := mode_skip.
have [vs ev sd] := co_K_eig c e; have hl := no_one lK sd.
apply: (@kfair_step _ _ (set_L_eig_vals [seq l / (1 - l) | l <- lam] (set_size k (set_mode mode s)))).
  by move: f.+1 => g; rewrite /= /mbind /= e1 e2 /= np eL e /= /to_L_eig hl.
apply: kfair_L_eig => //.
have c1 := ok_start c; have eA : A_zono s = None by apply: coh_noA c _; rewrite np andbF.
by have [] := @ok_set_L_eig _ _ _ _ _ (set_size k (set_mode mode s)) lam c1 eA eL e (negbT hl).
Qed.

Lemma kfair_dual f s F : coherent s -> projection s = false -> table_ok s -> K_eig_vals s = None -> L_eig_vals s = None ->
  L_gram_factor s = Some F -> (tag F < N)%N -> kfair f.+2 s.
Proof.
move=> c np tk eK eL eG dN; have [e1 e2] := mode_skip.
have [lKF] := co_gram c eG; rewrite dN => rf.
have [szW sd] := eighP (n := tag F) (M := tagged F *m (tagged F)^T) (etrans (trmx_mul _ _) (congr1 (fun X => X *m _) (trmxK _))).
have [t0 sd'] := dual_sd rf szW sd.
have t0' : all (fun g => 0 <= g) (eigh (tagged F *m (tagged F)^T)).1 by apply: sub_all t0 => x; exact: ltW.
apply: (@kfair_step _ _ (set_L_eig_vals (eigh (tagged F *m (tagged F)^T)).1 (set_eig_vecs (dual_vecs (eigh (tagged F *m (tagged F)^T)).1 (eigh (tagged F *m (tagged F)^T)).2) (set_size k (set_mode mode s))))).
  by move: f.+1 => g; rewrite /= /mbind /= e1 e2 /= np eL eK /= /has_dual /= eG dN check_geq0.
apply: kfair_L_eig => //; have c1 := ok_start c.
have noA : A_zono s = None by case eA: (A_zono s) => [A|] //; have [_ _ _ []] := co_A c eA; rewrite eG.
by have [] := @ok_L_decomp _ _ _ _ _ (set_size k (set_mode mode s)) _ _ _ c1 noA eK eL lKF sd'.
Qed.

Lemma kfair_L f s : coherent s -> projection s = false -> table_ok s -> L_ s -> kfair f.+2 s.
Proof.
move=> c np tk; case eL: (L_ s) => [M|] // _; have [e1 e2] := mode_skip.
case eLe: (L_eig_vals s) => [gam|]; first by apply: kfair_L_eig; rewrite ?eLe.
case eKe: (K_eig_vals s) => [lam|]; first by apply: kfair_K_eig; rewrite ?eKe.
case hd: (has_dual s).
  by move: hd; rewrite /has_dual; case eG: (L_gram_factor s) => [F|] // dN; apply: kfair_dual dN.
have lM := co_L c eL; have [sd g0] := eigh_L eighP lM.
apply: (@kfair_step _ _ (set_L_eig_vals (eigh M).1 (set_eig_vecs (eigh M).2 (set_size k (set_mode mode s))))).
  move: f.+1 => g; rewrite /= /mbind /= e1 e2 /= np eLe eKe /= -[has_dual _]/(has_dual s) hd /= eL; by rewrite check_geq0.
apply: kfair_L_eig => //; have c1 := ok_start c.
have noA : A_zono s = None by case eA: (A_zono s) => [A|] //; have [_ _ _ []] := co_A c eA; rewrite eL.
by have [] := @ok_L_decomp _ _ _ _ _ (set_size k (set_mode mode s)) _ _ _ c1 noA eKe eLe lM sd.
Qed.

Lemma compute_E b f s : mwp (@compute R N vrest arest eigh qr b f) s (fun s' _ => E_poly s' = E_poly s).
Proof.
elim: f b s => [|f IH] b s /=; first by mstep.
have use b' (s1 : dpp) : E_poly s1 = E_poly s ->
    mwp (compute eigh qr b' f) s1 (fun s' _ => E_poly s' = E_poly s).
  by move=> <-; exact: IH.
case: b; repeat ((apply: use => //) || (apply: mwp_imp (use _ _ _) => // s' [a|e] //= es) || (mstep => //=)).
Qed.

Lemma compute_P b f s : mwp (@compute R N vrest arest eigh qr b f) s (fun s' _ => (E_poly s', projection s') = (E_poly s, projection s)).
Proof.
elim: f b s => [|f IH] b s /=; first by mstep.
have use b' (s1 : dpp) : (E_poly s1, projection s1) = (E_poly s, projection s) ->
    mwp (compute eigh qr b' f) s1 (fun s' _ => (E_poly s', projection s') = (E_poly s, projection s)).
  by move=> <-; exact: IH.
case: b; repeat ((apply: use => //) || (apply: mwp_imp (use _ _ _) => // s' [a|e] //= es) || (mstep => //=)).
Qed.

Lemma exec_E c s : (if c is SampleExactKdpp k' _ _ then k <= k' else true)%N -> table_ok s -> mwp (exec c) s (fun s' _ => table_ok s').
Proof.
have cmp b (s1 s2 : dpp) : E_poly s1 = E_poly s2 ->
   mwp (compute eigh qr b limit) s1 (fun s' _ => E_poly s' = E_poly s2).
  by move=> <-; exact: compute_E.
have tE (s1 s2 : dpp) : E_poly s2 = E_poly s1 -> table_ok s1 -> table_ok s2 by rewrite /table_ok => ->.
have cmpt b (s1 : dpp) : table_ok s1 -> mwp (compute eigh qr b limit) s1 (fun s' _ => table_ok s').
  by move=> t1; apply: mwp_imp (cmp _ _ s1 _) => // s' r es; exact: tE t1.
have ex f mode' pr' (s1 : dpp) : table_ok s1 -> mwp (sample_exact_rec f mode' pr') s1 (fun s' _ => table_ok s').
  elim: f s1 => [|f IH] s1 t1 /=; first by mstep.
  repeat ((apply: IH => //) || (apply: mwp_imp (cmpt _ _ _) => // ? [?|?] ? //) || rewrite /record_info /record_sample || (mstep => //=) || by apply: holds_ret).
have mc mode' p (s1 : dpp) : table_ok s1 -> mwp (sample_mcmc mode' p) s1 (fun s' _ => table_ok s').
  move=> t1; rewrite /sample_mcmc.
  repeat ((apply: mwp_imp (cmpt _ _ _) => // ? [?|?] ? //) || (mstep => //=) || by apply: holds_ret).
case: c => [mode' pr'|k' mode' pr'|mode' p|k' p| | |] /= kk tk; apply: mwp_bind.
- by apply: mwp_imp (ex _ _ _ _ _) => // s' [x|e] es //; apply: mwp_ret.
- have kd f (s1 : dpp) : table_ok s1 -> mwp (kdpp_rec f k' mode' pr') s1 (fun s' _ => table_ok s').
    elim: f s1 => [|f IH] s1 t1 /=; first by mstep.
    have new (s2 : dpp) gam : E_poly s2 = Some (elementary_symmetric_polynomials gam k') -> table_ok s2.
      by move=> e T; rewrite e => -[<-]; rewrite (proj1 (C09_table_shape _ _)) ltnS.
    repeat ((apply: IH => //) || (apply: holds_ret; by apply: new) || (by apply: new) || (apply: mwp_imp (cmpt _ _ _) => // ? [?|?] ? //) || rewrite /record_info /record_sample || (mstep => //=) || by apply: holds_ret).
  by apply: mwp_imp (kd _ _ _) => // s' [x|e] es //; apply: mwp_ret.
- by apply: mwp_imp (mc _ _ _ _) => // s' [x|e] es //; apply: mwp_ret.
- apply: mwp_bind; apply: mwp_modify.
  by apply: mwp_imp (mc _ _ _ _) => // s' [x|e] es //; apply: mwp_ret.
- by apply: mwp_modify; apply: mwp_ret.
- by apply: mwp_imp (cmpt _ _ _) => // s' [x|e] es //; apply: mwp_ret.
- by apply: mwp_imp (cmpt _ _ _) => // s' [x|e] es //; apply: mwp_ret.
Qed.

Lemma kfair_all f s : coherent s -> projection s = false -> table_ok s -> kfair f.+3 s.
Proof.
move=> c np tk; have [e1 e2] := mode_skip; have c1 := ok_start c.
case eLe: (L_eig_vals s) => [gam|]; first by apply: kfair_L_eig; rewrite ?eLe.
case eKe: (K_eig_vals s) => [lam|]; first by apply: kfair_K_eig; rewrite ?eKe.
case hd: (has_dual s).
  by move: hd; rewrite /has_dual; case eG: (L_gram_factor s) => [F|] // dN; apply: kfair_dual dN.
case eL: (L_ s) => [M|]; first by apply: kfair_L; rewrite ?eL.
case eK: (K_ s) => [M|].
  have MK := co_K c eK; rewrite MK in eK; clear MK M.
  have sd := eigh_K eighP (co_dpp c).
  apply: (@kfair_step _ _ (set_K_eig_vals (eigh K).1 (set_eig_vecs (eigh K).2 (set_size k (set_mode mode s))))).
    move: f.+2 => g; rewrite /= /mbind /= e1 e2 /= np eLe eKe /= -[has_dual _]/(has_dual s) hd /= eL eK.
    by rewrite check_in01 ?(sd_dpp sd (co_dpp c)).
  apply: kfair_K_eig => //.
  by have [] := @ok_K_decomp _ _ _ _ _ (set_size k (set_mode mode s)) _ _ c1 eKe eLe sd.
have eA : A_zono s = None by apply: coh_noA c _; rewrite np andbF.
have nc : ~~ is_correlation s by apply/negP => cc; have := co_corr c cc; rewrite eK eKe eA.
have eV : eval_L s.
  have := co_like c nc; rewrite eL eLe; case eG: (L_gram_factor s) => [F|] //=.
  by have [_] := co_gram c eG; move: hd; rewrite /has_dual eG => ->; rewrite eL.
have [s1 [L1 [ec c2 [fz fz2] eL1 _]]] : exists s' L, [/\ compute_L eigh qr limit (set_size k (set_mode mode s)) = Ret (s', inl tt),
     coherent s', frozen (set_size k (set_mode mode s)) s', L_ s' = Some L & is_L_of K L].
  apply: (C21_compute_L eighP qrP limit_ok c1); last by exists L.
  by rewrite -[is_correlation _ && _]/(is_correlation s && projection s) (negbTE nc) orbT.
apply: (@kfair_step _ _ s1).
  move: f.+2 => g; rewrite /= /mbind /= e1 e2 /= np eLe eKe /= -[has_dual _]/(has_dual s) hd /= eL eK.
  by case eV' : (eval_L s) eV => [M|] // _; rewrite ec.
apply: kfair_L => //; last by rewrite eL1.
  by have [_ [-> _]] := fz.
have eE := @possible_mwp _ _ _ _ _ _ _ (fun s' _ => E_poly s' = E_poly (set_size k (set_mode mode s))) s1 (inl tt)
    (@compute_E false limit _).
have MK : E_poly s1 = E_poly s by rewrite eE // [compute _ _ _ _ _]ec.
by move=> T; rewrite MK; exact: tk.
Qed.

Lemma kfair_sample s : coherent s -> projection s = false -> table_ok s -> kfair limit s.
Proof. by move=> c np tk; case: limit limit_ok => [|[|[|f]]] // _; exact: kfair_all. Qed.

Hypothesis k0 : (0 < k)%N.
(** the size does not exceed the numerical rank of L (the check of k_dpp_eig_vecs_selector) *)
Hypothesis kr : forall gam vs, spectral_decomposition L gam vs -> (k <= numerical_rank eps N gam)%N.

Lemma gam_ge0 gam vs : spectral_decomposition L gam vs -> all (fun g => 0 <= g) gam.
Proof. by case: lK => pL _ sd; exact: sd_psd sd pL. Qed.

Theorem C22_never_fails_partial s : coherent s -> projection s = false -> table_ok s ->
  Pr_returns (sample_exact_k_dpp k mode pr s) (fun _ => true) = 1.
Proof.
move=> c np tk; have [gam [vs [T [sd tT ->]]]] := kfair_sample c np tk.
exact: (proj1 (C11_never_fails qrP sd (gam_ge0 sd) md eps0 k0 (kr sd) tT)).
Qed.

Theorem C22_law_partial s (S : {set item}) : coherent s -> projection s = false -> table_ok s ->
  Pr_returns (sample_exact_k_dpp k mode pr s) (fun X => set_of N X == S) =
  if #|S| == k then pmS L S / \sum_(A : {set item} | #|A| == k) pmS L A else 0.
Proof.
move=> c np tk; have [gam [vs [T [sd tT ->]]]] := kfair_sample c np tk.
rewrite -(C11_normalisation qrP sd (gam_ge0 sd) md eps0 k0 (kr sd) tT).
rewrite -(C11_k_dpp_law qrP sd (gam_ge0 sd) md eps0 k0 (kr sd) tT S).
by apply: eq_E => X; rewrite set_of_val.
Qed.

(** ... after any history all of whose k-DPP calls had a size at least k *)
Definition sizes_geq (cs : seq (call R N vparams)) : bool :=
  all (fun c => if c is SampleExactKdpp k' _ _ then k <= k' else true)%N cs.

Lemma table_history cs s0 s rs : E_poly s0 = None -> sizes_geq cs -> possible (run cs s0) (inl (s, rs)) -> table_ok s.
Proof.
move=> e0 ge; have : table_ok s0 by move=> T; rewrite e0.
elim: cs s0 rs ge {e0} => [|c cs IH] s0 rs /=; first by move=> _ tk [-> _].
move=> /andP[g1 g2] tk p; have [[s1 r1] p1 p2] := Spectral.bind_possible p.
have [[s2 r2] p3 [es _]] := Spectral.bind_possible p2; rewrite /= in p3 es; subst s2.
by apply: (IH s1 r2 g2 _ p3); exact: (@possible_mwp _ _ _ _ _ _ _ (fun s' _ => table_ok s') s1 r1 (@exec_E _ _ g1 tk) p1).
Qed.

Theorem C22_after_history_partial cs s0 s rs (S : {set item}) : coherent s0 -> projection s0 = false -> E_poly s0 = None ->
  sizes_geq cs -> possible (run cs s0) (inl (s, rs)) ->
  Pr_returns (sample_exact_k_dpp k mode pr s) (fun X => set_of N X == S) =
  if #|S| == k then pmS L S / \sum_(A : {set item} | #|A| == k) pmS L A else 0.
Proof.
move=> c np e0 ge p; have tk := table_history e0 ge p.
have [c' [[_ [fp _]] _]] := C21_history eighP qrP c p.
by apply: C22_law_partial; rewrite ?fp.
Qed.

(** ** The general claim fails: the table is never enlarged.  After a successful call of size k1 on a fresh object every call
    of a larger size k <= rank raises IndexError. *)
Lemma k_dpp_leaves f k1 pr1 s : projection s = false -> E_poly s = None ->
  mwp (kdpp_rec f k1 mode pr1) s (fun s' r => if r is inl _ then
    [/\ projection s' = false, L_eig_vals s' : bool & exists2 T, E_poly s' = Some T & size T = k1.+1] else True).
Proof.
have [e1 e2] := mode_skip; elim: f s => [|f IH] s np eE /=; first by mstep.
have cmp (s1 : dpp) : (E_poly s1, projection s1) = (None, false) ->
    mwp (compute eigh qr false limit) s1 (fun s' _ => (E_poly s', projection s') = (None, false)).
  move=> es; apply: mwp_imp (@compute_P _ _ _) => s' _ ->; exact: es.
rewrite e1 e2.
repeat ((apply: IH => //) || (apply: mwp_imp (cmp _ _) => //= [s' [a|ex] // [? ?]|]; last by rewrite np eE) || (mstep => //=)); rewrite ?np ?eE // in eb *.
  by apply: holds_ret; split=> //=; [rewrite eb0|eexists; [reflexivity|exact: (proj1 (C09_table_shape _ _))]].
by rewrite eE in eb1.
Qed.

Theorem C22_larger_size_refuted k1 pr1 s0 s1 X : coherent s0 -> projection s0 = false -> E_poly s0 = None -> (k1 < k)%N ->
  possible (sample_exact_k_dpp k1 mode pr1 s0) (inl (s1, inl X)) ->
  Pr_returns (sample_exact_k_dpp k mode pr s1) (fun _ => true) = 0 /\
  forall o, possible (sample_exact_k_dpp k mode pr s1) o -> exists s2, o = inl (s2, inr IndexError).
Proof.
move=> c np eE k1k p; have [e1 e2] := mode_skip.
have [np1 eL [T eT sT]] := @possible_mwp _ _ _ _ _ _ _ _ _ _ (@k_dpp_leaves limit k1 pr1 s0 np eE) p.
have c1 : coherent s1.
  by have [] := @possible_mwp _ _ _ _ _ _ _ (fun s' _ => ok K s0 s') s1 (inl X) (@k_dpp_ok _ _ _ _ _ _ _ _ _ _ _ _ _ _ _ _ eighP qrP _ _ _ _ _ _ _ (ok_refl c)) p.
case eLe: (L_eig_vals s1) eL => [gam|] // _.
have [vs [L' [ev sd lK']]] := co_L_eig c1 eLe; rewrite -(is_L_of_unique lK lK') in sd.
have -> : sample_exact_k_dpp k mode pr s1 = Ret (set_size k (set_mode mode s1), inr IndexError).
  rewrite /FiniteModel.sample_exact_k_dpp; case: limit limit_ok => // f _.
  rewrite /= /mbind /= e1 e2 /= np1 eLe /= eT ltnn /= eT ev /= /lift.
  have kk := kr sd; have gs := gam_ge0 sd; case: gam kk gs {eLe sd} => [|g gam] /= kk; first by move: kk k0; rewrite leqn0 => /eqP ->.
  move=> /andP[g0 gs0]; rewrite foldl_maxE // -/(numerical_rank eps N (g :: gam)).
  have nr : (numerical_rank eps N (g :: gam) < k)%N = false by rewrite ltnNge kk.
  by move: nr; rewrite /numerical_rank /= => ->; rewrite /= sT k1k.
by split=> [|o po]; [rewrite /Pr_returns|exists (set_size k (set_mode mode s1)); exact: po].
Qed.
End Kdpp.

(** ** Projection kernels: size restricted by the rank *)
Section Cols.
Variables (R : rcfType) (N : nat) (M : 'M[R]_N) (lam : seq R) (vs : seq 'cV[R]_N).
Hypothesis P : isproj M.
Hypothesis sd : spectral_decomposition M lam vs.
Let W := mask [seq 2%:R^-1 < l | l <- lam] vs.

Lemma cols_ortho : (colmx W)^T *m colmx W = 1%:M.
Proof. by case: sd => _ o _; exact: (ortho_sub (mask_subseq _ _) o). Qed.

Lemma cols_gram : colmx W *m (colmx W)^T = M.
Proof.
have l01 := sd_proj P sd; case: sd => sz o ->; rewrite -kernE // colmx_gram /W.
move: {o} sz l01; move: lam vs; elim=> [|l lam' IH] [|v vs'] //= ; first by rewrite big_nil.
have h0 : (2%:R^-1 < 0 :> R) = false by apply/negbTE; rewrite -leNgt invr_ge0 ler0n.
have h1 : (2%:R^-1 < 1 :> R) by rewrite invf_lt1 ?ltr0n // ltr1n.
move=> [sz] /andP[/orP[/eqP ->|/eqP ->] l01]; rewrite ?h0 ?h1 ?scale0r ?add0r ?scale1r; first exact: IH.
by rewrite big_cons IH.
Qed.

Lemma cols_size : size W = \rank M.
Proof.
apply/eqP; rewrite -(eqr_nat R) -proj_trace_rank // -cols_gram mxtrace_mulC cols_ortho.
by rewrite mxtrace1.
Qed.

Lemma eig_sum : \sum_(l <- lam) l = \tr M.
Proof.
case: sd => sz o ->; rewrite mxtrace_mulC mulmxA o mul1mx mxtrace_diag (big_nth 0) sz big_mkord.
by apply: eq_bigr => i _; rewrite mxE.
Qed.
End Cols.

Section Proj.
Variables (R : rcfType) (N : nat) (vrest arest vparams : Type).
Notation dpp := (dpp R N vrest arest).
Notation item := 'I_N.
Variable vfx_pre : vparams -> option nat -> prog R (vfx_info R vrest).
Variable vfx_loop : vparams -> vfx_info R vrest -> prog R (seq item * nat).
Variable al_pre : vparams -> option nat -> prog R (alpha_info R arest).
Variable al_loop : vparams -> alpha_info R arest -> prog R (seq item * nat * alpha_info R arest).
Variable al_reset : R -> arest -> arest.
Variables (max_iter : vparams -> nat) (early : vparams -> bool).
Variable eigh : forall n : nat, 'M[R]_n -> seq R * seq 'cV[R]_n.
Variable qr : forall r : nat, 'M[R]_(N, r) -> 'M[R]_(N, r).
Variables (eps tol : R) (limit : nat).
Variable zono : {d : nat & 'M[R]_(d, N)} -> mcmc_params R N -> prog R (seq (seq nat)).
Hypothesis eighP : eigh_contract eigh.
Hypothesis qrP : qr_contract qr.
Hypothesis limit_ok : (10 <= limit)%N.
Notation kdpp_rec := (@sample_exact_k_dpp_rec R N vrest arest vparams vfx_pre vfx_loop al_pre al_loop al_reset max_iter early eigh qr eps limit).
Notation sample_exact_k_dpp := (@sample_exact_k_dpp R N vrest arest vparams vfx_pre vfx_loop al_pre al_loop al_reset max_iter early eigh qr eps limit).
Variables (K : 'M[R]_N).
Notation coherent := (@coherent R N vrest arest K).
Variables (k : nat) (pr : vparams).
Hypothesis k0 : (0 < k)%N.

Lemma Pr_lift m (s : dpp) Q : Pr_returns (mbind (lift m) (@record_sample R N vrest arest) s) Q = Pr m Q.
Proof. by rewrite /Pr_returns /mbind E_lift. Qed.

(** the call reduces to one call of a projection sampler for the kernel M *)
Definition proj_call M m : Prop :=
  m = proj_dpp_sampler_kernel M "GS" (Some k) \/
  exists r (V : 'M[R]_(N, r)), [/\ V^T *m V = 1%:M, V *m V^T = M, r = \rank M & m = ints (proj_dpp_sampler_eig qr V "GS" (Some k))].

Lemma proj_call_law M m (S : {set item}) : isproj M -> (k <= \rank M)%N -> proj_call M m ->
  Pr m (fun X => set_of N X == S) = if #|S| == k then pmS M S / 'C(\rank M, k)%:R else 0.
Proof.
move=> P kr [->|[r [V [o VM rM ->]]]].
  by rewrite C01_GS_set_law //; case: eqP => // ->.
rewrite /Pr /ints E_bind.
transitivity (Pr (proj_dpp_sampler_eig qr V "GS" (Some k)) (fun X => items X == S)).
  by apply: eq_E => X; rewrite -set_of_val.
by subst r; rewrite C04_GS_set_law //= VM; case: eqP => // ->.
Qed.

Lemma proj_call_total M m : isproj M -> (k <= \rank M)%N -> proj_call M m -> total m.
Proof.
move=> P kr [->|[r [V [o VM rM ->]]]]; first by have [] := C01_GS_never_fails P (size := Some k) kr.
have [t _] : total (proj_dpp_sampler_eig qr V "GS" (Some k)) /\ forall e, ~ possible (proj_dpp_sampler_eig qr V "GS" (Some k)) (inr e).
  by apply: C04_GS_never_fails => //=; rewrite rM.
by rewrite /total /ints E_bind.
Qed.

Lemma cols_call M lam vs : isproj M -> spectral_decomposition M lam vs ->
  proj_call M (ints (proj_dpp_sampler_eig qr (colmx (mask [seq 2%:R^-1 < l | l <- lam] vs)) "GS" (Some k))).
Proof.
by move=> P sd; right; exists (size (mask [seq 2%:R^-1 < l | l <- lam] vs)), (colmx (mask [seq 2%:R^-1 < l | l <- lam] vs));
  split; [exact: (cols_ortho sd)|exact: (cols_gram P sd)|exact: (cols_size P sd)|].
Qed.

Lemma corr_call s : coherent s -> is_correlation s && projection s -> 
  (exists m s', sample_exact_k_dpp k "GS" pr s = (if k == \rank K then mbind (lift m) (@record_sample R N vrest arest) s' else Ret (s', inr ValueError)) /\ proj_call K m).
Proof.
move=> c /andP[ic ip]; have P : isproj K by apply: (co_proj c); rewrite ic ip.
have ic' : is_correlation (set_size k (set_mode "GS" s)) by exact: ic.
rewrite /FiniteModel.sample_exact_k_dpp; case: limit limit_ok => // f _.
rewrite /= /mbind /= ip ic'; case e: (K_eig_vals s) => [lam|].
  have [vs ev sd] := co_K_eig c e; rewrite (eig_sum sd) rint_proj // ev /=.
  exists (ints (proj_dpp_sampler_eig qr (colmx (mask [seq 2%:R^-1 < l | l <- lam] vs)) "GS" (Some k))), (set_size k (set_mode "GS" s)).
  by split; [case: (k == _)|exact: cols_call].
case eA: (A_zono s) => [A|].
  have [_ fA KE _] := co_A c eA.
  have sd := sd_qr qrP fA; rewrite -KE in sd.
  have szc : size (qr_cols qr A) = tag A by rewrite size_map -cardT card_ord.
  have mk : mask [seq 2%:R^-1 < l | l <- nseq (tag A) (1 : R)] (qr_cols qr A) = qr_cols qr A.
    by rewrite map_nseq invf_lt1 ?ltr0n // ltr1n mask_true // szc.
  have rA : tag A = \rank K by rewrite -(cols_size P sd) mk szc.
  rewrite rA; exists (ints (proj_dpp_sampler_eig qr (colmx (qr_cols qr A)) "GS" (Some k))).
  exists (if k == \rank K then set_K_eig_vals (nseq (tag A) 1) (set_eig_vecs (qr_cols qr A) (set_size k (set_mode "GS" s)))
          else set_size k (set_mode "GS" s)).
  by split; [case: (k == _) => //=; rewrite rA|have := cols_call P sd; rewrite mk].
have eK : K_ s = Some K.
  by have := co_corr c ic; rewrite e eA; case eK: (K_ s) => [M|] // _; rewrite (co_K c eK).
rewrite eK /= rint_proj //; exists (proj_dpp_sampler_kernel K "GS" (Some k)), (set_size k (set_mode "GS" s)).
by split; [rewrite /proj_dpp_sampler_kernel /= rint_proj //; case: (k == _)|left].
Qed.

(** a projection correlation kernel: the only admissible size is the rank; the law is that of the DPP *)
Theorem C22_projection_correlation s (S : {set item}) : coherent s -> is_correlation s && projection s -> k = \rank K ->
  Pr_returns (sample_exact_k_dpp k "GS" pr s) (fun X => set_of N X == S) = if #|S| == k then pmS K S else 0.
Proof.
move=> c cp kK; have P := co_proj c cp; have [m [s' [-> pc]]] := corr_call c cp.
rewrite kK eqxx Pr_lift (proj_call_law _ P _ pc) ?kK //; case: eqP => // _.
by rewrite binn divr1.
Qed.

Theorem C22_projection_correlation_never_fails s : coherent s -> is_correlation s && projection s -> k = \rank K ->
  Pr_returns (sample_exact_k_dpp k "GS" pr s) (fun _ => true) = 1.
Proof.
move=> c cp kK; have P := co_proj c cp; have [m [s' [-> pc]]] := corr_call c cp.
by rewrite {1}kK eqxx Pr_lift; apply: (proj_call_total P _ pc); rewrite kK.
Qed.

Theorem C22_projection_correlation_other_size s : coherent s -> is_correlation s && projection s -> k <> \rank K ->
  forall o, possible (sample_exact_k_dpp k "GS" pr s) o -> exists s', o = inl (s', inr ValueError).
Proof.
move=> c cp /eqP /negbTE kK; have [m [s' [-> pc]]] := corr_call c cp; rewrite kK => o po.
by exists s'; exact: po.
Qed.

(** a projection likelihood kernel L: any size up to the rank; the law is that of the k-DPP *)
Variable L : 'M[R]_N.
Hypothesis lK : is_L_of K L.
Hypothesis PL : isproj L.

Lemma like_call s : coherent s -> is_correlation s = false -> projection s ->
  (exists m s', sample_exact_k_dpp k "GS" pr s = mbind (lift m) (@record_sample R N vrest arest) s' /\ proj_call L m).
Proof.
move=> c ic ip; have ic' : is_correlation (set_size k (set_mode "GS" s)) = false by exact: ic.
have [c1 _] := ok_mode "GS" c; have {c1} [c1 _] := ok_size k c1.
have [s1 [L1 [ec c2 _ eL1 lK1]]] : exists s' L, [/\ compute_L eigh qr limit (set_size k (set_mode "GS" s)) = Ret (s', inl tt),
     coherent s', frozen (set_size k (set_mode "GS" s)) s', L_ s' = Some L & is_L_of K L].
  by apply: (C21_compute_L eighP qrP limit_ok c1); [rewrite ic' orbT|exists L].
have eLL := is_L_of_unique lK1 lK; rewrite eLL in eL1.
have [f Ef] : exists f, limit = f.+1 by case: limit limit_ok => // f _; exists f.
suff h : exists m s', kdpp_rec f.+1 k "GS" pr s = mbind (lift m) (@record_sample R N vrest arest) s' /\ proj_call L m.
  by rewrite -Ef in h.
rewrite /= /mbind /= ip ic'; case e: (L_eig_vals s) => [gam|].
  have [vs [L' [ev sd lK']]] := co_L_eig c e; rewrite -(is_L_of_unique lK lK') in sd; rewrite ev /=.
  exists (ints (proj_dpp_sampler_eig qr (colmx (mask [seq 2%:R^-1 < l | l <- gam] vs)) "GS" (Some k))), (set_size k (set_mode "GS" s)).
  by split=> //; exact: cols_call.
rewrite ec /= eL1 /=; exists (proj_dpp_sampler_kernel L "GS" (Some k)), s1.
by split=> //; left.
Qed.

Theorem C22_projection_likelihood s (S : {set item}) : coherent s -> is_correlation s = false -> projection s ->
  (k <= \rank L)%N ->
  Pr_returns (sample_exact_k_dpp k "GS" pr s) (fun X => set_of N X == S) =
  if #|S| == k then pmS L S / 'C(\rank L, k)%:R else 0.
Proof. by move=> c ic ip kr; have [m [s' [-> pc]]] := like_call c ic ip; rewrite Pr_lift (proj_call_law _ PL kr pc). Qed.

Theorem C22_projection_likelihood_never_fails s : coherent s -> is_correlation s = false -> projection s ->
  (k <= \rank L)%N -> Pr_returns (sample_exact_k_dpp k "GS" pr s) (fun _ => true) = 1.
Proof. by move=> c ic ip kr; have [m [s' [-> pc]]] := like_call c ic ip; rewrite Pr_lift; exact: (proj_call_total PL kr pc). Qed.
End Proj.

(** ** Non-vacuity: L = I - J/3 (rank 2 on 3 items), K = L/2, given as a likelihood kernel, real linear algebra routines *)
(** a new object has no cached table, no sample and no intermediate information *)
Lemma init_fresh (R : rcfType) (N : nat) (vrest arest : Type) kt pj kw (s : dpp R N vrest arest) : init vrest arest kt pj kw = inl s ->
  [/\ E_poly s = None, list_of_samples s = [::], intermediate_sample_info s = None, kernel_type s = kt &
      check_args_coherence kt pj kw = inl (projection s)].
Proof.
rewrite /init /rbind; case: (check_args_coherence _ _ _) => // p.
repeat match goal with
  | |- match ?x with inl _ => _ | inr _ => _ end = _ -> _ => case: x => // ?
  | |- (let (_, _) := ?x in _) = _ -> _ => case: x => ? ?
  end.
by case=> <-.
Qed.

Section Example.
Variable R : rcfType.
Notation Kx := (Kex R).
Local Definition Kh : 'M[R]_3 := 2%:R^-1 *: Kx.

Lemma Kh_L : is_L_of Kh Kx.
Proof.
have [sK iK] := Kex_proj R; split.
  split=> // v; rewrite -iK -{1}sK mulmxA -trmx_mul -mulmxA.
  by rewrite mxE; apply: sumr_ge0 => i _; rewrite mxE -expr2 sqr_ge0.
rewrite /Kh -scalemxAl mulmxDr mulmx1 iK -[X in X + X]scale1r -scalerDl scalerA.
by rewrite -[1 + 1]/(2%:R) mulVf ?scale1r // pnatr_eq0.
Qed.

Lemma Kx_rank gam vs : spectral_decomposition Kx gam vs -> numerical_rank 0 3 gam = 2%N.
Proof.
move=> sd; have l01 := sd_proj (Kex_proj R) sd; rewrite C10_rank_exact.
apply/eqP; rewrite -(eqr_nat R) -(Kex_rank R) -(proj_trace_rank (Kex_proj R)) -(eig_sum sd); apply/eqP.
elim: gam l01 {sd} => [|g gam IH] /=; first by rewrite big_nil.
move=> /andP[g01 gs]; rewrite big_cons natrD IH //; congr (_ + _).
by case/orP: g01 => /eqP ->; rewrite ?ltxx ?ltr01.
Qed.

Example C22_instance : exists2 s : dpp R 3 unit unit,
  init unit unit "likelihood" (PyBool false) (kwargs_of (ByL Kx)) = inl s &
  [/\ coherent Kh s, projection s = false, E_poly s = None, is_L_of Kh Kx &
   (forall gam vs, spectral_decomposition Kx gam vs -> (2 <= numerical_rank 0 3 gam)%N) /\
   exists eigh qr, eigh_contract (R := R) eigh /\ qr_contract (R := R) (N := 3) qr].
Proof.
have [|s es cs] := @C21_constructor R 3 unit unit (@eigh0 R) (@eigh0P R) Kh false (ByL Kx).
  by split=> //; exact: Kh_L.
exists s => //; split=> //.
- by have [_ _ _ _ [<-]] := init_fresh es.
- by have [] := init_fresh es.
- exact: Kh_L.
- split=> [gam vs sd|]; first by rewrite (Kx_rank sd).
  exists (@eigh0 R), (@gs_qr R 3); split; [exact: eigh0P|exact: gs_qr_contract].
Qed.
End Example.

Print Assumptions C22_after_history_partial.
Print Assumptions C22_larger_size_refuted.
Print Assumptions C22_projection_correlation.
Print Assumptions C22_projection_likelihood.
