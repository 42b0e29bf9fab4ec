(** * VfxAlpha: law of one iteration and of the rejection loop of the alpha-DPP sampler (intermediate_sampling.py l.664-814). *)
From Coq Require Import Reals String Lra FunctionalExtensionality Classical_Prop.
From Coquelicot Require Import Hierarchy Series.
From mathcomp Require Import all_ssreflect all_algebra zify.
From mathcomp.algebra_tactics Require Import ring.
From Verif Require Import Prob Minor ChainCons ExactModel ProjKuTa P_Proj Spectral P_Spectral P_Mcmc SpecLemmas McmcModel Mcmc Finite Rstruct PProg DetExp VfxModel VfxLin EighEx QRex VfxCore VfxLaw VfxPre.
Set Implicit Arguments. Unset Strict Implicit. Unset Printing Implicit Defensive.
Import Order.Theory GRing.Theory Num.Theory.
Local Open Scope ring_scope.

Lemma pois0 t : (0 < t)%N -> pois 0 t = 0.
Proof. by move=> t0; rewrite /pois expr0n gtn_eqF // mul0r mulr0. Qed.

Lemma is_sum_point (a : nat -> R) c : is_sum (fun t => a t * (t == c)%:R) (a c).
Proof.
have z : is_sum (fun _ => 0) 0 by have := is_sum_scale 0 (pois_sum 0); rewrite mul0r; apply: eq_is_sum => t; rewrite mul0r.
elim: c a => [|c IH] a; last by apply: is_sum_shift; rewrite ?mulr0 //; exact: IH (fun t => a t.+1).
split; apply: is_series_decr_1.
have -> : plus (a 0%N) (opp (a 0%N * (0%N == 0%N)%:R)) = 0 :> R by rewrite eqxx mulr1 /plus /opp /= RoppE RplusE subrr.
by have [h] := z; apply: is_series_ext h => t; rewrite /= mulr0.
Qed.

Section Vec.
Variable n : nat.
Notation item := 'I_n.

Lemma PE_pvec_prod (l : seq item) (lam : item -> R) (H : item -> nat -> R) (v : item -> R) :
  uniq l -> (forall i, 0 <= lam i) -> (forall i, is_sum (fun t => pois (lam i) t * H i t) (v i)) ->
  PE (poisson_vec l lam) (fun s => \prod_(i <- l) H i (s i)) = \prod_(i <- l) v i.
Proof.
move=> ul l0 hv; elim: l ul => [|i l IH] /=; first by rewrite !big_nil.
move=> /andP[il ul]; rewrite ltNge l0 /=.
transitivity (Series (fun t => (\prod_(j <- l) v j) * (pois (lam i) t * H i t))).
  congr Series; apply: functional_extensionality => t; rewrite PE_bind mulrCA; congr (_ * _).
  rewrite [RHS]mulrC -(IH ul) -PE_scale; apply: eq_PE => s; rewrite /= big_cons eqxx; congr (_ * _).
  by apply: eq_big_seq => j jl; rewrite (_ : (j == i) = false) //; apply: contraNF il => /eqP <-.
by rewrite SeriesZ (is_sum_Series (hv i)) big_cons mulrC.
Qed.

Lemma eq_PE_pvec (l : seq item) (lam : item -> R) f g :
  (forall s, (forall i, lam i = 0 -> s i = 0%N) -> f s = g s) -> PE (poisson_vec l lam) f = PE (poisson_vec l lam) g.
Proof.
elim: l f g => [|i l IH] f g fg /=; first by apply: fg.
case: ifP => // _; congr Series; apply: functional_extensionality => t; rewrite !PE_bind.
have [[l0 t0]|h] : (lam i = 0 /\ (0 < t)%N) \/ ((lam i = 0) -> t = 0%N).
  have [|l1] := eqVneq (lam i) 0; last by right=> e; rewrite e eqxx in l1.
  by have [t0|] := posnP t; [right|left].
  by rewrite l0 pois0 // !mul0r.
congr (_ * _); apply: IH => s sP /=; apply: fg => j jl; case: eqP => [ji|_]; last exact: sP.
by apply: h; rewrite -ji.
Qed.

Lemma E_trialsS m (p : R) f : 0 <= p <= 1 -> E (trials m.+1 p) f = p * E (trials m p) (fun k => f k.+1) + (1 - p) * E (trials m p) f.
Proof.
move=> /andP[p0 p1]; have c : clip (p : RR) = p by apply: clip01.
by rewrite [trials _ _]/= E_Flip !E_bind c; congr (_ * _ + _ * _); apply: eq_E => k; rewrite E_Ret.
Qed.
Lemma trials_gen m (p x : R) : 0 <= p <= 1 -> E (trials m p) (fun k => x ^+ k) = (1 - p + p * x) ^+ m.
Proof.
move=> p01; elim: m => [|m IH]; first by rewrite E_Ret.
rewrite E_trialsS //; under eq_E do rewrite exprS; rewrite E_scale IH.
by rewrite exprS; move: (_ ^+ m) => y; ring.
Qed.
Lemma trials_total m (p : R) : 0 <= p <= 1 -> E (trials m p) (fun _ => 1) = 1.
Proof.
move=> p01; have := trials_gen m 1 p01; rewrite mulr1 subrK expr1n => e; rewrite -[RHS]e; apply: eq_E => k; by rewrite expr1n.
Qed.
Lemma trials_fact m (p x : R) : 0 <= p <= 1 ->
  (1 - p + p * x) * E (trials m p) (fun k => x ^+ k * k%:R) = m%:R * p * x * (1 - p + p * x) ^+ m.
Proof.
move=> p01; elim: m => [|m IH]; first by rewrite E_Ret mulr0 !mul0r mulr0.
rewrite E_trialsS // (@eq_E _ _ _ _ (fun k => x * (x ^+ k * k%:R) + x * x ^+ k)); last first.
  by move=> k; rewrite exprS mulrSr; move: (x ^+ k) (k%:R) => a b; ring.
rewrite E_add !E_scale trials_gen //.
rewrite exprS mulrSr; move: IH; move: (E _ _) (_ ^+ m) (m%:R) => e y k IH.
transitivity ((1 - p + p * x) * ((1 - p + p * x) * e) + (1 - p + p * x) * p * x * y); first by ring.
by rewrite IH; ring.
Qed.
Lemma trials_le m p k : possible (trials m p) (inl k) -> (k <= m)%N.
Proof.
elim: m k => [|m IH] k; first by move=> [->].
rewrite [trials _ _]/= possible_Flip => -[[_ h]|[_ h]]; have [k' /IH h1 [->]] := possible_bind h; lia.
Qed.
Lemma trials_all m (p : R) : 0 <= p <= 1 -> E (trials m p) (fun k => (k == m)%:R) = p ^+ m.
Proof.
move=> p01; elim: m => [|m IH]; first by rewrite E_Ret.
rewrite E_trialsS // (@eq_E _ _ _ _ (fun k => (k == m)%:R)); last by move=> k; rewrite eqSS.
rewrite IH exprS [X in _ + _ * X](_ : _ = 0) ?mulr0 ?addr0 // -[RHS](E_zero (trials m p)); apply: eq_E_possible => k /trials_le km.
by rewrite ltn_eqF.
Qed.
Lemma trials_p0 m k : possible (trials m 0) (inl k) -> k = 0%N.
Proof.
elim: m k => [|m IH] k; first by move=> [].
have c : clip (0 : RR) = 0 by apply: clip01; rewrite ?lexx ?ler01.
rewrite [trials _ _]/= possible_Flip c ltxx => -[[//]|[_ h]].
by have [k' /IH -> []] := possible_bind h.
Qed.

Lemma binomial_vec_possible (l : seq item) (c c' : item -> nat) (p : item -> R) : uniq l ->
  possible (binomial_vec l c p) (inl c') ->
  (forall j, j \notin l -> c' j = c j) /\ (forall j, j \in l -> possible (binomial (c j) (p j)) (inl (c' j))).
Proof.
elim: l c' => [|i l IH] c'; first by move=> _ [->].
move=> /= /andP[il ul] h.
have {h} [k pk h] := possible_bind h; have [f /(IH _ ul)[h1 h2] [->]] := possible_bind h; split=> j.
  by rewrite inE negb_or => /andP[/negbTE -> /h1].
by rewrite inE; case: eqP => [-> _|_ /h2].
Qed.

Lemma E_bvec_prod (l : seq item) (c : item -> nat) (p : item -> R) (h : item -> nat -> R) : uniq l ->
  (forall i, i \in l -> 0 <= p i <= 1) ->
  E (binomial_vec l c p) (fun c' => \prod_i h i (c' i)) = \prod_i (if i \in l then E (trials (c i) (p i)) (h i) else h i (c i)).
Proof.
elim: l h => [|i l IH] h; first by rewrite E_Ret.
move=> /= /andP[il ul] p01; rewrite E_bind /binomial p01 ?mem_head //.
transitivity (E (trials (c i) (p i)) (fun k => (\prod_(j | j != i) (if j \in l then E (trials (c j) (p j)) (h j) else h j (c j))) * h i k)).
  apply: eq_E => k; rewrite E_bind; under eq_E do rewrite E_Ret.
  rewrite (@eq_E _ _ _ _ (fun f => h i k * \prod_j (if j == i then fun _ => 1 else h j) (f j))).
    rewrite E_scale (IH (fun j => if j == i then fun _ => 1 else h j)) // => [|j jl]; last by apply: p01; rewrite inE jl orbT.
    rewrite mulrC (bigD1 i) //= (negbTE il) eqxx mul1r; congr (_ * _).
    by apply: eq_bigr => j /negbTE ->.
  move=> f; rewrite (bigD1 i) //= eqxx; congr (_ * _); rewrite [RHS](bigD1 i) //= eqxx mul1r.
  by apply: eq_bigr => j /negbTE ->.
rewrite E_scale mulrC [RHS](bigD1 i) //= mem_head; congr (_ * _).
by apply: eq_bigr => j ji; rewrite inE (negbTE ji).
Qed.
End Vec.

Section AIter.
Variables (n : nat) (L : 'M[R]_n).
Variable eigh : forall m : nat, 'M[R]_m -> seq R * seq 'cV[R]_m.
Variable qr : forall N r : nat, 'M[R]_(N, r) -> 'M[R]_(N, r).
Hypothesis eighP : @eigh_contract RR eigh.
Hypothesis qrP : forall N, @qr_contract RR N (@qr N).
Notation item := 'I_n.
Variable I : @ainfo n.
Notation al := (a_alpha I).
Notation r := (a_r I).
Notation l := (a_est L I).
Definition adeff := \sum_(e <- a_vals I) (1 - (al * e + 1)^-1).
Definition alogdet := \sum_(e <- a_vals I) ln (1 + al * e).
Hypothesis a0 : 0 < al.
Hypothesis r0 : 0 < r.
Hypothesis cert : certified L al l adeff alogdet.

(** the multiplicities c that can be drawn *)
Definition aok (c : item -> nat) : Prop := forall i, c i != 0%N -> 0 < l i.

Let pL : @is_psd RR n L.
Proof. by case: cert => d [Phi [B [-> _ _ _ _]]]; have := gram_psd Phi^T; rewrite trmxK. Qed.

(** the invariant of the cached bounds *)
Definition ainv (bound : item -> R) (valid : item -> bool) : Prop := forall i, bound i = if valid i then l i else al * L i i.

Lemma l_ge0 i : 0 <= l i. Proof. exact: cert_ge0 a0 cert i. Qed.
Lemma l_le i : l i <= al * L i i.
Proof.
rewrite /a_est /estimate_weighted ler_pmul2l // ger_addl oppr_le0 mulr_ge0 ?(ltW a0) //.
by apply: sumr_ge0 => k _; rewrite sqr_ge0.
Qed.
Lemma bound_ge b v i : ainv b v -> l i <= b i.
Proof. by move=> ->; case: ifP => // _; exact: l_le. Qed.

Definition asup (c : item -> nat) := [seq i <- enum item | c i != 0%N].
Definition aw (c : item -> nat) (i : item) : R := (c i)%:R / (r * l i).
Definition aLt c := Lw L (fun i => al * aw c i) (asup c).

Lemma asup_uniq c : uniq (asup c). Proof. by rewrite filter_uniq ?enum_uniq. Qed.
Lemma mem_asup c i : (i \in asup c) = (c i != 0%N). Proof. by rewrite mem_filter mem_enum andbT. Qed.
Lemma aw_ge0 c i : 0 <= aw c i. Proof. by rewrite /aw divr_ge0 ?ler0n // (mulr_ge0 (ltW r0) (l_ge0 i)). Qed.
Lemma aw_gt0 c i : aok c -> c i != 0%N -> 0 < aw c i.
Proof. by move=> ok ci; have l0 := ok _ ci; by rewrite /aw (divr_gt0 _ (mulr_gt0 r0 l0)) // ltr0n lt0n. Qed.
Lemma aLt_psd c : @is_psd RR _ (aLt c). Proof. exact: Lw_psd. Qed.

Lemma alpha_L_tildaE b c : (forall i, c i != 0%N -> b i = l i) -> alpha_L_tilda L I b c (asup c) = aLt c.
Proof.
move=> bl; apply/matrixP => i j; rewrite !mxE; set x := tnth _ i; set y := tnth _ j.
have xs : c x != 0%N by rewrite -mem_asup mem_tnth.
have ys : c y != 0%N by rewrite -mem_asup mem_tnth.
have e z : rsqrt (al * aw c z) = rsqrt al * rsqrt (aw c z) by rewrite rsqrtM // ltW.
rewrite !bl // -/(aw c x) -/(aw c y) !e -[in LHS](rsqrt_sqr (ltW a0)).
by move: (rsqrt al) (rsqrt (aw c x)) (rsqrt (aw c y)) => x1 x2 x3; ring.
Qed.

Lemma sum_aw c : aok c -> \sum_(i <- asup c) aw c i * l i = (\sum_i c i)%:R / r.
Proof.
move=> ok; have r1 : r != 0 by rewrite gt_eqF.
rewrite (eq_big_seq (fun i => (c i)%:R / r)) => [|i]; last first.
  rewrite mem_asup => /ok l0; have l1 : l i != 0 by rewrite gt_eqF.
  by rewrite /aw; move: (l i) l1 => y l1; field; rewrite r1 l1.
rewrite -big_distrl /= natr_sum /asup big_filter big_enum_cond /= big_mkcond /=; congr (_ * _).
by apply: eq_bigr => i _; case: eqP => //= ->.
Qed.

Lemma alpha_accE b c : (forall i, c i != 0%N -> b i = l i) ->
  alpha_acc_thresh L I b c = adeff + ln (\det (1%:M + aLt c)) - alogdet - (\sum_i c i)%:R / r.
Proof. by move=> bl; rewrite /alpha_acc_thresh -/(asup c) alpha_L_tildaE // [_ + 1%:M]addrC. Qed.

Lemma alpha_acc_le0 c : aok c -> alpha_acc_thresh L I l c <= 0.
Proof.
move=> ok; rewrite alpha_accE // -sum_aw //; apply: accept_le => // i _; exact: aw_ge0.
Qed.

Definition alam i := r * exp r^-1 * l i.
Definition ax := exp (- r^-1).
Definition aidx (valid : item -> bool) (s : item -> nat) := [seq i <- enum item | (s i != 0%N) && ~~ valid i].
Definition abound (b : item -> R) (v : item -> bool) s i := if i \in aidx v s then l i else b i.
Definition avalid (v : item -> bool) s i := (i \in aidx v s) || v i.

Lemma mem_aidx v s i : (i \in aidx v s) = (s i != 0%N) && ~~ v i. Proof. by rewrite mem_filter mem_enum andbT. Qed.
Lemma aidx_uniq v s : uniq (aidx v s). Proof. by rewrite filter_uniq ?enum_uniq. Qed.
Lemma ainv_step b v s : ainv b v -> ainv (abound b v s) (avalid v s).
Proof. by move=> iv i; rewrite /abound /avalid; case: ifP => //= _; exact: iv. Qed.

Lemma ratio01 b v i : ainv b v -> 0 <= l i / b i <= 1.
Proof.
move=> iv; have lb := bound_ge i iv; have b0 := le_trans (l_ge0 i) lb; rewrite divr_ge0 ?l_ge0 //=.
have [->|b1] := eqVneq (b i) 0; first by rewrite invr0 mulr0 ler01.
by rewrite ler_pdivr_mulr ?mul1r // lt_neqAle eq_sym b1.
Qed.

(** the multiplicities that can be drawn are allowed *)
Lemma draw_ok b v s c : ainv b v -> (forall i, r * exp r^-1 * b i = 0 -> s i = 0%N) ->
  possible (binomial_vec (aidx v s) s (fun i => abound b v s i / b i)) (inl c) ->
  aok c /\ forall i, c i != 0%N -> abound b v s i = l i.
Proof.
move=> iv sP pc; have [h1 h2] := binomial_vec_possible (aidx_uniq v s) pc.
have re0 : r * exp r^-1 != 0 by rewrite mulf_neq0 ?gt_eqF ?exp_gt0.
split=> i ci.
  have [ii|ii] := boolP (i \in aidx v s).
    have := h2 i ii; rewrite /abound ii /binomial (ratio01 i iv) => pi.
    rewrite lt_neqAle l_ge0 andbT eq_sym; apply: contraNneq ci => l0; rewrite l0 mul0r in pi; apply/eqP; exact: trials_p0 pi.
  have e := h1 i ii; rewrite e in ci; move: ii; rewrite mem_aidx ci /= negbK => vi.
  have := iv i; rewrite vi => bi; rewrite lt_neqAle l_ge0 andbT eq_sym; apply: contraNneq ci => l0; rewrite sP //.
  by rewrite bi l0 mulr0.
rewrite /abound; case: ifP => // /negbT ii; have e := h1 i ii; rewrite e in ci.
by move: ii; rewrite mem_aidx ci /= negbK => vi; rewrite (iv i) vi.
Qed.

Lemma PE_aiter0 b v f : ainv b v -> PE (alpha_iter L eigh qr I b v) f =
  PE (poisson_vec (enum item) (fun i => r * exp r^-1 * b i)) (fun s =>
  E (binomial_vec (aidx v s) s (fun i => abound b v s i / b i)) (fun c =>
  if alpha_acc_thresh L I l c == 0 then 0 else
  exp (alpha_acc_thresh L I l c) * E (phase4 eigh qr (aLt c)) (fun X => f (Some X, abound b v s, avalid v s)) +
  (1 - exp (alpha_acc_thresh L I l c)) * f (None, abound b v s, avalid v s))).
Proof.
move=> iv; rewrite /alpha_iter PE_bind; apply: eq_PE_pvec => s sP; rewrite -/(aidx v s).
rewrite ifF; last by apply/negbTE; rewrite -all_predC; apply/allP => i _ /=; rewrite -leNgt l_ge0.
rewrite ifF; last by apply/negbTE; rewrite -all_predC; apply/allP => i _ /=; rewrite -leNgt (bound_ge i iv).
rewrite [LHS]/=; apply: eq_E_possible => c pc; have [ok bl] := draw_ok iv sP pc.
rewrite -/(asup c) -/(abound b v s) -/(avalid v s).
have e : alpha_acc_thresh L I (abound b v s) c = alpha_acc_thresh L I l c by rewrite !alpha_accE.
have LE := alpha_L_tildaE bl; have d0 := psd_det1 (aLt_psd c); rewrite addrC in d0.
have acc0 := alpha_acc_le0 ok; rewrite e.
rewrite [alpha_L_tilda _ _ _ _ _]LE ltNge (ltW d0) /= gt_eqF // (_ : (0 <= _) = (alpha_acc_thresh L I l c == 0)); last first.
  by apply/idP/eqP => [h|->//]; apply/eqP; rewrite eq_le h acc0.
case: ifP => // _; rewrite [LHS]/= E_Flip !E_Ret clip01 //; first exact: ltW (exp_gt0 _).
by rewrite exp_le1.
Qed.

Lemma PE_pvec_total b v : ainv b v -> PE (poisson_vec (enum item) (fun i => r * exp r^-1 * b i)) (fun _ => 1) = 1.
Proof.
move=> iv; have l0 i : 0 <= r * exp r^-1 * b i.
  rewrite mulr_ge0 ?(le_trans (l_ge0 i) (bound_ge i iv)) //; apply: mulr_ge0; apply: ltW => //; exact: exp_gt0.
have := @PE_pvec_prod n (enum item) (fun i => r * exp r^-1 * b i) (fun _ _ => 1) (fun _ => 1) (enum_uniq _) l0 => h.
rewrite (@eq_PE _ _ _ (fun s => \prod_(i <- enum item) 1)); last by move=> s; rewrite big1.
by rewrite h ?big1 // => i; apply: eq_is_sum (pois_sum _) => t; rewrite mulr1.
Qed.

Lemma E_bvec_total b v s : ainv b v -> E (binomial_vec (aidx v s) s (fun i => abound b v s i / b i)) (fun _ => 1) = 1.
Proof.
move=> iv; have p01 i : i \in aidx v s -> 0 <= abound b v s i / b i <= 1 by move=> ii; rewrite /abound ii; exact: ratio01 iv.
have := @E_bvec_prod n (aidx v s) s (fun i => abound b v s i / b i) (fun _ _ => 1) (aidx_uniq v s) p01 => h.
rewrite (@eq_E _ _ _ _ (fun c' => \prod_(i : item) 1)); last by move=> c'; rewrite big1.
by rewrite h big1 // => i _; case: ifP => // ii; rewrite trials_total // p01.
Qed.

(** one iteration raises with positive probability as soon as some multiset has acceptance probability one *)
Lemma aiter_raise b v c0 : ainv b v -> aok c0 -> alpha_acc_thresh L I l c0 = 0 -> PE (alpha_iter L eigh qr I b v) (fun _ => 1) < 1.
Proof.
move=> iv ok acc0; rewrite PE_aiter0 //.
have b0 i : 0 <= b i := le_trans (l_ge0 i) (bound_ge i iv).
have re0 : 0 < r * exp r^-1 by rewrite mulr_gt0 // exp_gt0.
have lam0 i : 0 <= r * exp r^-1 * b i by rewrite mulr_ge0 ?b0 // ltW.
set F := fun s => E _ _.
pose bv s := binomial_vec (aidx v s) s (fun i => abound b v s i / b i).
have FE s : F s = E (bv s) (fun c => if alpha_acc_thresh L I l c == 0 then 0 else 1).
  by apply: eq_E => c; case: ifP => // _; rewrite (phase4_total eighP qrP (aLt_psd c)) !mulr1 addrC subrK.
pose ind (s : item -> nat) : R := \prod_i (s i == c0 i)%:R.
have ind01 s : 0 <= ind s <= 1.
  rewrite /ind; apply: (big_ind (fun x : R => 0 <= x <= 1)); [by rewrite ler01 lexx| |by move=> i _; exact: b01].
  by move=> x y /andP[x0 x1] /andP[y0 y1]; rewrite mulr_ge0 //= -[1]mulr1 ler_pmul.
have ind0 s : s <> c0 -> ind s = 0.
  move=> sc; have [i ii|h] := pickP (fun i => s i != c0 i); first by rewrite /ind (bigD1 i) //= (negbTE ii) mul0r.
  by case: sc; apply: functional_extensionality => i; have := h i => /negbFE/eqP.
have ind1 : ind c0 = 1 by rewrite /ind big1 // => i _; rewrite eqxx.
pose d := E (bv c0) ind.
have d0 : 0 < d.
  rewrite /d /bv (@E_bvec_prod n _ _ _ (fun i t => (t == c0 i)%:R) (aidx_uniq v c0)) => [|i ii]; last by rewrite /abound ii; exact: ratio01 iv.
  apply: prodr_gt0 => i _; case: ifP => ii; last by rewrite eqxx ltr01.
  rewrite /abound ii trials_all; last exact: ratio01 iv.
  have ci : c0 i != 0%N by move: ii; rewrite mem_aidx => /andP[].
  by rewrite exprn_gt0 // divr_gt0 ?(ok _ ci) // (lt_le_trans (ok _ ci) (bound_ge i iv)).
have F01 s : 0 <= F s <= 1.
  rewrite FE; apply/andP; split; first by apply: E_ge0 => c; case: ifP => // _; rewrite ler01.
  by rewrite -[X in _ <= X](E_bvec_total s iv); apply: E_le => c; case: ifP => // _; rewrite ler01.
have d1 : d <= 1.
  by rewrite -(E_bvec_total c0 iv); apply: E_le => c; case/andP: (ind01 c).
have Fd : F c0 + d <= 1.
  rewrite FE /d -E_add -[X in _ <= X](E_bvec_total c0 iv); apply: E_le => c; case: ifP => h.
    by rewrite add0r; case/andP: (ind01 c).
  by rewrite ind0 ?addr0 // => cc; move: h; rewrite cc acc0 eqxx.
pose pv := poisson_vec (enum item) (fun i => r * exp r^-1 * b i).
have pi : PE pv ind = \prod_(i <- enum item) pois (r * exp r^-1 * b i) (c0 i).
  rewrite -(@PE_pvec_prod n (enum item) _ (fun i t => (t == c0 i)%:R) _ (enum_uniq _) lam0) => [|i]; last exact: is_sum_point.
  by apply: eq_PE => s; rewrite big_enum.
have pi0 : 0 < PE pv ind.
  rewrite pi; apply: prodr_gt0 => i _; rewrite /pois mulr_gt0 ?exp_gt0 // divr_gt0 ?ltr0n ?fact_gt0 //.
  have [->|ci] := eqVneq (c0 i) 0%N; first by rewrite expr0 ltr01.
  by rewrite exprn_gt0 // mulr_gt0 // (lt_le_trans (ok _ ci) (bound_ge i iv)).
have G01 s : 0 <= 1 - F s - d * ind s <= 1.
  have /andP[h1 h2] := F01 s; have /andP[i1 i2] := ind01 s; apply/andP; split.
    have [->|sc] := classic (s = c0); first by rewrite ind1 mulr1 -addrA -opprD subr_ge0.
    by rewrite ind0 // mulr0 subr0 subr_ge0.
  by rewrite -addrA -opprD ger_addl oppr_le0 addr_ge0 // mulr_ge0 // ltW.
have dI01 s : 0 <= d * ind s <= 1.
  by have /andP[i1 i2] := ind01 s; rewrite mulr_ge0 ?(ltW d0) //= -[1]mulr1 ler_pmul // ltW.
have FI01 s : 0 <= F s + d * ind s <= 1.
  have /andP[h1 _] := F01 s; have /andP[h2 _] := dI01 s; have /andP[h3 _] := G01 s.
  by rewrite addr_ge0 //= -subr_ge0 opprD addrA.
have t : PE pv (fun s => 1 - F s - d * ind s) + (PE pv F + d * PE pv ind) = 1.
  rewrite -PE_scale -(PE_add _ F01 dI01) -(PE_add _ G01 FI01) -[RHS](PE_pvec_total iv); apply: eq_PE => s; ring.
have [/andP[g0 _] _] := PE_bnd pv ler01 G01.
have : PE pv F + d * PE pv ind <= 1 by rewrite -[X in _ <= X]t ler_addr.
by apply: lt_le_trans; rewrite ltr_addl mulr_gt0.
Qed.
(** the code refuses an acceptance probability equal to one *)
Hypothesis strict : forall c, aok c -> alpha_acc_thresh L I l c != 0.

Lemma PE_aiter b v f : ainv b v -> PE (alpha_iter L eigh qr I b v) f =
  PE (poisson_vec (enum item) (fun i => r * exp r^-1 * b i)) (fun s =>
  E (binomial_vec (aidx v s) s (fun i => abound b v s i / b i)) (fun c =>
  exp (alpha_acc_thresh L I l c) * E (phase4 eigh qr (aLt c)) (fun X => f (Some X, abound b v s, avalid v s)) +
  (1 - exp (alpha_acc_thresh L I l c)) * f (None, abound b v s, avalid v s))).
Proof.
move=> iv; rewrite PE_aiter0 //; apply: eq_PE_pvec => s sP; apply: eq_E_possible => c pc; have [ok bl] := draw_ok iv sP pc.
by rewrite (negbTE (strict ok)).
Qed.

Lemma aiter_total b v : ainv b v -> PE (alpha_iter L eigh qr I b v) (fun _ => 1) = 1.
Proof.
move=> iv; rewrite PE_aiter // -[RHS](PE_pvec_total iv); apply: eq_PE => s; rewrite -[RHS](E_bvec_total s iv); apply: eq_E => c.
by rewrite (phase4_total eighP qrP (aLt_psd c)) !mulr1 addrC subrK.
Qed.

Definition aC := exp (adeff - alogdet) * \prod_i exp (r * l i - alam i).

Lemma alam_x i : alam i * ax = r * l i.
Proof.
rewrite /alam /ax; have := expN r^-1; move: (l i) (exp (- r^-1)) (exp r^-1) => x y z h.
by transitivity (r * x * (y * z)); [ring|rewrite h mulr1].
Qed.

Lemma thin_sum b v i m : ainv b v -> (m <= 1)%N ->
  is_sum (fun t => pois (r * exp r^-1 * b i) t * (if v i then ax ^+ t * (t ^_ m)%:R
     else E (trials t (l i / b i)) (fun k => ax ^+ k * (k ^_ m)%:R))) (exp (r * l i - alam i) * (r * l i) ^+ m).
Proof.
move=> iv m1; case vi : (v i).
  have bi : b i = l i by have := iv i; rewrite vi.
  by rewrite bi -/(alam i) -alam_x; exact: pois_ffact.
set p := l i / b i; have p01 : 0 <= p <= 1 := ratio01 i iv; have /andP[p0 p1] := p01.
set lam := r * exp r^-1 * b i.
have lp : lam * p = alam i.
  rewrite /lam /p /alam; have [b0|b0] := eqVneq (b i) 0; last by rewrite -mulrA; congr (_ * _); rewrite mulrC divfK.
  have -> : l i = 0 by apply/eqP; rewrite eq_le l_ge0 -b0 (bound_ge i iv).
  by rewrite mul0r !mulr0.
pose y := 1 - p + p * ax; have x0 : 0 < ax := exp_gt0 _.
have y0 : y != 0.
  rewrite gt_eqF // /y; have [->|p2] := eqVneq p 0; first by rewrite subr0 mul0r addr0 ltr01.
  by rewrite ltr_paddl ?subr_ge0 // mulr_gt0 // lt_neqAle eq_sym p2.
have e t : E (trials t p) (fun k => ax ^+ k * (k ^_ m)%:R) = (p * ax / y) ^+ m * (y ^+ t * (t ^_ m)%:R).
  case: m m1 => [|[|//]] _.
    by rewrite expr0 mul1r ffactn0 mulr1 -trials_gen //; apply: eq_E => k; rewrite ffactn0 mulr1.
  apply: (mulfI y0); rewrite expr1 ffactn1 -[in RHS](mulrC (y ^+ t * _)) (@eq_E _ _ _ _ (fun k => ax ^+ k * k%:R)); last by move=> k; rewrite ffactn1.
  rewrite trials_fact // -/y; move: (y ^+ t) (t%:R) (p) (ax) => z w q x; clearbody y; by field.
apply: (eq_is_sum (a := fun t => (p * ax / y) ^+ m * (pois lam t * (y ^+ t * (t ^_ m)%:R)))).
  by move=> t; rewrite e mulrCA.
have := is_sum_scale ((p * ax / y) ^+ m) (pois_ffact lam y m).
rewrite mulrCA -exprMn (_ : p * ax / y * (lam * y) = r * l i); last first.
  by rewrite -alam_x -lp; clearbody y; move: (ax) (p) (lam) => z w q; field.
suff -> : lam * y - lam = r * l i - alam i by [].
by rewrite -alam_x -lp /y; move: (ax) (p) (lam) => z w q; ring.
Qed.

Lemma aiter_law b v (A : {set item}) : ainv b v ->
  PPr (alpha_iter L eigh qr I b v) (fun o => if o.1.1 is Some X then items X == A else false) =
  aC * pmS (R := RR) (al *: L) A.
Proof.
move=> iv; rewrite /PPr PE_aiter // pmS_scale.
pose h i t := ax ^+ t * (t ^_ (i \in A))%:R.
pose K := exp (adeff - alogdet) * pmS (R := RR) L A * (al ^+ #|A| / \prod_(i in A) (r * l i)).
have [i0 /andP[iA l0]|nz] := pickP (fun i => (i \in A) && (l i == 0)).
  have z0 : pmS (R := RR) L A = 0.
    by apply: (@pm_row0 _ _ _ i0); [rewrite mem_enum|exact: (cert_eq0 a0 cert (eqP l0))].
  rewrite z0 !mulr0 -[RHS](PE_zero (poisson_vec (enum item) (fun i => r * exp r^-1 * b i))); apply: eq_PE_pvec => s sP.
  rewrite -[RHS](E_zero (binomial_vec (aidx v s) s (fun i => abound b v s i / b i))); apply: eq_E_possible => c pc.
  have [ok bl] := draw_ok iv sP pc; rewrite mulr0 addr0.
  have ti : \det (1%:M + aLt c) * E (phase4 eigh qr (aLt c)) (fun X => (items X == A)%:R) =
            \prod_(i in A) (al * aw c i) * pmS (R := RR) L A.
    apply: tilted => //; first exact: asup_uniq.
      by move=> i; rewrite mem_asup => ci; rewrite mulr_gt0 // aw_gt0.
    by move=> i; rewrite mem_asup negbK /aw => /eqP ->; rewrite mul0r mulr0.
  move: ti; rewrite z0 mulr0 => /eqP; rewrite mulf_eq0 gt_eqF ?psd_det1 //=; last exact: aLt_psd.
  by move=> /eqP ->; rewrite mulr0.
have ls0 i : i \in A -> l i != 0 by move=> iA; have := nz i; rewrite iA /= => ->.
have pr0 : \prod_(i in A) (r * l i) != 0 by apply/prodf_neq0 => i iA; rewrite mulf_neq0 ?ls0 // gt_eqF.
have key s : (forall i, r * exp r^-1 * b i = 0 -> s i = 0%N) ->
  E (binomial_vec (aidx v s) s (fun i => abound b v s i / b i)) (fun c =>
   exp (alpha_acc_thresh L I l c) * E (phase4 eigh qr (aLt c)) (fun X => (items X == A)%:R) +
   (1 - exp (alpha_acc_thresh L I l c)) * 0) =
  K * \prod_(i <- enum item) (if v i then h i (s i) else E (trials (s i) (l i / b i)) (h i)).
  move=> sP; transitivity (E (binomial_vec (aidx v s) s (fun i => abound b v s i / b i)) (fun c => K * \prod_i h i (c i))).
    apply: eq_E_possible => c pc; have [ok bl] := draw_ok iv sP pc; rewrite mulr0 addr0 alpha_accE //.
    have ti : \det (1%:M + aLt c) * E (phase4 eigh qr (aLt c)) (fun X => (items X == A)%:R) =
            \prod_(i in A) (al * aw c i) * pmS (R := RR) L A.
      apply: tilted => //; first exact: asup_uniq.
        by move=> i; rewrite mem_asup => ci; rewrite mulr_gt0 // aw_gt0.
      by move=> i; rewrite mem_asup negbK /aw => /eqP ->; rewrite mul0r mulr0.
    rewrite !expD exp_ln'; last by apply: psd_det1; exact: aLt_psd.
    have -> : \prod_i h i (c i) = exp (- ((\sum_i c i)%:R / r)) * \prod_(i in A) (c i)%:R.
      rewrite -mulrN expMn -/ax (big_morph _ (exprD ax) (expr0 ax)) /h big_split /=; congr (_ * _).
      rewrite [RHS]big_mkcond; apply: eq_bigr => i _; case: (i \in A); by rewrite ?ffactn1 ?ffactn0.
    have pE : \prod_(i in A) (al * aw c i) = al ^+ #|A| / \prod_(i in A) (r * l i) * \prod_(i in A) (c i)%:R.
      rewrite -prodfV -prodr_const -!big_split /=; apply: eq_bigr => i iA; rewrite /aw; move: (r * l i)^-1 (_%:R) => z w; ring.
    transitivity (exp adeff * exp (- alogdet) * exp (- ((\sum_i c i)%:R / r)) * (\prod_(i in A) (al * aw c i) * pmS (R := RR) L A)).
      by rewrite -ti; move: (\det _) (E _ _) (exp _) (exp _) (exp _) => d e x1 x2 x3; ring.
    rewrite pE /K !expD; move: (\prod_(i in A) _) (\prod_(i in A) _) (_ ^+ _) (pmS _ _) (exp _) (exp _) (exp _) => x1 x2 x3 x4 x5 x6 x7; ring.
  rewrite E_scale (@E_bvec_prod n (aidx v s) s (fun i => abound b v s i / b i) h (aidx_uniq v s)).
    congr (_ * _); rewrite big_enum /=; apply: eq_bigr => i _; rewrite mem_aidx /abound mem_aidx.
    case: (v i) => /=; first by rewrite andbF.
    by rewrite andbT; case: eqP => //= ->; rewrite E_Ret.
  by move=> i ii; rewrite /abound ii; exact: ratio01 iv.
rewrite (@eq_PE_pvec n (enum item) _ _ (fun s => K * \prod_(i <- enum item) (if v i then h i (s i) else E (trials (s i) (l i / b i)) (h i)))) //.
rewrite PE_scale (@PE_pvec_prod n (enum item) _ (fun i t => if v i then h i t else E (trials t (l i / b i)) (h i)) (fun i => exp (r * l i - alam i) * (r * l i) ^+ (i \in A))).
- rewrite big_enum /= big_split /= /aC /K.
  have -> : \prod_i (r * l i) ^+ (i \in A) = \prod_(i in A) (r * l i).
    by rewrite [RHS]big_mkcond; apply: eq_bigr => i _; case: (i \in A).
  by move: (\prod_i exp _) (\prod_(i in A) _) (exp _) (_ ^+ _) (pmS _ _) pr0 => x1 x2 x3 x4 x5 h2; field.
- exact: enum_uniq.
- move=> i; rewrite mulr_ge0 ?(le_trans (l_ge0 i) (bound_ge i iv)) //; apply: mulr_ge0; apply: ltW => //; exact: exp_gt0.
- by move=> i; apply: thin_sum => //; case: (i \in A).
Qed.

Local Arguments PE : simpl never.
Notation aiter b v := (alpha_iter L eigh qr I b v).

Lemma eq_aiter b v f g : ainv b v ->
  (forall X b' v', uniq X -> ainv b' v' -> f (Some X, b', v') = g (Some X, b', v')) ->
  (forall b' v', ainv b' v' -> f (None, b', v') = g (None, b', v')) -> PE (aiter b v) f = PE (aiter b v) g.
Proof.
move=> iv fg fn; rewrite !PE_aiter //; apply: eq_PE => s; apply: eq_E => c; have iv' := ainv_step s iv.
rewrite fn //; congr (_ * _ + _); apply: eq_E_possible => X pX; apply: fg => //.
have := phase4_uniq eighP qrP (asup_uniq c) (aLt_psd c) => h.
by have /andP[] := almost_sure (Q := fun X => uniq X && all (mem (asup c)) X) h pX.
Qed.

Lemma aL_psd : @is_psd RR n (al *: L). Proof. by apply: psd_scale => //; exact: ltW. Qed.

Lemma aiter_set b v (G : {set item} -> R) : ainv b v -> (forall A, 0 <= G A <= 1) ->
  PE (aiter b v) (fun o => if o.1.1 is Some X then G (items X) else 0) = aC * \sum_A pmS (R := RR) (al *: L) A * G A.
Proof.
move=> iv G01; rewrite (@eq_PE _ _ _ (fun o => \sum_(A : {set item}) G A * (nat_of_bool (if o.1.1 is Some X then items X == A else false))%:R)).
  rewrite PE_sum.
    rewrite big_distrr /=; apply: eq_bigr => A _; rewrite PE_scale; have := aiter_law A iv; rewrite /PPr => ->.
    by move: (pmS _ _) (G A) => x y; ring.
  by move=> A o; have /andP[g0 g1] := G01 A; case: (o.1.1) => [X|]; [case: eqP|]; rewrite ?mulr1 ?mulr0 ?g0 ?g1 ?lexx ?ler01.
case=> -[[X|] b'] v' /=; last by rewrite big1 // => A _; rewrite mulr0.
by rewrite (bigD1 (items X)) //= eqxx mulr1 big1 ?addr0 // => A; rewrite eq_sym => /negbTE ->; rewrite mulr0.
Qed.

(** probability that one iteration rejects *)
Definition arho : R := 1 - aC * \det (1%:M + al *: L).

Lemma aiter_reject b v : ainv b v -> PPr (aiter b v) (fun o => ~~ isSome o.1.1) = arho.
Proof.
move=> iv; apply/eqP; rewrite eq_sym subr_eq -(minors_sum aL_psd); apply/eqP.
transitivity (PE (aiter b v) (fun _ => 1)); first by rewrite aiter_total.
have := @aiter_set b v (fun _ => 1) iv; under eq_bigr do rewrite mulr1; move=> <- => [|A]; last by rewrite lexx ler01.
rewrite /PPr -PE_add.
- by apply: eq_PE => -[[[X|] b'] v'] /=; rewrite ?addr0 ?add0r.
- by move=> o; exact: b01.
- by move=> o; case: (o.1.1) => [X|]; rewrite ?lexx ?ler01.
Qed.
Lemma aC_gt0 : 0 < aC.
Proof. by rewrite mulr_gt0 ?exp_gt0 // prodr_gt0 // => i _; exact: exp_gt0. Qed.
Lemma arho_ge0 b v : ainv b v -> 0 <= arho.
Proof.
move=> iv; rewrite -(aiter_reject iv).
by have [/andP[]] := PE_bnd (aiter b v) ler01 (fun o => b01 (~~ isSome o.1.1)).
Qed.
Lemma arho_lt1 : arho < 1.
Proof. by rewrite /arho ltr_subl_addr ltr_addl mulr_gt0 ?aC_gt0 // psd_det1 //; exact: aL_psd. Qed.

Definition ainfo' (b : item -> R) (v : item -> bool) : ainfo n := @AInfo n al r (a_D I) (a_probs I) (a_vals I) (a_vecs I) b v.

Lemma alpha_loopS M rej b v : alpha_loop L eigh qr I M.+1 rej b v =
  pbind (aiter b v) (fun o => if o.1.1 is Some X then PRet (X, rej, ainfo' o.1.2 o.2) else alpha_loop L eigh qr I M rej.+1 o.1.2 o.2).
Proof. by []. Qed.

Lemma aloop_law M rej b v (G : {set item} -> nat -> R) : ainv b v -> (forall A j, 0 <= G A j <= 1) ->
  PE (alpha_loop L eigh qr I M rej b v) (fun o => G (items o.1.1) o.1.2) =
  \sum_(j < M) arho ^+ j * (aC * \sum_A pmS (R := RR) (al *: L) A * G A (rej + j)%N).
Proof.
elim: M rej b v => [|M IH] rej b v iv G01; first by rewrite big_ord0.
set K := \sum_(j < M) arho ^+ j * (aC * \sum_A pmS (R := RR) (al *: L) A * G A (rej.+1 + j)%N).
rewrite alpha_loopS PE_bind.
rewrite (@eq_aiter _ _ _ (fun o => (if o.1.1 is Some X then G (items X) rej else 0) + K * (~~ isSome o.1.1)%:R)) //; first last.
- by move=> b' v' iv'; rewrite /= mulr1 add0r IH.
- by move=> X b' v' _ _; rewrite /= mulr0 addr0.
have K01 : 0 <= K <= 1.
  rewrite /K -(IH rej.+1 b v iv G01); by have [] := PE_bnd (alpha_loop L eigh qr I M rej.+1 b v) ler01 (fun o => G01 (items o.1.1) o.1.2).
have /andP[K0 K1] := K01.
rewrite PE_add.
- rewrite PE_scale; have := aiter_reject iv; rewrite /PPr => ->; rewrite (@aiter_set b v (fun A => G A rej) iv) // big_ord_recl expr0 mul1r addn0; congr (_ + _).
  rewrite mulrC /K big_distrr /=; apply: eq_bigr => j _; rewrite [LHS]mulrA -exprS; congr (_ * (_ * _)).
  by apply: eq_bigr => A _; rewrite /bump leq0n add1n addSnnS.
- by move=> o; case: (o.1.1) => [X|]; rewrite ?G01 // lexx ler01.
- by move=> o; case: (isSome _); rewrite /= ?mulr0 ?mulr1 ?K0 ?K1 ?lexx ?ler01.
Qed.

Lemma eq_aloop M rej b v f g : ainv b v ->
  (forall X j b' v', uniq X -> ainv b' v' -> f (X, j, ainfo' b' v') = g (X, j, ainfo' b' v')) ->
  PE (alpha_loop L eigh qr I M rej b v) f = PE (alpha_loop L eigh qr I M rej b v) g.
Proof.
move=> iv fg; elim: M rej b v iv => [//|M IH] rej b v iv; rewrite alpha_loopS [LHS]PE_bind [RHS]PE_bind; apply: (eq_aiter iv) => /=.
  by move=> X b' v' uX iv'; exact: fg.
by move=> b' v' iv'; exact: IH.
Qed.
Let aL := al *: L.
Let D0 : \det (1%:M + aL) != 0.
Proof. by rewrite gt_eqF // psd_det1 //; exact: aL_psd. Qed.
Let rhoE : 1 - arho = aC * \det (1%:M + aL).
Proof. by rewrite /arho opprB addrC subrK. Qed.

Lemma loop_setG M b v (G : {set item} -> R) : ainv b v -> (forall A, 0 <= G A <= 1) ->
  PE (alpha_loop L eigh qr I M 0 b v) (fun o => G (items o.1.1)) =
  (1 - arho ^+ M) * \sum_A pmS (R := RR) aL A / \det (1%:M + aL) * G A.
Proof.
move=> iv G01; rewrite (@aloop_law M 0 b v (fun A _ => G A)) //.
have -> : \sum_A pmS (R := RR) aL A / \det (1%:M + aL) * G A = (\sum_A pmS (R := RR) aL A * G A) / \det (1%:M + aL).
  by rewrite big_distrl /=; apply: eq_bigr => A _; rewrite mulrAC.
rewrite -big_distrl /= -geomE rhoE; rewrite -/aL; set x := (X in X * _ = _); set y := (X in _ = _ * (X / _)).
rewrite -/y [X in _ = X * _ * _](_ : _ = x) //; move: (aC) x y (\det _) D0 => c x y d d0.
by rewrite -!mulrA [d * _]mulrCA divff // mulr1.
Qed.

Lemma loop_info b0 v0 M rej b v : alpha_loop L eigh qr (ainfo' b0 v0) M rej b v = alpha_loop L eigh qr I M rej b v.
Proof.
elim: M rej b v => // M IH rej b v; rewrite !alpha_loopS; congr (pbind _ _).
by apply: functional_extensionality => -[[[X|] b'] v'] //=; rewrite IH.
Qed.


(** the expectation over one call of a function of the sample *)
Lemma loop_fun M b v (H : {set item} -> R) f : ainv b v -> (forall A, 0 <= H A <= 1) ->
  (forall X j b' v', uniq X -> ainv b' v' -> f (X, j, ainfo' b' v') = H (items X)) ->
  PE (alpha_do_sampling_loop L eigh qr (ainfo' b v) M) f = (1 - arho ^+ M) * \sum_A pmS (R := RR) aL A / \det (1%:M + aL) * H A.
Proof.
move=> iv H01 fH; rewrite /alpha_do_sampling_loop /= loop_info -(loop_setG M iv H01).
by apply: (eq_aloop _ _ iv) => X j b' v' u iv'; rewrite fH.
Qed.
End AIter.
