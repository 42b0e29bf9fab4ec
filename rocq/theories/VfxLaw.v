(** * VfxLaw: the law of the DPP-VFX rejection loop. *)
From Coq Require Import Reals String Lra FunctionalExtensionality.
From Coquelicot Require Import Series.
From mathcomp Require Import all_ssreflect all_algebra zify.
From mathcomp.algebra_tactics Require Import ring.
From Verif Require Import Prob Minor ChainCons ExactModel ProjKuTa P_Proj Spectral P_Spectral P_Mcmc SpecLemmas McmcModel Mcmc Finite Rstruct PProg DetExp VfxModel VfxLin EighEx QRex VfxCore.
Set Implicit Arguments. Unset Strict Implicit. Unset Printing Implicit Defensive.
Import Order.Theory GRing.Theory Num.Theory.
Local Open Scope ring_scope.

Lemma E_Choice A T (pop : seq T) (w : T -> R) (k : T -> prog RR A) f :
  E (Choice pop w k) f = if valid_weights (R := RR) pop w then \sum_(x <- pop) w x * E (k x) f else 0.
Proof. by []. Qed.
Lemma E_Flip A p (k : bool -> prog RR A) f : E (Flip p k) f = clip p * E (k true) f + (1 - clip p) * E (k false) f.
Proof. by []. Qed.
Lemma possible_Choice A T (pop : seq T) (w : T -> R) (k : T -> prog RR A) o : possible (Choice pop w k) o =
  if valid_weights (R := RR) pop w then exists s1 x s2, [/\ pop = s1 ++ x :: s2, 0 < w x & possible (k x) o] else o = inr ValueError.
Proof. by []. Qed.
Lemma possible_Flip A p (k : bool -> prog RR A) o : possible (Flip p k) o =
  ((0 < clip p /\ possible (k true) o) \/ (clip p < 1 /\ possible (k false) o)).
Proof. by []. Qed.

Lemma possible_bind A B (m : prog RR A) (g : A -> prog RR B) b : possible (bind m g) (inl b) ->
  exists2 a, possible m (inl a) & possible (g a) (inl b).
Proof.
elim: m => [a|e|p k IH|T pop w k IH] /=; first by exists a.
- by [].
- rewrite !possible_Flip => -[[h /IH[a p1 p2]]|[h /IH[a p1 p2]]]; exists a => //; rewrite possible_Flip; [left|right]; by [].
- rewrite !possible_Choice; case: ifP => // vw [s1 [x [s2 [pE wx /IH[a p1 p2]]]]]; exists a => //.
  by rewrite possible_Choice vw; exists s1, x, s2.
Qed.

Section Choices.
Variables (n : nat) (p : 'I_n -> R).
Hypothesis vp : valid_weights (R := RR) (enum 'I_n) p.

Lemma E_choicesS t (f : seq 'I_n -> R) :
  E (choices p t.+1) f = \sum_i p i * E (choices p t) (fun s => f (i :: s)).
Proof.
rewrite /= E_Choice vp big_enum /=; apply: eq_bigr => i _; rewrite E_bind; congr (_ * _).
Qed.

Lemma choices_ge0 i : 0 <= p i.
Proof. by case/andP: vp => /allP h _; apply: h; rewrite mem_enum. Qed.
Lemma choices_sum1 : \sum_i p i = 1.
Proof. by case/andP: vp => _ /eqP; rewrite big_enum. Qed.

Lemma choices_total t : total (choices p t).
Proof.
rewrite /total; elim: t => [|t IH]; first by [].
rewrite E_choicesS -[RHS]choices_sum1; apply: eq_bigr => i _; rewrite IH; exact: mulr1.
Qed.

Lemma choices_possible t s : possible (choices p t) (inl s) -> size s = t /\ (forall i, i \in s -> 0 < p i).
Proof.
elim: t s => [|t IH] s.
  by move=> [->].
rewrite [choices _ _]/= possible_Choice vp => -[s1 [x [s2 [_ px]]]] h0.
have [s' h [->]] := possible_bind h0.
by have [<- h2] := IH _ h; split=> // i; rewrite inE => /orP[/eqP->|/h2].
Qed.

Lemma choices_ffact t (T : {set 'I_n}) :
  E (choices p t) (fun s => \prod_(i in T) (count_mem i s)%:R) = (t ^_ #|T|)%:R * \prod_(i in T) p i.
Proof.
elim: t T => [|t IH] T.
  rewrite E_Ret; have [->|[j jT]] := set_0Vmem T; first by rewrite !big_set0 cards0 ffactn0 mul1r.
  by rewrite (bigD1 j) //= mul0r (cardsD1 j) jT ffact0n mul0r.
rewrite E_choicesS.
have eT j : E (choices p t) (fun s => \prod_(i in T) (count_mem i (j :: s))%:R) =
   (t ^_ #|T|)%:R * \prod_(i in T) p i + (j \in T)%:R * ((t ^_ #|T|.-1)%:R * \prod_(i in T :\ j) p i).
  have [jT|jT] := boolP (j \in T); last first.
    rewrite mul0r addr0 -IH; apply: eq_E => s; apply: eq_bigr => i iT /=.
    by rewrite (_ : j == i = false) //; apply: contraNF jT => /eqP ->.
  have cT : #|T :\ j| = #|T|.-1 by rewrite (cardsD1 j T) jT.
  rewrite mul1r -cT -!IH -E_add; apply: eq_E => s.
  rewrite (big_setD1 j) //= [X in _ = X + _](big_setD1 j) //= eqxx natrD mulrDl mul1r addrC; congr (_ + _).
    congr (_ * _); apply: eq_bigr => i; rewrite !inE => /andP[ij _]; by rewrite eq_sym (negbTE ij).
  by apply: eq_bigr => i; rewrite !inE => /andP[ij _]; by rewrite eq_sym (negbTE ij).
under eq_bigr do rewrite eT mulrDr.
rewrite big_split /= -big_distrl /= choices_sum1 mul1r.
have -> : \sum_i p i * ((i \in T)%:R * ((t ^_ #|T|.-1)%:R * \prod_(i0 in T :\ i) p i0)) =
          \sum_(i in T) (t ^_ #|T|.-1)%:R * \prod_(i in T) p i.
  rewrite [RHS]big_mkcond /=; apply: eq_bigr => i _; case: ifP => iT; last by rewrite mul0r mulr0.
  by rewrite mul1r mulrCA [in RHS](big_setD1 i).
rewrite sumr_const -[X in _ + X]mulr_natl mulrA -natrM -mulrDl -natrD; congr (_%:R * _).
case: #|T| => [|m]; first by rewrite mul0n addn0 !ffactn0.
rewrite ffactSS ffactnSr -pred_Sn; have [h|h] := leqP m t; last by rewrite ffact_small // mul0n !muln0.
by rewrite [X in (_ + X)%N]mulnC -mulnDr mulnC; congr (_ * _)%N; lia.
Qed.
End Choices.

Lemma minors_sum N (M : 'M[R]_N) : @is_psd RR N M -> \sum_(A : {set 'I_N}) pmS (R := RR) M A = \det (1%:M + M).
Proof.
move=> [sM qM]; have := @eigh0P RR N M sM; case: (eigh0 M) => ev U [_ sd].
have e0 : all (fun g : RR => 0 <= g) ev by exact: sd_psd sd _.
have qrP := @gs_qr_contract RR N; have md : "GS"%string = "GS"%string \/ "GS"%string = "GS_bis"%string \/ "GS"%string = "KuTa12"%string by left.
have [D0 _] := C08_normaliser_positive sd e0; have [t _] := C08_never_fails qrP sd md.
have := marginal_sum (dpp_sampler_eig_L (@gs_qr RR N) ev U "GS") set0.
under [X in _ = X]eq_bigr do rewrite (C08_L_ensemble_law qrP sd e0 md).
rewrite -big_distrl /= (_ : Pr _ _ = 1); last by rewrite -[RHS]t; apply: eq_E => X; rewrite sub0set.
under eq_bigl do rewrite sub0set.
by move=> /esym /(congr1 (fun x => x * \det (1%:M + M))); rewrite mul1r divfK ?gt_eqF.
Qed.

Lemma sum_count_items n (s : seq 'I_n) : (\sum_i count_mem i s)%N = size s.
Proof.
elim: s => [|j s IH] /=; first by rewrite big1.
by rewrite big_split /= IH (bigD1 j) //= eqxx big1 ?addn0 // => i ij; rewrite eq_sym (negbTE ij).
Qed.

Lemma psd_scale N (M : 'M[R]_N) c : 0 <= c -> @is_psd RR N M -> @is_psd RR N (c *: M).
Proof.
move=> c0 [sM qM]; split; first by rewrite linearZ /= sM.
by move=> v; rewrite -scalemxAr -scalemxAl mxE mulr_ge0.
Qed.
Lemma pmS_scale N (M : 'M[R]_N) c A : pmS (R := RR) (c *: M) A = c ^+ #|A| * pmS (R := RR) M A.
Proof. by rewrite cardE /pmS /pm -detZ; congr (\det _); apply/matrixP => i j; rewrite !mxE. Qed.
Lemma PE_add A (m : pprog A) f g : (forall a, 0 <= f a <= 1) -> (forall a, 0 <= g a <= 1) ->
  PE m (fun a => f a + g a) = PE m f + PE m g.
Proof. by move=> hf hg; apply: PE_add_conv; [case: (PE_bnd m ler01 hf)|case: (PE_bnd m ler01 hg)]. Qed.
Lemma PE_zero A (m : pprog A) : PE m (fun _ => 0) = 0.
Proof. by rewrite -[RHS](mul0r (PE m (fun _ => 0))) -PE_scale; apply: eq_PE => a; rewrite mul0r. Qed.
Lemma PE_sum A (m : pprog A) (J : Type) (s : seq J) (F : J -> A -> R) : (forall j a, 0 <= F j a <= 1) ->
  PE m (fun a => \sum_(j <- s) F j a) = \sum_(j <- s) PE m (F j).
Proof.
move=> F01; elim: s => [|j s IH].
  by rewrite big_nil -[RHS](PE_zero m); apply: eq_PE => a; rewrite big_nil.
rewrite big_cons -IH -PE_add_conv; first by apply: eq_PE => a; rewrite big_cons.
  by case: (PE_bnd m ler01 (F01 j)).
have h a : 0 <= \sum_(j <- s) F j a <= (size s)%:R.
  elim: (s) => [|k s' IH']; first by rewrite big_nil lexx.
  rewrite big_cons /= -addn1 natrD addrC; case/andP: (F01 k a) => h1 h2; case/andP: IH' => h3 h4.
  by rewrite addr_ge0 //= ler_add.
by case: (PE_bnd m (ler0n _ _) h).
Qed.
Lemma geomE (x : R) M : (\sum_(j < M) x ^+ j) * (1 - x) = 1 - x ^+ M.
Proof.
elim: M => [|M IH]; first by rewrite big_ord0 mul0r expr0 subrr.
by rewrite big_ord_recr /= mulrDl IH exprS; move: (x ^+ M) => y; ring.
Qed.
Lemma b01 (b : bool) : 0 <= (b%:R : R) <= 1.
Proof. by case: b; rewrite ?lexx ?ler01. Qed.
Lemma expMn t x : exp (t%:R * x) = exp x ^+ t.
Proof. by elim: t => [|t IH]; rewrite ?mul0r ?exp00 // -addn1 natrD mulrDl mul1r expD IH exprD expr1. Qed.
Lemma ceil_ge x : x <= ceil x.
Proof.
have [h1 h2] := base_Int_part (- x); apply/RleP; rewrite /ceil -RoppE.
by move: h1; rewrite -RoppE => h1; lra.
Qed.
Lemma ceil_lt x : ceil x < x + 1.
Proof.
have [h1 h2] := base_Int_part (- x); apply/RltP; rewrite /ceil -RoppE -RplusE -R1E.
by move: h2; rewrite -RoppE => h2; lra.
Qed.

Section Iter.
Variables (n : nat) (L : 'M[R]_n).
Variable eigh : forall m : nat, 'M[R]_m -> seq R * seq 'cV[R]_m.
Variable qr : forall N r : nat, 'M[R]_(N, r) -> 'M[R]_(N, r).
Hypothesis eighP : @eigh_contract RR eigh.
Hypothesis qrP : forall N, @qr_contract RR N (@qr N).
Notation item := 'I_n.
Variable I : @vinfo n.
Hypothesis a0 : 0 < v_alpha I.
Hypothesis cert : certified L (v_alpha I) (v_rls I) (v_z I) (v_logdet I).
Hypothesis sE : v_s I = \sum_j v_rls I j.
Hypothesis s0 : 0 < v_s I.
Hypothesis q0 : 0 < v_q I.

Let pL : @is_psd RR n L.
Proof. by case: cert => d [Phi [B [-> _ _ _ _]]]; have := gram_psd Phi^T; rewrite trmxK. Qed.
Let p (i : item) := v_rls I i / v_s I.

Lemma vp : valid_weights (R := RR) (enum item) p.
Proof.
apply/andP; split; first by apply/allP => i _; rewrite divr_ge0 ?(ltW s0) // (cert_ge0 a0 cert).
by rewrite big_enum /= -big_distrl /= -sE divff ?eqxx // gt_eqF.
Qed.

Definition vw (sigma : seq item) (i : item) : R := v_s I * (count_mem i sigma)%:R / (v_q I * v_rls I i).
Definition vok (sigma : seq item) : Prop := forall i, i \in sigma -> 0 < v_rls I i.

Lemma possible_ok t sigma : possible (choices p t) (inl sigma) -> size sigma = t /\ vok sigma.
Proof.
move=> h; have [h1 h2] := choices_possible vp h; split=> // i /h2; by rewrite /p pmulr_lgt0 ?invr_gt0.
Qed.

Lemma mem_unique (sigma : seq item) i : (i \in unique sigma) = (i \in sigma).
Proof. by rewrite mem_filter mem_enum andbT. Qed.
Lemma unique_uniq (sigma : seq item) : uniq (unique sigma). Proof. by rewrite filter_uniq ?enum_uniq. Qed.

Lemma vw_gt0 sigma i : vok sigma -> i \in sigma -> 0 < vw sigma i.
Proof.
move=> ok iS; rewrite divr_gt0 // mulr_gt0 //; last exact: ok.
by rewrite ltr0n -has_count has_pred1.
Qed.
Lemma vw_out sigma i : i \notin sigma -> vw sigma i = 0.
Proof. by move=> iS; rewrite /vw (count_memPn iS) mulr0 mul0r. Qed.
Lemma vw_ge0 sigma i : 0 <= vw sigma i.
Proof. by rewrite divr_ge0 // mulr_ge0 ?ler0n ?(ltW s0) ?(ltW q0) // (cert_ge0 a0 cert). Qed.

Definition vLt sigma := Lw L (fun i => v_alpha I * vw sigma i) (unique sigma).

Lemma vfx_L_tildaE sigma : vok sigma -> vfx_L_tilda L I sigma = vLt sigma.
Proof.
move=> ok; apply/matrixP => i j; rewrite !mxE.
set x := tnth _ i; set y := tnth _ j.
have g z : 0 <= v_s I * (count_mem z sigma)%:R by rewrite mulr_ge0 ?ler0n ?(ltW s0).
have h z : 0 <= v_q I * v_rls I z by rewrite mulr_ge0 ?(ltW q0) ?(cert_ge0 a0 cert).
have e z : rsqrt (v_alpha I * vw sigma z) = rsqrt (v_alpha I) * (rsqrt (v_s I * (count_mem z sigma)%:R) / rsqrt (v_q I * v_rls I z)).
  by rewrite rsqrtM ?(ltW a0) // /vw rsqrtM // rsqrtV.
rewrite !e -[in LHS](rsqrt_sqr (ltW a0)).
by move: (rsqrt _) (rsqrt _) (rsqrt _) (rsqrt _) (rsqrt _) => r1 r2 r3 r4 r5; ring.
Qed.

Lemma vfx_W_inv sigma j : vok sigma -> vfx_W_square_inv I sigma 0 j = (vw sigma (tnth (in_tuple (unique sigma)) j))^-1.
Proof. by move=> ok; rewrite mxE /vw invf_div. Qed.
Lemma vfx_W_gt0 sigma j : vok sigma -> 0 < vfx_W_square_inv I sigma 0 j.
Proof. by move=> ok; rewrite vfx_W_inv // invr_gt0 vw_gt0 // -mem_unique mem_tnth. Qed.

Lemma det_vfx sigma : vok sigma ->
  \det (vfx_I_L_sigma L I sigma) = (\prod_j vfx_W_square_inv I sigma 0 j) * \det (1%:M + vLt sigma).
Proof.
move=> ok; have W0 j := vfx_W_gt0 j ok; have WE j := vfx_W_inv j ok.
have wu (j : 'I_(size (unique sigma))) : vw sigma (tnth (in_tuple (unique sigma)) j) != 0.
  by rewrite gt_eqF // vw_gt0 // -mem_unique mem_tnth.
rewrite /vfx_I_L_sigma /vLt; move: (vfx_W_square_inv I sigma) W0 WE; move: (unique sigma) wu => u wu W W0 WE.
pose g : 'rV[R]_(size u) := \row_j rsqrt (W 0 j).
have -> : \prod_j W 0 j = \det (diag_mx g) * \det (diag_mx g).
  by rewrite det_diag -big_split /=; apply: eq_bigr => j _; rewrite [g 0 j]mxE -expr2 rsqrt_sqr ?(ltW (W0 _)).
rewrite mulrAC -!det_mulmx; congr (\det _); apply/matrixP => i j.
rewrite mul_mx_diag mul_diag_mx !mxE; set x := tnth _ i; set y := tnth _ j.
have ge k : rsqrt (W 0 k) * rsqrt (v_alpha I * vw sigma (tnth (in_tuple u) k)) = rsqrt (v_alpha I).
  by rewrite -rsqrtM ?(ltW (W0 _)) // WE mulrCA mulVf ?mulr1 ?wu.
rewrite mulrDr mulrDl addrC; congr (_ + _).
  have [->|] := eqVneq i j; last by rewrite mulr0 mul0r.
  by rewrite mulr1n mulr1 -expr2 rsqrt_sqr ?(ltW (W0 _)).
rewrite -[v_alpha I in LHS](rsqrt_sqr (ltW a0)) expr2 -{1}(ge i) -(ge j) -/x -/y.
by move: (rsqrt (W 0 i)) (rsqrt (W 0 j)) (rsqrt _) (rsqrt _) => r1 r2 r3 r4; ring.
Qed.

Lemma vLt_psd sigma : @is_psd RR _ (vLt sigma).
Proof. exact: Lw_psd. Qed.
Lemma det_vfx_gt0 sigma : vok sigma -> 0 < \det (vfx_I_L_sigma L I sigma).
Proof.
move=> ok; rewrite det_vfx // mulr_gt0 ?psd_det1 //; last exact: vLt_psd.
by apply: prodr_gt0 => j _; exact: vfx_W_gt0.
Qed.

Lemma ln_prod (J : finType) (F : J -> R) : (forall j, 0 < F j) -> ln (\prod_j F j) = \sum_j ln (F j).
Proof.
move=> F0; apply: exp_inj; rewrite exp_ln' ?prodr_gt0 // exp_sum; by apply: eq_bigr => j _; rewrite exp_ln'.
Qed.
Lemma lnM x y : 0 < x -> 0 < y -> ln (x * y) = ln x + ln y.
Proof. by move=> x0 y0; apply: exp_inj; rewrite expD !exp_ln' // mulr_gt0. Qed.

Lemma vfx_accE sigma t : vok sigma ->
  vfx_acc_thresh L I sigma t = v_z I + ln (\det (1%:M + vLt sigma)) - v_logdet I - t%:R * v_s I / v_q I.
Proof.
move=> ok; rewrite /vfx_acc_thresh det_vfx // lnM ?ln_prod.
- by move: (ln _) (\sum_j _) => x y; ring.
- by move=> j; exact: vfx_W_gt0.
- by apply: prodr_gt0 => j _; exact: vfx_W_gt0.
- by apply: psd_det1; exact: vLt_psd.
Qed.

Lemma sum_vw sigma : vok sigma -> \sum_(i <- unique sigma) vw sigma i * v_rls I i = (size sigma)%:R * v_s I / v_q I.
Proof.
move=> ok; have e i : i \in sigma -> vw sigma i * v_rls I i = v_s I / v_q I * (count_mem i sigma)%:R.
  move=> iS; have l0 : v_rls I i != 0 by rewrite gt_eqF ?ok.
  have q1 : v_q I != 0 by rewrite gt_eqF.
  by rewrite /vw; field; rewrite l0 q1.
rewrite (eq_big_seq (fun i => v_s I / v_q I * (count_mem i sigma)%:R)); last by move=> i; rewrite mem_unique => /e.
rewrite -big_distrr /= (_ : \sum_(i <- _) _ = (size sigma)%:R); first by rewrite mulrC mulrA.
rewrite /unique big_filter big_enum_cond /= -natr_sum; congr (_%:R); rewrite -sum_count_items big_mkcond /=.
by apply: eq_bigr => i _; case: ifP => // /negbT/count_memPn.
Qed.

Lemma vfx_acc_le0 sigma : vok sigma -> vfx_acc_thresh L I sigma (size sigma) <= 0.
Proof.
move=> ok; rewrite vfx_accE // -sum_vw //; apply: accept_le => // i _; exact: vw_ge0.
Qed.

Definition vlam := ceil (v_q I * exp (v_s I / v_q I)).
Definition vx := exp (- (v_s I / v_q I)).
Definition vkappa := vlam * vx / v_q I.
Definition vC := exp (v_z I - v_logdet I) * exp (vlam * vx - vlam).

Lemma vlam_ge : v_q I * exp (v_s I / v_q I) <= vlam.
Proof. exact: ceil_ge. Qed.
Lemma vlam_gt0 : 0 < vlam.
Proof. by apply: lt_le_trans vlam_ge; rewrite mulr_gt0 // exp_gt0. Qed.
Lemma vkappa_ge1 : 1 <= vkappa.
Proof.
rewrite /vkappa ler_pdivl_mulr // mul1r; have := vlam_ge; rewrite -(ler_pmul2r (exp_gt0 (- (v_s I / v_q I)))) -mulrA.
by rewrite [exp _ * exp _]mulrC expN mulr1.
Qed.

Lemma PE_iter f : PE (vfx_iter L eigh qr I) f = Series (fun t => pois vlam t * E (choices p t) (fun sigma =>
  exp (vfx_acc_thresh L I sigma t) * E (phase4 eigh qr (vLt sigma)) (fun X => f (Some X)) +
  (1 - exp (vfx_acc_thresh L I sigma t)) * f None)).
Proof.
rewrite /vfx_iter [LHS]/= ltNge (ltW vlam_gt0) /= -/vlam; congr Series; apply: functional_extensionality => t; congr (_ * _).
rewrite -/p /rng_choice vp; apply: eq_E_possible => sigma ps; have [st ok] := possible_ok ps.
have d0 := det_vfx_gt0 ok; rewrite ltNge (ltW d0) /= gt_eqF //.
have ac : vfx_acc_thresh L I sigma t <= 0 by rewrite -st vfx_acc_le0.
rewrite leNgt (le_lt_trans ac) ?invr_gt0 ?ltr0n //= E_Flip !E_Ret clip01; last first.
- by rewrite exp_le1.
- by rewrite ltW // exp_gt0.
by rewrite vfx_L_tildaE //.
Qed.

Lemma iter_total : PE (vfx_iter L eigh qr I) (fun _ => 1) = 1.
Proof.
rewrite PE_iter -[RHS](is_sum_Series (pois_sum vlam)); congr Series; apply: functional_extensionality => t.
rewrite -[RHS]mulr1; congr (_ * _); rewrite -[RHS](choices_total vp t); apply: eq_E => sigma.
by rewrite (phase4_total eighP qrP (vLt_psd sigma)) !mulr1 addrC subrK.
Qed.

Lemma iter_law (A : {set item}) :
  PPr (vfx_iter L eigh qr I) (fun o => if o is Some X then items X == A else false) =
  vC * (vkappa * v_alpha I) ^+ #|A| * pmS (R := RR) L A.
Proof.
rewrite /PPr PE_iter.
have key t : E (choices p t) (fun sigma =>
  exp (vfx_acc_thresh L I sigma t) * E (phase4 eigh qr (vLt sigma)) (fun X => (items X == A)%:R) +
  (1 - exp (vfx_acc_thresh L I sigma t)) * 0) =
  exp (v_z I - v_logdet I) * (v_alpha I / v_q I) ^+ #|A| * pmS (R := RR) L A * (vx ^+ t * (t ^_ #|A|)%:R).
  transitivity (E (choices p t) (fun sigma => exp (v_z I - v_logdet I) * vx ^+ t * pmS (R := RR) L A *
     (\prod_(i in A) (v_alpha I * vw sigma i)))).
    apply: eq_E_possible => sigma ps; have [st ok] := possible_ok ps.
    rewrite mulr0 addr0 vfx_accE //.
    have ti : \det (1%:M + vLt sigma) * E (phase4 eigh qr (vLt sigma)) (fun X => (items X == A)%:R) =
              \prod_(i in A) (v_alpha I * vw sigma i) * pmS (R := RR) L A.
      apply: tilted => //; first exact: unique_uniq.
        by move=> i; rewrite mem_unique => iS; rewrite mulr_gt0 // vw_gt0.
      by move=> i; rewrite mem_unique => iS; rewrite vw_out // mulr0.
    rewrite !expD exp_ln'; last by apply: psd_det1; exact: vLt_psd.
    have -> : exp (- (t%:R * v_s I / v_q I)) = vx ^+ t by rewrite -mulrA -mulrN expMn.
    transitivity (exp (v_z I) * exp (- v_logdet I) * vx ^+ t * (\prod_(i in A) (v_alpha I * vw sigma i) * pmS (R := RR) L A)).
      by rewrite -ti; move: (\det _) (E _ _) (exp _) (exp _) (_ ^+ _) => d e x1 x2 x3; ring.
    by move: (exp _) (exp _) (_ ^+ _) (\prod_(i in A) _) => x1 x2 x3 x4; ring.
  have [i0 /andP[iA l0]|nz] := pickP (fun i => (i \in A) && (v_rls I i == 0)).
    have z0 : pmS (R := RR) L A = 0.
      by apply: (@pm_row0 _ _ _ i0); [rewrite mem_enum|exact: (cert_eq0 a0 cert (eqP l0))].
    rewrite z0 !mulr0 [RHS]mul0r -[RHS](E_zero (choices p t)); apply: eq_E => sigma; by rewrite mul0r.
  have ls0 i : i \in A -> v_rls I i != 0 by move=> iA; have := nz i; rewrite iA /= => ->.
  transitivity (E (choices p t) (fun sigma => exp (v_z I - v_logdet I) * vx ^+ t * pmS (R := RR) L A *
      (v_alpha I * v_s I / v_q I) ^+ #|A| / \prod_(i in A) v_rls I i * \prod_(i in A) (count_mem i sigma)%:R)).
    apply: eq_E => sigma; rewrite -!mulrA; do 3 congr (_ * _).
    rewrite -prodfV -big_split -prodr_const -big_split /=; apply: eq_bigr => i iA; rewrite /vw.
    by rewrite invfM; move: (v_rls I i)^-1 (v_q I)^-1 (_%:R) => x1 x2 x3; ring.
  rewrite E_scale choices_ffact //; last exact: vp.
  have -> : \prod_(i in A) p i = (\prod_(i in A) v_rls I i) / v_s I ^+ #|A|.
    by rewrite /p big_split /= prodr_const exprVn.
  have pr0 : \prod_(i in A) v_rls I i != 0 by apply/prodf_neq0.
  have s1 : v_s I ^+ #|A| != 0 by rewrite expf_neq0 // gt_eqF.
  rewrite !exprMn; move: (\prod_(i in A) _) (v_s I ^+ _) (v_alpha I ^+ _) (vx ^+ _) ((v_q I)^-1 ^+ _) (exp (v_z I - _)) pr0 s1 => x1 x2 x3 x4 x5 x6 h1 h2.
  by field; rewrite h1 h2.
transitivity (Series (fun t => exp (v_z I - v_logdet I) * (v_alpha I / v_q I) ^+ #|A| * pmS (R := RR) L A *
   (pois vlam t * (vx ^+ t * (t ^_ #|A|)%:R)))).
  by congr Series; apply: functional_extensionality => t; rewrite key mulrCA.
rewrite SeriesZ (is_sum_Series (pois_ffact vlam vx #|A|)) /vC /vkappa !exprMn.
by move: (exp _) (exp _) (_ ^+ _) (_ ^+ _) (_ ^+ _) (_ ^+ _) (pmS _ _) => x1 x2 x3 x4 x5 x6 x7; ring.
Qed.

Local Arguments PE : simpl never.
Notation iter0 := (vfx_iter L eigh qr I).
(** probability that one iteration rejects *)
Definition vrho : R := PPr iter0 (fun o => ~~ isSome o).

Lemma vC_gt0 : 0 < vC.
Proof. by rewrite mulr_gt0 // exp_gt0. Qed.
Lemma kL_psd : @is_psd RR n ((vkappa * v_alpha I) *: L).
Proof. by apply: psd_scale => //; rewrite mulr_ge0 ?(ltW a0) // (le_trans ler01) // vkappa_ge1. Qed.

Lemma iter_accept : PPr iter0 (fun o => isSome o) = vC * \det (1%:M + (vkappa * v_alpha I) *: L).
Proof.
rewrite -(minors_sum kL_psd) big_distrr /=.
rewrite /PPr (@eq_PE _ _ _ (fun o => \sum_(A : {set item}) (if o is Some X then items X == A else false)%:R)).
  rewrite PE_sum //; first by apply: eq_bigr => A _; rewrite pmS_scale mulrA -iter_law; apply: eq_PE => -[].
  by move=> A o; case: o => [X|]; [case: eqP|]; rewrite ?lexx ?ler01.
case=> [X|]; last by rewrite big1.
by rewrite (bigD1 (items X)) //= eqxx big1 ?addr0 // => A; rewrite eq_sym => /negbTE ->.
Qed.

Lemma vrhoE : vrho = 1 - vC * \det (1%:M + (vkappa * v_alpha I) *: L).
Proof.
apply/eqP; rewrite eq_sym subr_eq -iter_accept -iter_total addrC /vrho /PPr -PE_add.
- by apply/eqP; apply: eq_PE => o; case: o => [X|] /=; rewrite ?addr0 ?add0r.
- by move=> o; case: isSome; rewrite ?lexx ?ler01.
- by move=> o; case: isSome; rewrite ?lexx ?ler01.
Qed.
Lemma vrho_ge0 : 0 <= vrho.
Proof.
have h o : 0 <= ((~~ isSome (o : option (seq item)))%:R : R) <= 1 by case: o => [X|] /=; rewrite ?lexx ?ler01.
by have [/andP[]] := PE_bnd iter0 ler01 h.
Qed.
Lemma vrho_lt1 : vrho < 1.
Proof. by rewrite vrhoE ltr_subl_addr ltr_addl mulr_gt0 ?vC_gt0 // psd_det1 //; exact: kL_psd. Qed.

Lemma loop_law M r (f : seq item * nat -> R) : (forall a, 0 <= f a <= 1) ->
  PE (vfx_loop L eigh qr I M r) f =
  \sum_(j < M) vrho ^+ j * PE iter0 (fun o => if o is Some X then f (X, (r + j)%N) else 0).
Proof.
move=> f01; elim: M r => [|M IH] r; first by rewrite big_ord0.
have -> : vfx_loop L eigh qr I M.+1 r = pbind iter0 (fun o => if o is Some X then PRet (X, r) else vfx_loop L eigh qr I M r.+1) by [].
rewrite PE_bind (@eq_PE _ _ _ (fun o => (if o is Some X then f (X, r) else 0) +
   PE (vfx_loop L eigh qr I M r.+1) f * (~~ isSome o)%:R)); last first.
  by case=> [X|]; rewrite /= ?mulr0 ?addr0 // mulr1 add0r.
have [/andP[h0 h1] _] := @PE_bnd _ (vfx_loop L eigh qr I M r.+1) f 1 ler01 f01.
rewrite PE_add.
- rewrite PE_scale -/(PPr _ _) -/vrho IH big_ord_recl expr0 mul1r addn0; congr (_ + _).
  rewrite big_distrl; apply: eq_bigr => j _; rewrite [LHS]mulrC mulrA -exprS; congr (_ * _).
  by apply: eq_PE => o; rewrite lift0 addSnnS.
- by case=> [X|]; rewrite ?f01 // lexx ler01.
- by case=> [X|]; rewrite /= ?mulr0 ?mulr1 ?h0 ?h1 ?lexx ?ler01.
Qed.

(** law of the sample, given the number of rejections *)
Lemma loop_rej M j (A : {set item}) :
  PPr (vfx_do_sampling_loop L eigh qr I M) (fun o => (items o.1 == A) && (o.2 == j)) =
  if (j < M)%N then vrho ^+ j * (vC * (vkappa * v_alpha I) ^+ #|A| * pmS (R := RR) L A) else 0.
Proof.
rewrite /PPr loop_law; last by move=> a; exact: b01.
rewrite -iter_law; have [jM|jM] := ltnP j M.
  rewrite (bigD1 (Ordinal jM)) //= big1 ?addr0.
    by congr (_ * _); apply: eq_PE => -[X|] //; rewrite /= eqxx andbT.
  move=> i ij; rewrite (@eq_PE _ _ _ (fun _ => 0)) ?PE_zero ?mulr0 // => -[X|] //=.
  by rewrite add0n (_ : (val i == j) = false) ?andbF //; apply: contraNF ij => /eqP h; apply/eqP; apply: val_inj.
rewrite big1 // => i _; rewrite (@eq_PE _ _ _ (fun _ => 0)) ?PE_zero ?mulr0 // => -[X|] //=.
by rewrite add0n (_ : (val i == j) = false) ?andbF // ltn_eqF // (leq_trans (ltn_ord i) jM).
Qed.

Lemma loop_set M (A : {set item}) :
  PPr (vfx_do_sampling_loop L eigh qr I M) (fun o => items o.1 == A) =
  (1 - vrho ^+ M) * (pmS (R := RR) ((vkappa * v_alpha I) *: L) A / \det (1%:M + (vkappa * v_alpha I) *: L)).
Proof.
rewrite /PPr loop_law; last by move=> a; exact: b01.
rewrite (eq_bigr (fun j : 'I_M => vrho ^+ j * (vC * (vkappa * v_alpha I) ^+ #|A| * pmS (R := RR) L A))); last first.
  by move=> j _; rewrite -iter_law; congr (_ * _); apply: eq_PE => -[X|].
rewrite -big_distrl /= -geomE pmS_scale.
have D0 := psd_det1 kL_psd; have D1 : \det (1%:M + (vkappa * v_alpha I) *: L) != 0 by rewrite gt_eqF.
have -> : 1 - vrho = vC * \det (1%:M + (vkappa * v_alpha I) *: L) by rewrite vrhoE opprB addrC subrK.
by move: (\det _) (\sum_(j < M) _) (_ ^+ _) (pmS _ _) D1 => d x y z D1; field.
Qed.

Lemma loop_fail M : PE (vfx_do_sampling_loop L eigh qr I M) (fun _ => 1) = 1 - vrho ^+ M.
Proof.
rewrite loop_law; last by move=> a; rewrite lexx ler01.
rewrite (eq_bigr (fun j : 'I_M => vrho ^+ j * (1 - vrho))); first by rewrite -big_distrl /= geomE.
move=> j _; congr (_ * _); rewrite vrhoE opprB addrC subrK -iter_accept; by apply: eq_PE => -[].
Qed.

Lemma phase4_possible_uniq sigma X : possible (phase4 eigh qr (vLt sigma)) (inl X) -> uniq X.
Proof.
move=> pX; have := phase4_uniq eighP qrP (unique_uniq sigma) (vLt_psd sigma) => h.
by have /andP[] := almost_sure (Q := fun X => uniq X && all (mem (unique sigma)) X) h pX.
Qed.

Lemma eq_iter f g : (forall X, uniq X -> f (Some X) = g (Some X)) -> f None = g None -> PE iter0 f = PE iter0 g.
Proof.
move=> fg fn; rewrite !PE_iter; congr Series; apply: functional_extensionality => t; congr (_ * _); apply: eq_E => sigma.
by rewrite fn; congr (_ * _ + _); apply: eq_E_possible => X /phase4_possible_uniq; exact: fg.
Qed.

Lemma eq_loop M f g : (forall a, 0 <= f a <= 1) -> (forall a, 0 <= g a <= 1) ->
  (forall X j, uniq X -> f (X, j) = g (X, j)) ->
  PE (vfx_do_sampling_loop L eigh qr I M) f = PE (vfx_do_sampling_loop L eigh qr I M) g.
Proof.
move=> hf hg fg; rewrite !loop_law //; apply: eq_bigr => j _; congr (_ * _); apply: eq_iter => // X uX; exact: fg.
Qed.

(** rejection on the size of the sample *)
Definition vbeta M k : R := PPr (vfx_do_sampling_loop L eigh qr I M) (fun o => size o.1 != k).

Lemma k_loop_law M k rounds (A : {set item}) :
  PPr (k_vfx_loop L eigh qr I k M rounds) (fun X => items X == A) =
  if #|A| == k then (\sum_(j < rounds) vbeta M k ^+ j) * ((1 - vrho ^+ M) *
    (pmS (R := RR) ((vkappa * v_alpha I) *: L) A / \det (1%:M + (vkappa * v_alpha I) *: L))) else 0.
Proof.
elim: rounds => [|r IH]; first by rewrite big_ord0 mul0r; case: ifP.
have -> : k_vfx_loop L eigh qr I k M r.+1 = pbind (vfx_do_sampling_loop L eigh qr I M)
  (fun sr => if size sr.1 == k then PRet sr.1 else k_vfx_loop L eigh qr I k M r) by [].
rewrite /PPr PE_bind.
set c := PE (k_vfx_loop L eigh qr I k M r) (fun X => (items X == A)%:R).
have [/andP[c0 c1] _] : (0 <= c <= 1) /\ _ := PE_bnd (k_vfx_loop L eigh qr I k M r) ler01 (fun X => b01 (items X == A)).
rewrite (@eq_PE _ _ _ (fun sr => ((size sr.1 == k) && (items sr.1 == A))%:R + c * (size sr.1 != k)%:R)); last first.
  by case=> X j /=; case: ifP => _ /=; rewrite ?mulr0 ?addr0 ?mulr1 ?add0r.
rewrite PE_add; first last.
- by move=> a; case: (_ != _); rewrite ?mulr0 ?mulr1 ?c0 ?c1 ?lexx ?ler01.
- by move=> a; exact: b01.
rewrite PE_scale -/(vbeta M k) (IH : c = _).
have -> : PE (vfx_do_sampling_loop L eigh qr I M) (fun sr => ((size sr.1 == k) && (items sr.1 == A))%:R) =
  if #|A| == k then (1 - vrho ^+ M) * (pmS (R := RR) ((vkappa * v_alpha I) *: L) A / \det (1%:M + (vkappa * v_alpha I) *: L)) else 0.
  case: ifP => Ak.
    rewrite -loop_set; apply: eq_loop => [a|a|X j uX /=]; try exact: b01.
    have [iA|] := eqVneq (items X) A; last by rewrite andbF.
    by move: Ak; rewrite -iA card_items // => ->.
  rewrite -[RHS](PE_zero (vfx_do_sampling_loop L eigh qr I M)); apply: eq_loop => [a|a|X j uX /=]; first exact: b01.
    by rewrite lexx ler01.
  have [iA|] := eqVneq (items X) A; last by rewrite andbF.
  by move: Ak; rewrite -iA card_items // => ->.
case: ifP => Ak; last by rewrite mul0r addr0.
rewrite -[PE _ _]/(vbeta M k); move: ((1 - _) * _) => y; rewrite [in RHS]big_ord_recl expr0 mulrDl mul1r; congr (_ + _).
rewrite mulrAC big_distrl /=; congr (_ * _); apply: eq_bigr => j _.
by rewrite /bump /= add1n exprSr.
Qed.
End Iter.
