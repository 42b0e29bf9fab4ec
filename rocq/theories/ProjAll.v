(** * ProjAll: the dispatchers [proj_dpp_sampler_kernel] and [proj_dpp_sampler_eig] (exact_sampling.py l.25-59,
      l.399-440) on every valid mode. *)
From Coq Require Import String.
From mathcomp Require Import all_ssreflect all_algebra.
From Verif Require Import Prob Minor Chain ChainCons ExactModel ProjGS ProjEig ProjKuTa ProjSchur ProjChol.
Set Implicit Arguments. Unset Strict Implicit. Unset Printing Implicit Defensive.
Import Order.Theory GRing.Theory Num.Theory.
Local Open Scope ring_scope.

(** The set of items listed in a Python list of integers. *)
Definition set_of (N : nat) (X : seq nat) : {set 'I_N} := [set i : 'I_N | val i \in X].

(** The request [size] is admissible: absent, or at most the rank. *)
Definition size_ok (size : option nat) (rank : nat) : bool := if size is Some s then (s <= rank)%N else true.

Section ProjAll.
Variables (R : rcfType) (N : nat).
Implicit Types (K : 'M[R]_N).

Lemma set_of_val (ys : seq 'I_N) : set_of N [seq val y | y <- ys] = items ys.
Proof. by apply/setP => i; rewrite !inE (mem_map val_inj). Qed.

Definition kernel_mode (mode : string) : Prop := mode = "GS"%string \/ mode = "Chol"%string \/ mode = "Schur"%string.

Lemma kernel_E K mode size f : kernel_mode mode -> isproj K -> size_ok size (\rank K) ->
  E (proj_dpp_sampler_kernel K mode size) f =
  chainE (get_size size (\rank K)) (\rank K) K (fun ys => f [seq val y | y <- ys]).
Proof.
move=> md P sz; rewrite /proj_dpp_sampler_kernel rint_proj //.
set d := (if String.eqb mode "GS" then _ else _).
suff dE : E d f = chainE (get_size size (\rank K)) (\rank K) K (fun ys => f [seq val y | y <- ys]).
  by case: size @d sz dE => [[|s]|] d sz dE; rewrite ?[X in if X then _ else _]ltnNge ?[(_ <= _)%N]sz.
rewrite /d; case: md => [->|[->|->]] /=.
- by rewrite /ints E_bind kernel_GS_E.
- by rewrite kernel_Chol_E.
- by rewrite /ints E_bind kernel_Schur_E.
Qed.

Section Kernel.
Variables (K : 'M[R]_N) (mode : string).
Hypotheses (md : kernel_mode mode) (P : isproj K).

Lemma kernel_total size : size_ok size (\rank K) -> total (proj_dpp_sampler_kernel K mode size).
Proof.
move=> sz; rewrite /total kernel_E // chainE_total ?proj_trace_rank //.
by case: size sz.
Qed.

Lemma inj_vals (ys zs : seq 'I_N) : ([seq val y | y <- ys] == [seq val y | y <- zs]) = (ys == zs).
Proof. by apply/eqP/eqP => [/(inj_map val_inj)|->]. Qed.

Lemma kernel_ordered size (ys : seq 'I_N) : size_ok size (\rank K) ->
  Pr (proj_dpp_sampler_kernel K mode size) (fun X => X == [seq val y | y <- ys]) =
  if seq.size ys == get_size size (\rank K) then pm K ys / (\rank K ^_ seq.size ys)%:R else 0.
Proof.
move=> sz; rewrite /Pr kernel_E //.
transitivity (chainE (get_size size (\rank K)) (\rank K) K (fun zs => (zs == ys)%:R)).
  by apply: eq_chainE => zs; rewrite inj_vals.
rewrite chainE_law ?proj_trace_rank //; last by case: size sz.
by case: eqP => // ->.
Qed.

Lemma kernel_set size (S : {set 'I_N}) : size_ok size (\rank K) ->
  Pr (proj_dpp_sampler_kernel K mode size) (fun X => set_of N X == S) =
  if #|S| == get_size size (\rank K) then pmS K S / 'C(\rank K, #|S|)%:R else 0.
Proof.
move=> sz; rewrite /Pr kernel_E //.
transitivity (chainE (get_size size (\rank K)) (\rank K) K (fun zs => (items zs == S)%:R)).
  by apply: eq_chainE => zs; rewrite set_of_val.
rewrite chainE_set ?proj_trace_rank //; last by case: size sz.
by case: eqP => // ->.
Qed.

Lemma kernel_marginal (T : {set 'I_N}) :
  Pr (proj_dpp_sampler_kernel K mode None) (fun X => T \subset set_of N X) = pmS K T.
Proof.
rewrite /Pr kernel_E // -(@chainE_subset _ _ (\rank K)) ?proj_trace_rank //.
by apply: eq_chainE => zs; rewrite set_of_val.
Qed.

Lemma kernel_valid size X : size_ok size (\rank K) ->
  possible (proj_dpp_sampler_kernel K mode size) (inl X) ->
  [/\ uniq X, all (fun x => (x < N)%N) X & seq.size X = get_size size (\rank K)].
Proof.
move=> sz pX.
suff : [&& uniq X, all (fun x => (x < N)%N) X & seq.size X == get_size size (\rank K)].
  by case/and3P => ? ? /eqP.
apply: (almost_sure (Q := fun X => [&& uniq X, all (fun x => (x < N)%N) X & seq.size X == get_size size (\rank K)])) pX.
rewrite /Pr kernel_E // -[RHS](@chainE_bad _ _ (get_size size (\rank K)) (\rank K) K) ?proj_trace_rank //.
  apply: eq_chainE => zs; rewrite (map_inj_uniq val_inj) size_map.
  suff -> : all (fun x => (x < N)%N) [seq val y | y <- zs] by [].
  by apply/allP => x /mapP[y _ ->] /=.
by case: size sz.
Qed.

End Kernel.

Lemma kernel_size_error K mode s : isproj K -> (\rank K < s)%N ->
  proj_dpp_sampler_kernel K mode (Some s) = Raise ValueError.
Proof.
move=> P; case: s => // s rs; by rewrite /proj_dpp_sampler_kernel rint_proj // rs.
Qed.

Lemma kernel_mode_error K mode size : ~ kernel_mode mode ->
  proj_dpp_sampler_kernel K mode size = Raise ValueError.
Proof.
move=> nm; rewrite /proj_dpp_sampler_kernel.
case e1: (String.eqb mode "GS"); first by case: nm; left; apply/String.eqb_eq.
case e2: (String.eqb mode "Chol"); first by case: nm; right; left; apply/String.eqb_eq.
case e3: (String.eqb mode "Schur"); first by case: nm; right; right; apply/String.eqb_eq.
by case: size => [[|s]|] //; case: ifP.
Qed.

Lemma possible_ex A (m : prog R A) : total m -> exists a, possible m (inl a).
Proof.
rewrite /total; elim: m => //= [a _|e|p k IH|T pop w k IH].
- by exists a.
- by move=> /eqP; rewrite eq_sym oner_eq0.
- have p0 := clip_ge0 p; have p1 := clip_le1 p; have l1 := E1_le1 (k true); have l2 := E1_le1 (k false).
  move=> tot.
  have d0 : clip p * (1 - E (k true) (fun=> 1)) + (1 - clip p) * (1 - E (k false) (fun=> 1)) = 0.
    by rewrite !mulrBr !mulr1 addrACA -opprD tot addrCA subrr addr0 subrr.
  move/eqP: d0; rewrite paddr_eq0 ?mulr_ge0 ?subr_ge0 // !mulf_eq0 => /andP[d1 d2].
  have [z|z] := eqVneq (clip p) 0.
    move: d2; rewrite z subr0 oner_eq0 /= subr_eq0 => /eqP d2.
    by have [a pa] := IH false (esym d2); exists a; right; split=> //; exact: ltr01.
  move: d1; rewrite (negPf z) /= subr_eq0 => /eqP d1.
  by have [a pa] := IH true (esym d1); exists a; left; split=> //; rewrite lt_neqAle eq_sym z p0.
- case: ifP => [/andP[w0 /eqP w1]|_]; last by move=> /eqP; rewrite eq_sym oner_eq0.
  move=> tot.
  have [x wx kx] : exists2 x, (exists s1 s2, pop = s1 ++ x :: s2 /\ 0 < w x) & E (k x) (fun=> 1) = 1.
    have d0 : \sum_(y <- pop) w y * (1 - E (k y) (fun=> 1)) = 0.
      under eq_bigr do rewrite mulrBr mulr1.
      by rewrite big_split /= sumrN tot w1 subrr.
    have sz : \sum_(y <- pop) w y != 0 -> all (fun x => 0 <= w x) pop ->
      \sum_(y <- pop) w y * (1 - E (k y) (fun=> 1)) = 0 ->
      exists2 x, (exists s1 s2, pop = s1 ++ x :: s2 /\ 0 < w x) & E (k x) (fun=> 1) = 1.
      elim: {w0 w1 tot d0} pop => [|y pop IHp]; first by rewrite big_nil eqxx.
      rewrite !big_cons /= => nz /andP[wy wp] /eqP.
      have ge s : all (fun x => 0 <= w x) s -> 0 <= \sum_(y <- s) w y * (1 - E (k y) (fun=> 1)).
        elim: s => [|z s IHs] /=; first by rewrite big_nil.
        by move=> /andP[wz ws]; rewrite big_cons addr_ge0 ?IHs // mulr_ge0 ?subr_ge0 ?E1_le1.
      rewrite paddr_eq0 ?ge ?mulr_ge0 ?subr_ge0 ?E1_le1 // => /andP[e1 /eqP e2].
      have [z|z] := eqVneq (w y) 0.
        have [|x [s1 [s2 [-> wx]]] kx] := IHp _ wp e2; first by rewrite z add0r in nz.
        by exists x => //; exists (y :: s1), s2.
      exists y; first by exists [::], pop; split=> //; rewrite lt_neqAle eq_sym z.
      by move: e1; rewrite mulf_eq0 (negPf z) /= subr_eq0 => /eqP.
    by apply: sz => //; rewrite w1 oner_eq0.
  have [a pa] := IH x kx; exists a; case: wx => s1 [s2 [-> wx]]; by exists s1, x, s2.
Qed.

Lemma kernel_succeeds_iff K mode size : isproj K ->
  (exists X, possible (proj_dpp_sampler_kernel K mode size) (inl X)) <-> kernel_mode mode /\ size_ok size (\rank K).
Proof.
move=> P; split=> [[X pX]|[md sz]]; last by apply: possible_ex; exact: kernel_total.
have md : kernel_mode mode.
  rewrite /kernel_mode; case e1: (String.eqb mode "GS"); first by left; apply/String.eqb_eq.
  case e2: (String.eqb mode "Chol"); first by right; left; apply/String.eqb_eq.
  case e3: (String.eqb mode "Schur"); first by right; right; apply/String.eqb_eq.
  move: pX; rewrite /proj_dpp_sampler_kernel e1 e2 e3.
  by case: size => [[|s]|] //=; case: ifP.
split=> //; case: size pX => // s pX; rewrite /size_ok leqNgt; apply/negP => rs.
by move: pX; rewrite kernel_size_error.
Qed.

(** ** eigenvector samplers *)
Section Eig.
Variable qr : forall r : nat, 'M[R]_(N, r) -> 'M[R]_(N, r).
Hypothesis qrP : qr_contract qr.
Variables (r : nat) (V : 'M[R]_(N, r)) (mode : string).
Hypothesis oV : V^T *m V = 1%:M.

Definition eig_mode (mode : string) : Prop := mode = "GS"%string \/ mode = "GS_bis"%string \/ mode = "KuTa12"%string.

Lemma eig_E size f : eig_mode mode -> size_ok size r ->
  E (proj_dpp_sampler_eig qr V mode size) f = chainE (get_size size r) r (V *m V^T) f.
Proof.
move=> md sz; rewrite /proj_dpp_sampler_eig.
have [r0|r0] := eqVneq r 0%N.
  have -> : get_size size r = 0%N.
    by case: size sz => [s|] /=; rewrite r0 // leqn0 => /eqP.
  by [].
case: md => [->|[->|->]] /=.
- by rewrite eig_GS_E.
- by rewrite eig_GS_bis_E.
- by rewrite eig_KuTa12_E.
Qed.

Hypothesis md : eig_mode mode.
Let P := ortho_proj oV.
Lemma VtrE : \tr (V *m V^T) = r%:R. Proof. by rewrite ortho_tr. Qed.

Lemma eig_total size : size_ok size r -> total (proj_dpp_sampler_eig qr V mode size).
Proof. by move=> sz; rewrite /total eig_E // chainE_total ?VtrE //; case: size sz. Qed.

Lemma eig_ordered size (ys : seq 'I_N) : size_ok size r ->
  Pr (proj_dpp_sampler_eig qr V mode size) (fun X => X == ys) =
  if seq.size ys == get_size size r then pm (V *m V^T) ys / (r ^_ seq.size ys)%:R else 0.
Proof.
move=> sz; rewrite /Pr eig_E // chainE_law ?VtrE //; last by case: size sz.
by case: eqP => // ->.
Qed.

Lemma eig_set size (S : {set 'I_N}) : size_ok size r ->
  Pr (proj_dpp_sampler_eig qr V mode size) (fun X => items X == S) =
  if #|S| == get_size size r then pmS (V *m V^T) S / 'C(r, #|S|)%:R else 0.
Proof.
move=> sz; rewrite /Pr eig_E // chainE_set ?VtrE //; last by case: size sz.
by case: eqP => // ->.
Qed.

Lemma eig_marginal (T : {set 'I_N}) :
  Pr (proj_dpp_sampler_eig qr V mode None) (fun X => T \subset items X) = pmS (V *m V^T) T.
Proof. by rewrite /Pr eig_E // chainE_subset ?VtrE. Qed.

Lemma eig_valid size X : size_ok size r ->
  possible (proj_dpp_sampler_eig qr V mode size) (inl X) -> uniq X /\ seq.size X = get_size size r.
Proof.
move=> sz pX; suff : uniq X && (seq.size X == get_size size r) by case/andP => ? /eqP.
apply: (chain_valid P VtrE (k := get_size size r) _ _ pX); first by case: size sz {pX}.
by move=> f; rewrite eig_E.
Qed.

End Eig.

Section EigErr.
Variable qr : forall r : nat, 'M[R]_(N, r) -> 'M[R]_(N, r).
Variables (r : nat) (V : 'M[R]_(N, r)) (mode : string).

Lemma eig_mode_error size : (0 < r)%N -> ~ eig_mode mode -> proj_dpp_sampler_eig qr V mode size = Raise ValueError.
Proof.
move=> r0 nm; rewrite /proj_dpp_sampler_eig -[r == _]negbK -lt0n r0 /=.
case e1: (String.eqb mode "GS"); first by case: nm; left; apply/String.eqb_eq.
case e2: (String.eqb mode "GS_bis"); first by case: nm; right; left; apply/String.eqb_eq.
case e3: (String.eqb mode "KuTa12"); first by case: nm; right; right; apply/String.eqb_eq.
by [].
Qed.

End EigErr.
End ProjAll.
