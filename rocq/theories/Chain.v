(** * Chain: orthogonal projections and the chain rule for projection DPPs (pure mathematics). *)
From mathcomp Require Import all_ssreflect all_algebra.
From mathcomp.algebra_tactics Require Import ring.
From Verif Require Import Prob Minor.
Set Implicit Arguments. Unset Strict Implicit. Unset Printing Implicit Defensive.
Import Order.Theory GRing.Theory Num.Theory.
Local Open Scope ring_scope.

Section Proj.
Variables (R : rcfType) (N : nat).
Implicit Types (K : 'M[R]_N).

(** Orthogonal projection matrix: symmetric and idempotent. *)
Definition isproj K : Prop := K^T = K /\ K *m K = K.

Lemma proj_sym K i j : isproj K -> K i j = K j i.
Proof. by case=> s _; rewrite -{1}s mxE. Qed.

Lemma proj_mul K i j : isproj K -> \sum_k K i k * K k j = K i j.
Proof. by case=> _ m; rewrite -[in RHS]m !mxE. Qed.

Lemma proj_diag K i : isproj K -> K i i = \sum_k K i k ^+ 2.
Proof.
by move=> P; rewrite -(proj_mul i i P); apply: eq_bigr => k _; rewrite expr2 (proj_sym k i P).
Qed.

Lemma proj_diag_ge0 K i : isproj K -> 0 <= K i i.
Proof. by move=> P; rewrite proj_diag // sumr_ge0 // => k _; rewrite sqr_ge0. Qed.

Lemma proj_diag0 K i j : isproj K -> K i i = 0 -> K i j = 0.
Proof.
move=> P; rewrite proj_diag // => /eqP.
rewrite psumr_eq0 => [/allP h|k _]; last exact: sqr_ge0.
by apply/eqP; rewrite -sqrf_eq0; apply: h; rewrite mem_index_enum.
Qed.

Lemma proj_trace_rank K : isproj K -> \tr K = (\rank K)%:R.
Proof.
case=> _ KK.
have e : row_base K *m col_base K = 1%:M.
  apply: (row_free_inj (row_base_free K)); apply: (row_full_inj (col_base_full K)).
  by rewrite /= mul1mx -(mulmxA (row_base K)) mulmx_base (mulmxA (col_base K)) mulmx_base.
by rewrite -{1}(mulmx_base K) mxtrace_mulC e mxtrace1.
Qed.


Lemma schurE K y i j : schur K y i j = K i j - K i y * K y j / K y y.
Proof. by rewrite mxE. Qed.

Lemma schur_proj K y : isproj K -> K y y != 0 -> isproj (schur K y).
Proof.
move=> P Ky; split; apply/matrixP=> i j; rewrite !mxE.
  by rewrite (proj_sym j i P) (proj_sym j y P) (proj_sym y i P) [K i y * _]mulrC.
transitivity (\sum_k (K i k * K k j - K i k * K k y * (K y j / K y y)
   - K i y / K y y * (K y k * K k j) + K i y / K y y * (K y k * K k y) * (K y j / K y y))).
  by apply: eq_bigr => k _; rewrite !mxE; ring.
rewrite big_split /= !sumrB -!big_distrr -!big_distrl /= -!big_distrr /= !proj_mul //.
by field.
Qed.

Lemma schur_tr K y : isproj K -> K y y != 0 -> \tr (schur K y) = \tr K - 1.
Proof.
move=> P Ky; rewrite /mxtrace.
transitivity (\sum_i (K i i - (K y i * K i y) / K y y)).
  by apply: eq_bigr => i _; rewrite schurE [K i y * _]mulrC.
by rewrite sumrB -big_distrl /= proj_mul // divff.
Qed.

Lemma schur_self K y j : K y y != 0 -> schur K y y j = 0.
Proof. by move=> Ky; rewrite schurE mulrAC divff // mul1r subrr. Qed.

Lemma schur_diag0 K y i : isproj K -> K i i = 0 -> schur K y i i = 0.
Proof. by move=> P K0; rewrite schurE K0 (proj_diag0 y P K0) !mul0r subrr. Qed.

Lemma pm_proj_diag0 K y ys : isproj K -> K y y = 0 -> y \in ys -> pm K ys = 0.
Proof. by move=> P K0 yy; apply: (pm_row0 yy) => j; exact: proj_diag0. Qed.

(** Sum of the minors over one additional item. *)
Lemma sum_pm K r ys : isproj K -> \tr K = r%:R ->
  \sum_y pm K (y :: ys) = (r%:R - (size ys)%:R) * pm K ys.
Proof.
elim: ys K r => [|t ys IH] K r P trK.
  by rewrite subr0 pm_nil mulr1 -trK; apply: eq_bigr => y _; rewrite pm1.
have [Kt|Kt] := eqVneq (K t t) 0.
  rewrite (pm_proj_diag0 P Kt) ?inE ?eqxx // mulr0 big1 // => y _.
  by rewrite (pm_proj_diag0 P Kt) // !inE eqxx orbT.
transitivity (\sum_y K t t * pm (schur K t) (y :: ys)).
  apply: eq_bigr => y _; rewrite -pm_cons //; apply: pm_perm.
  by rewrite -[y :: t :: ys]/([:: y; t] ++ ys) -[t :: y :: ys]/([:: t; y] ++ ys) perm_cat2r
    -[[:: y; t]]/([:: y] ++ [:: t]) perm_catC.
have PS := schur_proj P Kt; have tS := schur_tr P Kt.
case: r trK => [|r] trK.
  (* trace 0 is impossible with a nonzero diagonal entry *)
  exfalso; move/eqP: Kt; apply; apply/eqP; rewrite -[_ == 0]/(true && _).
  move/eqP: trK; rewrite /mxtrace psumr_eq0 => [/allP h|i _]; last exact: proj_diag_ge0.
  by apply: h; rewrite mem_index_enum.
rewrite -big_distrr /= (IH _ r PS); last by rewrite tS trK mulrSr addrK.
rewrite pm_cons // mulrCA; congr (_ * _).
by rewrite !mulrSr opprD addrACA subrr addr0.
Qed.

(** Expectation of [f] under the abstract chain rule: pick [i] with probability K_ii / r, go on with the Schur
    complement (a projection of rank r-1). *)
Fixpoint chainE (k r : nat) K (f : seq 'I_N -> R) : R :=
  if k is k'.+1 then \sum_i (K i i / r%:R) * chainE k' r.-1 (schur K i) (fun ys => f (i :: ys))
  else f [::].

Lemma eq_chainE k r K f g : f =1 g -> chainE k r K f = chainE k r K g.
Proof.
elim: k r K f g => [|k IH] r K f g fg //=.
by apply: eq_bigr => i _; congr (_ * _); apply: IH => ys; exact: fg.
Qed.

Lemma schur_trS K r y : isproj K -> \tr K = r.+1%:R -> K y y != 0 -> \tr (schur K y) = r%:R.
Proof. by move=> P t Ky; rewrite schur_tr // t mulrSr addrK. Qed.

Lemma chainE0 k r K f : (forall ys, f ys = 0) -> chainE k r K f = 0.
Proof.
elim: k r K f => [|k IH] r K f f0 //=.
by rewrite big1 // => i _; rewrite IH ?mulr0 // => ys; exact: f0.
Qed.

(** Law of the ordered sample. *)
Lemma chainE_law k r K zs : isproj K -> \tr K = r%:R -> (k <= r)%N ->
  chainE k r K (fun ys => (ys == zs)%:R) = if size zs == k then pm K zs / (r ^_ k)%:R else 0.
Proof.
elim: k r K zs => [|k IH] r K zs P trK kr /=.
  by case: zs => [|z zs] //=; rewrite pm_nil ffactn0 divr1.
case: r trK kr => // r trK kr.
case: zs => [|z zs].
  by rewrite big1 // => i _; rewrite chainE0 ?mulr0.
rewrite (bigD1 z) //= big1 ?addr0 => [|i /negPf iz]; last first.
  by rewrite chainE0 ?mulr0 // => ys; rewrite eqseq_cons iz.
rewrite (@eq_chainE _ _ _ _ (fun ys => (ys == zs)%:R)); last by move=> ys; rewrite eqseq_cons eqxx.
rewrite eqSS; have [Kz|Kz] := eqVneq (K z z) 0.
  by rewrite Kz !mul0r (pm_proj_diag0 P Kz) ?inE ?eqxx // mul0r; case: ifP.
rewrite (IH _ _ _ (schur_proj P Kz) (schur_trS P trK Kz) kr).
case: ifP => _; last by rewrite mulr0.
by rewrite pm_cons // ffactSS natrM invfM mulrACA.
Qed.

Lemma chainE_total k r K : isproj K -> \tr K = r%:R -> (k <= r)%N ->
  chainE k r K (fun _ => 1) = 1.
Proof.
elim: k r K => [|k IH] r K P trK kr //=.
case: r trK kr => // r trK kr.
transitivity (\sum_i K i i / r.+1%:R).
  apply: eq_bigr => i _; have [Ki|Ki] := eqVneq (K i i) 0; first by rewrite Ki !mul0r.
  by rewrite IH ?mulr1 ?(schur_trS P trK Ki) //; exact: schur_proj.
by rewrite -big_distrl /= -/(\tr K) trK divff // pnatr_eq0.
Qed.

(** Marginals of the full sample (k = r). *)
Lemma chainE_marginal r K T : isproj K -> \tr K = r%:R -> uniq T ->
  chainE r r K (fun ys => (all (mem ys) T)%:R) = pm K T.
Proof.
elim: r K T => [|r IH] K T P trK uT /=.
  case: T uT => [|t T] uT /=; first by rewrite pm_nil.
  rewrite (@pm_proj_diag0 K t) ?inE ?eqxx //.
  move/eqP: trK; rewrite /mxtrace psumr_eq0 => [/allP h|i _]; last exact: proj_diag_ge0.
  by apply/eqP; apply: h; rewrite mem_index_enum.
transitivity (\sum_y (pm K (y :: T) + (y \in T)%:R * pm K T) / r.+1%:R).
  apply: eq_bigr => y _; have [Ky|Ky] := eqVneq (K y y) 0.
    rewrite Ky !mul0r (pm_proj_diag0 P Ky) ?inE ?eqxx // add0r.
    by case: (boolP (y \in T)) => [yT|_]; rewrite ?mul0r // (pm_proj_diag0 P Ky yT) mulr0 mul0r.
  have PS := schur_proj P Ky; have tS := schur_trS P trK Ky.
  case: (boolP (y \in T)) => yT.
    rewrite (@eq_chainE _ _ _ _ (fun ys => (all (mem ys) (rem y T))%:R)); last first.
      move=> ys; rewrite (perm_all _ (perm_to_rem yT)) /= inE eqxx /=; congr (_%:R).
      apply: congr1; apply: eq_in_all => z zr; rewrite !inE.
      suff /negPf -> : z != y by [].
      by apply: contraTneq zr => ->; rewrite mem_rem_uniq // !inE eqxx.
    rewrite IH ?rem_uniq // (@pm_dup _ _ K (y :: T)) /= ?yT // add0r mul1r.
    by rewrite (pm_rem K yT) pm_cons //; ring.
  rewrite (@eq_chainE _ _ _ _ (fun ys => (all (mem ys) T)%:R)); last first.
    move=> ys; congr (_%:R); apply: congr1; apply: eq_in_all => z zT; rewrite !inE.
    by suff /negPf -> : z != y by []; apply: contraTneq zT => ->.
  by rewrite IH // pm_cons // mul0r addr0; ring.
rewrite -big_distrl /= big_split /= (sum_pm T P trK) -big_distrl /=.
have -> : \sum_y (y \in T)%:R = (size T)%:R :> R.
  rewrite -(card_uniqP uT) -sum1_card natr_sum [RHS]big_mkcond /=.
  by apply: eq_bigr => y _; case: (y \in T).
by rewrite -mulrDl subrK mulrAC divff ?mul1r // pnatr_eq0.
Qed.

End Proj.
