(** * ProjKuTa: mode 'KuTa12' follows the chain rule, for every QR routine meeting its contract. *)
From mathcomp Require Import all_ssreflect all_algebra.
From mathcomp.algebra_tactics Require Import ring.
From Verif Require Import Prob Minor Chain ExactModel ProjGS ProjEig.
Set Implicit Arguments. Unset Strict Implicit. Unset Printing Implicit Defensive.
Import Order.Theory GRing.Theory Num.Theory.
Local Open Scope ring_scope.

Section KuTa.
Variables (R : rcfType) (N : nat).

(** Contract of scipy.linalg.qr(W, mode='economic')[0] for a full column rank W:
    orthonormal columns spanning the column space of W. *)
Definition qr_contract (qr : forall r : nat, 'M[R]_(N, r) -> 'M[R]_(N, r)) : Prop :=
  forall r (W : 'M[R]_(N, r)), row_free W^T ->
    (qr r W)^T *m qr r W = 1%:M /\ ((qr r W)^T == W^T)%MS.

(** Two orthogonal projections with P S = S and S P = P are equal. *)
Lemma proj_eq (P S : 'M[R]_N) : isproj P -> isproj S -> P *m S = S -> S *m P = P -> P = S.
Proof.
move=> [sP _] [sS _] PS SP; by rewrite -[LHS]sP -{1}SP trmx_mul sP sS PS.
Qed.

Variable qr : forall r : nat, 'M[R]_(N, r) -> 'M[R]_(N, r).
Hypothesis qrP : qr_contract qr.

(** One elimination step. *)
Section Step.
Variables (r : nat) (V : 'M[R]_(N, r)) (j : 'I_N) (k : 'I_r).
Hypotheses (oV : V^T *m V = 1%:M) (Vjk : V j k != 0).
Let K := V *m V^T.
Let V1 : 'M[R]_(N, r) := \matrix_(i, l) (V i l - V i k / V j k * V j l).
Let W := col' k V1.

Lemma step_Kj : K j j != 0.
Proof.
rewrite /K -rowdotE; apply/negP => /eqP h; move/eqP: Vjk; apply; apply/eqP.
move/eqP: h; rewrite psumr_eq0; last by move=> l _; rewrite -expr2 sqr_ge0.
by move=> /allP /(_ k (mem_index_enum _)); rewrite -expr2 sqrf_eq0.
Qed.

(** V1 = V *m M for an explicit M; its column k is zero *)
Let M : 'M[R]_r := \matrix_(a, l) ((a == l)%:R - (a == k)%:R / V j k * V j l).

Lemma V1E : V1 = V *m M.
Proof.
apply/matrixP=> i l; rewrite !mxE.
transitivity (\sum_a (V i a * (a == l)%:R - V i a * (a == k)%:R * (V j l / V j k))); last first.
  by apply: eq_bigr => a _; rewrite !mxE mulrBr; congr (_ - _); rewrite -!mulrA [X in _ = _ * (_ * X)]mulrC.
rewrite sumrB (bigD1 l) //= eqxx mulr1 big1 ?addr0; last by move=> a /negPf ->; rewrite mulr0.
rewrite (bigD1 k) //= eqxx mulr1 big1 ?addr0; last by move=> a /negPf ->; rewrite mulr0 mul0r.
by congr (_ - _); (fixeq; ring).
Qed.

Lemma WE : W = V *m col' k M.
Proof.
rewrite /W V1E; apply/matrixP=> i l; rewrite !mxE; apply: eq_bigr => a _; by rewrite !mxE.
Qed.

Lemma W_free : row_free W^T.
Proof.
(* extract rows other than k of the coefficients *)
apply/row_freeP; exists (V *m (\matrix_(a, l) (a == lift k l)%:R)).
rewrite WE trmx_mul mulmxA -(mulmxA _ V^T V) oV mulmx1.
apply/matrixP=> a b; rewrite !mxE (bigD1 (lift k b)) //= big1 ?addr0; last first.
  by move=> c /negPf cb; rewrite !mxE cb mulr0.
rewrite !mxE eqxx mulr1 (inj_eq lift_inj) [lift k b == k]eq_sym (negPf (neq_lift k b)) mul0r mul0r subr0.
by rewrite eq_sym.
Qed.

Lemma KV : K *m V = V. Proof. by rewrite /K -mulmxA oV mulmx1. Qed.

(** the row j of W vanishes *)
Lemma Wj l : W j l = 0.
Proof. by rewrite !mxE divff // mul1r subrr. Qed.

(** schur fixes W *)
Lemma schurW : schur K j *m W = W.
Proof.
apply/matrixP=> i l; rewrite !mxE.
transitivity (\sum_a (K i a * W a l - K i j / K j j * (K j a * W a l))).
  by apply: eq_bigr => a _; rewrite !mxE; (fixeq; ring).
rewrite sumrB -big_distrr /=.
have KW b : \sum_a K b a * W a l = W b l.
  have : K *m W = W by rewrite WE mulmxA KV.
  by move/matrixP/(_ b l); rewrite mxE.
by rewrite !KW Wj mulr0 subr0 !mxE.
Qed.

(** the columns of the Schur complement are combinations of the columns of W *)
Lemma schur_span : exists Z, schur K j = W *m Z.
Proof.
(* schur K j = V (V^T - V_j^T K_j. / Kjj) = V C with C k-th row eliminated using V_j C = 0 *)
pose C : 'M[R]_(r, N) := \matrix_(a, i) (V i a - V j a * K j i / K j j).
have SE : schur K j = V *m C.
  apply/matrixP=> i l; rewrite schurE [RHS]mxE.
  have e b : \sum_a V i a * V^T a b = K i b by rewrite [RHS]mxE.
  transitivity (\sum_a (V i a * V^T a l - V i a * V^T a j * (K j l / K j j))).
    by rewrite sumrB -big_distrl /= !e mulrA.
  apply: eq_bigr => a _; rewrite [C a l]mxE [V^T a l]mxE [V^T a j]mxE mulrBr; congr (_ - _).
  by rewrite !mulrA.
have rC l : \sum_a V j a * C a l = 0.
  have := schur_self l step_Kj; by rewrite SE mxE.
(* V C = V1 C since V_j C = 0 *)
have VC : V *m C = V1 *m C.
  apply/matrixP=> i l; rewrite !mxE.
  transitivity (\sum_a (V i a * C a l - V i k / V j k * (V j a * C a l))).
    by rewrite sumrB -big_distrr /= rC mulr0 subr0.
  by apply: eq_bigr => a _; rewrite !mxE; (fixeq; ring).
exists (row' k C); rewrite SE VC; apply/matrixP=> i l; rewrite !mxE.
rewrite (bigD1 k) //=.
have -> : V1 i k = 0 by rewrite !mxE mulfVK ?subrr.
rewrite mul0r add0r (reindex_omap (lift k) (unlift k)) /=; last first.
  by move=> a ak; case: unliftP ak => [b -> |->]; rewrite ?eqxx.
apply: eq_big => [a|a _]; first by rewrite liftK eqxx eq_sym neq_lift.
by rewrite !mxE.
Qed.

Lemma qr_schur : (qr W)^T *m qr W = 1%:M /\ qr W *m (qr W)^T = schur K j.
Proof.
have [oQ /andP[sQW sWQ]] := qrP W_free.
move: (qr W) oQ sQW sWQ => Q oQ sQW sWQ; split => //.
have [D DE] := submxP sWQ; have {}DE : W = Q *m D^T by rewrite -[LHS]trmxK DE trmx_mul trmxK.
have [D' DE'] := submxP sQW; have {}DE' : Q = W *m D'^T by rewrite -[LHS]trmxK DE' trmx_mul trmxK.
have [Z ZE] := schur_span.
apply: proj_eq.
- exact: ortho_proj.
- by apply: schur_proj step_Kj; exact: ortho_proj.
- by rewrite ZE DE !mulmxA -(mulmxA Q) oQ mulmx1.
- by rewrite mulmxA {1}DE' mulmxA schurW -DE'.
Qed.
End Step.

Lemma eig_KuTa12_loopE rank0 sz n it sampl r (V : 'M[R]_(N, r)) f :
  V^T *m V = 1%:M -> r = (rank0 - it)%N -> (it + n)%N = sz -> (sz <= rank0)%N ->
  E (eig_KuTa12_loop qr rank0 sz n it sampl V) f =
  chainE n (rank0 - it) (V *m V^T) (fun ys => f (sampl ++ ys)).
Proof.
elim: n it r V sampl => [|n IH] it r V sampl oV rr szE szr.
  by rewrite /= cats0.
have itr : (it < rank0)%N by apply: leq_trans szr; rewrite -szE addnS ltnS leq_addr.
have rE : rank0%:R - it%:R = (rank0 - it)%:R :> R by rewrite natrB // ltnW.
have P := ortho_proj oV; have tV := ortho_tr oV.
rewrite [LHS](@E_choice_proj _ _ (V *m V^T) (rank0 - it)) //; first last.
- by move=> i; rewrite mem_enum.
- by move=> i _; rewrite rowdotE ger0_norm ?proj_diag_ge0 // rE.
- exact: enum_uniq.
- by rewrite subn_gt0.
- by rewrite -rr.
rewrite [chainE _ _ _ _]/=; apply: eq_bigr => j _.
have [Kj|Kj] := eqVneq ((V *m V^T) j j) 0; first by rewrite Kj !mul0r.
congr (_ * _).
case: eqP => [sz1|sz1].
  have -> : n = 0%N by apply: (@addnI it); move: szE; rewrite -sz1 addnS addn0 => [[]].
  by rewrite /= cats1.
rewrite -subnS; case: pickP => [k Vk|V0]; last first.
  exfalso; move/eqP: Kj; apply; rewrite -rowdotE /rowdot big1 // => k _.
  by move/eqP: (V0 k) => ->; rewrite mul0r.
have [oQ qE] := qr_schur oV Vk.
rewrite IH //.
- by rewrite qE; apply: eq_chainE => ys; rewrite cat_rcons.
- by rewrite rr subnS.
- by rewrite addSnnS.
Qed.

Lemma eig_KuTa12_E r (V : 'M[R]_(N, r)) size f : V^T *m V = 1%:M ->
  (if size is Some s then s <= r else true)%N ->
  E (proj_dpp_sampler_eig_KuTa12 qr V size) f = chainE (get_size size r) r (V *m V^T) f.
Proof.
move=> oV sr; rewrite /proj_dpp_sampler_eig_KuTa12.
have szr : (get_size size r <= r)%N by case: size sr => //=.
by rewrite eig_KuTa12_loopE ?subn0.
Qed.

End KuTa.
