(** * WilsonTerm: Wilson's algorithm terminates almost surely, at a geometric rate. *)
From mathcomp Require Import all_ssreflect all_algebra.
From Verif Require Import Prob McmcModel Mcmc Finite TreeSpec TreeLin TreePar TreeModel P_Ust LapLin LapTree LoopTerm WilsonInv WilsonLaw.
Set Implicit Arguments. Unset Strict Implicit. Unset Printing Implicit Defensive.
Import Order.Theory GRing.Theory Num.Theory.
Local Open Scope ring_scope.

Section Term.
Variables (R : rcfType) (n : nat) (g : rel 'I_n.+1) (neighbors : 'I_n.+1 -> seq 'I_n.+1).
Notation V := 'I_n.+1.
Hypotheses (gs : symmetric g) (gi : irreflexive g) (gc : forall u v, connect g u v).
Hypothesis nbP : forall u, uniq (neighbors u) /\ neighbors u =i g u.
Variable r : V.
Local Notation wst := (wst n).

Definition wrun (st : wst) := (w_nb st < n.+1)%N.
Definition wout (st : wst) := tree_edges (w_branches st).
Lemma wilson_loop_loop f st F : E (wilson_loop R neighbors f st) F = E (loop (wilson_step R neighbors) wrun wout f st) F.
Proof.
elim: f st => [|f IH] st; first by rewrite wilson_loopE.
rewrite wilson_loopE loopE -/(wrun st); case: ifP => // _; rewrite !E_bind; apply: eq_E.
Qed.

Definition wphi (st : wst) : nat := ((n.+1 - w_nb st) * n.+2 + (if w_path st is [::] then n.+1 else gdist g (Cset st) (w_n0 st)))%N.
Definition wK : nat := (n.+1 * n.+2)%N.

Lemma wC0 st : winv g r st -> Cset st != set0.
Proof. by case=> -[rC _ _ _ _] _; apply/set0Pn; exists r. Qed.
Lemma wdist_le st : winv g r st -> ((if w_path st is [::] then n.+1 else gdist g (Cset st) (w_n0 st)) <= n.+1)%N.
Proof. by move=> /wC0 C0; case: (w_path st) => [|x p] //; apply: leqW; apply: gdist_le. Qed.
Lemma wnb_gt0 st : winv g r st -> (0 < w_nb st)%N.
Proof. by move=> wi; case: (wi) => -[_ -> _ _ _] _; rewrite card_gt0 wC0. Qed.
Lemma wphi_le st : winv g r st -> (wphi st <= wK)%N.
Proof.
move=> wi; rewrite /wphi /wK [X in (_ <= X)%N]mulSnr leq_add //; last exact: leqW (wdist_le wi).
by rewrite leq_mul2r /= leq_subLR; have := wnb_gt0 wi; case: (w_nb st) => // k _; rewrite addSn ltnS leq_addl.
Qed.

Lemma wphi_in st st' : winv g r st -> winv g r st' -> wrun st -> (w_nb st < w_nb st')%N -> (wphi st' < wphi st)%N.
Proof.
move=> wi wi' rs h; rewrite /wphi.
have -> : (n.+1 - w_nb st = (n.+1 - w_nb st).-1.+1)%N by rewrite prednK // subn_gt0.
rewrite mulSnr -addnA -addnS; apply: leq_add.
  by rewrite leq_mul2r /= -ltnS prednK ?subn_gt0 // ltn_sub2l.
by rewrite ltn_addr // ltnS; apply: wdist_le.
Qed.

Lemma newC_gt st : winv g r st -> wrun st -> w_path st != [::] -> (w_nb st < #|newC st|)%N.
Proof.
move=> [[rC kE _ _ _] pi] rs pN; have [_ pC _ _ _] := pi rs; rewrite kE; apply: proper_card; apply/properP; split; first exact: subsetUl.
case pE : (w_path st) pN pC => [|x p] // _ /andP[xC _]; exists x => //.
by rewrite /newC !inE pE mem_head orbT.
Qed.

Lemma progress_w st : winv g r st -> wrun st ->
  exists2 w, g (w_n0 st) w & E (wilson_body R st w) (fun st' => (~~ wrun st' || (wphi st' < wphi st)%N)%:R) = 1.
Proof.
move=> wi rs; have n0 : (0 < n)%N by apply: n_pos rs; case: wi => h _; exact: h.
have C0 := wC0 wi; case: (wi) => ti pi; have [up pC _ _ [n0E sp hd pnil]] := pi rs.
have out w : w \notin Cset st -> g (w_n0 st) w -> (w_path st != [::] -> (gdist g (Cset st) w < gdist g (Cset st) (w_n0 st))%N) ->
    E (wilson_body R st w) (fun st' => (~~ wrun st' || (wphi st' < wphi st)%N)%:R) = 1.
  move=> wC gw hw; have [s' [-> CE wi']] := body_out R wi rs wC gw; rewrite ret_E.
  suff -> : (wphi (WSt w s' (w_nb st) (ext (w_path st) w) (w_branches st)) < wphi st)%N by rewrite orbT.
  rewrite /wphi /= CE -addnS leq_add2l; have := ext_nil (w_path st) w; case: (ext _ _) => // _ _ _.
  by case: (w_path st) hw => [_|x p]; [rewrite ltnS; apply: gdist_le|apply].
case pE : (w_path st) => [|x p].
  have := deg_pos gc nbP (w_n0 st) n0; case nE : (neighbors (w_n0 st)) => [|w t] // _.
  have gw : g (w_n0 st) w by rewrite -(nb_g nbP) nE mem_head.
  exists w => //; apply: out => //; last by rewrite pE.
  by rewrite (nb_one ti (pnil pE)) inE; apply: contraTneq gw => ->; rewrite n0E pE /= gi.
have zC : w_n0 st \notin Cset st by apply: (allP pC); rewrite n0E pE /= mem_last.
have [w gw hw] := gdist_step gc C0 zC; exists w => //.
case: (boolP (w \in Cset st)) => wC; last by apply: out.
have [s' [bE CE pN ti' hx]] := body_in R gi wi rs wC gw.
have tot : total (wilson_body R st w).
  apply: noraise_total => y; rewrite bE; case uE : (unvisited _) => [|x0 t] //.
  by case/unif_any.
rewrite -[RHS]tot; apply: eq_E_possible => st' h.
have wi' : winv g r st'.
  move: h; rewrite bE; case uE : (unvisited _) => [|x0 t].
    by move=> [->]; split=> //=; rewrite (unvisited_nil uE) cardsT card_ord ltnn.
  rewrite -uE => h; have [y] := unif_possible h; rewrite mem_filter => /andP[yC _] [->]; exact: hx.
have nE : w_nb st' = #|newC st|.
  by move: h; rewrite bE; case: (unvisited _) => [[->] //|x0 t] h; have [y _ [->]] := unif_possible h.
by rewrite (wphi_in wi wi' rs) ?orbT // nE newC_gt.
Qed.

Lemma deg_le u : (deg g u <= n.+1)%N.
Proof. by rewrite -[X in (_ <= X)%N]card_ord; apply: max_card. Qed.

Theorem wilson_term k fuel st : winv g r st -> (k * wK <= fuel)%N ->
  Pr (wilson_loop R neighbors fuel st) (fun o => ~~ isSome o) <= (1 - (n.+1)%:R^-1 ^+ wK) ^+ k.
Proof.
move=> wi kf; have -> : Pr (wilson_loop R neighbors fuel st) (fun o => ~~ isSome o) = q (wilson_step R neighbors) wrun wout fuel st.
  by rewrite /q /Pr wilson_loop_loop; apply: eq_E => -[].
apply: (@loop_term R _ _ _ _ _ (winv g r) _ _ wphi) => //.
- by move=> s s' si rs; apply: (winv_step gi nbP).
- by move=> s si rs; apply: noraise_total => x; apply: (winv_noraise gi gc nbP si rs).
- by rewrite invr_ge0 ler0n.
- by rewrite invf_le1 ?ltr0n // ler1n.
- exact: wphi_le.
- by move=> s si rs; rewrite /wphi ltn_addr // muln_gt0 subn_gt0 -/(wrun s) rs.
- move=> s si rs; case: (si) => ti _; rewrite /Pr (step_E gc nbP _ ti rs).
  have [w gw e] := progress_w si rs; rewrite (bigD1 w) //= e mulrDr mulr1.
  have d0 : 0 < (deg g (w_n0 s))%:R :> R by rewrite ltr0n -(size_nb nbP); apply: (deg_pos gc nbP); exact: (n_pos ti rs).
  apply: (@le_trans _ _ ((deg g (w_n0 s))%:R^-1)); first by rewrite lef_pinv ?ler_nat ?deg_le ?posrE ?d0 // ltr0n.
  rewrite ler_addl mulr_ge0 ?invr_ge0 ?ler0n // sumr_ge0 // => y _; apply: E_ge0 => a; by rewrite ler0n.
Qed.
End Term.
