(** * WilsonLaw: a function of the state of Wilson's algorithm that bounds the probability of ending with a given tree. *)
From mathcomp Require Import all_ssreflect all_algebra.
From Verif Require Import Prob McmcModel Mcmc Finite TreeSpec TreeLin TreePar TreeModel P_Ust LapLin LapTree LoopTerm WilsonInv.
Set Implicit Arguments. Unset Strict Implicit. Unset Printing Implicit Defensive.
Import Order.Theory GRing.Theory Num.Theory.
Local Open Scope ring_scope.

(** ** climbing to the root *)
Section Climb.
Variables (n : nat) (T : seq ('I_n.+1 * 'I_n.+1)) (r : 'I_n.+1).
Notation V := 'I_n.+1.
Hypotheses (con : gconnected T) (acy : acyclic T).
Local Notation par := (par r con).
Local Notation dist := (dist r con).
Implicit Types (C : {set V}).

Lemma cind (P : V -> Prop) : P r -> (forall v, v != r -> P (par v) -> P v) -> forall v, P v.
Proof. exact: par_ind. Qed.

Fixpoint climb (k : nat) C v : seq V := if v \in C then [::] else if k is k'.+1 then v :: climb k' C (par v) else [::].
Definition clb C v := climb (dist v).+1 C v.

Lemma climb_indep C k k' v : r \in C -> (dist v < k)%N -> (dist v < k')%N -> climb k C v = climb k' C v.
Proof.
move=> rC; elim: k k' v => // k IH [//|k'] v; rewrite !ltnS => h1 h2 /=; case: ifP => // vC.
have vr : v != r by apply: contraFneq vC => ->.
by have [_ h] := parP con vr; congr (_ :: _); apply: IH; [apply: leq_trans h1|apply: leq_trans h2].
Qed.
Lemma clb_in C v : v \in C -> clb C v = [::]. Proof. by move=> h; rewrite /clb /= h. Qed.
Lemma clb_out C v : r \in C -> v \notin C -> clb C v = v :: clb C (par v).
Proof.
move=> rC vC; rewrite {1}/clb /= (negbTE vC); congr (_ :: _).
have vr : v != r by apply: contraNneq vC => ->.
by apply: climb_indep => //; have [_ h] := parP con vr.
Qed.
Lemma clb_notin C v : r \in C -> all (fun u => u \notin C) (clb C v).
Proof.
move=> rC; elim/cind: v => [|v vr IH]; first by rewrite clb_in.
case: (boolP (v \in C)) => vC; first by rewrite clb_in.
by rewrite clb_out //= vC.
Qed.
Lemma clb_dist C v : r \in C -> all (fun u => (dist u <= dist v)%N) (clb C v).
Proof.
move=> rC; elim/cind: v => [|v vr IH]; first by rewrite clb_in.
case: (boolP (v \in C)) => vC; first by rewrite clb_in.
rewrite clb_out //= leqnn /=; apply: sub_all IH => u h; have [_ h'] := parP con vr.
by apply: leq_trans h (ltnW h').
Qed.
Lemma clb_uniq C v : r \in C -> uniq (clb C v).
Proof.
move=> rC; elim/cind: v => [|v vr IH]; first by rewrite clb_in.
case: (boolP (v \in C)) => vC; first by rewrite clb_in.
rewrite clb_out //= IH andbT; apply/negP => /(allP (clb_dist _ rC)).
by have [_ h'] := parP con vr; rewrite leqNgt h'.
Qed.
(** the node of C that is reached *)
Definition top C v : V := par (last v (clb C v)).
Lemma clb_path C v : r \in C -> v \notin C ->
  exists2 c, c \in C & path (fun a b => par a == b) v (rcons (clb C (par v)) c).
Proof.
move=> rC; elim/cind: v => [|v vr IH]; first by rewrite rC.
move=> vC; case: (boolP (par v \in C)) => pC.
  by exists (par v) => //; rewrite clb_in //= eqxx.
have [c cC pc] := IH pC; exists c => //.
by rewrite [clb C (par v)]clb_out //= eqxx.
Qed.
Lemma clb_eq C x p w : r \in C -> w \in C -> all (fun u => u \notin C) (x :: p) ->
  path (fun a b => par a == b) x (rcons p w) -> clb C x = x :: p.
Proof.
move=> rC wC; elim: p x => [|y p IH] x /= /andP[xC pC].
  by case/andP => /eqP pw _; rewrite clb_out // pw clb_in.
by case/andP => /eqP py pp; rewrite clb_out // py (IH y pC pp).
Qed.
Lemma clb_last C x p w c : r \in C -> x \notin C -> clb C (par x) = p -> 
  path (fun a b => par a == b) x (rcons p w) -> path (fun a b => par a == b) x (rcons p c) -> w = c.
Proof.
by move=> rC xC _; rewrite !rcons_path => /andP[_ /eqP <-] /andP[_ /eqP <-].
Qed.
End Climb.

Section Law.
Variables (R : rcfType) (n : nat) (g : rel 'I_n.+1) (neighbors : 'I_n.+1 -> seq 'I_n.+1).
Notation V := 'I_n.+1.
Hypotheses (gs : symmetric g) (gi : irreflexive g) (gc : forall u v, connect g u v).
Hypothesis nbP : forall u, uniq (neighbors u) /\ neighbors u =i g u.
Variables (r : V) (T : seq (V * V)).
Hypotheses (Tg : all (fun a => g a.1 a.2) T) (con : gconnected T) (acy : acyclic T).
Local Notation wst := (wst n).
Local Notation par := (par r con).
Local Notation clb := (clb r con).

Definition okb (st : wst) := all (fun a => adj T a.1 a.2) (tree_edges (w_branches st)).
Definition h1 (gam : seq V) (z : V) : R := \sum_(v | g r v) HH R g [set r] (rev (clb [set r] v)) gam z.
Definition hW (st : wst) : R :=
  if ~~ okb st then 0 else if ~~ (w_nb st < n.+1)%N then 1
  else if w_nb st == 1%N then
    (if w_path st is [::] then (deg g r)%:R^-1 * \sum_(w | g r w) h1 [:: w] w else h1 (w_path st) (last r (w_path st)))
  else HH R g (Cset st) (clb (Cset st) (head r (w_path st))) (w_path st) (last r (w_path st)).

Definition par_inv (st : wst) := okb st -> forall v, v \in Cset st -> par v \in Cset st.

Lemma adjTg u v : adj T u v -> g u v.
Proof. by case/orP => /(allP Tg) //=; rewrite gs. Qed.
Lemma set1_neq0 : [set r] != set0 :> {set V}. Proof. by apply/set0Pn; exists r; rewrite inE. Qed.
Lemma C_neq0 (C : {set V}) : r \in C -> C != set0. Proof. by move=> h; apply/set0Pn; exists r. Qed.
Lemma h1_ge0 gam z : 0 <= h1 gam z.
Proof. by apply: sumr_ge0 => v _; apply: HH_ge0 => //; apply: set1_neq0. Qed.
Lemma hW_ge0 st : tree_inv g r st -> 0 <= hW st.
Proof.
case=> rC _ _ _ _; rewrite /hW; case: ifP => // _; case: ifP => _; first exact: ler01.
case: ifP => _; last by apply: HH_ge0 => //; apply: C_neq0.
case: (w_path st) => [|x p]; last exact: h1_ge0.
by rewrite mulr_ge0 ?invr_ge0 ?ler0n // sumr_ge0 // => w _; apply: h1_ge0.
Qed.

(** the new branch belongs to the tree T *)
Lemma in_desc st w : winv g r st -> par_inv st -> (w_nb st < n.+1)%N -> w \in Cset st -> g (w_n0 st) w ->
  all (fun a => adj T a.1 a.2) (tree_edges (new_branches st w)) ->
  okb st /\ (if w_nb st == 1%N then path (fun a b => par b == a) r (w_path st) else path (fun a b => par b == a) w (rev (w_path st))).
Proof.
move=> [ti pi] pinv nb wC gw; move: (pi nb) => [up pC _ _ _]; rewrite /new_branches tree_edges_rcons all_cat => /andP[ok bok].
split=> //; have cl := pinv ok; case: (ti) => rC _ _ _ _; move: bok; case: eqP => [n1|n1].
  have -> : w = r by move: wC; rewrite (nb_one ti n1) inE => /eqP.
  by rewrite all_branch => pp; apply: (descend acy cl rC pp).
case: (w_path st) up pC => // x p up pC; rewrite [rcons _ _]/= all_branch => pp.
apply: (descend acy cl wC); rewrite ?rev_uniq ?all_rev //.
have := rev_path (adj T) x (rcons p w); rewrite last_rcons belast_rcons => ->.
by rewrite (eq_path (e' := adj T)) // => a b; rewrite adj_sym.
Qed.

(** the set of the nodes of the tree stays closed under parents *)
Lemma desc_closed (C : {set V}) w q : (forall v, v \in C -> par v \in C) -> w \in C -> path (fun a b => par b == a) w q ->
  forall v, v \in C :|: [set u in q] -> par v \in C :|: [set u in q].
Proof.
move=> cl wC pq v; rewrite !inE => /orP[/cl -> //|vq].
case/splitPr: vq pq => q1 q2; rewrite cat_path /= => /and3P[_ /eqP -> _].
have := mem_last w q1; rewrite inE => /orP[/eqP ->|h]; first by rewrite wC.
by rewrite mem_cat h orbT.
Qed.

Lemma par_inv_step st st' : winv g r st -> par_inv st -> (w_nb st < n.+1)%N -> possible (wilson_step R neighbors st) (inl st') -> par_inv st'.
Proof.
move=> wi pinv nb h; have [w wn] := unif_possible h; clear h.
have gw : g (w_n0 st) w by rewrite -(nb_g nbP).
case: (boolP (w \in Cset st)) => wC; last first.
  by have [s' [-> CE h]] := body_out R wi nb wC gw => -[->]; rewrite /par_inv CE.
have [s' [-> CE pN ti hx]] := body_in R gi wi nb wC gw.
suff key x p : par_inv (WSt x s' #|newC st| p (new_branches st w)).
  case: (unvisited _) => [[->] //|x0 t] h; have [x _ [->]] := unif_possible h; exact: key.
rewrite /par_inv CE => ok; have [ok' pp] := in_desc wi pinv nb wC gw ok.
have cl := pinv ok'; case: (wi) => -[rC _ _ _ _] _.
rewrite /newC; have -> : [set v in w_path st] = [set v in rev (w_path st)] by apply/setP => v; rewrite !inE mem_rev.
move: pp; case: eqP => _ pp; last exact: (desc_closed cl wC pp).
have -> : [set v in rev (w_path st)] = [set v in w_path st] by apply/setP => v; rewrite !inE mem_rev.
exact: (desc_closed cl rC pp).
Qed.

Lemma sum_nb u (F : V -> R) : \sum_(w <- neighbors u) F w = \sum_(w | g u w) F w.
Proof.
have [un h] := nbP u; rewrite -(big_filter (index_enum _) (g u)); apply: perm_big; apply: uniq_perm => //.
  by rewrite filter_uniq // index_enum_uniq.
by move=> v; rewrite (nb_g nbP) mem_filter mem_index_enum andbT.
Qed.
Lemma size_nb u : size (neighbors u) = deg g u.
Proof. by have [un h] := nbP u; rewrite /deg -(card_uniqP un); apply: eq_card => v; rewrite h. Qed.

Lemma n_pos st : tree_inv g r st -> (w_nb st < n.+1)%N -> (0 < n)%N.
Proof.
case=> rC kE _ _ _ nb; rewrite -ltnS; apply: leq_trans nb; rewrite kE ltnS card_gt0.
by apply/set0Pn; exists r.
Qed.

Lemma step_E st F : tree_inv g r st -> (w_nb st < n.+1)%N ->
  E (wilson_step R neighbors st) F = (deg g (w_n0 st))%:R^-1 * \sum_(w | g (w_n0 st) w) E (wilson_body R st w) F.
Proof.
move=> ti nb; rewrite /wilson_step unif_E ?sum_nb ?size_nb // -size_nb; apply: deg_pos => //; exact: n_pos nb.
Qed.

(** the value after a branch of T was added *)
Lemma restart_E st w s' : winv g r st -> w_path st != [::] -> (w_nb st < n.+1)%N ->
  let st' x p := WSt x s' #|newC st| p (new_branches st w) in
  (forall x p, Cset (st' x p) = newC st) ->
  all (fun a => adj T a.1 a.2) (tree_edges (new_branches st w)) ->
  E (if unvisited (newC st) is [::] then Ret (st' (w_n0 st) (w_path st)) else unif (unvisited (newC st)) (fun x => Ret (st' x [:: x])) : prog R wst) hW
  = (d R g (newC st))^-1.
Proof.
move=> [[rC kE _ _ _] pinv] pN nb st' CE ok.
have rC' : r \in newC st by rewrite !inE; move: rC; rewrite inE => ->.
have C2 : (1 < #|newC st|)%N.
  have [_ pC _ _ _] := pinv nb; case pE : (w_path st) pN pC => [|x p] // _ /andP[xC _].
  apply/card_gt1P; exists r, x; split=> //; last by apply: contraNneq xC => <-.
  by rewrite !inE pE mem_head orbT.
case uE : (unvisited _) => [|x0 t].
  have CT := unvisited_nil uE; rewrite ret_E /hW /okb ok /= CT cardsT card_ord ltnn /= d_setT invr1 //.
rewrite -uE unif_E ?uE // -uE.
rewrite (eq_big_seq (fun=> (d R g (newC st))^-1)) => [|x].
  rewrite big_const_seq count_predT iter_addr_0 -[_^-1 *+ _]mulr_natl mulrA mulVf ?mul1r //.
  by rewrite pnatr_eq0 uE.
rewrite mem_filter => /andP[xC _]; rewrite ret_E /hW /okb ok CE /=.
have -> : (#|newC st| < n.+1)%N.
  have /proper_card : newC st \proper setT by apply/properP; split; [apply: subsetT|exists x].
  by rewrite cardsT card_ord.
rewrite (gtn_eqF C2) /= clb_out //= eqxx hit_y // HH_nil addr0 mul1r //.
Qed.

Local Notation okT b := (all (fun a => adj T a.1 a.2) (tree_edges b)).
Lemma body_in_E st w : winv g r st -> (w_nb st < n.+1)%N -> w \in Cset st -> g (w_n0 st) w ->
  E (wilson_body R st w) hW = if okT (new_branches st w) then (d R g (newC st))^-1 else 0.
Proof.
move=> wi nb wC gw; have [s' [-> CE pN ti hx]] := body_in R gi wi nb wC gw.
case: ifP => ok; first exact: restart_E.
rewrite -(E_zero (if unvisited (newC st) is [::] then Ret (WSt (w_n0 st) s' #|newC st| (w_path st) (new_branches st w)) else unif (unvisited (newC st)) (fun x => Ret (WSt x s' #|newC st| [:: x] (new_branches st w))) : prog R wst)).
apply: eq_E_possible => st' h; suff e : w_branches st' = new_branches st w by rewrite /hW /okb e ok.
move: h; case: (unvisited _) => [[->] //|x0 t] h; by have [x _ [->]] := unif_possible h.
Qed.

Lemma body_out_E st w : winv g r st -> (w_nb st < n.+1)%N -> w \notin Cset st -> g (w_n0 st) w ->
  E (wilson_body R st w) hW = if ~~ okb st then 0 else
    if w_nb st == 1%N then h1 (ext (w_path st) w) w
    else HH R g (Cset st) (clb (Cset st) (head w (w_path st))) (ext (w_path st) w) w.
Proof.
move=> wi nb wC gw; have [s' [-> CE _]] := body_out R wi nb wC gw.
rewrite ret_E /hW /= CE nb last_ext head_ext /okb /=; case: ifP => // _; case: ifP => // _.
by case: (ext (w_path st) w) (ext_nil (w_path st) w).
Qed.

Lemma par_path_g x p c : all (fun v => v != r) (x :: p) -> path (fun a b => par a == b) x (rcons p c) -> path g x (rcons p c).
Proof.
elim: p x => [|y p IH] x /= /andP[xr pr] /andP[/eqP e pp]; have [h _] := parP con xr; rewrite e in h; rewrite adjTg //=.
exact: IH.
Qed.

Lemma down_rev (C : {set V}) x p : r \in C -> all (fun v => v \notin C) (x :: p) -> path (fun a b => par b == a) r (x :: p) ->
  par x \in C -> rev (clb C (last x p)) = x :: p.
Proof.
move=> rC aC pp xC.
have h := rev_path (fun a b => par a == b) r (x :: p); rewrite [last _ _]/= in h.
have pb : path (fun a b => par a == b) (last x p) (rev (belast r (x :: p))) by rewrite h.
clear h; rewrite [belast _ _]/= rev_cons in pb.
have aE : last x p :: rev (belast x p) = rev (x :: p) by rewrite (lastI x p) rev_rcons.
have px : par x = r by case/andP: pp => /eqP.
rewrite (clb_eq (p := rev (belast x p)) rC rC _ pb) ?aE ?revK //.
by rewrite all_rev.
Qed.

Lemma up_path_g v : g r v -> let y := rev (clb [set r] v) in
  if y is y0 :: y' then path g y0 (rcons y' r) else true.
Proof.
move=> rv; have vr : v \notin [set r] by rewrite inE; apply: contraTneq rv => ->; rewrite gi.
have r1 : r \in [set r] by rewrite inE.
have [c] := clb_path con r1 vr; rewrite inE => /eqP -> {c} pc.
have nr : all (fun u => u != r) (v :: clb [set r] (par v)).
  by have := clb_notin con v r1; rewrite clb_out //; apply: sub_all => u; rewrite inE.
have pg := par_path_g nr pc; rewrite [clb [set r] v]clb_out //.
move: pg; rewrite rcons_path => /andP[pg _].
have h : path g (last v (clb [set r] (par v))) (rev (belast v (clb [set r] (par v)))).
  by rewrite rev_path (eq_path (e' := g)) // => a b; rewrite gs.
rewrite (lastI v (clb _ _)) rev_rcons /= rcons_path h /=.
have : last (last v (clb [set r] (par v))) (rev (belast v (clb [set r] (par v)))) = v.
  by case: (clb [set r] (par v)) => //= a q; rewrite rev_cons last_rcons.
by move=> ->; rewrite gs.
Qed.

Lemma hW_step st : winv g r st -> par_inv st -> (w_nb st < n.+1)%N -> E (wilson_step R neighbors st) hW <= hW st.
Proof.
move=> wi pinv nb; case: (wi) => ti pi; have rC := ti_root ti; rewrite step_E //.
have dz0 : 0 < (deg g (w_n0 st))%:R :> R by rewrite ltr0n -size_nb; apply: (deg_pos gc nbP); apply: n_pos nb.
case: (boolP (okb st)) => ok; last first.
  rewrite big1 ?mulr0 => [|w gw]; first by rewrite hW_ge0.
  case: (boolP (w \in Cset st)) => wC; last by rewrite body_out_E // ok.
  by rewrite body_in_E // /new_branches tree_edges_rcons all_cat -/(okb st) (negbTE ok).
have [up pC _ _ [n0E sp hd pnil]] := pi nb.
case pE : (w_path st) => [|x p].
  have n1 := pnil pE; have C1 := nb_one ti n1; have z : w_n0 st = r by rewrite n0E pE.
  rewrite z /hW ok nb n1 pE /= ler_wpmul2l ?invr_ge0 ?ler0n // ler_sum // => w gw.
  have wC : w \notin Cset st by rewrite C1 inE; apply: contraTneq gw => ->; rewrite gi.
  by rewrite body_out_E ?z // ok n1 pE.
rewrite ler_pdivr_mull //; case: (boolP (w_nb st == 1%N)) => n1.
  have C1 := nb_one ti (eqP n1).
  have -> : hW st = h1 (x :: p) (last x p) by rewrite /hW ok nb n1 pE.
  have r1 : r \in [set r] by rewrite inE.
  have zE : w_n0 st = last x p by rewrite n0E pE.
  rewrite /h1 zE big_distrr /=.
  rewrite [X in _ <= X](eq_bigr (fun v => \sum_(w | g (last x p) w) (if w \in [set r] then ((rev (clb [set r] v) == x :: p) && (w == r))%:R / d R g ([set r] :|: [set u in rev (clb [set r] v)])
     else HH R g [set r] (rev (clb [set r] v)) (ext (x :: p) w) w))) => [|v rv]; last first.
    apply: (HH_harm R gi gc) => //.
    - by rewrite rev_uniq clb_uniq.
    - by rewrite all_rev clb_notin.
    - by rewrite -pE.
    - by rewrite -pE -C1.
    - exact: up_path_g.
  rewrite exchange_big /=; apply: ler_sum => w gw; rewrite -{1}C1.
  case: (boolP (w \in Cset st)) => wC; last first.
    by rewrite body_out_E ?zE // ok n1 pE.
  have wr : w = r by move: wC; rewrite C1 inE => /eqP.
  have ge v : 0 <= ((rev (clb [set r] v) == x :: p) && (w == r))%:R / d R g ([set r] :|: [set u in rev (clb [set r] v)]).
    by rewrite divr_ge0 ?ler0n // ltW // d_gt0 //; apply: C_neq0; rewrite !inE eqxx.
  rewrite body_in_E ?zE //; case: ifP => okn; last by apply: sumr_ge0.
  have gw' : g (w_n0 st) w by rewrite zE.
  have [_] := in_desc wi pinv nb wC gw' okn; rewrite n1 pE => pp.
  rewrite (bigD1 (last x p)) /=; last by rewrite gs -wr.
  have -> : rev (clb [set r] (last x p)) = x :: p.
    apply: down_rev => //; first by rewrite -pE -C1.
    by case/andP: pp => /eqP ->.
  rewrite eqxx wr eqxx mul1r ler_paddr //; first by apply: sumr_ge0 => v _; have := ge v; rewrite wr eqxx.
  by rewrite /newC C1 pE.
have -> : hW st = HH R g (Cset st) (clb (Cset st) x) (x :: p) (last x p) by rewrite /hW ok nb (negbTE n1) pE.
have xC : x \notin Cset st by move: pC; rewrite pE => /andP[].
have [c cC pc] := clb_path con rC xC.
have zE : w_n0 st = last x p by rewrite n0E pE.
have nr : all (fun u => u != r) (x :: clb (Cset st) (par x)).
  rewrite -clb_out //; apply: sub_all (clb_notin con x rC) => u; by apply: contraNneq => ->.
have := HH_harm R gi gc (y := clb (Cset st) x) (x0 := x) (gam := p) cC (clb_uniq con x rC) (clb_notin con x rC).
rewrite -pE => /(_ up pC); rewrite pE zE => -> /=; last by rewrite clb_out //=; apply: par_path_g.
apply: ler_sum => w gw; case: ifP => wC; last first.
  by rewrite body_out_E ?zE ?wC // ok (negbTE n1) pE.
rewrite body_in_E ?zE //; case: ifP => okn; last first.
  by rewrite divr_ge0 ?ler0n // ltW // d_gt0 //; apply: C_neq0; rewrite inE rC.
have gw' : g (w_n0 st) w by rewrite zE.
have [_] := in_desc wi pinv nb wC gw' okn; rewrite (negbTE n1) pE => pp.
have pp' : path (fun a b => par a == b) x (rcons p w).
  by have := rev_path (fun a b => par b == a) x (rcons p w); rewrite last_rcons belast_rcons pp.
have cE : clb (Cset st) x = x :: p by apply: clb_eq pp' => //; rewrite -pE.
have -> : w = c.
  have e : clb (Cset st) (par x) = p by move: cE; rewrite clb_out // => -[].
  by move: pc pp'; rewrite e !rcons_path => /andP[_ /eqP <-] /andP[_ /eqP <-].
by rewrite cE !eqxx mul1r /newC pE.
Qed.

Lemma hW_init : (0 < n)%N -> hW (wilson_init r) <= (d R g [set r])^-1.
Proof.
move=> n0; rewrite /hW /okb /= ltnS n0 /=.
have d0 : 0 < (deg g r)%:R :> R by rewrite ltr0n -size_nb; apply: (deg_pos gc nbP).
have D0 : 0 < d R g [set r] by apply: d_gt0 => //; apply: set1_neq0.
rewrite ler_pdivr_mull // /h1 exchange_big /=.
have -> : (deg g r)%:R * (d R g [set r])^-1 = \sum_(v | g r v) (d R g [set r])^-1.
  by rewrite sumr_const -[RHS]mulr_natl.
apply: ler_sum => v rv; case yE : (rev _) => [|y0 y] /=.
  by rewrite big1 ?invr_ge0 ?ltW.
have e w : (if w == y0 then hitf R g [set r] y0 w / d R g [set r] + HH R g (y0 |: [set r]) y [::] w else 0) = (w == y0)%:R / d R g [set r].
  by case: eqP => [->|_]; rewrite ?mul0r // hit_y // HH_nil addr0.
under eq_bigr do rewrite e; rewrite -big_distrl /= ler_pdivr_mulr // mulVf ?gt_eqF //.
rewrite big_mkcond (bigD1 y0) //= eqxx big1 ?addr0 => [|w /negbTE ->]; first by case: ifP => _; rewrite ?ler01.
by case: ifP.
Qed.

Lemma par_inv_init : par_inv (wilson_init r).
Proof.
move=> _ v; rewrite !inE /=; case: eqP => [->|//] _; by rewrite par_r eqxx.
Qed.

Lemma wilson_upper fuel st : winv g r st -> par_inv st ->
  Pr (wilson_loop R neighbors fuel st) (fun o => if o is Some es then same_graph es T else false) <= hW st.
Proof.
rewrite /Pr; set Q := (fun o : option _ => _); elim: fuel st => [|f IH] st wi pinv; rewrite wilson_loopE; case: ifP => nb.
- by rewrite ret_E hW_ge0 //; case: wi.
- rewrite ret_E /Q /hW nb /=; case: (boolP (okb st)) => ok; first by rewrite lern1 leq_b1.
  by case: same_graphP => // h; case/negP: ok; apply/allP => -[u v] uv /=; rewrite -h /adj uv.
- rewrite E_bind; apply: le_trans (hW_step wi pinv nb); apply: E_le_poss => st' h; apply: IH.
    by apply: (winv_step gi nbP) h.
  exact: par_inv_step h.
- rewrite ret_E /Q /hW nb /=; case: (boolP (okb st)) => ok; first by rewrite lern1 leq_b1.
  by case: same_graphP => // h; case/negP: ok; apply/allP => -[u v] uv /=; rewrite -h /adj uv.
Qed.

Theorem wilson_le fuel : (0 < n)%N ->
  Pr (wilson_loop R neighbors fuel (wilson_init r)) (fun o => if o is Some es then same_graph es T else false) <= (d R g [set r])^-1.
Proof.
by move=> n0; apply: le_trans (hW_init n0); apply: wilson_upper; [apply: winv_init|apply: par_inv_init].
Qed.
End Law.
