(** * WilsonInv: an invariant of the loop of Wilson's algorithm; an execution that ends returns a spanning tree. *)
From mathcomp Require Import all_ssreflect all_algebra.
From Verif Require Import Prob McmcModel Mcmc Finite TreeSpec TreeLin TreeModel P_Ust LapLin LapTree.
Set Implicit Arguments. Unset Strict Implicit. Unset Printing Implicit Defensive.
Import Order.Theory GRing.Theory Num.Theory.
Local Open Scope ring_scope.

(** ** branches *)
Section Branch.
Variable n : nat.
Notation V := 'I_n.+1.
Implicit Types (x y v : V) (p : seq V) (b : seq V).

Lemma branch_nil x : branch_edges [:: x] = [::]. Proof. by []. Qed.
Lemma branch_cons x y p : branch_edges [:: x, y & p] = (x, y) :: branch_edges (y :: p). Proof. by []. Qed.
Lemma size_branch x p : size (branch_edges (x :: p)) = size p.
Proof. by elim: p x => // y p IH x; rewrite branch_cons /= IH. Qed.
Lemma all_branch (g : rel V) x p : all (fun a => g a.1 a.2) (branch_edges (x :: p)) = path g x p.
Proof. by elim: p x => // y p IH x; rewrite branch_cons /= IH. Qed.
Lemma adj_catl (es es' : seq (V * V)) : subrel (adj es) (adj (es ++ es')).
Proof. by move=> u v; rewrite /adj !mem_cat => /orP[->|->]; rewrite ?orbT. Qed.
Lemma adj_catr (es es' : seq (V * V)) : subrel (adj es') (adj (es ++ es')).
Proof. by move=> u v; rewrite /adj !mem_cat => /orP[->|->]; rewrite ?orbT. Qed.
Lemma adj_cons a (es : seq (V * V)) : subrel (adj es) (adj (a :: es)).
Proof. by move=> u v; rewrite /adj !inE => /orP[->|->]; rewrite ?orbT. Qed.
Lemma sub_connect (e1 e2 : rel V) : subrel e1 e2 -> subrel (connect e1) (connect e2).
Proof. by move=> h; apply: connect_sub => u v /h /connect1. Qed.
Lemma connect_branch x p v : v \in x :: p -> connect (adj (branch_edges (x :: p))) x v.
Proof.
elim: p x => [|y p IH] x; first by rewrite inE => /eqP ->.
rewrite branch_cons inE => /orP[/eqP ->//|/IH h].
apply: connect_trans (sub_connect (@adj_cons _ _) h); apply: connect1; by rewrite /adj inE eqxx.
Qed.
Lemma tree_edges_rcons (bs : seq (seq V)) b : tree_edges (rcons bs b) = tree_edges bs ++ branch_edges b.
Proof. by rewrite /tree_edges map_rcons flatten_rcons. Qed.
End Branch.

Section Wilson.
Variables (R : rcfType) (n : nat) (g : rel 'I_n.+1) (neighbors : 'I_n.+1 -> seq 'I_n.+1).
Notation V := 'I_n.+1.
Hypotheses (gs : symmetric g) (gi : irreflexive g) (gc : forall u v, connect g u v).
Hypothesis nbP : forall u, uniq (neighbors u) /\ neighbors u =i g u.
Variable r : V.
Local Notation wst := (wst n).

Definition Cset (st : wst) : {set V} := [set v | is_it (w_state st v)].
(** the tree built so far *)
Record tree_inv (st : wst) : Prop := TI {
  ti_root : r \in Cset st;
  ti_nb : w_nb st = #|Cset st|;
  ti_g : all (fun a => g a.1 a.2) (tree_edges (w_branches st));
  ti_size : size (tree_edges (w_branches st)) = (w_nb st).-1;
  ti_con : forall v, v \in Cset st -> connect (adj (tree_edges (w_branches st))) r v }.
(** the current path *)
Record path_inv (st : wst) : Prop := PI {
  pi_uniq : uniq (w_path st);
  pi_out : all (fun v => v \notin Cset st) (w_path st);
  pi_ip : forall v, is_ip (w_state st v) -> v \in w_path st;
  pi_beh : forall v, v \in behead (w_path st) -> is_ip (w_state st v);
  pi_rest : [/\ w_n0 st = last r (w_path st), sorted g (w_path st),
    (w_nb st = 1%N -> w_path st != [::] -> g r (head r (w_path st))) &
    (w_path st = [::] -> w_nb st = 1%N)] }.
Definition winv (st : wst) : Prop := tree_inv st /\ ((w_nb st < n.+1)%N -> path_inv st).

Lemma winv_init : winv (wilson_init r).
Proof.
have CE : Cset (wilson_init r) = [set r] by apply/setP => v; rewrite !inE /=; case: (v == r).
split=> [|_]; split; rewrite ?CE ?inE ?cards1 //=.
  by move=> v; rewrite inE => /eqP ->.
by move=> v; case: (v == r).
Qed.

Lemma nb_one st : tree_inv st -> w_nb st = 1%N -> Cset st = [set r].
Proof.
move=> [rC nE _ _ _] n1; apply/eqP; rewrite eq_sym eqEcard sub1set rC -nE n1 cards1 leqnn //.
Qed.

(** a step to a node outside of the tree *)
Lemma sorted_rcons (p : seq V) w : sorted g (rcons p w) = sorted g p && (if p is x :: p' then g (last x p') w else true).
Proof. by case: p => //= x p; rewrite rcons_path. Qed.
Lemma last_ext (p : seq V) w : last r (ext p w) = w.
Proof.
rewrite /ext; case: ifP => wp; last by rewrite last_rcons.
rewrite (take_nth r) ?index_mem // last_rcons nth_index //.
Qed.
Lemma uniq_ext (p : seq V) w : uniq p -> uniq (ext p w).
Proof. by move=> u; rewrite /ext; case: ifP => wp; rewrite ?take_uniq // rcons_uniq wp. Qed.
Lemma mem_ext (p : seq V) w v : v \in ext p w -> v \in p \/ v = w.
Proof. by rewrite /ext; case: ifP => wp; [move/mem_take; left|rewrite mem_rcons inE => /orP[/eqP|]; auto]. Qed.
Lemma head_ext (p : seq V) w : head r (ext p w) = head w p.
Proof. by rewrite /ext; case: p => //= x p; case: ifP. Qed.
Lemma ext_nil (p : seq V) w : ext p w != [::].
Proof. by rewrite /ext; case: p => //= x p; case: ifP. Qed.

Lemma body_out st w : winv st -> (w_nb st < n.+1)%N -> w \notin Cset st -> g (w_n0 st) w ->
  exists s', let st' := WSt w s' (w_nb st) (ext (w_path st) w) (w_branches st) in
    [/\ wilson_body R st w = Ret st', Cset st' = Cset st & winv st'].
Proof.
move=> [ti pi] nb wC gw; move: (pi nb); clear pi; case: st ti nb wC gw => n0 s k p bs ti /= kn wC gw [/= up pC ip beh [n0E sp h1 h2]].
have wN : ~~ is_it (s w) by move: wC; rewrite inE.
suff : exists s', [/\ wilson_body R (WSt n0 s k p bs) w = Ret (WSt w s' k (ext p w) bs),
    forall v, is_it (s' v) = is_it (s v), forall v, is_ip (s' v) -> v \in ext p w & forall v, v \in behead (ext p w) -> is_ip (s' v)].
  case=> s' [bE itE ip' beh']; exists s'.
  have CE : Cset (WSt w s' k (ext p w) bs) = Cset (WSt n0 s k p bs) by apply/setP => v; rewrite !inE /= itE.
  split=> //; split=> [|_].
    by case: ti => /= a1 a2 a3 a4 a5; split; rewrite /= ?CE.
  split=> //=; first exact: uniq_ext.
    by apply/allP => v /mem_ext [vp|->]; rewrite CE //; apply: (allP pC).
  split.
  - by rewrite last_ext.
  - rewrite /ext; case: ifP => _; first exact: take_sorted.
    by rewrite sorted_rcons sp; case: (p) n0E => //= x p' <-.
  - move=> k1 _; rewrite head_ext; case: (p) n0E h1 => [|x p'] /= n0E h1; first by rewrite -n0E.
    exact: h1.
  - by move=> h; have := ext_nil p w; rewrite h.
rewrite /wilson_body /=; case sw : (s w) wN => [||] //= _; rewrite ?sw /=.
- rewrite {1}/set_all mem_head /=.
  case: (boolP (w \in p)) => wp.
    have [p' pE] : exists p', p = w :: p'.
      case: (p) wp beh => // x p'; rewrite inE => /orP[/eqP <-|wp] beh; first by exists p'.
      by have := beh w wp; rewrite sw.
    rewrite pE /ext mem_head [rcons _ _]/= /index /= eqxx /= !take0 drop0.
    eexists; split; first reflexivity.

    + move=> v; rewrite /set_all; case: ifP => vp; last by rewrite inE; case: eqP => // ->; rewrite sw.
      move: vp; rewrite mem_rcons -pE => /(allP pC); rewrite inE /= => /negbTE -> //.
    + move=> v; rewrite /set_all mem_rcons -pE; case: ifP => // vp; rewrite !inE; case: eqP => //= _ /ip; rewrite vp //.
    + by [].
  have iE : index w (rcons p w) = size p by rewrite -cats1 index_cat (negbTE wp) /= eqxx addn0.
  rewrite iE -(size_rcons p w) take_size drop_size /ext (negbTE wp).
  eexists; split; first reflexivity.
  + by move=> v; rewrite /set_all !inE; case: eqP => // ->; rewrite sw.
  + by move=> v; rewrite /set_all !inE mem_rcons inE; case: eqP => //= _; apply: ip.
  + move=> v; rewrite /set_all !inE; case: eqP => //= ne; case: (p) beh => //= x p' beh.
    by rewrite mem_rcons inE => /orP[/eqP//|]; apply: beh.
- have wp : w \in p by apply: ip; rewrite sw.
  rewrite /ext wp; eexists; split; first reflexivity.
  + move=> v; rewrite /set_all; case: ifP => // /mem_drop /(allP pC); rewrite inE /= => /negbTE -> //.
  + move=> v; rewrite /set_all; case: ifP => // vd /ip; rewrite -{1}(cat_take_drop (index w p).+1 p) mem_cat vd orbF //.
  + move=> v vb; rewrite /set_all; case: ifP => vd.
      have vt : v \in take (index w p).+1 p by apply: mem_behead.
      have : uniq (take (index w p).+1 p ++ drop (index w p).+1 p) by rewrite cat_take_drop.
      by rewrite cat_uniq => /and3P[_ /hasPn/(_ v vd)] /negP[].
    by apply: beh; case: (p) vb => //= x p'; apply: mem_take.
Qed.

(** a step into the tree *)
Definition new_branches (st : wst) w := rcons (w_branches st) (if w_nb st == 1%N then w :: w_path st else rcons (w_path st) w).
Definition newC (st : wst) : {set V} := Cset st :|: [set v in w_path st].
Definition unvisited (C : {set V}) : seq V := [seq v <- enum 'I_n.+1 | v \notin C].

Lemma body_in st w : winv st -> (w_nb st < n.+1)%N -> w \in Cset st -> g (w_n0 st) w ->
  exists s', let st' x p := WSt x s' #|newC st| p (new_branches st w) in
    [/\ wilson_body R st w = (if unvisited (newC st) is [::] then Ret (st' (w_n0 st) (w_path st))
          else unif (unvisited (newC st)) (fun x => Ret (st' x [:: x]))),
        forall x p, Cset (st' x p) = newC st, w_path st != [::],
        forall x p, tree_inv (st' x p) &
        forall x, x \notin newC st -> winv (st' x [:: x])].
Proof.
move=> [ti pi] nb wC gw; move: (pi nb); clear pi; case: st ti nb wC gw => n0 s k p bs ti /= kn wC gw [/= up pC ip beh [n0E sp h1 h2]].
case: (ti) => /= rC kE bg bsz bcon.
have pN : p != [::].
  apply: contraTneq gw => pE; have C1 := nb_one ti (h2 pE); move: wC; rewrite C1 inE => /eqP ->.
  by rewrite n0E pE /= gi.
have sw : is_it (s w) by move: wC; rewrite inE.
pose s' := set_all s p InTree; exists s'.
have CE x q b l : Cset (WSt x s' b q l) = newC (WSt n0 s k p bs).
  by apply/setP => v; rewrite !inE /s' /set_all /=; case: ifP; rewrite ?orbT ?orbF.
have cE : #|newC (WSt n0 s k p bs)| = (k + size p)%N.
  rewrite /newC cardsU /= -kE; have -> : Cset (WSt n0 s k p bs) :&: [set v in p] = set0.
    by apply/setP => v; rewrite !inE; apply/negP => /andP[v1 /(allP pC)]; rewrite inE v1.
  by rewrite cards0 subn0 cardsE (card_uniqP up).
have nvE v : is_nv (s' v) = (v \notin newC (WSt n0 s k p bs)).
  rewrite !inE /s' /set_all; case: ifP => vp; rewrite ?orbT ?orbF //.
  by have := ip v; rewrite vp /=; case: (s v) => //= h; case: (notF (h isT)).
have rp1 : k = 1%N -> path g r p /\ w = r.
  move=> k1; have := h1 k1 pN; have := nb_one ti k1 => C1; move: wC; rewrite C1 inE => /eqP ->.
  by case: (p) sp pN => //= x q -> _ ->.
have rpw x q : p = x :: q -> path g x (rcons q w).
  by move=> e; rewrite rcons_path; move: sp gw; rewrite n0E e /= => -> ->.
have ti' x q : tree_inv (WSt x s' #|newC (WSt n0 s k p bs)| q (new_branches (WSt n0 s k p bs) w)).
  rewrite /new_branches /=; split; rewrite ?CE /= ?tree_edges_rcons //.
  - by rewrite !inE; move: rC; rewrite inE /= => ->.
  - rewrite all_cat bg /=; case: eqP => [/rp1 [pp ->]|_]; first by rewrite all_branch.
    by case: (p) pN rpw => // y q' _ /(_ y q' erefl); rewrite -all_branch.
  - rewrite size_cat bsz cE; have k0 : (0 < k)%N by rewrite kE card_gt0; apply/set0Pn; exists r.
    case: eqP => _; first by rewrite size_branch -[in RHS](prednK k0).
    by case: (p) pN => // y q' _; rewrite size_branch size_rcons -[in RHS](prednK k0).
  - move=> v; rewrite inE => /orP[/bcon h|vp]; first exact: sub_connect (@adj_catl _ _ _) _ _ h.
    have vp' : v \in p by move: vp; rewrite inE.
    case: eqP => [/rp1 [_ ->]|_].
      by apply: sub_connect (@adj_catr _ _ _) _ _ _; apply: connect_branch; rewrite inE vp' orbT.
    apply: connect_trans (sub_connect (@adj_catl _ _ _) (bcon _ wC)) _.
    apply: sub_connect (@adj_catr _ _ _) _ _ _.
    case: (p) pN vp' => // y q' _ vp'; rewrite rcons_cons.
    apply: (@connect_trans _ _ y); last by apply: connect_branch; rewrite -rcons_cons mem_rcons inE vp' orbT.
    by rewrite adj_connect_sym; apply: connect_branch; rewrite -rcons_cons mem_rcons mem_head.
split=> //.
- rewrite /wilson_body /=; case sE : (s w) sw => //= _; rewrite sE /=.
  rewrite -/s' -cE; have -> : [seq v <- enum 'I_n.+1 | is_nv (s' v)] = unvisited (newC (WSt n0 s k p bs)) by apply: eq_filter.
  by [].
- move=> x xC; split=> // _; split; rewrite /= ?CE ?andbT //=.
  + by move=> v; rewrite /s' /set_all; case: ifP => // vp /ip; rewrite vp.
  + split=> //; rewrite cE => e; exfalso.
    have k0 : (0 < k)%N by rewrite kE card_gt0; apply/set0Pn; exists r.
    by case: (p) pN e k0 => // y q _; case: (k) => // k' /=; rewrite addSnnS addnC.
Qed.

Lemma nb_g u w : (w \in neighbors u) = g u w.
Proof. by have [_ ->] := nbP u. Qed.

Lemma unvisited_nil C : unvisited C = [::] -> C = setT.
Proof.
move=> uE; apply/setP => v; rewrite in_setT; apply: contraT => vC.
by have : v \in unvisited C; [rewrite mem_filter vC mem_enum|rewrite uE].
Qed.

Lemma winv_step st st' : winv st -> (w_nb st < n.+1)%N -> possible (wilson_step R neighbors st) (inl st') -> winv st'.
Proof.
move=> wi nb h; have [w wn] := unif_possible h; clear h.
have gw : g (w_n0 st) w by rewrite -nb_g.
case: (boolP (w \in Cset st)) => wC.
  have [s' [-> CE pN ti hx]] := body_in wi nb wC gw.
  case uE : (unvisited _) => [|x0 t].
    by move=> [->]; split=> //=; rewrite (unvisited_nil uE) cardsT card_ord ltnn.
  rewrite -uE => h; have [x] := unif_possible h; rewrite mem_filter => /andP[xC _] [->]; exact: hx.
by have [s' [-> _ h]] := body_out wi nb wC gw => -[->].
Qed.

Lemma deg_pos u : (0 < n)%N -> (0 < size (neighbors u))%N.
Proof.
move=> n0; have [v vu] : exists v, v != u.
  have : (0 < #|predC1 u|)%N by rewrite cardC1 card_ord.
  by case/card_gt0P => v; rewrite inE; exists v.
have /connectP[[|x p] /=] := gc u v; first by move=> _ e; rewrite e eqxx in vu.
move=> /andP[ux _] _; have : x \in neighbors u by rewrite nb_g.
by case: (neighbors u).
Qed.

Lemma unif_any A (T : eqType) (pop : seq T) (k : T -> prog R A) o : (0 < size pop)%N -> possible (unif pop k) o ->
  exists2 x, x \in pop & possible (k x) o.
Proof.
move=> s0; rewrite /unif /possible -/possible; case: ifP => [_ [s1 [x [s2 [-> _ px]]]]|].
  by exists x => //; rewrite mem_cat inE eqxx orbT.
have -> // : valid_weights pop (fun=> (size pop)%:R^-1 : R).
have al c (t : seq T) : 0 <= c -> all (fun=> 0 <= c :> R) t by move=> c0; elim: t => //= _ t ->; rewrite c0.
have nz : (size pop)%:R != 0 :> R by rewrite pnatr_eq0 -lt0n.
apply/andP; split; first by apply: al; rewrite invr_ge0 ler0n.
by rewrite big_const_seq count_predT iter_addr_0 -[X in X *+ _]mul1r -mulrnAr -mulr_natr mulVf // mul1r.
Qed.

(** an execution that ends returns a spanning tree *)
Lemma winv_done st : winv st -> ~~ (w_nb st < n.+1)%N -> spanning_tree g (tree_edges (w_branches st)).
Proof.
move=> [[rC kE bg bsz bcon] _]; rewrite -leqNgt kE => full.
have CT : Cset st = setT by apply/eqP; rewrite eqEcard subsetT cardsT card_ord.
have kn : w_nb st = n.+1 by rewrite kE CT cardsT card_ord.
have gcn : gconnected (tree_edges (w_branches st)).
  apply/forallP => u; apply/forallP => v; apply: (@connect_trans _ _ r).
    by rewrite adj_connect_sym; apply: bcon; rewrite CT.
  by apply: bcon; rewrite CT.
rewrite /spanning_tree bg gcn /=; have := tree_iff (tree_edges (w_branches st)).
by rewrite gcn bsz kn eqxx /=.
Qed.

Lemma winv_noraise st x : winv st -> (w_nb st < n.+1)%N -> ~ possible (wilson_step R neighbors st) (inr x).
Proof.
move=> wi nb h; have n0 : (0 < n)%N.
  case: wi => -[rC kE _ _ _] _; rewrite -ltnS; apply: leq_trans nb; rewrite kE ltnS card_gt0.
  by apply/set0Pn; exists r.
have [w wn] := unif_any (deg_pos (w_n0 st) n0) h.
have gw : g (w_n0 st) w by rewrite -nb_g.
case: (boolP (w \in Cset st)) => wC.
  have [s' [-> CE pN ti hx]] := body_in wi nb wC gw.
  case uE : (unvisited _) => [|x0 t] //.
  by case/unif_any.
by have [s' [-> _ _]] := body_out wi nb wC gw.
Qed.

Lemma wilson_loopE fuel st : wilson_loop R neighbors fuel st =
  if (w_nb st < n.+1)%N then if fuel is f.+1 then bind (wilson_step R neighbors st) (wilson_loop R neighbors f) else Ret None
  else Ret (Some (tree_edges (w_branches st))).
Proof. by case: fuel. Qed.

Lemma wilson_loop_safe fuel st o : winv st -> possible (wilson_loop R neighbors fuel st) o ->
  o = inl None \/ exists2 es, o = inl (Some es) & spanning_tree g es.
Proof.
elim: fuel st => [|f IH] st wi; rewrite wilson_loopE; case: ifP => nb.
- by left.
- by move=> h; right; exists (tree_edges (w_branches st)); [exact: h|apply: winv_done => //; rewrite nb].
- case/possible_bind => [[st' h1 h2]|[x h _]]; first by apply: IH h2; apply: winv_step h1.
  by have := winv_noraise wi nb h.
- by move=> h; right; exists (tree_edges (w_branches st)); [exact: h|apply: winv_done => //; rewrite nb].
Qed.
End Wilson.
