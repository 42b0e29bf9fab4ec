(** * AbProg: the loop of the Aldous-Broder sampler: invariant, termination, law. *)
From mathcomp Require Import all_ssreflect all_algebra.
From Verif Require Import Prob McmcModel Mcmc Finite TreeSpec TreeLin TreePar TreeModel P_Ust LapLin LapTree LoopTerm WilsonInv WilsonLaw WilsonTerm P_Wilson AbLaw.
Set Implicit Arguments. Unset Strict Implicit. Unset Printing Implicit Defensive.
Import Order.Theory GRing.Theory Num.Theory.
Local Open Scope ring_scope.

Section AB.
Variables (R : rcfType) (n : nat) (g : rel 'I_n.+1) (neighbors : 'I_n.+1 -> seq 'I_n.+1).
Notation V := 'I_n.+1.
Hypotheses (gs : symmetric g) (gi : irreflexive g) (gc : forall u v, connect g u v).
Hypothesis nbP : forall u, uniq (neighbors u) /\ neighbors u =i g u.
Variable r : V.

Record abst := AB { a_n0 : V; a_vis : V -> bool; a_nb : nat; a_es : seq (V * V) }.
Definition ab_next (s : abst) (n1 : V) : abst :=
  if a_vis s n1 then AB n1 (a_vis s) (a_nb s) (a_es s)
  else AB n1 (fun v => (v == n1) || a_vis s v) (a_nb s).+1 (rcons (a_es s) (a_n0 s, n1)).
Definition ab_step (s : abst) : prog R abst := unif (neighbors (a_n0 s)) (fun n1 => Ret (ab_next s n1)).
Definition arun (s : abst) := (a_nb s < n.+1)%N.
Definition ab_of f (s : abst) := ab_loop R neighbors f (a_n0 s) (a_vis s) (a_nb s) (a_es s).

Definition Dset (s : abst) : {set V} := [set v | a_vis s v].
Record abinv (s : abst) : Prop := AI {
  ai_root : r \in Dset s;
  ai_n0 : a_n0 s \in Dset s;
  ai_nb : a_nb s = #|Dset s|;
  ai_g : all (fun a => g a.1 a.2) (a_es s);
  ai_rest : size (a_es s) = (a_nb s).-1 /\ forall v, v \in Dset s -> connect (adj (a_es s)) r v }.

Lemma abinv_init : abinv (AB r (fun v => v == r) 1 [::]).
Proof.
have DE : Dset (AB r (fun v => v == r) 1 [::]) = [set r] by apply/setP => v; rewrite !inE.
by split=> //=; rewrite ?DE ?inE ?cards1 //; split=> // v; rewrite inE => /eqP ->.
Qed.
Lemma abinv_next s w : abinv s -> g (a_n0 s) w -> abinv (ab_next s w).
Proof.
move=> [h1 h2 h3 h4 [h5 h6]] gw; rewrite /ab_next; case: ifP => vw; first by split=> //=; rewrite inE.
have DE : Dset (AB w (fun v => (v == w) || a_vis s v) (a_nb s).+1 (rcons (a_es s) (a_n0 s, w))) = w |: Dset s.
  by apply/setP => v; rewrite !inE.
split=> //=; rewrite ?DE.
- by rewrite inE h1 orbT.
- by rewrite !inE eqxx.
- by rewrite cardsU1 inE vw h3.
- by rewrite all_rcons /= gw.
split; first by rewrite size_rcons h5 prednK // h3 card_gt0; apply/set0Pn; exists r.
have sub : subrel (adj (a_es s)) (adj (rcons (a_es s) (a_n0 s, w))) by rewrite -cats1; apply: adj_catl.
move=> v; rewrite !inE => /orP[/eqP ->|vv]; last by apply: (sub_connect sub); apply: h6; rewrite inE.
apply: connect_trans (sub_connect sub (h6 _ h2)) _; apply: connect1; by rewrite /adj mem_rcons mem_head.
Qed.
Lemma ab_done s : abinv s -> ~~ arun s -> spanning_tree g (a_es s).
Proof.
move=> [h1 h2 h3 h4 [h5 h6]]; rewrite /arun -leqNgt h3 => full.
have DT : Dset s = setT by apply/eqP; rewrite eqEcard subsetT cardsT card_ord.
have gcn : gconnected (a_es s).
  apply/forallP => u; apply/forallP => v; apply: (@connect_trans _ _ r).
    by rewrite adj_connect_sym; apply: h6; rewrite DT.
  by apply: h6; rewrite DT.
rewrite /spanning_tree h4 gcn /=; have := tree_iff (a_es s); by rewrite gcn h5 h3 DT cardsT card_ord eqxx.
Qed.
Lemma ab_npos s : abinv s -> arun s -> (0 < n)%N.
Proof.
case=> rC _ kE _ _ nb; rewrite -ltnS; apply: leq_trans nb; rewrite kE ltnS card_gt0.
by apply/set0Pn; exists r.
Qed.

Lemma ab_safe f s o : abinv s -> possible (ab_of f s) o ->
  o = inl None \/ exists2 es, o = inl (Some es) & spanning_tree g es.
Proof.
elim: f s => [|f IH] s si; rewrite /ab_of /ab_loop -/(@ab_loop R n neighbors) -/(arun s); case: ifP => rs.
- by left.
- by move=> h; right; exists (a_es s); [exact: h|apply: ab_done => //; rewrite rs].
- move=> h; have [w wn] := unif_any (deg_pos gc nbP _ (ab_npos si rs)) h; clear h.
  have gw : g (a_n0 s) w by rewrite -(nb_g nbP).
  by have := IH _ (abinv_next si gw); rewrite /ab_of /ab_next; case: ifP.
- by move=> h; right; exists (a_es s); [exact: h|apply: ab_done => //; rewrite rs].
Qed.

(** ** termination *)
Lemma ab_loop_loop f s F : E (ab_of f s) F = E (loop ab_step arun a_es f s) F.
Proof.
elim: f s => [|f IH] s; rewrite /ab_of /ab_loop -/(@ab_loop R n neighbors) -/(arun s); first by rewrite loopE.
rewrite loopE; case: ifP => // rs; rewrite E_bind /ab_step.
case: (posnP (size (neighbors (a_n0 s)))) => [|s0].
  by case: (neighbors _) => // _; rewrite /unif /E /valid_weights /= big_nil eq_sym oner_eq0.
rewrite !unif_E //; congr (_ * _); apply: eq_bigr => w _; rewrite ret_E -IH /ab_of /ab_next; by case: ifP.
Qed.
Definition aphi (s : abst) : nat := ((n.+1 - a_nb s) * n.+2 + gdist g (~: Dset s) (a_n0 s))%N.
Lemma gdist_le' (C : {set V}) u : (gdist g C u <= n.+1)%N.
Proof. by rewrite /gdist; have := find_size (fun k => reachC g C k u) (iota 0 n.+1); rewrite size_iota. Qed.

Theorem ab_term k fuel s : abinv s -> (k * (n.+1 * n.+2) <= fuel)%N ->
  Pr (ab_of fuel s) (fun o => ~~ isSome o) <= (1 - (n.+1)%:R^-1 ^+ (n.+1 * n.+2)) ^+ k.
Proof.
move=> si kf; have -> : Pr (ab_of fuel s) (fun o => ~~ isSome o) = q ab_step arun a_es fuel s.
  by rewrite /q /Pr ab_loop_loop; apply: eq_E => -[].
have istep t t' : abinv t -> possible (ab_step t) (inl t') -> abinv t'.
  move=> ti h; have [w wn [->]] := unif_possible h; apply: abinv_next => //; by rewrite -(nb_g nbP).
have nb0 t : abinv t -> (0 < a_nb t)%N by case=> h _ -> _ _; rewrite card_gt0; apply/set0Pn; exists r.
apply: (@loop_term R _ _ _ _ _ abinv _ _ aphi) => //.
- by move=> t t' ti _; apply: istep.
- move=> t ti rs; apply: noraise_total => x h.
  by have [w _] := unif_any (deg_pos gc nbP _ (ab_npos ti rs)) h.
- by rewrite invr_ge0 ler0n.
- by rewrite invf_le1 ?ltr0n // ler1n.
- move=> t ti; rewrite /aphi [X in (_ <= X)%N]mulSnr leq_add //; last exact: leqW (gdist_le' _ _).
  by rewrite leq_mul2r /= leq_subLR; have := nb0 t ti; case: (a_nb t) => // j _; rewrite addSn ltnS leq_addl.
- by move=> t ti rs; rewrite /aphi ltn_addr // muln_gt0 subn_gt0 -/(arun t) rs.
move=> t ti rs; have d0 : (0 < size (neighbors (a_n0 t)))%N := deg_pos gc nbP _ (ab_npos ti rs).
rewrite /Pr /ab_step unif_E // (sum_nb nbP) (size_nb nbP).
have [w gw e] : exists2 w, g (a_n0 t) w & (~~ arun (ab_next t w) || (aphi (ab_next t w) < aphi t)%N).
  have C0 : ~: Dset t != set0.
    apply: contraTneq rs => DT; have -> : arun t = (#|Dset t| < n.+1)%N by case: ti => _ _ h _ _; rewrite /arun h.
    by rewrite -(setCK (Dset t)) DT setC0 cardsT card_ord ltnn.
  have zC : a_n0 t \notin ~: Dset t by rewrite inE negbK; case: ti.
  have [w gw hw] := gdist_step gc C0 zC; exists w => //; apply/orP; right.
  rewrite /ab_next; case: ifP => vw; rewrite /aphi /=.
    by rewrite -addnS leq_add2l.
  have -> : (n.+1 - a_nb t = (n.+1 - (a_nb t).+1).+1)%N by rewrite -subSn.
  by rewrite mulSnr -addnA -addnS leq_add2l ltn_addr // ltnS gdist_le'.
rewrite (bigD1 w) //= ret_E e mulrDr mulr1.
have d0' : 0 < (deg g (a_n0 t))%:R :> R by rewrite ltr0n -(size_nb nbP).
apply: (@le_trans _ _ ((deg g (a_n0 t))%:R^-1)); first by rewrite lef_pinv ?ler_nat ?deg_le ?posrE ?d0' // ltr0n.
by rewrite ler_addl mulr_ge0 ?invr_ge0 ?ler0n // sumr_ge0 // => y _; rewrite ret_E ler0n.
Qed.

(** ** law *)
(** the result along a given walk *)
Fixpoint abrun (n0 : V) (vis : V -> bool) (nb : nat) (es : seq (V * V)) (p : seq V) : option (seq (V * V)) :=
  if (nb < n.+1)%N then
    if p is n1 :: p' then
      if vis n1 then abrun n1 vis nb es p' else abrun n1 (fun v => (v == n1) || vis v) nb.+1 (rcons es (n0, n1)) p'
    else None
  else Some es.

Lemma ab_E L n0 vis nb es F : (0 < n)%N -> E (ab_loop R neighbors L n0 vis nb es) F = wE g L n0 (fun p => F (abrun n0 vis nb es p)).
Proof.
move=> n1; have d0 u : (0 < deg g u)%N by rewrite -(size_nb nbP); apply: (deg_pos gc nbP).
elim: L n0 vis nb es => [|L IH] n0 vis nb es; rewrite /ab_loop -/(@ab_loop R n neighbors).
  by rewrite /=; case: ifP.
case: ifP => hnb; last first.
  rewrite ret_E -[LHS](wE_const L.+1 n0 (F (Some es)) d0); apply: eq_wE => -[|x p] /=; by rewrite hnb.
rewrite unif_E ?(sum_nb nbP) ?(size_nb nbP) ?d0 //= ; congr (_ * _); apply: eq_bigr => w gw.
case: (boolP (vis w)) => vw; rewrite IH; apply: eq_wE => p /=; by rewrite hnb ?vw ?(negbTE vw).
Qed.

Lemma abrun_spec n0 vis nb es p es' : abrun n0 vis nb es p = Some es' -> nb = #|[set v | vis v]| ->
  {subset es <= es'} /\ forall v, ~~ vis v -> v \in p /\ (nth n0 (n0 :: p) (index v p), v) \in es'.
Proof.
elim: p n0 vis nb es => [|x p IH] n0 vis nb es; rewrite /abrun -/abrun; case: ifP => hnb //.
- move=> [<-] nE; split=> // v vv; move/negbT: hnb; rewrite -leqNgt nE => full.
  have : v \in [set: V] by []. have <- : [set v | vis v] = setT by apply/eqP; rewrite eqEcard subsetT cardsT card_ord.
  by rewrite inE (negbTE vv).
- case: ifP => vx h nE.
    have [sub hv] := IH _ _ _ _ h nE; split=> // v vv; have [vp ve] := hv v vv.
    have xv : x != v by apply: contraNneq vv => <-.
    rewrite inE vp orbT; split=> //=; rewrite (negbTE xv) /=.
    by rewrite (set_nth_default x) //= ltnS ltnW // index_mem.
  have nE' : nb.+1 = #|[set v | (v == x) || vis v]|.
    by have -> : [set v | (v == x) || vis v] = x |: [set v | vis v]; [apply/setP => v; rewrite !inE|rewrite cardsU1 inE vx nE].
  have [sub hv] := IH _ _ _ _ h nE'; split=> [a ae|v vv]; first by apply: sub; rewrite mem_rcons inE ae orbT.
  have [xv|xv] := eqVneq x v.
    rewrite -xv inE eqxx; split=> //=; rewrite eqxx /=; apply: sub; by rewrite mem_rcons mem_head.
  have vx' : ~~ ((v == x) || vis v) by rewrite negb_or eq_sym xv vv.
  have [vp ve] := hv v vx'.
  rewrite inE vp orbT; split=> //=; rewrite (negbTE xv) /=.
  by rewrite (set_nth_default x) //= ltnS ltnW // index_mem.
- move=> [<-] nE; split=> // v vv; move/negbT: hnb; rewrite -leqNgt nE => full.
  have : v \in [set: V] by []. have <- : [set v | vis v] = setT by apply/eqP; rewrite eqEcard subsetT cardsT card_ord.
  by rewrite inE (negbTE vv).
Qed.

Lemma index_nth_le x0 (p : seq V) i : (index (nth x0 p i) p <= i)%N.
Proof.
case: (ltnP i (size p)) => ip; last by apply: leq_trans ip; apply: index_size.
by elim: p i ip => //= y p IH [|i] ip /=; rewrite ?eqxx //; case: eqP => // _; rewrite ltnS IH.
Qed.

(** a run that ends with the tree T has the parents of T as first-entrance parents *)
Lemma fe_par T (con : gconnected T) (acy : acyclic T) pi0 p es :
  abrun r (fun v => v == r) 1 [::] p = Some es -> same_graph es T -> fe pi0 r p = [ffun v => par r con v].
Proof.
move=> h /same_graphP same; have [|_ hv] := abrun_spec h.
  by have -> : [set v | v == r] = [set r]; [apply/setP => v; rewrite !inE|rewrite cards1].
apply/ffunP => v; rewrite !ffunE; case: eqP => [->|/eqP vr]; first by rewrite par_r.
have [-> _] := hv v vr.
have [k ik] : exists k, (index v p < k)%N by exists (index v p).+1.
elim: k v vr ik => // k IH v vr; rewrite ltnS => ik.
have [vp ve] := hv v vr.
have aT : adj T v (nth r (r :: p) (index v p)) by rewrite -same /adj ve orbT.
case: (par_edge r con acy aT) => -[xr px] //.
set x := nth _ _ _ in aT xr px *.
have ix : (index x p < index v p)%N.
  rewrite /x; case e : (index v p) => [|i] /=; first by move: xr; rewrite /x e /= eqxx.
  by rewrite ltnS; apply: index_nth_le.
have := IH x xr (leq_trans ix ik); rewrite px => e.
have [xp _] := hv x xr.
have := index_nth_le r p (index x p).-1; move: e; case e' : (index x p) => [|i] /= e.
  by move: vr; rewrite -e eqxx.
by rewrite e => iv; move: ix; rewrite e' ltnNge (leq_trans iv).
Qed.

End AB.

(** ** counting rooted trees *)
Definition dif (b : bool) A (f : b -> A) (d0 : A) : A :=
  match b as b' return (b' -> A) -> A with true => fun f => f isT | false => fun _ => d0 end f.
Lemma difE (b : bool) A (f : b -> A) (d0 : A) : b -> exists c, dif f d0 = f c.
Proof. by case: b f => // f _; exists isT. Qed.

Section Count.
Variables (n m : nat) (e : 'I_m -> 'I_n.+1 * 'I_n.+1).
Notation V := 'I_n.+1.
Hypotheses (sg : simple_graph e) (con : gconnected (es e)).
Local Notation g := (adj (es e)).

Lemma adj_par T (c : gconnected T) (a : acyclic T) (x u v : V) :
  adj T u v = ((u != x) && (par x c u == v)) || ((v != x) && (par x c v == u)).
Proof.
apply/idP/idP => [h|].
  by case: (par_edge x c a h) => -[-> ->]; rewrite eqxx ?orbT.
by case/orP => /andP[ux /eqP <-]; have [] := parP c ux => // h _; rewrite adj_sym.
Qed.

Definition rt_of (x : V) (S : {set 'I_m}) : {ffun V -> V} :=
  dif (fun c : gconnected (subgraph e S) => [ffun v => par x c v]) [ffun v => v].

Lemma rt_ofE x S : spanning_tree g (subgraph e S) -> exists c : gconnected (subgraph e S), rt_of x S = [ffun v => par x c v].
Proof. by case/and3P=> _ c0 _; apply: difE. Qed.

Lemma par_rtree T (c : gconnected T) x : all (fun a => g a.1 a.2) T -> rtree g x [ffun v => par x c v].
Proof.
move=> Tg; apply/and3P; split; first by rewrite ffunE par_r.
  apply/forallP => v; apply/implyP => vx; rewrite ffunE; have [h _] := parP c vx.
  by case/orP: h => /(allP Tg) //=; rewrite adj_sym.
apply/forallP => v; move: v; apply: (@par_ind _ _ x c) => // v vx h.
by apply: connect_trans h; apply: connect1; rewrite /= ffunE.
Qed.

Lemma count_rtree x : (nb_spanning_trees e <= #|[pred pi : {ffun V -> V} | rtree g x pi]|)%N.
Proof.
have inj : {in [set S : {set 'I_m} | spanning_tree g (subgraph e S)] &, injective (rt_of x)}.
  move=> S S'; rewrite !inE => tS tS'; have [c ->] := rt_ofE x tS; have [c' ->] := rt_ofE x tS' => /ffunP h.
  apply/eqP; rewrite -(same_subgraph sg); apply/same_graphP => u v.
  case/and3P: tS => _ _ aS; case/and3P: tS' => _ _ aS'.
  by rewrite (adj_par c aS x) (adj_par c' aS' x); have := h u; have := h v; rewrite !ffunE => -> ->.
rewrite /nb_spanning_trees -(card_in_imset inj); apply: subset_leq_card; apply/subsetP => pi /imsetP[S].
rewrite inE => tS ->; have [c ->] := rt_ofE x tS; rewrite inE; apply: par_rtree; by case/and3P: tS.
Qed.
End Count.

Section Upper.
Variables (R : rcfType) (n m : nat) (e : 'I_m -> 'I_n.+1 * 'I_n.+1) (neighbors : 'I_n.+1 -> seq 'I_n.+1).
Hypotheses (sg : simple_graph e) (con : gconnected (es e)).
Hypothesis nbP : forall u, uniq (neighbors u) /\ neighbors u =i adj (es e) u.
Local Notation g := (adj (es e)).

Theorem ab_upper L (r : 'I_n.+1) T : (0 < n)%N -> spanning_tree g T ->
  Pr (ab_loop R neighbors L r (fun v => v == r) 1 [::]) (fun o => if o is Some es then same_graph es T else false)
  <= (nb_spanning_trees e)%:R^-1.
Proof.
move=> n0 tT; case/and3P: (tT) => Tg Tc Ta.
have tau0 : (0 < nb_spanning_trees e)%N.
  by rewrite /nb_spanning_trees card_gt0; apply/set0Pn; exists (indices e T); rewrite inE; apply: indices_tree.
rewrite /Pr (ab_E (g_con con) nbP) //.
set pT : {ffun 'I_n.+1 -> 'I_n.+1} := [ffun v => par r Tc v].
apply: (@le_trans _ _ (wE g L r (fun p => (nb_spanning_trees e)%:R^-1 * \sum_(pi0 | rtree g (last r p) pi0) (fe pi0 r p == pT)%:R))).
  apply: wE_le => p pp; case aE : (abrun _ _ _ _ _) => [T'|] /=; last by rewrite mulr_ge0 ?invr_ge0 ?ler0n // sumr_ge0 // => q _; rewrite ler0n.
  case: (boolP (same_graph T' T)) => sT; last by rewrite mulr_ge0 ?invr_ge0 ?ler0n // sumr_ge0 // => q _; rewrite ler0n.
  rewrite ler_pdivl_mull ?ltr0n // mulr1.
  rewrite (eq_bigr (fun=> 1)) => [|q _]; last by rewrite (fe_par Tc Ta q aE sT) eqxx.
  by rewrite sumr_const ler_nat; apply: count_rtree.
rewrite wE_scale -[X in _ <= X]mulr1 ler_wpmul2l ?invr_ge0 ?ler0n //.
by apply: stationary; [apply: g_sym|apply: g_irr].
Qed.
End Upper.
