(** * P_Ust: the determinantal modes of UST.sample draw a uniform spanning tree (C49); the matrix-tree theorem. *)
From Coq Require Import String.
From mathcomp Require Import all_ssreflect all_algebra.
From Verif Require Import Prob Minor Chain ChainCons ExactModel ProjEig ProjKuTa ProjAll QRex Finite TreeSpec TreeLin TreeModel.
Set Implicit Arguments. Unset Strict Implicit. Unset Printing Implicit Defensive.
Import Order.Theory GRing.Theory Num.Theory.
Local Open Scope ring_scope.

(** ** specification: a simple graph given by the list of its edges, the number of its spanning trees *)
Section Spec.
Variables (n m : nat) (e : 'I_m -> 'I_n.+1 * 'I_n.+1).
(** no self-loop, no unordered pair is listed twice *)
Definition simple_graph : Prop :=
  (forall k, (e k).1 != (e k).2) /\ (forall k l, e k = e l \/ e k = ((e l).2, (e l).1) -> k = l).
(** the edges of the graph chosen by a set of indices *)
Definition subgraph (S : {set 'I_m}) : seq ('I_n.+1 * 'I_n.+1) := [seq e k | k <- enum S].
Definition nb_spanning_trees : nat := #|[set S : {set 'I_m} | spanning_tree (adj (es e)) (subgraph S)]|.
End Spec.

Section Trees.
Variables (n m : nat) (e : 'I_m -> 'I_n.+1 * 'I_n.+1).
Implicit Types (S : {set 'I_m}) (T : seq ('I_n.+1 * 'I_n.+1)).
Local Notation g := (adj (es e)).

Lemma subgraph_in S : all (fun x => g x.1 x.2) (subgraph e S).
Proof. by apply/allP => x /mapP[k _ ->]; rewrite /adj -surjective_pairing es_mem. Qed.

Lemma subgraph_tree S : spanning_tree g (subgraph e S) = gconnected (subgraph e S) && (#|S| == n).
Proof. by rewrite /spanning_tree subgraph_in /= tree_iff size_map -cardE. Qed.

Lemma size_subgraph S : size (subgraph e S) = #|S|. Proof. by rewrite size_map -cardE. Qed.

Hypothesis sg : simple_graph e.

Lemma adj_subgraph S k : adj (subgraph e S) (e k).1 (e k).2 = (k \in S).
Proof.
case: sg => _ inj; apply/idP/idP => [/orP[]/mapP[l]|kS]; last by rewrite /adj -surjective_pairing map_f ?mem_enum.
  by rewrite mem_enum -surjective_pairing => lS h; rewrite (inj k l) //; left.
rewrite mem_enum => lS h; rewrite (inj k l) //; right; by rewrite -h -surjective_pairing.
Qed.

Lemma same_subgraph S S' : same_graph (subgraph e S) (subgraph e S') = (S == S').
Proof.
apply/same_graphP/eqP => [h|-> //]; by apply/setP => k; rewrite -!adj_subgraph h.
Qed.

(** the indices of the edges of T *)
Definition indices T : {set 'I_m} := [set k | adj T (e k).1 (e k).2].

Lemma same_indices T : all (fun x => g x.1 x.2) T -> same_graph (subgraph e (indices T)) T.
Proof.
move=> /allP al; apply/same_graphP => u v; apply/idP/idP.
  by case/orP => /mapP[k]; rewrite mem_enum inE => h E; rewrite -E /= in h; rewrite // adj_sym.
move=> uv; have : g u v by case/orP: (uv) => /al //=; rewrite adj_sym.
case/adj_es => k [] kE; apply/orP; [left|right]; rewrite -kE map_f // mem_enum inE kE //=.
by rewrite adj_sym.
Qed.

Lemma same_gconnected (T T' : seq ('I_n.+1 * 'I_n.+1)) : same_graph T T' -> gconnected T = gconnected T'.
Proof. by move/same_graphP => h; apply: eq_forallb => u; apply: eq_forallb => v; apply: eq_connect. Qed.

Lemma indices_tree T : spanning_tree g T -> spanning_tree g (subgraph e (indices T)).
Proof.
case/and3P => al c a; have sT := same_indices al.
rewrite subgraph_tree (same_gconnected sT) c /= eqn_leq -{2}size_subgraph gconnected_size ?(same_gconnected sT) // andbT.
have /eqP <- : size T == n by have := tree_iff T; rewrite c a.
pose f k := if e k \in T then e k else ((e k).2, (e k).1).
have fT k : k \in indices T -> f k \in T.
  by rewrite inE /adj -surjective_pairing /f; case: ifP.
have fi : {in indices T &, injective f}.
  move=> k l kT lT; case: sg => _ inj; rewrite /f; case: ifP => ek; case: ifP => el E; apply: inj.
  - by left.
  - by right.
  - by right; rewrite -E -surjective_pairing.
  - by left; case: E => h1 h2; rewrite [LHS]surjective_pairing h1 h2 -surjective_pairing.
rewrite cardE -(size_map f); apply: uniq_leq_size.
  by rewrite map_inj_in_uniq ?enum_uniq // => k l; rewrite !mem_enum; apply: fi.
by move=> x /mapP[k]; rewrite mem_enum => /fT h ->.
Qed.

Lemma same_indices_iff S T : spanning_tree g T -> same_graph (subgraph e S) T = (S == indices T).
Proof.
case/and3P => al _ _; have /same_graphP h := same_indices al.
by rewrite -same_subgraph; apply/same_graphP/same_graphP => h' u v; rewrite h' h.
Qed.

Lemma same_items (ys : seq 'I_m) T : same_graph [seq e k | k <- ys] T = same_graph (subgraph e (items ys)) T.
Proof.
have h : adj [seq e k | k <- ys] =2 adj (subgraph e (items ys)).
  by apply: eq_adj => x; apply/mapP/mapP => -[k ky ->]; exists k => //; move: ky; rewrite mem_enum inE.
by apply/same_graphP/same_graphP => h' u v; rewrite -h' h.
Qed.

Lemma connected_items (ys : seq 'I_m) : gconnected [seq e k | k <- ys] = gconnected (subgraph e (items ys)).
Proof.
apply: same_gconnected; apply/same_graphP; apply: eq_adj => x; apply/mapP/mapP => -[k ky ->]; exists k => //; move: ky; by rewrite mem_enum inE.
Qed.
End Trees.

Section Kernel.
Variables (R : rcfType) (n m : nat) (e : 'I_m -> 'I_n.+1 * 'I_n.+1).
Variable Q : 'M[R]_(m, n).
Let A := inc e R.
Hypotheses (oQ : Q^T *m Q = 1%:M) (QA : (Q^T == A)%MS) (con : gconnected (es e)).

Lemma kernel_tree (S : {set 'I_m}) : #|S| = n ->
  \det (A *m A^T) != 0 /\ pmS (Q *m Q^T) S = (gconnected (subgraph e S))%:R / \det (A *m A^T).
Proof.
move=> Sn; have [D DE] : exists D : 'M[R]_n, A = D *m Q^T by apply/submxP; case/andP: QA.
have AA : A *m A^T = D *m D^T by rewrite DE trmx_mul trmxK mulmxA -(mulmxA D) oQ mulmx1.
have [P PE] := inc_right_inverse [comRingType of R] con.
have D0 : \det D != 0.
  have : D *m (Q^T *m P) = 1%:M by rewrite mulmxA -DE.
  by move/(congr1 determinant); rewrite det_mulmx det1 => h; apply: contra_eq_neq h => ->; rewrite mul0r eq_sym oner_eq0.
have dd : \det (A *m A^T) = \det D ^+ 2 by rewrite AA det_mulmx det_tr.
split; first by rewrite dd expf_neq0.
have key k (f : 'I_k -> 'I_m) (h : k = n) : \det (mxsub f f (Q *m Q^T)) = (gconnected (es (e \o f)))%:R / \det (A *m A^T).
  subst k; pose QS : 'M[R]_n := \matrix_(i, j) Q (f i) j.
  have -> : mxsub f f (Q *m Q^T) = QS *m QS^T.
    by apply/matrixP => i j; rewrite !mxE; apply: eq_bigr => l _; rewrite !mxE.
  have AS : inc (e \o f) R = D *m QS^T.
    have := congr1 (fun M : 'M[R]_(n, m) => \matrix_(i, j) M i (f j)) DE; rewrite /= => h.
    transitivity (\matrix_(i < n, j < n) A i (f j)); first by apply/matrixP => i j; rewrite !mxE.
    by rewrite h; apply/matrixP => i j; rewrite !mxE; apply: eq_bigr => l _; rewrite !mxE.
  rewrite -(det_inc2 R (e \o f)) AS dd !det_mulmx !det_tr exprMn mulrAC divff ?mul1r ?expf_neq0 //.
have -> : subgraph e S = es (e \o tnth (in_tuple (enum S))).
  by rewrite /es [RHS](map_comp e) map_tnth_enum.
by apply: key; rewrite -cardE.
Qed.

Let P := ortho_proj oQ.
Let t := ortho_tr oQ.

Lemma chain_items f (G : {set 'I_m} -> R) : (forall ys, f ys = G (items ys)) ->
  chainE n n (Q *m Q^T) f = \sum_(S : {set 'I_m} | #|S| == n) pmS (Q *m Q^T) S * G S.
Proof.
move=> fG; rewrite chainE_sum //.
transitivity (\sum_(t : n.-tuple 'I_m) \sum_S pm (Q *m Q^T) t / (n ^_ n)%:R * ((items t == S)%:R * G S)).
  apply: eq_bigr => ys _; rewrite fG -big_distrr /=; congr (_ * _).
  rewrite (bigD1 (items ys)) //= eqxx mul1r big1 ?addr0 // => S; rewrite eq_sym => /negbTE ->; by rewrite mul0r.
rewrite exchange_big [RHS]big_mkcond /=; apply: eq_bigr => S _.
transitivity (chainE n n (Q *m Q^T) (fun ys => (items ys == S)%:R) * G S).
  by rewrite chainE_sum // big_distrl /=; apply: eq_bigr => ys _; rewrite mulrA.
rewrite chainE_set // binn divr1; by case: ifP => // _; rewrite mul0r.
Qed.

(** the matrix-tree theorem *)
Lemma matrix_tree : \det (A *m A^T) = (nb_spanning_trees e)%:R.
Proof.
have := chainE_total P t (leqnn n); rewrite (@chain_items _ (fun=> 1)) // => h.
have [S Sn] : exists S : {set 'I_m}, #|S| = n.
  have := connected_size con => nm; pose S := [set widen_ord nm i | i in 'I_n]; exists S.
  by rewrite card_imset ?card_ord // => i j /(congr1 val) /= /val_inj.
have [d0 _] := kernel_tree Sn; apply: (mulIf (invr_neq0 d0)); rewrite [LHS]mulfV // -[LHS]h {h} /nb_spanning_trees -sum1_card natr_sum big_distrl /=.
rewrite [LHS]big_mkcond [RHS]big_mkcond /=; apply: eq_bigr => T _; rewrite inE subgraph_tree andbC.
case: eqP => [Tn|//] /=; have [_ ->] := kernel_tree Tn; by case: gconnected; rewrite ?mul0r ?mulr1.
Qed.

Lemma tau_gt0 : (0 < nb_spanning_trees e)%N.
Proof.
have [S Sn] : exists S : {set 'I_m}, #|S| = n.
  have := connected_size con => nm; pose S := [set widen_ord nm i | i in 'I_n]; exists S.
  by rewrite card_imset ?card_ord // => i j /(congr1 val) /= /val_inj.
by have [] := kernel_tree Sn; rewrite matrix_tree pnatr_eq0 -lt0n.
Qed.

Hypothesis sg : simple_graph e.

Lemma chain_uniform T : spanning_tree (adj (es e)) T ->
  chainE n n (Q *m Q^T) (fun ys => (same_graph [seq e k | k <- ys] T)%:R) = (nb_spanning_trees e)%:R^-1.
Proof.
move=> tT; rewrite (@chain_items _ (fun S => (same_graph (subgraph e S) T)%:R)); last by move=> ys; rewrite same_items.
have iT := indices_tree sg tT; move: (iT); rewrite subgraph_tree => /andP[c /eqP k].
rewrite (bigD1 (indices e T)) ?k //= big1 ?addr0.
  have [_ ->] := kernel_tree k; by rewrite c matrix_tree mul1r (same_indices_iff sg _ tT) eqxx mulr1.
by move=> S /andP[_ ne]; rewrite (same_indices_iff sg _ tT) (negbTE ne) mulr0.
Qed.

Lemma chain_tree : chainE n n (Q *m Q^T) (fun ys => (spanning_tree (adj (es e)) [seq e k | k <- ys])%:R) = 1.
Proof.
rewrite -[RHS](chainE_total P t (leqnn n)) !chainE_sum //; apply: eq_bigr => ys _.
have [->|] := eqVneq (pm (Q *m Q^T) ys) 0; first by rewrite !mul0r.
have [u|/pm_dup -> /eqP //] := boolP (uniq ys).
have pe : perm_eq ys (enum (items ys)).
  by apply: uniq_perm; rewrite ?enum_uniq // => k; rewrite mem_enum inE.
have sn : #|items ys| = n by rewrite cardE -(perm_size pe) size_tuple.
rewrite (pm_perm _ pe) -/(pmS _ _); have [_ ->] := kernel_tree sn.
rewrite /spanning_tree tree_iff size_map size_tuple eqxx andbT connected_items.
case: gconnected; rewrite ?mul0r ?eqxx // andbT => _.
suff -> : all (fun x => adj (es e) x.1 x.2) [seq e k | k <- ys] by [].
by apply/allP => x /mapP[k _ ->]; rewrite /adj -surjective_pairing es_mem.
Qed.
End Kernel.

(** ** the class UST *)
Section Class.
Variables (R : rcfType) (n m : nat) (e : 'I_m -> 'I_n.+1 * 'I_n.+1) (neighbors : 'I_n.+1 -> seq 'I_n.+1).
Variable qr : forall r : nat, 'M[R]_(m, r) -> 'M[R]_(m, r).
Hypotheses (sg : simple_graph e) (con : gconnected (es e)) (qrP : qr_contract qr).
Local Notation sample := (@ust_sample R n m e neighbors qr).

Lemma incidence_inc : (\matrix_(i < n, k < m) incidence_matrix R e (widen_ord (leqnSn n) i) k) = inc e R.
Proof.
apply/matrixP => i k; rewrite !mxE.
case: eqP => [->|ne]; first by rewrite subrr.
case: eqP => [i1|_]; case: eqP => [i2|_]; rewrite ?subr0 ?sub0r //.
by case: ne; rewrite -i1 -i2.
Qed.

Lemma eig_vecs_ok : (eig_vecs_value e qr)^T *m eig_vecs_value e qr = 1%:M /\ ((eig_vecs_value e qr)^T == inc e R)%MS.
Proof.
rewrite /eig_vecs_value incidence_inc; have := qrP (W := (inc e R)^T); rewrite trmxK; apply.
have [P PE] := inc_right_inverse [comRingType of R] con.
by apply/row_freeP; exists P.
Qed.

(** the objects reached by construction and any sequence of samplings: cached attributes hold the computed values *)
Inductive reachable : ust R n m -> Prop :=
| reach_init : reachable (ust_init R n m)
| reach_eig s : reachable s -> reachable (compute_kernel_eig_vecs e qr s)
| reach_kernel s : reachable s -> reachable (compute_kernel e qr s)
| reach_sample fuel mode s s' : reachable s -> possible (sample fuel mode s) (inl (Some s')) -> reachable s'.

Definition cache_ok (s : ust R n m) : Prop :=
  (kernel_eig_vecs s = None \/ kernel_eig_vecs s = Some (eig_vecs_value e qr)) /\
  (kernel s = None \/ kernel s = Some (eig_vecs_value e qr *m (eig_vecs_value e qr)^T)).

Lemma cache_eig s : cache_ok s -> cache_ok (compute_kernel_eig_vecs e qr s).
Proof. by case: s => K [U|] l [h1 h2]; split=> //=; right. Qed.
Lemma cache_kernel s : cache_ok s -> cache_ok (compute_kernel e qr s).
Proof. by case: s => [[K|] [U|] l] [h1 h2]; split=> //=; try (by right); case: h1 => // -[->]; right. Qed.
Lemma cache_append s x : cache_ok s -> cache_ok (append_sample s x).
Proof. by []. Qed.

Lemma reachable_cache s : reachable s -> cache_ok s.
Proof.
elim=> [|s' _|s' _|fuel mode s1 s2 _ c]; first by split; left.
- exact: cache_eig.
- exact: cache_kernel.
rewrite /ust_sample; case: ifP => _; last case: ifP => _.
- by case/possible_bind => -[r _ h] //; case: r h => [r|] //= [->].
- by case/possible_bind => -[r _ h] //; case: r h => [r|] //= [->].
case: ifP => _; last case: ifP => _ //.
- case: (kernel_eig_vecs _) => // U; case/possible_bind => -[X _ h] //.
  by case: h => ->; apply: cache_append; apply: cache_eig.
- case: (kernel _) => // U; case/possible_bind => -[X _ h] //.
  by case: h => ->; apply: cache_append; apply: cache_kernel.
Qed.

Lemma dpp_sample_E fuel mode s (f : option (ust R n m) -> R) : mode = "GS"%string \/ mode = "Schur"%string \/ mode = "Chol"%string ->
  reachable s -> exists s1, list_of_samples s1 = list_of_samples s /\
  E (sample fuel mode s) f = chainE n n (eig_vecs_value e qr *m (eig_vecs_value e qr)^T) (fun ys => f (Some (append_sample s1 [seq e k | k <- ys]))).
Proof.
move=> md /reachable_cache c; have [oQ QA] := eig_vecs_ok.
set K := _ *m _; have P : isproj K := ortho_proj oQ; have t : \tr K = n%:R := ortho_tr oQ.
case: md => [->|md].
  have -> : sample fuel "GS" s = bind (proj_dpp_sampler_eig qr (eig_vecs_value e qr) "GS" None)
      (fun X => Ret (Some (append_sample (compute_kernel_eig_vecs e qr s) [seq e k | k <- X]))).
    rewrite /ust_sample /=; case: s c => Ks [U|] l [h1 h2] //=; by case: h1 => // -[->].
  exists (compute_kernel_eig_vecs e qr s); split; first by case: s {c} => Ks [U|] l.
  by rewrite E_bind (eig_E qrP oQ) //; left.
have rk : \rank K = n.
  by apply/eqP; rewrite -(eqr_nat R) -t proj_trace_rank.
have -> : sample fuel mode s = bind (proj_dpp_sampler_kernel K mode None)
      (fun X => Ret (Some (append_sample (compute_kernel e qr s) (edges_of e X)))).
  have -> : sample fuel mode s = (if kernel (compute_kernel e qr s) is Some K then
      bind (proj_dpp_sampler_kernel K mode None) (fun X => Ret (Some (append_sample (compute_kernel e qr s) (edges_of e X))))
    else Raise AttributeError) by case: md => ->.
  case: s c => [[Ks|] [U|] l] [h1 h2] //=.
  - by case: h2 => // -[->].
  - by case: h2 => // -[->].
  - by case: h1 => // -[->].
exists (compute_kernel e qr s); split; first by case: s {c} => [[Ks|] [U|] l].
rewrite E_bind kernel_E ?rk //; last by case: md => ->; [right; right|right; left].
apply: eq_chainE => ys /=; congr (f (Some (append_sample _ _))); rewrite /edges_of; congr map.
by elim: ys => //= y ys IH; rewrite valK /= IH.
Qed.

(** C49: in the three determinantal modes, from any reachable object, one graph is appended to the list of samples; it is
    a spanning tree with probability one, and every spanning tree T of the graph has the same probability *)
Theorem C49_uniform fuel mode s T : mode = "GS"%string \/ mode = "Schur"%string \/ mode = "Chol"%string -> reachable s ->
  spanning_tree (adj (es e)) T ->
  Pr (sample fuel mode s) (fun r => if r is Some s' then
       same_graph (last [::] (list_of_samples s')) T else false) = (nb_spanning_trees e)%:R^-1.
Proof.
move=> md rs tT; set Q0 := (fun r : option (ust R n m) => _); have [s1 [_ h]] := dpp_sample_E fuel (fun r => (Q0 r)%:R) md rs.
have [oQ QA] := eig_vecs_ok; rewrite /Pr h -(chain_uniform oQ QA con sg tT); apply: eq_chainE => ys /=.
by rewrite last_rcons.
Qed.

Theorem C49_spanning_tree fuel mode s : mode = "GS"%string \/ mode = "Schur"%string \/ mode = "Chol"%string -> reachable s ->
  Pr (sample fuel mode s) (fun r => if r is Some s' then
       (list_of_samples s' == rcons (list_of_samples s) (last [::] (list_of_samples s'))) &&
       spanning_tree (adj (es e)) (last [::] (list_of_samples s')) else false) = 1.
Proof.
move=> md rs; set Q0 := (fun r : option (ust R n m) => _); have [s1 [l1 h]] := dpp_sample_E fuel (fun r => (Q0 r)%:R) md rs.
have [oQ QA] := eig_vecs_ok; rewrite /Pr h -[RHS](chain_tree oQ QA con); apply: eq_chainE => ys /=.
by rewrite last_rcons l1 eqxx.
Qed.

(** hence every outcome of positive probability is a spanning tree of the graph, and no exception is possible *)
Theorem C49_always fuel mode s o : mode = "GS"%string \/ mode = "Schur"%string \/ mode = "Chol"%string -> reachable s ->
  possible (sample fuel mode s) o -> exists s' T, [/\ o = inl (Some s'), list_of_samples s' = rcons (list_of_samples s) T,
    spanning_tree (adj (es e)) T & size T = n].
Proof.
move=> md rs po; have := C49_spanning_tree fuel md rs.
set Q0 := (fun r : option (ust R n m) => _) => h.
have tot : total (sample fuel mode s).
  apply/eqP; rewrite eq_le E1_le1 /= -[X in X <= _]h; apply: E_le => a; by case: (Q0 a); rewrite ?ler01.
case: o po => [r pr|x px]; last by case: (total_no_raise tot px).
have : Q0 r.
  apply: contraT => nq; have := almost_sure (Q := Q0) _ pr; rewrite (negbTE nq); apply.
  have : Pr (sample fuel mode s) Q0 + Pr (sample fuel mode s) (fun a => ~~ Q0 a) = 1.
    by rewrite /Pr -E_add -[RHS]tot; apply: eq_E => a; case: (Q0 a); rewrite ?addr0 ?add0r.
  by rewrite h => /eqP; rewrite -subr_eq0 addrAC subrr add0r => /eqP.
case: r pr => [s'|] // _ /andP[/eqP l tT]; exists s', (last [::] (list_of_samples s')); split=> //.
by move/and3P: tT => [_ c a]; have := tree_iff (last [::] (list_of_samples s')); rewrite c a => /esym/eqP.
Qed.
End Class.

(** the matrix-tree theorem: no oracle is needed *)
Theorem C49_matrix_tree (R : rcfType) n m (e : 'I_m -> 'I_n.+1 * 'I_n.+1) : gconnected (es e) ->
  \det (inc e R *m (inc e R)^T) = (nb_spanning_trees e)%:R.
Proof.
by move=> con; have [oQ QA] := eig_vecs_ok con (gs_qr_contract (R := R) (N := m)); apply: matrix_tree oQ QA con.
Qed.

(** an unknown mode raises, but not the documented ValueError *)
Theorem C49_unknown_mode (R : rcfType) n m (e : 'I_m -> 'I_n.+1 * 'I_n.+1) neighbors (qr : forall r : nat, 'M[R]_(m, r) -> 'M[R]_(m, r)) fuel mode s :
  ~ List.In mode ("Wilson" :: "Aldous-Broder" :: "GS" :: "Schur" :: "Chol" :: nil)%string -> ust_sample e neighbors qr fuel mode s = Raise TypeError.
Proof.
move=> h; rewrite /ust_sample; do ?[case: (String.eqb_spec mode _) => [E|_] /=; first by case: h; rewrite E /=; tauto].
by [].
Qed.

(** the hypotheses are met: a triangle, Gram-Schmidt as qr *)
Definition triangle (k : 'I_3) : 'I_3 * 'I_3 := if val k == 0%N then (ord0, lift ord0 ord0) else if val k == 1%N then (lift ord0 ord0, ord_max) else (ord0, ord_max).
Lemma adj_intro n m (e : 'I_m -> 'I_n.+1 * 'I_n.+1) k u v : e k = (u, v) \/ e k = (v, u) -> adj (es e) u v.
Proof. by case=> h; rewrite /adj -h es_mem ?orbT. Qed.
Example C49_instance (R : rcfType) : [/\ simple_graph triangle, gconnected (es triangle), qr_contract (@gs_qr R 3) &
  nb_spanning_trees triangle = 3%N].
Proof.
have con : gconnected (es triangle).
  have h (u v : 'I_3) : u != v -> adj (es triangle) u v.
    case: u v => [[|[|[|u]]] pu] [[|[|[|v]]] pv] //= _.
    - by apply: (adj_intro (k := ord0)); left; congr pair; apply: val_inj.
    - by apply: (adj_intro (k := ord_max)); left; congr pair; apply: val_inj.
    - by apply: (adj_intro (k := ord0)); right; congr pair; apply: val_inj.
    - by apply: (adj_intro (k := lift ord0 ord0)); left; congr pair; apply: val_inj.
    - by apply: (adj_intro (k := ord_max)); right; congr pair; apply: val_inj.
    - by apply: (adj_intro (k := lift ord0 ord0)); right; congr pair; apply: val_inj.
  by apply/forallP => u; apply/forallP => v; have [->|/h /connect1] := eqVneq u v.
split=> //.
- split; first by case=> [[|[|[|k]]] pk].
  by case=> [[|[|[|k]]] pk] [[|[|[|l]]] pl] //= [] // _; apply: val_inj.
- exact: gs_qr_contract.
apply/eqP; rewrite -(eqr_nat R) -C49_matrix_tree //.
set M := _ *m _; have -> : M = \matrix_(i, j) (if i == j then 2%:R else -1).
  apply/matrixP => i j; rewrite !mxE !big_ord_recr big_ord0 /= !mxE /triangle /=.
  by case: i j => [[|[|i]] pi] [[|[|j]] pj] //=; rewrite -?val_eqE /= ?subr0 ?sub0r ?mulr0 ?mul0r ?mulN1r ?mulrN1 ?opprK ?addr0 ?add0r ?mulr1.
rewrite (expand_det_row _ ord0) !big_ord_recl big_ord0 /= /cofactor !det_mx11 !mxE /=.
have -> : (0 + bump 0 0 = 1)%N by []. rewrite addn0 expr0 expr1 mul1r !mulN1r opprK addr0 -natrM.
by rewrite (natrB R (m := 4) (n := 1)).
Qed.
Print Assumptions C49_uniform.
Print Assumptions C49_always.
Print Assumptions C49_instance.
