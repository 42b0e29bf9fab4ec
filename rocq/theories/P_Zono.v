(** * P_Zono: the zonotope chain (C50, C64, C65, C66). *)
From mathcomp Require Import all_ssreflect all_algebra all_real_closed.
From mathcomp.algebra_tactics Require Import ring.
From Verif Require Import Prob Minor Spectral McmcModel Mcmc ZonoModel.
Set Implicit Arguments. Unset Strict Implicit. Unset Printing Implicit Defensive.
Import Order.Theory GRing.Theory Num.Theory.
Local Open Scope ring_scope.
Local Arguments possible : simpl never.

Lemma possRet (R : rcfType) T (a : T) o : possible (Ret a : prog R T) o -> o = inl a.
Proof. by []. Qed.

(** every program has an outcome *)
Lemma some_outcome (R : rcfType) T (m : prog R T) : exists o, possible m o.
Proof.
elim: m => [a|e|p k IH|S pop w k IH]; rewrite /possible -/(@possible R T).
- by exists (inl a).
- by exists (inr e).
- case: (ltrP 0 (clip p)) => h; first by have [o ho] := IH true; exists o; left.
  by have [o ho] := IH false; exists o; right; split=> //; apply: le_lt_trans h ltr01.
case v: (valid_weights pop w); last by exists (inr ValueError).
move: v => /andP[al /eqP s1].
have [x0 [t1 [t2 [e w0]]]] : exists x t1 t2, pop = t1 ++ x :: t2 /\ 0 < w x.
  elim: pop al s1 => [|x pop IHp] /=; first by rewrite big_nil => _ /eqP; rewrite eq_sym oner_eq0.
  move=> /andP[wx al]; rewrite big_cons; case: (ltrP 0 (w x)) => [w0 _|wn].
    by exists x, [::], pop.
  have -> : w x = 0 by apply/eqP; rewrite eq_le wx wn.
  by rewrite add0r => /(IHp al) [y [s1 [s2 [-> wy]]]]; exists y, (x :: s1), s2.
by have [o ho] := IH x0; exists o, t1, x0, t2.
Qed.

Section P.
Variables (R : rcfType) (r N : nat) (A : 'M[R]_(r, N)) (eps : R).

(** ** Specification *)
(** y is a point of the cube mapped to x *)
Definition feasible (x : 'cV[R]_r) (y : 'cV[R]_N) : Prop := A *m y = x /\ forall i, 0 <= y i 0 <= 1.
(** the zonotope Z(A) *)
Definition zonotope (x : 'cV[R]_r) : Prop := exists y, feasible x y.
(** a vertex of the polytope of the points of the cube mapped to x *)
Definition vertex (x : 'cV[R]_r) (y : 'cV[R]_N) : Prop :=
  feasible x y /\ forall y1 y2, feasible x y1 -> feasible x y2 -> y + y = y1 + y2 -> y1 = y2.
(** a strictly increasing list of r indices, whose columns form a basis *)
Definition increasing (B : seq 'I_N) : bool := sorted ltn [seq val i | i <- B].
Definition is_basis (B : seq 'I_N) : Prop :=
  [/\ size B = r, increasing B & forall v : 'cV[R]_r, cols A B *m v = 0 -> v = 0].

(** contracts of the linear programs (a simplex solver returns a vertex) *)
Definition lp_tile_ok (lp_tile : 'cV[R]_r -> option 'cV[R]_N) : Prop :=
  forall x, if lp_tile x is Some y then vertex x y else ~ zonotope x.
Definition on_line (d x : 'cV[R]_r) (alpha : R) : Prop := zonotope (x + alpha *: d).
Definition lp_line_ok (lp_line : R -> 'cV[R]_r -> 'cV[R]_r -> option R) : Prop :=
  forall s d x, zonotope x -> d != 0 -> s = 1 \/ s = -1 ->
    exists alpha, [/\ lp_line s d x = Some alpha, on_line d x alpha & forall beta, on_line d x beta -> s * alpha <= s * beta].

(** ** Tiles *)
Lemma extract_sub (y : 'cV[R]_N) : subseq (extract_basis eps y) (enum 'I_N).
Proof. exact: filter_subseq. Qed.
Lemma extract_inc (y : 'cV[R]_N) : increasing (extract_basis eps y).
Proof.
rewrite /increasing; apply: (@subseq_sorted _ ltn _ _ [seq val i | i <- enum 'I_N]).
- exact: ltn_trans.
- exact/map_subseq/extract_sub.
by rewrite val_enum_ord iota_ltn_sorted.
Qed.
Lemma extract_uniq (y : 'cV[R]_N) : uniq (extract_basis eps y).
Proof. exact: subseq_uniq (extract_sub y) (enum_uniq _). Qed.

Definition spread (B : seq 'I_N) (v : 'cV[R]_r) : 'cV[R]_N :=
  \col_i (if (index i B < size B)%N then (if insub (index i B) is Some j then v j 0 else 0) else 0).
Lemma spreadE (B : seq 'I_N) (v : 'cV[R]_r) (j : 'I_r) (i0 : 'I_N) : size B = r -> uniq B -> spread B v (nth i0 B j) 0 = v j 0.
Proof.
move=> sz u; rewrite mxE index_uniq ?sz // ltn_ord.
by case: insubP => [k _ kj|]; [congr (v _ _); exact/val_inj|rewrite ltn_ord].
Qed.
Lemma spread0 (B : seq 'I_N) (v : 'cV[R]_r) i : i \notin B -> spread B v i 0 = 0.
Proof. by move=> nB; rewrite mxE index_mem (negbTE nB). Qed.
Lemma mul_spread (B : seq 'I_N) (v : 'cV[R]_r) : size B = r -> uniq B -> A *m spread B v = cols A B *m v.
Proof.
move=> sz u; apply/colP => a; rewrite !mxE.
rewrite (bigID (fun i => i \in B)) /= [X in _ + X]big1 ?addr0; last by move=> i nB; rewrite spread0 // mulr0.
rewrite -(big_filter _ (fun i => i \in B)) /=.
have -> : \sum_(i <- [seq i <- index_enum (ordinal_finType N) | i \in B]) A a i * spread B v i 0 =
          \sum_(i <- B) A a i * spread B v i 0.
  apply: perm_big; apply: uniq_perm => //; first by rewrite filter_uniq // index_enum_uniq.
  by move=> i; rewrite mem_filter mem_index_enum andbT.
have [B0|[i0 _]] : B = [::] \/ exists i0 : 'I_N, i0 \in B.
- by case: (B) => [|i B']; [left|right; exists i; rewrite mem_head].
- rewrite B0 big_nil big1 // => j _; suff : (j < 0)%N by []. 
  by have := ltn_ord j; rewrite -{2}sz B0.
rewrite (big_nth i0) sz big_mkord; apply: eq_bigr => j _.
by rewrite spreadE // [cols _ _ _ _]mxE (nth_map i0) ?sz.
Qed.

(** the columns selected from a vertex are independent *)
Lemma vertex_basis x y : 0 < eps -> vertex x y -> size (extract_basis eps y) = r -> is_basis (extract_basis eps y).
Proof.
move=> e0 [[Ay y01] ext] sz; split=> //; first exact: extract_inc.
set B := extract_basis eps y in sz *; move=> v Bv0.
pose w := spread B v; have Aw : A *m w = 0 by rewrite mul_spread // extract_uniq.
pose T := 1 + \sum_i `|w i 0|; have T1 : 1 <= T by rewrite ler_addl sumr_ge0.
have T0 : 0 < T by exact: lt_le_trans ltr01 T1.
pose t := eps / T; have t0 : 0 < t by rewrite divr_gt0.
have small i : `|t * w i 0| <= eps.
  rewrite normrM gtr0_norm // /t mulrAC ler_pdivr_mulr // ler_pmul2l //.
  by rewrite /T (bigD1 i) //= addrCA ler_addl addr_ge0 ?ler01 // sumr_ge0.
have fe s : s = 1 \/ s = -1 -> feasible x (y + (s * t) *: w).
  move=> s1; split; first by rewrite mulmxDr -scalemxAr Aw scaler0 addr0.
  move=> i; rewrite [(y + _) i 0]mxE [(_ *: w) i 0]mxE; have [iB|niB] := boolP (i \in B); last first.
    have -> : w i 0 = 0 by exact: spread0.
    by rewrite mulr0 addr0.
  move: (iB); rewrite mem_filter => /andP[/andP[l1 l2] _].
  have : `|s * t * w i 0| <= eps by rewrite -mulrA normrM; case: s1 => ->; rewrite ?normrN normr1 mul1r.
  rewrite ler_norml => /andP[h1 h2]; apply/andP; split.
    by rewrite -(addNr eps) addrC ler_add // ltW.
  by rewrite -[1](subrK eps) ler_add // ltW.
have w0 : w = 0.
  have := ext _ _ (fe 1 (or_introl erefl)) (fe (-1) (or_intror erefl)).
  rewrite addrACA -scalerDl mul1r mulN1r subrr scale0r addr0 => /(_ erefl) /addrI /eqP.
  rewrite -subr_eq0 scaleNr opprK -scalerDl scaler_eq0 -mulr2n mulrn_eq0 /= gt_eqF //=.
  by move/eqP.
apply/colP => j; rewrite mxE.
have lj : (j < size B)%N by rewrite sz.
have i0 : 'I_N by case: (B) lj.
by rewrite -(spreadE v j i0 sz (extract_uniq y)) -/w w0 mxE.
Qed.
Lemma basis_det B : is_basis B -> det_tile A B != 0.
Proof.
case=> sz _ inj; apply/negP; rewrite /det_tile -det_tr => /det0P [v v0 /(congr1 trmx)].
by rewrite trmx_mul trmxK trmx0 => /inj /(congr1 trmx); rewrite trmxK trmx0 => /eqP; rewrite (negbTE v0).
Qed.
Lemma det_basis B : size B = r -> increasing B -> det_tile A B != 0 -> is_basis B.
Proof.
move=> sz inc; rewrite /det_tile -unitfE -unitmxE => u; split=> // v h; by rewrite -[v](mulKmx u) h mulmx0.
Qed.

(** ** Convexity *)
Lemma line_convex d x a b u : on_line d x a -> on_line d x b -> 0 <= u <= 1 -> on_line d x (a + (b - a) * u).
Proof.
move=> [y1 [e1 y1P]] [y2 [e2 y2P]] /andP[u0 u1]; exists ((1 - u) *: y1 + u *: y2); split.
  rewrite mulmxDr -!scalemxAr e1 e2; apply/colP => i; rewrite !mxE; ring.
move=> i; rewrite !mxE; have /andP[p1 q1] := y1P i; have /andP[p2 q2] := y2P i.
have v0 : 0 <= 1 - u by rewrite subr_ge0.
rewrite addr_ge0 ?mulr_ge0 //=; apply: le_trans (_ : (1 - u) * 1 + u * 1 <= 1); last by rewrite !mulr1 subrK.
by rewrite ler_add // ler_wpmul2l.
Qed.
Lemma line0 d x : zonotope x -> on_line d x 0.
Proof. by rewrite /on_line scale0r addr0. Qed.

Section Chain.
Variables (lp_tile : 'cV[R]_r -> option 'cV[R]_N) (lp_line : R -> 'cV[R]_r -> 'cV[R]_r -> option R).
Hypothesis eps0 : 0 < eps.
Hypothesis tileP : lp_tile_ok lp_tile.
Hypothesis lineP : lp_line_ok lp_line.
Notation zono_step := (zono_step A eps lp_tile lp_line).
Notation zono_loop := (zono_loop A eps lp_tile lp_line).
Notation zonotope_sampler := (zonotope_sampler A eps lp_tile lp_line).
Notation init_tile := (init_tile eps lp_tile).

(** the tile of a point: None when the solution of the linear program does not give r indices *)
Definition tile_of (x : 'cV[R]_r) : option (seq 'I_N) :=
  if lp_tile x is Some y then if size (extract_basis eps y) == r then Some (extract_basis eps y) else None else None.
Definition zinv (st : zstate R r N) : Prop :=
  [/\ zonotope st.1.1, tile_of st.1.1 = Some st.1.2 & st.2 = det_tile A st.1.2].

Lemma tile_basis x B : tile_of x = Some B -> is_basis B.
Proof.
rewrite /tile_of; have := tileP x; case: (lp_tile x) => // y v; case: eqP => // sz [<-]; exact: vertex_basis v sz.
Qed.

Lemma zono_step_out d u st o : d != 0 -> 0 <= u <= 1 -> zinv st -> possible (zono_step d u st) o ->
  exists2 st', o = inl st' & zinv st'.
Proof.
move=> d0 u01; case: st => [[x0 B0] det0] [/= z0 t0 ->]; rewrite /ZonoModel.zono_step.
have [am [-> lm _]] := lineP z0 d0 (or_introl erefl).
have [aM [-> lM _]] := lineP z0 d0 (or_intror erefl).
have z1 : zonotope (x0 + (am + (aM - am) * u) *: d) by exact: line_convex u01.
have := tileP (x0 + (am + (aM - am) * u) *: d); case ey: (lp_tile _) => [y|] // vy.
case: ifP => [_ h|/negbFE /eqP sz]; first by rewrite (possRet h); eexists; first reflexivity.
case=> [[_ h]|[_ h]].
  exists (x0 + (am + (aM - am) * u) *: d, extract_basis eps y, det_tile A (extract_basis eps y)); first exact: possRet h.
  by split=> //=; rewrite /tile_of ey sz eqxx.
by exists (x0, B0, det_tile A B0); first exact: possRet h.
Qed.

Lemma zono_loop_out ds us T_max clock n it st ch o : (forall k, ds k != 0) -> (forall k, 0 <= us k <= 1) -> zinv st ->
  possible (zono_loop ds us T_max clock n it st ch) o ->
  exists ext, [/\ o = inl (ch ++ ext), forall B, B \in ext -> is_basis B,
    (size ext <= n)%N, (0 < n)%N -> (0 < size ext)%N & (forall k, stops T_max clock k = false) -> size ext = n].
Proof.
move=> d0 u01; elim: n it st ch o => [|n IH] it st ch o iv /=.
  by move=> h; rewrite (possRet h); exists [::]; rewrite cats0.
case: o => [o|e] p; last first.
  have [p1|[st' p1 p2]] := possible_bind_raise p; first by have [] := zono_step_out (d0 it) (u01 it) iv p1.
  have [st'' [<-] iv'] := zono_step_out (d0 it) (u01 it) iv p1; move: p2; case: ifP => // _ /(IH _ _ _ _ iv').
  by case=> ? [].
have [st' p1 p2] := bind_possible p.
have [st'' [e] iv'] := zono_step_out (d0 it) (u01 it) iv p1; rewrite -{}e in iv'.
have bB : is_basis st'.1.2 by case: iv' => _ /tile_basis.
move: p2; case: ifP => [st_ h|ns /(IH _ _ _ _ iv')].
  case: (possRet h) => ->.
  exists [:: st'.1.2]; split=> //; first by rewrite cats1.
  - by move=> B; rewrite inE => /eqP ->.
  - by move=> h'; rewrite h' in st_.
case=> ext [-> h1 h2 h3 h4]; exists (st'.1.2 :: ext); split=> //; first by rewrite cat_rcons.
- by move=> B; rewrite inE => /orP[/eqP ->|/h1].
by move=> h /=; rewrite h4.
Qed.

(** ** C65: the initialisation loop *)
(** it ends after one round, or never: the same deterministic linear program is solved again and again *)
Theorem C65_init_terminates_iff x0 : (0 < r)%N -> zonotope x0 ->
  match tile_of x0 with
  | Some B => forall fuel, init_tile fuel.+1 x0 [::] = Done B
  | None => forall fuel, init_tile fuel x0 [::] = Running N
  end.
Proof.
move=> r0 z0; rewrite /tile_of; have := tileP x0; case ey: (lp_tile x0) => [y|] // _.
have nr : (0 == r)%N = false by case: (r) r0.
case: ifP => [sz|nsz] fuel; first by rewrite /= nr ey; case: fuel => [|f] /=; rewrite sz.
case: fuel => [|fuel] /=; rewrite nr // ey.
by elim: fuel => [|f IH] /=; rewrite nsz // ey.
Qed.

(** ** C50 and C64 *)
Lemma sampler_out fuel x0 ds us nb_iter T_max clock p o : (0 < r)%N -> (0 < nb_iter)%N -> zonotope x0 ->
  (forall k, ds k != 0) -> (forall k, 0 <= us k <= 1) ->
  zonotope_sampler fuel x0 ds us nb_iter T_max clock = Some p -> possible p o ->
  exists Bs, [/\ o = inl ([seq [seq val i | i <- B] | B <- Bs] ++ nseq (nb_iter - size Bs) (nseq r 0%N)),
     forall B, B \in Bs -> is_basis B, (0 < size Bs <= nb_iter)%N, tile_of x0 = Some (head [::] Bs) &
     (forall k, stops T_max clock k = false) -> size Bs = nb_iter].
Proof.
move=> r0 n0 z0 d0 u01; rewrite /ZonoModel.zonotope_sampler.
have := C65_init_terminates_iff r0 z0; case t0: (tile_of x0) => [B|]; last by move=> ->.
case: fuel => [|fuel]; first by move=> _; rewrite /=; have -> : (0 == r)%N = false by case: (r) r0.
move=> ->; rewrite (gtn_eqF n0) => -[<-] pp.
have iv : zinv (x0, B, det_tile A B) by [].
case: o pp => [o|e] pp; last first.
  have [p1|[ch' p1 p2]] := possible_bind_raise pp; last by [].
  by have [? []] := zono_loop_out d0 u01 iv p1.
have [ch' p1 pr] := bind_possible pp; case: (possRet pr) => ->.
have [ext [[->] h1 h2 h3 h4]] := zono_loop_out d0 u01 iv p1.
exists (B :: ext); split=> //.
- by move=> B'; rewrite inE => /orP[/eqP ->|/h1 //]; exact: tile_basis t0.
- by rewrite /= (leq_ltn_trans h2) ?prednK.
by move=> h; rewrite /= h4 // prednK.
Qed.

(** Without T_max (or when the clock never triggers it): nb_iter rows, each a strictly increasing list of r indices whose
    columns are linearly independent. *)
Theorem C50_states_are_bases_partial fuel x0 ds us nb_iter T_max clock p ch : (0 < r)%N -> (0 < nb_iter)%N -> zonotope x0 ->
  (forall k, ds k != 0) -> (forall k, 0 <= us k <= 1) -> (forall k, stops T_max clock k = false) ->
  zonotope_sampler fuel x0 ds us nb_iter T_max clock = Some p -> possible p (inl ch) ->
  size ch = nb_iter /\ forall X, X \in ch -> exists2 B, X = [seq val i | i <- B] & is_basis B.
Proof.
move=> r0 n0 z0 d0 u01 ns E pp; have [Bs [[->] h1 h2 _ h3]] := sampler_out r0 n0 z0 d0 u01 E pp.
rewrite h3 // subnn cats0 size_map h3 //; split=> // X /mapP[B BBs ->]; exists B => //; exact: h1.
Qed.
(** With T_max, the rows before the interruption are bases, the others are rows of zeros. *)
Theorem C50_T_max_rows fuel x0 ds us nb_iter T_max clock p ch : (0 < r)%N -> (0 < nb_iter)%N -> zonotope x0 ->
  (forall k, ds k != 0) -> (forall k, 0 <= us k <= 1) ->
  zonotope_sampler fuel x0 ds us nb_iter T_max clock = Some p -> possible p (inl ch) ->
  size ch = nb_iter /\
  exists2 k, (0 < k <= nb_iter)%N & forall i, (i < nb_iter)%N ->
    if (i < k)%N then exists2 B, nth [::] ch i = [seq val j | j <- B] & is_basis B else nth [::] ch i = nseq r 0%N.
Proof.
move=> r0 n0 z0 d0 u01 E pp; have [Bs [[->] h1 /andP[h0 h2] _ _]] := sampler_out r0 n0 z0 d0 u01 E pp.
split; first by rewrite size_cat size_map size_nseq subnKC.
exists (size Bs); first by rewrite h0.
move=> i lt; rewrite nth_cat size_map; case: ifP => [li|/negbT].
  by exists (nth [::] Bs i); [rewrite li (nth_map [::])|apply: h1; exact: mem_nth].
by rewrite -leqNgt => li; rewrite ltnNge li /= nth_nseq ltn_sub2r // (leq_ltn_trans li).
Qed.
(** refutation of the unrestricted statement: T_max larger than the duration of the first iteration *)
Theorem C50_T_max_refuted fuel x0 ds us nb_iter T clock p ch : (1 < r)%N -> (2 < nb_iter)%N -> zonotope x0 ->
  (forall k, ds k != 0) -> (forall k, 0 <= us k <= 1) -> T != 0 -> clock 1%N - clock 0%N < T ->
  zonotope_sampler fuel x0 ds us nb_iter (Some T) clock = Some p -> possible p (inl ch) ->
  nth [::] ch 2 = nseq r 0%N /\ ~~ sorted ltn (nth [::] ch 2).
Proof.
move=> r1 n2 z0 d0 u01 T0 c E pp.
have r0 : (0 < r)%N by exact: ltnW.
suff e2 : nth [::] ch 2 = nseq r 0%N by rewrite e2; split=> //; case: (r) r1 => [|[|r']].
move: E; rewrite /ZonoModel.zonotope_sampler.
have := C65_init_terminates_iff r0 z0; case t0: (tile_of x0) => [B|]; last by move=> ->.
case: fuel => [|fuel]; first by move=> _; rewrite /=; have -> : (0 == r)%N = false by case: (r) r0.
case: nb_iter n2 => [|[|[|n]]] // _ -> [ep]; move: pp; rewrite -{}ep => pp.
have [ch' p1 pr] := bind_possible pp; case: (possRet pr) => ->.
have iv : zinv (x0, B, det_tile A B) by [].
have [st' q1 q2] := bind_possible p1.
move: q2; rewrite /stops T0 c /= => q2; case: (possRet q2) => -> /=.
by [].
Qed.

(** C64: started in the zonotope, the chain stays in it and never raises (for any draws d <> 0, u in [0,1]) *)
Theorem C64_never_raises fuel x0 ds us nb_iter T_max clock p e : (0 < r)%N -> (0 < nb_iter)%N -> zonotope x0 ->
  (forall k, ds k != 0) -> (forall k, 0 <= us k <= 1) ->
  zonotope_sampler fuel x0 ds us nb_iter T_max clock = Some p -> ~ possible p (inr e).
Proof. by move=> r0 n0 z0 d0 u01 E pp; have [? []] := sampler_out r0 n0 z0 d0 u01 E pp. Qed.
Theorem C64_stays_in_zonotope d u st st' : d != 0 -> 0 <= u <= 1 -> zinv st -> possible (zono_step d u st) (inl st') ->
  zonotope st'.1.1 /\ exists a, st'.1.1 = st.1.1 + a *: d.
Proof.
move=> d0 u01 iv pp; have [_ [<-] []] := zono_step_out d0 u01 iv pp.
move=> z _ _; split=> //; move: pp; case: st iv => [[x0 B0] det0] [/= z0 t0 _]; rewrite /ZonoModel.zono_step.
have st0 : exists a, x0 = x0 + a *: d by exists 0; rewrite scale0r addr0.
case: (lp_line 1 d x0) => [am|] //; case: (lp_line (-1) d x0) => [aM|] //; case: (lp_tile _) => [y|] //.
case: ifP => _; first by move=> h; have [->] := possRet h.
have inlI (T : Type) (a b : T) : @inl T exn a = inl b -> a = b by case.
by case=> [[_ h]|[_ h]]; rewrite (inlI _ _ _ (possRet h)) //=; exists (am + (aM - am) * u).
Qed.

(** ** C66: detailed balance for the density |det B_x| on the zonotope *)
(** The segment explored from x0 and from x1 along the same direction is the same, so the proposal densities agree, and the
    acceptance probabilities balance the volumes of the two tiles. *)
Theorem C66_detailed_balance d u x0 B0 B1 am aM : d != 0 -> 0 <= u <= 1 -> zonotope x0 -> tile_of x0 = Some B0 ->
  lp_line 1 d x0 = Some am -> lp_line (-1) d x0 = Some aM -> am < aM ->
  let x1 := x0 + (am + (aM - am) * u) *: d in tile_of x1 = Some B1 ->
  exists u' am' aM', [/\ 0 <= u' <= 1, lp_line 1 d x1 = Some am' /\ lp_line (-1) d x1 = Some aM', aM' - am' = aM - am,
    x0 = x1 + (am' + (aM' - am') * u') *: d &
    `|det_tile A B0| * Pr (zono_step d u (x0, B0, det_tile A B0)) (fun st => st.1.1 == x1) =
    `|det_tile A B1| * Pr (zono_step d u' (x1, B1, det_tile A B1)) (fun st => st.1.1 == x0)].
Proof.
move=> d0 u01 z0 t0 em eM mM x1 t1; pose t := am + (aM - am) * u.
have [am0 [em0 lm mmin]] := lineP z0 d0 (or_introl erefl); move: em0; rewrite em => -[?]; subst am0.
have [aM0 [eM0 lM Mmax]] := lineP z0 d0 (or_intror erefl); move: eM0; rewrite eM => -[?]; subst aM0.
have z1 : zonotope x1 by exact: line_convex u01.
have shift a : on_line d x1 a <-> on_line d x0 (a + t).
  by rewrite /on_line /x1 -/t -addrA -scalerDl [t + a]addrC.
have [am' [em' lm' mmin']] := lineP z1 d0 (or_introl erefl).
have [aM' [eM' lM' Mmax']] := lineP z1 d0 (or_intror erefl).
have am'E : am' = am - t.
  apply/eqP; rewrite eq_le; have := mmin' (am - t); rewrite !mul1r => -> /=; last by apply/shift; rewrite subrK.
  by rewrite ler_subl_addr; have := mmin (am' + t); rewrite !mul1r; apply; apply/shift.
have aM'E : aM' = aM - t.
  apply/eqP; rewrite eq_le; have := Mmax' (aM - t); rewrite !mulN1r ler_opp2 => -> /=; last by apply/shift; rewrite subrK.
  rewrite andbT ler_subr_addr; have := Mmax (aM' + t); rewrite !mulN1r ler_opp2; apply; exact/shift.
have len : aM' - am' = aM - am by rewrite am'E aM'E; ring.
have w0 : 0 < aM - am by rewrite subr_gt0.
pose u' := - am / (aM - am).
have u'E : am' + (aM' - am') * u' = - t.
  rewrite len am'E mulrCA divff ?gt_eqF // mulr1; by rewrite addrAC subrr sub0r.
have m0 : am <= 0 by have := mmin 0 (line0 d z0); rewrite !mul1r.
have M0 : 0 <= aM by have := Mmax 0 (line0 d z0); rewrite !mulN1r oppr0 oppr_le0.
have x0E : x0 = x1 + (am' + (aM' - am') * u') *: d by rewrite u'E /x1 -/t scaleNr addrK.
exists u', am', aM'; split=> //.
  rewrite divr_ge0 ?oppr_ge0 // ?(ltW w0) //= ler_pdivr_mulr // mul1r ler_subr_addr addrC subrr.
  by [].
have step_pr a b ua x y Bx By : lp_line 1 d x = Some a -> lp_line (-1) d x = Some b -> y = x + (a + (b - a) * ua) *: d ->
    tile_of x = Some Bx -> tile_of y = Some By ->
    `|det_tile A Bx| * Pr (zono_step d ua (x, Bx, det_tile A Bx)) (fun st => st.1.1 == y) =
    (if x == y then `|det_tile A Bx| else Order.min `|det_tile A Bx| `|det_tile A By|).
  move=> ea eb ey tx ty; rewrite /Pr /ZonoModel.zono_step ea eb -ey.
  have Bx0 := basis_det (tile_basis tx); move: (ty); rewrite /tile_of; case: (lp_tile y) => // v.
  case: ifP => // /eqP sz [eB]; rewrite /= eB /E /= eqxx mulr1.
  set q := `|_ / _|; case: eqP => [_|_]; first by rewrite mulr1 addrCA subrr addr0 mulr1.
  rewrite mulr0 addr0 /clip; have pB : 0 < `|det_tile A Bx| by rewrite normr_gt0.
  have qE : q = `|det_tile A By| / `|det_tile A Bx| by rewrite /q normrM normfV.
  case: (lerP q 0) => [q0|_].
    have By0 : `|det_tile A By| = 0.
      by apply/eqP; rewrite -(mulfK (lt0r_neq0 pB) `|det_tile A By|) mulrAC -qE (le_anti (_ : q <= 0 <= q)) ?mul0r // q0 normr_ge0.
    by rewrite By0 mulr0 min_r.
  rewrite qE ler_pdivl_mulr // mul1r; case: (lerP `|det_tile A Bx| `|det_tile A By|) => h; first by rewrite mulr1.
  by rewrite mulrCA divff ?mulr1 ?(lt0r_neq0 pB).
rewrite (step_pr _ _ _ _ _ _ _ em eM erefl t0 t1) (step_pr _ _ _ _ _ _ _ em' eM' x0E t1 t0).
rewrite eq_sym minC; case: eqP => // e; have e' : x1 = x0 := e; by move: t1; rewrite e' t0 => -[->].
Qed.
End Chain.
End P.

(** The mass |det B| vol(tile B) = det(A_B)^2 that this density gives to the tile of B is, up to normalisation, the
    probability of B for the projection DPP with kernel K = A^T (A A^T)^-1 A (the volume of a parallelotope itself is not
    formalised). *)
Theorem C66_target_is_projection_dpp (R : rcfType) (r N : nat) (A : 'M[R]_(r, N)) (B : seq 'I_N) : size B = r ->
  A *m A^T \in unitmx ->
  pm (A^T *m invmx (A *m A^T) *m A) B = det_tile A B ^+ 2 / \det (A *m A^T).
Proof.
move=> sz; case: r / sz A => A uA.
have colE l i : cols A B l i = A l (tnth (in_tuple B) i).
  by rewrite mxE (nth_map (tnth (in_tuple B) i)) // -(tnth_nth _ (in_tuple B)).
have -> : pm (A^T *m invmx (A *m A^T) *m A) B = \det ((cols A B)^T *m invmx (A *m A^T) *m cols A B).
  congr (\det _); apply/matrixP => i j; rewrite mxE mxE [RHS]mxE; apply: eq_bigr => k _.
  rewrite colE; congr (_ * _); rewrite mxE [RHS]mxE; apply: eq_bigr => l _; by rewrite mxE [X in _ = X * _]mxE colE.
by rewrite !det_mulmx det_tr det_inv /det_tile expr2 mulrAC.
Qed.

(** ** A concrete zonotope: A = [1 2], the segment [0, 3] tiled by [0, 1] and [1, 3] *)
Section Ex.
Variable R : rcfType.
Definition A12 : 'M[R]_(1, 2) := \matrix_(i, j) (j.+1)%:R.
Definition y12 (a b : R) : 'cV[R]_2 := \col_i (if i == 0%N :> nat then a else b).
Definition tile12 (x : 'cV[R]_1) : option 'cV[R]_2 :=
  if x 0 0 < 0 then None else if x 0 0 <= 1 then Some (y12 (x 0 0) 0)
  else if x 0 0 <= 3%:R then Some (y12 1 ((x 0 0 - 1) / 2%:R)) else None.
Definition line12 (s : R) (d x : 'cV[R]_1) : option R :=
  if s * d 0 0 < 0 then Some ((3%:R - x 0 0) / d 0 0) else Some (- x 0 0 / d 0 0).

Lemma mul12 (y : 'cV[R]_2) : (A12 *m y) 0 0 = y 0 0 + 2%:R * y 1 0.
Proof. by rewrite mxE big_ord_recl big_ord1 !mxE /= mul1r; congr (_ + _ * y _ _); exact/val_inj. Qed.
Lemma feas12 x y : feasible A12 x y <-> [/\ x 0 0 = y 0 0 + 2%:R * y 1 0, 0 <= y 0 0 <= 1 & 0 <= y 1 0 <= 1].
Proof.
split=> [[<- h]|[e h0 h1]]; first by rewrite mul12.
split; first by apply/colP => i; rewrite (ord1 i) mul12.
by move=> i; case: i => [[|[|i]] // lt]; [move: h0|move: h1]; congr (is_true (_ <= y _ 0 <= _)); exact/val_inj.
Qed.
Lemma zono12 x : zonotope A12 x <-> 0 <= x 0 0 <= 3%:R.
Proof.
split=> [[y /feas12 [-> /andP[a b] /andP[c d]]]|/andP[h0 h3]].
  rewrite addr_ge0 ?mulr_ge0 ?ler0n //=; have -> : 3%:R = 1 + 2%:R * 1 :> R by ring.
  by rewrite ler_add // ler_pmul2l ?ltr0n.
case: (lerP (x 0 0) 1) => h1.
  by exists (y12 (x 0 0) 0); apply/feas12; rewrite !mxE /= mulr0 addr0 h0 h1 lexx ler01.
exists (y12 1 ((x 0 0 - 1) / 2%:R)); apply/feas12; rewrite !mxE /= ler01 lexx.
rewrite mulrCA divff ?pnatr_eq0 // mulr1 addrCA subrr addr0; split=> //.
rewrite divr_ge0 ?subr_ge0 ?ler0n // ?(ltW h1) //= ler_pdivr_mulr ?ltr0n // mul1r ler_subl_addr.
by have -> : 2%:R + 1 = 3%:R :> R by ring.
Qed.
Lemma tile12P : lp_tile_ok A12 tile12.
Proof.
move=> x; rewrite /tile12; case: (ltrP (x 0 0) 0) => h0.
  by move=> /zono12 /andP[]; rewrite leNgt h0.
case: (lerP (x 0 0) 1) => h1; last case: (lerP (x 0 0) 3%:R) => h3; last by move=> /zono12 /andP[_]; rewrite leNgt h3.
  split; first by apply/feas12; rewrite !mxE /= mulr0 addr0 h0 h1 lexx ler01.
  move=> y1 y2 /feas12 [e1 /andP[p1 q1] /andP[r1 s1]] /feas12 [e2 /andP[p2 q2] /andP[r2 s2]] /colP E.
  have := E 1; rewrite !mxE /= addr0 => /esym /eqP; rewrite paddr_eq0 // => /andP[/eqP z1 /eqP z2].
  apply/colP => i; case: i => [[|[|i]] // lt].
    have -> : Ordinal lt = 0 by exact/val_inj.
    by move: e1 e2; rewrite z1 z2 !mulr0 !addr0 => <-.
  by (have -> : Ordinal lt = 1 by exact/val_inj); rewrite z1 z2.
have pos : 0 <= (x 0 0 - 1) / 2%:R <= 1.
  rewrite divr_ge0 ?subr_ge0 ?ler0n // ?(ltW h1) //= ler_pdivr_mulr ?ltr0n // mul1r ler_subl_addr.
  by have -> : 2%:R + 1 = 3%:R :> R by ring.
split.
  apply/feas12; rewrite !mxE /= ler01 lexx mulrCA divff ?pnatr_eq0 // mulr1 addrCA subrr addr0; split=> //.
move=> y1 y2 /feas12 [e1 /andP[p1 q1] /andP[r1 s1]] /feas12 [e2 /andP[p2 q2] /andP[r2 s2]] /colP E.
have [z1 z2] : y1 0 0 = 1 /\ y2 0 0 = 1.
  have := E 0; rewrite !mxE /= => /esym /eqP; rewrite -subr_eq0 opprD addrACA -oppr_eq0 opprD !opprB paddr_eq0 ?subr_ge0 //.
  by rewrite !subr_eq0 => /andP[/eqP <- /eqP <-].
have ee : y1 1 0 = y2 1 0.
  by apply: (@mulfI _ 2%:R); [rewrite pnatr_eq0|move: e1; rewrite e2 z1 z2 => /addrI].
apply/colP => i; case: i => [[|[|i]] // lt].
  by (have -> : Ordinal lt = 0 by exact/val_inj); rewrite z1 z2.
by have -> : Ordinal lt = 1 by exact/val_inj.
Qed.
Lemma line12P : lp_line_ok A12 line12.
Proof.
move=> s d x /zono12 /andP[x0 x3] d0 s1; rewrite /line12.
have dn0 : d 0 0 != 0 by apply: contraNneq d0 => e; apply/eqP/colP => i; rewrite (ord1 i) mxE.
have on a : on_line A12 d x a <-> 0 <= x 0 0 + a * d 0 0 <= 3%:R by rewrite /on_line zono12 !mxE.
have s2 : s * s = 1 by case: s1 => ->; rewrite ?mulrNN mulr1.
have sd0 : s * d 0 0 != 0 by rewrite mulf_neq0 //; case: s1 => ->; rewrite ?oppr_eq0 oner_eq0.
have alg (a b e f : R) : f * (a - b) * e ^+ 2 = (a - b) * e * (f * e) by ring.
have key (alpha beta : R) : (alpha - beta) * d 0 0 * (s * d 0 0) <= 0 -> s * alpha <= s * beta.
  move=> h; rewrite -subr_le0 -mulrBr -(pmulr_lle0 _ (_ : 0 < d 0 0 ^+ 2)) ?exprn_even_gt0 //=.
  by rewrite alg.
case: ltrP => sd.
  exists ((3%:R - x 0 0) / d 0 0); split=> //; first by apply/on; rewrite divfK // addrCA subrr addr0 ler0n lexx.
  move=> beta /on /andP[_ b3]; apply: key; rewrite mulrBl divfK // nmulr_lle0 //.
  by rewrite subr_ge0 ler_subr_addl.
exists (- x 0 0 / d 0 0); split=> //; first by apply/on; rewrite divfK // subrr lexx ler0n.
move=> beta /on /andP[b0 _]; apply: key; rewrite mulrBl divfK // pmulr_lle0 ?lt_def ?sd0 ?sd //.
by rewrite -opprD oppr_le0.
Qed.

Notation o0 := (ord0 : 'I_2).
Notation o1 := (lift ord0 ord0 : 'I_2).
Lemma extract12 (eps a b : R) : extract_basis eps (y12 a b) =
  (if (eps < a) && (a < 1 - eps) then [:: o0] else [::]) ++ (if (eps < b) && (b < 1 - eps) then [:: o1] else [::]).
Proof.
rewrite /extract_basis enum_ordSl enum_ordSl /= !mxE /=; have -> : enum 'I_0 = [::] by apply: size0nil; rewrite size_enum_ord.
by case: ifP => _; case: ifP.
Qed.
Definition pt (a : R) : 'cV[R]_1 := \col_i a.
Definition e10 : R := 10%:R^-1.
Lemma e10_gt0 : 0 < e10. Proof. by rewrite invr_gt0 ltr0n. Qed.
(** two points in the two tiles *)
Lemma tile_half : tile_of e10 tile12 (pt 2%:R^-1) = Some [:: o0].
Proof.
have h : (2%:R^-1 : R) < 1 by rewrite invf_lt1 ?ltr0n // ltr1n.
rewrite /tile_of /tile12 !mxE ltNge invr_ge0 ler0n /= (ltW h) extract12.
have -> : e10 < 2%:R^-1 by rewrite ltf_pinv ?posrE ?ltr0n // ltr_nat.
have -> : 2%:R^-1 < 1 - e10.
  rewrite ltr_subr_addl; have -> : e10 + 2%:R^-1 = 3%:R / 5%:R by rewrite /e10; field.
  by rewrite ltr_pdivr_mulr ?ltr0n // mul1r ltr_nat.
by rewrite ltNge ltW ?e10_gt0.
Qed.
Lemma tile_two : tile_of e10 tile12 (pt 2%:R) = Some [:: o1].
Proof.
rewrite /tile_of /tile12 !mxE ltNge ler0n /= -[1]/(1%:R) ler_nat /= ler_nat /= extract12 -[1%:R]/(1 : R).
have -> : (2%:R - 1) / 2%:R = 2%:R^-1 :> R by field.
have -> : e10 < 2%:R^-1 by rewrite ltf_pinv ?posrE ?ltr0n // ltr_nat.
have -> : 2%:R^-1 < 1 - e10.
  rewrite ltr_subr_addl; have -> : e10 + 2%:R^-1 = 3%:R / 5%:R by rewrite /e10; field.
  by rewrite ltr_pdivr_mulr ?ltr0n // mul1r ltr_nat.
by rewrite [1 < 1 - _]ltNge ler_subl_addl ler_addr ltW ?e10_gt0 // andbF.
Qed.
(** the hypotheses of C50, C64 and C66 hold for this zonotope, started at 1/2, and the sampler returns *)
Example C50_instance : exists p, [/\ 0 < e10, lp_tile_ok A12 tile12, lp_line_ok A12 line12, zonotope A12 (pt 2%:R^-1) &
  zonotope_sampler A12 e10 tile12 line12 1 (pt 2%:R^-1) (fun _ => pt 1) (fun _ => 2%:R^-1) 3 None (fun _ => 0) = Some p /\
  exists ch, possible p (inl ch)].
Proof.
have h : (2%:R^-1 : R) < 1 by rewrite invf_lt1 ?ltr0n // ltr1n.
have z0 : zonotope A12 (pt 2%:R^-1).
  by apply/zono12; rewrite mxE invr_ge0 ler0n /= (le_trans (ltW h)) // ler1n.
have := C65_init_terminates_iff e10 tile12P isT z0; rewrite tile_half => /(_ 0%N) it.
have [p E] : exists p, zonotope_sampler A12 e10 tile12 line12 1 (pt 2%:R^-1) (fun _ => pt 1) (fun _ => 2%:R^-1) 3 None (fun _ => 0) = Some p.
  by rewrite /zonotope_sampler it; eexists.
exists p; split; rewrite ?e10_gt0 //; first exact: tile12P.
  exact: line12P.
split=> //; have [[ch|e] pp] := some_outcome p; first by exists ch.
case: (C64_never_raises e10_gt0 tile12P line12P _ _ z0 _ _ E pp) => // k.
  by apply/eqP => /colP /(_ 0); rewrite !mxE => /eqP; rewrite oner_eq0.
by rewrite invr_ge0 ler0n ltW.
Qed.

(** C65 refuted: started from the vertex x_0 = 0 of the zonotope the initialisation never ends, whatever the solver *)
Theorem C65_init_refuted (eps : R) lp_tile lp_line : 0 < eps -> lp_tile_ok A12 lp_tile ->
  forall fuel ds us nb_iter T_max clock,
  zonotope_sampler A12 eps lp_tile lp_line fuel (pt 0) ds us nb_iter T_max clock = None.
Proof.
move=> e0 tP fuel ds us nb T cl; rewrite /zonotope_sampler.
have z0 : zonotope A12 (pt 0) by apply/zono12; rewrite mxE lexx ler0n.
have := C65_init_terminates_iff eps tP isT z0; rewrite /tile_of; have := tP (pt 0).
case: (lp_tile _) => // y [/feas12 [e /andP[a0 _] /andP[b0 _]] _].
suff -> : extract_basis eps y = [::] by move=> /= ->.
have /andP[/eqP ya /eqP yb] : (y 0 0 == 0) && (y 1 0 == 0).
  have := e; rewrite mxE => /esym /eqP; rewrite paddr_eq0 ?mulr_ge0 ?ler0n // mulf_eq0 pnatr_eq0 /=.
  by [].
apply/eqP; rewrite -(negbK (_ == _)) -has_filter; apply/hasPn => i _.
have -> : y i 0 = 0.
  by case: i => [[|[|i]] // lt]; [rewrite -[RHS]ya|rewrite -[RHS]yb]; congr (y _ _); exact/val_inj.
by rewrite ltNge ltW.
Qed.
End Ex.
Print Assumptions C50_states_are_bases_partial.
Print Assumptions C64_never_raises.
Print Assumptions C65_init_refuted.
Print Assumptions C66_detailed_balance.
Print Assumptions C66_target_is_projection_dpp.
