(** * C84, C85: the row lengths of RSK: longest decreasing subsequences and Greene's theorem *)
From mathcomp Require Import all_ssreflect all_algebra.
From Verif Require Import Prob McmcModel ExoticModel Spectral P_Perm P_RSK P_RSKinv P_Schensted Knuth Greene.
Set Implicit Arguments. Unset Strict Implicit. Unset Printing Implicit Defensive.
Import Order.Theory.

Section Spec.
Variables (d : unit) (T : orderType d).
Local Open Scope order_scope.
(** t is a strictly decreasing subsequence of s *)
Definition decr_subseq (t s : seq T) : bool := subseq t s && sorted >%O t.
(** zs lists, in order, some of the items of s (second components) each with a colour (first component) below k, and the
    items of each colour are weakly increasing: a union of k disjoint weakly increasing subsequences of s *)
Definition k_increasing (k : nat) (zs : seq (nat * T)) (s : seq T) : Prop :=
  [/\ subseq [seq p.2 | p <- zs] s, all (fun p => p.1 < k)%N zs & forall i, sorted <=%O [seq p.2 | p <- zs & p.1 == i]].
End Spec.

Section Th.
Variables (d : unit) (T : orderType d).
Local Open Scope order_scope.
Implicit Types (s t : seq T).

Lemma heads_sub (P : seq (seq T)) : wf P -> [/\ subseq (rev (heads P)) (reading P), sorted <%O (heads P) -> dec (rev (heads P)) & size (heads P) = size P].
Proof.
move=> w; split.
- elim: P w => //= r P IH /andP[/andP[r0 _] w]; rewrite reading_cons.
  case: r r0 => // a r _; rewrite /heads /= -/(heads P) rev_cons -cats1 cat_subseq ?IH //=.
  by rewrite eqxx sub0seq.
- by move=> so; rewrite /dec rev_sorted.
by elim: P w => //= r P IH /andP[/andP[r0 _] w]; case: r r0 => // a r _; rewrite /heads /= -/(heads P) IH.
Qed.

(** C84: as many rows as the longest strictly decreasing subsequence is long *)
Theorem C84_rows s :
  (exists2 t, decr_subseq t s & size t = size (RSK s).1) /\ (forall t, decr_subseq t s -> (size t <= size (RSK s).1)%N).
Proof.
have [[w so sh _] _] := RSK_inv s; have kn := knuth_RSK s; split.
  have [h1 h2 h3] := heads_sub w.
  have [t [st dt sz]] := knuth_dec (knuth_sym kn) h1 (h2 (heads_sorted so)).
  by exists t; [apply/andP|rewrite sz size_rev].
move=> t /andP[st dt]; have [t' [st' dt' <-]] := knuth_dec kn st dt.
rewrite -(size_rev (RSK s).1); apply: dec_rows st' dt'; rewrite all_rev; apply/allP => r rP.
by have /andP[] := allP w r rP.
Qed.

(** C84: the tableau read off row by row from the bottom is Knuth equivalent to the sequence *)
Theorem C84_plactic s : knuth s (reading (RSK s).1).
Proof. exact: knuth_RSK. Qed.

Lemma greene_lds k s :
  (exists t, [/\ subseq t s, lds_le k t & size t = sumn (take k (shape (RSK s).1))]) /\
  (forall t, subseq t s -> lds_le k t -> (size t <= sumn (take k (shape (RSK s).1)))%N).
Proof.
have [[w so sh _] _] := RSK_inv s; have kn := knuth_RSK s; split.
  have [t [h1 h2 h3]] := greene_lower k w.
  by have [t' [a b c]] := knuth_greene (knuth_sym kn) h1 h2; exists t'; rewrite -h3 c.
move=> t st lt; have [t' [a b <-]] := knuth_greene kn st lt; exact: greene_upper so a b.
Qed.

(** C85 (Greene): the first k rows together are as long as a longest union of k disjoint weakly increasing subsequences *)
Theorem C85_greene k s :
  (exists2 zs, k_increasing k zs s & size zs = sumn (take k [seq size r | r <- (RSK s).1])) /\
  (forall zs, k_increasing k zs s -> (size zs <= sumn (take k [seq size r | r <- (RSK s).1]))%N).
Proof.
have [[t [st lt sz]] up] := greene_lds k s; split.
  have [zs [e [ck so]]] := lds_coloured lt; exists zs; first by split; rewrite ?e.
  by rewrite -sz -e size_map.
move=> zs [szs ck so]; rewrite -(size_map snd zs); apply: up => //; apply: coloured_lds; by split.
Qed.

(** the same, with unions of k increasing subsequences described by what they avoid *)
Theorem C85_avoiding k s :
  let long t := exists2 u, decr_subseq u t & (k < size u)%N in
  (exists t, [/\ subseq t s, ~ long t & size t = sumn (take k [seq size r | r <- (RSK s).1])]) /\
  (forall t, subseq t s -> ~ long t -> (size t <= sumn (take k [seq size r | r <- (RSK s).1]))%N).
Proof.
move=> long; have [[t [st lt sz]] up] := greene_lds k s; split.
  exists t; split=> // -[u /andP[su du]]; by rewrite ltnNge (lt _ su du).
by move=> t' st' nl; apply: up => // u su du; rewrite leqNgt; apply/negP => ku; apply: nl; exists u; rewrite // /decr_subseq su.
Qed.
End Th.

Lemma sumn_take_nth (l1 l2 : seq nat) : (forall k, sumn (take k l1) = sumn (take k l2)) -> forall i, nth 0 l1 i = nth 0 l2 i.
Proof.
move=> h i; have one l k : sumn (take k.+1 l) = sumn (take k l) + nth 0 l k.
  by elim: l k => [|a l IH] [|k] //=; rewrite ?take0 /= ?addn0 // IH addnA.
by have := h i.+1; rewrite !one h => /addnI.
Qed.

(** C85: the shape depends only on the relative order: it is that of any sequence with the same unions *)
Theorem C85_determined d (T : orderType d) d' (T' : orderType d') (s : seq T) (s' : seq T') :
  (forall k n, (exists2 zs, k_increasing k zs s & size zs = n) <-> (exists2 zs, k_increasing k zs s' & size zs = n)) ->
  [seq size r | r <- (RSK s).1] = [seq size r | r <- (RSK s').1].
Proof.
move=> h; have [[w so sh _] _] := RSK_inv s; have [[w' so' sh' _] _] := RSK_inv s'.
have e k : sumn (take k [seq size r | r <- (RSK s).1]) = sumn (take k [seq size r | r <- (RSK s').1]).
  have [ex up] := C85_greene k s; have [ex' up'] := C85_greene k s'.
  apply/eqP; rewrite eqn_leq; apply/andP; split.
    by have [zs /up' q <-] := (h k _).1 ex.
  by have [zs /up q <-] := (h k _).2 ex'.
have nz d0 (T0 : orderType d0) (P : seq (seq T0)) : wf P -> all (fun m => 0 < m)%N [seq size r | r <- P].
  by move=> /allP wP; apply/allP => m /mapP[r rP ->]; have /andP[] := wP r rP.
move: (nz _ _ _ w) (nz _ _ _ w') (sumn_take_nth e); move: [seq size r | r <- (RSK s).1] [seq size r | r <- (RSK s').1].
elim=> [|a l IH] [|b l'] //=; first by move=> _ /andP[b0 _] /(_ 0%N) /= e0; rewrite -e0 in b0.
  by move=> /andP[a0 _] _ /(_ 0%N) /= e0; rewrite e0 in a0.
by move=> /andP[_ al] /andP[_ bl] en; congr cons; [exact: (en 0%N)|apply: IH => // i; exact: (en i.+1)].
Qed.

(** C84, C85: the diagrams of PoissonizedPlancherel *)
Theorem C85_diagram (R : rcfType) N lam X : possible (plancherel_sample R N) (inl (lam, X)) ->
  exists sigma, [/\ perm_eq sigma (iota 0 N),
    (exists2 t, decr_subseq t sigma & size t = size lam) /\ (forall t, decr_subseq t sigma -> (size t <= size lam)%N) &
    forall k, (exists2 zs, k_increasing k zs sigma & size zs = sumn (take k lam)) /\
              (forall zs, k_increasing k zs sigma -> (size zs <= sumn (take k lam))%N)].
Proof.
move=> h; have [sigma ps [-> _]] := Spectral.bind_possible h; exists sigma.
have pm := C28_permutation ps; split=> //; last by move=> k; exact: C85_greene.
by rewrite /young_diag size_map; exact: C84_rows.
Qed.

(** the longest increasing subsequence 2 4 5 6 8 leaves 7 9 1 3, which adds only 2; the best pair has 8 items, none of its
    members being a longest increasing subsequence *)
Example C85_instance (s := [:: 2; 4; 7; 9; 5; 1; 3; 6; 8]%N) (zs := [:: (0, 2); (0, 4); (0, 7); (0, 9); (1, 1); (1, 3); (1, 6); (1, 8)]%N) :
  [seq size r | r <- (RSK s).1] = [:: 5; 3; 1]%N /\ k_increasing 2 zs s.
Proof. split; [by vm_compute|split=> // i; by case: i => [|[|i]]]. Qed.
Example C84_instance : decr_subseq [:: 3; 2; 0]%N [:: 3; 1; 2; 2; 0; 1]%N /\ size (RSK [:: 3; 1; 2; 2; 0; 1]%N).1 = 3.
Proof. by split; vm_compute. Qed.
Print Assumptions C84_rows.
Print Assumptions C84_plactic.
Print Assumptions C85_greene.
Print Assumptions C85_avoiding.
Print Assumptions C85_determined.
Print Assumptions C85_diagram.
