(** * Factors: the arrays returned together with the samples by dpp_sampler_generic_kernel and proj_dpp_sampler_kernel_Chol. *)
From mathcomp Require Import all_ssreflect all_algebra all_fingroup.
From mathcomp.real_closed Require Import complex.
From mathcomp.algebra_tactics Require Import ring.
From Verif Require Import Prob MinorF ExactModel ChainCons ProjGS ProjCplx GenKernel.
Set Implicit Arguments. Unset Strict Implicit. Unset Printing Implicit Defensive.
Import Order.Theory GRing.Theory Num.Theory.
Local Open Scope ring_scope.

Section LU.
Variables (R : rcfType) (N : nat).
Implicit Types (A K : 'M[R]_N) (js : seq 'I_N).
Notation prog := (prog R).

(** dpp_sampler_generic_kernel (exact_sampling.py l.322-357) with its two results [sample, A] (l.357); same loop as
    [generic_kernel_loop] *)
Fixpoint generic_kernel_loopA js A (sample : seq 'I_N) : prog (seq 'I_N * 'M[R]_N) :=
  if js is j :: js' then
    Flip (A j j) (fun b =>
      let sample' := if b then rcons sample j else sample in                   (* l.349 *)
      let ajj := if b then A j j else A j j - 1 in                             (* l.351 *)
      if ajj == 0 then Raise ZeroDivisionError else
      let A' := \matrix_(a, b)                                                 (* l.353-354 *)
         if (j < a)%N && (j < b)%N then A a b - A a j / ajj * A j b
         else if (j < a)%N && (b == j) then A a j / ajj
         else if (a == j) && (b == j) then ajj else A a b in
      generic_kernel_loopA js' A' sample')
  else Ret (sample, A).
Definition dpp_sampler_generic_kernel_full K := generic_kernel_loopA (enum 'I_N) K [::].

Lemma loopA_fst js A sample f :
  E (generic_kernel_loopA js A sample) (fun r => f r.1) = E (generic_kernel_loop js A sample) f.
Proof.
elim: js A sample => //= j js IH A sample.
by congr (_ * _ + _ * _); case: ifP => // _; rewrite IH.
Qed.

(** unit lower and upper triangular parts of an array *)
Definition unit_lower A : 'M[R]_N := \matrix_(i, j) (if i == j then 1 else if (j < i)%N then A i j else 0).
Definition upper A : 'M[R]_N := \matrix_(i, j) (if (i <= j)%N then A i j else 0).

(** K minus the diagonal of the items before position k that are not in the sample *)
Definition shifted K k (X : seq 'I_N) : 'M[R]_N := K - \matrix_(i, j) ((i == j) && ((i < k)%N && (i \notin X)))%:R.

Definition lu_inv K k A (X : seq 'I_N) : Prop :=
  {in X, forall i : 'I_N, (i < k)%N} /\ forall a b : 'I_N,
  \sum_(s < N | (s < k)%N) unit_lower A a s * upper A s b + (if (k <= a)%N && (k <= b)%N then A a b else 0) = shifted K k X a b.

Lemma lu_field (F : fieldType) (x y z : F) : x != 0 -> y / x * z + (0 - y / x * z) = 0.
Proof. by move=> _; rewrite sub0r subrr. Qed.

Lemma lu_step K (j : 'I_N) A X (b : bool) : lu_inv K j A X ->
  let ajj := if b then A j j else A j j - 1 in ajj != 0 ->
  lu_inv K j.+1 (codeA A j ajj) (if b then rcons X j else X).
Proof.
move=> [Xk H] ajj nz; split.
  by move=> i; case: b {ajj nz}; rewrite ?mem_rcons ?inE; [case/orP => [/eqP ->|/Xk]|move/Xk]; rewrite ltnS // => /ltnW.
move=> a c; set A' := codeA A j ajj.
have jX : j \notin X by apply/negP => /Xk; rewrite ltnn.
have sh : shifted K j.+1 (if b then rcons X j else X) a c = shifted K j X a c - ((a == j) && (c == j) && ~~ b)%:R.
  rewrite !mxE -addrA; congr (_ + _); rewrite -opprD; congr (- _).
  have [aj|aj] := eqVneq a j.
    subst a; rewrite ltnSn ltnn /= andbF add0r eq_sym; case: b {ajj nz A'} => /=; last by rewrite jX !andbT.
    by rewrite mem_rcons inE eqxx !andbF.
  rewrite /= addr0; congr (_%:R); congr (nat_of_bool (_ && _)).
  have -> : (a < j.+1)%N = (a < j)%N.
    by rewrite ltnS leq_eqVlt; suff -> : (val a == val j) = false by []; rewrite val_eqE (negbTE aj).
  by case: b {ajj nz A'}; rewrite // mem_rcons inE (negbTE aj).
rewrite sh -H.
have lowE (s : 'I_N) : (s < j)%N -> unit_lower A' a s = unit_lower A a s.
  move=> sj; rewrite !mxE; case: eqP => // _; case: ifP => // sa.
  rewrite (_ : (j < s)%N = false) ?andbF; last by rewrite ltnNge ltnW.
  by rewrite -val_eqE /= (ltn_eqF sj) !andbF.
have upE (s : 'I_N) : (s < j)%N -> upper A' s c = upper A s c.
  move=> sj; rewrite !mxE; case: ifP => // sc.
  rewrite (_ : (j < s)%N = false) /=; last by rewrite ltnNge ltnW.
  by rewrite -[s == j]val_eqE /= (ltn_eqF sj).
rewrite (bigD1 j) //=; have -> : \sum_(i < N | (i < j.+1)%N && (i != j)) unit_lower A' a i * upper A' i c =
    \sum_(s < N | (s < j)%N) unit_lower A a s * upper A s c.
  apply: eq_big => [s|s]; first by rewrite ltnS -val_eqE ltn_neqAle andbC.
  by rewrite ltnS -val_eqE /= => /andP[h1 h2]; rewrite lowE ?upE // ltn_neqAle h2 h1.
rewrite [_ * _ + _]addrC -!addrA; congr (_ + _).
(* the new term and the trailing block *)
rewrite [unit_lower A' a j]mxE [upper A' j c]mxE !mxE eqxx ltnn /=.
have e1 : (val a == val j) = (a == j) by [].
have e2 : (val c == val j) = (c == j) by [].
have lt_ne (x y : 'I_N) : (x < y)%N -> (x == y) = false by move=> xy; rewrite -val_eqE ltn_eqF.
have gt_ne (x y : 'I_N) : (x < y)%N -> (y == x) = false by move=> xy; rewrite -val_eqE gtn_eqF.
case: (ltngtP j a) => [ja|aj|/val_inj ja]; case: (ltngtP j c) => [jc|cj|/val_inj jc] /=;
  rewrite -?ja -?jc ?ltnn ?eqxx /= ?(gt_ne _ _ ja) ?(lt_ne _ _ aj) ?(gt_ne _ _ jc) ?(lt_ne _ _ cj) /=
    ?mul0r ?mulr0 ?mul1r ?subr0 ?addr0 ?add0r //.
- by rewrite addrC subrK.
- by rewrite divfK.
- by rewrite /ajj; case: (b); rewrite /= ?subr0.
Qed.

Lemma loopA_lu K k A X0 X Af : (k <= N)%N -> lu_inv K k A X0 ->
  possible (generic_kernel_loopA (drop k (enum 'I_N)) A X0) (inl (X, Af)) -> lu_inv K N Af X.
Proof.
have [n] := ubnP (N - k); elim: n k A X0 => // n IH k A X0; rewrite ltnS => le kN inv.
have [kE|kN'] := eqVneq k N.
  by rewrite kE drop_oversize ?size_enum_ord //= => -[-> ->]; rewrite -{1}kE.
have lt : (k < N)%N by rewrite ltn_neqAle kN' kN.
pose j := Ordinal lt; have -> : drop k (enum 'I_N) = j :: drop k.+1 (enum 'I_N).
  by rewrite (drop_nth j) ?size_enum_ord //; congr (_ :: _); rewrite -[k]/(val j) nth_ord_enum.
cbn [generic_kernel_loopA possible] => -[[_]|[_]]; case: ifP => // /negbT nz.
- exact: IH (leq_trans (ltn_sub2l lt (ltnSn k)) le) lt (@lu_step K j A X0 true inv nz).
- exact: IH (leq_trans (ltn_sub2l lt (ltnSn k)) le) lt (@lu_step K j A X0 false inv nz).
Qed.

Lemma generic_LU K X A : possible (dpp_sampler_generic_kernel_full K) (inl (X, A)) ->
  unit_lower A *m upper A = K - \matrix_(i, j) ((i == j) && (i \notin X))%:R.
Proof.
rewrite /dpp_sampler_generic_kernel_full -[enum 'I_N]drop0 => pX.
have [_ H] : lu_inv K N A X.
  apply: loopA_lu pX => //; split=> // a b; rewrite big1 => [|s] //.
  by rewrite add0r !mxE ltn0 /= andbF subr0.
apply/matrixP => a b; move: (H a b); rewrite leqNgt ltn_ord addr0 /= => h.
rewrite [LHS]mxE; transitivity (shifted K N X a b); last by rewrite !mxE ltn_ord.
by rewrite -h; apply: eq_bigl => s; rewrite ltn_ord.
Qed.
End LU.

Section CholA.
Variables (R : rcfType) (N : nat).
Notation C := (complex R).
Notation prog := (prog R).
Local Arguments conjc : simpl never.

(** proj_dpp_sampler_kernel_Chol (l.62-152, complex dtype) with its two results (l.152): same loop as [cChol_loop] *)
Fixpoint cChol_loopA (rank size n j : nat) (A : nat -> nat -> C) (d : nat -> R) (orig : nat -> nat) :
    prog (seq nat * (nat -> nat -> C)) :=
  if n is n'.+1 then
    Choice (iota j (N - j)) (fun t => `|d t| / (rank%:R - j%:R)) (fun t =>                           (* l.118 *)
      let A1 := cchol_swap A j t in                                                                  (* l.120-132 *)
      let orig' := fun i => orig (swap j t i) in                                                     (* l.135 *)
      let d1 := fun i => d (swap j t i) in                                                           (* l.136 *)
      let A2 := fun a b => if (a == j) && (b == j) then (Num.sqrt (d1 j))%:C%C else A1 a b in        (* l.138 *)
      if j.+1 == size then Ret ([seq orig' i | i <- iota 0 size], A2)                                (* l.140, l.152 *)
      else
        let A3 := fun a b => (* l.144-145 *)
          if (j < a)%N && (b == j)
          then (A2 a j - \sum_(s < j) A2 a s * conjc (A2 j s)) / A2 j j else A2 a b in
        let d2 := fun i => if (j < i)%N                                                              (* l.147-148 *)
                           then d1 i - (complex.Re (A3 i j) ^+ 2 + complex.Im (A3 i j) ^+ 2) else d1 i in
        cChol_loopA rank size n' j.+1 A3 d2 orig')
  else Ret ([seq orig i | i <- iota 0 size], A).
Definition cproj_dpp_sampler_kernel_Chol_full (K : 'M[C]_N) (size : option nat) :=
  let rank := rint N (complex.Re (\tr K)) in
  let sz := get_size size rank in
  cChol_loopA rank sz sz 0 (carr K) (fun i => complex.Re (carr K i i)) id.

Lemma cCholA_fst rank sz n j A d orig f :
  E (cChol_loopA rank sz n j A d orig) (fun r => f r.1) = E (cChol_loop N rank sz n j A d orig) f.
Proof.
elim: n j A d orig => //= n IH j A d orig; case: ifP => // _.
by apply: eq_bigr => t _; congr (_ * _); case: ifP => // _; rewrite IH.
Qed.

Lemma cCholA_fac (K Kr : 'M[C]_N) rank sz n j A d orig (p : {perm 'I_N}) X Af :
  (forall a b, K b a = conjc (K a b)) -> (sz <= rank)%N -> (j + n)%N = sz ->
  hproj Kr -> cchol_inv K Kr j A d orig p -> cchol_fac K j A p ->
  possible (cChol_loopA rank sz n j A d orig) (inl (X, Af)) ->
  exists q : {perm 'I_N}, [/\ size X = sz, forall i : 'I_N, (i < sz)%N -> nth 0%N X i = q i &
    forall a b : 'I_N, (b <= a)%N -> (a < sz)%N -> \sum_(s < b.+1) Af a s * conjc (Af b s) = K (q a) (q b)].
Proof.
move=> sK szr; elim: n j Kr A d orig p => [|n IH] j Kr A d orig p jn P inv F.
  move=> /= -[-> ->]; exists p; have js : j = sz by rewrite -jn addn0.
  split=> [|i isz|a b ba asz]; first by rewrite size_map size_iota.
    by rewrite (nth_map 0%N) ?size_iota // nth_iota // add0n; case: inv.
  by apply: F; rewrite // js (leq_ltn_trans ba).
cbn [cChol_loopA possible]; case: ifP => // _ [s1 [t [s2 [tE w]]]].
have tI : t \in iota j (N - j) by rewrite tE mem_cat inE eqxx orbT.
have jt : (j <= t)%N by move: tI; rewrite mem_iota => /andP[].
have tN : (t < N)%N.
  move: tI; rewrite mem_iota => /andP[_]; case: (leqP j N) => jN; first by rewrite subnKC.
  have -> : (N - j = 0)%N by apply/eqP; rewrite subn_eq0 ltnW.
  by rewrite addn0 ltnNge jt.
pose ot := Ordinal tN; pose oj := Ordinal (leq_ltn_trans jt tN).
have Kt : Kr (p ot) (p ot) != 0.
  apply: contraTneq w => k0; have [_ dE _ _ _] := inv.
  by rewrite -[t]/(val ot) dE // k0 /= normr0 mul0r ltxx.
have [inv' F' Fd] := @cchol_step R N K Kr oj ot A d orig p sK P jt Kt inv.
case: eqP => [js|_].
  move=> [-> ->]; exists (tperm oj ot * p)%g; split=> [|i isz|a b ba asz].
  - by rewrite size_map size_iota.
  - rewrite (nth_map 0%N) ?size_iota // nth_iota // add0n; by case: inv' => ->.
  - by apply: (Fd F a b ba); rewrite -ltnS [(val oj).+1]js.
apply: (IH j.+1 _ _ _ _ _ _ _ inv' (F' F)); [by rewrite addSnnS|exact: hschur].
Qed.

(** lower triangular part of the first n rows and columns of an array *)
Definition lower n (A : nat -> nat -> C) : 'M[C]_n := \matrix_(a, b) (if (b <= a)%N then A a b else 0).

Lemma Chol_factor (K : 'M[C]_N) size X Af : hproj K -> (if size is Some k then (k <= \rank K)%N else true) ->
  possible (cproj_dpp_sampler_kernel_Chol_full K size) (inl (X, Af)) ->
  exists ys : seq 'I_N, [/\ X = [seq val y | y <- ys], seq.size ys = (if size is Some k then k else \rank K) &
    lower (seq.size ys) Af *m (map_mx (@conjc R) (lower (seq.size ys) Af))^T
    = mxsub (tnth (in_tuple ys)) (tnth (in_tuple ys)) K].
Proof.
move=> P sz; have rk : rint N (complex.Re (\tr K)) = \rank K.
  rewrite hproj_trace_rank //; have -> : (\rank K)%:R = ((\rank K)%:R)%:C%C :> C by rewrite rmorph_nat.
  by rewrite rint_nat // rank_leq_row.
rewrite /cproj_dpp_sampler_kernel_Chol_full rk.
have szr : (get_size size (\rank K) <= \rank K)%N by case: size sz => //=.
rewrite -[if size is Some k then k else \rank K]/(get_size size (\rank K)); move: (get_size _ _) szr => s sr pX.
have arrE (a b : 'I_N) : carr K a b = K a b by rewrite /carr !valK.
have [||q [sX nX FX]] := @cCholA_fac K K (\rank K) s s 0%N _ _ _ 1%g X Af P.1 sr erefl P _ _ pX.
- split=> // [a|a _|a b _|a b _ _]; rewrite ?perm1 ?arrE //.
  by rewrite big_ord0 subr0.
- by [].
have sN : (s <= N)%N by apply: leq_trans sr (rank_leq_row _).
pose ys := [seq q (widen_ord sN i) | i <- enum 'I_s].
have sy : seq.size ys = s by rewrite size_map size_enum_ord.
exists ys; split=> //.
  apply: (@eq_from_nth _ 0%N) => [|i]; rewrite sX; first by rewrite size_map sy.
  move=> is_.
  rewrite -map_comp (nth_map (Ordinal is_)) ?size_enum_ord //.
  rewrite -[X in nth _ (enum _) X]/(val (Ordinal is_)) nth_ord_enum /=.
  by rewrite -(nX (widen_ord sN (Ordinal is_))).
apply/matrixP => a b; have an : (a < s)%N by rewrite -sy. have bn : (b < s)%N by rewrite -sy.
have tnE (c : 'I_(seq.size ys)) (cs : (c < s)%N) : tnth (in_tuple ys) c = q (Ordinal (leq_trans cs sN)).
  have [x0] : exists x0, tnth (in_tuple ys) c = x0 by eexists.
  rewrite (tnth_nth x0) => eh; rewrite /= (nth_map (Ordinal cs)) ?size_enum_ord //.
  by rewrite -[val c]/(val (Ordinal cs)) nth_ord_enum; congr (q _); apply: val_inj.
rewrite mxE [RHS]mxE (tnE a an) (tnE b bn).
have low (x y : 'I_(seq.size ys)) (xs : (x < s)%N) (ys' : (y < s)%N) : (y <= x)%N ->
   \sum_k (lower (seq.size ys) Af) x k * conjc (lower (seq.size ys) Af y k) =
   K (q (Ordinal (leq_trans xs sN))) (q (Ordinal (leq_trans ys' sN))).
  move=> yx; rewrite -(FX (Ordinal (leq_trans xs sN)) (Ordinal (leq_trans ys' sN))) //=.
  rewrite [RHS](big_ord_widen_cond _ (fun _ => true) (fun k => Af x k * conjc (Af y k)) (ltn_ord y)).
  rewrite [LHS](bigID (fun k : 'I_(seq.size ys) => (k < y.+1)%N)) /= [X in _ + X]big1 ?addr0 => [|k].
    by apply: eq_bigr => k; rewrite ltnS => ky; rewrite !mxE ky (leq_trans ky yx).
  by rewrite ltnS => /negbTE ky; rewrite !mxE ky conjc0 mulr0.
transitivity (\sum_k (lower (seq.size ys) Af) a k * conjc (lower (seq.size ys) Af b k)).
  by apply: eq_bigr => k _; rewrite !mxE.
have [ba|ab] := leqP b a; first exact: low.
rewrite P.1 -(low b a bn an (ltnW ab)) rmorph_sum; apply: eq_bigr => k _.
by rewrite rmorphM /= conjcK mulrC.
Qed.
End CholA.

Section RealChol.
Variables (R : rcfType) (N : nat).
Notation C := (complex R).
Notation prog := (prog R).
Local Arguments conjc : simpl never.
Notation emb := (fun x : R => x%:C%C).

(** proj_dpp_sampler_kernel_Chol (l.62-152, real dtype) with its two results (l.152): same loop as [kernel_Chol_loop] *)
Fixpoint kernel_Chol_loopA (rank size n j : nat) (A : nat -> nat -> R) (d : nat -> R) (orig : nat -> nat) :
    prog (seq nat * (nat -> nat -> R)) :=
  if n is n'.+1 then
    Choice (iota j (N - j)) (fun t => `|d t| / (rank%:R - j%:R)) (fun t =>                           (* l.118 *)
      let A1 := chol_swap A j t in                                                                   (* l.120-132 *)
      let orig' := fun i => orig (swap j t i) in                                                     (* l.135 *)
      let d1 := fun i => d (swap j t i) in                                                           (* l.136 *)
      let A2 := fun a b => if (a == j) && (b == j) then Num.sqrt (d1 j) else A1 a b in               (* l.138 *)
      if j.+1 == size then Ret ([seq orig' i | i <- iota 0 size], A2)                                (* l.140, l.152 *)
      else
        let A3 := fun a b => (* l.144-145 *)
          if (j < a)%N && (b == j)
          then (A2 a j - \sum_(s < j) A2 a s * A2 j s) / A2 j j else A2 a b in
        let d2 := fun i => if (j < i)%N then d1 i - A3 i j ^+ 2 else d1 i in                         (* l.150 *)
        kernel_Chol_loopA rank size n' j.+1 A3 d2 orig')
  else Ret ([seq orig i | i <- iota 0 size], A).
Definition proj_dpp_sampler_kernel_Chol_full (K : 'M[R]_N) (size : option nat) :=
  let rank := rint N (\tr K) in
  let sz := get_size size rank in
  kernel_Chol_loopA rank sz sz 0 (arr K) (fun i => arr K i i) id.

Lemma kCholA_fst rank sz n j A d orig f :
  E (kernel_Chol_loopA rank sz n j A d orig) (fun r => f r.1) = E (kernel_Chol_loop N rank sz n j A d orig) f.
Proof.
elim: n j A d orig => //= n IH j A d orig; case: ifP => // _.
by apply: eq_bigr => t _; congr (_ * _); case: ifP => // _; rewrite IH.
Qed.

Lemma swap_emb (Ac : nat -> nat -> C) (Ar : nat -> nat -> R) j t : (forall a b, Ac a b = (Ar a b)%:C%C) ->
  forall a b, cchol_swap Ac j t a b = (chol_swap Ar j t a b)%:C%C.
Proof.
move=> e.
have cr (x : R) : conjc (x%:C)%C = x%:C%C by exact: conjc_real.
pose r1 := fun a b => if (t < a)%N then (if b == j then Ar a t else if b == t then Ar a j else Ar a b) else Ar a b.
pose r2 := fun a b => if (j < a < t)%N && (b == j) then r1 t a else r1 a b.
pose r3 := fun a b => if (a == t) && (j < b < t)%N then r1 b j else r2 a b.
pose r4 := fun a b => if (a == j) && (b == j) then r3 t t else if (a == t) && (b == t) then r3 j j else r3 a b.
pose c1 := fun a b => if (t < a)%N then (if b == j then Ac a t else if b == t then Ac a j else Ac a b) else Ac a b.
pose c2 := fun a b => if (j < a < t)%N && (b == j) then conjc (c1 t a) else c1 a b.
pose c3 := fun a b => if (a == t) && (j < b < t)%N then conjc (c1 b j) else c2 a b.
pose c3' := fun a b => if (a == t) && (b == j) then conjc (c3 t j) else c3 a b.
pose c4 := fun a b => if (a == j) && (b == j) then (complex.Re (c3' t t))%:C%C
    else if (a == t) && (b == t) then (complex.Re (c3' j j))%:C%C else c3' a b.
have e1 a b : c1 a b = (r1 a b)%:C%C by rewrite /c1 /r1 !e; do ?case: ifP.
have e2 a b : c2 a b = (r2 a b)%:C%C by rewrite /c2 /r2 !e1 cr; case: ifP.
have e3 a b : c3 a b = (r3 a b)%:C%C by rewrite /c3 /r3 !e1 !e2 cr; case: ifP.
have e3' a b : c3' a b = (r3 a b)%:C%C.
  by rewrite /c3' !e3 cr; case: ifP => // /andP[/eqP-> /eqP->].
have e4 a b : c4 a b = (r4 a b)%:C%C by rewrite /c4 /r4 !e3' /=; do ?case: ifP.
move=> a b; rewrite /cchol_swap /chol_swap.
change ((if (b < j)%N then if a == j then c4 t b else if a == t then c4 j b else c4 a b else c4 a b) =
  (if (b < j)%N then if a == j then r4 t b else if a == t then r4 j b else r4 a b else r4 a b)%:C%C).
by rewrite !e4; do ?case: ifP.
Qed.

Lemma loop_emb rank sz n j Ar Ac dr dc orig X Af : (forall a b, Ac a b = (Ar a b)%:C%C) -> dc =1 dr ->
  possible (kernel_Chol_loopA rank sz n j Ar dr orig) (inl (X, Af)) ->
  exists Afc, possible (@cChol_loopA R N rank sz n j Ac dc orig) (inl (X, Afc)) /\ forall a b, Afc a b = (Af a b)%:C%C.
Proof.
elim: n j Ar Ac dr dc orig => [|n IH] j Ar Ac dr dc orig eA ed.
  by move=> /= -[-> ->]; exists Ac.
cbn [kernel_Chol_loopA cChol_loopA possible].
have -> : valid_weights (iota j (N - j)) (fun t => `|dc t| / (rank%:R - j%:R)) =
          valid_weights (iota j (N - j)) (fun t => `|dr t| / (rank%:R - j%:R)).
  by rewrite /valid_weights; congr andb; [apply: eq_all => t; rewrite ed | congr (_ == _); apply: eq_bigr => t _; rewrite ed].
case: ifP => // _ [s1 [t [s2 [tE w H]]]].
set A2r := (fun a b : nat => if (a == j) && (b == j) then Num.sqrt (dr (swap j t j)) else chol_swap Ar j t a b) in H.
set A2c := (fun a b : nat => if (a == j) && (b == j) then (Num.sqrt (dc (swap j t j)))%:C%C else cchol_swap Ac j t a b).
have e2 a b : A2c a b = (A2r a b)%:C%C by rewrite /A2c /A2r ed (swap_emb j t eA); case: ifP.
suff [Afc [p e]] : exists Afc, possible (if j.+1 == sz then Ret ([seq orig (swap j t i) | i <- iota 0 sz], A2c)
   else @cChol_loopA R N rank sz n j.+1 (fun a b => if (j < a)%N && (b == j)
          then (A2c a j - \sum_(s < j) A2c a s * conjc (A2c j s)) / A2c j j else A2c a b)
     (fun i => if (j < i)%N then dc (swap j t i) - (complex.Re (if (j < i)%N && (j == j)
          then (A2c i j - \sum_(s < j) A2c i s * conjc (A2c j s)) / A2c j j else A2c i j) ^+ 2 +
          complex.Im (if (j < i)%N && (j == j)
          then (A2c i j - \sum_(s < j) A2c i s * conjc (A2c j s)) / A2c j j else A2c i j) ^+ 2) else dc (swap j t i))
     (fun i => orig (swap j t i))) (inl (X, Afc)) /\ forall a b, Afc a b = (Af a b)%:C%C.
  by exists Afc; split=> //; exists s1, t, s2; rewrite ed; split.
case: ifP H => _ H; first by case: H => -> ->; exists A2c.
have e3 a : (A2c a j - \sum_(s < j) A2c a s * conjc (A2c j s)) / A2c j j =
    ((A2r a j - \sum_(s < j) A2r a s * A2r j s) / A2r j j)%:C%C.
  rewrite !e2 fmorph_div rmorphB rmorph_sum /=; congr ((_ - _) / _); apply: eq_bigr => s _.
  by rewrite !e2 conjc_real rmorphM.
apply: IH H => [a b|i]; first by rewrite e3 e2; case: ifP.
rewrite eqxx andbT; case: ifP => ji; last exact: ed.
rewrite e3 ed ji /= expr0n addr0 /A2r.
by rewrite !eqxx !andbT.

Qed.

Definition lowerR n (A : nat -> nat -> R) : 'M[R]_n := \matrix_(a, b) (if (b <= a)%N then A a b else 0).

Lemma Chol_factorR (K : 'M[R]_N) size X Af : Chain.isproj K -> (if size is Some k then (k <= \rank K)%N else true) ->
  possible (proj_dpp_sampler_kernel_Chol_full K size) (inl (X, Af)) ->
  exists ys : seq 'I_N, [/\ X = [seq val y | y <- ys], seq.size ys = (if size is Some k then k else \rank K) &
    lowerR (seq.size ys) Af *m (lowerR (seq.size ys) Af)^T = mxsub (tnth (in_tuple ys)) (tnth (in_tuple ys)) K].
Proof.
move=> P sz pX; pose Kc : 'M[C]_N := map_mx (real_complex R) K.
have Pc : hproj Kc.
  split=> [i j|]; last by rewrite -map_mxM P.2.
  by rewrite !mxE conjc_real -[in LHS]P.1 mxE.
have rk : \rank Kc = \rank K by rewrite mxrank_map.
have tr : complex.Re (\tr Kc) = \tr K.
  by rewrite /mxtrace raddf_sum; apply: eq_bigr => i _; rewrite mxE.
have [Afc [pc e]] : exists Afc, possible (cproj_dpp_sampler_kernel_Chol_full Kc size) (inl (X, Afc)) /\ forall a b, Afc a b = (Af a b)%:C%C.
  rewrite /cproj_dpp_sampler_kernel_Chol_full tr; apply: loop_emb pX => [a b|a].
    by rewrite /carr /arr; case: insubP => // x _ _; case: insubP => // y _ _; rewrite mxE.
  by rewrite /carr /arr; case: insubP => // x _ _; rewrite mxE.
have szc : is_true (if size is Some k then (k <= \rank Kc)%N else true) by rewrite rk.
have [ys [-> sy E]] := Chol_factor Pc szc pc.
exists ys; split=> //; first by rewrite sy rk.
apply/matrixP => a b; apply: (@complexI R).
have /matrixP/(_ a b) := E; rewrite !mxE => <-.
rewrite rmorph_sum; apply: eq_bigr => k _; rewrite !mxE !e rmorphM /=.
by case: ifP => _; case: ifP => _; rewrite ?conjc_real // ?rmorph0 ?conjc0.
Qed.
End RealChol.
