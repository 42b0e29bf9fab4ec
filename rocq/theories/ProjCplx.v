(** * ProjCplx: proj_dpp_sampler_kernel_Chol of dppy/exact_sampling.py (l.62-152) on complex Hermitian kernels. *)
From mathcomp Require Import all_ssreflect all_algebra all_fingroup.
From mathcomp.real_closed Require Import complex.
From mathcomp.algebra_tactics Require Import ring.
From Verif Require Import Prob MinorF ExactModel ChainCons.
Set Implicit Arguments. Unset Strict Implicit. Unset Printing Implicit Defensive.
Import Order.Theory GRing.Theory Num.Theory.
Local Open Scope ring_scope.
Local Arguments conjc : simpl never.

Section CModel.
Variables (R : rcfType) (N : nat).
Notation C := (complex R).
Notation prog := (prog R).

(** Hermitian swap of the indices [j] <= [t] of the array [A] (l.120-132): the assignments in the order of the source *)
Definition cchol_swap (A : nat -> nat -> C) (j t : nat) : nat -> nat -> C :=
  let A1 := fun a b => (* l.122 A[t+1:, [j,t]] = A[t+1:, [t,j]] *)
    if (t < a)%N then (if b == j then A a t else if b == t then A a j else A a b) else A a b in
  let A2 := fun a b => (* l.125 np.conj(A[t, j+1:t], out=A[j+1:t, j]) *)
    if (j < a < t)%N && (b == j) then conjc (A1 t a) else A1 a b in
  let A3 := fun a b => (* l.126 np.conj(tmp, out=A[t, j+1:t]), tmp = old A[j+1:t, j] (l.124) *)
    if (a == t) && (j < b < t)%N then conjc (A1 b j) else A2 a b in
  let A3' := fun a b => (* l.128 A[t, j] = A[t, j].conj() *)
    if (a == t) && (b == j) then conjc (A3 t j) else A3 a b in
  let A4 := fun a b => (* l.130 A[[j,t],[j,t]] = A[[t,j],[t,j]].real *)
    if (a == j) && (b == j) then (complex.Re (A3' t t))%:C%C
    else if (a == t) && (b == t) then (complex.Re (A3' j j))%:C%C else A3' a b in
  fun a b => (* l.132 A[[j,t], :j] = A[[t,j], :j] *)
    if (b < j)%N then (if a == j then A4 t b else if a == t then A4 j b else A4 a b) else A4 a b.

(** main loop (l.115-150), with hermitian = True (l.103, complex dtype); [d] is a float array (l.111) *)
Fixpoint cChol_loop (rank size n j : nat) (A : nat -> nat -> C) (d : nat -> R) (orig : nat -> nat) : prog (seq nat) :=
  if n is n'.+1 then
    Choice (iota j (N - j)) (fun t => `|d t| / (rank%:R - j%:R)) (fun t =>                           (* l.118 *)
      let A1 := cchol_swap A j t in                                                                  (* l.120-132 *)
      let orig' := fun i => orig (swap j t i) in                                                     (* l.135 *)
      let d1 := fun i => d (swap j t i) in                                                           (* l.136 *)
      let A2 := fun a b => if (a == j) && (b == j) then (Num.sqrt (d1 j))%:C%C else A1 a b in        (* l.138 *)
      if j.+1 == size then Ret [seq orig' i | i <- iota 0 size]                                      (* l.140, l.152 *)
      else
        let A3 := fun a b => (* l.144-145 *)
          if (j < a)%N && (b == j)
          then (A2 a j - \sum_(s < j) A2 a s * conjc (A2 j s)) / A2 j j else A2 a b in
        let d2 := fun i => if (j < i)%N                                                              (* l.147-148 *)
                           then d1 i - (complex.Re (A3 i j) ^+ 2 + complex.Im (A3 i j) ^+ 2) else d1 i in
        cChol_loop rank size n' j.+1 A3 d2 orig')
  else Ret [seq orig i | i <- iota 0 size].

Definition carr (K : 'M[C]_N) (a b : nat) : C :=
  if insub a is Some i then if insub b is Some j then K i j else 0 else 0.

(** l.102-113: np.rint(np.trace(K)).astype(int) and np.diagonal(A).astype(float) keep the real parts *)
Definition cproj_dpp_sampler_kernel_Chol (K : 'M[C]_N) (size : option nat) : prog (seq nat) :=
  let rank := rint N (complex.Re (\tr K)) in
  let sz := get_size size rank in
  cChol_loop rank sz sz 0 (carr K) (fun i => complex.Re (carr K i i)) id.
End CModel.

Lemma schur_ring (F : fieldType) (a b c d e f g : F) :
  (a - b * c / g) * (d - e * f / g) = a * d - a * e * (f / g) - b / g * (c * d) + b / g * (c * e) * (f / g).
Proof. by ring. Qed.
Lemma schur_field (F : fieldType) (a b c g : F) : g != 0 ->
  a - b * (c / g) - b / g * c + b / g * g * (c / g) = a - b * c / g.
Proof. by move=> g0; field. Qed.

(** ** Hermitian projections and the chain rule *)
Section CProj.
Variables (R : rcfType) (N : nat).
Notation C := (complex R).
Implicit Types (K : 'M[C]_N).

(** Hermitian and idempotent *)
Definition hproj K : Prop := (forall i j, K j i = conjc (K i j)) /\ K *m K = K.

Lemma hproj_mul K i j : hproj K -> \sum_k K i k * K k j = K i j.
Proof. by case=> _ m; rewrite -[in RHS]m !mxE. Qed.
Lemma mulc_conj (z : C) : z * conjc z = (complex.Re z ^+ 2 + complex.Im z ^+ 2)%:C%C.
Proof. by case: z => a b; rewrite /conjc /=; apply/eqP; rewrite eq_complex /=; apply/andP; split; apply/eqP; ring. Qed.
Lemma hproj_diag K i : hproj K -> K i i = \sum_k (complex.Re (K i k) ^+ 2 + complex.Im (K i k) ^+ 2)%:C%C.
Proof.
by move=> P; rewrite -(hproj_mul i i P); apply: eq_bigr => k _; rewrite (P.1 i k) mulc_conj.
Qed.
Lemma sqc_ge0 (z : C) : 0 <= (complex.Re z ^+ 2 + complex.Im z ^+ 2)%:C%C :> C.
Proof. by rewrite lecR addr_ge0 // sqr_ge0. Qed.
Lemma sqc0 (z : C) : (complex.Re z ^+ 2 + complex.Im z ^+ 2)%:C%C = 0 :> C -> z = 0.
Proof. by rewrite -mulc_conj => /eqP; rewrite mulf_eq0 conjc_eq0 orbb => /eqP. Qed.
Lemma hproj_diag_ge0 K i : hproj K -> 0 <= K i i.
Proof. by move=> P; rewrite hproj_diag // sumr_ge0 // => k _; exact: sqc_ge0. Qed.
Lemma hproj_diag_re K i : hproj K -> K i i = (complex.Re (K i i))%:C%C.
Proof. by move=> P; rewrite (hproj_diag i P) -raddf_sum. Qed.
Lemma hproj_re_ge0 K i : hproj K -> 0 <= complex.Re (K i i).
Proof. by move=> P; have := hproj_diag_ge0 i P; rewrite {1}(hproj_diag_re i P) lecR. Qed.
Lemma hproj_diag0 K i j : hproj K -> K i i = 0 -> K i j = 0.
Proof.
move=> P; rewrite hproj_diag // => /eqP.
rewrite psumr_eq0 => [/allP h|k _]; last exact: sqc_ge0.
by apply: sqc0; apply/eqP; apply: h; rewrite mem_index_enum.
Qed.
Lemma hproj_diag0' K i j : hproj K -> K i i = 0 -> K j i = 0.
Proof. by move=> P h; rewrite (P.1 i j) (hproj_diag0 j P h) conjc0. Qed.

Lemma hproj_trace_rank K : hproj K -> \tr K = (\rank K)%:R.
Proof.
case=> _ KK.
have e : row_base K *m col_base K = 1%:M.
  apply: (row_free_inj (row_base_free K)); apply: (row_full_inj (col_base_full K)).
  by rewrite /= mul1mx -(mulmxA (row_base K)) mulmx_base (mulmxA (col_base K)) mulmx_base.
by rewrite -{1}(mulmx_base K) mxtrace_mulC e mxtrace1.
Qed.

Lemma cschurE K y i j : schur K y i j = K i j - K i y * K y j / K y y.
Proof. by rewrite mxE. Qed.

Lemma hschur K y : hproj K -> K y y != 0 -> hproj (schur K y).
Proof.
move=> P Ky; split.
  move=> i j; rewrite !cschurE rmorphB fmorph_div rmorphM /= -!(P.1).
  by rewrite [K j y * _]mulrC.
apply/matrixP=> i j; rewrite !mxE.
transitivity (\sum_k (K i k * K k j - K i k * K k y * (K y j / K y y)
   - K i y / K y y * (K y k * K k j) + K i y / K y y * (K y k * K k y) * (K y j / K y y))).
  by apply: eq_bigr => k _; rewrite !cschurE; exact: schur_ring.
rewrite big_split /= !sumrB -!big_distrr -!big_distrl /= -!big_distrr /= !hproj_mul //.
by apply: schur_field.
Qed.

Lemma cschur_tr K y : hproj K -> K y y != 0 -> \tr (schur K y) = \tr K - 1.
Proof.
move=> P Ky; rewrite /mxtrace.
transitivity (\sum_i (K i i - (K y i * K i y) / K y y)).
  by apply: eq_bigr => i _; rewrite cschurE [K i y * _]mulrC.
by rewrite sumrB -big_distrl /= hproj_mul // divff.
Qed.
Lemma cschur_self K y j : K y y != 0 -> schur K y y j = 0.
Proof. by move=> Ky; rewrite cschurE mulrAC divff // mul1r subrr. Qed.
Lemma cschur_diag0 K y i : hproj K -> K i i = 0 -> schur K y i i = 0.
Proof. by move=> P K0; rewrite cschurE K0 (hproj_diag0 y P K0) !mul0r subrr. Qed.
Lemma cpm_diag0 K y ys : hproj K -> K y y = 0 -> y \in ys -> pm K ys = 0.
Proof. by move=> P K0 yy; apply: (pm_row0 yy) => j; exact: hproj_diag0. Qed.

(** expectation of [f] under the chain rule *)
Fixpoint cchainE (k r : nat) K (f : seq 'I_N -> C) : C :=
  if k is k'.+1 then \sum_i (K i i / r%:R) * cchainE k' r.-1 (schur K i) (fun ys => f (i :: ys))
  else f [::].

Lemma eq_cchainE k r K f g : f =1 g -> cchainE k r K f = cchainE k r K g.
Proof.
elim: k r K f g => [|k IH] r K f g fg //=.
by apply: eq_bigr => i _; congr (_ * _); apply: IH => ys; exact: fg.
Qed.
Lemma cschur_trS K r y : hproj K -> \tr K = r.+1%:R -> K y y != 0 -> \tr (schur K y) = r%:R.
Proof. by move=> P t Ky; rewrite cschur_tr // t mulrSr addrK. Qed.

Lemma sum_cpm K r ys : hproj K -> \tr K = r%:R -> \sum_y pm K (y :: ys) = (r%:R - (size ys)%:R) * pm K ys.
Proof.
elim: ys K r => [|t ys IH] K r P trK.
  by rewrite subr0 pm_nil mulr1 -trK; apply: eq_bigr => y _; rewrite pm1.
have [Kt|Kt] := eqVneq (K t t) 0.
  rewrite (cpm_diag0 P Kt) ?inE ?eqxx // mulr0 big1 // => y _.
  by rewrite (cpm_diag0 P Kt) // !inE eqxx orbT.
transitivity (\sum_y K t t * pm (schur K t) (y :: ys)).
  apply: eq_bigr => y _; rewrite -pm_cons //; apply: pm_perm.
  by rewrite -[y :: t :: ys]/([:: y; t] ++ ys) -[t :: y :: ys]/([:: t; y] ++ ys) perm_cat2r
    -[[:: y; t]]/([:: y] ++ [:: t]) perm_catC.
have PS := hschur P Kt; have tS := cschur_tr P Kt.
case: r trK => [|r] trK.
  exfalso; move/eqP: Kt; apply; apply/eqP; rewrite -[_ == 0]/(true && _).
  move/eqP: trK; rewrite /mxtrace psumr_eq0 => [/allP h|i _]; last exact: hproj_diag_ge0.
  by apply: h; rewrite mem_index_enum.
rewrite -big_distrr /= (IH _ r PS); last by rewrite tS trK mulrSr addrK.
rewrite pm_cons // mulrCA; congr (_ * _).
by rewrite !mulrSr opprD addrACA subrr addr0.
Qed.

Lemma cchainE_sum k r K f : hproj K -> \tr K = r%:R -> (k <= r)%N ->
  cchainE k r K f = \sum_(t : k.-tuple 'I_N) (pm K t / (r ^_ k)%:R) * f t.
Proof.
elim: k r K f => [|k IH] r K f P trK kr /=.
  rewrite (big_pred1 [tuple]) => [|t]; last by rewrite [t]tuple0 /= eqxx.
  by rewrite /= pm_nil ffactn0 divr1 mul1r.
case: r trK kr => // r trK kr.
rewrite big_tuple_cons; apply: eq_bigr => i _.
have [Ki|Ki] := eqVneq (K i i) 0.
  rewrite Ki !mul0r big1 // => t _ /=.
  by rewrite (@cpm_diag0 _ i) ?inE ?eqxx // !mul0r.
rewrite [r.+1.-1]/= (IH r) ?(@cschur_trS _ r) //; last exact: hschur.
rewrite [LHS]big_distrr.
apply: eq_bigr => t _ /=; rewrite pm_cons //= ffactSS natrM invfM.
rewrite !mulrA; congr (_ * _); rewrite -!mulrA; congr (_ * _).
by rewrite mulrCA.
Qed.

(** law of the ordered sample, of the set, inclusion probabilities *)
Lemma cchainE0 k r K f : (forall ys, f ys = 0) -> cchainE k r K f = 0.
Proof.
elim: k r K f => [|k IH] r K f f0 //=.
by rewrite big1 // => i _; rewrite IH ?mulr0 // => ys; exact: f0.
Qed.

Lemma cchainE_law k r K zs : hproj K -> \tr K = r%:R -> (k <= r)%N ->
  cchainE k r K (fun ys => (ys == zs)%:R) = if size zs == k then pm K zs / (r ^_ k)%:R else 0.
Proof.
elim: k r K zs => [|k IH] r K zs P trK kr /=.
  by case: zs => [|z zs] //=; rewrite pm_nil ffactn0 divr1.
case: r trK kr => // r trK kr.
case: zs => [|z zs].
  by rewrite big1 // => i _; rewrite cchainE0 ?mulr0.
rewrite (bigD1 z) //= big1 ?addr0 => [|i /negPf iz]; last first.
  by rewrite cchainE0 ?mulr0 // => ys; rewrite eqseq_cons iz.
rewrite (@eq_cchainE _ _ _ _ (fun ys => (ys == zs)%:R)); last by move=> ys; rewrite eqseq_cons eqxx.
rewrite eqSS; have [Kz|Kz] := eqVneq (K z z) 0.
  by rewrite Kz !mul0r (cpm_diag0 P Kz) ?inE ?eqxx // mul0r; case: ifP.
rewrite (IH _ _ _ (hschur P Kz) (cschur_trS P trK Kz) kr).
case: ifP => _; last by rewrite mulr0.
by rewrite pm_cons // ffactSS natrM invfM mulrACA.
Qed.

Lemma cchainE_total k r K : hproj K -> \tr K = r%:R -> (k <= r)%N ->
  cchainE k r K (fun _ => 1) = 1.
Proof.
elim: k r K => [|k IH] r K P trK kr //=.
case: r trK kr => // r trK kr.
transitivity (\sum_i K i i / r.+1%:R).
  apply: eq_bigr => i _; have [Ki|Ki] := eqVneq (K i i) 0; first by rewrite Ki !mul0r.
  by rewrite IH ?mulr1 ?(cschur_trS P trK Ki) //; exact: hschur.
by rewrite -big_distrl /= -/(\tr K) trK divff // pnatr_eq0.
Qed.

Lemma cchainE_marginal r K T : hproj K -> \tr K = r%:R -> uniq T ->
  cchainE r r K (fun ys => (all (mem ys) T)%:R) = pm K T.
Proof.
elim: r K T => [|r IH] K T P trK uT /=.
  case: T uT => [|t T] uT /=; first by rewrite pm_nil.
  rewrite (@cpm_diag0 K t) ?inE ?eqxx //.
  move/eqP: trK; rewrite /mxtrace psumr_eq0 => [/allP h|i _]; last exact: hproj_diag_ge0.
  by apply/eqP; apply: h; rewrite mem_index_enum.
transitivity (\sum_y (pm K (y :: T) + (y \in T)%:R * pm K T) / r.+1%:R).
  apply: eq_bigr => y _; have [Ky|Ky] := eqVneq (K y y) 0.
    rewrite Ky !mul0r (cpm_diag0 P Ky) ?inE ?eqxx // add0r.
    by case: (boolP (y \in T)) => [yT|_]; rewrite ?mul0r // (cpm_diag0 P Ky yT) mulr0 mul0r.
  have PS := hschur P Ky; have tS := cschur_trS P trK Ky.
  case: (boolP (y \in T)) => yT.
    rewrite (@eq_cchainE _ _ _ _ (fun ys => (all (mem ys) (rem y T))%:R)); last first.
      move=> ys; rewrite (perm_all _ (perm_to_rem yT)) /= inE eqxx /=; congr (_%:R).
      apply: congr1; apply: eq_in_all => z zr; rewrite !inE.
      suff /negPf -> : z != y by [].
      by apply: contraTneq zr => ->; rewrite mem_rem_uniq // !inE eqxx.
    rewrite IH ?rem_uniq // (@pm_dup _ _ K (y :: T)) /= ?yT // add0r mul1r.
    by rewrite (pm_rem K yT) pm_cons // [LHS]mulrAC.
  rewrite (@eq_cchainE _ _ _ _ (fun ys => (all (mem ys) T)%:R)); last first.
    move=> ys; congr (_%:R); apply: congr1; apply: eq_in_all => z zT; rewrite !inE.
    by suff /negPf -> : z != y by []; apply: contraTneq zT => ->.
  by rewrite IH // pm_cons // mul0r addr0 [LHS]mulrAC.
rewrite -big_distrl /= big_split /= (sum_cpm T P trK) -big_distrl /=.
have -> : \sum_y (y \in T)%:R = (size T)%:R :> C.
  rewrite -(card_uniqP uT) -sum1_card natr_sum [RHS]big_mkcond /=.
  by apply: eq_bigr => y _; case: (y \in T).
by rewrite -mulrDl subrK mulrAC divff ?mul1r // pnatr_eq0.
Qed.

Lemma cchainE_set k r K (S : {set 'I_N}) : hproj K -> \tr K = r%:R -> (k <= r)%N ->
  cchainE k r K (fun ys => (items ys == S)%:R) =
  if #|S| == k then pmS K S / 'C(r, k)%:R else 0.
Proof.
move=> P trK kr; rewrite cchainE_sum //.
have pmt (t : k.-tuple 'I_N) : (items t == S) -> pm K t != 0 -> #|S| = k /\ pm K t = pmS K S.
  move=> /eqP <- pt; have ut : uniq t by apply: contraNT pt => /pm_dup ->.
  have -> : #|items t| = k by rewrite cardsE (card_uniqP ut) size_tuple.
  split=> //; rewrite /pmS; apply: pm_perm; apply: uniq_perm => //; first exact: enum_uniq.
  by move=> x; rewrite mem_enum inE.
case: ifP => [/eqP cS|/negP cS]; last first.
  rewrite big1 // => t _; case: eqP => [/eqP tS|]; last by rewrite mulr0.
  have [->|/(pmt t tS)[/eqP/cS]] := eqVneq (pm K t) 0; [by rewrite !mul0r|by []].
transitivity (\sum_(t : k.-tuple 'I_N | all (mem S) t && uniq t) pmS K S / (r ^_ k)%:R).
  rewrite [RHS]big_mkcond /=; apply: eq_bigr => t _.
  have [pt|pt] := eqVneq (pm K t) 0.
    case: ifP => [/andP[aS ut]|_]; last by rewrite pt !mul0r.
    suff <- : pm K t = pmS K S by rewrite pt !mul0r.
    apply: pm_perm; apply: uniq_perm => //; first exact: enum_uniq.
    have sub : {subset t <= S} by apply/allP.
    have cE : {subset t <= enum S} by move=> x /sub; rewrite mem_enum.
    apply: (uniq_min_size ut cE _).2.
    by rewrite -cardE cS size_tuple.
  have ut : uniq t by apply: contraNT pt => /pm_dup ->.
  rewrite ut andbT; case: eqP => [/eqP tS|tS].
    have [_ ->] := pmt t tS pt; rewrite mulr1.
    suff -> : all (mem S) t by [].
    by apply/allP => x xt /=; rewrite -(eqP tS) inE.
  rewrite mulr0; case: ifP => // /allP aS; case: tS; apply/eqP.
  rewrite eqEcard cS cardsE (card_uniqP ut) size_tuple leqnn andbT.
  by apply/subsetP => x; rewrite inE => /aS.
rewrite big_const iter_addr addr0.
have -> : #|[pred t : k.-tuple 'I_N | all (mem S) t && uniq t]| = k`!.
  by rewrite -cardsE card_uniq_tuples cS ffactnn.
rewrite -mulr_natr -mulrA; congr (_ * _).
rewrite -bin_ffact natrM invfM -mulrA mulVf ?mulr1 //.
by rewrite pnatr_eq0 -lt0n fact_gt0.
Qed.

Lemma cchainE_subset r K (T : {set 'I_N}) : hproj K -> \tr K = r%:R ->
  cchainE r r K (fun ys => (T \subset items ys)%:R) = pmS K T.
Proof.
move=> P trK; rewrite /pmS -(@cchainE_marginal r) ?enum_uniq //.
apply: eq_cchainE => ys; congr (_%:R); apply: congr1.
apply/subsetP/allP => [h x|h x xT]; first by rewrite mem_enum => /h; rewrite inE.
by rewrite inE; apply: (h x); rewrite mem_enum.
Qed.

Lemma cchainE_bad k r K : hproj K -> \tr K = r%:R -> (k <= r)%N ->
  cchainE k r K (fun ys => (~~ (uniq ys && (size ys == k)))%:R) = 0.
Proof.
move=> P trK kr; rewrite cchainE_sum // big1 // => t _.
rewrite size_tuple eqxx andbT; case: (boolP (uniq t)) => [_|/pm_dup ->]; first by rewrite mulr0.
by rewrite !mul0r.
Qed.
End CProj.

(** ** the loop follows the chain rule *)
Section CChol.
Variables (R : rcfType) (N : nat).
Notation C := (complex R).
Implicit Types (K : 'M[C]_N).

Definition cchol_inv K (Kr : 'M[C]_N) (j : nat) (A : nat -> nat -> C) (d : nat -> R) (orig : nat -> nat)
   (p : {perm 'I_N}) : Prop :=
  [/\ forall a : 'I_N, orig a = p a,
      forall a : 'I_N, (j <= a)%N -> d a = complex.Re (Kr (p a) (p a)),
      forall a : 'I_N, (a < j)%N -> Kr (p a) (p a) = 0,
      forall a b : 'I_N, (j <= b < a)%N -> A a b = K (p a) (p b)
    & forall a b : 'I_N, (j <= a)%N -> (j <= b)%N ->
        Kr (p a) (p b) = K (p a) (p b) - \sum_(s < j) A a s * conjc (A b s)].

Lemma cswapE (j t a : 'I_N) : swap j t a = tperm j t a.
Proof.
rewrite /swap; case: tpermP => [->|->|/eqP aj /eqP at_]; rewrite ?eqxx //.
- by case: eqP => // ->.
- by rewrite -!val_eqE /= in aj at_ *; rewrite (negPf aj) (negPf at_).
Qed.

Lemma cchol_swap_left (A : nat -> nat -> C) (j t : nat) (a b : nat) : (b < j)%N -> (j <= t)%N ->
  cchol_swap A j t a b = A (swap j t a) b.
Proof.
move=> bj jt; rewrite /cchol_swap /swap bj.
have bnj : (b == j) = false by rewrite ltn_eqF.
have bnt : (b == t) = false by rewrite ltn_eqF // (leq_trans bj).
have jb : (j < b)%N = false by rewrite ltnNge ltnW.
rewrite bnj bnt jb !andbF /=; case: (a == j); first by case: ifP.
by case: (a == t); case: ifP.
Qed.

Lemma cchol_swap_low (A B : nat -> nat -> C) (j t : nat) : (j <= t)%N ->
  (forall a b, B b a = conjc (B a b)) ->
  forall n, (forall a b, (j <= b < a)%N -> (a < n)%N -> A a b = B a b) -> (t < n)%N ->
  forall a b, (j <= b < a)%N -> (a < n)%N -> cchol_swap A j t a b = B (swap j t a) (swap j t b).
Proof.
move=> jt sB n AB tn a b /andP[jb ba] an; rewrite /cchol_swap /swap.
have -> : (b < j)%N = false by rewrite ltnNge jb.
have jja : (j < a)%N by exact: leq_ltn_trans ba.
have aj : (a == j) = false by rewrite gtn_eqF.
rewrite aj /=.
have [bE|bj] := eqVneq b j.
  subst b; rewrite ltnn /= !andbF /= jja.
  case: (ltngtP a t) => [lat|lta|eat].
  - by rewrite /= ltnn AB ?lat ?(ltnW jja) // -sB.
  - by rewrite /= AB // jt.
  - by subst a; rewrite ltnn ?(ltn_eqF jja) /= ?andbF /= ?ltnn AB ?leqnn ?jja // -sB.
have jlb : (j < b)%N by rewrite ltn_neqAle eq_sym bj.
have [aE|at_] := eqVneq a t.
  subst a; rewrite jlb ba (ltn_eqF ba) /= (negPf (_ : ~~ (t < b)%N)) -?leqNgt ?(ltnW ba) //=.
  by rewrite AB ?leqnn ?jlb ?(ltn_trans ba) // -sB.
rewrite /= ?andbF /=.
have [bt|bt] := eqVneq b t.
  by subst b; rewrite ba /= AB // ?leqnn ?jlb.
by case: ifP => _; rewrite AB ?jb ?ba.
Qed.

(** one step of the loop, for a pivot t of positive residual norm *)
Definition stepA2 (A : nat -> nat -> C) (d : nat -> R) (j t a b : nat) : C :=
  if (a == j) && (b == j) then (Num.sqrt (d (swap j t j)))%:C%C else cchol_swap A j t a b.
Definition stepA3 (A : nat -> nat -> C) (d : nat -> R) (j t a b : nat) : C :=
  if (j < a)%N && (b == j) then
    (stepA2 A d j t a j - \sum_(s < j) stepA2 A d j t a s * conjc (stepA2 A d j t j s)) / stepA2 A d j t j j else stepA2 A d j t a b.
Definition stepd (A : nat -> nat -> C) (d : nat -> R) (j t i : nat) : R :=
  if (j < i)%N then d (swap j t i) - (complex.Re (stepA3 A d j t i j) ^+ 2 + complex.Im (stepA3 A d j t i j) ^+ 2)
  else d (swap j t i).

(** the first j columns are those of a Cholesky factor *)
Definition cchol_fac K j (A : nat -> nat -> C) (p : {perm 'I_N}) : Prop :=
  forall a b : 'I_N, (b < j)%N -> (b <= a)%N -> \sum_(s < b.+1) A a s * conjc (A b s) = K (p a) (p b).

Lemma cchol_step K Kr (j t : 'I_N) A d orig (p : {perm 'I_N}) :
  (forall a b, K b a = conjc (K a b)) -> hproj Kr -> (j <= t)%N -> Kr (p t) (p t) != 0 ->
  cchol_inv K Kr j A d orig p ->
  let p' := (tperm j t * p)%g in
  [/\ cchol_inv K (schur Kr (p t)) j.+1 (stepA3 A d j t) (stepd A d j t) (fun i => orig (swap j t i)) p',
      cchol_fac K j A p -> cchol_fac K j.+1 (stepA3 A d j t) p'
    & cchol_fac K j A p -> forall a b : 'I_N, (b <= a)%N -> (a <= j)%N ->
        \sum_(s < b.+1) stepA2 A d j t a s * conjc (stepA2 A d j t b s) = K (p' a) (p' b)].
Proof.
move=> sK P jt Kt [I1 I2 I3 I4 I5] p'.
have p'E a : p' a = p (tperm j t a) by rewrite permM.
have p'j : p' j = p t by rewrite p'E tpermL.
have O' : forall a : 'I_N, orig (swap j t a) = p' a by move=> a; rewrite cswapE I1 p'E.
set kt := complex.Re (Kr (p t) (p t)).
have KtE : Kr (p t) (p t) = kt%:C%C by rewrite -hproj_diag_re.
have kt0 : 0 < kt.
  rewrite lt_neqAle eq_sym hproj_re_ge0 // andbT; apply: contra Kt => /eqP h; by rewrite KtE h.
have ge_tp (a : 'I_N) : (j <= a)%N -> (j <= tperm j t a)%N.
  by case: tpermP => // ->.
pose A1 := cchol_swap A j t.
have A1l (a : 'I_N) s : (s < j)%N -> A1 a s = A (tperm j t a) s.
  by move=> sj; rewrite /A1 cchol_swap_left // cswapE.
have A1K (a b : 'I_N) : (j <= b < a)%N -> A1 a b = K (p' a) (p' b).
  pose B := fun a b : nat => if insub a is Some i then if insub b is Some k then K (p i) (p k) else 0 else 0 : C.
  have BE (x y : 'I_N) : B x y = K (p x) (p y) by rewrite /B !valK.
  have sB x y : B y x = conjc (B x y).
    by rewrite /B; case: insubP => [x' _ _|_]; case: insubP => [y' _ _|_] //=; rewrite ?conjc0.
  move=> ba; rewrite /A1 (@cchol_swap_low A B j t jt sB N) //.
    by rewrite !cswapE BE !p'E.
  move=> x y yx xN; have yN : (y < N)%N by case/andP: yx => _ yx; exact: ltn_trans xN.
  by rewrite (I4 (Ordinal xN) (Ordinal yN)) // -BE.
have d1 (a : 'I_N) : (j <= a)%N -> d (swap j t a) = complex.Re (Kr (p' a) (p' a)).
  by move=> ja; rewrite cswapE I2 ?p'E // ge_tp.
have KrA (a b : 'I_N) : (j <= a)%N -> (j <= b)%N ->
    Kr (p' a) (p' b) = K (p' a) (p' b) - \sum_(s < j) A1 a s * conjc (A1 b s).
  move=> ja jb; rewrite !p'E I5 ?ge_tp //; congr (_ - _).
  by apply: eq_bigr => s _; rewrite !A1l.
have sqd : Num.sqrt (d (swap j t j)) = Num.sqrt kt by rewrite d1 // p'j.
pose A2 := stepA2 A d j t; pose A3 := stepA3 A d j t.
have A2l (a s : nat) : (s < j)%N -> A2 a s = A1 a s by move=> sj; rewrite /A2 /stepA2 (ltn_eqF sj) andbF.
have A3l (a s : nat) : (s < j)%N -> A3 a s = A1 a s.
  by move=> sj; rewrite /A3 /stepA3 (ltn_eqF sj) andbF -/A2 A2l.
have A2jj : A2 j j = (Num.sqrt kt)%:C%C by rewrite /A2 /stepA2 eqxx /= sqd.
have A3j (a : 'I_N) : (j < a)%N -> A3 a j = Kr (p' a) (p t) / (Num.sqrt kt)%:C%C.
  move=> ja; rewrite /A3 /stepA3 ja eqxx /= -/A2 A2jj; congr (_ / _).
  rewrite -[in RHS]p'j KrA ?(ltnW ja) //=; congr (_ - _).
    by rewrite /A2 /stepA2 (gtn_eqF ja) /= -/A1 -(A1K a j) ?leqnn.
  by apply: eq_bigr => s _; rewrite !A2l.
have sq2 : (Num.sqrt kt)%:C%C * (Num.sqrt kt)%:C%C = Kr (p t) (p t) :> C.
  by rewrite -rmorphM -expr2 sqr_sqrtr ?ltW // KtE.
have prodA3 (a b : 'I_N) : (j < a)%N -> (j < b)%N ->
    A3 a j * conjc (A3 b j) = Kr (p' a) (p t) * Kr (p t) (p' b) / Kr (p t) (p t).
  move=> ja jb; rewrite !A3j // fmorph_div /= -P.1 conjc_real mulrACA -invfM sq2 //.
have fac_lt : cchol_fac K j A p -> forall a b : 'I_N, (b < j)%N -> (b <= a)%N ->
    \sum_(s < b.+1) A1 a s * conjc (A1 b s) = K (p' a) (p' b).
  move=> F a b bj ba; have tb : tperm j t b = b.
    by rewrite tpermD // -val_eqE /= gtn_eqF // (leq_trans bj).
  rewrite !p'E tb -F //; last by case: tpermP => // _; rewrite ?(leq_trans _ jt) // ltnW.
  apply: eq_bigr => s _; have sj : (s < j)%N by exact: leq_trans (ltn_ord s) bj.
  by rewrite !A1l // tb.
have sqq : (Num.sqrt kt)%:C%C * conjc (Num.sqrt kt)%:C%C = Kr (p' j) (p' j) :> C by rewrite conjc_real sq2 p'j.
split.
- have -> : stepA3 A d j t = A3 by [].
  split=> // [a ja|a|a b /andP[jb ba]|a b ja jb].
  - rewrite /stepd ja d1 ?(ltnW ja) // cschurE raddfB /=; congr (_ - _).
    by rewrite -prodA3 // mulc_conj.
  - rewrite ltnS leq_eqVlt => /orP[/eqP aj|aj].
      have -> : a = j by apply: val_inj.
      by rewrite p'j cschur_self.
    rewrite cschur_diag0 // p'E tpermD ?I3 //; apply/eqP => e.
      by move: aj; rewrite -e ltnn.
    by move: aj; rewrite -e ltnNge jt.
  - rewrite /A3 /stepA3 (gtn_eqF jb) andbF /stepA2 (gtn_eqF jb) andbF -/A1 A1K //.
    by rewrite (ltnW jb) ba.
  - rewrite cschurE KrA ?(ltnW ja) ?(ltnW jb) // big_ord_recr /= prodA3 //.
    rewrite opprD addrA; congr (_ - _).
    by congr (_ - _); apply: eq_bigr => s _; rewrite !A3l.
- move=> F a b; rewrite ltnS leq_eqVlt => /orP[/eqP/val_inj ->|bj ba]; last first.
    rewrite -(fac_lt F) //; apply: eq_bigr => s _.
    by rewrite -/A3 !A3l // (leq_trans (ltn_ord s) bj).
  move=> ja; rewrite -[stepA3 _ _ _ _]/A3 big_ord_recr /= (eq_bigr (fun s : 'I_j => A1 a s * conjc (A1 j s))) => [|s _]; last by rewrite !A3l.
  have A3jj : A3 j j = (Num.sqrt kt)%:C%C by rewrite /A3 /stepA3 ltnn /= -/A2.
  have -> : A3 a j * conjc (A3 j j) = Kr (p' a) (p' j).
    rewrite A3jj; move: ja; rewrite leq_eqVlt => /orP[/eqP/val_inj <-|ja]; first by rewrite A3jj sqq.
    rewrite A3j // p'j conjc_real divfK //; apply: contra Kt => /eqP e; by rewrite -sq2 e mul0r.
  by rewrite KrA // addrC subrK.
- move=> F a b ba aj; rewrite -[stepA2 _ _ _ _]/A2.
  have [bj|bj] := ltnP b j.
    rewrite -(fac_lt F) //; apply: eq_bigr => s _.
    by rewrite !A2l // (leq_trans (ltn_ord s) bj).
  have eb : b = j by apply: val_inj; apply/eqP; rewrite eqn_leq bj (leq_trans ba aj).
  have ea : a = j by apply: val_inj; apply/eqP; rewrite eqn_leq aj -eb ba.
  rewrite ea eb big_ord_recr /= (eq_bigr (fun s : 'I_j => A1 j s * conjc (A1 j s))) => [|s _]; last by rewrite !A2l.
  by rewrite A2jj sqq KrA // addrC subrK.
Qed.

Lemma cChol_loopE K Kr rank sz n j A d orig p (f : seq nat -> R) :
  (forall a b, K b a = conjc (K a b)) ->
  hproj Kr -> \tr Kr = (rank - j)%:R -> (j + n)%N = sz -> (sz <= rank)%N ->
  cchol_inv K Kr j A d orig p ->
  (E (cChol_loop N rank sz n j A d orig) f)%:C%C =
  cchainE n (rank - j) Kr (fun ys => (f ([seq orig i | i <- iota 0 j] ++ [seq val y | y <- ys]))%:C%C).
Proof.
move=> sK.
elim: n j Kr A d orig p => [|n IH] j Kr A d orig p P trK szE szr [I1 I2 I3 I4 I5].
  by rewrite /= cats0 -szE addn0.
have jr : (j < rank)%N by apply: leq_trans szr; rewrite -szE addnS ltnS leq_addr.
have rE : rank%:R - j%:R = (rank - j)%:R :> R by rewrite natrB // ltnW.
have r0 : (rank - j)%:R != 0 :> R by rewrite pnatr_eq0 -lt0n subn_gt0.
have posum (g : nat -> R) : (\sum_(t <- iota j (N - j)) `|d t| / (rank%:R - j%:R) * g t)%:C%C =
   \sum_(t : 'I_N) (Kr (p t) (p t) / (rank - j)%:R) * (g t)%:C%C.
  rewrite -/(index_iota j N) (big_nat_widenl _ 0) // big_mkord big_mkcond raddf_sum /=.
  apply: eq_bigr => t _; case: leqP => [jt|tj]; last by rewrite I3 // !mul0r.
  rewrite I2 // ger0_norm ?hproj_re_ge0 // rE rmorphM fmorph_div /= rmorph_nat.
  by rewrite -hproj_diag_re.
have relab (g : 'I_N -> C) : \sum_(t : 'I_N) (Kr (p t) (p t) / (rank - j)%:R) * g (p t) =
   \sum_i (Kr i i / (rank - j)%:R) * g i by rewrite [RHS](reindex_perm p).
cbn [cChol_loop E]; rewrite /valid_weights.
have -> : \sum_(x <- iota j (N - j)) `|d x| / (rank%:R - j%:R) == 1.
  apply/eqP; have := posum (fun _ => 1); rewrite (relab (fun _ => 1)).
  under eq_bigr do rewrite mulr1; move=> e.
  have : (\sum_(x <- iota j (N - j)) `|d x| / (rank%:R - j%:R))%:C%C = 1 :> C.
    rewrite e; under eq_bigr do rewrite mulr1.
    by rewrite -big_distrl /= -/(\tr Kr) trK divff // pnatr_eq0 -lt0n subn_gt0.
  by move/(congr1 (@complex.Re R)).
have -> : all (fun x => 0 <= `|d x| / (rank%:R - j%:R)) (iota j (N - j)).
  by apply/allP => t _; rewrite rE divr_ge0 ?ler0n.
rewrite andbT [LHS]posum [RHS]/= -[RHS]relab; apply: eq_bigr => t _.
have [Kt|Kt] := eqVneq (Kr (p t) (p t)) 0; first by rewrite Kt !mul0r.
congr (_ * _).
have jt : (j <= t)%N by rewrite leqNgt; apply: contra Kt => /I3 ->.
have ltj : (j < N)%N by exact: leq_ltn_trans (ltn_ord t).
pose oj := Ordinal ltj.
pose p' : {perm 'I_N} := (tperm oj t * p)%g.
have p'E a : p' a = p (tperm oj t a) by rewrite permM.
have p'j : p' oj = p t by rewrite p'E tpermL.
pose orig' := fun i => orig (swap j t i).
have O' : forall a : 'I_N, orig' a = p' a.
  by move=> a; rewrite /orig' -[j]/(val oj) cswapE I1 p'E.
have pre : [seq orig' i | i <- iota 0 j] = [seq orig i | i <- iota 0 j].
  apply/eq_in_map => i; rewrite mem_iota add0n /= => ij.
  by rewrite /orig' /swap (ltn_eqF ij) (ltn_eqF (leq_trans ij jt)).
have preS : [seq orig' i | i <- iota 0 j.+1] = rcons [seq orig i | i <- iota 0 j] (val (p t)).
  by rewrite -[j.+1]addn1 iotaD map_cat pre cats1 /= add0n -[j]/(val oj) O' p'j.
case: eqP => [sz1|sz1].
  have -> : n = 0%N by apply: (@addnI j); move: szE; rewrite -sz1 addnS addn0 => [[]].
  by rewrite /= cats1 -sz1 -preS.
rewrite -subnS.
rewrite (IH j.+1 (schur Kr (p t)) _ _ _ p').
- by apply: eq_cchainE => ys; rewrite [in LHS]preS cat_rcons.
- exact: hschur.
- by rewrite cschur_tr // trK -(subnSK jr) mulrSr addrK.
- by rewrite addSnnS.
- exact: szr.
by have [] := @cchol_step K Kr oj t A d orig p sK P jt Kt (And5 I1 I2 I3 I4 I5).
Qed.
End CChol.
