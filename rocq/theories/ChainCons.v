(** * ChainCons: consequences of the chain rule, stated for sets. *)
From mathcomp Require Import all_ssreflect all_algebra.
From mathcomp.algebra_tactics Require Import ring.
From Verif Require Import Prob Minor Chain.
Set Implicit Arguments. Unset Strict Implicit. Unset Printing Implicit Defensive.
Import Order.Theory GRing.Theory Num.Theory.
Local Open Scope ring_scope.

Lemma big_tuple_cons (R : comRingType) (T : finType) k (F : (k.+1).-tuple T -> R) :
  \sum_(t : (k.+1).-tuple T) F t = \sum_(i : T) \sum_(t : k.-tuple T) F (cons_tuple i t).
Proof.
rewrite (pair_big xpredT xpredT) /=.
pose h (p : T * k.-tuple T) : (k.+1).-tuple T := cons_tuple p.1 p.2.
pose g (t : (k.+1).-tuple T) : T * k.-tuple T := (thead t, behead_tuple t).
rewrite (reindex h) /=; first by apply: eq_bigr => -[i t] _.
exists g => [[i t] _|t _]; rewrite /g /h /=.
  by congr (_, _); apply: val_inj.
by rewrite [RHS]tuple_eta; apply: val_inj.
Qed.

Section ChainCons.
Variables (R : rcfType) (N : nat).
Implicit Types (K : 'M[R]_N).

Lemma chainE_sum k r K f : isproj K -> \tr K = r%:R -> (k <= r)%N ->
  chainE k r K f = \sum_(t : k.-tuple 'I_N) (pm K t / (r ^_ k)%:R) * f t.
Proof.
elim: k r K f => [|k IH] r K f P trK kr /=.
  rewrite (big_pred1 [tuple]) => [|t]; last by rewrite [t]tuple0 /= eqxx.
  by rewrite /= pm_nil ffactn0 divr1 mul1r.
case: r trK kr => // r trK kr.
rewrite big_tuple_cons; apply: eq_bigr => i _.
have [Ki|Ki] := eqVneq (K i i) 0.
  rewrite Ki !mul0r big1 // => t _ /=.
  by rewrite (@pm_proj_diag0 _ _ _ i) ?inE ?eqxx // !mul0r.
rewrite [r.+1.-1]/= (IH r) ?(@schur_trS _ _ _ r) //; last exact: schur_proj.
rewrite [LHS]big_distrr.
apply: eq_bigr => t _ /=; rewrite pm_cons //= ffactSS natrM invfM.
rewrite !mulrA; congr (_ * _); rewrite -!mulrA; congr (_ * _).
by rewrite mulrCA.
Qed.

Definition items (X : seq 'I_N) : {set 'I_N} := [set i in X].

Lemma chainE_set k r K (S : {set 'I_N}) : isproj K -> \tr K = r%:R -> (k <= r)%N ->
  chainE k r K (fun ys => (items ys == S)%:R) =
  if #|S| == k then pmS K S / 'C(r, k)%:R else 0.
Proof.
move=> P trK kr; rewrite chainE_sum //.
have pmt (t : k.-tuple 'I_N) : (items t == S) -> pm K t != 0 -> #|S| = k /\ pm K t = pmS K S.
  move=> /eqP <- pt; have ut : uniq t by apply: contraNT pt => /pm_dup ->.
  have -> : #|items t| = k by rewrite cardsE (card_uniqP ut) size_tuple.
  split=> //; rewrite /pmS; apply: pm_perm; apply: uniq_perm => //; first exact: enum_uniq.
  by move=> x; rewrite mem_enum inE.
case: ifP => [/eqP cS|/negP cS]; last first.
  rewrite big1 // => t _; case: eqP => [/eqP tS|]; last by rewrite mulr0.
  have [->|/(pmt t tS)[/eqP/cS]] := eqVneq (pm K t) 0; [by rewrite !mul0r|by []].
transitivity (\sum_(t : k.-tuple 'I_N | all (mem S) t && uniq t) pmS K S / (r ^_ k)%:R).
  rewrite [RHS]big_mkcond /=; apply: eq_bigr => t _.
  have [pt|pt] := eqVneq (pm K t) 0.
    case: ifP => [/andP[aS ut]|_]; last by rewrite pt !mul0r.
    suff <- : pm K t = pmS K S by rewrite pt !mul0r.
    apply: pm_perm; apply: uniq_perm => //; first exact: enum_uniq.
    have sub : {subset t <= S} by apply/allP.
    have cE : {subset t <= enum S} by move=> x /sub; rewrite mem_enum.
    apply: (uniq_min_size ut cE _).2.
    by rewrite -cardE cS size_tuple.
  have ut : uniq t by apply: contraNT pt => /pm_dup ->.
  rewrite ut andbT; case: eqP => [/eqP tS|tS].
    have [_ ->] := pmt t tS pt; rewrite mulr1.
    suff -> : all (mem S) t by [].
    by apply/allP => x xt /=; rewrite -(eqP tS) inE.
  rewrite mulr0; case: ifP => // /allP aS; case: tS; apply/eqP.
  rewrite eqEcard cS cardsE (card_uniqP ut) size_tuple leqnn andbT.
  by apply/subsetP => x; rewrite inE => /aS.
rewrite big_const iter_addr addr0.
have -> : #|[pred t : k.-tuple 'I_N | all (mem S) t && uniq t]| = k`!.
  by rewrite -cardsE card_uniq_tuples cS ffactnn.
rewrite -mulr_natr -mulrA; congr (_ * _).
rewrite -bin_ffact natrM invfM -mulrA mulVf ?mulr1 //.
by rewrite pnatr_eq0 -lt0n fact_gt0.
Qed.

Lemma chainE_subset r K (T : {set 'I_N}) : isproj K -> \tr K = r%:R ->
  chainE r r K (fun ys => (T \subset items ys)%:R) = pmS K T.
Proof.
move=> P trK; rewrite /pmS -(@chainE_marginal _ _ r) ?enum_uniq //.
apply: eq_chainE => ys; congr (_%:R); apply: congr1.
apply/subsetP/allP => [h x|h x xT]; first by rewrite mem_enum => /h; rewrite inE.
by rewrite inE; apply: (h x); rewrite mem_enum.
Qed.

Lemma chainE_bad k r K : isproj K -> \tr K = r%:R -> (k <= r)%N ->
  chainE k r K (fun ys => (~~ (uniq ys && (size ys == k)))%:R) = 0.
Proof.
move=> P trK kr; rewrite chainE_sum // big1 // => t _.
rewrite size_tuple eqxx andbT; case: (boolP (uniq t)) => [_|/pm_dup ->]; first by rewrite mulr0.
by rewrite !mul0r.
Qed.

(** a program whose expectations are those of the chain rule *)
Section Prog.
Variables (m : prog R (seq 'I_N)) (k r : nat) (K : 'M[R]_N).
Hypotheses (P : isproj K) (trK : \tr K = r%:R) (kr : (k <= r)%N).
Hypothesis (mE : forall f, E m f = chainE k r K f).

Lemma chain_total : total m. Proof. by rewrite /total mE chainE_total. Qed.

Lemma chain_ordered ys : Pr m (fun X => X == ys) = if size ys == k then pm K ys / (r ^_ k)%:R else 0.
Proof. by rewrite /Pr mE chainE_law. Qed.

Lemma chain_set (S : {set 'I_N}) :
  Pr m (fun X => items X == S) = if #|S| == k then pmS K S / 'C(r, k)%:R else 0.
Proof. by rewrite /Pr mE chainE_set. Qed.

Lemma chain_valid X : possible m (inl X) -> uniq X && (size X == k).
Proof. by apply: (almost_sure (Q := fun X => uniq X && (size X == k))); rewrite /Pr mE chainE_bad. Qed.

Lemma chain_marginal (T : {set 'I_N}) : k = r -> Pr m (fun X => T \subset items X) = pmS K T.
Proof. by move=> kE; rewrite /Pr mE kE chainE_subset. Qed.
End Prog.

End ChainCons.
