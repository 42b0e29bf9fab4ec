(** * ProjEig: phase 2 of the spectral samplers (GS, GS_bis, KuTa12) follows the chain rule. *)
From mathcomp Require Import all_ssreflect all_algebra.
From mathcomp.algebra_tactics Require Import ring.
From Verif Require Import Prob Minor Chain ExactModel ProjGS.
Set Implicit Arguments. Unset Strict Implicit. Unset Printing Implicit Defensive.
Import Order.Theory GRing.Theory Num.Theory.
Local Open Scope ring_scope.

Section Eig.
Variables (R : rcfType) (N r : nat).
Implicit Types (V : 'M[R]_(N, r)).

Lemma rowdotE V i j : rowdot V i j = (V *m V^T) i j.
Proof. by rewrite !mxE; apply: eq_bigr => k _; rewrite mxE. Qed.

Lemma ortho_proj V : V^T *m V = 1%:M -> isproj (V *m V^T).
Proof.
move=> o; split; first by rewrite trmx_mul trmxK.
by rewrite mulmxA -(mulmxA V) o mulmx1.
Qed.

Lemma ortho_tr V : V^T *m V = 1%:M -> \tr (V *m V^T) = r%:R.
Proof. by move=> o; rewrite mxtrace_mulC o mxtrace1. Qed.

Lemma eig_GS_loopE V Kr size n it sampl avail c norms_2 f :
  isproj Kr -> \tr Kr = (r - it)%:R -> (it + n)%N = size -> (size <= r)%N ->
  gs_inv (V *m V^T) Kr it avail c norms_2 ->
  E (eig_GS_loop V size n it sampl avail c norms_2) f =
  chainE n (r - it) Kr (fun ys => f (sampl ++ ys)).
Proof.
elim: n it Kr sampl avail c norms_2 => [|n IH] it Kr sampl avail c norms_2 P trK sz szr [I1 I2 I3].
  by rewrite /= cats0.
have itr : (it < r)%N by apply: leq_trans szr; rewrite -sz addnS ltnS leq_addr.
have rE : r%:R - it%:R = (r - it)%:R :> R by rewrite natrB // ltnW.
rewrite [LHS](@E_choice_proj _ _ Kr (r - it)) //; first last.
- by move=> i; rewrite (mem_av avail) => /I2.
- by move=> i; rewrite (mem_av avail) => ai; rewrite I1 // ger0_norm ?proj_diag_ge0 // rE.
- exact: (av_uniq avail).
- by rewrite subn_gt0.
rewrite /=; apply: eq_bigr => j _.
have [Kj|Kj] := eqVneq (Kr j j) 0; first by rewrite Kj !mul0r.
congr (_ * _).
have aj : avail j by apply: contraNT Kj => /I2 ->.
case: eqP => [szE|szE].
  have -> : n = 0%N by apply: (@addnI it); move: sz; rewrite -szE addnS addn0 => [[]].
  by rewrite /= cats1.
rewrite -subnS.
rewrite (IH it.+1 (schur Kr j)).
- by apply: eq_chainE => ys; rewrite cat_rcons.
- exact: schur_proj.
- by rewrite schur_tr // trK -(subnSK itr) mulrSr addrK.
- by rewrite addSnnS.
- exact: szr.
have Kj0 : 0 < Kr j j by rewrite lt_neqAle eq_sym Kj proj_diag_ge0.
have cE i : avail i -> (rowdot V i j - \sum_(s < it) c i s * c j s) / Num.sqrt (norms_2 j)
     = Kr i j / Num.sqrt (Kr j j) by move=> ai; rewrite I1 // rowdotE -I3.
split=> [i /andP[ai ij]|i nai|i k /andP[ai ij] /andP[ak kj]].
- rewrite ai ij eqxx /= I1 // schurE cE // expr_div_n sqr_sqrtr ?ltW //.
  by rewrite (proj_sym j i P) expr2.
- have [ai|nai'] := boolP (avail i).
    by move: nai; rewrite ai /= negbK => /eqP ->; rewrite schur_self.
  by rewrite schur_diag0 // I2.
- rewrite schurE I3 // big_ord_recr /= ai ij ak kj /= eqxx !cE //.
  rewrite opprD addrA; congr (_ - _); last first.
    rewrite mulrACA -invfM -expr2 sqr_sqrtr ?ltW //; congr (_ * _ / _).
    by rewrite (proj_sym k j P).
  by congr (_ - _); apply: eq_bigr => s _; rewrite !(ltn_eqF (ltn_ord s)).
Qed.

Lemma eig_GS_E V size f : V^T *m V = 1%:M -> (if size is Some s then s <= r else true)%N ->
  E (proj_dpp_sampler_eig_GS V size) f = chainE (get_size size r) r (V *m V^T) f.
Proof.
move=> o sr; rewrite /proj_dpp_sampler_eig_GS.
have szr : (get_size size r <= r)%N by case: size sr => //=.
rewrite (@eig_GS_loopE V (V *m V^T)) ?subn0 //.
- exact: ortho_proj.
- exact: ortho_tr.
- by split=> // [i _|i j _ _]; rewrite ?rowdotE // big_ord0 subr0.
Qed.

(** GS_bis *)
Definition gsb_inv Kr (it : nat) V (sampl : seq 'I_N) (avail : 'I_N -> bool)
  (contrib : 'I_N -> nat -> R) (norms_2 : 'I_N -> R) : Prop :=
  [/\ forall i, avail i -> norms_2 i = Kr i i,
      forall i, ~~ avail i -> Kr i i = 0,
      size sampl = it /\ {in sampl, forall y, ~~ avail y}
    & forall x i j, avail i -> avail j -> Kr i j = rowdot V i j -
        \sum_(s < it) contrib i s * rowdot V (nth x sampl s) j].

Lemma eig_GS_bis_loopE Kr sz n it V sampl avail contrib norms_2 f :
  isproj Kr -> \tr Kr = (r - it)%:R -> (it + n)%N = sz -> (sz <= r)%N ->
  gsb_inv Kr it V sampl avail contrib norms_2 ->
  E (eig_GS_bis_loop sz n it V sampl avail contrib norms_2) f =
  chainE n (r - it) Kr (fun ys => f (sampl ++ ys)).
Proof.
elim: n it Kr V sampl avail contrib norms_2 => [|n IH] it Kr V sampl avail contrib norms_2 P trK szE szr
   [I1 I2 [I3 I3'] I4].
  by rewrite /= cats0.
have itr : (it < r)%N by apply: leq_trans szr; rewrite -szE addnS ltnS leq_addr.
have rE : r%:R - it%:R = (r - it)%:R :> R by rewrite natrB // ltnW.
rewrite [LHS](@E_choice_proj _ _ Kr (r - it)) //; first last.
- by move=> i; rewrite (mem_av avail) => /I2.
- by move=> i; rewrite (mem_av avail) => ai; rewrite I1 // ger0_norm ?proj_diag_ge0 // rE.
- exact: (av_uniq avail).
- by rewrite subn_gt0.
rewrite [chainE _ _ _ _]/=; apply: eq_bigr => j _.
have [Kj|Kj] := eqVneq (Kr j j) 0; first by rewrite Kj !mul0r.
congr (_ * _).
have aj : avail j by apply: contraNT Kj => /I2 ->.
case: eqP => [sz1|sz1].
  have -> : n = 0%N by apply: (@addnI it); move: szE; rewrite -sz1 addnS addn0 => [[]].
  by rewrite /= cats1.
rewrite -subnS.
set av' := fun i => avail i && (i != j).
set V1 := (\matrix_(i, k) _ : 'M[R]_(N, r)).
set ct := (fun i t => if av' i && (t == it) then rowdot V1 i j else contrib i t).
set V2 := (\matrix_(i, k) (if i == j then V1 j k / norms_2 j else V1 i k)).
rewrite (IH it.+1 (schur Kr j)).
- by apply: eq_chainE => ys; rewrite cat_rcons.
- exact: schur_proj.
- by rewrite schur_tr // trK -(subnSK itr) mulrSr addrK.
- by rewrite addSnnS.
- exact: szr.
(* row j of V1 is the residual of row j *)
have V1j i : avail i -> i != j -> rowdot V1 i j = Kr i j.
  move=> ai ij; rewrite (proj_sym i j P) (I4 j) // /rowdot.
  transitivity (\sum_(k < r) (V j k * V i k - (\sum_(s < it) contrib j s * V (nth j sampl s) k) * V i k)).
    by apply: eq_bigr => k _; rewrite !mxE eqxx (negPf ij) mulrC mulrBl.
  rewrite sumrB; congr (_ - _).
  under eq_bigr do rewrite big_distrl /=.
  rewrite exchange_big /=; apply: eq_bigr => s _; rewrite big_distrr /=.
  by apply: eq_bigr => k _; rewrite mulrA.
have V2i i k : i != j -> V2 i k = V i k by move=> ij; rewrite !mxE (negPf ij).
have ctE i : av' i -> ct i it = Kr i j.
  by rewrite /ct eqxx andbT => avi; rewrite avi; case/andP: avi => ai ij; exact: V1j.
have yj (s : 'I_it) x : nth x sampl s != j.
  apply: contraTneq aj => <-; apply: I3'; by rewrite mem_nth // I3.
suff : gsb_inv (schur Kr j) it.+1 V2 (rcons sampl j) av' ct
   (fun i => if av' i then norms_2 i - ct i it ^+ 2 / norms_2 j else norms_2 i) by [].
split=> [i avi|i nai||x i k avi avk].
- rewrite avi ctE //; case/andP: avi => ai ij.
  by rewrite !I1 // schurE expr2 (proj_sym j i P).
- have [ai|nai'] := boolP (avail i).
    by move: nai; rewrite /av' ai /= negbK => /eqP ->; rewrite schur_self.
  by rewrite schur_diag0 // I2.
- split; first by rewrite size_rcons I3.
  move=> y; rewrite mem_rcons inE => /orP[/eqP ->|ys]; first by rewrite /av' eqxx andbF.
  by rewrite /av' negb_and (I3' y ys).
- have [/andP[ai ij] /andP[ak kj]] := (avi, avk).
  rewrite schurE (I4 x) // big_ord_recr /=.
  have -> : rowdot V2 i k = rowdot V i k.
    by apply: eq_bigr => l _; rewrite !V2i.
  rewrite opprD addrA; congr (_ - _).
    congr (_ - _); apply: eq_bigr => s _; congr (_ * _).
      by rewrite /ct (ltn_eqF (ltn_ord s)) andbF.
    rewrite nth_rcons I3 ltn_ord; apply: eq_bigr => l _; rewrite !V2i //.
  rewrite ctE // nth_rcons I3 ltnn eqxx -mulrA; congr (_ * _).
  rewrite -(I1 j) // (proj_sym j k P) -(V1j k) // /rowdot big_distrl /=.
  by apply: eq_bigr => l _; rewrite [V2 j l]mxE eqxx V2i // [V1 k l]mxE (negPf kj) -mulrA mulrC.
Qed.

Lemma eig_GS_bis_E V size f : V^T *m V = 1%:M -> (if size is Some s then s <= r else true)%N ->
  E (proj_dpp_sampler_eig_GS_bis V size) f = chainE (get_size size r) r (V *m V^T) f.
Proof.
move=> o sr; rewrite /proj_dpp_sampler_eig_GS_bis.
have szr : (get_size size r <= r)%N by case: size sr => //=.
rewrite (@eig_GS_bis_loopE (V *m V^T)) ?subn0 //.
- exact: ortho_proj.
- exact: ortho_tr.
- by split=> // [i _|x i j _ _]; rewrite ?rowdotE // big_ord0 subr0.
Qed.

End Eig.
