(** * P_McmcChain: properties C16 (validity of chains), C17 (length), C18 (T_max), C19 (initialisation), C52 (crashes). *)
From Coq Require Import String.
From mathcomp Require Import all_ssreflect all_algebra.
From mathcomp.algebra_tactics Require Import ring.
From Verif Require Import Prob Minor Chain ChainCons ProjAll GenKernel Spectral McmcModel Mcmc P_Gen P_Mcmc.
Set Implicit Arguments. Unset Strict Implicit. Unset Printing Implicit Defensive.
Import Order.Theory GRing.Theory Num.Theory.
Local Open Scope ring_scope.
Arguments E : simpl never.
Arguments possible : simpl never.

Section Chains.
Variables (R : rcfType) (N : nat).
Implicit Types (L : 'M[R]_N) (s : seq 'I_N) (clock : nat -> R) (T_max : option R) (n : nat).

Lemma good_valid L st : good L st -> valid_state L st.1.1.
Proof. by case=> u _ p _; split=> //; rewrite -pm_items. Qed.

(** every state of an AED / AD chain is valid *)
Theorem C16_AED_states_valid L s n T_max clock ch : valid_state L s ->
  possible (add_exchange_delete_sampler L s n T_max clock) (inl ch) ->
  forall X, X \in ch -> valid_state L X.
Proof.
move=> v h X; have [ext [-> _ al]] := loop_inv (P := good L) (@aed_step_good _ _ L) (init_good v) h.
by rewrite mem_cat inE => /orP[/eqP -> //|/al [st g ->]]; exact: good_valid.
Qed.

Theorem C16_AD_states_valid L s n T_max clock ch : valid_state L s ->
  possible (add_delete_sampler L s n T_max clock) (inl ch) ->
  forall X, X \in ch -> valid_state L X.
Proof.
move=> v h X; have [ext [-> _ al]] := loop_inv (P := good L) (@ad_step_good _ _ L) (init_good v) h.
by rewrite mem_cat inE => /orP[/eqP -> //|/al [st g ->]]; exact: good_valid.
Qed.

(** the E chain without T_max: lists of N-bounded integers that are valid states of constant size *)
Theorem C16_E_states_valid L s n clock ch : valid_state L s ->
  possible (basis_exchange_sampler L s n None clock) (inl ch) ->
  forall X : seq nat, X \in ch -> exists s', [/\ X = [seq val i | i <- s'], valid_state L s' & size s' = size s].
Proof.
move=> v; rewrite /basis_exchange_sampler; case: ifP => // n0 h X; have [ch' h1 [->]] := bind_possible h.
have := loop_size h1; rewrite find_none (minn_idPl (leqnSn _)) /= add1n prednK ?lt0n ?n0 // => ->.
rewrite subnn /= cats0 => /mapP[S Sch ->]; exists S.
have st_ok : good L (init_state L s) /\ #|stS (init_state L s)| = size s.
  by split; [exact: init_good|rewrite /stS /= card_items //; case: v].
have [|ext [e _ al]] := loop_inv (P := fun st => good L st /\ #|stS st| = size s) _ st_ok h1.
  by move=> st st' [g o] h2; have [g' ->] := e_step_good g h2.
move: Sch; rewrite e mem_cat inE => /orP[/eqP -> //|/al [st [g o] ->]].
by split=> //; [exact: good_valid|rewrite -o /stS card_items //; case: g].
Qed.

(** ** C17: length of the chain *)
Theorem C17_AED_length L s n clock ch :
  possible (add_exchange_delete_sampler L s n None clock) (inl ch) -> size ch = maxn 1 n /\ head [::] ch = s.
Proof.
move=> h; split.
  have := loop_size h; rewrite find_none (minn_idPl (leqnSn _)) /= => ->.
  by case: (n) => // m; rewrite add1n /= maxnSS max0n.
by have [ext [-> _ _]] := loop_inv (P := fun _ => True) (fun _ _ _ _ => I) I h.
Qed.

Theorem C17_AD_length L s n clock ch :
  possible (add_delete_sampler L s n None clock) (inl ch) -> size ch = maxn 1 n /\ head [::] ch = s.
Proof.
move=> h; split.
  have := loop_size h; rewrite find_none (minn_idPl (leqnSn _)) /= => ->.
  by case: (n) => // m; rewrite add1n /= maxnSS max0n.
by have [ext [-> _ _]] := loop_inv (P := fun _ => True) (fun _ _ _ _ => I) I h.
Qed.

(** E always returns an array of nb_iter rows; nb_iter = 0 raises *)
Theorem C17_E_length L s n T_max clock ch :
  possible (basis_exchange_sampler L s n T_max clock) (inl ch) ->
  size ch = n /\ head [::] ch = [seq val i | i <- s].
Proof.
rewrite /basis_exchange_sampler; case: ifP => // n0 h; have [ch' h1 [->]] := bind_possible h.
have n1 : (0 < n)%N by rewrite lt0n n0.
have [ext [e le _]] := loop_inv (P := fun _ => True) (fun _ _ _ _ => I) I h1.
have sz : (size ch' <= n)%N by rewrite e /= (leq_ltn_trans le) ?prednK.
by split; [rewrite size_cat size_map size_nseq subnKC|rewrite e].
Qed.

Theorem C17_E_zero L s T_max clock :
  basis_exchange_sampler L s 0%N T_max clock = Raise IndexError.
Proof. by []. Qed.

(** ** C18: T_max *)
(** T_max larger than the time of one iteration stops the chain after one iteration *)
Theorem C18_refuted L s n T clock : (2 <= n)%N -> T != 0 -> clock 1%N - clock 0%N < T ->
  (forall ch, possible (add_exchange_delete_sampler L s n (Some T) clock) (inl ch) -> size ch = 2%N) /\
  (forall ch, possible (add_delete_sampler L s n (Some T) clock) (inl ch) -> size ch = 2%N) /\
  (forall ch, possible (basis_exchange_sampler L s n (Some T) clock) (inl ch) ->
     forall i, (2 <= i < n)%N -> nth [::] ch i = nseq (size s) 0%N).
Proof.
case: n => [|[|n]] // _ T0 c.
have f0 : find (stops (Some T) clock) (iota 1 n.+1) = 0%N by rewrite /= /stops T0 c.
split; [|split].
- by move=> ch h; have := loop_size h; rewrite f0 => ->; rewrite minnSS minn0.
- by move=> ch h; have := loop_size h; rewrite f0 => ->; rewrite minnSS minn0.
- move=> ch; rewrite /basis_exchange_sampler => h; have [ch' h1 [->]] := bind_possible h.
  have := loop_size h1; rewrite f0 minnSS minn0 => sz i /andP[i2 iN].
  have {}sz : size ch' = 2%N by rewrite sz.
  by rewrite nth_cat size_map sz ltnNge i2 /= nth_nseq ltn_sub2r // (leq_ltn_trans i2).
Qed.

(** T_max cuts nothing as long as every elapsed time is at least T_max *)
Theorem C18_elapsed_at_least_partial L s n T clock :
  (forall it, (1 <= it < n)%N -> T <= clock it - clock 0%N) ->
  (forall ch, possible (add_exchange_delete_sampler L s n (Some T) clock) (inl ch) -> size ch = maxn 1 n) /\
  (forall ch, possible (add_delete_sampler L s n (Some T) clock) (inl ch) -> size ch = maxn 1 n).
Proof.
move=> h; have f0 : find (stops (Some T) clock) (iota 1 n.-1) = n.-1.
  apply/eqP; rewrite -{2}[n.-1](size_iota 1) eqn_leq find_size /= leqNgt -has_find; apply/hasPn => i.
  rewrite mem_iota => /andP[i1 i2]; rewrite /stops negb_and -leNgt h ?orbT // i1 /=.
  by case: (n) i1 i2 => [|m]; rewrite ?add1n //= => i1 i2; move: (leq_trans i1 i2).
have e : (1 + minn n.-1 n.-1.+1 = maxn 1 n)%N.
  by rewrite (minn_idPl (leqnSn _)) add1n; case: (n) => // m; rewrite maxnSS max0n.
by split=> ch p; have := loop_size p; rewrite f0 => ->; rewrite -e.
Qed.
End Chains.

(** ** C19: initialisation *)
Section Init.
Variables (R : rcfType) (N : nat) (tol : R) (K : 'M[R]_N).
Hypothesis tol0 : 0 <= tol.
Implicit Types (trial : prog R (seq 'I_N)).

Lemma init_loop_out trial r S0 o :
  possible (init_loop K tol trial r S0 (det_ST K S0)) (inl o) ->
  tol < det_ST K o /\ (o = S0 \/ possible trial (inl o)).
Proof.
elim: r S0 => [|r IH] S0; first by [].
rewrite /init_loop -/init_loop; case: ifP => t h; first by move: h => [->]; split=> //; left.
by have [S1 p1 h1] := bind_possible h; have [t1 [e|p]] := IH _ h1; split=> //; right; rewrite // e.
Qed.

Lemma init_loopS trial r S0 d0 : init_loop K tol trial r.+1 S0 d0 =
  if tol < d0 then Ret S0 else bind trial (fun S1 => init_loop K tol trial r S1 (det_ST K S1)).
Proof. by []. Qed.

Lemma init_out trial o : possible (init_loop K tol trial 100 [::] 0) (inl o) ->
  tol < det_ST K o /\ possible trial (inl o).
Proof.
rewrite (init_loopS _ 99) [tol < 0]ltNge tol0 => h.
have [S1 p1 h1] := bind_possible h; have [t1 [e|p]] := init_loop_out h1; split=> //.
by rewrite e.
Qed.

Lemma choice_norep_out A k n (g : seq 'I_n -> prog R A) a : possible (choice_norep k g) (inl a) ->
  exists T, [/\ uniq T, size T = k & possible (g T) (inl a)].
Proof.
rewrite /choice_norep; case: ifP => // _ h; have [T /mapP[t]] := unif_possible h.
by rewrite mem_filter => /andP[u _] -> p; exists (tval t); rewrite size_tuple.
Qed.

Theorem C19_AED_valid s : possible (initialize_AED_sampler tol K) (inl s) -> uniq s /\ tol < pmS K (items s).
Proof.
move/init_out=> [t p]; suff u : uniq s by split=> //; rewrite -pm_items.
have [T [_ _ [->]]] := choice_norep_out p; exact/filter_uniq/enum_uniq.
Qed.

Theorem C19_AD_E_valid s size : possible (initialize_AD_and_E_sampler tol K size) (inl s) ->
  [/\ uniq s, tol < pmS K (items s) & forall k, size = Some k -> (0 < k)%N -> seq.size s = k].
Proof.
move/init_out=> [t p]; suff [u sz] : uniq s /\ forall k, size = Some k -> (0 < k)%N -> seq.size s = k.
  by split=> //; rewrite -pm_items.
case: size p => [[|k]|] p.
- have [k _ p1] := unif_possible p; have [T [u _ [->]]] := choice_norep_out p1; split=> // k' [<-] //.
- have [T [u sz [->]]] := choice_norep_out p; split=> // k' [<-] //.
- have [k _ p1] := unif_possible p; have [T [u _ [->]]] := choice_norep_out p1; split=> // k' //.
Qed.

Let okb (s : seq 'I_N) : bool := tol < det_ST K s.

(** a successful run returns the first valid set among 99 independent trials *)
Lemma init_loopE trial r f S0 d0 : total trial ->
  let q := Pr trial okb in
  E (init_loop K tol trial r.+1 S0 d0) f =
  if tol < d0 then f S0 else
    (\sum_(0 <= i < r) (1 - q) ^+ i) * E trial (fun s => (okb s)%:R * f s).
Proof.
move=> tot q; elim: r S0 d0 => [|r IH] S0 d0.
  rewrite /init_loop; case: ifP => _ //; rewrite E_bind big_geq // mul0r.
  by rewrite -[RHS](E_zero trial); apply: eq_E.
rewrite init_loopS; case: ifP => _ //; rewrite E_bind.
rewrite big_nat_recl // expr0 mulrDl mul1r.
set G := E trial (fun s => (okb s)%:R * f s).
transitivity (E trial (fun s => (okb s)%:R * f s + ((\sum_(0 <= i < r) (1 - q) ^+ i) * G) * (~~ okb s)%:R)).
  apply: eq_E => s; rewrite IH.
  by rewrite -/(okb s); case: (okb s); rewrite /= ?mul1r ?mulr0 ?addr0 ?mul0r ?add0r ?mulr1.
rewrite E_add E_scale -/G; congr (_ + _).
have -> : E trial (fun s => (~~ okb s)%:R) = 1 - q.
  by have := PrC trial okb; rewrite /Pr => ->; rewrite tot.
have e : \sum_(0 <= i < r) (1 - q) ^+ i.+1 = (\sum_(0 <= i < r) (1 - q) ^+ i) * (1 - q).
  by rewrite big_distrl /=; apply: eq_bigr => i _; rewrite exprSr.
by rewrite e mulrAC.
Qed.

Lemma unif_total A (T : eqType) (pop : seq T) (k : T -> prog R A) : (0 < size pop)%N ->
  (forall x, x \in pop -> total (k x)) -> total (unif pop k).
Proof.
move=> s0 h; rewrite /total unif_E // big_seq (eq_bigr (fun _ => 1)) => [|x /h //].
rewrite -big_seq big_const_seq count_predT iter_addr_0 mulr_natr -mulr_natl divff // pnatr_eq0 -lt0n //.
Qed.

Lemma choice_norep_total A n k (g : seq 'I_n -> prog R A) : (k <= n)%N -> (forall T, total (g T)) -> total (choice_norep k g).
Proof.
move=> kn tg; rewrite /choice_norep ltnNge kn /=; apply: unif_total => //.
rewrite size_map size_filter -has_count; apply/hasP.
have sz : size (take k (enum 'I_n)) == k by rewrite size_takel // size_enum_ord.
by exists (Tuple sz); rewrite ?mem_enum //= take_uniq // enum_uniq.
Qed.

Lemma aed_trial_total : total (@aed_trial R N).
Proof. by apply: choice_norep_total => //; rewrite leq_pmull. Qed.

Lemma ad_e_trial_total size : (0 < N)%N -> (forall k, size = Some k -> (k <= N)%N) -> total (@ad_e_trial R N size).
Proof.
move=> N0 h; case: size h => [[|k]|] h.
- by apply: unif_total => [|k]; rewrite ?size_iota // mem_iota add1n ltnS => /andP[_ kN]; apply: choice_norep_total.
- by apply: choice_norep_total => //; exact: h.
- by apply: unif_total => [|k]; rewrite ?size_iota // mem_iota add1n ltnS => /andP[_ kN]; apply: choice_norep_total.
Qed.

Lemma init_law trial (Q : seq 'I_N -> bool) : total trial ->
  let q := Pr trial (fun s => tol < det_ST K s) in
  Pr (init_loop K tol trial 100 [::] 0) Q =
  (\sum_(0 <= i < 99) (1 - q) ^+ i) * Pr trial (fun s => (tol < det_ST K s) && Q s).
Proof.
move=> tot q; rewrite /Pr (init_loopE 99) // [tol < 0]ltNge tol0; congr (_ * _).
by apply: eq_E => s; rewrite /okb; case: (tol < _) => /=; rewrite ?mul1r ?mul0r.
Qed.

Lemma geo (q : R) n : q * (\sum_(0 <= i < n) (1 - q) ^+ i) = 1 - (1 - q) ^+ n.
Proof.
elim: n => [|n IH]; first by rewrite big_geq // mulr0 expr0 subrr.
by rewrite big_nat_recr //= mulrDr IH exprS; fixeq; ring.
Qed.

(** success probability 1 - (1-q)^99: the 100th draw is never examined *)
Lemma init_success trial : total trial ->
  let q := Pr trial (fun s => tol < det_ST K s) in
  E (init_loop K tol trial 100 [::] 0) (fun _ => 1) = 1 - (1 - q) ^+ 99.
Proof.
move=> tot q; rewrite (init_loopE 99) // [tol < 0]ltNge tol0 -geo mulrC; congr (_ * _).
by apply: eq_E => s; rewrite mulr1.
Qed.

(** the probability that one trial is accepted *)
Definition q_AED : R := Pr (@aed_trial R N) (fun s => tol < det_ST K s).
Definition q_AD_E size : R := Pr (@ad_e_trial R N size) (fun s => tol < det_ST K s).

Theorem C19_AED_success_probability :
  E (initialize_AED_sampler tol K) (fun _ => 1) = 1 - (1 - q_AED) ^+ 99.
Proof. exact: init_success aed_trial_total. Qed.

Theorem C19_AD_E_success_probability size : (0 < N)%N -> (forall k, size = Some k -> (k <= N)%N) ->
  E (initialize_AD_and_E_sampler tol K size) (fun _ => 1) = 1 - (1 - q_AD_E size) ^+ 99.
Proof. by move=> N0 h; apply: init_success; exact: ad_e_trial_total. Qed.

(** the only failure is ValueError *)
Lemma init_raises trial e : total trial -> possible (init_loop K tol trial 100 [::] 0) (inr e) -> e = ValueError.
Proof.
move=> tot; move: (100%N) ([::] : seq 'I_N) (0 : R) => r.
elim: r => [|r IH] S0 d0 /=; first by case.
case: ifP => // _ /possible_bind_raise [p|[S1 _ p]]; last exact: IH p.
by have := total_no_raise tot p.
Qed.

Theorem C19_only_ValueError e size : (0 < N)%N -> (forall k, size = Some k -> (k <= N)%N) ->
  (possible (initialize_AED_sampler tol K) (inr e) -> e = ValueError) /\
  (possible (initialize_AD_and_E_sampler tol K size) (inr e) -> e = ValueError).
Proof.
by move=> N0 h; split; apply: init_raises; [exact: aed_trial_total|exact: ad_e_trial_total].
Qed.

(** requesting more items than there are always raises ValueError *)
Theorem C19_size_too_large k : (N < k)%N -> initialize_AD_and_E_sampler tol K (Some k) = Raise ValueError.
Proof.
case: k => // k h; rewrite /initialize_AD_and_E_sampler (init_loopS _ 99) [tol < 0]ltNge tol0.
by rewrite /ad_e_trial /choice_norep h.
Qed.
End Init.

(** ** C52: the exchange based chains crash at the boundary of the state space *)
Section Crash.
Variables (R : rcfType) (N : nat) (L : 'M[R]_N) (clock : nat -> R).
Implicit Types (s : seq 'I_N).

Lemma mcmc_loopS step n it st (chain : seq (seq 'I_N)) : mcmc_loop step (None : option R) clock n.+1 it st chain =
  bind (step st) (fun st' => mcmc_loop step None clock n it.+1 st' (rcons chain st'.1.1)).
Proof. by []. Qed.

Lemma unif_nil A T (k : T -> prog R A) f : E (unif [::] k) f = 0.
Proof. by rewrite /unif [LHS]/E /valid_weights big_nil eq_sym oner_eq0. Qed.

Lemma others_full s : uniq s -> size s = N -> others s = [::].
Proof. by move=> u sz; apply: size0nil; rewrite size_others // sz subnn. Qed.

Lemma e_step_boundary st f : good L st -> st.2 = 0%N \/ st.2 = N -> E (e_step L st) f = 2%:R^-1 * f st.
Proof.
case: st => [[s d] n] [u dE p nE] b; simpl in u, dE, p, nE, b; rewrite /e_step flip_E clip_half one_half.
suff -> : E (unif (iota 0 n) (fun s_ind => unif (others s) (fun t =>
      Flip (det_ST L (set_nth t s s_ind t) / d) (fun acc =>
        Ret (if acc then (set_nth t s s_ind t, det_ST L (set_nth t s s_ind t), n) else (s, d, n)))))) f = 0.
  by rewrite mulr0 add0r.
have [e|n0] := posnP n; first by rewrite e unif_nil.
case: b => [e|nN]; first by rewrite e in n0.
rewrite unif_E size_iota // big1 ?mulr0 // => i _.
by rewrite others_full ?unif_nil // -nE.
Qed.

(** E on the empty set or on the whole ground set survives n iterations with probability 2^-n *)
Theorem C52_E_boundary s n : valid_state L s -> size s = 0%N \/ size s = N ->
  E (basis_exchange_sampler L s n.+1 None clock) (fun _ => 1) = 2%:R^-1 ^+ n.
Proof.
move=> v b; rewrite /basis_exchange_sampler [n.+1 == 0%N]/= [n.+1.-1]/= E_bind (eq_E _ (g := fun _ => 1)) //.
rewrite (@loop_last _ _ (e_step L) clock n 1 (init_state L s) [:: s] (fun _ => 1)) //.
have : good L (init_state L s) by exact: init_good.
move: b; rewrite -[size s]/((init_state L s).2); move: (init_state L s) => st b g.
elim: n => [|n IH]; first by rewrite expr0.
by rewrite [LHS](e_step_boundary (iterE (e_step L) n (fun=> 1)) g b) IH exprS.
Qed.

(** AED raises as soon as it tries to move from the whole ground set *)
Lemma aed_step_full st f : good L st -> st.2 = N -> E (aed_step L st) f = 0.
Proof.
case: st => [[s d] n] [u dE p nE] b; simpl in u, dE, p, nE, b; rewrite /aed_step others_full -?nE //.
set m := if _ then _ else _; have [->|m0] := posnP m; first by rewrite unif_nil.
rewrite unif_E size_iota // big1 ?mulr0 // => i _; exact: unif_nil.
Qed.

Theorem C52_AED_full s n : valid_state L s -> size s = N ->
  E (add_exchange_delete_sampler L s n.+2 None clock) (fun _ => 1) = 0.
Proof.
move=> v b; rewrite /add_exchange_delete_sampler [_.-1]/= mcmc_loopS E_bind.
by apply: aed_step_full => //; exact: init_good.
Qed.

(** and the whole ground set is reached with positive probability from any state that misses one item *)
Theorem C52_AED_crash_probability s t n : is_psd L -> valid_state L s -> t \notin s -> (size s).+1 = N -> 0 < pmS L setT ->
  E (add_exchange_delete_sampler L s n.+3 None clock) (fun _ => 1) <=
  1 - 2%:R^-1 * N%:R^-1 ^+ 2 * Num.min 1 (pmS L setT / pmS L (items s) * N%:R) /\
  0 < 2%:R^-1 * N%:R^-1 ^+ 2 * Num.min 1 (pmS L setT / pmS L (items s) * N%:R).
Proof.
move=> PL v ts sN dT; have [u d0] := v.
have N0 : (0 < N)%N by rewrite -sN.
have Nn : N%:R != 0 :> R by rewrite pnatr_eq0 -lt0n.
have full : t |: items s = setT.
  by apply/eqP; rewrite -(@subset_leqif_cards _ _ _ (subsetT _)) cardsU1 !inE ts card_items // add1n sN cardsT card_ord.
have addP := C13_add_probability_partial clock PL v (room u ts) ts.
have sub1 : (N - size s)%N = 1%N by rewrite -[X in (X - _)%N]sN subSn // subnn.
rewrite full sub1 sN divr1 in addP.
have rE : 1 - (size s)%:R / N%:R = N%:R^-1 :> R.
  have -> : (size s)%:R = N%:R - 1 :> R by rewrite -[X in _ = X%:R - 1]sN -addn1 natrD addrK.
  by rewrite mulrBl divff // opprB addrCA subrr addr0 mul1r.
rewrite rE divr1 in addP; rewrite -addP; split; last first.
  rewrite addP !mulr_gt0 ?invr_gt0 ?exprn_gt0 ?ltr0n // lt_minr ltr01 mulr_gt0 ?divr_gt0 //; by rewrite ltr0n.
rewrite /add_exchange_delete_sampler [_.-1]/= mcmc_loopS E_bind.
apply: (@le_trans _ _ (E (aed_step L (init_state L s)) (fun st' => 1 + -1 * (stS st' == setT)%:R))).
  pose F (st' : state R N) : R := E (bind (aed_step L st') (fun st'' => mcmc_loop (aed_step L) None clock n 3 st''
      (rcons (rcons [:: s] st'.1.1) st''.1.1))) (fun=> 1).
  rewrite (@eq_E_possible _ _ _ _ (fun st' => if stS st' == setT then 0 else F st')).
    apply: E_le => st'; case: ifP => _; first by rewrite mulr1 subrr.
    by rewrite mulr0 addr0; exact: E1_le1.
  move=> st' h; have g := aed_step_good (init_good v) h; case: ifP => // /eqP f.
  rewrite [LHS]E_bind aed_step_full //; case: g => u' _ _ ->; rewrite -card_items // -/(stS st') f cardsT card_ord //.
rewrite E_add E_scale mulN1r ler_add ?E1_le1 // ler_opp2.
rewrite /aed_reach /Pr /add_exchange_delete_sampler.
by rewrite (@loop_last _ _ (aed_step L) clock 1 1 (init_state L s) [:: s] (fun X => (X == setT)%:R)).
Qed.
End Crash.

(** Non-vacuity: L = I (every set is a valid state), on 3 items *)
Section Example.
Variable R : rcfType.
Lemma id_psd n : is_psd (1%:M : 'M[R]_n).
Proof.
split=> [|v]; first exact: trmx1.
by rewrite mulmx1 mxE sumr_ge0 // => i _; rewrite mxE -expr2 sqr_ge0.
Qed.
Lemma id_minor n (s : seq 'I_n) : uniq s -> pm (1%:M : 'M[R]_n) s = 1.
Proof.
move=> u; rewrite /pm -[RHS](det1 R (size s)); congr (\det _); apply/matrixP => a b; rewrite !mxE.
have -> // : (tnth (in_tuple s) a == tnth (in_tuple s) b) = (a == b).
have x0 : 'I_n by exact: tnth (in_tuple s) a.
by rewrite !(tnth_nth x0) nth_uniq.
Qed.
Lemma id_valid n (s : seq 'I_n) : uniq s -> valid_state (1%:M : 'M[R]_n) s.
Proof. by move=> u; split=> //; rewrite -pm_items // id_minor // ltr01. Qed.

Example C14_instance : is_psd (1%:M : 'M[R]_3) /\ valid_state (1%:M : 'M[R]_3) [:: 2%R; 0%R].
Proof. by split; [exact: id_psd|exact: id_valid]. Qed.
Example C52_instance : [/\ is_psd (1%:M : 'M[R]_3), valid_state (1%:M : 'M[R]_3) [:: 2%R; 0%R],
  (1 : 'I_3) \notin [:: 2%R; 0%R] & 0 < pmS (1%:M : 'M[R]_3) setT].
Proof. by split; [exact: id_psd|exact: id_valid| |rewrite /pmS id_minor ?enum_uniq // ltr01]. Qed.
(** a valid trial exists, so the initialisation succeeds with positive probability *)
Example C18_instance : (1 : R) != 0 /\ (fun _ : nat => 0 : R) 1%N - (fun _ : nat => 0 : R) 0%N < 1.
Proof. by rewrite oner_eq0 subrr ltr01. Qed.
End Example.

Print Assumptions C15_k_dpp_stationary.
Print Assumptions C52_AED_crash_probability.
Print Assumptions C19_AD_E_success_probability.
