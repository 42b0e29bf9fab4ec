(** * P_FiniteHist: property C20 (history of samples of a FiniteDPP object). *)
From Coq Require Import String.
From mathcomp Require Import all_ssreflect all_algebra.
From Verif Require Import Prob UtilsModel ExactModel McmcModel FiniteModel Finite.
Set Implicit Arguments. Unset Strict Implicit. Unset Printing Implicit Defensive.
Import Order.Theory GRing.Theory Num.Theory.
Local Open Scope ring_scope.

Ltac mstep :=
  match goal with
  | |- mwp (mbind _ _) _ _ => apply: mwp_bind
  | |- mwp (modify _) _ _ => apply: mwp_modify
  | |- mwp (@get _ _ _ _) _ _ => apply: mwp_get
  | |- mwp (mret _) _ _ => apply: mwp_ret
  | |- mwp (mraise _ _) _ _ => apply: mwp_raise
  | |- mwp (lift _) _ _ => apply: mwp_lift; let po := fresh "po" in move=> [?|?] po
  | |- mwp (need _) _ _ => let en := fresh "en" in apply: mwp_need => [? en|en]
  | |- mwp (check _) _ _ => let ec := fresh "ec" in apply: mwp_check => [? ec|?]
  | |- mwp (to_L_eig _) _ _ => rewrite /to_L_eig
  | |- mwp (if ?b then _ else _) _ _ => let eb := fresh "eb" in case eb: b
  | |- mwp (match ?b with Some _ => _ | None => _ end) _ _ => let eb := fresh "eb" in case eb: b => [?|]
  end.

Section History.
Variables (R : rcfType) (N : nat) (vrest arest vparams : Type).
Notation dpp := (dpp R N vrest arest).
Notation item := 'I_N.
(** the intermediate samplers, the linear algebra routines and the zonotope sampler are arbitrary *)
Variable vfx_pre : vparams -> option nat -> prog R (vfx_info R vrest).
Variable vfx_loop : vparams -> vfx_info R vrest -> prog R (seq item * nat).
Variable al_pre : vparams -> option nat -> prog R (alpha_info R arest).
Variable al_loop : vparams -> alpha_info R arest -> prog R (seq item * nat * alpha_info R arest).
Variable al_reset : R -> arest -> arest.
Variables (max_iter : vparams -> nat) (early : vparams -> bool).
Variable eigh : forall n : nat, 'M[R]_n -> seq R * seq 'cV[R]_n.
Variable qr : forall r : nat, 'M[R]_(N, r) -> 'M[R]_(N, r).
Variables (eps tol : R) (limit : nat).
Variable zono : {d : nat & 'M[R]_(d, N)} -> mcmc_params R N -> prog R (seq (seq nat)).

Notation sample_exact := (@sample_exact R N vrest arest vparams vfx_pre vfx_loop al_pre al_loop eigh qr limit).
Notation sample_exact_rec := (@sample_exact_rec R N vrest arest vparams vfx_pre vfx_loop al_pre al_loop eigh qr limit).
Notation sample_exact_k_dpp_rec := (@sample_exact_k_dpp_rec R N vrest arest vparams vfx_pre vfx_loop al_pre al_loop al_reset max_iter early eigh qr eps limit).
Notation sample_exact_k_dpp := (@sample_exact_k_dpp R N vrest arest vparams vfx_pre vfx_loop al_pre al_loop al_reset max_iter early eigh qr eps limit).
Notation sample_mcmc := (@sample_mcmc R N vrest arest eigh qr tol limit zono).
Notation sample_mcmc_k_dpp := (@sample_mcmc_k_dpp R N vrest arest eigh qr tol limit zono).
Notation exec := (@exec R N vrest arest vparams vfx_pre vfx_loop al_pre al_loop al_reset max_iter early eigh qr eps tol limit zono).
Notation run := (@run R N vrest arest vparams vfx_pre vfx_loop al_pre al_loop al_reset max_iter early eigh qr eps tol limit zono).

Lemma compute_list b f s : mwp (@compute R N vrest arest eigh qr b f) s (fun s' _ => list_of_samples s' = list_of_samples s).
Proof.
elim: f b s => [|f IH] b s /=; first by mstep.
have use b' (s1 : dpp) : list_of_samples s1 = list_of_samples s ->
    mwp (compute eigh qr b' f) s1 (fun s' _ => list_of_samples s' = list_of_samples s).
  by move=> <-; exact: IH.
case: b; repeat ((apply: use => //) || (apply: mwp_imp (use _ _ _) => // s' [a|e] //= es) || (mstep => //=)).
Qed.

Definition logs (mk : seq nat -> entry) (s s' : dpp) (r : seq nat + exn) : Prop :=
  list_of_samples s' = if r is inl x then rcons (list_of_samples s) (mk x) else list_of_samples s.

Lemma exact_logs f mode pr s : mwp (sample_exact_rec f mode pr) s (logs Sample s).
Proof.
elim: f s => [|f IH] s /=; first by mstep.
have use (s1 : dpp) : list_of_samples s1 = list_of_samples s -> mwp (sample_exact_rec f mode pr) s1 (logs Sample s).
  by rewrite /logs => <-; exact: IH.
have rec x (s1 : dpp) : list_of_samples s1 = list_of_samples s -> mwp (@record_sample R N vrest arest x) s1 (logs Sample s).
  by move=> e; apply: holds_ret; rewrite /logs /= e.
have cmp b (s1 : dpp) : list_of_samples s1 = list_of_samples s ->
   mwp (compute eigh qr b limit) s1 (fun s' _ => list_of_samples s' = list_of_samples s).
  by move=> <-; exact: compute_list.
rewrite -/sample_exact_rec.
repeat ((apply: use => //) || (apply: rec => //) || (apply: mwp_imp (cmp _ _ _) => // ? [?|?] ? //) || rewrite /record_info || (mstep => //=)).
Qed.

Lemma k_dpp_logs f k mode pr s : mwp (sample_exact_k_dpp_rec f k mode pr) s (logs Sample s).
Proof.
elim: f s => [|f IH] s /=; first by mstep.
have use (s1 : dpp) : list_of_samples s1 = list_of_samples s -> mwp (sample_exact_k_dpp_rec f k mode pr) s1 (logs Sample s).
  by rewrite /logs => <-; exact: IH.
have rec x (s1 : dpp) : list_of_samples s1 = list_of_samples s -> mwp (@record_sample R N vrest arest x) s1 (logs Sample s).
  by move=> e; apply: holds_ret; rewrite /logs /= e.
have cmp b (s1 : dpp) : list_of_samples s1 = list_of_samples s ->
   mwp (compute eigh qr b limit) s1 (fun s' _ => list_of_samples s' = list_of_samples s).
  by move=> <-; exact: compute_list.
repeat ((apply: use => //) || (apply: rec => //) || (apply: mwp_imp (cmp _ _ _) => // ? [?|?] ? //) || rewrite /record_info || (mstep => //=)).
Qed.

(** the last state of a chain: the value returned to the caller of sample_mcmc *)
Definition shown (e : entry) : seq nat := match e with Sample x => x | Chain c => last [::] c end.

Definition logs_chain (s s' : dpp) (r : seq nat + exn) : Prop :=
  match r with
  | inl x => exists2 c, list_of_samples s' = rcons (list_of_samples s) (Chain c) & (c != [::]) && (last [::] c == x)
  | inr _ => list_of_samples s' = list_of_samples s
  end.

(** a chain always contains its initial state *)
Hypothesis zono_nonempty : forall A p, ~ possible (zono A p) (inl [::]).

Lemma loop_nonempty (step : state R N -> prog R (state R N)) T_max clock n it st (chain ch : seq (seq item)) : chain != [::] ->
  possible (mcmc_loop step T_max clock n it st chain) (inl ch) -> ch != [::].
Proof.
elim: n it st chain => [|n IH] it st chain nz /=; first by case=> ->.
move=> h; have [st' _ h'] := Spectral.bind_possible h.
have nz' : rcons chain st'.1.1 != [::] by case: (chain).
by move: h'; case: ifP => _; [case=> ->|exact: IH].
Qed.

Lemma dpp_mcmc_nonempty M mode p ch :
  possible (@dpp_sampler_mcmc R N tol M mode (p_init p) (p_nb_iter p) (p_T_max p) (p_size p) (p_clock p)) (inl ch) ->
  ch != [::].
Proof.
rewrite /dpp_sampler_mcmc; case: ifP => _; [|case: ifP => _; [|case: ifP => _ //]].
- move=> h; have [S0 _ h1] := Spectral.bind_possible h; have [c hc [->]] := Spectral.bind_possible h1.
  by have := loop_nonempty _ hc; rewrite -size_eq0 => /(_ isT); case: (c).
- move=> h; have [S0 _ h1] := Spectral.bind_possible h; have [c hc [->]] := Spectral.bind_possible h1.
  by have := loop_nonempty _ hc; rewrite -size_eq0 => /(_ isT); case: (c).
move=> h; have [S0 _] := Spectral.bind_possible h; rewrite /basis_exchange_sampler.
case: eqP => // _ h1; have [c hc [->]] := Spectral.bind_possible h1.
by have := loop_nonempty _ hc; rewrite -size_eq0 => /(_ isT); case: (c).
Qed.

Lemma mcmc_logs mode p s : mwp (sample_mcmc mode p) s (logs_chain s).
Proof.
have rec c (s1 : dpp) : list_of_samples s1 = list_of_samples s -> c != [::] ->
    mwp (@record_chain R N vrest arest c) s1 (logs_chain s).
  by move=> e nz; apply: holds_ret; case: c nz => //= x c _; exists (x :: c); rewrite ?e //=.
have cmp b (s1 : dpp) : list_of_samples s1 = list_of_samples s ->
   mwp (compute eigh qr b limit) s1 (fun s' _ => list_of_samples s' = list_of_samples s).
  by move=> <-; exact: compute_list.
have run_ M (s1 : dpp) : list_of_samples s1 = list_of_samples s ->
  mwp (mbind (lift (@dpp_sampler_mcmc R N tol M mode (p_init p) (p_nb_iter p) (p_T_max p) (p_size p) (p_clock p)))
             (@record_chain R N vrest arest)) s1 (logs_chain s).
  move=> e; apply: mwp_bind; apply: mwp_lift => -[c|e'] po //; apply: rec => //; exact: dpp_mcmc_nonempty po.
rewrite /sample_mcmc.
repeat ((apply: run_ => //) || (apply: mwp_imp (cmp _ _ _) => // ? [?|?] ? //) || (mstep => //=)).
by apply: rec => //; apply/eqP => e; move: po; rewrite e; exact: zono_nonempty.
Qed.

(** C20.  One call, in any state, whatever the outcome of the draws:
    - exact samplers: success appends the returned sample, failure appends nothing;
    - MCMC samplers: success appends the chain whose last state is returned, failure appends nothing;
    - computing a kernel leaves the history unchanged, flushing empties it. *)
Theorem C20_sample_exact mode pr s s' r : possible (sample_exact mode pr s) (inl (s', r)) ->
  list_of_samples s' = if r is inl x then rcons (list_of_samples s) (Sample x) else list_of_samples s.
Proof. by move=> h; exact: (possible_mwp (@exact_logs _ _ _ _) h). Qed.

Theorem C20_sample_exact_k_dpp k mode pr s s' r : possible (sample_exact_k_dpp k mode pr s) (inl (s', r)) ->
  list_of_samples s' = if r is inl x then rcons (list_of_samples s) (Sample x) else list_of_samples s.
Proof. by move=> h; exact: (possible_mwp (@k_dpp_logs _ _ _ _ _) h). Qed.

Theorem C20_sample_mcmc mode p s s' r : possible (sample_mcmc mode p s) (inl (s', r)) ->
  match r with
  | inl x => exists2 c, list_of_samples s' = rcons (list_of_samples s) (Chain c) & (c != [::]) && (last [::] c == x)
  | inr _ => list_of_samples s' = list_of_samples s
  end.
Proof. by move=> h; exact: (possible_mwp (@mcmc_logs _ _ _) h). Qed.

Lemma mcmc_k_logs k p s : mwp (sample_mcmc_k_dpp k p) s (logs_chain s).
Proof.
rewrite /sample_mcmc_k_dpp; apply: mwp_bind; apply: mwp_modify.
exact: mwp_imp (@mcmc_logs _ _ _) => s' r.
Qed.

Theorem C20_sample_mcmc_k_dpp k p s s' r : possible (sample_mcmc_k_dpp k p s) (inl (s', r)) ->
  match r with
  | inl x => exists2 c, list_of_samples s' = rcons (list_of_samples s) (Chain c) & (c != [::]) && (last [::] c == x)
  | inr _ => list_of_samples s' = list_of_samples s
  end.
Proof. by move=> h; exact: (possible_mwp (@mcmc_k_logs _ _ _) h). Qed.

(** The history predicted from the results of the calls. *)
Fixpoint expected (acc : seq (seq nat)) (cs : seq (call R N vparams)) (rs : seq (option (seq nat) + exn)) :=
  match cs, rs with
  | FlushSamples :: cs', _ :: rs' => expected [::] cs' rs'
  | _ :: cs', inl (Some x) :: rs' => expected (rcons acc x) cs' rs'
  | _ :: cs', _ :: rs' => expected acc cs' rs'
  | _, _ => acc
  end.

Lemma exec_logs c s : mwp (exec c) s (fun s' r =>
  [seq shown e | e <- list_of_samples s'] = expected [seq shown e | e <- list_of_samples s] [:: c] [:: r]).
Proof.
case: c => [mode pr|k mode pr|mode p|k p| | |] /=; apply: mwp_bind.
- by apply: mwp_imp (@exact_logs _ _ _ _) => s' [x|e] es; rewrite /logs in es; [apply: mwp_ret|]; rewrite es ?map_rcons.
- by apply: mwp_imp (@k_dpp_logs _ _ _ _ _) => s' [x|e] es; rewrite /logs in es; [apply: mwp_ret|]; rewrite es ?map_rcons.
- apply: mwp_imp (@mcmc_logs _ _ _) => s' [x|e] /= es; last by rewrite es.
  by case: es => c es /andP[_ /eqP ec]; apply: mwp_ret; rewrite es map_rcons /= ec.
- apply: mwp_imp (@mcmc_k_logs _ _ _) => s' [x|e] /= es; last by rewrite es.
  by case: es => c es /andP[_ /eqP ec]; apply: mwp_ret; rewrite es map_rcons /= ec.
- by apply: mwp_modify; apply: mwp_ret.
- by apply: mwp_imp (@compute_list _ _ _) => s' [x|e] es; [apply: mwp_ret|]; rewrite /= es.
- by apply: mwp_imp (@compute_list _ _ _) => s' [x|e] es; [apply: mwp_ret|]; rewrite /= es.
Qed.

(** Any sequence of calls, each of which may succeed or fail. *)
Theorem C20_history cs s s' rs : possible (run cs s) (inl (s', rs)) ->
  size rs = size cs /\
  [seq shown e | e <- list_of_samples s'] = expected [seq shown e | e <- list_of_samples s] cs rs.
Proof.
elim: cs s s' rs => [|c cs IH] s s' rs /=; first by case=> -> ->.
move=> h; have [[s1 r] p1 h1] := Spectral.bind_possible h.
have [[s2 rs2] p2 [-> ->]] := Spectral.bind_possible h1.
have [sz e2] := IH _ _ _ p2; split; first by rewrite /= sz.
have /= e1 := possible_mwp (@exec_logs c s) p1.
rewrite e2 e1; by case: c {e1 p1 h1 h} => [mode pr|k mode pr|mode p|k p| | |]; case: (r) => [[x|]|e].
Qed.

(** no call ever escapes with an exception that would lose the object: the run always reaches a final object *)
Theorem C20_run_returns cs s e : ~ possible (run cs s) (inr e).
Proof.
elim: cs s => [|c cs IH] s //= h.
case: (possible_bind_raise h) => [h1|[[s1 r] p1 h1]]; first by case: (@exec_logs c s _ h1).
by case: (possible_bind_raise h1) => [h2|[[s2 rs2] p2 //]]; case: (IH _ h2).
Qed.

Theorem C20_run_total cs s : total (run cs s).
Proof. by apply: no_raise_total => e; exact: C20_run_returns. Qed.
End History.
