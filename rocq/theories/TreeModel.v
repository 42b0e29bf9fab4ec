(** * TreeModel: uniform spanning trees.
    dppy/exotic_dpps_core.py: ust_sampler_wilson (l.37-98), ust_sampler_aldous_broder (l.101-139);
    dppy/exotic_dpps.py: UST (l.450-623).

    A networkx graph whose nodes are 0, ..., n (as the samplers require, they index a list of neighbours by nodes) is given
    by the list [edges] of its edges and by [neighbors], the lists of neighbours.  A returned graph is the list of the
    edges passed to add_edges_from (l.96, l.137; UST.sample l.575, l.585): networkx stores the set of unordered pairs. *)
From Coq Require Import String.
From mathcomp Require Import all_ssreflect all_algebra.
From Verif Require Import Prob ExactModel McmcModel.
Set Implicit Arguments. Unset Strict Implicit. Unset Printing Implicit Defensive.
Import Order.Theory GRing.Theory Num.Theory.
Local Open Scope ring_scope.

Section Samplers.
Variables (R : rcfType) (n : nat).
Notation node := 'I_n.+1.
Variable list_of_neighbors : node -> seq node.
Notation prog := (prog R).

(** -1, 0, 1 (l.52) *)
Inductive status := NotVisited | InPath | InTree.
Definition is_nv s := if s is NotVisited then true else false.
Definition is_ip s := if s is InPath then true else false.
Definition is_it s := if s is InTree then true else false.

(** n0 = root if root else rng.choice(nb_nodes) (l.51, l.115): root = 0 is falsy *)
Definition choose_root (root : option node) : prog node :=
  if root is Some r then (if val r == 0%N then unif (enum 'I_n.+1) (fun v => Ret v) else Ret r)
  else unif (enum 'I_n.+1) (fun v => Ret v).

(** state of the while loop of Wilson's algorithm (l.51-57) *)
Record wst := WSt { w_n0 : node; w_state : node -> status; w_nb : nat; w_path : seq node; w_branches : seq (seq node) }.

(** state[idx] = s for a list of indices *)
Definition set_all (f : node -> status) (idx : seq node) (s : status) : node -> status :=
  fun v => if v \in idx then s else f v.

Definition wilson_init (r : node) : wst :=
  WSt r (fun v => if v == r then InTree else NotVisited) 1 [::] [::].                    (* l.53-57 *)

(** the body of the loop (l.61-91), after n1 was drawn *)
Definition wilson_body (st : wst) (n1 : node) : prog wst :=
  let st1 := if is_nv (w_state st n1) then                                                 (* l.64 *)
               WSt n1 (set_all (w_state st) [:: n1] InPath) (w_nb st) (rcons (w_path st) n1) (w_branches st)   (* l.66-68 *)
             else st in
  let path := w_path st1 in
  if is_ip (w_state st1 n1) then                                                           (* l.70 *)
    let knot := index n1 path in                                                           (* l.72 *)
    let nodes_loop := drop knot.+1 path in                                                 (* l.73 *)
    Ret (WSt n1 (set_all (w_state st1) nodes_loop NotVisited) (w_nb st1) (take knot.+1 path) (w_branches st1))  (* l.74-76 *)
  else if is_it (w_state st1 n1) then                                                      (* l.78 *)
    let branches := rcons (w_branches st1) (if w_nb st1 == 1%N then n1 :: path else rcons path n1) in           (* l.80-83 *)
    let state := set_all (w_state st1) path InTree in                                      (* l.85 *)
    let nb := (w_nb st1 + size path)%N in                                                  (* l.86 *)
    let nodes_not_visited := [seq v <- enum 'I_n.+1 | is_nv (state v)] in                  (* l.89 *)
    if nodes_not_visited is [::] then Ret (WSt (w_n0 st1) state nb path branches)          (* l.90 *)
    else unif nodes_not_visited (fun n0 => Ret (WSt n0 state nb [:: n0] branches))         (* l.91-92 *)
  else Ret st1.

Definition wilson_step (st : wst) : prog wst := unif (list_of_neighbors (w_n0 st)) (wilson_body st).   (* l.62 *)

(** the edges of the branches: zip(x[:-1], x[1:]) (l.94-96) *)
Definition branch_edges (b : seq node) : seq (node * node) := zip (take (size b).-1 b) (behead b).
Definition tree_edges (branches : seq (seq node)) : seq (node * node) := flatten [seq branch_edges b | b <- branches].

(** the while loop (l.59-92), at most [fuel] iterations; None: still running *)
Fixpoint wilson_loop (fuel : nat) (st : wst) : prog (option (seq (node * node))) :=
  if (w_nb st < n.+1)%N then
    if fuel is f.+1 then bind (wilson_step st) (wilson_loop f) else Ret None
  else Ret (Some (tree_edges (w_branches st))).
Definition ust_sampler_wilson (fuel : nat) (root : option node) : prog (option (seq (node * node))) :=
  bind (choose_root root) (fun r => wilson_loop fuel (wilson_init r)).

(** the while loop of Aldous-Broder (l.122-135); [es]: the rows of tree_edges that were written, in order *)
Fixpoint ab_loop (fuel : nat) (n0 : node) (visited : node -> bool) (nb : nat) (es : seq (node * node))
  : prog (option (seq (node * node))) :=
  if (nb < n.+1)%N then
    if fuel is f.+1 then
      unif (list_of_neighbors n0) (fun n1 =>                                               (* l.125 *)
        if visited n1 then ab_loop f n1 visited nb es                                      (* l.127-128, l.134 *)
        else ab_loop f n1 (fun v => (v == n1) || visited v) nb.+1 (rcons es (n0, n1)))     (* l.130-134 *)
    else Ret None
  else Ret (Some es).
Definition ust_sampler_aldous_broder (fuel : nat) (root : option node) : prog (option (seq (node * node))) :=
  bind (choose_root root) (fun r => ab_loop fuel r (fun v => v == r) 1 [::]).
End Samplers.

(** ** the class UST *)
Section Ust.
Variables (R : rcfType) (n m : nat).
Notation node := 'I_n.+1.
Variables (edges : 'I_m -> node * node) (neighbors : node -> seq node).
Variable qr : forall r : nat, 'M[R]_(m, r) -> 'M[R]_(m, r).     (* scipy.linalg.qr(., mode='economic')[0] *)
Notation prog := (prog R).

(** networkx.incidence_matrix(graph, oriented=True): a column per edge, -1 at its first node, +1 at the second; zero for a
    self-loop *)
Definition incidence_matrix : 'M[R]_(n.+1, m) :=
  \matrix_(v, e) (if (edges e).1 == (edges e).2 then 0 else if v == (edges e).1 then -1 else if v == (edges e).2 then 1 else 0).

(** attributes kernel, kernel_eig_vecs, list_of_samples *)
Record ust := UST { kernel : option 'M[R]_m; kernel_eig_vecs : option 'M[R]_(m, n); list_of_samples : seq (seq (node * node)) }.
Definition ust_init : ust := UST None None [::].                                           (* l.495-498 *)

(** compute_kernel_eig_vecs (l.613-623) *)
Definition eig_vecs_value : 'M[R]_(m, n) :=
  let A := \matrix_(i < n, e < m) incidence_matrix (widen_ord (leqnSn n) i) e in           (* inc_mat[:-1, :], l.621 *)
  qr A^T.                                                                                  (* l.623 *)
Definition compute_kernel_eig_vecs (s : ust) : ust :=
  if kernel_eig_vecs s is None then UST (kernel s) (Some eig_vecs_value) (list_of_samples s) else s.
(** compute_kernel (l.596-611) *)
Definition compute_kernel (s : ust) : ust :=
  if kernel s is None then
    let s' := compute_kernel_eig_vecs s in
    if kernel_eig_vecs s' is Some U then UST (Some (U *m U^T)) (Some U) (list_of_samples s') else s'
  else s.

Definition append_sample (s : ust) (g : seq (node * node)) : ust :=
  UST (kernel s) (kernel_eig_vecs s) (rcons (list_of_samples s) g).                        (* l.594 *)
Definition edges_of (X : seq nat) : seq (node * node) :=                                   (* l.575, l.585 *)
  [seq edges e | e <- pmap insub X].

(** sample (l.520-594); the argument root is not used.  None: a Markov chain mode is still running after [fuel] steps *)
Definition ust_sample (fuel : nat) (mode : string) (s : ust) : prog (option ust) :=
  if String.eqb mode "Wilson" then
    bind (ust_sampler_wilson R neighbors fuel None) (fun r => Ret (omap (append_sample s) r))          (* l.559-561 *)
  else if String.eqb mode "Aldous-Broder" then
    bind (ust_sampler_aldous_broder R neighbors fuel None) (fun r => Ret (omap (append_sample s) r))   (* l.563-565 *)
  else if String.eqb mode "GS" then
    let s1 := compute_kernel_eig_vecs s in                                                 (* l.569 *)
    if kernel_eig_vecs s1 is Some U then
      bind (proj_dpp_sampler_eig qr U mode None) (fun X => Ret (Some (append_sample s1 [seq edges e | e <- X])))   (* l.570-575 *)
    else Raise AttributeError
  else if String.eqb mode "Schur" || String.eqb mode "Chol" then
    let s1 := compute_kernel s in                                                          (* l.579 *)
    if kernel s1 is Some K then
      bind (proj_dpp_sampler_kernel K mode None) (fun X => Ret (Some (append_sample s1 (edges_of X))))            (* l.580-585 *)
    else Raise AttributeError
  else Raise TypeError.                                                                    (* l.588: '\n'.join of three strings *)
End Ust.
