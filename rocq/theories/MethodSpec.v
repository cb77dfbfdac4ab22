(** Networks, proximal operators and decentralised problems, stated without the
    definitions of the model except the constructors of a graph. *)
From Coq Require Import List Arith Reals.
From Verif Require Import Prelude Spec BuilderSpec MethodModel.
Import ListNotations.
Local Open Scope R_scope.

(** [g] was built by networkx from some nodes and the edges [es]; its nodes are
    exactly 1..n and no edge joins a node to itself.  Repeated edges and
    both orders of an edge are allowed. *)
Definition network (n : nat) (es : list (nat * nat)) (g : graph) : Prop :=
  exists nodes, g = mk_graph nodes es /\
  (forall u, (1 <= u <= n)%nat <-> (In u nodes \/ exists v, In (u, v) es \/ In (v, u) es)) /\
  (forall u v, In (u, v) es -> u <> v).
(** rows [j] and [l] (counted from 0) belong to nodes joined by an edge *)
Definition linked (es : list (nat * nat)) (j l : nat) : Prop := In (S j, S l) es \/ In (S l, S j) es.
Inductive reach (es : list (nat * nat)) : nat -> nat -> Prop :=
| reach_refl j : reach es j j
| reach_step j l m : linked es j l -> reach es l m -> reach es j m.
Definition connected (n : nat) (es : list (nat * nat)) : Prop :=
  forall j l, (j < n)%nat -> (l < n)%nat -> reach es j l.

(** the slot of neighbour [l] in the arrays of node [j] *)
Definition current (g : graph) (s : dstate) (j l : nat) : vec := st_i s j (index l (adj_of g j)).
Definition potential (g : graph) (s : dstate) (j l : nat) : vec := st_e s j (index l (adj_of g j)).

(** [x] minimises phi(y) + ||y - z||^2 / (2 rho) over R^d. *)
Definition is_prox (d : nat) (phi : rfun) (rho : R) (z x : vec) : Prop :=
  minimiser (mkFun (fun y => in_Rd d y /\ dom phi y) (fun y => val phi y + nsq d (vsub y z) / (2 * rho))) x.
(** [prox j] is the proximal operator of [phi j], for the nodes 0..n-1. *)
Definition prox_family (d n : nat) (phi : nat -> rfun) (prox : nat -> vec -> R -> vec) : Prop :=
  forall j z rho, (j < n)%nat -> in_Rd d z -> 0 < rho -> is_prox d (phi j) rho z (prox j z rho).

(** the sum of [n] functions on R^d *)
Definition sum_fun (d n : nat) (phi : nat -> rfun) : rfun :=
  mkFun (fun y => in_Rd d y /\ forall j, (j < n)%nat -> dom (phi j) y) (fun y => rsum n (fun j => val (phi j) y)).
(** [x] is optimal with subgradients [g j] that add up to 0 *)
Definition balanced_optimum (d n : nat) (phi : nat -> rfun) (x : vec) (g : nat -> vec) : Prop :=
  in_Rd d x /\ (forall j, (j < n)%nat -> in_Rd d (g j) /\ subgradient d (phi j) x (g j)) /\
  forall k, rsum n (fun j => g j k) = 0.

(** agreement of arrays on the entries that exist *)
Definition same_rows (n d : nat) (a b : nat -> vec) : Prop := forall j k, (j < n)%nat -> (k < d)%nat -> a j k = b j k.
Definition same_slots (n d : nat) (g : graph) (a b : nat -> nat -> vec) : Prop :=
  forall j l k, (j < n)%nat -> (l < deg_of g j)%nat -> (k < d)%nat -> a j l k = b j l k.

(** mixing matrices *)
Definition symmetric (n : nat) (W : nat -> nat -> R) : Prop := forall i j, (i < n)%nat -> (j < n)%nat -> W i j = W j i.
Definition row_stochastic (n : nat) (W : nat -> nat -> R) : Prop := forall i, (i < n)%nat -> rsum n (W i) = 1.
Definition nonneg_entries (n : nat) (W : nat -> nat -> R) : Prop := forall i j, (i < n)%nat -> (j < n)%nat -> 0 <= W i j.
(** positive exactly on the edges, off the diagonal *)
Definition supported (n : nat) (es : list (nat * nat)) (W : nat -> nat -> R) : Prop :=
  forall i j, (i < n)%nat -> (j < n)%nat -> i <> j -> (linked es i j -> 0 < W i j) /\ (~ linked es i j -> W i j = 0).

(** What holds on every edge of a circuit between iterations: vectors of R^d,
    one potential per edge, and Kirchhoff's current law at the middle of each
    edge without a capacitor. *)
Definition consistent (d : nat) (es : list (nat * nat)) (g : graph) (a : dalg) (s : dstate) : Prop :=
  forall j l, linked es j l ->
    in_Rd d (current g s j l) /\ in_Rd d (potential g s j l) /\
    (forall k, potential g s j l k = potential g s l j k) /\
    (cap_edge a j l = false -> forall k, current g s j l k + current g s l j k = 0).
(** the iteration does not change the currents and the potentials *)
Definition fixed_point (n d : nat) (g : graph) (a : dalg) (step : R) (prox : nat -> vec -> R -> vec) (s : dstate) : Prop :=
  same_slots n d g (st_i (dadmm_step a step g prox s)) (st_i s) /\
  same_slots n d g (st_e (dadmm_step a step g prox s)) (st_e s).

(** f + h *)
Definition add_fun (f h : rfun) : rfun := mkFun (fun y => dom f y /\ dom h y) (fun y => val f y + val h y).
(** [gradh j] answers gradients of the convex function [h j] on R^d. *)
Definition grad_family (d n : nat) (h : nat -> rfun) (gradh : nat -> vec -> vec) : Prop :=
  forall j x, (j < n)%nat -> in_Rd d x -> in_Rd d (gradh j x) /\ subgradient d (h j) x (gradh j x).
(** rows of [x] in R^d, and rows of [w] in R^d that add up to 0 *)
Definition zero_sum (n d : nat) (s : pstate) : Prop :=
  (forall j, (j < n)%nat -> in_Rd d (p_x s j) /\ in_Rd d (p_w s j)) /\ forall k, rsum n (fun j => p_w s j k) = 0.
Definition pg_fixed (n d : nat) (rho : R) (W : nat -> nat -> R) (prox : nat -> vec -> R -> vec) (gradh : nat -> vec -> vec) (s : pstate) : Prop :=
  same_rows n d (p_x (pg_step n rho W prox gradh s)) (p_x s) /\ same_rows n d (p_w (pg_step n rho W prox gradh s)) (p_w s).
(** [x] is optimal for the sum of f_j + h_j, with subgradients of the f_j. *)
Definition composite_optimum (d n : nat) (f : nat -> rfun) (gradh : nat -> vec -> vec) (x : vec) (g : nat -> vec) : Prop :=
  in_Rd d x /\ (forall j, (j < n)%nat -> in_Rd d (g j) /\ subgradient d (f j) x (g j)) /\
  forall k, rsum n (fun j => g j k + gradh j x k) = 0.
(** the quadratic form of a matrix *)
Definition quad_form (n : nat) (M : nat -> nat -> R) (t : nat -> R) : R := rsum n (fun i => rsum n (fun j => M i j * (t i * t j))).
