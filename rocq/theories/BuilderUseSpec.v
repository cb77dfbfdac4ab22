(** What a solved builder problem says about the method: trajectories of any
    length, and the currents of the builders with n functions.  As in
    BuilderSpec, nothing here mentions an object of the model. *)
From Coq Require Import List Reals QArith Qreals.
From Verif Require Import Prelude Spec FunctionModel BuilderSpec.
Import ListNotations.
Local Open Scope R_scope.
Local Open Scope vec_scope.

(** [x 0], [x 1], ... is a run of the two-stage method of
    [gradient_flow_circuit] on [phi], with the oracle's answers [y k], [f k];
    [xs] is a minimiser with value [fs]. *)
Definition gradient_flow_trajectory (d : nat) (mu : Q) (L : extq) (C h alpha beta : R)
  (phi : rfun) (xs : vec) (fs : R) (x y : nat -> vec) (f : nat -> R) : Prop :=
  function_class d mu L phi /\ in_Rd d xs /\ query d phi xs vzero fs /\ in_Rd d (x 0%nat) /\
  forall k, query d phi (x k) (y k) (f k) /\
    exists y15 f15, query d phi (x k -' (alpha * h / C) *' y k) y15 f15 /\
      x (S k) = x k -' (beta * h / C) *' y k -' ((1 - beta) * h / C) *' y15.

(** A run of primal decomposition on the functions [phis]; [y k] are the
    subgradients of the single functions at the common point [z k]. *)
Definition primal_trajectory (d n : nat) (mu : Q) (L : extq) (C h alpha beta : R)
  (phis : list rfun) (xs : vec) (fs : R) (z : nat -> vec) (y : nat -> list vec) : Prop :=
  List.length phis = n /\ Forall (function_class d mu L) phis /\ optimal d phis xs fs /\ in_Rd d (z 0%nat) /\
  forall k, exists f1, queries d (z k) phis (y k) f1 /\
    exists y15 f15, queries d (z k -' (alpha * h / C) *' vsum (y k)) phis y15 f15 /\
      z (S k) = z k -' (beta * h / C) *' vsum (y k) -' ((1 - beta) * h / C) *' vsum y15.

(** A run of the method derived in the README: [z] and [w] are the states, [x k] the
    result of the prox of [phi], [y k] the current into it. *)
Definition readme_trajectory (d : nat) (mu : Q) (L : extq) (Rs C h : R)
  (phi : rfun) (xs : vec) (fs : R) (z w x y : nat -> vec) : Prop :=
  function_class d mu L phi /\ in_Rd d xs /\ query d phi xs vzero fs /\ in_Rd d (z 0%nat) /\ in_Rd d (w 0%nat) /\
  forall k, (exists g f, proxed d phi (Rs / 2) (z k) (x k) g f) /\ y k = (2 / Rs) *' (z k -' x k) /\
    w (S k) = w k -' (h / (2 * Rs * C)) *' (Rs *' y k +' 3 *' w k) /\
    z (S k) = z k -' (h / (4 * Rs * C)) *' ((5 * Rs) *' y k +' 3 *' w k).

(** The runs of BuilderSpec with the currents of the three stages named. *)
Definition dual_decomposition_step (d n : nat) (mu : Q) (L : extq) (Ind h alpha beta eta : R) (i1 i15 i2 : list vec) (q : R) : Prop :=
  exists phis, List.length phis = n /\ Forall (function_class d mu L) phis /\
  exists xs fs, optimal d phis xs fs /\
  exists ys zs, queries d xs phis ys zs /\
  balanced d n i1 /\
  exists x1, conjs d phis i1 x1 /\
  let z1 := (/ INR n) *' vsum x1 in
  i15 = map2 (fun i x => i +' (alpha * h / Ind) *' (z1 -' x)) i1 x1 /\
  exists x15, conjs d phis i15 x15 /\
  let z15 := (/ INR n) *' vsum x15 in
  i2 = map3 (fun i x x' => i +' (beta * h / Ind) *' (z1 -' x) +' ((1 - beta) * h / Ind) *' (z15 -' x')) i1 x1 x15 /\
  let E1 := rsuml (map2 (fun i y => Ind / 2 * nsq d (i -' y)) i1 ys) in
  let E2 := rsuml (map2 (fun i y => Ind / 2 * nsq d (i -' y)) i2 ys) in
  let Delta := rsuml (map3 (fun i x y => eta * dot d (x -' xs) (i -' y)) i1 x1 ys) in
  q = E2 - (E1 - Delta).

Definition admm_consensus_step (d n : nat) (mu : Q) (L : extq) (Rs Ind h alpha beta eta rho gamma : R) (i1 i15 i2 : list vec) (q : R) : Prop :=
  exists phis, List.length phis = n /\ Forall (function_class d mu L) phis /\
  exists xs fs, optimal d phis xs fs /\
  exists ys zs, queries d xs phis ys zs /\ vsum ys = vzero /\
  exists e1, in_Rd d e1 /\
  balanced d n i1 /\
  let z1 := map (fun i => Rs *' i +' e1) i1 in
  exists x15 g15 f15, proxes d Rs phis z1 x15 g15 f15 /\
  let sx := vsum x15 in
  i15 = map2 (fun i x => i +' (alpha * h / Ind) *' (sx -' x)) i1 x15 /\
  let e15 := (/ INR n) *' sx in
  let z15 := map (fun i => Rs *' i +' e15) i15 in
  exists x2 g2 f2, proxes d Rs phis z15 x2 g2 f2 /\
  let e2 := (/ INR n) *' vsum x2 in
  i2 = map3 (fun i x x' => i +' (beta * h / Ind) *' (e15 -' x) +' ((1 - beta) * h / Ind) *' (e2 -' x')) i1 x15 x2 /\
  let E1 := gamma * nsq d (e1 -' xs) + rsuml (map2 (fun i y => Ind / 2 * nsq d (i -' y)) i1 ys) in
  let E2 := gamma * nsq d (e2 -' xs) + rsuml (map2 (fun i y => Ind / 2 * nsq d (i -' y)) i2 ys) in
  let Delta := - eta * fs + rsuml (map5 (fun x g f i y => rho * Rs * nsq d (g -' i) + eta * (f - dot d y (x -' xs))) x2 g2 f2 i2 ys) in
  q = E2 - (E1 - Delta).

Definition admm_euler_step (d n : nat) (mu : Q) (L : extq) (Rs Ind h eta rho : R) (i1 i2 : list vec) (q : R) : Prop :=
  exists phis, List.length phis = n /\ Forall (function_class d mu L) phis /\
  exists xs fs, optimal d phis xs fs /\
  exists ys zs, queries d xs phis ys zs /\ vsum ys = vzero /\
  exists e1, in_Rd d e1 /\
  balanced d n i1 /\
  let z1 := map (fun i => Rs *' i +' e1) i1 in
  exists x1 g1 f1, proxes d Rs phis z1 x1 g1 f1 /\
  let sx := vsum x1 in
  i2 = map2 (fun i x => i +' (h / Ind) *' (e1 -' x)) i1 x1 /\
  let ax := (/ INR n) *' sx in
  e1 = ax /\
  let E1 := rsuml (map2 (fun i y => Ind / 2 * nsq d (i -' y)) i1 ys) in
  let E2 := rsuml (map2 (fun i y => Ind / 2 * nsq d (i -' y)) i2 ys) in
  let Delta := - eta * fs + rsuml (map5 (fun x g f i y => rho * Rs * nsq d (g -' i) + eta * (f - dot d y (x -' xs))) x1 g1 f1 i1 ys) in
  q = E2 - (E1 - Delta).
