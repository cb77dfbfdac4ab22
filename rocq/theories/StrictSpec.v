(** Vocabulary for strictly feasible data of the builders: quadratics and the
    points at which a method evaluates them. *)
From Coq Require Import List String QArith Reals Qreals.
From Verif Require Import Prelude Sympy Denote FunctionModel CircuitModel Spec ClassSpec BuilderModel BuilderSpec.
Import ListNotations.
Local Open Scope R_scope.

(** x -> q x^2 / 2 on the line *)
Definition qf (q : R) : rfun := mkFun (fun _ => True) (fun x => q * (x 0%nat * x 0%nat) / 2).
(** the curvature is strictly between the constants of the class *)
Definition inside (mu : Q) (L : extq) (q : R) : Prop := Q2R mu < q /\ match L with Fin l => q < Q2R l | Inf => True end.

(** The points at which one step of a method on q x^2 / 2 evaluates the function
    (a real number each), starting with the minimiser 0. *)
Definition gradient_flow_points (invC h alpha beta q x1 : R) : list R :=
  let x15 := x1 - alpha * h * invC * (q * x1) in
  let x2 := x1 - beta * h * invC * (q * x1) - (1 - beta) * h * invC * (q * x15) in
  [0; x1; x15; x2].
Definition accelerated_points (Rs invC invInd h alpha beta q v1 i1 : R) : list R :=
  let x1 := v1 + Rs * i1 in
  let i15 := i1 + alpha * h * invInd * (v1 - x1 + Rs * (q * x1)) in
  let v15 := v1 - alpha * h * invC * (q * x1) in
  let x15 := v15 + Rs * i15 in
  let i2 := i1 + beta * h * invInd * (v1 - x1 + Rs * (q * x1)) + (1 - beta) * h * invInd * (v15 - x15 + Rs * (q * x15)) in
  let v2 := v1 - beta * h * invC * (q * x1) - (1 - beta) * h * invC * (q * x15) in
  let x2 := v2 + Rs * i2 in
  [0; x1; x15; x2].
(** prox_{R f}(x) = x / (1 + R q) *)
Definition ppm_points (C Rs h alpha beta q x1 : R) : list R :=
  let p1 := x1 / (1 + Rs * q) in
  let x15 := x1 - alpha * h / C * ((x1 - p1) / Rs) in
  let p15 := x15 / (1 + Rs * q) in
  let x2 := x1 - beta * h / C * ((x1 - p1) / Rs) - (1 - beta) * h / C * ((x15 - p15) / Rs) in
  [0; p1; p15; x2].

(** the circuit of new_algorithms_vi.py: prox_{R f / 2}(z) = z / (1 + R q / 2), and the current
    through the resistor next to the function is 2 (z - prox z) / R *)
Definition example_points (C Rs h alpha beta q z1 e1 : R) : list R :=
  let prox := fun z => z / (1 + Rs / 2 * q) in
  let cur := fun z => 2 / Rs * (z - prox z) in
  let e15 := e1 - alpha * h / (2 * Rs * C) * (Rs * cur z1 + 3 * e1) in
  let z15 := z1 - alpha * h / (4 * Rs * C) * (5 * Rs * cur z1 + 3 * e1) in
  let z2 := z1 - beta * h / (4 * Rs * C) * (5 * Rs * cur z1 + 3 * e1) - (1 - beta) * h / (4 * Rs * C) * (5 * Rs * cur z15 + 3 * e15) in
  [0; prox z1; prox z15; prox z2].

(** Builders of several functions: one list of points per function, the functions
    being q_i x^2 / 2. *)
Definition prox_gradient_points (Rs C h qf qg x1 : R) : list (list R) :=
  let prox := fun z => z / (1 + Rs * qg) in
  let e1 := x1 - Rs * (qf * x1) in
  let x2 := x1 - h / C * ((e1 - prox e1) / Rs + qf * x1) in
  let e2 := x2 - Rs * (qf * x2) in
  [[0; x1; x2]; [0; prox e1; prox e2]].
Definition douglas_rachford_points (Rs Ind h alpha q1 q2 i0 x0 : R) : list (list R) :=
  let prox := fun q z => z / (1 + Rs * q) in
  let a1 := prox q1 (x0 + Rs * i0) in let b1 := prox q2 (a1 - Rs * i0) in
  let i1 := i0 + h / Ind * (b1 - a1) in
  let a15 := prox q1 (b1 + Rs * i1) in let b15 := prox q2 (a15 - Rs * i1) in
  let i15 := i1 + alpha * h / Ind * (b1 - a1) in
  let a2 := prox q1 (b15 + Rs * i15) in let b2 := prox q2 (a2 - Rs * i15) in
  [[0; a1; a15; a2]; [0; b1; b15; b2]].
Definition davis_yin_points (Rs Ind h alpha q1 q2 q3 i0 x0 : R) : list (list R) :=
  let prox := fun q z => z / (1 + Rs * q) in
  let e0 := x0 - Rs * i0 - Rs * (q3 * x0) in
  let a1 := prox q1 (2 * x0 - e0 - Rs * (q3 * x0)) in let b1 := prox q2 (a1 + e0 - x0) in
  let i1 := i0 + h / Ind * (b1 - a1) in
  let e1 := b1 - Rs * (q3 * b1) - Rs * i1 in
  let a15 := prox q1 (2 * b1 - e1 - Rs * (q3 * b1)) in let b15 := prox q2 (a15 + e1 - b1) in
  let i15 := i1 + alpha * h / Ind * (b15 - a15) in
  let e15 := b15 - Rs * (q3 * b15) - Rs * i15 in
  let a2 := prox q1 (2 * b15 - e15 - Rs * (q3 * b15)) in let b2 := prox q2 (a2 + e15 - b15) in
  [[0; a1; a15; a2]; [0; b1; b15; b2]; [0; x0; b1; b15; b2]].

(** primal decomposition: n functions q x^2 / 2, all evaluated at these points *)
Definition primal_points (n : nat) (C h alpha q x1 : R) : list R := [0; x1; x1 - alpha * h / C * (INR n * (q * x1))].
(** dual decomposition: n functions q x^2 / 2, the one that starts with the current a *)
Definition dual_points (Ind h alpha q a : R) : list R := [0; a / q; (a - alpha * h / Ind * (a / q)) / q].

(** [moves SY r k]: at the parameter values [r] the method built by [k] moves, i.e.
    on some quadratics strictly inside the class and from some start it evaluates
    every function at pairwise different points.  The builders of one function, and
    those of several functions whose start is not tied by a constraint: there, except
    for primal decomposition, the class must be smooth, since for other classes the
    code evaluates the minimiser twice.  The last five builders evaluate a function before any parameter
    enters, so they move at all parameter values. *)
Inductive moves (SY : sympy) (r : env) : (option (list (string * Q)) -> M problem) -> Prop :=
| m_gradient_flow mu L C q x1 : good_class mu L -> Q2R C <> 0 -> inside mu L q ->
    NoDup (gradient_flow_points (/ Q2R C) (r "h") (r "alpha") (r "beta") q x1)%string ->
    moves SY r (fun params => gradient_flow_circuit SY params mu L C)
| m_tuneC mu L q x1 : good_class mu L -> inside mu L q ->
    NoDup (gradient_flow_points (r "invC") (r "h") (r "alpha") (r "beta") q x1)%string ->
    moves SY r (fun params => gradient_flow_circuit_tuneC SY params mu L)
| m_accelerated mu L Rs C Ind q v1 i1 : good_class mu L -> Q2R C <> 0 -> Q2R Ind <> 0 -> inside mu L q ->
    NoDup (accelerated_points (Q2R Rs) (/ Q2R C) (/ Q2R Ind) (r "h") (r "alpha") (r "beta") q v1 i1)%string ->
    moves SY r (fun params => accelerated_gradient_circuit SY params mu L Rs C Ind)
| m_tuneRLC mu L q v1 i1 : good_class mu L -> inside mu L q ->
    NoDup (accelerated_points (r "R") (r "invC") (r "invL") (r "h") (r "alpha") (r "beta") q v1 i1)%string ->
    moves SY r (fun params => accelerated_gradient_circuit_tuneRLC SY params mu L)
| m_ppm mu L C Rs q x1 : good_class mu L -> Q2R C <> 0 -> Q2R Rs <> 0 -> inside mu L q -> 1 + Q2R Rs * q <> 0 ->
    NoDup (ppm_points (Q2R C) (Q2R Rs) (r "h") (r "alpha") (r "beta") q x1)%string ->
    moves SY r (fun params => ppm_circuit SY params mu L C Rs)
| m_example mu L C Rs q z1 e1 : good_class mu L -> Q2R C <> 0 -> Q2R Rs <> 0 -> inside mu L q -> 1 + Q2R Rs / 2 * q <> 0 ->
    NoDup (example_points (Q2R C) (Q2R Rs) (r "h") (r "alpha") (r "beta") q z1 e1)%string ->
    moves SY r (fun params => example_fC3RC_circuit SY params mu L C Rs)
| m_prox_gradient mu l Rs C q1 q2 x1 : good_class mu (Fin l) -> Q2R C <> 0 -> Q2R Rs <> 0 -> inside mu (Fin l) q1 -> inside 0 Inf q2 ->
    1 + Q2R Rs * q2 <> 0 -> Forall (@NoDup R) (prox_gradient_points (Q2R Rs) (Q2R C) (r "h") q1 q2 x1)%string ->
    moves SY r (fun params => prox_gradient_circuit SY params mu (Fin l) Rs C)
| m_douglas_rachford mu l Rs Ind q1 q2 i0 x0 : good_class mu (Fin l) -> Q2R Ind <> 0 -> inside mu (Fin l) q1 -> inside mu (Fin l) q2 ->
    1 + Q2R Rs * q1 <> 0 -> 1 + Q2R Rs * q2 <> 0 ->
    Forall (@NoDup R) (douglas_rachford_points (Q2R Rs) (Q2R Ind) (r "h") (r "alpha") q1 q2 i0 x0)%string ->
    moves SY r (fun params => douglas_rachford_splitting SY params mu (Fin l) Rs Ind)
| m_davis_yin mu l Rs Ind q1 q2 q3 i0 x0 : good_class mu (Fin l) -> Q2R Rs <> 0 -> Q2R Ind <> 0 ->
    inside mu (Fin l) q1 -> inside mu (Fin l) q2 -> inside mu (Fin l) q3 -> 1 + Q2R Rs * q1 <> 0 -> 1 + Q2R Rs * q2 <> 0 ->
    Forall (@NoDup R) (davis_yin_points (Q2R Rs) (Q2R Ind) (r "h") (r "alpha") q1 q2 q3 i0 x0)%string ->
    moves SY r (fun params => davis_yin_splitting SY params mu (Fin l) Rs Ind)
| m_primal_decomposition n mu L C q x1 : good_class mu L -> Q2R C <> 0 -> (1 <= n)%nat -> inside mu L q ->
    NoDup (primal_points n (Q2R C) (r "h") (r "alpha") q x1)%string ->
    moves SY r (fun params => primal_decomposition SY params n mu L C)
| m_dual_decomposition n mu l Ind q currents : good_class mu (Fin l) -> Q2R Ind <> 0 -> (2 <= n)%nat -> inside mu (Fin l) q ->
    List.length currents = n -> rsuml currents = 0 ->
    Forall (fun a => NoDup (dual_points (Q2R Ind) (r "h") (r "alpha") q a)%string) currents ->
    moves SY r (fun params => dual_decomposition SY params n mu (Fin l) Ind)
| m_consensus_proof mu l Rs : good_class mu (Fin l) -> Q2R Rs <> 0 -> moves SY r (fun params => admm_consensus_proof SY params mu (Fin l) Rs)
| m_pg_extra mu lh lf Rs W : good_class mu (Fin lh) -> good_class mu (Fin lf) -> Q2R Rs <> 0 ->
    moves SY r (fun params => pg_extra_l3 SY params mu (Fin lh) (Fin lf) Rs W)
| m_cycle4 mu l Rs Ind : good_class mu (Fin l) -> moves SY r (fun params => decentralized_admm_cycle4 SY params mu (Fin l) Rs Ind)
| m_graph6 mu l Rs Ind : good_class mu (Fin l) -> moves SY r (fun params => decentralized_admm_graph6 SY params mu (Fin l) Rs Ind)
| m_C_graph6 mu0 mu1 l0 l1 Rs C Ind : good_class mu0 (Fin l0) -> good_class mu1 (Fin l1) ->
    moves SY r (fun params => dadmm_C_graph6 SY params mu0 mu1 (Fin l0) (Fin l1) Rs C Ind).
