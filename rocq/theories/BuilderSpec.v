(** What the problem builders are about: runs of a discretised circuit on
    arbitrary functions, points and dimensions.  Nothing here mentions Point,
    Expression, Function or any other object of the model. *)
From Coq Require Import List Reals QArith Qreals.
From Verif Require Import Prelude Spec FunctionModel.
Import ListNotations.
Local Open Scope R_scope.

(** Vectors of R^d: the coordinates from [d] on are 0. *)
Definition in_Rd (d : nat) (x : vec) : Prop := forall k, (d <= k)%nat -> x k = 0.

(** The user's class: [mu]-strongly convex and, if [L] is finite, [L]-smooth. *)
Definition function_class (d : nat) (mu : Q) (L : extq) (phi : rfun) : Prop :=
  strongly_convex d (Q2R mu) phi /\
  match L with Fin l => smooth d (Q2R l) phi | Inf => True end.
(** Admissible constants: 0 <= mu < L. *)
Definition good_class (mu : Q) (L : extq) : Prop :=
  0 <= Q2R mu /\ match L with Fin l => Q2R mu < Q2R l | Inf => True end.

(** An oracle of [phi] queried at [x] may answer the subgradient [g] and the value [z]. *)
Definition query (d : nat) (phi : rfun) (x g : vec) (z : R) : Prop := in_Rd d g /\ sampled d phi x g z.
(** x = prox_{c phi}(a), with the subgradient g = (a - x)/c and the value z at x. *)
Definition proxed (d : nat) (phi : rfun) (c : R) (a x g : vec) (z : R) : Prop :=
  x = vsub a (vscal c g) /\ query d phi x g z.
(** [x] is a subgradient of the conjugate of [phi] at [g]. *)
Definition conjugated (d : nat) (phi : rfun) (g x : vec) : Prop := in_Rd d x /\ subgradient d phi x g.

(** One answer for each function of a list, at the same point / at points of a list. *)
Inductive queries (d : nat) (x : vec) : list rfun -> list vec -> list R -> Prop :=
| queries_nil : queries d x [] [] []
| queries_cons phi g z phis gs zs : query d phi x g z -> queries d x phis gs zs ->
    queries d x (phi :: phis) (g :: gs) (z :: zs).
Inductive proxes (d : nat) (c : R) : list rfun -> list vec -> list vec -> list vec -> list R -> Prop :=
| proxes_nil : proxes d c [] [] [] [] []
| proxes_cons phi a x g z phis azs xs gs zs : proxed d phi c a x g z -> proxes d c phis azs xs gs zs ->
    proxes d c (phi :: phis) (a :: azs) (x :: xs) (g :: gs) (z :: zs).

Inductive conjs (d : nat) : list rfun -> list vec -> list vec -> Prop :=
| conjs_nil : conjs d [] [] []
| conjs_cons phi g x phis gs xs : conjugated d phi g x -> conjs d phis gs xs ->
    conjs d (phi :: phis) (g :: gs) (x :: xs).

(** f(a_0, b_0, ...), f(a_1, b_1, ...), ... *)
Fixpoint map2 {A B X} (f : A -> B -> X) (l : list A) (m : list B) : list X :=
  match l, m with a :: l', b :: m' => f a b :: map2 f l' m' | _, _ => [] end.
Fixpoint map3 {A B C X} (f : A -> B -> C -> X) (l : list A) (m : list B) (n : list C) : list X :=
  match l, m, n with a :: l', b :: m', c :: n' => f a b c :: map3 f l' m' n' | _, _, _ => [] end.
Fixpoint map5 {A B C D E X} (f : A -> B -> C -> D -> E -> X) (l : list A) (m : list B) (n : list C) (o : list D) (p : list E) : list X :=
  match l, m, n, o, p with
  | a :: l', b :: m', c :: n', d :: o', e :: p' => f a b c d e :: map5 f l' m' n' o' p'
  | _, _, _, _, _ => []
  end.

Definition vsum (l : list vec) : vec := fold_right vadd vzero l.
Definition rsuml (l : list R) : R := fold_right Rplus 0 l.

(** [x] minimises the sum of the functions: some subgradients at [x] add up to
    0; [z] is the minimal value. *)
Definition optimal (d : nat) (phis : list rfun) (x : vec) (z : R) : Prop :=
  in_Rd d x /\ exists gs zs, queries d x phis gs zs /\ vsum gs = vzero /\ z = rsuml zs.

(** * Runs of the discretised circuits

    Each predicate below reads: for some functions of the class, some minimiser
    and some starting point of R^d, [q] is E_2 - (E_1 - Delta) for one step of
    the method.  [h alpha beta eta rho gamma] are real numbers. *)
Declare Scope vec_scope.
Delimit Scope vec_scope with vec.
Notation "x +' y" := (vadd x y) (at level 50, left associativity) : vec_scope.
Notation "x -' y" := (vsub x y) (at level 50, left associativity) : vec_scope.
Notation "c *' x" := (vscal c x) (at level 40, left associativity) : vec_scope.
Notation "'-'' x" := (vopp x) (at level 35, right associativity) : vec_scope.
Local Open Scope vec_scope.

(** Gradient flow x' = -grad f(x)/C, one step of the two-stage Runge-Kutta
    method with coefficients alpha and beta. *)
Definition gradient_flow_run (d : nat) (mu : Q) (L : extq) (C h alpha beta eta q : R) : Prop :=
  exists phi, function_class d mu L phi /\
  exists xs fs, in_Rd d xs /\ query d phi xs vzero fs /\
  exists x1, in_Rd d x1 /\
  exists y1 f1, query d phi x1 y1 f1 /\
  let x15 := x1 -' (alpha * h / C) *' y1 in
  exists y15 f15, query d phi x15 y15 f15 /\
  let x2 := x1 -' (beta * h / C) *' y1 -' ((1 - beta) * h / C) *' y15 in
  exists y2 f2, query d phi x2 y2 f2 /\
  let E1 := C / 2 * nsq d (x1 -' xs) in
  let E2 := C / 2 * nsq d (x2 -' xs) in
  let Delta := eta * (f1 - fs) in
  q = E2 - (E1 - Delta).

(** The same with capacitance and its inverse as separate parameters. *)
Definition gradient_flow_tuneC_run (d : nat) (mu : Q) (L : extq) (C invC h alpha beta eta q : R) : Prop :=
  exists phi, function_class d mu L phi /\
  exists xs fs, in_Rd d xs /\ query d phi xs vzero fs /\
  exists x1, in_Rd d x1 /\
  exists y1 f1, query d phi x1 y1 f1 /\
  let x15 := x1 -' (alpha * h * invC) *' y1 in
  exists y15 f15, query d phi x15 y15 f15 /\
  let x2 := x1 -' (beta * h * invC) *' y1 -' ((1 - beta) * h * invC) *' y15 in
  exists y2 f2, query d phi x2 y2 f2 /\
  let E1 := C / 2 * nsq d (x1 -' xs) in
  let E2 := C / 2 * nsq d (x2 -' xs) in
  let Delta := eta * (f1 - fs) in
  q = E2 - (E1 - Delta).

(** Accelerated gradient circuit: capacitor voltage v, inductor current i,
    x = v + R i, v' = -y/C, i' = (v - x + R y)/Ind with y a subgradient at x. *)
Definition accelerated_gradient_run (d : nat) (mu : Q) (L : extq) (Rs C Ind invC invInd h alpha beta eta rho q : R) : Prop :=
  exists phi, function_class d mu L phi /\
  exists xs fs, in_Rd d xs /\ query d phi xs vzero fs /\
  exists v1, in_Rd d v1 /\
  exists i1, in_Rd d i1 /\
  let x1 := v1 +' Rs *' i1 in
  exists y1 f1, query d phi x1 y1 f1 /\
  let i15 := i1 +' (alpha * h * invInd) *' (v1 -' x1 +' Rs *' y1) in
  let v15 := v1 -' (alpha * h * invC) *' y1 in
  let x15 := v15 +' Rs *' i15 in
  exists y15 f15, query d phi x15 y15 f15 /\
  let i2 := i1 +' (beta * h * invInd) *' (v1 -' x1 +' Rs *' y1) +' ((1 - beta) * h * invInd) *' (v15 -' x15 +' Rs *' y15) in
  let v2 := v1 -' (beta * h * invC) *' y1 -' ((1 - beta) * h * invC) *' y15 in
  let x2 := v2 +' Rs *' i2 in
  exists y2 f2, query d phi x2 y2 f2 /\
  let E1 := C / 2 * nsq d (v1 -' xs) + Ind / 2 * nsq d i1 in
  let E2 := C / 2 * nsq d (v2 -' xs) + Ind / 2 * nsq d i2 in
  let Delta := rho * Rs * nsq d (y1 -' i1) + eta * (f1 - fs) in
  q = E2 - (E1 - Delta).

(** Proximal point: C x' = -(x - prox_{R f}(x))/R. *)
Definition ppm_run (d : nat) (mu : Q) (L : extq) (C Rs h alpha beta eta rho q : R) : Prop :=
  exists phi, function_class d mu L phi /\
  exists xs fs, in_Rd d xs /\ query d phi xs vzero fs /\
  exists x1, in_Rd d x1 /\
  exists p1 g1 z1, proxed d phi Rs x1 p1 g1 z1 /\
  let x15 := x1 -' (alpha * h / C / Rs) *' (x1 -' p1) in
  exists p15 g15 z15, proxed d phi Rs x15 p15 g15 z15 /\
  let i1 := (/ Rs) *' (x1 -' p1) in
  let x2 := x1 -' (beta * h / C / Rs) *' (x1 -' p1) -' ((1 - beta) * h / C / Rs) *' (x15 -' p15) in
  exists y2 f2, query d phi x2 y2 f2 /\
  let E1 := C / 2 * nsq d (x1 -' xs) in
  let E2 := C / 2 * nsq d (x2 -' xs) in
  let Delta := eta * (f2 - fs) + rho * Rs * nsq d i1 in
  q = E2 - (E1 - Delta).

Definition inv_L (L : extq) : R := match L with Fin l => / Q2R l | Inf => 0 end.

(** Proximal gradient for f + g. *)
Definition prox_gradient_run (d : nat) (mu : Q) (L : extq) (Rs C h eta rho q : R) : Prop :=
  exists f, function_class d mu L f /\
  exists g, function_class d 0 Inf g /\
  exists xs zs, optimal d [f; g] xs zs /\
  exists y2s f2s, query d f xs y2s f2s /\
  let y1s := -' y2s in
  let es := xs -' Rs *' y2s in
  exists x21, in_Rd d x21 /\
  exists y21 f21, query d f x21 y21 f21 /\
  let e1 := x21 -' Rs *' y21 in
  exists x11 y11 z11, proxed d g Rs e1 x11 y11 z11 /\
  let env1 := (/ Rs) *' (e1 -' x11) in
  let x22 := x21 -' (h / C) *' (env1 +' y21) in
  exists y22 f22, query d f x22 y22 f22 /\
  let e2 := x22 -' Rs *' y22 in
  exists x12 y12 z12, proxed d g Rs e2 x12 y12 z12 /\
  let E1 := C / 2 * nsq d (e1 -' es) in
  let E2 := C / 2 * nsq d (e2 -' es) in
  let Delta := eta * (inv_L L - Rs) * nsq d (y21 -' y2s) + rho * Rs * nsq d (env1 -' y1s) in
  q = E2 - (E1 - Delta).

(** Dual decomposition: [n] functions, currents summing to zero. *)
Definition balanced (d n : nat) (is : list vec) : Prop := List.length is = n /\ Forall (in_Rd d) is /\ vsum is = vzero.
Definition dual_decomposition_run (d n : nat) (mu : Q) (L : extq) (Ind h alpha beta eta q : R) : Prop :=
  exists phis, List.length phis = n /\ Forall (function_class d mu L) phis /\
  exists xs fs, optimal d phis xs fs /\
  exists ys zs, queries d xs phis ys zs /\
  exists i1, balanced d n i1 /\
  exists x1, conjs d phis i1 x1 /\
  let z1 := (/ INR n) *' vsum x1 in
  let i15 := map2 (fun i x => i +' (alpha * h / Ind) *' (z1 -' x)) i1 x1 in
  exists x15, conjs d phis i15 x15 /\
  let z15 := (/ INR n) *' vsum x15 in
  let i2 := map3 (fun i x x' => i +' (beta * h / Ind) *' (z1 -' x) +' ((1 - beta) * h / Ind) *' (z15 -' x')) i1 x1 x15 in
  let E1 := rsuml (map2 (fun i y => Ind / 2 * nsq d (i -' y)) i1 ys) in
  let E2 := rsuml (map2 (fun i y => Ind / 2 * nsq d (i -' y)) i2 ys) in
  let Delta := rsuml (map3 (fun i x y => eta * dot d (x -' xs) (i -' y)) i1 x1 ys) in
  q = E2 - (E1 - Delta).

(** Primal decomposition. *)
Definition primal_decomposition_run (d n : nat) (mu : Q) (L : extq) (C h alpha beta eta q : R) : Prop :=
  exists phis, List.length phis = n /\ Forall (function_class d mu L) phis /\
  exists xs fs, optimal d phis xs fs /\
  exists z1, in_Rd d z1 /\
  exists y1 f1, queries d z1 phis y1 f1 /\
  let s1 := vsum y1 in
  let z15 := z1 -' (alpha * h / C) *' s1 in
  exists y15 f15, queries d z15 phis y15 f15 /\
  let s15 := vsum y15 in
  let z2 := z1 -' (beta * h / C) *' s1 -' ((1 - beta) * h / C) *' s15 in
  let E1 := C / 2 * nsq d (z1 -' xs) in
  let E2 := C / 2 * nsq d (z2 -' xs) in
  let Delta := eta * dot d (z1 -' xs) s1 in
  q = E2 - (E1 - Delta).

(** Consensus ADMM.  The middle stage [i15] really uses the sum [sx] and not
    the average of the points. *)
Definition admm_consensus_run (d n : nat) (mu : Q) (L : extq) (Rs Ind h alpha beta eta rho gamma q : R) : Prop :=
  exists phis, List.length phis = n /\ Forall (function_class d mu L) phis /\
  exists xs fs, optimal d phis xs fs /\
  exists ys zs, queries d xs phis ys zs /\ vsum ys = vzero /\
  exists e1, in_Rd d e1 /\
  exists i1, balanced d n i1 /\
  let z1 := map (fun i => Rs *' i +' e1) i1 in
  exists x15 g15 f15, proxes d Rs phis z1 x15 g15 f15 /\
  let sx := vsum x15 in
  let i15 := map2 (fun i x => i +' (alpha * h / Ind) *' (sx -' x)) i1 x15 in
  let e15 := (/ INR n) *' sx in
  let z15 := map (fun i => Rs *' i +' e15) i15 in
  exists x2 g2 f2, proxes d Rs phis z15 x2 g2 f2 /\
  let e2 := (/ INR n) *' vsum x2 in
  let i2 := map3 (fun i x x' => i +' (beta * h / Ind) *' (e15 -' x) +' ((1 - beta) * h / Ind) *' (e2 -' x')) i1 x15 x2 in
  let E1 := gamma * nsq d (e1 -' xs) + rsuml (map2 (fun i y => Ind / 2 * nsq d (i -' y)) i1 ys) in
  let E2 := gamma * nsq d (e2 -' xs) + rsuml (map2 (fun i y => Ind / 2 * nsq d (i -' y)) i2 ys) in
  let Delta := - eta * fs + rsuml (map5 (fun x g f i y => rho * Rs * nsq d (g -' i) + eta * (f - dot d y (x -' xs))) x2 g2 f2 i2 ys) in
  q = E2 - (E1 - Delta).

(** Consensus ADMM as one Euler step; [e1] is the average of the points. *)
Definition admm_euler_run (d n : nat) (mu : Q) (L : extq) (Rs Ind h eta rho q : R) : Prop :=
  exists phis, List.length phis = n /\ Forall (function_class d mu L) phis /\
  exists xs fs, optimal d phis xs fs /\
  exists ys zs, queries d xs phis ys zs /\ vsum ys = vzero /\
  exists e1, in_Rd d e1 /\
  exists i1, balanced d n i1 /\
  let z1 := map (fun i => Rs *' i +' e1) i1 in
  exists x1 g1 f1, proxes d Rs phis z1 x1 g1 f1 /\
  let sx := vsum x1 in
  let i2 := map2 (fun i x => i +' (h / Ind) *' (e1 -' x)) i1 x1 in
  let ax := (/ INR n) *' sx in
  e1 = ax /\
  let E1 := rsuml (map2 (fun i y => Ind / 2 * nsq d (i -' y)) i1 ys) in
  let E2 := rsuml (map2 (fun i y => Ind / 2 * nsq d (i -' y)) i2 ys) in
  let Delta := - eta * fs + rsuml (map5 (fun x g f i y => rho * Rs * nsq d (g -' i) + eta * (f - dot d y (x -' xs))) x1 g1 f1 i1 ys) in
  q = E2 - (E1 - Delta).

(** Douglas-Rachford splitting. *)
Definition douglas_rachford_run (d : nat) (mu : Q) (L : extq) (Rs Ind h alpha beta eta rho gamma q : R) : Prop :=
  exists f1, function_class d mu L f1 /\
  exists f2, function_class d mu L f2 /\
  exists xs fs, optimal d [f1; f2] xs fs /\
  exists y1s f1s, query d f1 xs y1s f1s /\
  exists y2s f2s, query d f2 xs y2s f2s /\
  y1s +' y2s = vzero /\
  exists i0, in_Rd d i0 /\
  exists x20, in_Rd d x20 /\
  exists x11 y11 f11, proxed d f1 Rs (x20 +' Rs *' i0) x11 y11 f11 /\
  exists x21 y21 f21, proxed d f2 Rs (x11 -' Rs *' i0) x21 y21 f21 /\
  let i1 := i0 +' (h / Ind) *' (x21 -' x11) in
  exists x115 y115 f115, proxed d f1 Rs (x21 +' Rs *' i1) x115 y115 f115 /\
  exists x215 y215 f215, proxed d f2 Rs (x115 -' Rs *' i1) x215 y215 f215 /\
  let i15 := i1 +' (alpha * h / Ind) *' (x21 -' x11) in
  exists x12 y12 f12, proxed d f1 Rs (x215 +' Rs *' i15) x12 y12 f12 /\
  exists x22 y22 f22, proxed d f2 Rs (x12 -' Rs *' i15) x22 y22 f22 /\
  let i2 := i1 +' (beta * h / Ind) *' (x21 -' x11) +' ((1 - beta) * h / Ind) *' (x215 -' x115) in
  let E1 := Ind / 2 * nsq d (i1 -' y1s) + gamma * nsq d (x21 -' xs) in
  let E2 := Ind / 2 * nsq d (i2 -' y1s) + gamma * nsq d (x22 -' xs) in
  let Delta := rho * Rs * nsq d (y11 -' i1)
               + eta * (f11 + f21 - dot d y1s (x11 -' xs) - dot d y2s (x21 -' xs) - fs) in
  q = E2 - (E1 - Delta).

(** Davis-Yin splitting. *)
Definition davis_yin_run (d : nat) (mu : Q) (L : extq) (Rs Ind h alpha beta eta rho gamma q : R) : Prop :=
  exists f1, function_class d mu L f1 /\
  exists f2, function_class d mu L f2 /\
  exists f3, function_class d mu L f3 /\
  exists xs fs, optimal d [f1; f2; f3] xs fs /\
  exists y1s f1s, query d f1 xs y1s f1s /\
  exists y2s f2s, query d f2 xs y2s f2s /\
  exists y3s f3s, query d f3 xs y3s f3s /\
  y1s +' y2s +' y3s = vzero /\
  exists i0, in_Rd d i0 /\
  exists x20, in_Rd d x20 /\
  exists y30 f30, query d f3 x20 y30 f30 /\
  let e0 := x20 -' Rs *' i0 -' Rs *' y30 in
  exists x11 y11 f11, proxed d f1 Rs (2 *' x20 -' e0 -' Rs *' y30) x11 y11 f11 /\
  exists x21 y21 f21, proxed d f2 Rs (x11 +' e0 -' x20) x21 y21 f21 /\
  let i1 := i0 +' (h / Ind) *' (x21 -' x11) in
  exists y31 f31, query d f3 x21 y31 f31 /\
  let e1 := x21 -' Rs *' y31 -' Rs *' i1 in
  exists x115 y115 f115, proxed d f1 Rs (2 *' x21 -' e1 -' Rs *' y31) x115 y115 f115 /\
  exists x215 y215 f215, proxed d f2 Rs (x115 +' e1 -' x21) x215 y215 f215 /\
  let i15 := i1 +' (alpha * h / Ind) *' (x215 -' x115) in
  exists y315 f315, query d f3 x215 y315 f315 /\
  let e15 := x215 -' Rs *' y315 -' Rs *' i15 in
  exists x12 y12 f12, proxed d f1 Rs (2 *' x215 -' e15 -' Rs *' y315) x12 y12 f12 /\
  exists x22 y22 f22, proxed d f2 Rs (x12 +' e15 -' x215) x22 y22 f22 /\
  let i2 := i1 +' (beta * h / Ind) *' (x21 -' x11) +' ((1 - beta) * h / Ind) *' (x215 -' x115) in
  exists y32 f32, query d f3 x22 y32 f32 /\
  let e2 := x22 -' Rs *' y32 -' Rs *' i2 in
  let es := xs -' Rs *' y1s -' Rs *' y3s in
  let E1 := Ind / 2 * nsq d (i1 -' y1s) + gamma * nsq d (e1 -' es) in
  let E2 := Ind / 2 * nsq d (i2 -' y1s) + gamma * nsq d (e2 -' es) in
  let Delta := rho / Rs * nsq d (x11 -' x21)
               + eta * (f11 + f21 + f31 - dot d y1s (x11 -' xs) - dot d y2s (x21 -' xs) - dot d y3s (x21 -' xs) - fs) in
  q = E2 - (E1 - Delta).

(** The two-function consensus ADMM of the convergence proof. *)
Definition admm_consensus_proof_run (d : nat) (mu : Q) (L : extq) (Rs h eta q : R) : Prop :=
  exists f, function_class d mu L f /\
  exists g, function_class d mu L g /\
  exists xs zs, optimal d [f; g] xs zs /\
  exists y1s f1s, query d f xs y1s f1s /\
  let y2s := -' y1s in
  exists z1, in_Rd d z1 /\
  exists y11, in_Rd d y11 /\
  let y21 := -' y11 in
  exists x12 gf f12, proxed d f Rs (z1 -' Rs *' y11) x12 gf f12 /\
  exists x22 gg g12, proxed d g Rs (z1 -' Rs *' y21) x22 gg g12 /\
  let z2 := (/ 2) *' (x12 +' x22) in
  let y12 := y11 -' (h / Rs) *' (z2 -' x12) in
  let y22 := y21 -' (h / Rs) *' (z2 -' x22) in
  let E1 := Rs * nsq d (y11 +' y1s) + Rs * nsq d (y21 +' y2s) + 2 / Rs * nsq d (z1 -' xs) in
  let E2 := Rs * nsq d (y12 +' y1s) + Rs * nsq d (y22 +' y2s) + 2 / Rs * nsq d (z2 -' xs) in
  let Delta := eta * (/ Rs * nsq d (x12 -' z2) + / Rs * nsq d (x22 -' z2)) + / Rs * / Rs * nsq d (z1 -' z2) in
  q = E2 - (E1 - Delta).

(** Decentralised gradient descent on the line 1 - 2 - 3. *)
Definition dgd_line3_run (d : nat) (mu : Q) (L : extq) (Rs C h eta rho q : R) : Prop :=
  exists f1, function_class d mu L f1 /\
  exists f2, function_class d mu L f2 /\
  exists f3, function_class d mu L f3 /\
  exists x2s, in_Rd d x2s /\
  exists y2s f2s, query d f2 x2s y2s f2s /\
  exists x1s y1s f1s, proxed d f1 Rs x2s x1s y1s f1s /\
  exists x3s y3s f3s, proxed d f3 Rs x2s x3s y3s f3s /\
  exists x2s' y2s' f2s', proxed d f2 (Rs / 2) (/ 2 *' (x1s +' x3s)) x2s' y2s' f2s' /\
  x2s = x2s' /\
  exists x11, in_Rd d x11 /\
  exists y11 f11, query d f1 x11 y11 f11 /\
  exists x21, in_Rd d x21 /\
  exists y21 f21, query d f2 x21 y21 f21 /\
  exists x31, in_Rd d x31 /\
  exists y31 f31, query d f3 x31 y31 f31 /\
  let x12 := x11 -' (h / C) *' (y11 +' / Rs *' (x11 -' x21)) in
  exists y12 f12, query d f1 x12 y12 f12 /\
  let x22 := x21 -' (h / C) *' (y21 +' / Rs *' (x21 -' x11) +' / Rs *' (x21 -' x31)) in
  exists y22 f22, query d f2 x22 y22 f22 /\
  let x32 := x31 -' (h / C) *' (y31 +' / Rs *' (x31 -' x21)) in
  exists y32 f32, query d f3 x32 y32 f32 /\
  let E1 := C / 2 * (nsq d (x11 -' x1s) + nsq d (x21 -' x2s) + nsq d (x31 -' x3s)) in
  let E2 := C / 2 * (nsq d (x12 -' x1s) + nsq d (x22 -' x2s) + nsq d (x32 -' x3s)) in
  let Delta := rho / Rs * (nsq d (x12 -' x22 -' (x1s -' x2s)) + nsq d (x32 -' x22 -' (x3s -' x2s)))
               + eta * (dot d (x12 -' x1s) (y12 -' y1s) + dot d (x22 -' x2s) (y22 -' y2s) + dot d (x32 -' x3s) (y32 -' y3s)) in
  q = E2 - (E1 - Delta).

(** Diffusion on the line 1 - 2 - 3. *)
Definition diffusion_line3_run (d : nat) (mu : Q) (L : extq) (Rs C h eta rho q : R) : Prop :=
  exists f1, function_class d mu L f1 /\
  exists f2, function_class d mu L f2 /\
  exists f3, function_class d mu L f3 /\
  exists x1s, in_Rd d x1s /\
  exists x2s, in_Rd d x2s /\
  exists x3s, in_Rd d x3s /\
  exists y1s f1s, query d f1 x1s y1s f1s /\
  exists y2s f2s, query d f2 x2s y2s f2s /\
  exists y3s f3s, query d f3 x3s y3s f3s /\
  let e1s := x1s -' Rs *' y1s in
  let e2s := x2s -' Rs *' y2s in
  let e3s := x3s -' Rs *' y3s in
  y2s = / (3 * Rs) *' (e1s -' 2 *' e2s +' e3s) /\
  y1s = / (3 * Rs) *' (e2s -' e1s) /\
  y3s = / (3 * Rs) *' (e2s -' e3s) /\
  exists x11, in_Rd d x11 /\
  exists y11 f11, query d f1 x11 y11 f11 /\
  exists x21, in_Rd d x21 /\
  exists y21 f21, query d f2 x21 y21 f21 /\
  exists x31, in_Rd d x31 /\
  exists y31 f31, query d f3 x31 y31 f31 /\
  let e11 := x11 -' Rs *' y11 in
  let e21 := x21 -' Rs *' y21 in
  let e31 := x31 -' Rs *' y31 in
  let x12 := x11 -' (h / C) *' (y11 +' / (3 * Rs) *' (x11 -' Rs *' y11 -' (x21 -' Rs *' y21))) in
  exists y12 f12, query d f1 x12 y12 f12 /\
  let x22 := x21 -' (h / C) *' (y21 +' / (3 * Rs) *' (2 *' (x21 -' Rs *' y21) -' (x11 -' Rs *' y11) -' (x31 -' Rs *' y31))) in
  exists y22 f22, query d f2 x22 y22 f22 /\
  let x32 := x31 -' (h / C) *' (y31 +' / (3 * Rs) *' (x31 -' Rs *' y31 -' (x21 -' Rs *' y21))) in
  exists y32 f32, query d f3 x32 y32 f32 /\
  let e12 := x12 -' Rs *' y12 in
  let e22 := x22 -' Rs *' y22 in
  let e32 := x32 -' Rs *' y32 in
  let E1 := C / 2 * (nsq d (e11 -' e1s) + nsq d (e21 -' e2s) + nsq d (e31 -' e3s)) in
  let E2 := C / 2 * (nsq d (e12 -' e1s) + nsq d (e22 -' e2s) + nsq d (e32 -' e3s)) in
  let Delta := rho / (3 * Rs) * (nsq d (e11 -' e21 -' (e1s -' e2s)) + nsq d (e31 -' e21 -' (e3s -' e2s)))
               + eta * (inv_L L - Rs) * (nsq d (y11 -' y1s) + nsq d (y21 -' y2s) + nsq d (y31 -' y3s)) in
  q = E2 - (E1 - Delta).

(** PG-EXTRA on the line 1 - 2 - 3 with mixing weights [w i j]. *)
Definition pg_extra_l3_run (d : nat) (mu : Q) (Lh Lf : extq) (Rs : R) (w : nat -> nat -> R) (h eta rho gamma q : R) : Prop :=
  exists f1, function_class d mu Lf f1 /\
  exists f2, function_class d mu Lf f2 /\
  exists f3, function_class d mu Lf f3 /\
  exists h1, function_class d mu Lh h1 /\
  exists h2, function_class d mu Lh h2 /\
  exists h3, function_class d mu Lh h3 /\
  exists xs fs, optimal d [f1; f2; f3; h1; h2; h3] xs fs /\
  exists yf1s f1s, query d f1 xs yf1s f1s /\
  exists yf2s f2s, query d f2 xs yf2s f2s /\
  exists yf3s f3s, query d f3 xs yf3s f3s /\
  exists yh1s h1s, query d h1 xs yh1s h1s /\
  exists yh2s h2s, query d h2 xs yh2s h2s /\
  exists yh3s h3s, query d h3 xs yh3s h3s /\
  let i12s := -' (yf1s +' yh1s) in
  let i23s := yf3s +' yh3s in
  yf1s +' yf2s +' yf3s +' yh1s +' yh2s +' yh3s = vzero /\
  exists x11, in_Rd d x11 /\
  exists x21, in_Rd d x21 /\
  exists x31, in_Rd d x31 /\
  exists yf11 f11, query d f1 x11 yf11 f11 /\
  exists yf21 f21, query d f2 x21 yf21 f21 /\
  exists yf31 f31, query d f3 x31 yf31 f31 /\
  exists yh11 h11, query d h1 x11 yh11 h11 /\
  exists yh21 h21, query d h2 x21 yh21 h21 /\
  exists yh31 h31, query d h3 x31 yh31 h31 /\
  exists i12, in_Rd d i12 /\
  exists i23, in_Rd d i23 /\
  let e1 := (w 0 0)%nat *' x11 +' (w 0 1)%nat *' x21 +' (w 0 2)%nat *' x31 -' Rs *' yh11 -' Rs *' i12 in
  let e2 := (w 1 0)%nat *' x11 +' (w 1 1)%nat *' x21 +' (w 1 2)%nat *' x31 -' Rs *' yh21 +' Rs *' i12 -' Rs *' i23 in
  let e3 := (w 2 0)%nat *' x11 +' (w 2 1)%nat *' x21 +' (w 2 2)%nat *' x31 -' Rs *' yh31 +' Rs *' i23 in
  exists x12 yf12 f12, proxed d f1 Rs e1 x12 yf12 f12 /\
  exists x22 yf22 f22, proxed d f2 Rs e2 x22 yf22 f22 /\
  exists x32 yf32 f32, proxed d f3 Rs e3 x32 yf32 f32 /\
  let i12' := i12 +' (h * (w 0 1)%nat / Rs) *' (x11 -' x21) in
  let i23' := i23 +' (h * (w 1 2)%nat / Rs) *' (x21 -' x31) in
  let i12'' := i12' +' (h * (w 0 1)%nat / Rs) *' (x12 -' x22) in
  let i23'' := i23' +' (h * (w 1 2)%nat / Rs) *' (x22 -' x32) in
  let E1 := gamma * (nsq d (x11 -' xs) + nsq d (x21 -' xs) + nsq d (x31 -' xs))
            + Rs / (w 0 1)%nat / 2 * nsq d (i12' -' i12s) + Rs / (w 1 2)%nat / 2 * nsq d (i23' -' i23s) in
  let E2 := gamma * (nsq d (x12 -' xs) + nsq d (x22 -' xs) + nsq d (x32 -' xs))
            + Rs / (w 0 1)%nat / 2 * nsq d (i12'' -' i12s) + Rs / (w 1 2)%nat / 2 * nsq d (i23'' -' i23s) in
  let Delta := eta * (dot d (yf12 -' yf1s) (x12 -' xs) + dot d (yf22 -' yf2s) (x22 -' xs) + dot d (yf32 -' yf3s) (x32 -' xs))
               + rho * (dot d (yh11 -' yh1s) (x11 -' xs) + dot d (yh21 -' yh2s) (x21 -' xs) + dot d (yh31 -' yh3s) (x31 -' xs)) in
  q = E2 - (E1 - Delta).

(** Decentralised ADMM on the line 1 - 2 - 3, two-stage discretisation.  Net 12
    and net 23 each carry a potential e and an inductor current i. *)
Definition dadmm_l3_run (d : nat) (mu : Q) (L : extq) (Rs Ind h alpha beta eta rho gamma q : R) : Prop :=
  exists f1, function_class d mu L f1 /\
  exists f2, function_class d mu L f2 /\
  exists f3, function_class d mu L f3 /\
  exists xs fs, optimal d [f1; f2; f3] xs fs /\
  exists y1s f1s, query d f1 xs y1s f1s /\
  exists y2s f2s, query d f2 xs y2s f2s /\
  exists y3s f3s, query d f3 xs y3s f3s /\
  exists y21s, in_Rd d y21s /\
  let y23s := y2s -' y21s in
  y1s +' y2s +' y3s = vzero /\
  y21s = -' y1s /\
  y23s = -' y3s /\
  exists e12, in_Rd d e12 /\
  exists e23, in_Rd d e23 /\
  exists i12, in_Rd d i12 /\
  exists i23, in_Rd d i23 /\
  exists x1 y1 z1, proxed d f1 Rs (e12 +' Rs *' i12) x1 y1 z1 /\
  exists x2 y2 z2, proxed d f2 (Rs / 2) (/ 2 *' (e12 -' Rs *' i12 +' (e23 +' Rs *' i23))) x2 y2 z2 /\
  exists x3 y3 z3, proxed d f3 Rs (e23 -' Rs *' i23) x3 y3 z3 /\
  let e12' := / 2 *' (x1 +' x2) in
  let e23' := / 2 *' (x2 +' x3) in
  let i12' := i12 +' (alpha * h / Ind) *' (e12' -' x1) in
  let i23' := i23 +' (alpha * h / Ind) *' (e23' -' x2) in
  exists x1' y1' z1', proxed d f1 Rs (e12' +' Rs *' i12') x1' y1' z1' /\
  exists x2' y2' z2', proxed d f2 (Rs / 2) (/ 2 *' (e12' -' Rs *' i12' +' (e23' +' Rs *' i23'))) x2' y2' z2' /\
  exists x3' y3' z3', proxed d f3 Rs (e23' -' Rs *' i23') x3' y3' z3' /\
  let e12'' := / 2 *' (x1' +' x2') in
  let e23'' := / 2 *' (x2' +' x3') in
  let i12'' := i12 +' (beta * h / Ind) *' (e12' -' x1) +' ((1 - beta) * h / Ind) *' (e12'' -' x1') in
  let i23'' := i23 +' (beta * h / Ind) *' (e23' -' x2) +' ((1 - beta) * h / Ind) *' (e23'' -' x2') in
  let E1 := gamma * nsq d (e12 -' xs) + gamma * nsq d (e23 -' xs)
            + Ind / 2 * nsq d (i12 -' y1s) + Ind / 2 * nsq d (-' i12 -' y21s)
            + Ind / 2 * nsq d (i23 -' y23s) + Ind / 2 * nsq d (-' i23 -' y3s) in
  let E2 := gamma * nsq d (e12'' -' xs) + gamma * nsq d (e23'' -' xs)
            + Ind / 2 * nsq d (i12'' -' y1s) + Ind / 2 * nsq d (-' i12'' -' y21s)
            + Ind / 2 * nsq d (i23'' -' y23s) + Ind / 2 * nsq d (-' i23'' -' y3s) in
  let Delta := rho / Rs * (nsq d (e12'' -' x1') + nsq d (e12'' -' x2') + nsq d (e23'' -' x2') + nsq d (e23'' -' x3'))
               + eta * (z1' - f1s - dot d y1s (x1' -' xs) + (z2' - f2s - dot d y2s (x2' -' xs))
                        + (z3' - f3s - dot d y3s (x3' -' xs))) in
  q = E2 - (E1 - Delta).

(** Decentralised ADMM on the cycle 1 - 2 - 3 - 4 - 1. *)
Definition dadmm_cycle4_run (d : nat) (mu : Q) (L : extq) (Rs Ind h eta rho gamma q : R) : Prop :=
  exists f1, function_class d mu L f1 /\
  exists f2, function_class d mu L f2 /\
  exists f3, function_class d mu L f3 /\
  exists f4, function_class d mu L f4 /\
  exists xs fs, optimal d [f1; f2; f3; f4] xs fs /\
  exists y1s f1s, query d f1 xs y1s f1s /\
  exists y2s f2s, query d f2 xs y2s f2s /\
  exists y3s f3s, query d f3 xs y3s f3s /\
  exists y4s f4s, query d f4 xs y4s f4s /\
  y1s +' y2s +' y3s +' y4s = vzero /\
  exists y12s, in_Rd d y12s /\
  let y14s := y1s -' y12s in
  let y23s := y2s +' y12s in
  let y34s := y3s +' y23s in
  y14s +' y34s +' y4s = vzero /\
  exists e12, in_Rd d e12 /\ exists e23, in_Rd d e23 /\ exists e34, in_Rd d e34 /\ exists e41, in_Rd d e41 /\
  exists i12, in_Rd d i12 /\ exists i23, in_Rd d i23 /\ exists i34, in_Rd d i34 /\ exists i41, in_Rd d i41 /\
  exists x1 y1 z1, proxed d f1 (Rs / 2) (/ 2 *' (e12 +' Rs *' i12 +' (e41 -' Rs *' i41))) x1 y1 z1 /\
  exists x2 y2 z2, proxed d f2 (Rs / 2) (/ 2 *' (e12 -' Rs *' i12 +' (e23 +' Rs *' i23))) x2 y2 z2 /\
  exists x3 y3 z3, proxed d f3 (Rs / 2) (/ 2 *' (e23 -' Rs *' i23 +' (e34 +' Rs *' i34))) x3 y3 z3 /\
  exists x4 y4 z4, proxed d f4 (Rs / 2) (/ 2 *' (e34 -' Rs *' i34 +' (e41 +' Rs *' i41))) x4 y4 z4 /\
  let e12' := / 2 *' (x1 +' x2) in
  let e23' := / 2 *' (x2 +' x3) in
  let e34' := / 2 *' (x3 +' x4) in
  let e41' := / 2 *' (x4 +' x1) in
  let i12' := i12 +' (h / Ind) *' (e12' -' x1) in
  let i23' := i23 +' (h / Ind) *' (e23' -' x2) in
  let i34' := i34 +' (h / Ind) *' (e34' -' x3) in
  let i41' := i41 +' (h / Ind) *' (e41' -' x4) in
  let E1 := gamma * (nsq d (e12 -' xs) + nsq d (e23 -' xs) + nsq d (e34 -' xs) + nsq d (e41 -' xs))
            + Ind * nsq d (i12 -' y12s) + Ind * nsq d (i23 -' y23s) + Ind * nsq d (i34 -' y34s) + Ind * nsq d (i41 +' y14s) in
  let E2 := gamma * (nsq d (e12' -' xs) + nsq d (e23' -' xs) + nsq d (e34' -' xs) + nsq d (e41' -' xs))
            + Ind * nsq d (i12' -' y12s) + Ind * nsq d (i23' -' y23s) + Ind * nsq d (i34' -' y34s) + Ind * nsq d (i41' +' y14s) in
  let Delta := 2 * rho / Rs * (nsq d (e12' -' x1) + nsq d (e23' -' x2) + nsq d (e34' -' x4) + nsq d (e41' -' x1))
               + eta * (z1 - f1s - dot d y1s (x1 -' xs) + (z2 - f2s - dot d y2s (x2 -' xs))
                        + (z3 - f3s - dot d y3s (x3 -' xs)) + (z4 - f4s - dot d y4s (x4 -' xs))) in
  q = E2 - (E1 - Delta).

(** Decentralised ADMM on the graph with edges 12, 13, 23, 24, 34, 45, 46. *)
Definition dadmm_graph6_run (d : nat) (mu : Q) (L : extq) (Rs Ind h eta rho gamma q : R) : Prop :=
  exists f1, function_class d mu L f1 /\
  exists f2, function_class d mu L f2 /\
  exists f3, function_class d mu L f3 /\
  exists f4, function_class d mu L f4 /\
  exists f5, function_class d mu L f5 /\
  exists f6, function_class d mu L f6 /\
  exists xs fs, optimal d [f1; f2; f3; f4; f5; f6] xs fs /\
  exists y1s f1s, query d f1 xs y1s f1s /\
  exists y2s f2s, query d f2 xs y2s f2s /\
  exists y3s f3s, query d f3 xs y3s f3s /\
  exists y4s f4s, query d f4 xs y4s f4s /\
  exists y5s f5s, query d f5 xs y5s f5s /\
  exists y6s f6s, query d f6 xs y6s f6s /\
  y1s +' y2s +' y3s +' y4s +' y5s +' y6s = vzero /\
  exists y12s, in_Rd d y12s /\
  let y13s := y1s -' y12s in
  exists y23s, in_Rd d y23s /\
  let y24s := y2s +' y12s -' y23s in
  let y34s := y3s +' y13s +' y23s in
  y24s +' y34s +' y5s +' y6s +' y4s = vzero /\
  exists e12, in_Rd d e12 /\ exists e13, in_Rd d e13 /\ exists e23, in_Rd d e23 /\ exists e24, in_Rd d e24 /\
  exists e34, in_Rd d e34 /\ exists e45, in_Rd d e45 /\ exists e46, in_Rd d e46 /\
  exists i12, in_Rd d i12 /\ exists i13, in_Rd d i13 /\ exists i23, in_Rd d i23 /\ exists i24, in_Rd d i24 /\
  exists i34, in_Rd d i34 /\ exists i45, in_Rd d i45 /\ exists i46, in_Rd d i46 /\
  exists x1 y1 z1, proxed d f1 (Rs / 2) (/ 2 *' (e12 +' Rs *' i12 +' (e13 +' Rs *' i13))) x1 y1 z1 /\
  exists x2 y2 z2, proxed d f2 (Rs / 3) (/ 3 *' (e12 -' Rs *' i12 +' (e23 +' Rs *' i23) +' (e24 +' Rs *' i24))) x2 y2 z2 /\
  exists x3 y3 z3, proxed d f3 (Rs / 3) (/ 3 *' (e13 -' Rs *' i13 +' (e23 -' Rs *' i23) +' (e34 +' Rs *' i34))) x3 y3 z3 /\
  exists x4 y4 z4, proxed d f4 (Rs / 4) (/ 4 *' (e24 -' Rs *' i24 +' (e34 -' Rs *' i34) +' (e45 +' Rs *' i45)
                                                 +' (e46 +' Rs *' i46))) x4 y4 z4 /\
  exists x5 y5 z5, proxed d f5 Rs (e45 -' Rs *' i45) x5 y5 z5 /\
  exists x6 y6 z6, proxed d f6 Rs (e46 -' Rs *' i46) x6 y6 z6 /\
  let e12' := / 2 *' (x1 +' x2) in
  let e13' := / 2 *' (x1 +' x3) in
  let e23' := / 2 *' (x2 +' x3) in
  let e24' := / 2 *' (x2 +' x4) in
  let e34' := / 2 *' (x3 +' x4) in
  let e45' := / 2 *' (x4 +' x5) in
  let e46' := / 2 *' (x4 +' x6) in
  let i12' := i12 +' (h / Ind) *' (e12' -' x1) in
  let i13' := i13 +' (h / Ind) *' (e13' -' x1) in
  let i23' := i23 +' (h / Ind) *' (e23' -' x2) in
  let i24' := i24 +' (h / Ind) *' (e24' -' x2) in
  let i34' := i34 +' (h / Ind) *' (e34' -' x3) in
  let i45' := i45 +' (h / Ind) *' (e45' -' x4) in
  let i46' := i46 +' (h / Ind) *' (e46' -' x4) in
  let E1 := gamma * (nsq d (e12 -' xs) + nsq d (e13 -' xs) + nsq d (e23 -' xs) + nsq d (e24 -' xs)
                     + nsq d (e34 -' xs) + nsq d (e45 -' xs) + nsq d (e46 -' xs))
            + Ind * nsq d (i12 -' y12s) + Ind * nsq d (i13 -' y13s) + Ind * nsq d (i23 -' y23s) + Ind * nsq d (i24 -' y24s)
            + Ind * nsq d (i34 -' y34s) + Ind * nsq d (i45 +' y5s) + Ind * nsq d (i46 +' y6s) in
  let E2 := gamma * (nsq d (e12' -' xs) + nsq d (e13' -' xs) + nsq d (e23' -' xs) + nsq d (e24' -' xs)
                     + nsq d (e34' -' xs) + nsq d (e45' -' xs) + nsq d (e46' -' xs))
            + Ind * nsq d (i12' -' y12s) + Ind * nsq d (i13' -' y13s) + Ind * nsq d (i23' -' y23s) + Ind * nsq d (i24' -' y24s)
            + Ind * nsq d (i34' -' y34s) + Ind * nsq d (i45' +' y5s) + Ind * nsq d (i46' +' y6s) in
  let Delta := 2 * rho / Rs * (nsq d (e12' -' x1) + nsq d (e13' -' x3) + nsq d (e23' -' x2) + nsq d (e24' -' x2)
                               + nsq d (e34' -' x4) + nsq d (e45' -' x5) + nsq d (e46' -' x6))
               + eta * (z1 - f1s - dot d y1s (x1 -' xs) + (z2 - f2s - dot d y2s (x2 -' xs))
                        + (z3 - f3s - dot d y3s (x3 -' xs)) + (z4 - f4s - dot d y4s (x4 -' xs))
                        + (z5 - f5s - dot d y5s (x5 -' xs)) + (z6 - f6s - dot d y6s (x6 -' xs))) in
  q = E2 - (E1 - Delta).

(** The same graph with a capacitor on net 45: e45 becomes a state, and net 45
    has two inductor currents i45 and i54.  Nodes 4 and 5 have another class. *)
Definition dadmm_C_graph6_run (d : nat) (mu0 mu1 : Q) (L0 L1 : extq) (Rs C Ind h eta rho gamma q : R) : Prop :=
  exists f1, function_class d mu0 L0 f1 /\
  exists f2, function_class d mu0 L0 f2 /\
  exists f3, function_class d mu0 L0 f3 /\
  exists f4, function_class d mu1 L1 f4 /\
  exists f5, function_class d mu1 L1 f5 /\
  exists f6, function_class d mu0 L0 f6 /\
  exists xs fs, optimal d [f1; f2; f3; f4; f5; f6] xs fs /\
  exists y1s f1s, query d f1 xs y1s f1s /\
  exists y2s f2s, query d f2 xs y2s f2s /\
  exists y3s f3s, query d f3 xs y3s f3s /\
  exists y4s f4s, query d f4 xs y4s f4s /\
  exists y5s f5s, query d f5 xs y5s f5s /\
  exists y6s f6s, query d f6 xs y6s f6s /\
  y1s +' y2s +' y3s +' y4s +' y5s +' y6s = vzero /\
  exists y12s, in_Rd d y12s /\
  let y13s := y1s -' y12s in
  exists y23s, in_Rd d y23s /\
  let y24s := y2s +' y12s -' y23s in
  let y34s := y3s +' y13s +' y23s in
  y24s +' y34s +' y5s +' y6s +' y4s = vzero /\
  exists e12, in_Rd d e12 /\ exists e13, in_Rd d e13 /\ exists e23, in_Rd d e23 /\ exists e24, in_Rd d e24 /\
  exists e34, in_Rd d e34 /\ exists e45, in_Rd d e45 /\ exists e46, in_Rd d e46 /\
  exists i12, in_Rd d i12 /\ exists i13, in_Rd d i13 /\ exists i23, in_Rd d i23 /\ exists i24, in_Rd d i24 /\
  exists i34, in_Rd d i34 /\ exists i45, in_Rd d i45 /\ exists i54, in_Rd d i54 /\ exists i46, in_Rd d i46 /\
  exists x1 y1 z1, proxed d f1 (Rs / 2) (/ 2 *' (e12 +' Rs *' i12 +' (e13 +' Rs *' i13))) x1 y1 z1 /\
  exists x2 y2 z2, proxed d f2 (Rs / 3) (/ 3 *' (e12 -' Rs *' i12 +' (e23 +' Rs *' i23) +' (e24 +' Rs *' i24))) x2 y2 z2 /\
  exists x3 y3 z3, proxed d f3 (Rs / 3) (/ 3 *' (e13 -' Rs *' i13 +' (e23 -' Rs *' i23) +' (e34 +' Rs *' i34))) x3 y3 z3 /\
  exists x4 y4 z4, proxed d f4 (Rs / 4) (/ 4 *' (e24 -' Rs *' i24 +' (e34 -' Rs *' i34) +' (e45 +' Rs *' i45)
                                                 +' (e46 +' Rs *' i46))) x4 y4 z4 /\
  exists x5 y5 z5, proxed d f5 Rs (e45 +' Rs *' i54) x5 y5 z5 /\
  exists x6 y6 z6, proxed d f6 Rs (e46 -' Rs *' i46) x6 y6 z6 /\
  let e12' := / 2 *' (x1 +' x2) in
  let e13' := / 2 *' (x1 +' x3) in
  let e23' := / 2 *' (x2 +' x3) in
  let e24' := / 2 *' (x2 +' x4) in
  let e34' := / 2 *' (x3 +' x4) in
  let e45' := e45 -' (h / C) *' (i45 +' i54 +' / Rs *' (2 *' e45 -' x4 -' x5)) in
  let e46' := / 2 *' (x4 +' x6) in
  let i12' := i12 +' (h / Ind) *' (e12' -' x1) in
  let i13' := i13 +' (h / Ind) *' (e13' -' x1) in
  let i23' := i23 +' (h / Ind) *' (e23' -' x2) in
  let i24' := i24 +' (h / Ind) *' (e24' -' x2) in
  let i34' := i34 +' (h / Ind) *' (e34' -' x3) in
  let i45' := i45 +' (h / Ind) *' (e45' -' x4) in
  let i54' := i54 +' (h / Ind) *' (e45' -' x5) in
  let i46' := i46 +' (h / Ind) *' (e46' -' x4) in
  let E1 := gamma * (nsq d (e12 -' xs) + nsq d (e13 -' xs) + nsq d (e23 -' xs) + nsq d (e24 -' xs)
                     + nsq d (e34 -' xs) + nsq d (e46 -' xs))
            + Ind * nsq d (i12 -' y12s) + Ind * nsq d (i13 -' y13s) + Ind * nsq d (i23 -' y23s) + Ind * nsq d (i24 -' y24s)
            + Ind * nsq d (i34 -' y34s) + Ind / 2 * nsq d (i45 +' y5s) + Ind / 2 * nsq d (i54 -' y5s) + Ind * nsq d (i46 +' y6s)
            + C / 2 * nsq d (e45 -' xs) in
  let E2 := gamma * (nsq d (e12' -' xs) + nsq d (e13' -' xs) + nsq d (e23' -' xs) + nsq d (e24' -' xs)
                     + nsq d (e34' -' xs) + nsq d (e46' -' xs))
            + Ind * nsq d (i12' -' y12s) + Ind * nsq d (i13' -' y13s) + Ind * nsq d (i23' -' y23s) + Ind * nsq d (i24' -' y24s)
            + Ind * nsq d (i34' -' y34s) + Ind / 2 * nsq d (i45' +' y5s) + Ind / 2 * nsq d (i54' -' y5s) + Ind * nsq d (i46' +' y6s)
            + C / 2 * nsq d (e45' -' xs) in
  let Delta := rho * (2 / Rs * (nsq d (e12' -' x1) + nsq d (e13' -' x3) + nsq d (e23' -' x2) + nsq d (e24' -' x2)
                               + nsq d (e34' -' x4) + nsq d (e46' -' x6))
                      + / Rs * (nsq d (e45' -' x5) + nsq d (e45' -' x4)))
               + eta * (z1 - f1s - dot d y1s (x1 -' xs) + (z2 - f2s - dot d y2s (x2 -' xs))
                        + (z3 - f3s - dot d y3s (x3 -' xs)) + (z4 - f4s - dot d y4s (x4 -' xs))
                        + (z5 - f5s - dot d y5s (x5 -' xs)) + (z6 - f6s - dot d y6s (x6 -' xs))) in
  q = E2 - (E1 - Delta).

(** The example circuit of the paper: one function, two capacitors, three resistors. *)
Definition example_fC3RC_run (d : nat) (mu : Q) (L : extq) (C Rs h alpha beta eta rho q : R) : Prop :=
  exists phi, function_class d mu L phi /\
  exists xs fs, in_Rd d xs /\ query d phi xs vzero fs /\
  exists z1, in_Rd d z1 /\
  exists e21, in_Rd d e21 /\
  exists x1 g1 f1, proxed d phi (Rs / 2) z1 x1 g1 f1 /\
  let y1 := (2 / Rs) *' (z1 -' x1) in
  let e215 := e21 -' (alpha * h / (2 * Rs * C)) *' (Rs *' y1 +' 3 *' e21) in
  let z15 := z1 -' (alpha * h / (4 * Rs * C)) *' ((5 * Rs) *' y1 +' 3 *' e21) in
  exists x15 g15 f15, proxed d phi (Rs / 2) z15 x15 g15 f15 /\
  let y15 := (2 / Rs) *' (z15 -' x15) in
  let e22 := e21 -' (beta * h / (2 * Rs * C)) *' (Rs *' y1 +' 3 *' e21)
                 -' ((1 - beta) * h / (2 * Rs * C)) *' (Rs *' y15 +' 3 *' e215) in
  let z2 := z1 -' (beta * h / (4 * Rs * C)) *' ((5 * Rs) *' y1 +' 3 *' e21)
               -' ((1 - beta) * h / (4 * Rs * C)) *' ((5 * Rs) *' y15 +' 3 *' e215) in
  exists x2 g2 f2, proxed d phi (Rs / 2) z2 x2 g2 f2 /\
  let y2 := (2 / Rs) *' (z2 -' x2) in
  let v11 := / 2 *' e21 -' z1 in
  let v12 := / 2 *' e22 -' z2 in
  let v21 := e21 in
  let v22 := e22 in
  let e11 := / 2 *' (e21 -' Rs *' y1) in
  let E1 := C / 2 * nsq d (v11 +' xs) + C / 2 * nsq d v21 in
  let E2 := C / 2 * nsq d (v12 +' xs) + C / 2 * nsq d v22 in
  let Delta := eta * dot d (x1 -' xs) y1 + rho / Rs * (nsq d e11 + nsq d (e11 -' e21) + nsq d e21) in
  q = E2 - (E1 - Delta).

(** The hello-world example of the README. *)
Definition readme_run (d : nat) (mu : Q) (L : extq) (Rs C h eta q : R) : Prop :=
  exists phi, function_class d mu L phi /\
  exists xs fs, in_Rd d xs /\ query d phi xs vzero fs /\
  exists z1, in_Rd d z1 /\
  exists w1, in_Rd d w1 /\
  exists x1 g1 f1, proxed d phi (Rs / 2) z1 x1 g1 f1 /\
  let y1 := (2 / Rs) *' (z1 -' x1) in
  let e1 := / 2 *' (w1 -' Rs *' y1) in
  let v1 := / 2 *' w1 -' z1 in
  let u1 := w1 in
  let w2 := w1 -' (h / (2 * Rs * C)) *' (Rs *' y1 +' 3 *' w1) in
  let z2 := z1 -' (h / (4 * Rs * C)) *' ((5 * Rs) *' y1 +' 3 *' w1) in
  exists x2 g2 f2, proxed d phi (Rs / 2) z2 x2 g2 f2 /\
  let y2 := (2 / Rs) *' (z2 -' x2) in
  let v2 := / 2 *' w2 -' z2 in
  let u2 := w2 in
  let E1 := C / 2 * nsq d (v1 +' xs) + C / 2 * nsq d u1 in
  let E2 := C / 2 * nsq d (v2 +' xs) + C / 2 * nsq d u2 in
  let Delta := eta * dot d (x1 -' xs) y1 in
  q = E2 - (E1 - Delta).
