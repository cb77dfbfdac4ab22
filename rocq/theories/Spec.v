(** Textbook convex analysis on R^d, independent of the model: functions with
    a domain, subgradients, (strong) convexity, smoothness. *)
From Coq Require Import Reals.
From Verif Require Import Prelude.
Local Open Scope R_scope.

(** A real function defined on a subset of R^d (extended-valued convex
    functions: the value is +infinity off the domain). *)
Record rfun : Type := mkFun { dom : vec -> Prop; val : vec -> R }.

(** the point t*x + (1-t)*y *)
Definition segment (t : R) (x y : vec) : vec := vadd (vscal t x) (vscal (1 - t) y).

(** [g] is a subgradient of [phi] at [x]. *)
Definition subgradient (d : nat) (phi : rfun) (x g : vec) : Prop :=
  dom phi x /\ forall y, dom phi y -> val phi y >= val phi x + dot d g (vsub y x).

Definition convex (phi : rfun) : Prop :=
  forall x y t, dom phi x -> dom phi y -> 0 <= t <= 1 ->
    dom phi (segment t x y) /\
    val phi (segment t x y) <= t * val phi x + (1 - t) * val phi y.

Definition strongly_convex (d : nat) (mu : R) (phi : rfun) : Prop :=
  forall x y t, dom phi x -> dom phi y -> 0 <= t <= 1 ->
    dom phi (segment t x y) /\
    val phi (segment t x y) <= t * val phi x + (1 - t) * val phi y - mu / 2 * (t * (1 - t)) * nsq d (vsub x y).

(** [phi] is finite everywhere, has gradient [grad x] at every [x] (the
    derivative along every line), and the gradient is L-Lipschitz. *)
Definition smooth (d : nat) (L : R) (phi : rfun) : Prop :=
  (forall x, dom phi x) /\
  exists grad : vec -> vec,
    (forall x u, derivable_pt_lim (fun t => val phi (vadd x (vscal t u))) 0 (dot d (grad x) u)) /\
    (forall x y, nsq d (vsub (grad x) (grad y)) <= (L * L) * nsq d (vsub x y)).

(** A triple (x, g, f) sampled from [phi]: g is a subgradient at x, f the value.
    For a differentiable function the only subgradient is the gradient. *)
Definition sampled (d : nat) (phi : rfun) (x g : vec) (f : R) : Prop :=
  subgradient d phi x g /\ val phi x = f.

(** [x] minimises [phi]. *)
Definition minimiser (phi : rfun) (x : vec) : Prop :=
  dom phi x /\ forall y, dom phi y -> val phi x <= val phi y.
