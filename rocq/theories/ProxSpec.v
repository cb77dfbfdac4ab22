(** The functions whose proximal operators opt_problems/ implements in closed form. *)
From Coq Require Import Arith Bool Reals.
From Verif Require Import Prelude Spec.
Local Open Scope R_scope.

(** indicator of the half space a^T y <= b *)
Definition halfspace (d : nat) (a : vec) (b : R) : rfun := mkFun (fun y => dot d a y <= b) (fun _ => 0).
(** ||y - b||_2 *)
Definition distance (d : nat) (b : vec) : rfun := mkFun (fun _ => True) (fun y => sqrt (nsq d (vsub y b))).
(** ||y - b||_2 + theta ||y - c||_2^2 *)
Definition distance_sc (d : nat) (b c : vec) (theta : R) : rfun :=
  mkFun (fun _ => True) (fun y => sqrt (nsq d (vsub y b)) + theta * nsq d (vsub y c)).
(** (1/2) (y - b)^T P (y - b) *)
Definition quad_at (d : nat) (P : nat -> vec) (b : vec) : rfun :=
  mkFun (fun _ => True) (fun y => / 2 * rsum d (fun i => (y i - b i) * dot d (P i) (vsub y b))).
(** rho ||y||_1 *)
Definition l1 (d : nat) (rho : R) : rfun := mkFun (fun _ => True) (fun y => rho * rsum d (fun k => Rabs (y k))).
(** (1/2) ||A y - b||_2^2, [m] rows *)
Definition least_squares (m d : nat) (A : nat -> vec) (b : vec) : rfun :=
  mkFun (fun _ => True) (fun y => / 2 * rsum m (fun i => (dot d (A i) y - b i) * (dot d (A i) y - b i))).
(** (1/2) y^T Q y + p^T y *)
Definition quadratic (d : nat) (Q : nat -> vec) (p : vec) : rfun :=
  mkFun (fun _ => True) (fun y => / 2 * rsum d (fun i => y i * dot d (Q i) y) + dot d p y).
(** Q is symmetric positive semidefinite on R^d *)
Definition psd_matrix (d : nat) (Q : nat -> vec) : Prop :=
  (forall i j, (i < d)%nat -> (j < d)%nat -> Q i j = Q j i) /\ forall v, 0 <= rsum d (fun i => v i * dot d (Q i) v).
(** [solve] returns solutions in R^d of the systems T x = r *)
Definition solves (d : nat) (solve : (nat -> vec) -> vec -> vec) (T : nat -> vec) (r : vec) : Prop :=
  (forall k, (d <= k)%nat -> solve T r k = 0) /\ forall i, (i < d)%nat -> dot d (T i) (solve T r) = r i.

(** the objectives of the geometric median problems: nodes 3 and 4 (counted from 0) differ *)
Definition median_fun (d : nat) (b c : nat -> vec) (theta : R) (j : nat) : rfun :=
  if Nat.eqb j 3 || Nat.eqb j 4 then distance_sc d (b j) (c j) theta else distance d (b j).
Definition anorm_fun (d : nat) (b : nat -> vec) (P : nat -> nat -> vec) (j : nat) : rfun :=
  if Nat.eqb j 3 || Nat.eqb j 4 then quad_at d (P j) (b j) else distance d (b j).
