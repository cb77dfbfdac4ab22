(** Vocabulary for the miscellaneous helpers. *)
From Coq Require Import List Arith Reals Permutation.
From Verif Require Import Prelude.
Import ListNotations.
Local Open Scope R_scope.

(** [f] is a polynomial of degree at most [d] in one variable. *)
Definition poly_fun (d : nat) (f : R -> R) : Prop :=
  exists c : nat -> R, forall t, f t = rsum (S d) (fun k => c k * t ^ k).

(** v^T Q w *)
Definition bilinear (n : nat) (Q : nat -> nat -> R) (v w : nat -> R) : R :=
  rsum n (fun r => rsum n (fun c => v r * Q r c * w c)).

(** Columns of [V] are orthonormal eigenvectors of [A] for [lam]. *)
Definition eigendecomposition (n : nat) (A : nat -> nat -> R) (lam : nat -> R) (V : nat -> nat -> R) : Prop :=
  (forall r c, (r < n)%nat -> (c < n)%nat -> A r c = rsum n (fun k => lam k * V r k * V c k)) /\
  (forall k l, (k < n)%nat -> (l < n)%nat -> rsum n (fun r => V r k * V r l) = if Nat.eqb k l then 1 else 0) /\
  (forall r c, (r < n)%nat -> (c < n)%nat -> rsum n (fun k => V r k * V c k) = if Nat.eqb r c then 1 else 0).

(** [idx] lists the positions 0..n-1 so that [lam] increases. *)
Definition sorts (n : nat) (lam : nat -> R) (idx : nat -> nat) : Prop :=
  Permutation (map idx (seq 0 n)) (seq 0 n) /\
  forall i j, (i <= j)%nat -> (j < n)%nat -> lam (idx i) <= lam (idx j).

(** Sum of the entries start .. stop-1 (missing entries count as zero),
    divided by the number of positions. *)
Definition window_mean (start stop : nat) (l : list R) : R :=
  rsum (stop - start) (fun k => nth (start + k) l 0) / (INR stop - INR start).
