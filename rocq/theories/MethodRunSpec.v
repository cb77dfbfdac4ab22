(** What the runs of the methods are claimed to do. *)
From Coq Require Import List Reals.
From Verif Require Import Prelude Spec BuilderSpec MethodModel MethodSpec.
Import ListNotations.
Local Open Scope R_scope.

(** A run returns one report per iteration, whatever the number of
    iterations, and the quantity [m] of the k-th report tends to 0. *)
Definition settles {X} (run : nat -> res (list X)) (m : X -> R) : Prop :=
  exists rep : nat -> X, (forall itr, run itr = Ok (map rep (seq 0 itr))) /\ Un_cv (fun k => m (rep k)) 0.

(** The same for a run whose reports may be nan ([None]): either all reports are
    nan from some iteration on, or none is and the quantity tends to 0. *)
Definition settles_or_nan {X} (run : nat -> list (option X)) (m : X -> R) : Prop :=
  exists rep : nat -> option X, (forall itr, run itr = map rep (seq 0 itr)) /\
    ((exists N, forall k, (N <= k)%nat -> rep k = None) \/
     exists rep' : nat -> X, (forall k, rep k = Some (rep' k)) /\ Un_cv (fun k => m (rep' k)) 0).

(** a mixing matrix of a connected graph with diagonal entries at least [c] *)
Definition mixing (n : nat) (es : list (nat * nat)) (W : nat -> nat -> R) (c : R) : Prop :=
  (0 < n)%nat /\ connected n es /\ (forall i j, linked es i j -> (i < n)%nat /\ (j < n)%nat /\ i <> j) /\
  symmetric n W /\ row_stochastic n W /\ nonneg_entries n W /\ supported n es W /\ forall i, (i < n)%nat -> c <= W i i.

(** the parameters for which dadmm is claimed to converge: no capacitor, positive resistance, step below 2/R *)
Definition good_steps (a : dalg) : Prop :=
  match a with
  | Dadmm Rs => 0 < Rs
  | CirDadmm Rs h Ind => 0 < Rs /\ 0 < Ind /\ 0 < h /\ h * Rs < 2 * Ind
  | CirDadmmC _ _ _ _ => False
  end.

(** optimal value of the sum at the point [x] *)
Definition value_at (n : nat) (phi : nat -> rfun) (x : vec) : R := rsum n (fun j => val (phi j) x).
