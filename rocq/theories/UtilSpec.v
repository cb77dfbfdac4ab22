(** Vocabulary for the packing helpers. *)
From Coq Require Import List Arith Bool.
From Verif Require Import Prelude Sympy AlgebraModel FunctionModel CircuitModel.
Import ListNotations.

(** The positions off the diagonal in row-major order. *)
Definition offdiag (n : nat) : list (nat * nat) :=
  filter (fun ij => negb (Nat.eqb (fst ij) (snd ij))) (flat_map (fun i => map (fun j => (i, j)) (seq 0 n)) (seq 0 n)).

(** Keys of the multipliers in the order of the constraints: the extra
    inequalities, the interpolation inequalities function by function and pair
    by pair, the equalities.  Functions are numbered from 1 when there are
    extra inequalities. *)
Fixpoint class_order (f : nat) (sizes : list nat) : list skey :=
  match sizes with [] => [] | n :: l => map (fun ij => SK 0 f (fst ij) (snd ij)) (offdiag n) ++ class_order (S f) l end.
Definition constraint_order (n_ineq n_eq : nat) (sizes : list nat) : list skey :=
  map (fun i => SK 0 0 i 0) (seq 0 n_ineq) ++ class_order (if Nat.eqb n_ineq 0 then 0 else 1) sizes ++ map (fun i => SK 1 0 i 0) (seq 0 n_eq).
