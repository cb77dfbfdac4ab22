(** Basic vocabulary shared by the model: Python exceptions as values, Python
    dictionaries as insertion-ordered association lists, finite real sums and
    vectors of R^d.  No proofs about the code live here. *)
From Coq Require Import List Arith Bool String QArith Reals.
Import ListNotations.

(** Exceptions the modelled code can raise (built-in Python exceptions). *)
Inductive exn : Type :=
| AssertionError | TypeError | ValueError | KeyError | IndexError
| ZeroDivisionError | RecursionError | UnboundLocalError
| NotImplementedError | AttributeError | NameError
| SymbolicDenominator (* not a Python exception: division by a symbolic
                         denominator is outside the model, see DESIGN.md *).

Inductive res (A : Type) : Type :=
| Ok (a : A)
| Err (e : exn).
Arguments Ok {A} a.
Arguments Err {A} e.

Definition bindr {A B} (r : res A) (k : A -> res B) : res B :=
  match r with Ok a => k a | Err e => Err e end.
Notation "'let?' x ':=' r 'in' k" := (bindr r (fun x => k))
  (at level 200, x pattern, r at level 100, k at level 200).

(** Python [dict]: insertion ordered; assignment to an existing key keeps its
    position, assignment to a new key appends. *)
Section Dict.
  Context {K V : Type}.
  Variable eqb : K -> K -> bool.

  Fixpoint dget (k : K) (d : list (K * V)) : option V :=
    match d with
    | [] => None
    | (k', v) :: d' => if eqb k k' then Some v else dget k d'
    end.

  Definition dmem (k : K) (d : list (K * V)) : bool :=
    match dget k d with Some _ => true | None => false end.

  Fixpoint dset (k : K) (v : V) (d : list (K * V)) : list (K * V) :=
    match d with
    | [] => [(k, v)]
    | (k', v') :: d' => if eqb k k' then (k', v) :: d' else (k', v') :: dset k v d'
    end.
End Dict.

Definition keys {K V} (d : list (K * V)) : list K := map fst d.

(** Finite sums. *)
Fixpoint rsum (n : nat) (f : nat -> R) : R :=
  match n with
  | O => 0%R
  | S m => (rsum m f + f m)%R
  end.

Definition lsum {A} (f : A -> R) (l : list A) : R :=
  fold_right (fun a s => (f a + s)%R) 0%R l.

(** Vectors of R^d are functions [nat -> R] of which [dot d] only reads the
    coordinates below [d]. *)
Definition vec := nat -> R.
Definition vzero : vec := fun _ => 0%R.
Definition vadd (u v : vec) : vec := fun k => (u k + v k)%R.
Definition vsub (u v : vec) : vec := fun k => (u k - v k)%R.
Definition vopp (u : vec) : vec := fun k => (- u k)%R.
Definition vscal (c : R) (u : vec) : vec := fun k => (c * u k)%R.
Definition dot (d : nat) (u v : vec) : R := rsum d (fun k => (u k * v k)%R).
Definition nsq (d : nat) (u : vec) : R := dot d u u.

(** Reading with default, used for Python indexing after a range check. *)
Definition upd1 {A} (f : nat -> A) (i : nat) (a : A) : nat -> A :=
  fun k => if Nat.eqb k i then a else f k.
Definition upd2 {A} (f : nat -> nat -> A) (i j : nat) (a : A) : nat -> nat -> A :=
  fun k l => if Nat.eqb k i && Nat.eqb l j then a else f k l.

Global Arguments Qred : simpl never.
Global Arguments Qplus : simpl never.
Global Arguments Qmult : simpl never.
Global Arguments Qinv : simpl never.
Global Arguments Qeq_bool : simpl never.
