(** Model of the packing helpers of [ciropt/utils.py].  numpy arrays of floats
    are functions with a shape; the entries are exact. *)
From Coq Require Import List Arith Bool Reals.
From Verif Require Import Prelude.
Import ListNotations.
Local Open Scope nat_scope.

(** A two dimensional array. *)
Record arr2 (A : Type) : Type := mkA2 { a2_rows : nat; a2_cols : nat; a2_at : nat -> nat -> A }.
Arguments mkA2 {A}. Arguments a2_rows {A}. Arguments a2_cols {A}. Arguments a2_at {A}.

(** [M[i, j]] *)
Definition a2_get {A} (M : arr2 A) (i j : nat) : res A :=
  if Nat.ltb i (a2_rows M) && Nat.ltb j (a2_cols M) then Ok (a2_at M i j) else Err IndexError.
(** [M[i, j] = x] *)
Definition a2_set {A} (M : arr2 A) (i j : nat) (x : A) : res (arr2 A) :=
  if Nat.ltb i (a2_rows M) && Nat.ltb j (a2_cols M)
  then Ok (mkA2 (a2_rows M) (a2_cols M) (fun i' j' => if Nat.eqb i' i && Nat.eqb j' j then x else a2_at M i' j'))
  else Err IndexError.

(** nested [for i in range(n): for j in range(n):] *)
Definition loop2 (n : nat) : list (nat * nat) := flat_map (fun i => map (fun j => (i, j)) (seq 0 n)) (seq 0 n).

Fixpoint foldr {A S} (f : A -> S -> res S) (l : list A) (s : S) : res S :=
  match l with [] => Ok s | x :: l' => let? s' := f x s in foldr f l' s' end.

Section Packing.
  Context {A : Type} (zero : A).

  (** utils.py:83-90 [flatten_lamb]; the result is the column in order *)
  Definition flatten_lamb (M : arr2 A) : res (list A) :=
    foldr (fun ij acc => if Nat.eqb (fst ij) (snd ij) then Ok acc
                         else let? x := a2_get M (fst ij) (snd ij) in Ok (acc ++ [x]))
          (loop2 (a2_rows M)) [].

  (** utils.py:71-80 [reshape_lamb_2d]; [int(np.sqrt(n))] is the integer square
      root (floating point rounding is not modelled) *)
  Definition reshape_lamb_2d (lamb : list A) : res (arr2 A) :=
    let size := Nat.sqrt (List.length lamb) + 1 in
    let? r := foldr (fun ij st => if Nat.eqb (fst ij) (snd ij) then Ok st
                                  else match nth_error lamb (snd st) with
                                       | None => Err IndexError
                                       | Some x => let? M := a2_set (fst st) (fst ij) (snd ij) x in Ok (M, snd st + 1)
                                       end)
                    (loop2 size) (mkA2 size size (fun _ _ => zero), 0) in
    Ok (fst r).

  (** utils.py:93-97 [flatten_lower_tri] of a square array: [res] has
      n(n+1)/2 entries and slice i is overwritten by row i up to the diagonal *)
  Definition flatten_lower_tri (P : arr2 A) : list A :=
    let n := a2_rows P in
    map (fold_left (fun (r : nat -> A) i =>
                      let lo := Nat.div (i * (i + 1)) 2 in
                      fun k => if Nat.leb lo k && Nat.ltb k (lo + i + 1) then a2_at P i (k - lo) else r k)
                   (seq 0 n) (fun _ => zero))
        (seq 0 (Nat.div (n * (n + 1)) 2)).
End Packing.
