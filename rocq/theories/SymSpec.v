(** What the symbolic assembly should contain: the list of all constraints of
    a problem, each with the key under which it must be stored, written
    directly from the English description (circuit_opt.py:86-107). *)
From Coq Require Import List Arith Bool String.
From Verif Require Import Prelude Sympy AlgebraModel FunctionModel CircuitModel.
Import ListNotations.
Local Open Scope string_scope.

(** Name of the multiplier of the constraint with a given key. *)
Definition dual_of (k : skey) : string :=
  match k with
  | SK 0 f i j => dual_name (lamb_prefix f) i j
  | SK _ f i j => dual_name ("nu" ++ nat_str f) i j
  | SObj => "FG_obj"
  end.

Definition is_ineq_kind (k : ckind) : bool := match k with Inequality => true | Equality => false end.
Definition ineqs (p : problem) : list expr :=
  map c_expr (filter (fun c => is_ineq_kind (c_kind c)) (pr_cons p)).
Definition eqs (p : problem) : list expr :=
  map c_expr (filter (fun c => negb (is_ineq_kind (c_kind c))) (pr_cons p)).

(** 1 when there are extra inequalities, 0 otherwise *)
Definition shift_of (p : problem) : nat := match ineqs p with [] => 0 | _ => 1 end.

Fixpoint number {A} (i : nat) (l : list A) : list (nat * A) :=
  match l with [] => [] | a :: l' => (i, a) :: number (S i) l' end.

Definition extra_ineq_table (p : problem) : list (skey * res expr) :=
  map (fun ie => (SK 0 0 (fst ie) 0, Ok (snd ie))) (number 0 (ineqs p)).
Definition eq_table (p : problem) : list (skey * res expr) :=
  map (fun ie => (SK 1 0 (fst ie) 0, Ok (snd ie))) (number 0 (eqs p)).

Definition dummy_trip : trip := mkTrip 0 zero_point zero_point zero_expr.

(** the interpolation inequality between the i-th and the j-th record *)
Definition interp (SY : sympy) (fn : func) (i j : nat) : res expr :=
  class_constraint SY (fn_class fn) (nth i (fn_pts fn) dummy_trip) (nth j (fn_pts fn) dummy_trip).

Definition fun_table (SY : sympy) (F : nat) (fn : func) : list (skey * res expr) :=
  map (fun ij => (SK 0 F (fst ij) (snd ij), interp SY fn (fst ij) (snd ij)))
      (pairs (List.length (fn_pts fn))).

Definition class_table (SY : sympy) (p : problem) (fns : list func) : list (skey * res expr) :=
  flat_map (fun kf => fun_table SY (fst kf + shift_of p) (snd kf)) (number 0 fns).

Definition constraint_table (SY : sympy) (p : problem) (fns : list func) : list (skey * res expr) :=
  extra_ineq_table p ++ class_table SY p fns ++ eq_table p.
