(** What the two QCQP programs are meant to say about the vector
    x = (v, lambda, nu, P), written with real sums only. *)
From Coq Require Import List Arith Bool String QArith Reals Qreals.
From Verif Require Import Prelude Sympy AlgebraModel FunctionModel CircuitModel ParsingModel ParsingSpec SolverModel QcqpModel.
Import ListNotations.
Local Open Scope R_scope.

(** Coefficient (k, j), zero beyond the last column. *)
Definition coef (A : cmatrix) (k j : nat) : R := if Nat.ltb j (cm_cols A) then Q2R (cm_at A k j) else 0.

(** Entry (i, c) of the lower triangular matrix whose rows are packed one
    after the other in [z]. *)
Definition tri (z : nat -> R) (i c : nat) : R := if Nat.leb c i then z (Nat.div (i * (i + 1)) 2 + c)%nat else 0.

(** Value that x gives to a name. *)
Definition at_name (nm : names) (y : nat -> R) (s : string) : R :=
  match dget vname_eqb (VStr s) (nm_idx nm) with Some i => y i | None => 0 end.

(** The constraints common to both programs.  [nv] monomials, [nI]
    inequalities and [nE] equalities; the last matrix of [Fs] and [Gs] belongs
    to the performance metric. *)
Record qcqp_point (params : list string) (nm : names) (Fs Gs : list cmatrix) (nI nE dimF dimG : nat) (y : nat -> R) : Prop := mkQP {
  qp_one : y 0%nat = 1;
  qp_F : forall k, (k < dimF)%nat ->
    let nv := List.length (nm_list nm) in
    rsum nv (fun j => coef (last Fs dummy_cm) k j * y j) =
    rsum (nI + nE) (fun i => y (nv + i)%nat * rsum nv (fun j => coef (nth i Fs dummy_cm) k j * y j));
  qp_G : forall k1 k2, (k1 < dimG)%nat -> (k2 < dimG)%nat ->
    let nv := List.length (nm_list nm) in
    let k := (k1 * dimG + k2)%nat in
    let P := tri (fun i => y (nv + nI + nE + i)%nat) in
    rsum nv (fun j => coef (last Gs dummy_cm) k j * y j) + rsum dimG (fun c => P k1 c * P k2 c) =
    rsum (nI + nE) (fun i => y (nv + i)%nat * rsum nv (fun j => coef (nth i Gs dummy_cm) k j * y j));
  qp_mono : forall s pre x, In (VStr s) (nm_list nm) -> split_us s = (pre ++ [x])%list -> pre <> [] ->
    at_name nm y s = at_name nm y (join_us pre) * at_name nm y x;
  qp_recip : forall x, In x (inv_discr_params params) ->
    at_name nm y x * at_name nm y ("inv" ++ x)%string = 1 /\ Q2R tiny <= at_name nm y x;
  qp_lamb : forall i, (i < nI)%nat -> 0 <= y (List.length (nm_list nm) + i)%nat;
  qp_diag : forall i, (i < dimG)%nat -> 0 <= tri (fun i => y (List.length (nm_list nm) + nI + nE + i)%nat) i i
}.

(** Bounds on the parameters (or on the whole vector x). *)
Definition x_bounds (b : option bounds) (nm : names) (x_size : nat) (y : nat -> R) : Prop :=
  match b with
  | None => True
  | Some b => forall s ub lb, In (s, (ub, lb)) b ->
      forall i, (if String.eqb s "x" then (i < x_size)%nat else dget vname_eqb (VStr s) (nm_idx nm) = Some i) ->
      (match ub with Some q => y i <= Q2R q | None => True end) /\ (match lb with Some q => Q2R q <= y i | None => True end)
  end.

(** The extra sign constraints of solve_ipopt_qcqp. *)
Definition x_signs (nm : names) (y : nat -> R) : Prop :=
  forall s, In s ["eta"; "h"; "rho"; "gamma"]%string -> Q2R tiny <= at_name nm y s.

(** Side conditions on the parameters: reciprocals, bounds, and with [signs]
    the lower bounds that solve_ipopt_qcqp (but not the matrix variant) puts
    on four of them. *)
Definition vec_side_ok (signs : bool) (p : problem) (b : option bounds) (r : env) : Prop :=
  (forall x, In x (inv_discr_params (pr_params p)) -> r x * r ("inv" ++ x)%string = 1 /\ Q2R tiny <= r x) /\
  (match b with
   | None => True
   | Some b => forall x ub lb, In (x, (ub, lb)) b -> In x (pr_params p) /\ x <> "x"%string /\
       (match ub with Some q => r x <= Q2R q | None => True end) /\ (match lb with Some q => Q2R q <= r x | None => True end)
   end) /\
  (signs = true -> forall s, In s ["eta"; "h"; "rho"; "gamma"]%string -> Q2R tiny <= r s).
