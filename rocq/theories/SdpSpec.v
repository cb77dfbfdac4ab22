(** What the semidefinite problems are meant to say, written with real sums. *)
From Coq Require Import List Arith Bool String QArith Reals Qreals.
From Verif Require Import Prelude Sympy AlgebraModel FunctionModel CircuitModel ParsingModel ParsingSpec SolverModel SolverSpec QcqpModel QcqpSpec SdpModel.
Import ListNotations.
Local Open Scope R_scope.

(** Feasible points of a cvxpy problem: every constraint holds and every block
    declared [PSD=True] is symmetric positive semidefinite. *)
Definition sdp_feasible (d : sdp) (a : nat -> R) : Prop :=
  feasible (sd_opti d) a /\ Forall (fun v => psd (cv_rows v) (fun i j => a (cv_at v i j))) (sd_psd d).

(** The environment given by a dictionary of numbers. *)
Definition dict_env (params : list (string * Q)) : env := fun x =>
  match dget String.eqb x params with Some q => Q2R q | None => 0 end.

(** ** The relaxation *)

(** [(A_st + A_ts) / 2] for two names *)
Definition pair_at (nm : names) (A : nat -> nat -> R) (s t : string) : R :=
  match dget vname_eqb (VStr s) (nm_idx nm), dget vname_eqb (VStr t) (nm_idx nm) with
  | Some i, Some j => (A i j + A j i) / 2
  | _, _ => 0
  end.

(** the redundant inequalities of a positive semidefinite matrix *)
Definition minor_ineqs (n : nat) (A : nat -> nat -> R) : Prop :=
  (forall i, (i < n)%nat -> 0 <= A i i) /\
  forall i j, (i < n)%nat -> (j < n)%nat -> - ((A i i + A j j) / 2) <= A i j <= (A i i + A j j) / 2.

Record relax_point (nm : names) (Fs Gs : list cmatrix) (nI nE dimF dimG : nat)
    (x : nat -> R) (W X Z : nat -> nat -> R) : Prop := mkRP {
  rp_one : x 0%nat = 1;
  rp_X0 : forall i, (i < List.length (nm_list nm) + nI + nE)%nat -> X i 0%nat = x i /\ X 0%nat i = x i;
  rp_W : forall i j, (i < List.length (nm_list nm) + nI + nE)%nat -> (j < List.length (nm_list nm) + nI + nE)%nat -> W i j = X i j;
  rp_Wx : let n := (List.length (nm_list nm) + nI + nE)%nat in
    (forall i, (i < n)%nat -> W n i = x i /\ W i n = x i) /\ W n n = 1;
  rp_minW : minor_ineqs (List.length (nm_list nm) + nI + nE + 1) W;
  rp_minX : minor_ineqs (List.length (nm_list nm) + nI + nE) X;
  rp_box : Q2R micro <= at_name nm x "eta" /\ Q2R micro <= at_name nm x "h" /\ 0 <= at_name nm x "rho" /\
    -1 <= at_name nm x "alpha" <= 1 /\ -1 <= at_name nm x "beta" <= 1;
  rp_F : forall k, (k < dimF)%nat ->
    let nv := List.length (nm_list nm) in
    rsum nv (fun j => coef (last Fs dummy_cm) k j * x j) =
    rsum (nI + nE) (fun i => rsum nv (fun j => coef (nth i Fs dummy_cm) k j * ((X (nv + i)%nat j + X j (nv + i)%nat) / 2)));
  rp_G : forall k1 k2, (k1 < dimG)%nat -> (k2 < dimG)%nat ->
    let nv := List.length (nm_list nm) in
    let k := (k1 * dimG + k2)%nat in
    rsum nv (fun j => coef (last Gs dummy_cm) k j * x j) + Z k1 k2 =
    rsum (nI + nE) (fun i => rsum nv (fun j => coef (nth i Gs dummy_cm) k j * ((X (nv + i)%nat j + X j (nv + i)%nat) / 2)));
  rp_mono : forall s pre t, In (VStr s) (nm_list nm) -> split_us s = (pre ++ [t])%list -> pre <> [] ->
    at_name nm x s = pair_at nm X (join_us pre) t;
  rp_lamb : forall i, (i < nI)%nat -> 0 <= x (List.length (nm_list nm) + i)%nat
}.

(** Bounds: on a whole block, on one entry of x, on all multipliers; other
    names are ignored. *)
Definition relax_bounds (b : option bounds) (nm : names) (nd dimG : nat) (x : nat -> R) (X Z : nat -> nat -> R) : Prop :=
  match b with
  | None => True
  | Some b => forall s ub lb, In (s, (ub, lb)) b ->
      let n := (List.length (nm_list nm) + nd)%nat in
      if String.eqb s "Z" then forall i j, (i < dimG)%nat -> (j < dimG)%nat -> in_bounds (Z i j) ub lb
      else if String.eqb s "x" then forall i, (i < n)%nat -> in_bounds (x i) ub lb
      else if String.eqb s "X" then forall i j, (i < n)%nat -> (j < n)%nat -> in_bounds (X i j) ub lb
      else match dget vname_eqb (VStr s) (nm_idx nm) with
           | Some i => in_bounds (x i) ub lb
           | None => if String.eqb s "lamb" then forall i, (i < nd)%nat -> in_bounds (x (List.length (nm_list nm) + i)%nat) ub lb else True
           end
  end.

(** Bounds on declared parameters only. *)
Definition param_bounds (params : list string) (b : option bounds) : Prop :=
  match b with
  | None => True
  | Some b => forall s ub lb, In (s, (ub, lb)) b -> In s params /\ ~ In s ["Z"; "x"; "X"]%string
  end.
