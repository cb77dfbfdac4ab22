(** Vocabulary for statements about the nonlinear programs: which number a
    feasible assignment gives to a parameter or multiplier name. *)
From Coq Require Import List Arith Bool String QArith Reals Qreals.
From Verif Require Import Prelude Sympy AlgebraModel FunctionModel CircuitModel ParsingModel ParsingSpec SolverModel.
Import ListNotations.

(** The number that the assignment [a] gives to the scalar variable [name]. *)
Definition plain_env (vars : list (string * cavar)) (a : nat -> R) : env := fun name =>
  match dget String.eqb name vars with
  | Some v => if Nat.eqb (cv_rows v) 1 && Nat.eqb (cv_cols v) 1 then a (cv_base v) else 0%R
  | None => 0%R
  end.

Definition is_dual (s : string) : bool := String.prefix "lamb" s || String.prefix "nu" s.

(** Symbols starting with "lamb" or "nu" are multipliers [prefix|i.j|] and
    denote entry (i, j) of the matrix variable [prefix]; others are scalars. *)
Definition base_env (vars : list (string * cavar)) (a : nat -> R) : env := fun name =>
  if is_dual name then
    match parse_dual name with
    | Ok (p, i, j) => match dget String.eqb p vars with
                     | Some v => if Nat.ltb i (cv_rows v) && Nat.ltb j (cv_cols v) then a (cv_at v i j) else 0%R
                     | None => 0%R
                     end
    | Err _ => 0%R
    end
  else plain_env vars a name.

(** A parameter name the translation treats as one scalar. *)
Definition good_param (s : string) : Prop :=
  simple_name s /\ is_dual s = false /\ s <> "P"%string.

(** Symbols of points, expressions, and of everything a problem records. *)
Definition pt_syms (p : point) (s : string) : Prop := exists kv, In kv (pt_dict p) /\ In s (free (snd kv)).
Definition ex_syms (e : expr) (s : string) : Prop := exists kv, In kv (ex_dict e) /\ In s (free (snd kv)).
Definition only_params (l : list string) (S : string -> Prop) : Prop := forall s, S s -> In s l.

(** Every symbol occurring in the metric, the extra constraints and the
    records of the leaf functions is a declared parameter. *)
Definition declared (p : problem) (s : state) : Prop :=
  (forall m, pr_metric p = Some m -> only_params (pr_params p) (ex_syms m)) /\
  (forall c, In c (pr_cons p) -> only_params (pr_params p) (ex_syms (c_expr c))) /\
  (forall f fn t, In f (st_flist s) -> dget Nat.eqb f (st_funs s) = Some fn -> fn_leaf fn = true ->
     In t (fn_pts fn) ->
     only_params (pr_params p) (pt_syms (t_x t)) /\ only_params (pr_params p) (pt_syms (t_g t)) /\
     only_params (pr_params p) (ex_syms (t_f t))).

(** * Well-formed Opti objects *)
Local Open Scope nat_scope.

(** All decision variables of an expression / constraint have numbers below [n]. *)
Fixpoint ids_lt (n : nat) (e : cexpr) : Prop :=
  match e with
  | CNum _ => True
  | CVar i => i < n
  | CAdd a b | CSub a b | CMul a b => ids_lt n a /\ ids_lt n b
  end.
Definition con_lt (n : nat) (c : ccon) : Prop :=
  match c with CEq a b | CGe a b => ids_lt n a /\ ids_lt n b end.

(** Constraints and named blocks only use variables created so far. *)
Record wf_o (o : opti) : Prop := mkWfo {
  wfo_cons : Forall (con_lt (op_next o)) (op_cons o);
  wfo_vars : forall n v, dget String.eqb n (op_vars o) = Some v -> cv_base v + cv_rows v * cv_cols v <= op_next o
}.

(** No name in [ca_vars] contains an underscore. *)
Definition simple_keys (o : opti) : Prop := forall n v, dget String.eqb n (op_vars o) = Some v -> has_char us n = false.

(** * Side conditions the builder adds besides the certificate *)
Definition side_ok (p : problem) (b : option bounds) (r : env) : Prop :=
  (forall x, In x (inv_discr_params (pr_params p)) -> (r x * r ("inv" ++ x)%string = 1)%R /\ (Q2R tiny <= r x)%R) /\
  (match b with
   | None => True
   | Some b => forall x ub lb, In (x, (ub, lb)) b -> In x (pr_params p) /\
       (match ub with Some q => (r x <= Q2R q)%R | None => True end) /\ (match lb with Some q => (Q2R q <= r x)%R | None => True end)
   end) /\
  (0 <= r "eta"%string /\ 0 <= r "rho"%string /\ 0 <= r "h"%string)%R.
Definition lower_tri (n : nat) (L : nat -> nat -> R) : Prop :=
  (forall i j, i < j -> j < n -> L i j = 0%R) /\ (forall i, i < n -> (0 <= L i i)%R).

(** Symmetric with a non-negative quadratic form. *)
Local Open Scope R_scope.
Definition psd (n : nat) (Z : nat -> nat -> R) : Prop :=
  (forall i j, (i < n)%nat -> (j < n)%nat -> Z i j = Z j i) /\
  (forall x : nat -> R, 0 <= rsum n (fun i => rsum n (fun j => x i * x j * Z i j))).


(** * Names of reciprocals *)
Local Open Scope string_scope.
(** Every parameter whose name contains "inv" is "inv" followed by a plain
    scalar name without "inv". *)
Definition recip_names (l : list string) : Prop := forall m, In m l -> infix "inv" m = true ->
  exists X, m = "inv" ++ X /\ infix "inv" X = false /\ is_dual X = false /\ X <> "P".

(** * Bounds *)
(** The decision variables a bound on [name] is meant for: the variable of
    that name or the entry of the vector "x" that [name2idx] assigns to it. *)
Definition bound_target (o : opti) (name2idx : list (vname * nat)) (name : string) : option (list nat) :=
  match dget String.eqb name (op_vars o) with
  | Some v => Some (cv_ids v)
  | None => match dget vname_eqb (VStr name) name2idx, dget String.eqb "x" (op_vars o) with
            | Some i, Some v => if Nat.ltb i (cv_rows v) then Some [cv_at v i 0] else None
            | _, _ => None
            end
  end.
Definition in_bounds (x : R) (ub lb : option Q) : Prop :=
  (match ub with Some q => x <= Q2R q | None => True end) /\
  (match lb with Some q => Q2R q <= x | None => True end).
