(** What a worst-case certificate is, and what it is supposed to imply. *)
From Coq Require Import List Arith Bool String Reals QArith.
From Verif Require Import Prelude Sympy AlgebraModel Denote FunctionModel CircuitModel SymSpec Spec ClassSpec.
Import ListNotations.
Local Open Scope R_scope.

(** An interpretation of the problem: a dimension, vectors, function values
    and parameter values ([v]), and one function [phi f] for every declared
    function object [f], of the declared class, such that every recorded
    triplet really is a (point, subgradient, value) of that function. *)
Definition consistent (v : valuation) (phi : nat -> rfun) (s : state) : Prop :=
  forall f fn, In f (st_flist s) -> dget Nat.eqb f (st_funs s) = Some fn -> fn_leaf fn = true ->
    class_params_ok (fn_class fn) /\
    in_class (v_dim v) (fn_class fn) (phi f) /\
    Forall (rec_sampled v (phi f)) (fn_pts fn).

(** The user's extra constraints hold. *)
Definition constraints_hold (v : valuation) (p : problem) : Prop :=
  forall c, In c (pr_cons p) ->
    match c_kind c with
    | Inequality => den_e v (c_expr c) <= 0
    | Equality => den_e v (c_expr c) = 0
    end.

(** [r] assigns the multipliers and the parameters; [P] is the factor of the
    slack matrix.  lambda >= 0, sum_k lambda_k F_k = F_obj and
    sum_k lambda_k G_k - G_obj = P P^T. *)
Record certificate (r : env) (sr : symres) (wm : fgw) (dimG dimF m : nat) (P : nat -> nat -> R) : Prop := mkCert {
  cert_nonneg : forall f i j, In (SK 0 f i j) (keys (sr_exp sr)) -> 0 <= r (dual_name (lamb_prefix f) i j);
  cert_F : forall k, (k < dimF)%nat -> ev r (wF (sr_sum sr) k) = ev r (wF wm k);
  cert_G : forall a b, (a < dimG)%nat -> (b < dimG)%nat ->
      ev r (wG (sr_sum sr) a b) - ev r (wG wm a b) = rsum m (fun c => P a c * P b c)
}.

(** The metric, the constraints and the recorded function values contain no
    numerical constant other than zero. *)
Definition no_const (e : expr) : Prop := forall w r, In (KOne, w) (ex_dict e) -> ev r w = 0.
Definition constant_free (p : problem) (s : state) : Prop :=
  (forall m, pr_metric p = Some m -> no_const m) /\
  Forall (fun c => no_const (c_expr c)) (pr_cons p) /\
  forall f fn, In f (st_flist s) -> dget Nat.eqb f (st_funs s) = Some fn -> fn_leaf fn = true ->
    Forall (fun t => no_const (t_f t)) (fn_pts fn).
