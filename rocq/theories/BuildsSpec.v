(** What it means that a builder builds the right problem. *)
From Coq Require Import List String QArith Reals.
From Verif Require Import Prelude Sympy AlgebraModel Denote FunctionModel CircuitModel Spec ClassSpec CertSpec StateSpec
  StateFacts CertFacts SolverSpec BuilderSpec.
Import ListNotations.
Local Open Scope R_scope.

(** The problem is well formed: what the theorems about [solve] ask for. *)
Record well_posed (s : state) (p : problem) : Prop := mkWP {
  wp_inv : Inv s;
  wp_own : own_pb s p;
  wp_params : Forall good_param (pr_params p);
  wp_declared : declared p s;
  wp_const : constant_free p s;
  wp_obj : pr_obj p = Some (Sym "eta")
}.

(** [q] is a value of the metric: the leaf points are vectors of R^d, the leaf
    functions are functions of their classes from which the records are
    sampled, and the extra constraints hold. *)
Definition metric_value (s : state) (p : problem) (d : nat) (r : env) (q : R) : Prop :=
  exists v phi, v_dim v = d /\ v_env v = r /\ (forall l, in_Rd d (v_pt v l)) /\
    consistent v phi s /\ constraints_hold v p /\ exists m, pr_metric p = Some m /\ den_e v m = q.

(** The builder [k] succeeds from [s0] and its metric takes exactly the values in [A]. *)
Definition builds (k : M problem) (s0 : state) (params : list string) (A : nat -> env -> R -> Prop) : Prop :=
  exists p s, k s0 = (Ok p, s) /\ well_posed s p /\ pr_params p = params /\ forall d r q, metric_value s p d r q <-> A d r q.


(** The modes of a builder.  With [None] (Ciropt mode) the parameters are
    symbols with the values [r]; with a dictionary (verification mode) they are
    the numbers of the dictionary, which must have the names the builder reads. *)
Definition value (params : option (list (string * Q))) (r : env) (x : string) : R :=
  match params with
  | None => r x
  | Some ps => Q2R (match dget String.eqb x ps with Some q => q | None => 0 end)
  end.
Definition has_keys (params : option (list (string * Q))) (names : list string) : Prop :=
  match params with None => True | Some ps => forall x, In x names -> exists q, dget String.eqb x ps = Some q end.
