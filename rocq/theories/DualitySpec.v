(** Vocabulary for the statement that no valid rate is missed. *)
From Coq Require Import List Arith Bool String QArith Reals.
From Verif Require Import Prelude Sympy AlgebraModel Denote FunctionModel CircuitModel SymSpec Spec ClassSpec CertSpec.
Import ListNotations.
Local Open Scope R_scope.

(** The data [v] satisfies every constraint of the problem with room to spare:
    each of the user's constraints is an inequality that holds strictly, or says
    0 <= 0 or 0 = 0 whatever the data; for every leaf function the parameters of
    the class are meaningful and the interpolation inequality of every two
    distinct records holds strictly. *)
Definition strictly_feasible (v : valuation) (p : problem) (s : state) : Prop :=
  (forall c, In c (pr_cons p) -> c_kind c = Inequality /\ den_e v (c_expr c) < 0 \/
     (forall v', v_env v' = v_env v -> den_e v' (c_expr c) = 0)) /\
  (forall f fn, In f (st_flist s) -> dget Nat.eqb f (st_funs s) = Some fn -> fn_leaf fn = true ->
     class_params_ok (fn_class fn) /\
     forall i j, (i < List.length (fn_pts fn))%nat -> (j < List.length (fn_pts fn))%nat -> i <> j ->
     let ti := nth i (fn_pts fn) dummy_trip in let tj := nth j (fn_pts fn) dummy_trip in
     interp_value (v_dim v) (fn_class fn)
       (den_p v (t_x ti)) (den_p v (t_g ti)) (den_e v (t_f ti))
       (den_p v (t_x tj)) (den_p v (t_g tj)) (den_e v (t_f tj)) < 0).

(** With the parameters at [r], the metric is non-positive for every choice of
    functions of the declared classes, in every dimension, and every run. *)
Definition metric_nonpos (r : env) (p : problem) (s : state) (m : expr) : Prop :=
  forall v phi, v_env v = r -> consistent v phi s -> constraints_hold v p -> den_e v m <= 0.
