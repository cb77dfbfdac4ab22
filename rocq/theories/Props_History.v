(** C07, C08: several problems in one interpreter. *)
From Coq Require Import List Arith Bool String QArith.
From Verif Require Import Prelude Sympy AlgebraModel FunctionModel CircuitModel SessionModel RenameFacts Examples.
Import ListNotations.
Local Open Scope nat_scope.

(** ** C07 *)
(** Whatever program [l] ran before, a program [l'] starting with CircuitOpt()
    ends with the same symbolic matrices, or the same exception, as in a fresh
    interpreter, and with the same declared parameters. *)
Theorem c07_history_independent SY : forall l l',
  let a := run SY session0 (l ++ ONewProblem :: l') in
  let b := run SY session0 (ONewProblem :: l') in
  fst (symbolic SY (se_pb a) (se_st a)) = fst (symbolic SY (se_pb b) (se_st b)) /\
  pr_params (se_pb a) = pr_params (se_pb b).
Proof. exact (history SY). Qed.
Print Assumptions c07_history_independent.

(** [quad_prog] itself creates a point before its CircuitOpt(); here it runs
    after itself, and its matrices have two class constraints. *)
Example c07_case :
  match symbolic sympy0 (se_pb (run sympy0 session0 (quad_prog OConvex ++ quad_prog (OStrongly 1))))
                        (se_st (run sympy0 session0 (quad_prog OConvex ++ quad_prog (OStrongly 1)))) with
  | (Ok r, _) => keys (sr_exp r) = [SK 0 0 0 1; SK 0 0 1 0; SObj]
  | _ => False
  end.
Proof. vm_compute. reflexivity. Qed.

(** ** C08 *)
(** After a second CircuitOpt() every problem whose metric mentions a leaf
    fails to assemble (the class counters are back to 0). *)
Theorem c08_second_problem_breaks_first SY : forall s p,
  (exists m, pr_metric p = Some m /\ mentions_leaf m) ->
  exists e, fst (symbolic SY p (snd (circuit_opt s))) = Err e.
Proof. exact (second_problem SY). Qed.
Print Assumptions c08_second_problem_breaks_first.

Theorem c08_first_stays_usable_refuted : exists l,
  let a := run sympy0 session0 l in
  (exists r s, symbolic sympy0 (se_pb a) (se_st a) = (Ok r, s)) /\
  (exists e, fst (symbolic sympy0 (se_pb a) (snd (circuit_opt (se_st a)))) = Err e).
Proof.
  exists (quad_prog OConvex). cbv zeta. set (a := run _ _ _). split.
  - destruct (symbolic sympy0 (se_pb a) (se_st a)) as [[r|e] s] eqn:E; [exists r, s; reflexivity|].
    assert (H : match fst (symbolic sympy0 (se_pb a) (se_st a)) with Ok _ => true | Err _ => false end = true) by (vm_compute; reflexivity).
    rewrite E in H. discriminate H.
  - apply c08_second_problem_breaks_first. 
    destruct (pr_metric (se_pb a)) as [m|] eqn:E; [|vm_compute in E; discriminate E].
    exists m. split; [reflexivity|]. vm_compute in E. injection E; intros <-. do 2 eexists. split; [left; reflexivity|discriminate].
Qed.
Print Assumptions c08_first_stays_usable_refuted.

(** When the second problem has created leaves of its own, the first one may
    assemble without any error, but with the constraints of the second. *)
Theorem c08_silent_aliasing_refuted : exists l l2,
  let a := run sympy0 session0 l in
  let b := run sympy0 a (ONewProblem :: l2) in
  match fst (symbolic sympy0 (se_pb a) (se_st a)), fst (symbolic sympy0 (se_pb a) (se_st b)) with
  | Ok r1, Ok r2 => keys (sr_exp r1) = [SK 0 0 0 1; SK 0 0 1 0; SObj] /\ keys (sr_exp r2) = [SObj]
  | _, _ => False
  end.
Proof.
  exists (quad_prog OConvex), [OConvex; OStationary 0; OPoint; OPoint; OExpr]. vm_compute. split; reflexivity.
Qed.
Print Assumptions c08_silent_aliasing_refuted.
