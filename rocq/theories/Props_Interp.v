(** C17: the interpolation constraints are exact.  [se_st (run SY session0 l)]
    is the state reached by an arbitrary program [l] of API calls; a valuation
    [v] gives a dimension, vectors and values to the leaf symbols. *)
From Coq Require Import List Arith Bool String QArith Reals Qreals Lra Lia.
From Verif Require Import Prelude PreludeFacts Sympy SympyFacts AlgebraModel Denote AlgebraFacts
  FunctionModel CircuitModel SymSpec GramFacts SymFacts Spec SpecFacts ClassSpec ClassFacts CertSpec
  StateSpec SessionModel StateFacts CertFacts ClassProps Examples InterpProps Props_Classes.
Import ListNotations.
Local Open Scope R_scope.

(** ** C17: the data satisfies the generated constraints if and only if it is
    sampled from a function of the class. *)
Theorem c17_constraints_exact SY : sympy_ok SY ->
  forall l f fn s' fn' v, let s := se_st (run SY session0 l) in
    In f (st_flist s) -> dget Nat.eqb f (st_funs s) = Some fn -> fn_leaf fn = true ->
    class_params_ok (fn_class fn) ->
    add_class_constraints SY f s = (Ok tt, s') -> dget Nat.eqb f (st_funs s') = Some fn' ->
    (forall e, In e (fn_cons fn') -> den_e v e <= 0) <->
    exists phi, in_class (v_dim v) (fn_class fn) phi /\ forall t, In t (fn_pts fn) -> rec_sampled v phi t.
Proof. exact (class_exact SY). Qed.
Print Assumptions c17_constraints_exact.

(** ** The whole problem: the matrices handed to the solver describe exactly
    the executions on functions of the declared classes. *)
Theorem c17_problem_exact SY : sympy_ok SY ->
  forall l sr s' v, let se := run SY session0 l in let s := se_st se in
    symbolic SY (se_pb se) s = (Ok sr, s') -> constant_free (se_pb se) s ->
    (forall f fn, In f (st_flist s) -> dget Nat.eqb f (st_funs s) = Some fn -> fn_leaf fn = true -> class_params_ok (fn_class fn)) ->
    (forall b F i j w, dget skey_eqb (SK b F i j) (sr_exp sr) = Some w ->
      (b = 0%nat -> paired s v w <= 0) /\ (b = 1%nat -> paired s v w = 0)) <->
    constraints_hold v (se_pb se) /\ exists phi, consistent v phi s.
Proof. exact (problem_exact SY). Qed.
Print Assumptions c17_problem_exact.

(** A number bounds the metric over the matrix inequalities if and only if it
    bounds the metric over all functions of the declared classes. *)
Theorem c17_bound_exact SY : sympy_ok SY ->
  forall l sr s' m wm B, let se := run SY session0 l in let s := se_st se in
    symbolic SY (se_pb se) s = (Ok sr, s') -> constant_free (se_pb se) s ->
    (forall f fn, In f (st_flist s) -> dget Nat.eqb f (st_funs s) = Some fn -> fn_leaf fn = true -> class_params_ok (fn_class fn)) ->
    pr_metric (se_pb se) = Some m -> dget skey_eqb SObj (sr_exp sr) = Some wm ->
    (forall v,
      (forall b F i j w, dget skey_eqb (SK b F i j) (sr_exp sr) = Some w ->
        (b = 0%nat -> paired s v w <= 0) /\ (b = 1%nat -> paired s v w = 0)) -> paired s v wm <= B) <->
    (forall v phi, consistent v phi s -> constraints_hold v (se_pb se) -> den_e v m <= B).
Proof. exact (bound_exact SY). Qed.
Print Assumptions c17_bound_exact.

(** Data that meets the constraints, and data that does not: the records are
    (1, 1, 1/2) and (0, 0, 0); with the values exchanged there is no convex
    function. *)
Definition bad_val : valuation := mkVal (v_dim quad_val) (v_pt quad_val) (fun lf => 1 / 2 - v_fv quad_val lf) (v_env quad_val).
Example c17_case : forall decl, In decl [OConvex; OStrongly (1 # 2); OSmoothSC (1 # 2) (Fin 2)] ->
  let s := se_st (run sympy0 session0 (quad_prog decl)) in
  exists f fn s' fn', In f (st_flist s) /\ dget Nat.eqb f (st_funs s) = Some fn /\ fn_leaf fn = true /\
    class_params_ok (fn_class fn) /\
    add_class_constraints sympy0 f s = (Ok tt, s') /\ dget Nat.eqb f (st_funs s') = Some fn' /\
    List.length (fn_cons fn') = 2%nat /\
    (forall e, In e (fn_cons fn') -> den_e quad_val e <= 0) /\
    exists e, In e (fn_cons fn') /\ 0 < den_e bad_val e.
Proof.
  intros decl Hd s. destruct (c14_c16_case decl Hd) as (f & fn & s' & fn' & Hf & E & H & E' & HL & HP & HC & HS). fold s in Hf, E, H.
  assert (K : fn_leaf fn = true /\ exists a b c d a' b' d', fn_pts fn = [mkTrip a (leaf_point (mkLeaf b 0)) (leaf_point (mkLeaf c 1)) (leaf_expr (mkLeaf d 0));
      mkTrip a' (leaf_point (mkLeaf b' 2)) zero_point (leaf_expr (mkLeaf d' 1))]).
  { clear -Hd Hf E. subst s. destruct Hd as [<-|[<-|[<-|[]]]]; vm_compute in Hf; destruct Hf as [<-|[]]; vm_compute in E; injection E; intros <-; (split; [reflexivity|]); do 7 eexists; reflexivity. }
  destruct K as (El & a & b & c & d & a' & b' & d' & Ep). exists f, fn, s', fn'.
  split; [exact Hf|]. split; [exact E|]. split; [exact El|]. split; [exact HP|]. split; [exact H|]. split; [exact E'|]. split; [exact HL|]. split.
  - apply (class_sound sympy0 sympy0_ok (quad_prog decl) f fn s' fn' quad_val quad Hf E H E' HP HC HS).
  - destruct (enumeration sympy0 sympy0_ok (quad_prog decl) f fn Hf E El HP) as (s2 & fn2 & H2 & E2 & _ & K). fold s in H2. rewrite H in H2. injection H2; intros <-. rewrite E' in E2. injection E2; intros <-.
    rewrite Ep in K. destruct (K 0%nat 1%nat) as (e & He & V); [simpl; lia|simpl; lia|lia|]. exists e. split; [apply (nth_error_In _ _ He)|].
    rewrite (V bad_val). cbv zeta. cbn [nth t_x t_g t_f].
    assert (Q1 : Q2R 1 = 1) by (unfold Q2R; simpl; lra).
    assert (F1 : den_e bad_val (leaf_expr (mkLeaf d' 1)) = 1 / 2) by (unfold den_e; simpl; rewrite Q1; lra).
    assert (F0 : den_e bad_val (leaf_expr (mkLeaf d 0)) = 0) by (unfold den_e; simpl; rewrite Q1; lra).
    rewrite F0, F1. set (x0 := den_p bad_val (leaf_point (mkLeaf b 0))). set (x1 := den_p bad_val (leaf_point (mkLeaf b' 2))). set (g0 := den_p bad_val (leaf_point (mkLeaf c 1))).
    assert (D : forall y, dot (v_dim bad_val) (den_p bad_val zero_point) y = 0) by (intros y; unfold dot; apply rsum_zero; intros; unfold den_p; simpl; ring).
    assert (B : forall y z w r p q, 0 <= r -> 0 <= q -> 0 < 1 / 2 - 0 + 0 + r * nsq (v_dim bad_val) y /\ 0 < 1 / 2 - 0 + 0 + r * nsq (v_dim bad_val) z + q * nsq (v_dim bad_val) (vsub w p)).
    { intros y z w r p q Hr Hq. pose proof (nsq_nonneg (v_dim bad_val) y). pose proof (nsq_nonneg (v_dim bad_val) z). pose proof (nsq_nonneg (v_dim bad_val) (vsub w p)).
      assert (0 <= r * nsq (v_dim bad_val) y) by (apply Rmult_le_pos; easy). assert (0 <= r * nsq (v_dim bad_val) z) by (apply Rmult_le_pos; easy).
      assert (0 <= q * nsq (v_dim bad_val) (vsub w p)) by (apply Rmult_le_pos; easy). lra. }
    clear -HP D B. destruct (fn_class fn) as [| |mu L|mu]; cbn [interp_value]; simpl in HP; rewrite D.
    + lra.
    + lra.
    + apply (B x0); [apply Rlt_le, Rdiv_lt_0_compat; lra|]. apply Rmult_le_pos; [lra|]. apply Rlt_le, Rinv_0_lt_compat.
      assert (Q2R mu / Q2R L < 1) by (apply (Rmult_lt_reg_r (Q2R L)); [lra|]; unfold Rdiv; rewrite Rmult_assoc, Rinv_l by lra; lra). lra.
    + apply (B _ x0 x0 _ x0 0); lra.
Qed.

(** A program with a user constraint whose assembly succeeds, with no constants. *)
Example c17_problem_case : let se := run sympy0 session0 (quad_prog OConvex ++ [OConstraint 2 "inequality"]) in
  exists sr s', symbolic sympy0 (se_pb se) (se_st se) = (Ok sr, s') /\ constant_free (se_pb se) (se_st se) /\
    (forall f fn, In f (st_flist (se_st se)) -> dget Nat.eqb f (st_funs (se_st se)) = Some fn -> fn_leaf fn = true -> class_params_ok (fn_class fn)) /\
    exists m wm, pr_metric (se_pb se) = Some m /\ dget skey_eqb SObj (sr_exp sr) = Some wm.
Proof.
  intros se.
  assert (H : match symbolic sympy0 (se_pb se) (se_st se) with
    (Ok sr, _) => exists wm, dget skey_eqb SObj (sr_exp sr) = Some wm | _ => False end) by (vm_compute; eexists; reflexivity).
  destruct (symbolic sympy0 (se_pb se) (se_st se)) as [[sr|] s']; [|easy]. exists sr, s'. split; [easy|].
  assert (NC : forall e, forallb (fun kw => match fst kw with KOne => false | _ => true end) (ex_dict e) = true -> no_const e).
  { intros e He w r Hin. rewrite forallb_forall in He. specialize (He _ Hin). easy. }
  split; [|split].
  - split; [|split].
    + intros m Hm. vm_compute in Hm. injection Hm; intros <-. apply NC. reflexivity.
    + apply Forall_forall. intros c Hc. apply NC. vm_compute in Hc. destruct Hc as [<-|[]]. reflexivity.
    + intros f fn Hf E _. vm_compute in Hf. destruct Hf as [<-|[]]. vm_compute in E. injection E; intros <-. apply Forall_forall. intros t Ht. apply NC. simpl in Ht. destruct Ht as [<-|[<-|[]]]; reflexivity.
  - intros f fn Hf E _. vm_compute in Hf. destruct Hf as [<-|[]]. vm_compute in E. injection E; intros <-. exact I.
  - destruct H as [wm Hw]. eexists. exists wm. split; [vm_compute; reflexivity|exact Hw].
Qed.
