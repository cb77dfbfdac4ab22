(** C09-C13: evaluation of functions.  [run SY session0 l] is the session
    reached by a program [l]; [regular] is defined in FunctionSpec. *)
From Coq Require Import List Arith Bool String QArith Reals Qreals Lra Lia.
From Verif Require Import Prelude PreludeFacts Sympy SympyFacts AlgebraModel Denote AlgebraFacts
  FunctionModel CircuitModel Spec SpecFacts ClassSpec
  StateSpec SessionModel StateFacts FunctionSpec FunctionFacts FunctionFacts2 FunctionProps Examples.
Import ListNotations.
Local Open Scope nat_scope.

(** ** C09 *)
(** oracle, gradient and value of every function object, at every point, are
    the weighted sums of what its components have recorded there. *)
Theorem c09_composite_evaluation SY : sympy_ok SY -> forall l i F j p fn, regular SY session0 l ->
  let se := run SY session0 l in
  nth_error (se_fns se) i = Some F -> nth_error (se_pts se) j = Some p -> pruned p ->
  dget Nat.eqb F (st_funs (se_st se)) = Some fn ->
  (exists g e s', oracle SY F p (se_st se) = (Ok (g, e), s') /\ decomposed s' (fn_dict fn) p g e) /\
  (exists g s', gradient SY F p (se_st se) = (Ok g, s') /\ exists e, decomposed s' (fn_dict fn) p g e) /\
  (exists e s', value SY F p (se_st se) = (Ok e, s') /\ exists g, decomposed s' (fn_dict fn) p g e).
Proof. exact (composite_evaluation SY). Qed.
Print Assumptions c09_composite_evaluation.

(** The components of F+G, F-G, -F, c*F, F/q are the corresponding
    combinations; reuse_gradient is their conjunction. *)
Theorem c09_function_arithmetic SY : sympy_ok SY -> forall l i j a b fa fb, let se := run SY session0 l in
  nth_error (se_fns se) i = Some a -> nth_error (se_fns se) j = Some b ->
  dget Nat.eqb a (st_funs (se_st se)) = Some fa -> dget Nat.eqb b (st_funs (se_st se)) = Some fb ->
  let is (m : M nat) (reuse : bool) (c : env -> (nat -> R) -> R) := exists f s' fn, m (se_st se) = (Ok f, s') /\
     dget Nat.eqb f (st_funs s') = Some fn /\ fn_reuse fn = reuse /\ forall r phi, comb r phi (fn_dict fn) = c r phi in
  is (fn_add SY a b) (fn_reuse fa && fn_reuse fb) (fun r phi => (comb r phi (fn_dict fa) + comb r phi (fn_dict fb))%R) /\
  is (fn_sub SY a b) (fn_reuse fa && fn_reuse fb) (fun r phi => (comb r phi (fn_dict fa) - comb r phi (fn_dict fb))%R) /\
  is (fn_neg a) (fn_reuse fa) (fun r phi => (- comb r phi (fn_dict fa))%R) /\
  (forall c, is (fn_scale c a) (fn_reuse fa) (fun r phi => (ev r c * comb r phi (fn_dict fa))%R)) /\
  (forall q, Qeq_bool q 0 = false -> is (fn_div a (Num q)) (fn_reuse fa) (fun r phi => (comb r phi (fn_dict fa) / Q2R q)%R)).
Proof. exact (combination SY). Qed.
Print Assumptions c09_function_arithmetic.

(** f1 convex, f2 smooth, F = 2 f1 + f2, evaluated twice at a point x (f2 was
    evaluated there before), a stationary point, a proximal step, a conjugate
    step. *)
Definition mixed_prog : list op :=
  [ONewProblem; OConvex; OSmooth (Fin 1); OFScale (Num 2) 0; OFAdd 2 1; OPoint; OOracle 1 0; OOracle 3 0;
   OStationary 3; OOracle 3 0; OPoint; OConj 6 3; OProx 0 3 (Num (1 # 2)); OOracle 1 0].
Example mixed_regular : regular sympy0 session0 mixed_prog.
Proof.
  unfold mixed_prog; cbn [regular]. repeat match goal with |- regular_call _ _ _ /\ _ => split end; try exact Logic.I.
  - exists 2%Q. split; reflexivity.
  - intros a b Ha Hb f s' H fn Hf. vm_compute in Ha, Hb. injection Ha; injection Hb; intros <- <-. vm_compute in H. injection H; intros <- <-.
    vm_compute in Hf. injection Hf; intros <-. repeat constructor; eexists; split; reflexivity.
  - intros p H. vm_compute in H. injection H; intros <-. reflexivity.
  - intros p H. vm_compute in H. injection H; intros <-. reflexivity.
  - intros p H. vm_compute in H. injection H; intros <-. reflexivity.
  - exists (fun _ => 0%R). simpl. unfold Q2R; simpl. lra.
  - intros p H. vm_compute in H. injection H; intros <-. reflexivity.
Qed.
Example c09_case : let se := run sympy0 session0 mixed_prog in
  regular sympy0 session0 mixed_prog /\ exists F p fn, nth_error (se_fns se) 3 = Some F /\ nth_error (se_pts se) 0 = Some p /\ pruned p /\
    dget Nat.eqb F (st_funs (se_st se)) = Some fn /\ fn_reuse fn = false /\ List.length (fn_dict fn) = 2 /\ List.length (fn_pts fn) = 5.
Proof.
  split; [exact mixed_regular|]. set (se := run _ _ _). 
  destruct (nth_error (se_fns se) 3) as [F|] eqn:E1; [|vm_compute in E1; discriminate E1].
  destruct (nth_error (se_pts se) 0) as [p|] eqn:E2; [|vm_compute in E2; discriminate E2].
  destruct (dget Nat.eqb F (st_funs (se_st se))) as [fn|] eqn:E3.
  - exists F, p, fn. split; [easy|]. split; [easy|]. vm_compute in E1, E2. injection E1; intros <-. injection E2; intros <-.
    vm_compute in E3. injection E3; intros <-. repeat split; reflexivity.
  - vm_compute in E1. injection E1; intros <-. vm_compute in E3. discriminate E3.
Qed.

(** Zero weights break the claim: f - f keeps the component f with weight 0,
    and add_point prunes it away before distributing, so that the returned
    gradient and value are fresh and unconstrained. *)
Theorem c09_zero_weight_difference_refuted : exists l F p fn g e s',
  let se := run sympy0 session0 l in
  nth_error (se_fns se) 1 = Some F /\ nth_error (se_pts se) 0 = Some p /\ pruned p /\
  dget Nat.eqb F (st_funs (se_st se)) = Some fn /\
  (forall r phi, comb r phi (fn_dict fn) = 0%R) /\
  oracle sympy0 F p (se_st se) = (Ok (g, e), s') /\
  (exists v, den_p v g 0 <> 0%R /\ den_e v e <> 0%R) /\
  ~ decomposed s' (fn_dict fn) p g e.
Proof.
  exists [ONewProblem; OConvex; OFSub 0 0; OPoint]. do 6 eexists. cbv zeta.
  split; [vm_compute; reflexivity|]. split; [vm_compute; reflexivity|]. split; [reflexivity|].
  split; [vm_compute; reflexivity|]. split; [intros r phi; unfold comb, lsum; simpl; unfold Q2R; simpl; lra|].
  split; [vm_compute; reflexivity|].
  split.
  - exists (mkVal 1 (fun _ _ => 1%R) (fun _ => 1%R) (fun _ => 0%R)). unfold den_p, den_e, lsum; simpl. unfold Q2R; simpl. split; lra.
  - intros (ts & T & _). simpl in T. apply Forall2_cons_l in T. destruct T as (t & ts' & -> & [(fn & Hf & Ht) _] & _).
    vm_compute in Hf. injection Hf; intros <-. exact Ht.
Qed.
Print Assumptions c09_zero_weight_difference_refuted.

(** F = f1 + 0*f2 with f1 already evaluated at x: the value returned for F at
    x is unrelated to f1's value there, although F = f1. *)
Theorem c09_zero_weight_sum_refuted : exists l f1 F p fn g1 e1 g e s1 s',
  let se := run sympy0 session0 l in
  nth_error (se_fns se) 0 = Some f1 /\ nth_error (se_fns se) 3 = Some F /\ nth_error (se_pts se) 0 = Some p /\ pruned p /\
  dget Nat.eqb F (st_funs (se_st se)) = Some fn /\ (forall r phi, comb r phi (fn_dict fn) = phi f1) /\
  oracle sympy0 f1 p (se_st se) = (Ok (g1, e1), s1) /\ s1 = se_st se /\
  oracle sympy0 F p (se_st se) = (Ok (g, e), s') /\
  (exists v, den_e v e <> den_e v e1) /\
  ~ decomposed s' (fn_dict fn) p g e.
Proof.
  exists [ONewProblem; OSmooth (Fin 1); OSmooth (Fin 1); OPoint; OOracle 0 0; OFScale (Num 0) 1; OFAdd 0 2]. do 10 eexists. cbv zeta.
  split; [vm_compute; reflexivity|]. split; [vm_compute; reflexivity|]. split; [vm_compute; reflexivity|]. split; [reflexivity|].
  split; [vm_compute; reflexivity|]. split; [intros r phi; unfold comb, lsum; simpl; unfold Q2R; simpl; lra|].
  split; [vm_compute; reflexivity|]. split; [vm_compute; reflexivity|]. split; [vm_compute; reflexivity|].
  split.
  - exists (mkVal 1 (fun _ _ => 1%R) (fun l => INR (lctr l)) (fun _ => 0%R)). unfold den_p, den_e, lsum; simpl. unfold Q2R; simpl. lra.
  - intros (ts & T & _). simpl in T.
    repeat (apply Forall2_cons_l in T; destruct T as (? & ? & -> & [(? & ?Hf & ?Ht) _] & T)).
    vm_compute in Hf0. injection Hf0; intros <-. exact Ht0.
Qed.
Print Assumptions c09_zero_weight_sum_refuted.

(** ** C10 *)
Theorem c10_reused_gradient SY : sympy_ok SY -> forall l l' i F j p fn g e s1, regular SY session0 (l ++ OOracle i j :: l') ->
  let se := run SY session0 l in
  nth_error (se_fns se) i = Some F -> nth_error (se_pts se) j = Some p -> pruned p ->
  dget Nat.eqb F (st_funs (se_st se)) = Some fn -> fn_reuse fn = true ->
  oracle SY F p (se_st se) = (Ok (g, e), s1) -> ~ In ONewProblem l' ->
  let se' := run SY session0 (l ++ OOracle i j :: l') in
  oracle SY F p (se_st se') = (Ok (g, e), se_st se').
Proof. exact (reuse_oracle SY). Qed.
Print Assumptions c10_reused_gradient.

Theorem c10_one_record_per_point SY : sympy_ok SY -> forall l F fn t1 t2, regular SY session0 l ->
  let s := se_st (run SY session0 l) in
  In F (st_flist s) -> dget Nat.eqb F (st_funs s) = Some fn -> fn_reuse fn = true ->
  In t1 (fn_pts fn) -> In t2 (fn_pts fn) -> same_point (t_x t1) (t_x t2) = true -> t1 = t2.
Proof. exact (reuse_unique SY). Qed.
Print Assumptions c10_one_record_per_point.

(** The smooth component of [mixed_prog] is evaluated at x at call 6 and again
    at the end, after several evaluations of the sum. *)
Example c10_case : let l := firstn 6 mixed_prog in let l' := skipn 7 mixed_prog in
  l ++ OOracle 1 0 :: l' = mixed_prog /\ ~ In ONewProblem l' /\
  exists F p fn r s1, nth_error (se_fns (run sympy0 session0 l)) 1 = Some F /\ nth_error (se_pts (run sympy0 session0 l)) 0 = Some p /\ pruned p /\
    dget Nat.eqb F (st_funs (se_st (run sympy0 session0 l))) = Some fn /\ fn_reuse fn = true /\
    oracle sympy0 F p (se_st (run sympy0 session0 l)) = (Ok r, s1).
Proof.
  split; [reflexivity|]. split; [simpl; intuition discriminate|]. do 5 eexists.
  split; [vm_compute; reflexivity|]. split; [vm_compute; reflexivity|]. split; [reflexivity|]. split; [vm_compute; reflexivity|].
  split; [reflexivity|]. vm_compute; reflexivity.
Qed.

(** ** C11 *)
Theorem c11_fresh_subgradient_same_value SY : sympy_ok SY -> forall l i F j p fn, regular SY session0 l ->
  let se := run SY session0 l in
  nth_error (se_fns se) i = Some F -> nth_error (se_pts se) j = Some p -> pruned p ->
  dget Nat.eqb F (st_funs (se_st se)) = Some fn -> fn_reuse fn = false ->
  exists x e s' fn' t, oracle SY F p (se_st se) = (Ok (leaf_point x, e), s') /\
    ~ In x (st_plist (se_st se)) /\
    dget Nat.eqb F (st_funs s') = Some fn' /\ fn_pts fn' = fn_pts fn ++ [t] /\ t_x t = p /\ t_g t = leaf_point x /\ t_f t = e /\
    (forall t0, In t0 (fn_pts fn) -> same_point (t_x t0) p = true -> forall v, den_e v e = den_e v (t_f t0)) /\
    (forall t0, In t0 (fn_pts fn) -> same_point (t_x t0) p = true ->
       exists e0, value SY F p (se_st se) = (Ok e0, se_st se) /\ forall v, den_e v e0 = den_e v (t_f t0)).
Proof. exact (nonreuse_oracle SY). Qed.
Print Assumptions c11_fresh_subgradient_same_value.
(** Non-vacuity: [c09_case] (F there is not reused and has two records at x). *)

(** ** C12 *)
Theorem c12_stationary_point SY : sympy_ok SY -> forall l i F fn, regular SY session0 l ->
  let se := run SY session0 l in
  nth_error (se_fns se) i = Some F -> dget Nat.eqb F (st_funs (se_st se)) = Some fn ->
  exists x y s', stationary_point SY F (se_st se) = (Ok (leaf_point x, zero_point, leaf_expr y), s') /\
    ~ In x (st_plist (se_st se)) /\ ~ In y (st_elist (se_st se)) /\
    (exists t fn', dget Nat.eqb F (st_funs s') = Some fn' /\ In t (fn_pts fn') /\ In t (fn_stat fn') /\
       t_x t = leaf_point x /\ t_g t = zero_point /\ t_f t = leaf_expr y) /\
    decomposed s' (fn_dict fn) (leaf_point x) zero_point (leaf_expr y).
Proof. exact (stationary SY). Qed.
Print Assumptions c12_stationary_point.

(** A zero subgradient means a minimiser. *)
Theorem c12_zero_subgradient_minimises : forall d phi x v,
  subgradient d phi x (den_p v zero_point) -> minimiser phi x.
Proof.
  intros d phi x v [Hx Hs]. split; [easy|]. intros y Hy. specialize (Hs y Hy).
  assert (E : dot d (den_p v zero_point) (vsub y x) = 0%R).
  { unfold dot. apply rsum_zero. intros k _. unfold den_p, den_pd, zero_point, lsum; simpl. lra. }
  rewrite E in Hs. lra.
Qed.
Print Assumptions c12_zero_subgradient_minimises.

(** ** C13 *)
Theorem c13_proximal_step SY : sympy_ok SY -> forall l i F j x0 fn gamma, regular SY session0 l ->
  let se := run SY session0 l in
  nth_error (se_fns se) i = Some F -> nth_error (se_pts se) j = Some x0 -> dget Nat.eqb F (st_funs (se_st se)) = Some fn ->
  (exists r, ev r gamma <> 0%R) ->
  exists x gx y s', proximal_step SY x0 F gamma (se_st se) = (Ok (x, leaf_point gx, leaf_expr y), s') /\
    ~ In gx (st_plist (se_st se)) /\ ~ In y (st_elist (se_st se)) /\
    (forall v k, (den_p v x k + ev (v_env v) gamma * den_p v (leaf_point gx) k)%R = den_p v x0 k) /\
    (exists t, recorded s' F t /\ t_x t = x /\ t_g t = leaf_point gx /\ t_f t = leaf_expr y) /\
    decomposed s' (fn_dict fn) x (leaf_point gx) (leaf_expr y).
Proof. exact (proximal SY). Qed.
Print Assumptions c13_proximal_step.

Theorem c13_prox_is_minimiser : forall d phi x g x0 gamma, (0 < gamma)%R -> subgradient d phi x g ->
  (forall k, (x k + gamma * g k)%R = x0 k) ->
  forall y, dom phi y -> (val phi x + nsq d (vsub x x0) / (2 * gamma) <= val phi y + nsq d (vsub y x0) / (2 * gamma))%R.
Proof. exact prox_is_minimiser. Qed.
Print Assumptions c13_prox_is_minimiser.

Theorem c13_subgrad_conjugate SY : sympy_ok SY -> forall l i F j gx fn, regular SY session0 l ->
  let se := run SY session0 l in
  nth_error (se_fns se) i = Some F -> nth_error (se_pts se) j = Some gx -> dget Nat.eqb F (st_funs (se_st se)) = Some fn ->
  exists x y s', subgrad_conjugate SY gx F (se_st se) = (Ok (leaf_point x), s') /\
    ~ In x (st_plist (se_st se)) /\
    (exists t, recorded s' F t /\ t_x t = leaf_point x /\ (forall v, den_p v (t_g t) = den_p v gx) /\ t_f t = leaf_expr y) /\
    decomposed s' (fn_dict fn) (leaf_point x) gx (leaf_expr y).
Proof. exact (conjugate SY). Qed.
Print Assumptions c13_subgrad_conjugate.

Theorem c13_conjugate_is_maximiser : forall d phi x g, subgradient d phi x g ->
  forall y, dom phi y -> (dot d g y - val phi y <= dot d g x - val phi x)%R.
Proof. exact conj_is_maximiser. Qed.
Print Assumptions c13_conjugate_is_maximiser.
(** Non-vacuity of C12 and C13: [mixed_prog] is regular and [c09_case] gives a
    sum of two functions and a point. *)
