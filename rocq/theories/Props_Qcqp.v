(** C24, C25, C27, C28, C32-C35: the two QCQP formulations, the coefficient
    matrices behind them and the packing helpers.

    [qcqp_nlp SY p b extra s] is the program that [solve(solver="ipopt_qcqp")]
    hands to casadi; [extra] counts the unused variables it declares.
    [qcqp_matrix_nlp] belongs to [solve(solver="ipopt_qcqp_matrix")].  States
    are reached by arbitrary programs of API calls as in Props_Solver. *)
From Coq Require Import List Arith Bool String Ascii QArith Reals Qreals Lra Lia.
From Verif Require Import Prelude PreludeFacts Sympy SympyFacts AlgebraModel Denote FunctionModel CircuitModel
  SymSpec Spec ClassSpec CertSpec StateSpec SessionModel StateFacts CertFacts Examples
  ParsingModel ParsingSpec ParsingFacts CoeffFacts SolverModel SolverSpec SolverFacts IpoptFacts IpoptTail IpoptProof IpoptComplete
  MatFacts SolverProps Props_Solver QcqpModel QcqpSpec QcqpFacts QcqpFacts2 QcqpBuild QcqpProof QcqpMain UtilModel UtilSpec UtilFacts.
Import ListNotations.
Local Open Scope nat_scope.
Local Open Scope string_scope.

(** ** C24 *)
Theorem c24_qcqp_sound SY : sympy_ok SY ->
  forall l p b extra n s' a v phi, let se := run SY session0 l in let s := se_st se in
    pr_cons p = pr_cons (se_pb se) -> pr_metric p = pr_metric (se_pb se) ->
    NoDup (pr_params p) -> Forall good_param (pr_params p) -> declared p s -> constant_free p s ->
    qcqp_nlp SY p b extra s = (Ok n, s') -> feasible (nlp_opti n) a ->
    (forall x q, In (x, q) (dict_parameters (nlp_opti n) a (pr_params p)) -> v_env v x = q) ->
    consistent v phi s -> constraints_hold v p ->
    exists e, pr_metric p = Some e /\ (den_e v e <= 0)%R.
Proof.
  intros OK l p b extra n s' a v phi se s E1 E2 Nd Hg Hd Hcf H Ha Hv Hc Hh. assert (SI := reachable_inv SY l). fold se in SI.
  assert (HB : own_pb s p) by (unfold own_pb; rewrite E1, E2; apply (si_pb _ SI)).
  exact (vec_sound OK true p b s s' n (si_inv _ SI) Hg Hd (qcqp_prog OK p b s (si_inv _ SI) Nd Hg Hd extra n s' H) a v phi HB Ha Hv Hc Hh Hcf).
Qed.
Print Assumptions c24_qcqp_sound.
Theorem c24_returned_values SY : sympy_ok SY ->
  forall l p b extra n s' a, let s := se_st (run SY session0 l) in
    NoDup (pr_params p) -> Forall good_param (pr_params p) -> declared p s ->
    qcqp_nlp SY p b extra s = (Ok n, s') -> feasible (nlp_opti n) a ->
    map fst (dict_parameters (nlp_opti n) a (pr_params p)) = pr_params p /\
    forall e r, pr_obj p = Some e -> only_params (pr_params p) (fun x => In x (free e)) ->
      (forall x q, In (x, q) (dict_parameters (nlp_opti n) a (pr_params p)) -> r x = q) ->
      ceval a (nlp_obj n) = (- ev r e)%R.
Proof.
  intros OK l p b extra n s' a s Nd Hg Hd H. assert (I := si_inv _ (reachable_inv SY l)).
  exact (vec_returned OK true p b s s' n Hg (qcqp_prog OK p b s I Nd Hg Hd extra n s' H) a).
Qed.
Print Assumptions c24_returned_values.
(** The returned parameters satisfy the reciprocal and sign constraints and the bounds. *)
Theorem c24_side_conditions SY : sympy_ok SY ->
  forall l p b extra n s' a r, let s := se_st (run SY session0 l) in
    NoDup (pr_params p) -> Forall good_param (pr_params p) -> declared p s ->
    qcqp_nlp SY p b extra s = (Ok n, s') -> feasible (nlp_opti n) a ->
    (forall x q, In (x, q) (dict_parameters (nlp_opti n) a (pr_params p)) -> r x = q) ->
    (match b with None => True | Some l => forall x ub lb, In (x, (ub, lb)) l -> In x (pr_params p) /\ x <> "x" end) ->
    vec_side_ok true p b r.
Proof.
  intros OK l p b extra n s' a r s Nd Hg Hd H Ha Hr Hb. assert (I := si_inv _ (reachable_inv SY l)).
  destruct (vec_side OK true p b s s' n Hg (qcqp_prog OK p b s I Nd Hg Hd extra n s' H) a r Ha Hr) as (H1 & H2 & H3).
  split; [exact H1|]. split; [|intros E x Hx; apply (H2 E x Hx)].
  destruct b as [bb|]; [|exact H3]. intros x ub lb Hx. destruct (Hb x ub lb Hx) as [B1 B2]. split; [exact B1|]. split; [exact B2|].
  apply (H3 Hb x ub lb Hx).
Qed.
Print Assumptions c24_side_conditions.
Theorem c24_qcqp_complete SY : sympy_ok SY ->
  forall l p b extra n s' r w m P, let s := se_st (run SY session0 l) in
    NoDup (pr_params p) -> Forall good_param (pr_params p) -> declared p s ->
    qcqp_nlp SY p b extra s = (Ok n, s') -> In (SObj, w) (sr_exp (nlp_sym n)) ->
    certificate r (nlp_sym n) w (st_pctr s) (st_ectr s) m P -> vec_side_ok true p b r ->
    exists a, feasible (nlp_opti n) a /\
      dict_parameters (nlp_opti n) a (pr_params p) = map (fun x => (x, r x)) (pr_params p).
Proof.
  intros OK l p b extra n s' r w m P s Nd Hg Hd H. assert (I := si_inv _ (reachable_inv SY l)).
  exact (vec_complete OK true p b s s' n Hg (qcqp_prog OK p b s I Nd Hg Hd extra n s' H) r w m P).
Qed.
Print Assumptions c24_qcqp_complete.
Theorem c24_qcqp_optimal SY : sympy_ok SY ->
  forall l p b extra n s' a e, let s := se_st (run SY session0 l) in
    NoDup (pr_params p) -> Forall good_param (pr_params p) -> declared p s ->
    pr_obj p = Some e -> only_params (pr_params p) (fun x => In x (free e)) ->
    qcqp_nlp SY p b extra s = (Ok n, s') -> feasible (nlp_opti n) a ->
    (forall a', feasible (nlp_opti n) a' -> (ceval a (nlp_obj n) <= ceval a' (nlp_obj n))%R) ->
    forall r0, (forall x q, In (x, q) (dict_parameters (nlp_opti n) a (pr_params p)) -> r0 x = q) ->
    forall r w m P, In (SObj, w) (sr_exp (nlp_sym n)) ->
      certificate r (nlp_sym n) w (st_pctr s) (st_ectr s) m P -> vec_side_ok true p b r -> (ev r e <= ev r0 e)%R.
Proof.
  intros OK l p b extra n s' a e s Nd Hg Hd He Hs H. assert (I := si_inv _ (reachable_inv SY l)).
  exact (vec_optimal OK true p b s s' n Hg (qcqp_prog OK p b s I Nd Hg Hd extra n s' H) a e He Hs).
Qed.
Print Assumptions c24_qcqp_optimal.
(** The four parameters eta, h, rho and gamma must be declared. *)
Theorem c24_qcqp_needs SY : sympy_ok SY ->
  forall l p b extra n s', let s := se_st (run SY session0 l) in
    NoDup (pr_params p) -> Forall good_param (pr_params p) -> declared p s ->
    qcqp_nlp SY p b extra s = (Ok n, s') ->
    (forall x, In x ["eta"; "h"; "rho"; "gamma"] -> In x (pr_params p)) /\ 1 <= sr_I (nlp_sym n) + sr_E (nlp_sym n).
Proof.
  intros OK l p b extra n s' s Nd Hg Hd H. assert (I := si_inv _ (reachable_inv SY l)).
  destruct (qcqp_prog OK p b s I Nd Hg Hd extra n s' H) as (W & wm & Fs & Gs & nm & cb & all & N & V).
  split; [|exact (vp_dual _ _ _ _ _ _ _ _ _ _ _ _ _ _ V)].
  intros x Hx. apply (name_is_param _ _ _ _ _ _ _ _ _ _ _ _ _ _ V); [apply (vp_signs _ _ _ _ _ _ _ _ _ _ _ _ _ _ V eq_refl x Hx)|].
  simpl in Hx. repeat (destruct Hx as [<-|Hx]; [reflexivity|]). destruct Hx.
Qed.
Print Assumptions c24_qcqp_needs.

(** A convex function recorded at x and at a minimiser, metric
    eta h^2 (f* - f(x)): the vector x contains the products eta*h and
    eta*h*h.  The point eta = 3, h = rho = gamma = 1 with multiplier 3 is
    feasible, and x^2/2 at 1 and 0 meets the hypotheses. *)
Definition mono_prog : list op :=
  [ONewProblem; OConvex; OPoint; OOracle 0 0; OStationary 0; OESub 1 0; OEScale (smul (Sym "h") (smul (Sym "eta") (Sym "h"))) 2; OMetric 3].
Definition mono_assign (i : nat) : R :=
  match i with 0 => 1 | 4 => 3 | 5 => 1 | 6 => 1 | 7 => 1 | 8 => 3 | 9 => 3 | 10 => 3 | _ => 0 end%R.
Definition mono_val : valuation :=
  mkVal 1 (v_pt quad_val) (v_fv quad_val) (fun x => if String.eqb x "eta" then 3 else if String.eqb x "h" then 1 else if String.eqb x "rho" then 1 else if String.eqb x "gamma" then 1 else 0)%R.
Definition mono_nlp : list ccon * list (string * cavar) := Eval vm_compute in
  match qcqp_nlp sympy0 (se_pb (run sympy0 session0 mono_prog)) None 100 (se_st (run sympy0 session0 mono_prog)) with
  | (Ok n, _) => (op_cons (nlp_opti n), op_vars (nlp_opti n)) | _ => ([], []) end.
Lemma mono_pb : let p := se_pb (run sympy0 session0 mono_prog) in
  p = mkProblem ["alpha"; "beta"; "delta"; "eta"; "gamma"; "h"; "rho"] (pr_cons p) (pr_metric p) (pr_obj p).
Proof. vm_compute. reflexivity. Qed.
Lemma mono_ready : let s := se_st (run sympy0 session0 mono_prog) in let p := se_pb (run sympy0 session0 mono_prog) in
  NoDup (pr_params p) /\ Forall good_param (pr_params p) /\ declared p s /\ constant_free p s.
Proof.
  intros s p. assert (Q := mono_pb). cbv zeta in Q. fold p in Q. split.
  { rewrite Q. cbn [pr_params]. repeat constructor; simpl; intuition discriminate. }
  split.
  { rewrite Q. cbn [pr_params]. repeat apply Forall_cons; try apply Forall_nil; (split; [apply simple_has; reflexivity|split; [reflexivity|discriminate]]). }
  split.
  { split; [|split].
    - intros m Hm. vm_compute in Hm. injection Hm as <-. intros x (kv & Hk & Hx). vm_compute in Hk.
      destruct Hk as [<-|[<-|[]]]; vm_compute in Hx; vm_compute; repeat (destruct Hx as [<-|Hx]; [auto 10|]); destruct Hx.
    - intros c [].
    - intros f fn t Hf E1 _ Ht. vm_compute in Hf. destruct Hf as [<-|[]]. vm_compute in E1. injection E1 as <-.
      destruct Ht as [<-|[<-|[]]]; repeat split; intros x (kv & Hk & Hx); vm_compute in Hk;
        repeat (destruct Hk as [<-|Hk]; [vm_compute in Hx; destruct Hx|]); destruct Hk. }
  split; [|split].
  - intros m Hm. vm_compute in Hm. injection Hm as <-. intros w r Hw; vm_compute in Hw; repeat destruct Hw as [Hw|Hw]; try discriminate Hw; destruct Hw.
  - constructor.
  - intros f fn Hf E1 _. vm_compute in Hf. destruct Hf as [<-|[]]. vm_compute in E1. injection E1 as <-.
    repeat constructor; intros w r Hw; vm_compute in Hw; repeat destruct Hw as [Hw|Hw]; try discriminate Hw; destruct Hw.
Qed.
Example c24_case : let se := run sympy0 session0 mono_prog in let s := se_st se in let p := se_pb se in
  exists n s',
    NoDup (pr_params p) /\ Forall good_param (pr_params p) /\ declared p s /\ constant_free p s /\
    qcqp_nlp sympy0 p None 100 s = (Ok n, s') /\ feasible (nlp_opti n) mono_assign /\
    (forall x q, In (x, q) (dict_parameters (nlp_opti n) mono_assign (pr_params p)) -> v_env mono_val x = q) /\
    consistent mono_val (fun _ => quad) s /\ constraints_hold mono_val p /\
    exists e, pr_metric p = Some e /\ (den_e mono_val e = - (3 / 2))%R.
Proof.
  intros se s p.
  assert (H : match qcqp_nlp sympy0 p None 100 s with
    | (Ok n, _) => op_cons (nlp_opti n) = fst mono_nlp /\ op_vars (nlp_opti n) = snd mono_nlp
    | _ => False end) by (vm_compute; split; reflexivity).
  destruct (qcqp_nlp sympy0 p None 100 s) as [[n|] s'] eqn:E; [|destruct H]. destruct H as [H1 H2]. exists n, s'.
  destruct mono_ready as (R1 & R2 & R3 & R4). split; [exact R1|]. split; [exact R2|]. split; [exact R3|]. split; [exact R4|].
  split; [reflexivity|]. clear E. split.
  { unfold feasible. rewrite H1. unfold mono_nlp, mono_assign. cbn [fst]. repeat constructor; simpl; unfold Q2R; simpl; lra. }
  split.
  { unfold dict_parameters. assert (Q := mono_pb). cbv zeta in Q. fold se in Q. fold p in Q. rewrite H2, Q. cbn [pr_params]. unfold mono_nlp. cbn [snd flat_map dget String.eqb Ascii.eqb Bool.eqb cv_rows cv_cols Nat.eqb andb app].
    intros x q Hx. repeat (destruct Hx as [Hx|Hx]; [injection Hx as <- <-; reflexivity|]). destruct Hx. }
  split.
  { intros f fn Hf E1 _. vm_compute in Hf. destruct Hf as [<-|[]]. vm_compute in E1. injection E1 as <-.
    split; [exact I|]. split; [exact quad_convex|]. 
    apply Forall_cons; [|apply Forall_cons; [|apply Forall_nil]]; apply quad_record; try reflexivity;
      unfold den_p, den_pd, den_e; simpl; unfold Q2R; simpl; lra. }
  split; [intros c []|]. eexists. split; [vm_compute; reflexivity|]. unfold den_e. simpl. unfold Q2R; simpl. lra.
Qed.
(** Without rho and gamma the same problem cannot be built this way. *)
Example c24_undeclared : let se := run sympy0 session0 mono_prog in
  fst (qcqp_nlp sympy0 (set_params (se_pb se) ["eta"; "h"]) None 100 (se_st se)) = Err KeyError /\
  exists n s', qcqp_matrix_nlp sympy0 (set_params (se_pb se) ["eta"; "h"]) None (se_st se) = (Ok n, s').
Proof.
  intros se. split; [vm_compute; reflexivity|].
  assert (H : match fst (qcqp_matrix_nlp sympy0 (set_params (se_pb se) ["eta"; "h"]) None (se_st se)) with Ok _ => True | _ => False end) by (vm_compute; exact I).
  destruct (qcqp_matrix_nlp _ _ _ _) as [[n|] s']; [|destruct H]. exists n, s'. reflexivity.
Qed.

(** ** C25 *)
(** The vectors x that extend to a feasible point of the program are those of
    the specification [qcqp_point] within the bounds; solve_ipopt_qcqp also
    requires eta, h, rho, gamma >= 1e-7. *)
Theorem c25_vector_constraints SY : sympy_ok SY ->
  forall l p b extra n s', let s := se_st (run SY session0 l) in
    NoDup (pr_params p) -> Forall good_param (pr_params p) -> declared p s ->
    qcqp_nlp SY p b extra s = (Ok n, s') ->
    exists Fs Gs nm, sp_v_coeff_matrix SY (fg_lists (nlp_sym n) (st_ectr s) (st_pctr s)) (pr_params p) = Ok (Fs, Gs, nm) /\
      let size := List.length (nm_list nm) + sr_I (nlp_sym n) + sr_E (nlp_sym n) + start_idx (st_pctr s) in
      (match b with None => True | Some l => forall x ub lb, In (x, (ub, lb)) l -> x = "x" \/ In (VStr x) (nm_list nm) end ->
       forall y, (exists a, feasible (nlp_opti n) a /\ forall i, i < size -> a i = y i) <->
         qcqp_point (pr_params p) nm Fs Gs (sr_I (nlp_sym n)) (sr_E (nlp_sym n)) (st_ectr s) (st_pctr s) y /\
         x_bounds b nm size y /\ x_signs nm y).
Proof.
  intros OK l p b extra n s' s Nd Hg Hd H.
  exact (qcqp_points OK p b s (si_inv _ (reachable_inv SY l)) Nd Hg Hd true n s' (ex_intro _ extra H)).
Qed.
Print Assumptions c25_vector_constraints.
Theorem c25_matrix_constraints SY : sympy_ok SY ->
  forall l p b n s', let s := se_st (run SY session0 l) in
    NoDup (pr_params p) -> Forall good_param (pr_params p) -> declared p s ->
    qcqp_matrix_nlp SY p b s = (Ok n, s') ->
    exists Fs Gs nm, sp_v_coeff_matrix SY (fg_lists (nlp_sym n) (st_ectr s) (st_pctr s)) (pr_params p) = Ok (Fs, Gs, nm) /\
      let size := List.length (nm_list nm) + sr_I (nlp_sym n) + sr_E (nlp_sym n) + start_idx (st_pctr s) in
      (match b with None => True | Some l => forall x ub lb, In (x, (ub, lb)) l -> x = "x" \/ In (VStr x) (nm_list nm) end ->
       forall y, (exists a, feasible (nlp_opti n) a /\ forall i, i < size -> a i = y i) <->
         qcqp_point (pr_params p) nm Fs Gs (sr_I (nlp_sym n)) (sr_E (nlp_sym n)) (st_ectr s) (st_pctr s) y /\
         x_bounds b nm size y /\ True).
Proof.
  intros OK l p b n s' s Nd Hg Hd H.
  exact (qcqp_points OK p b s (si_inv _ (reachable_inv SY l)) Nd Hg Hd false n s' H).
Qed.
Print Assumptions c25_matrix_constraints.
(** Hence both accept the same x up to the four sign constraints, whatever the bounds. *)
Theorem c25_same_points SY : sympy_ok SY ->
  forall l p b extra nq sq nx sx, let s := se_st (run SY session0 l) in
    NoDup (pr_params p) -> Forall good_param (pr_params p) -> declared p s ->
    qcqp_nlp SY p b extra s = (Ok nq, sq) -> qcqp_matrix_nlp SY p b s = (Ok nx, sx) ->
    nlp_sym nq = nlp_sym nx /\ sq = sx /\
    exists Fs Gs nm, sp_v_coeff_matrix SY (fg_lists (nlp_sym nq) (st_ectr s) (st_pctr s)) (pr_params p) = Ok (Fs, Gs, nm) /\
      forall y, (exists a, feasible (nlp_opti nq) a /\ forall i, i < x_len nm (nlp_sym nq) (st_pctr s) -> a i = y i) <->
                ((exists a, feasible (nlp_opti nx) a /\ forall i, i < x_len nm (nlp_sym nq) (st_pctr s) -> a i = y i) /\ x_signs nm y).
Proof.
  intros OK l p b extra nq sq nx sx s Nd Hg Hd.
  exact (same_programs OK p b s (si_inv _ (reachable_inv SY l)) Nd Hg Hd extra nq sq nx sx).
Qed.
Print Assumptions c25_same_points.
Theorem c25_same_objective SY : sympy_ok SY ->
  forall l p b extra nq sq nx sx a a' e, let s := se_st (run SY session0 l) in
    NoDup (pr_params p) -> Forall good_param (pr_params p) -> declared p s ->
    qcqp_nlp SY p b extra s = (Ok nq, sq) -> qcqp_matrix_nlp SY p b s = (Ok nx, sx) ->
    feasible (nlp_opti nq) a -> feasible (nlp_opti nx) a' -> pr_obj p = Some e -> only_params (pr_params p) (fun x => In x (free e)) ->
    dict_parameters (nlp_opti nq) a (pr_params p) = dict_parameters (nlp_opti nx) a' (pr_params p) ->
    ceval a (nlp_obj nq) = ceval a' (nlp_obj nx).
Proof.
  intros OK l p b extra nq sq nx sx a a' e s Nd Hg Hd.
  exact (same_objective OK p b s (si_inv _ (reachable_inv SY l)) Nd Hg Hd extra nq sq nx sx a a' e).
Qed.
Print Assumptions c25_same_objective.
(** The matrix variant on its own: sound and complete. *)
Theorem c25_matrix_sound SY : sympy_ok SY ->
  forall l p b n s' a v phi, let se := run SY session0 l in let s := se_st se in
    pr_cons p = pr_cons (se_pb se) -> pr_metric p = pr_metric (se_pb se) ->
    NoDup (pr_params p) -> Forall good_param (pr_params p) -> declared p s -> constant_free p s ->
    qcqp_matrix_nlp SY p b s = (Ok n, s') -> feasible (nlp_opti n) a ->
    (forall x q, In (x, q) (dict_parameters (nlp_opti n) a (pr_params p)) -> v_env v x = q) ->
    consistent v phi s -> constraints_hold v p ->
    exists e, pr_metric p = Some e /\ (den_e v e <= 0)%R.
Proof.
  intros OK l p b n s' a v phi se s E1 E2 Nd Hg Hd Hcf H Ha Hv Hc Hh. assert (SI := reachable_inv SY l). fold se in SI.
  assert (HB : own_pb s p) by (unfold own_pb; rewrite E1, E2; apply (si_pb _ SI)).
  exact (vec_sound OK false p b s s' n (si_inv _ SI) Hg Hd (matrix_prog OK p b s (si_inv _ SI) Nd Hg Hd n s' H) a v phi HB Ha Hv Hc Hh Hcf).
Qed.
Print Assumptions c25_matrix_sound.
Theorem c25_matrix_complete SY : sympy_ok SY ->
  forall l p b n s' r w m P, let s := se_st (run SY session0 l) in
    NoDup (pr_params p) -> Forall good_param (pr_params p) -> declared p s ->
    qcqp_matrix_nlp SY p b s = (Ok n, s') -> In (SObj, w) (sr_exp (nlp_sym n)) ->
    certificate r (nlp_sym n) w (st_pctr s) (st_ectr s) m P -> vec_side_ok false p b r ->
    exists a, feasible (nlp_opti n) a /\
      dict_parameters (nlp_opti n) a (pr_params p) = map (fun x => (x, r x)) (pr_params p).
Proof.
  intros OK l p b n s' r w m P s Nd Hg Hd H. assert (I := si_inv _ (reachable_inv SY l)).
  exact (vec_complete OK false p b s s' n Hg (matrix_prog OK p b s I Nd Hg Hd n s' H) r w m P).
Qed.
Print Assumptions c25_matrix_complete.
(** The sign constraints do differ: the matrix variant accepts h = -1, which
    no feasible point of the vector variant has. *)
Definition neg_assign (i : nat) : R :=
  match i with 0 => 1 | 4 => 3 | 6 => -1 | 8 => -3 | 9 => 3 | 10 => 3 | _ => 0 end%R.
Definition mono_matrix_nlp : list ccon * list (string * cavar) := Eval vm_compute in
  match qcqp_matrix_nlp sympy0 (se_pb (run sympy0 session0 mono_prog)) None (se_st (run sympy0 session0 mono_prog)) with
  | (Ok n, _) => (op_cons (nlp_opti n), op_vars (nlp_opti n)) | _ => ([], []) end.
Theorem c25_signs_refuted : let se := run sympy0 session0 mono_prog in let s := se_st se in let p := se_pb se in
  exists nq sq nx sx,
    NoDup (pr_params p) /\ Forall good_param (pr_params p) /\ declared p s /\
    qcqp_nlp sympy0 p None 100 s = (Ok nq, sq) /\ qcqp_matrix_nlp sympy0 p None s = (Ok nx, sx) /\
    feasible (nlp_opti nx) neg_assign /\ dict_parameters (nlp_opti nx) neg_assign ["eta"; "h"] = [("eta", 3%R); ("h", (-1)%R)] /\
    forall a, feasible (nlp_opti nq) a -> ~ In ("h", (-1)%R) (dict_parameters (nlp_opti nq) a (pr_params p)).
Proof.
  intros se s p. destruct mono_ready as (R1 & R2 & R3 & _). fold se s p in R1, R2, R3.
  assert (H : match qcqp_matrix_nlp sympy0 p None s with
    | (Ok n, _) => op_cons (nlp_opti n) = fst mono_matrix_nlp /\ op_vars (nlp_opti n) = snd mono_matrix_nlp
    | _ => False end) by (vm_compute; split; reflexivity).
  assert (H' : match fst (qcqp_nlp sympy0 p None 100 s) with Ok _ => True | _ => False end) by (vm_compute; exact I).
  destruct (qcqp_nlp sympy0 p None 100 s) as [[nq|] sq] eqn:Eq; [|destruct H']. 
  destruct (qcqp_matrix_nlp sympy0 p None s) as [[nx|] sx] eqn:Ex; [|destruct H]. destruct H as [H1 H2]. exists nq, sq, nx, sx.
  split; [exact R1|]. split; [exact R2|]. split; [exact R3|]. split; [reflexivity|]. split; [reflexivity|]. clear Ex H'. split.
  { clear Eq. unfold feasible. rewrite H1. unfold mono_matrix_nlp, neg_assign. cbn [fst]. repeat constructor; simpl; unfold Q2R; simpl; lra. }
  split.
  { clear Eq. unfold dict_parameters. rewrite H2. reflexivity. }
  intros a Ha Hin. set (r := fun x => match find (fun kv => String.eqb x (fst kv)) (dict_parameters (nlp_opti nq) a (pr_params p)) with Some kv => snd kv | None => 0%R end).
  assert (Hk := proj1 (c24_returned_values sympy0 sympy0_ok mono_prog p None 100 nq sq a R1 R2 R3 Eq Ha)).
  assert (Hr : forall x q, In (x, q) (dict_parameters (nlp_opti nq) a (pr_params p)) -> r x = q).
  { unfold r. assert (Nk : NoDup (map fst (dict_parameters (nlp_opti nq) a (pr_params p)))) by (rewrite Hk; exact R1). clear - Nk.
    induction (dict_parameters (nlp_opti nq) a (pr_params p)) as [|[y z] l IH]; intros x q Hx; [destruct Hx|]. simpl in *. inversion Nk; subst.
    destruct Hx as [[= -> ->]|Hx]; [rewrite String.eqb_refl; reflexivity|]. destruct (String.eqb_spec x y) as [->|]; [|apply IH; assumption].
    exfalso. apply H1. apply in_map_iff. exists (y, q). split; [reflexivity|exact Hx]. }
  destruct (c24_side_conditions sympy0 sympy0_ok mono_prog p None 100 nq sq a r R1 R2 R3 Eq Ha Hr Logic.I) as (_ & _ & S).
  specialize (S eq_refl "h" ltac:(simpl; auto)). rewrite (Hr _ _ Hin) in S. unfold Q2R, tiny in S. simpl in S. lra.
Qed.
Print Assumptions c25_signs_refuted.

(** ** C27 *)
(** Row k of each coefficient matrix times the vector of monomials is entry k
    of the flattened symbolic matrix, for all values of the symbols. *)
Theorem c27_coefficient_matrices SY : sympy_ok SY ->
  forall l params Fs Gs nm, NoDup params -> sp_v_coeff_matrix SY l params = Ok (Fs, Gs, nm) ->
    numbered nm /\ Forall2 (represents (nm_list nm)) (map fst l) Fs /\ Forall2 (represents (nm_list nm)) (map snd l) Gs.
Proof. intros OK l params Fs Gs nm Nd H. destruct (coefficients OK l params Fs Gs nm Nd H) as (A & _ & B & C). auto. Qed.
Print Assumptions c27_coefficient_matrices.
Theorem c27_coefficients_total SY : sympy_ok SY ->
  forall l params, NoDup params -> declared_fg params l -> exists Fs Gs nm, sp_v_coeff_matrix SY l params = Ok (Fs, Gs, nm).
Proof. intros OK l params. exact (coefficients_total OK params l). Qed.
Print Assumptions c27_coefficients_total.
Definition c27_lists : list (list sexpr * list sexpr) :=
  [([smul (Sym "h") (smul (Sym "eta") (Sym "h")); Num 2], [sadd (Sym "h") (smul (Num 3) (Sym "rho"))]);
   ([smul (Sym "eta") (Sym "h"); Num 0], [smul (Sym "rho") (Sym "eta")])].
Example c27_case : NoDup ["eta"; "h"; "rho"] /\ declared_fg ["eta"; "h"; "rho"] c27_lists /\
  exists Fs Gs nm, sp_v_coeff_matrix sympy0 c27_lists ["eta"; "h"; "rho"] = Ok (Fs, Gs, nm) /\
    nm_list nm = [VOne; VStr "eta"; VStr "h"; VStr "rho"; VStr "eta_h"; VStr "eta_h_h"; VStr "eta_rho"].
Proof.
  split; [repeat constructor; simpl; intuition discriminate|]. split.
  - intros F G e s Hl He Hs. assert (K : In s ["eta"; "h"; "rho"]).
    { destruct Hl as [[= <- <-]|[[= <- <-]|[]]]; destruct He as [He|He]; simpl in He; decompose [or] He; subst; simpl in Hs; simpl; intuition. }
    split; [exact K|]. apply simple_has. destruct K as [<-|[<-|[<-|[]]]]; reflexivity.
  - set (r := sp_v_coeff_matrix _ _ _).
    assert (H : match r with Ok (_, _, nm) => nm_list nm = [VOne; VStr "eta"; VStr "h"; VStr "rho"; VStr "eta_h"; VStr "eta_h_h"; VStr "eta_rho"] | _ => False end)
      by (vm_compute; reflexivity).
    destruct r as [[[Fs Gs] nm]|]; [|destruct H]. exists Fs, Gs, nm. split; [reflexivity|exact H].
Qed.
(** A parameter declared twice shifts the numbering: the row of a^3 then
    points at a^2. *)
Theorem c27_duplicate_params_refuted : exists Fs Gs nm, sp_v_coeff_matrix sympy0 [([smul (Sym "a") (smul (Sym "a") (Sym "a"))], [])] ["a"; "a"] = Ok (Fs, Gs, nm) /\
  ~ Forall2 (represents (nm_list nm)) [[smul (Sym "a") (smul (Sym "a") (Sym "a"))]] Fs.
Proof.
  set (r := sp_v_coeff_matrix _ _ _).
  assert (H : match r with
    | Ok ([A], _, nm) => nm_list nm = [VOne; VStr "a"; VStr "a"; VStr "a_a"; VStr "a_a_a"] /\ cm_cols A = 4 /\
        map (fun j => Qred (cm_at A 0 j)) (seq 0 4) = [0%Q; 0%Q; 0%Q; 1%Q]
    | _ => False end) by (vm_compute; repeat split; reflexivity).
  destruct r as [[[Fs Gs] nm]|]; [|destruct H]. destruct Fs as [|A [|? ?]]; [destruct H| |destruct H]. exists [A], Gs, nm. split; [reflexivity|].
  destruct H as (H1 & Hc & H2). intros F. inversion F as [|? ? ? ? (_ & _ & R) _]; subst.
  specialize (R (fun _ => 2%R) 0 _ eq_refl). unfold row_times in R. rewrite Hc in R. simpl in H2. injection H2 as A0 A1 A2 A3.
  simpl rsum in R.
  assert (Q0 : forall q q', Qred q = q' -> Q2R q = Q2R q') by (intros q q' <-; apply Qeq_eqR; symmetry; apply Qred_correct).
  rewrite (Q0 _ _ A0), (Q0 _ _ A1), (Q0 _ _ A2), (Q0 _ _ A3), H1 in R. simpl in R. unfold Q2R in R. simpl in R. unfold long in R. simpl in R. lra.
Qed.
Print Assumptions c27_duplicate_params_refuted.

(** ** C28 *)
(** The list starts with 1 and the parameters, has no duplicates, and every
    further name is a product whose prefix is in the list. *)
Theorem c28_prefix_closed SY : sympy_ok SY ->
  forall l params Fs Gs nm, NoDup params -> declared_fg params l -> sp_v_coeff_matrix SY l params = Ok (Fs, Gs, nm) ->
    NoDup (nm_list nm) /\ exists ext, nm_list nm = (VOne :: map VStr (params ++ ext))%list /\
      forall s, In s ext -> exists pre x, split_us s = (pre ++ [x])%list /\ pre <> [] /\ In x params /\
        Forall (fun y => In y params) pre /\ In (VStr (join_us pre)) (nm_list nm).
Proof. intros OK l params Fs Gs nm Nd D H. destruct (names_general OK l params Fs Gs nm Nd D H) as [N E]. split; [apply N|exact E]. Qed.
Print Assumptions c28_prefix_closed.
(** The quadratic constraints leave no freedom: each entry of x is the
    monomial in the values of the parameters. *)
Theorem c28_determined SY : sympy_ok SY ->
  forall l params Fs Gs nm, NoDup params -> Forall simple_name params -> declared_fg params l -> sp_v_coeff_matrix SY l params = Ok (Fs, Gs, nm) ->
    forall (y : nat -> R) (r : env), y 0 = 1%R ->
      (forall s pre x, In (VStr s) (nm_list nm) -> split_us s = (pre ++ [x])%list -> pre <> [] ->
         at_name nm y s = (at_name nm y (join_us pre) * at_name nm y x)%R) ->
      (forall x, In x params -> r x = at_name nm y x) ->
      forall i, i < List.length (nm_list nm) -> y i = vname_val r (nth i (nm_list nm) VOne).
Proof.
  intros OK l params Fs Gs nm Nd Sm D H. apply (v_values params nm (names_general OK l params Fs Gs nm Nd D H)).
  eapply Forall_impl; [|exact Sm]. intros s Hs. apply simple_has, Hs.
Qed.
Print Assumptions c28_determined.
(** In the programs: every feasible x lists the monomials of its parameters. *)
Theorem c28_program SY : sympy_ok SY ->
  forall l p (matrix : bool) b extra n s' a, let s := se_st (run SY session0 l) in
    NoDup (pr_params p) -> Forall good_param (pr_params p) -> declared p s ->
    (if matrix then qcqp_matrix_nlp SY p b s else qcqp_nlp SY p b extra s) = (Ok n, s') -> feasible (nlp_opti n) a ->
    exists Fs Gs nm, sp_v_coeff_matrix SY (fg_lists (nlp_sym n) (st_ectr s) (st_pctr s)) (pr_params p) = Ok (Fs, Gs, nm) /\
      forall r, (forall x q, In (x, q) (dict_parameters (nlp_opti n) a (pr_params p)) -> r x = q) ->
      forall i, i < List.length (nm_list nm) -> a i = vname_val r (nth i (nm_list nm) VOne).
Proof.
  intros OK l p matrix b extra n s' a s Nd Hg Hd H Ha. assert (I := si_inv _ (reachable_inv SY l)).
  assert (HV : exists W wm Fs Gs nm cb all N, @vec_prog SY (negb matrix) p b s s' n W wm Fs Gs nm cb all N).
  { destruct matrix; [exact (matrix_prog OK p b s I Nd Hg Hd n s' H)|exact (qcqp_prog OK p b s I Nd Hg Hd extra n s' H)]. }
  destruct HV as (W & wm & Fs & Gs & nm & cb & all & N & V). exists Fs, Gs, nm. split; [exact (vp_run _ _ _ _ _ _ _ _ _ _ _ _ _ _ V)|].
  intros r Hr. destruct (proj1 (vp_all _ _ _ _ _ _ _ _ _ _ _ _ _ _ V a) (feasible_all OK _ _ _ _ _ _ _ _ _ _ _ _ _ _ V Hg a Ha)) as (_ & _ & Q).
  apply (v_values (pr_params p) nm (proj1 (vp_coef _ _ _ _ _ _ _ _ _ _ _ _ _ _ V)) (params_nous p Hg)); [apply Q|apply Q|].
  intros x Hx. apply Hr. rewrite (returned OK _ _ _ _ _ _ _ _ _ _ _ _ _ _ V Hg a). apply in_map_iff. exists x. auto.
Qed.
Print Assumptions c28_program.
Example c28_case : Forall simple_name ["eta"; "h"; "rho"].
Proof. repeat constructor; apply simple_has; reflexivity. Qed.

(** ** C32 *)
(** Both computations of entry (k1, k2) of P P^T from the packed triangle. *)
Theorem c32_element : forall vec n k1 k2, xm_rows vec = start_idx n -> xm_cols vec = 1 -> k1 < n -> k2 < n ->
  exists A, get_PPt_element vec k1 k2 = Ok A /\ xm_rows A = 1 /\ xm_cols A = 1 /\
    forall a, let z := fun i => ceval a (xm_at vec i 0) in
      ceval a (xm_at A 0 0) = rsum n (fun c => tri z k1 c * tri z k2 c)%R.
Proof. exact ppt_element. Qed.
Print Assumptions c32_element.
Theorem c32_matrix : forall x P0 n k1 k2, P0 + start_idx n <= xm_rows x -> k1 < n -> k2 < n ->
  exists S1 S2 M, get_PPt_matrix x P0 k1 k2 = Ok (S1, S2) /\ cm_mul (cm_T S1) S2 = Ok M /\
    cm_rows M = xm_rows x /\ cm_cols M = xm_rows x /\
    forall z : nat -> R, rsum (xm_rows x) (fun i => rsum (xm_rows x) (fun j => Q2R (cm_at M i j) * (z i * z j)))%R =
      rsum n (fun c => tri (fun i => z (P0 + i)%nat) k1 c * tri (fun i => z (P0 + i)%nat) k2 c)%R.
Proof. exact ppt_matrix. Qed.
Print Assumptions c32_matrix.
(** flatten_lower_tri packs row after row, so that reading the packed values
    back gives the lower triangle of P. *)
Theorem c32_flatten : forall (P : arr2 R), let l := flatten_lower_tri 0%R P in
  List.length l = Nat.div (a2_rows P * (a2_rows P + 1)) 2 /\
  forall i c, i < a2_rows P -> tri (fun k => nth k l 0%R) i c = if Nat.leb c i then a2_at P i c else 0%R.
Proof.
  intros P l. destruct (flatten_tri_spec 0%R P) as [H1 H2]. split; [exact H1|]. intros i c Hi. unfold tri.
  destruct (Nat.leb_spec c i) as [Hc|]; [|reflexivity]. apply nth_error_nth. apply H2; assumption.
Qed.
Print Assumptions c32_flatten.
(** Distinct entries of the triangle have distinct positions, and every
    position of the packed vector holds one. *)
Theorem c32_positions : forall n,
  (forall i c j d, c <= i -> d <= j -> start_idx i + c = start_idx j + d -> i = j /\ c = d) /\
  (forall k, k < start_idx n -> exists i c, i < n /\ c <= i /\ k = start_idx i + c).
Proof.
  intros n. split.
  - intros i c j d Hc Hd E. assert (i = j); [|subst; lia]. destruct (Nat.lt_trichotomy i j) as [L|[L|L]]; [|exact L|].
    + assert (B := start_lt i j L). lia.
    + assert (B := start_lt j i L). lia.
  - induction n as [|n IH]; intros k Hk; [simpl in Hk; unfold start_idx in Hk; simpl in Hk; lia|].
    destruct (Nat.lt_ge_cases k (start_idx n)) as [L|L].
    + destruct (IH k L) as (i & c & A & B & C). exists i, c. split; [lia|]. split; assumption.
    + exists n, (k - start_idx n). rewrite start_S in Hk. split; [lia|]. split; lia.
Qed.
Print Assumptions c32_positions.
(** 3 x 3: the packed entries of row 2 start at 3. *)
Example c32_case : flatten_lower_tri 0 (mkA2 3 3 (fun i j => 10 * i + j)) = [0; 10; 11; 20; 21; 22] /\ start_idx 3 = 6 /\
  xm_rows (mkXM 6 1 (fun i _ => CVar i)) = start_idx 3.
Proof. repeat split. Qed.

(** ** C33 *)
Theorem c33_selection_is_slice : forall x lo hi, xm_cols x = 1 -> lo <= hi + 1 -> hi < xm_rows x ->
  exists A B, get_vec_matrix x (lo, hi) = Ok A /\ xm_mul (xm_num A) x = Ok B /\
    xm_rows B = xm_rows (get_vec_var x (lo, hi)) /\ xm_cols B = xm_cols (get_vec_var x (lo, hi)) /\ xm_rows B = hi + 1 - lo /\
    forall a i, i < hi + 1 - lo -> ceval a (xm_at B i 0) = ceval a (xm_at (get_vec_var x (lo, hi)) i 0) /\
      ceval a (xm_at B i 0) = ceval a (xm_at x (lo + i) 0).
Proof. exact selection_slice. Qed.
Print Assumptions c33_selection_is_slice.
(** The ranges of v, lambda, nu and P used by the builders: every index of x
    is in exactly one of them (as slices lo : hi + 1). *)
Definition blocks (nv nI nE x_size : nat) : list range :=
  [(0, nv - 1); (nv, nv + nI - 1); (nv + nI, nv + nI + nE - 1); (nv + nI + nE, x_size - 1)].
Theorem c33_partition : forall nv nI nE m i, 1 <= nv -> i < nv + nI + nE + m ->
  exists k r, nth_error (blocks nv nI nE (nv + nI + nE + m)) k = Some r /\ fst r <= i < snd r + 1 /\
    forall k' r', nth_error (blocks nv nI nE (nv + nI + nE + m)) k' = Some r' -> fst r' <= i < snd r' + 1 -> k' = k.
Proof.
  intros nv nI nE m i Hv Hi. unfold blocks.
  assert (G : forall k, (forall k', k' < 4 -> match nth_error [(0, nv - 1); (nv, nv + nI - 1); (nv + nI, nv + nI + nE - 1); (nv + nI + nE, nv + nI + nE + m - 1)] k' with
      | Some r' => fst r' <= i < snd r' + 1 -> k' = k | None => True end) ->
    match nth_error [(0, nv - 1); (nv, nv + nI - 1); (nv + nI, nv + nI + nE - 1); (nv + nI + nE, nv + nI + nE + m - 1)] k with Some r => fst r <= i < snd r + 1 | None => False end ->
    exists k r, nth_error [(0, nv - 1); (nv, nv + nI - 1); (nv + nI, nv + nI + nE - 1); (nv + nI + nE, nv + nI + nE + m - 1)] k = Some r /\ fst r <= i < snd r + 1 /\
      forall k' r', nth_error [(0, nv - 1); (nv, nv + nI - 1); (nv + nI, nv + nI + nE - 1); (nv + nI + nE, nv + nI + nE + m - 1)] k' = Some r' -> fst r' <= i < snd r' + 1 -> k' = k).
  { intros k H1 H2. destruct (nth_error _ k) as [r|] eqn:E; [|destruct H2]. exists k, r. split; [exact E|]. split; [exact H2|].
    intros k' r' E' H'. assert (L : k' < 4) by (apply (nth_error_Some [(0, nv - 1); (nv, nv + nI - 1); (nv + nI, nv + nI + nE - 1); (nv + nI + nE, nv + nI + nE + m - 1)] k'); rewrite E'; discriminate). specialize (H1 k' L). rewrite E' in H1. apply H1, H'. }
  destruct (Nat.lt_ge_cases i nv); [apply (G 0)|destruct (Nat.lt_ge_cases i (nv + nI)); [apply (G 1)|destruct (Nat.lt_ge_cases i (nv + nI + nE)); [apply (G 2)|apply (G 3)]]];
    try (simpl; lia); intros k' Hk'; destruct k' as [|[|[|[|]]]]; simpl; lia.
Qed.
Print Assumptions c33_partition.
Example c33_case : xm_cols (mkXM 9 1 (fun i _ => CVar i)) = 1 /\ 3 <= 5 + 1 /\ 5 < xm_rows (mkXM 9 1 (fun i _ => CVar i)) /\
  blocks 3 2 1 9 = [(0, 2); (3, 4); (5, 5); (6, 8)].
Proof. simpl. repeat split; lia. Qed.

(** ** C34 *)
Theorem c34_round_trip : forall (A : Type) (zero : A) (M : arr2 A), 1 <= a2_rows M -> a2_cols M = a2_rows M ->
  exists l M', flatten_lamb M = Ok l /\ List.length l = a2_rows M * (a2_rows M - 1) /\
    reshape_lamb_2d zero l = Ok M' /\ a2_rows M' = a2_rows M /\ a2_cols M' = a2_cols M /\
    forall i j, i < a2_rows M -> j < a2_cols M -> a2_at M' i j = if Nat.eqb i j then zero else a2_at M i j.
Proof.
  intros A zero M H1 H2. destruct (reshape_spec zero (a2_rows M) (a2_at M) H1) as (M' & E & R & C & V).
  eexists. exists M'. split; [apply flatten_spec; lia|]. split; [rewrite map_length; apply offdiag_length|]. split; [exact E|].
  split; [exact R|]. split; [congruence|]. intros i j Hi Hj. apply V; lia.
Qed.
Print Assumptions c34_round_trip.
(** The other way round, for a vector of n(n-1) multipliers. *)
Theorem c34_round_trip_back : forall (A : Type) (zero : A) (l : list A) n, 1 <= n -> List.length l = n * (n - 1) ->
  exists M, reshape_lamb_2d zero l = Ok M /\ a2_rows M = n /\ a2_cols M = n /\ flatten_lamb M = Ok l.
Proof. intros A zero l n. exact (reshape_flatten zero l n). Qed.
Print Assumptions c34_round_trip_back.
(** flatten_lamb lists the pairs in the order in which circuit_symbolic_matrices
    generates the interpolation inequalities of a function. *)
Theorem c34_flatten_order : forall (A : Type) (M : arr2 A), a2_rows M <= a2_cols M ->
  flatten_lamb M = Ok (map (fun ij => a2_at M (fst ij) (snd ij)) (offdiag (a2_rows M))).
Proof. intros A M. exact (flatten_spec M). Qed.
Print Assumptions c34_flatten_order.
Theorem c34_constraint_order SY : forall l p sr s', let s := se_st (run SY session0 l) in
  symbolic SY p s = (Ok sr, s') ->
  keys (sr_exp sr) = (constraint_order (List.length (ineqs p)) (List.length (eqs p))
     (map (fun fn => List.length (fn_pts fn)) (funs_of s (leaf_funs (st_flist s) s))) ++ [SObj])%list.
Proof. intros l p sr s' s. exact (key_order SY p s sr s' (si_inv _ (reachable_inv SY l))). Qed.
Print Assumptions c34_constraint_order.
Example c34_case : offdiag 3 = [(0, 1); (0, 2); (1, 0); (1, 2); (2, 0); (2, 1)] /\
  constraint_order 1 1 [2; 0; 2] = [SK 0 0 0 0; SK 0 1 0 1; SK 0 1 1 0; SK 0 3 0 1; SK 0 3 1 0; SK 1 0 0 0].
Proof. split; reflexivity. Qed.
(** No multipliers (a 0 x 0 matrix) come back as a 1 x 1 matrix. *)
Theorem c34_empty_refuted : exists (M M' : arr2 nat) l, a2_rows M = 0 /\ a2_cols M = 0 /\ flatten_lamb M = Ok l /\ reshape_lamb_2d 0 l = Ok M' /\ a2_rows M' = 1.
Proof. exists (mkA2 0 0 (fun _ _ => 0)). eexists. eexists. repeat split. Qed.
Print Assumptions c34_empty_refuted.

(** ** C35 *)
(** Row i of the selector times the packed triangle is P[i, i]. *)
Theorem c35_diagonal : forall n, cm_rows (diag_selector n) = n /\ cm_cols (diag_selector n) = Nat.div (n * (n + 1)) 2 /\
  forall i, i < n -> forall y : nat -> R,
    rsum (cm_cols (diag_selector n)) (fun j => (Q2R (cm_at (diag_selector n) i j) * y j)%R) = tri y i i.
Proof. intros n. split; [reflexivity|]. split; [reflexivity|]. intros i Hi y. exact (diag_rows y n i Hi). Qed.
Print Assumptions c35_diagonal.
Example c35_case : diag_idx 4 = [0; 2; 5; 9].
Proof. reflexivity. Qed.
