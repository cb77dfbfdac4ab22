(** C47-C53 and C59-C62: the decentralised methods that ciropt/discretized_methods.py
    and opt_problems/ run.  Beside each theorem: data that meets its hypotheses. *)
From Coq Require Import List Arith Bool Reals Lia Lra Psatz.
From Verif Require Import Prelude PreludeFacts Spec SpecFacts BuilderSpec MethodModel MethodSpec MethodRunSpec ProxSpec
  GraphFacts ProxFacts DadmmFacts DadmmConv PgFacts DadmmLimit FormFacts PgConv MetropolisFacts ProxForms MethodRuns MethodApps MethodUse MethodExamples.
Import ListNotations.
Local Open Scope R_scope.

(** C47: after any number of iterations the two currents of every edge add up to 0
    and its two potentials agree (an edge with a capacitor keeps equal potentials only). *)
Theorem c47_edge_currents : forall n d es g a step prox, network n es g ->
  (forall j z, (j < n)%nat -> in_Rd d z -> in_Rd d (prox j z (d_R a / INR (deg_of g j)))) ->
  forall k, consistent d es g a (dadmm_iter a step g prox k).
Proof. exact iter_consistent. Qed.
Print Assumptions c47_edge_currents.
Example c47_case : network 6 es6 graph6 /\ (forall j z, (j < 6)%nat -> in_Rd 1 z -> in_Rd 1 (obs_prox j z (d_R (Dadmm 3) / INR (deg_of graph6 j)))).
Proof. split; [exact net6|]. intros. apply pt_Rd. Qed.

(** C48: a state which the iteration leaves unchanged is an optimal consensus, and
    every optimum comes from such a state. *)
Theorem c48_fixed_points_optimal : forall n d es g a step prox phi, network n es g -> connected n es -> (2 <= n)%nat ->
  (forall j, (j < n)%nat -> convex (phi j)) -> prox_family d n phi prox -> 0 < d_R a ->
  forall s, step <> 0 -> (forall j l, cap_edge a j l = true -> cap_step a <> 0) ->
  consistent d es g a s -> fixed_point n d g a step prox s ->
  exists x, (forall j, (j < n)%nat -> st_x (dadmm_step a step g prox s) j = x) /\ minimiser (sum_fun d n phi) x.
Proof. exact fixed_optimal. Qed.
Print Assumptions c48_fixed_points_optimal.
Theorem c48_optima_are_fixed : forall n d es g a step prox phi, network n es g -> connected n es -> (2 <= n)%nat ->
  (forall j, (j < n)%nat -> convex (phi j)) -> prox_family d n phi prox -> 0 < d_R a ->
  forall x gr, balanced_optimum d n phi x gr ->
  exists s, consistent d es g a s /\ fixed_point n d g a step prox s /\ forall j, (j < n)%nat -> st_x (dadmm_step a step g prox s) j = x.
Proof. exact optimal_fixed. Qed.
Print Assumptions c48_optima_are_fixed.
Example c48_case : exists s, consistent 1 es6 graph6 (CirDadmmC 3 1 2 1) s /\ fixed_point 6 1 graph6 (CirDadmmC 3 1 2 1) (1 / 2) obs_prox s.
Proof.
  destruct (c48_optima_are_fixed 6 1 es6 graph6 (CirDadmmC 3 1 2 1) (1 / 2) obs_prox obs net6 conn6 ltac:(lia)) with (x := pt (5 / 2)) (gr := obs_g) as (s & H1 & H2 & _).
  - intros. apply sq_convex_smooth.
  - exact obs_pf.
  - simpl. lra.
  - exact obs_opt.
  - exists s. easy.
Qed.

(** C49 *)
Theorem c49_same_method : forall Rs h Ind n d itr g xstar fstar prox fi, Rs <> 0 -> Ind <> 0 -> h / Ind = 1 / Rs ->
  dadmm (CirDadmm Rs h Ind) n d itr g xstar fstar prox fi = dadmm (Dadmm Rs) n d itr g xstar fstar prox fi.
Proof. exact cir_dadmm_equal. Qed.
Print Assumptions c49_same_method.
Example c49_case : (3 <> 0 /\ 6 <> 0 /\ 2 / 6 = 1 / 3)%R. Proof. lra. Qed.
Theorem c49_isolated_node : forall a n d itr g xstar fstar prox fi j step, step_size a = Ok step -> (0 < itr)%nat -> (j < n)%nat -> nbrs g (S j) = [] ->
  dadmm a n d itr g xstar fstar prox fi = Err ZeroDivisionError.
Proof. exact dadmm_isolated. Qed.
Print Assumptions c49_isolated_node.
Example c49_isolated_case : nbrs (mk_graph [1; 2; 3]%nat [(1, 2)]%nat) 3 = []. Proof. reflexivity. Qed.

(** C50: the dual variables add up to 0 whatever the operators; fixed points and optima correspond. *)
Theorem c50_dual_sum : forall n rho W prox gradh, symmetric n W -> row_stochastic n W -> forall s0 k c,
  rsum n (fun j => p_w s0 j c) = 0 -> rsum n (fun j => p_w (pg_iter n rho W prox gradh s0 k) j c) = 0.
Proof. exact w_zero. Qed.
Print Assumptions c50_dual_sum.
Theorem c50_fixed_points_optimal : forall n d rho W prox gradh f h es, 0 < rho -> symmetric n W -> row_stochastic n W ->
  (forall j, (j < n)%nat -> convex (f j)) -> prox_family d n f prox -> grad_family d n h gradh -> nonneg_entries n W -> connected n es ->
  (forall i j, (i < n)%nat -> (j < n)%nat -> linked es i j -> 0 < W i j) -> (forall i j, linked es i j -> (i < n)%nat /\ (j < n)%nat) -> (0 < n)%nat ->
  forall s, zero_sum n d s -> pg_fixed n d rho W prox gradh s ->
  exists x, (forall j, (j < n)%nat -> p_x s j = x) /\ minimiser (sum_fun d n (fun j => add_fun (f j) (h j))) x.
Proof. exact pg_fixed_optimal. Qed.
Print Assumptions c50_fixed_points_optimal.
Theorem c50_optima_are_fixed : forall n d rho W prox gradh f h, 0 < rho -> row_stochastic n W ->
  (forall j, (j < n)%nat -> convex (f j)) -> prox_family d n f prox -> grad_family d n h gradh ->
  forall x g, composite_optimum d n f gradh x g ->
  exists s, zero_sum n d s /\ pg_fixed n d rho W prox gradh s /\ forall j, (j < n)%nat -> p_x s j = x.
Proof. exact pg_optimal_fixed. Qed.
Print Assumptions c50_optima_are_fixed.
Example c50_case : exists W s, symmetric 6 W /\ row_stochastic 6 W /\ nonneg_entries 6 W /\
  (forall i j, (i < 6)%nat -> (j < 6)%nat -> linked es6 i j -> 0 < W i j) /\
  zero_sum 6 1 s /\ pg_fixed 6 1 (/ 4) W obs_prox obs_grad s.
Proof.
  destruct mix6 as (W & _ & _ & _ & H & sym & rows & nn & sup & _). exists W.
  destruct (c50_optima_are_fixed 6 1 (/ 4) W obs_prox obs_grad obs obs ltac:(lra) rows ltac:(intros; apply sq_convex_smooth) obs_pf obs_gf _ _ obs_copt) as (s & H1 & H2 & _).
  exists s. split; [easy|]. split; [easy|]. split; [easy|]. split; [|split; [exact H1|exact H2]]. intros i j Hi Hj K. apply (proj1 (sup i j Hi Hj (proj2 (proj2 (H i j K))))), K.
Qed.

(** C51 *)
Theorem c51_capacitor_zero : forall n es g W prox gradh, network n es g -> row_stochastic n W ->
  (forall i j, (i < n)%nat -> (j < n)%nat -> i <> j -> ~ linked es i j -> W i j = 0) ->
  forall d itr rho xstar fstar fh, rho <> 0 ->
  pg_extra (PgExtraParC rho (1 / 2) 0) n d itr rho W g xstar fstar prox gradh fh = pg_extra PgExtra n d itr rho W g xstar fstar prox gradh fh.
Proof. exact par_pg_output. Qed.
Print Assumptions c51_capacitor_zero.
Theorem c51_currents_antisymmetric : forall n es g W prox gradh, network n es g -> forall Rs h C, symmetric n W -> forall k j l, (j < n)%nat -> (l < n)%nat ->
  (forall c, c_iL (par_iter n Rs h C W g prox gradh k) j l c + c_iL (par_iter n Rs h C W g prox gradh k) l j c = 0) /\
  (forall c, c_iC (par_iter n Rs h C W g prox gradh k) j l c + c_iC (par_iter n Rs h C W g prox gradh k) l j c = 0).
Proof. exact par_antisym. Qed.
Print Assumptions c51_currents_antisymmetric.
Example c51_case : exists W, metropolis graph6 6 = Ok W /\ symmetric 6 W /\ row_stochastic 6 W /\
  (forall i j, (i < 6)%nat -> (j < 6)%nat -> i <> j -> ~ linked es6 i j -> W i j = 0).
Proof.
  destruct mix6 as (W & E & _ & _ & _ & sym & rows & nn & sup & _). exists W. split; [exact E|]. split; [exact sym|]. split; [exact rows|].
  intros i j Hi Hj Hd K. exact (proj2 (sup i j Hi Hj Hd) K).
Qed.

(** C52 *)
Theorem c52_metropolis : forall n es g, network n es g ->
  exists W, metropolis g n = Ok W /\ symmetric n W /\ row_stochastic n W /\ nonneg_entries n W /\ supported n es W /\
    forall i, (i < n)%nat -> 1 / (INR (deg_of g i) + 1) <= W i i.
Proof. exact metropolis_matrix. Qed.
Print Assumptions c52_metropolis.
Theorem c52_metropolis_too_small : forall nodes es n u v, In (u, v) es -> (n < u)%nat \/ (n < v)%nat -> metropolis (mk_graph nodes es) n = Err IndexError.
Proof. exact metropolis_out_of_range. Qed.
Print Assumptions c52_metropolis_too_small.
Example c52_case : network 6 es6 graph6. Proof. exact net6. Qed.
(** the graph of decentr_qp.py has 20 nodes: fewer nodes fail *)
Example c52_qp_graph : forall n, (n < 20)%nat -> metropolis (qp_graph n) n = Err IndexError.
Proof. intros n Hn. apply (c52_metropolis_too_small [1; n]%nat qp_edges n 19 20); [simpl; tauto|lia]. Qed.
(** the claim "for every graph" fails for a graph with a self loop: row sums differ from 1 *)
Theorem c52_self_loop_refuted : exists g W, metropolis g 1 = Ok W /\ ~ row_stochastic 1 W.
Proof.
  exists (mk_graph [] [(1, 1)]%nat). eexists. split; [reflexivity|]. intros H. specialize (H 0%nat ltac:(lia)). revert H.
  unfold diag_loop. cbn [seq fold_left rsum upd2 Nat.eqb]. unfold weight. cbn -[INR]. simpl. lra.
Qed.
Print Assumptions c52_self_loop_refuted.

(** C53 *)
Theorem c53_halfspace : forall d z rho a b x, 0 < rho -> in_Rd d z -> in_Rd d a ->
  prox_halfspace d z rho a b = Some x -> is_prox d (halfspace d a b) rho z x.
Proof. exact prox_halfspace_correct. Qed.
Print Assumptions c53_halfspace.
Theorem c53_halfspace_defined : forall d z rho a b, 0 < nsq d a -> exists x, prox_halfspace d z rho a b = Some x.
Proof. exact prox_halfspace_defined. Qed.
Print Assumptions c53_halfspace_defined.
Theorem c53_halfspace_degenerate : forall d z rho a b, nsq d a = 0 -> (prox_halfspace d z rho a b = None <-> b < 0).
Proof. exact prox_halfspace_degenerate. Qed.
Print Assumptions c53_halfspace_degenerate.
Example c53_halfspace_case : exists x, prox_halfspace 1 (pt 3) 1 (pt 1) 2 = Some x /\ x 0%nat = 2.
Proof.
  unfold prox_halfspace. assert (E : dot 1 (pt 1) (pt 3) = 3) by (rewrite dot1'; unfold pt; simpl; lra).
  assert (E2 : nsq 1 (pt 1) = 1) by (unfold nsq; rewrite dot1'; unfold pt; simpl; lra).
  rewrite E, E2. destruct (Rle_dec (3 - 2) 0); [lra|]. destruct (Req_EM_T 1 0); [lra|]. eexists. split; [reflexivity|]. unfold vadd, vscal, pt. simpl. lra.
Qed.
Theorem c53_distance : forall d z rho b x, 0 < rho -> in_Rd d z -> in_Rd d b -> prox_norm d z rho b = Some x -> is_prox d (distance d b) rho z x.
Proof. exact prox_norm_correct. Qed.
Print Assumptions c53_distance.
Theorem c53_distance_nan : forall d z rho b, prox_norm d z rho b = None <-> (forall k, (k < d)%nat -> z k = b k).
Proof. exact prox_norm_defined. Qed.
Print Assumptions c53_distance_nan.
(** the code returns nan at a point where the proximal operator exists *)
Theorem c53_distance_refuted : exists d z rho b, 0 < rho /\ in_Rd d z /\ in_Rd d b /\ prox_norm d z rho b = None /\ is_prox d (distance d b) rho z b.
Proof.
  exists 1%nat, (pt 1), 1, (pt 1). split; [lra|]. split; [apply pt_Rd|]. split; [apply pt_Rd|]. split.
  - apply prox_norm_defined. easy.
  - apply prox_distance_self; [lra|apply pt_Rd|easy].
Qed.
Print Assumptions c53_distance_refuted.
Example c53_distance_case : exists x, prox_norm 1 (pt 0) 1 (pt 3) = Some x /\ x 0%nat = 1.
Proof.
  destruct (prox_norm1 (pt 0) 1 (pt 3)) as (x & E & V).
  - unfold pt. simpl. rewrite Rabs_right; lra.
  - exists x. split; [easy|]. rewrite V. unfold pt. simpl. rewrite Rabs_right by lra. lra.
Qed.
Theorem c53_distance_sc : forall d z rho b c theta x, 0 < rho -> 0 <= theta -> in_Rd d z -> in_Rd d b -> in_Rd d c ->
  prox_norm_sc d z rho b c theta = Some x -> is_prox d (distance_sc d b c theta) rho z x.
Proof. exact prox_norm_sc_correct. Qed.
Print Assumptions c53_distance_sc.
Example c53_distance_sc_case : exists x, prox_norm_sc 1 (pt 0) 1 (pt 3) (pt 0) 1 = Some x.
Proof.
  unfold prox_norm_sc. destruct (prox_norm _ _ _ _) as [x|] eqn:E; [exists x; easy|]. pose proof (proj1 (prox_norm_defined _ _ _ _) E 0%nat ltac:(lia)) as K.
  revert K. unfold vscal, vadd, pt. simpl. lra.
Qed.
Theorem c53_soft_threshold : forall d alpha rho z, 0 < alpha -> 0 <= rho -> in_Rd d z -> is_prox d (l1 d rho) alpha z (soft_threshold (alpha * rho) z).
Proof. exact soft_threshold_correct. Qed.
Print Assumptions c53_soft_threshold.
Theorem c53_quadratic : forall d solve z rho b P, 0 < rho -> in_Rd d z -> in_Rd d b -> psd_matrix d P ->
  solves d solve (fun i j => P i j + (if Nat.eqb i j then 1 / rho else 0)) (vscal (1 / rho) (vsub z b)) ->
  is_prox d (quad_at d P b) rho z (prox_quadratic solve z rho b P).
Proof. exact prox_quadratic_correct. Qed.
Print Assumptions c53_quadratic.
(** on the line: solve divides *)
Definition solve1 (T : nat -> vec) (r : vec) : vec := pt (r 0%nat / T 0%nat 0%nat).
Example c53_quadratic_case : psd_matrix 1 (qpQ 0) /\ solves 1 solve1 (fun i j => qpQ 0 i j + (if Nat.eqb i j then 1 / 2 else 0)) (vscal (1 / 2) (vsub (pt 3) (pt 1))).
Proof.
  split; [apply qp_psd|]. split; [intros; apply pt_Rd; easy|]. intros i Hi. replace i with 0%nat by lia. rewrite dot1'. unfold solve1, qpQ, vscal, vsub, pt. simpl. field.
Qed.
(** the gradients handed to pg_extra are gradients *)
Theorem c53_grad_quadratic : forall d Q p L, psd_matrix d Q -> rsum d (fun i => nsq d (Q i)) <= L * L ->
  convex (quadratic d Q p) /\ smooth d L (quadratic d Q p) /\ forall x, subgradient d (quadratic d Q p) x (grad_quadratic d Q p x).
Proof. exact quadratic_smooth. Qed.
Print Assumptions c53_grad_quadratic.
Theorem c53_grad_least_squares : forall m d A b L, rsum m (fun i => nsq d (A i)) <= L ->
  convex (least_squares m d A b) /\ smooth d L (least_squares m d A b) /\ forall x, subgradient d (least_squares m d A b) x (grad_lsq m d A b x).
Proof. exact least_squares_smooth. Qed.
Print Assumptions c53_grad_least_squares.
Example c53_grad_case : psd_matrix 1 (qpQ 0) /\ rsum 1 (fun i => nsq 1 (qpQ 0 i)) <= 1 * 1 /\ rsum 1 (fun i => nsq 1 (senA 0 i)) <= 1.
Proof. split; [apply qp_psd|]. split; [apply qp_bound|apply sen_bound]. Qed.

(** C59: one report per iteration; the error is 0 exactly at the reference point and the
    objective gap is 0 exactly at the reference value.  dadmm divides by f_star without
    its sign, so a negative f_star turns the gap negative. *)
Theorem c59_dadmm_reports : forall a n d itr g xstar fstar prox fi l, dadmm a n d itr g xstar fstar prox fi = Ok l ->
  length l = itr /\ exists step, step_size a = Ok step /\
  forall k r, nth_error l k = Some r ->
    let x := st_x (dadmm_iter a step g prox (S k)) in
    (rp_err r = 0 <-> same_rows n d x xstar) /\ 0 <= rp_err r /\
    (0 < fstar -> 0 <= rp_f r /\ (rp_f r = 0 <-> rsum n (fun j => fi j (x j)) = fstar)) /\
    (fstar < 0 -> rp_f r <= 0).
Proof. exact dadmm_reports. Qed.
Print Assumptions c59_dadmm_reports.
Theorem c59_pg_reports : forall n d itr rho W g xstar fstar prox gradh fh l, pg_extra PgExtra n d itr rho W g xstar fstar prox gradh fh = Ok l ->
  length l = itr /\ forall k r, nth_error l k = Some r ->
    let x := p_x (pg_iter n rho W prox gradh pinit (S k)) in let xp := p_x (pg_iter n rho W prox gradh pinit k) in
    (pr_op r = 0 <-> same_rows n d x xp) /\ 0 <= pr_op r /\ (pr_err r = 0 <-> same_rows n d x xstar) /\ 0 <= pr_err r /\ 0 <= pr_f r /\
    (fstar <> 0 -> (pr_f r = 0 <-> rsum n (fun j => fh j (x j)) = fstar)).
Proof. exact pg_reports. Qed.
Print Assumptions c59_pg_reports.
Example c59_case : exists l, dadmm (Dadmm 3) 6 1 5 graph6 (fun _ => pt (5 / 2)) (35 / 4) obs_prox (fun j => val (obs j)) = Ok l /\ length l = 5%nat.
Proof.
  unfold dadmm, step_size, div_num. destruct (Req_EM_T 3 0); [lra|]. cbn [bindr Nat.eqb].
  assert (dadmm_raises (Dadmm 3) 6 graph6 = false) as -> by reflexivity. eexists. split; [reflexivity|]. rewrite map_length, seq_length. easy.
Qed.

(** C60: dadmm and cir_dadmm (positive R and a step below 2/R) converge from their
    starting point on every connected network: the reported objective gap tends to 0
    for convex functions, the reported error tends to 0 if one of them is strongly convex. *)
Theorem c60_objective_gap : forall n d es g a prox phi, network n es g -> connected n es -> (2 <= n)%nat -> prox_family d n phi prox -> good_steps a ->
  forall xs gs mu, (forall j, (j < n)%nat -> 0 <= mu j) -> (forall j, (j < n)%nat -> strongly_convex d (mu j) (phi j)) ->
  balanced_optimum d n phi xs gs -> value_at n phi xs <> 0 ->
  settles (fun itr => dadmm a n d itr g (fun _ => xs) (value_at n phi xs) prox (fun j => val (phi j))) rp_f.
Proof. exact dadmm_values. Qed.
Print Assumptions c60_objective_gap.
Theorem c60_error : forall n d es g a prox phi, network n es g -> connected n es -> (2 <= n)%nat -> prox_family d n phi prox -> good_steps a ->
  forall xs gs mu, (forall j, (j < n)%nat -> 0 <= mu j) -> (forall j, (j < n)%nat -> strongly_convex d (mu j) (phi j)) ->
  balanced_optimum d n phi xs gs -> forall j0, (j0 < n)%nat -> 0 < mu j0 ->
  forall fstar fi, settles (fun itr => dadmm a n d itr g (fun _ => xs) fstar prox fi) rp_err.
Proof. exact dadmm_iterates. Qed.
Print Assumptions c60_error.
Theorem c60_consensus : forall n d es g a step prox phi, network n es g -> connected n es -> (2 <= n)%nat -> prox_family d n phi prox -> 0 < d_R a ->
  (forall j l, cap_edge a j l = false) -> 0 < step -> step * d_R a < 2 ->
  forall xs gs mu, (forall j, (j < n)%nat -> 0 <= mu j) -> (forall j, (j < n)%nat -> strongly_convex d (mu j) (phi j)) ->
  balanced_optimum d n phi xs gs -> forall j l, (j < n)%nat -> (l < n)%nat ->
  Un_cv (fun k => nsq d (vsub (st_x (dadmm_iter a step g prox (S k)) j) (st_x (dadmm_iter a step g prox (S k)) l))) 0.
Proof. exact consensus_converges. Qed.
Print Assumptions c60_consensus.
Example c60_case : network 6 es6 graph6 /\ connected 6 es6 /\ prox_family 1 6 obs obs_prox /\ good_steps (Dadmm 3) /\ good_steps (CirDadmm 3 1 2) /\
  (forall j, (j < 6)%nat -> strongly_convex 1 1 (obs j)) /\ balanced_optimum 1 6 obs (pt (5 / 2)) obs_g /\ value_at 6 obs (pt (5 / 2)) <> 0.
Proof.
  split; [exact net6|]. split; [exact conn6|]. split; [exact obs_pf|]. split; [apply good_example|]. split; [apply good_example|].
  split; [intros; apply sq_strong|]. split; [exact obs_opt|]. rewrite obs_value. lra.
Qed.

(** C61: pg_extra with a mixing matrix of a connected graph and rho L below twice its
    smallest diagonal entry *)
Theorem c61_objective_gap : forall n d es g rho L c W prox gradh f h mu, 0 < rho -> 0 < L -> mixing n es W c ->
  (forall j, (j < n)%nat -> 0 <= mu j) -> (forall j, (j < n)%nat -> strongly_convex d (mu j) (f j)) -> prox_family d n f prox -> grad_family d n h gradh ->
  (forall j, (j < n)%nat -> convex (h j)) -> (forall j, (j < n)%nat -> smooth d L (h j)) -> rho * L < 2 * c ->
  forall xs gs, composite_optimum d n f gradh xs gs -> value_at n (fun j => add_fun (f j) (h j)) xs <> 0 ->
  settles (fun itr => pg_extra PgExtra n d itr rho W g (fun _ => xs) (value_at n (fun j => add_fun (f j) (h j)) xs) prox gradh (fun j => val (add_fun (f j) (h j)))) pr_f.
Proof. exact pg_extra_values. Qed.
Print Assumptions c61_objective_gap.
Theorem c61_error : forall n d es g rho L c W prox gradh f h mu, 0 < rho -> 0 < L -> mixing n es W c ->
  (forall j, (j < n)%nat -> 0 <= mu j) -> (forall j, (j < n)%nat -> strongly_convex d (mu j) (f j)) -> prox_family d n f prox -> grad_family d n h gradh ->
  (forall j, (j < n)%nat -> convex (h j)) -> (forall j, (j < n)%nat -> smooth d L (h j)) -> rho * L < 2 * c ->
  forall xs gs, composite_optimum d n f gradh xs gs -> forall j0, (j0 < n)%nat -> 0 < mu j0 ->
  forall fstar fi, settles (fun itr => pg_extra PgExtra n d itr rho W g (fun _ => xs) fstar prox gradh fi) pr_err.
Proof. exact pg_extra_iterates. Qed.
Print Assumptions c61_error.
Theorem c61_steps : forall n d es g rho L c W prox gradh f h mu, 0 < rho -> 0 < L -> mixing n es W c ->
  (forall j, (j < n)%nat -> 0 <= mu j) -> (forall j, (j < n)%nat -> strongly_convex d (mu j) (f j)) -> prox_family d n f prox -> grad_family d n h gradh ->
  (forall j, (j < n)%nat -> convex (h j)) -> (forall j, (j < n)%nat -> smooth d L (h j)) -> rho * L < 2 * c ->
  forall xs gs, composite_optimum d n f gradh xs gs ->
  forall xstar fstar fi, settles (fun itr => pg_extra PgExtra n d itr rho W g xstar fstar prox gradh fi) pr_op.
Proof. exact pg_extra_steps. Qed.
Print Assumptions c61_steps.
(** the generated mixing matrices qualify, with c = 1 / (largest degree + 1) *)
Theorem c61_metropolis : forall n es g D, network n es g -> connected n es -> (0 < n)%nat -> (forall j, (j < n)%nat -> (deg_of g j <= D)%nat) ->
  exists W, metropolis g n = Ok W /\ mixing n es W (1 / (INR D + 1)).
Proof. exact metropolis_mixing. Qed.
Print Assumptions c61_metropolis.
Example c61_case : exists W, metropolis graph6 6 = Ok W /\ mixing 6 es6 W (1 / 5) /\ (/ 4 * 1 < 2 * (1 / 5))%R /\
  prox_family 1 6 obs obs_prox /\ grad_family 1 6 obs obs_grad /\ (forall j, (j < 6)%nat -> convex (obs j)) /\ (forall j, (j < 6)%nat -> smooth 1 1 (obs j)) /\
  (forall j, (j < 6)%nat -> strongly_convex 1 1 (obs j)) /\
  composite_optimum 1 6 obs obs_grad (pt (5 / 2)) obs_g /\ value_at 6 (fun j => add_fun (obs j) (obs j)) (pt (5 / 2)) <> 0.
Proof.
  destruct mix6 as (W & E & M). exists W. split; [easy|]. split; [easy|]. split; [lra|]. split; [exact obs_pf|]. split; [exact obs_gf|].
  split; [intros; apply sq_convex_smooth|]. split; [intros; apply sq_convex_smooth|]. split; [intros; apply sq_strong|]. split; [exact obs_copt|exact obs_cvalue].
Qed.

(** C62: the specialised loops of opt_problems/ *)
Theorem c62_sensing_is_pg_extra : forall n m d alpha rho W A b s0 k,
  cs_iter n m d alpha rho W A b s0 k = pg_iter n alpha W (fun _ z r => soft_threshold (r * rho) z) (fun j => grad_lsq m d (A j) (b j)) s0 k.
Proof. exact cs_is_pg. Qed.
Print Assumptions c62_sensing_is_pg_extra.
Theorem c62_sensing : forall n m d es alpha rho L c W A b, 0 < alpha -> 0 <= rho -> 0 < L -> mixing n es W c ->
  (forall j i, (j < n)%nat -> (i < m)%nat -> in_Rd d (A j i)) -> (forall j, (j < n)%nat -> rsum m (fun i => nsq d (A j i)) <= L) -> alpha * L < 2 * c ->
  forall xs gs, composite_optimum d n (fun _ => l1 d rho) (fun j => grad_lsq m d (A j) (b j)) xs gs ->
  forall x0, (forall j, (j < n)%nat -> in_Rd d (x0 j)) -> forall xstar,
  value_at n (fun j => add_fun (l1 d rho) (least_squares m d (A j) (b j))) xs <> 0 ->
  exists rep, (forall itr, cs_run n m d itr alpha rho W A b x0 xstar (value_at n (fun j => add_fun (l1 d rho) (least_squares m d (A j) (b j))) xs) = map rep (seq 0 itr)) /\
    Un_cv (fun k => cr_f (rep k)) 0.
Proof. exact cs_run_values. Qed.
Print Assumptions c62_sensing.
Theorem c62_sensing_reference : forall n m d es alpha rho L c W A b, 0 < alpha -> 0 <= rho -> 0 < L -> mixing n es W c ->
  (forall j i, (j < n)%nat -> (i < m)%nat -> in_Rd d (A j i)) -> (forall j, (j < n)%nat -> rsum m (fun i => nsq d (A j i)) <= L) -> alpha * L < 2 * c ->
  forall xs gs, composite_optimum d n (fun _ => l1 d rho) (fun j => grad_lsq m d (A j) (b j)) xs gs ->
  forall x0, (forall j, (j < n)%nat -> in_Rd d (x0 j)) ->
  Un_cv (fun itr => snd (cs_solution n m d itr alpha rho W A b x0)) (value_at n (fun j => add_fun (l1 d rho) (least_squares m d (A j) (b j))) xs).
Proof. exact cs_solution_values. Qed.
Print Assumptions c62_sensing_reference.
Example c62_sensing_case : exists W, mixing 6 es6 W (1 / 5) /\ (/ 4 * 1 < 2 * (1 / 5))%R /\
  composite_optimum 1 6 (fun _ => l1 1 1) (fun j => grad_lsq 1 1 (senA j) (senb j)) (pt 2) (fun _ => pt 1) /\
  (forall j i, (j < 6)%nat -> (i < 1)%nat -> in_Rd 1 (senA j i)) /\ (forall j, (j < 6)%nat -> rsum 1 (fun i => nsq 1 (senA j i)) <= 1) /\
  value_at 6 (fun j => add_fun (l1 1 1) (least_squares 1 1 (senA j) (senb j))) (pt 2) <> 0.
Proof.
  destruct mix6 as (W & E & M). exists W. split; [easy|]. split; [lra|]. split; [exact sen_opt|]. split; [intros; apply pt_Rd|]. split; [intros; apply sen_bound|exact sen_value].
Qed.
Theorem c62_quadratic_programme : forall n d es g rho L c W Q p a b, 0 < rho -> 0 < L -> mixing n es W c ->
  (forall j, (j < n)%nat -> psd_matrix d (Q j)) -> (forall j k, (j < n)%nat -> (d <= k)%nat -> in_Rd d (Q j k) /\ forall i, Q j k i = 0) ->
  (forall j, (j < n)%nat -> in_Rd d (p j)) -> (forall j, (j < n)%nat -> in_Rd d (a j) /\ 0 < nsq d (a j)) ->
  (forall j, (j < n)%nat -> rsum d (fun i => nsq d (Q j i)) <= L * L) -> rho * L < 2 * c ->
  forall prox, (forall j z r, (j < n)%nat -> prox_halfspace d z r (a j) (b j) = Some (prox j z r)) ->
  forall xs gs, composite_optimum d n (fun j => halfspace d (a j) (b j)) (fun j => grad_quadratic d (Q j) (p j)) xs gs ->
  value_at n (fun j => add_fun (halfspace d (a j) (b j)) (quadratic d (Q j) (p j))) xs <> 0 ->
  settles (fun itr => pg_extra PgExtra n d itr rho W g (fun _ => xs) (value_at n (fun j => add_fun (halfspace d (a j) (b j)) (quadratic d (Q j) (p j))) xs) prox
    (fun j => grad_quadratic d (Q j) (p j)) (fun j => val (add_fun (halfspace d (a j) (b j)) (quadratic d (Q j) (p j))))) pr_f.
Proof. exact qp_values. Qed.
Print Assumptions c62_quadratic_programme.
Example c62_quadratic_case : exists W prox, mixing 6 es6 W (1 / 5) /\ (/ 4 * 1 < 2 * (1 / 5))%R /\ (forall j, (j < 6)%nat -> psd_matrix 1 (qpQ j)) /\
  (forall j k, (j < 6)%nat -> (1 <= k)%nat -> in_Rd 1 (qpQ j k) /\ forall i, qpQ j k i = 0) /\ (forall j, (j < 6)%nat -> in_Rd 1 (qpp j)) /\
  (forall j, (j < 6)%nat -> in_Rd 1 (qpa j) /\ 0 < nsq 1 (qpa j)) /\ (forall j, (j < 6)%nat -> rsum 1 (fun i => nsq 1 (qpQ j i)) <= 1 * 1) /\
  (forall j z r, (j < 6)%nat -> prox_halfspace 1 z r (qpa j) (qpb j) = Some (prox j z r)) /\
  composite_optimum 1 6 (fun j => halfspace 1 (qpa j) (qpb j)) (fun j => grad_quadratic 1 (qpQ j) (qpp j)) (pt (/ 2)) (fun _ => pt (/ 2)) /\
  value_at 6 (fun j => add_fun (halfspace 1 (qpa j) (qpb j)) (quadratic 1 (qpQ j) (qpp j))) (pt (/ 2)) <> 0.
Proof.
  destruct mix6 as (W & E & M). destruct qp_prox as (prox & P). exists W, prox. split; [easy|]. split; [lra|]. split; [intros; apply qp_psd|].
  split; [intros; apply qp_rows; easy|]. split; [intros; apply pt_Rd|]. split; [intros; apply qp_a|]. split; [intros; apply qp_bound|]. split; [exact P|].
  split; [exact qp_opt|exact qp_value].
Qed.
(** the geometric median: a prox evaluated at its own centre gives nan, and then every later
    report is nan; otherwise the method converges *)
Theorem c62_median : forall n d b c theta, 0 <= theta -> (forall j, (j < n)%nat -> in_Rd d (b j)) -> (forall j, (j < n)%nat -> in_Rd d (c j)) ->
  forall es rho cw W, 0 < rho -> mixing n es W cw -> 0 < cw -> forall xs gs, balanced_optimum d n (median_fun d b c theta) xs gs ->
  (forall xstar, value_at n (median_fun d b c theta) xs <> 0 ->
    settles_or_nan (fun itr => p_extra n d itr rho W b xstar (value_at n (median_fun d b c theta) xs) (median_prox d b c theta) (median_f d b c theta)) rp_f) /\
  (forall fstar, 0 < theta -> (3 < n)%nat ->
    settles_or_nan (fun itr => p_extra n d itr rho W b (fun _ => xs) fstar (median_prox d b c theta) (median_f d b c theta)) rp_err).
Proof. exact median_settles. Qed.
Print Assumptions c62_median.
Example c62_median_case : exists W, mixing 6 es6 W (1 / 5) /\ balanced_optimum 1 6 (median_fun 1 med6 (fun _ => pt 0) 1) (pt 0) med6_g /\
  (forall j, (j < 6)%nat -> in_Rd 1 (med6 j)) /\ value_at 6 (median_fun 1 med6 (fun _ => pt 0) 1) (pt 0) <> 0.
Proof.
  destruct mix6 as (W & E & M). exists W. split; [easy|]. split; [exact med6_opt|]. split; [intros; apply pt_Rd|exact med6_value].
Qed.
(** two nodes, observations -1 and 1: no report is nan *)
Theorem c62_median_without_nan : forall n d b c theta, 0 <= theta -> (forall j, (j < n)%nat -> in_Rd d (b j)) -> (forall j, (j < n)%nat -> in_Rd d (c j)) ->
  forall es rho cw W, 0 < rho -> mixing n es W cw -> 0 < cw -> forall xs gs, balanced_optimum d n (median_fun d b c theta) xs gs ->
  (forall k, p_iter n rho W (median_prox d b c theta) b k <> None) -> forall xstar, value_at n (median_fun d b c theta) xs <> 0 ->
  exists rep, (forall itr, p_extra n d itr rho W b xstar (value_at n (median_fun d b c theta) xs) (median_prox d b c theta) (median_f d b c theta) = map (fun k => Some (rep k)) (seq 0 itr)) /\
    Un_cv (fun k => rp_f (rep k)) 0.
Proof. exact median_values. Qed.
Print Assumptions c62_median_without_nan.
Example c62_median_without_nan_case : exists W, metropolis graph2 2 = Ok W /\ mixing 2 es2 W (1 / 2) /\ balanced_optimum 1 2 (median_fun 1 med_b med_b 0) (pt 0) (fun j => pt (if Nat.eqb j 0 then 1 else -1)) /\
  (forall k, p_iter 2 (1 / 2) W (median_prox 1 med_b med_b 0) med_b k <> None) /\ value_at 2 (median_fun 1 med_b med_b 0) (pt 0) <> 0.
Proof.
  destruct mix2 as (W & E & M & H). exists W. split; [easy|]. split; [easy|]. split; [exact med_opt|]. split; [exact (med_no_nan W H)|exact med_value].
Qed.
(** identical observations: every reported number is nan *)
Theorem c62_median_nan : forall n d rho W b c theta, row_stochastic n W -> (0 < n)%nat -> (forall j l, (j < n)%nat -> (l < n)%nat -> b j = b l) ->
  forall itr xstar fstar, p_extra n d itr rho W b xstar fstar (median_prox d b c theta) (median_f d b c theta) = repeat None itr.
Proof. exact median_nan. Qed.
Print Assumptions c62_median_nan.
Theorem c62_anorm : forall n d b P solve, (forall j, (j < n)%nat -> in_Rd d (b j)) -> (forall j, (j < n)%nat -> psd_matrix d (P j)) ->
  (forall j z rho, (j < n)%nat -> in_Rd d z -> 0 < rho -> solves d solve (fun i k => P j i k + (if Nat.eqb i k then 1 / rho else 0)) (vscal (1 / rho) (vsub z (b j)))) ->
  forall es rho cw W, 0 < rho -> mixing n es W cw -> 0 < cw -> forall xs gs, balanced_optimum d n (anorm_fun d b P) xs gs ->
  forall xstar, value_at n (anorm_fun d b P) xs <> 0 ->
  settles_or_nan (fun itr => p_extra n d itr rho W b xstar (value_at n (anorm_fun d b P) xs) (anorm_prox solve d b P) (anorm_f d b P)) rp_f.
Proof. exact anorm_settles. Qed.
Print Assumptions c62_anorm.
Example c62_anorm_case : exists W, mixing 6 es6 W (1 / 5) /\ (forall j, (j < 6)%nat -> psd_matrix 1 (qpQ j)) /\
  (forall j z rho, (j < 6)%nat -> in_Rd 1 z -> 0 < rho -> solves 1 solve1 (fun i k => qpQ j i k + (if Nat.eqb i k then 1 / rho else 0)) (vscal (1 / rho) (vsub z (ano6 j)))) /\
  balanced_optimum 1 6 (anorm_fun 1 ano6 qpQ) (pt 0) ano6_g /\ value_at 6 (anorm_fun 1 ano6 qpQ) (pt 0) <> 0.
Proof.
  destruct mix6 as (W & E & M). exists W. split; [easy|]. split; [intros; apply qp_psd|]. split; [|split; [exact ano6_opt|exact ano6_value]].
  intros j z rho _ _ Hr. split; [intros; apply pt_Rd; easy|]. intros i Hi. replace i with 0%nat by lia. rewrite dot1'. unfold solve1, qpQ, vscal, vsub, pt. simpl. field.
  split; [|lra]. intros K. assert (0 < / rho) by (apply Rinv_0_lt_compat; easy). nra.
Qed.
