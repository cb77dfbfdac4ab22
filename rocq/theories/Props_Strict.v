(** C66: for the builders of one function, and for those of several smooth
    functions with an untied start, the solvers are exact, whatever the constants:
    on all parameters at which the method moves, they accept exactly the rates
    that hold. *)
From Coq Require Import List Arith Bool String QArith Reals Qreals Lra Lia.
From Verif Require Import Prelude PreludeFacts Sympy SympyFacts AlgebraModel Denote FunctionModel CircuitModel SymSpec
  Spec ClassSpec CertSpec StateSpec SessionModel StateFacts CertFacts ParsingModel SolverModel SolverSpec QcqpModel SdpModel SdpSpec
  ExtraSpec BuilderModel BuilderSpec BuildsSpec BuilderUse BuilderExamples DualitySpec DualityProps DualityExamples VerifySpec VerifyProps
  StrictSpec StrictProps StrictSum StrictBuild StrictMulti StrictNet StrictLoop StrictDual Props_Builders Props_Duality Props_Verify.
Import ListNotations.
Local Open Scope R_scope.

(** ** C66: the constraints of the problem hold strictly for some functions and
    some start. *)
Theorem c66_strict SY : sympy_ok SY -> forall k r, moves SY r k -> forall l p s, k None (se_st (run SY session0 l)) = (Ok p, s) ->
  exists v, v_env v = r /\ strictly_feasible v p s.
Proof. intros OK k r M l p s E. exact (moves_strict SY OK r k _ p s M (si_inv _ (reachable_inv SY l)) E). Qed.
Print Assumptions c66_strict.

(** Hence solve_ipopt and solve_fix_discr_sdp accept the parameters exactly when
    the descent claim holds on every run of the method. *)
Theorem c66_exact SY : sympy_ok SY -> forall k names P A, builder SY k names P A -> forall r, moves SY r k ->
  forall l p s, k None (se_st (run SY session0 l)) = (Ok p, s) ->
  (forall b n s', ipopt_nlp SY p b s = (Ok n, s') -> side_ok p b r ->
     (accepts n P r <-> (forall d q, A d r q -> q <= 0))) /\
  (forall ps sr dp s', fix_discr_sdp SY p ps s = (Ok (sr, dp), s') -> (forall x q, In (x, q) ps -> r x = Q2R q) ->
     ((exists a, sdp_feasible dp a) <-> (forall d q, A d r q -> q <= 0))).
Proof.
  intros OK k names P A HB r M l p s E. destruct (c66_strict SY OK k r M l p s E) as (v & Hv & Hs).
  assert (HI := si_inv _ (reachable_inv SY l)).
  destruct (c63_builder_exact SY OK _ _ _ _ (builder_builds OK k names P A HB None _ I HI) (builder_nodup k names P A HB) p s E r v Hv Hs) as [H1 H2].
  split; [|exact H1]. intros b n s' Hn Hside. exact (H2 b n s' Hn (builder_three k names P A HB) (builder_recips k names P A HB) Hside).
Qed.
Print Assumptions c66_exact.

(** And exactly when the worst case that PEPit computes in verification mode is 0. *)
Theorem c66_verified SY : sympy_ok SY -> forall k names P A, builder SY k names P A -> forall ps, moves SY (dict_env ps) k ->
  forall l l' p s b n s' p1 s1, k None (se_st (run SY session0 l)) = (Ok p, s) -> ipopt_nlp SY p b s = (Ok n, s') ->
  (forall x, In x names -> exists q, dget String.eqb x ps = Some q) -> k (Some ps) (se_st (run SY session0 l')) = (Ok p1, s1) ->
  side_ok p b (dict_env ps) -> (accepts n P (dict_env ps) <-> worst_case s1 p1 0).
Proof.
  intros OK k names P A HB ps M l l' p s b n s' p1 s1 E Hn HK E1 Hs. destruct (c66_strict SY OK k _ M l p s E) as (v & Hv & Hf).
  exact (c64_exact SY OK k names P A HB l l' p s b n s' ps v p1 s1 E Hn HK E1 Hs Hv Hf).
Qed.
Print Assumptions c66_verified.

(** Gradient flow moves unless h = 0, alpha = 0 or alpha = beta = 1 (where two of
    the four points always coincide). *)
Theorem c66_gradient_flow SY : sympy_ok SY -> forall l mu L C p s n s' r, good_class mu L -> Q2R C <> 0 ->
  gradient_flow_circuit SY None mu L C (se_st (run SY session0 l)) = (Ok p, s) -> ipopt_nlp SY p None s = (Ok n, s') ->
  0 < r "h"%string -> r "alpha"%string <> 0 -> ~ (r "alpha"%string = 1 /\ r "beta"%string = 1) ->
  0 <= r "eta"%string -> 0 <= r "rho"%string ->
  (accepts n default_params r <->
   forall d q, gradient_flow_run d mu L (Q2R C) (r "h"%string) (r "alpha"%string) (r "beta"%string) (r "eta"%string) q -> q <= 0).
Proof.
  intros OK l mu L C p s n s' r G HC E Hn Hh Ha Hb H1 H2. assert (B := b_gradient_flow SY mu L C G HC).
  destruct (gf_moves mu L (/ Q2R C) (r "h"%string) (r "alpha"%string) (r "beta"%string) G) as (q & Iq & Nd); [|exact Ha|exact Hb|].
  { intros X. apply Rmult_integral in X as [X|X]; [lra|]. exact (Rinv_neq_0_compat _ HC X). }
  refine (proj1 (c66_exact SY OK _ _ _ _ B r (m_gradient_flow SY r mu L C q 1 G HC Iq Nd) l p s E) None n s' Hn _).
  destruct (built _ _ _ _ (builder_builds OK _ _ _ _ B None _ I (si_inv _ (reachable_inv SY l))) p s E) as (_ & Ep & _).
  split; [|split; [exact I|repeat split; lra]]. rewrite Ep. intros x Hx. vm_compute in Hx. destruct Hx.
Qed.
Print Assumptions c66_gradient_flow.

(** The proximal point method moves unless alpha = 0 or, with k = h/(C R),
    k = beta = 1 or k (1 - alpha) = k (1 - beta) = 1. *)
Theorem c66_proximal_point SY : sympy_ok SY -> forall l mu L C Rs p s n s' r, good_class mu L -> Q2R C <> 0 -> 0 < Q2R Rs ->
  ppm_circuit SY None mu L C Rs (se_st (run SY session0 l)) = (Ok p, s) -> ipopt_nlp SY p None s = (Ok n, s') ->
  let k := r "h"%string / (Q2R C * Q2R Rs) in
  0 < r "h"%string -> r "alpha"%string <> 0 -> ~ (k = 1 /\ r "beta"%string = 1) ->
  ~ (k * (1 - r "alpha"%string) = 1 /\ k * (1 - r "beta"%string) = 1) ->
  0 <= r "eta"%string -> 0 <= r "rho"%string ->
  (accepts n default_params r <->
   forall d q, ppm_run d mu L (Q2R C) (Q2R Rs) (r "h"%string) (r "alpha"%string) (r "beta"%string) (r "eta"%string) (r "rho"%string) q -> q <= 0).
Proof.
  intros OK l mu L C Rs p s n s' r G HC HR E Hn k Hh Ha Hb Hc H1 H2. assert (NR : Q2R Rs <> 0) by lra. assert (B := b_ppm SY mu L C Rs G HC NR).
  destruct (ppm_moves mu L (Q2R C) (Q2R Rs) (r "h"%string) (r "alpha"%string) (r "beta"%string) G HC HR) as (q & Iq & Nq & Nd); [|exact Hb|exact Hc|].
  { intros X. apply Rmult_integral in X as [X|X]; [exact (Ha X)|]. unfold Rdiv in X. apply Rmult_integral in X as [X|X]; [lra|].
    revert X. apply Rinv_neq_0_compat. intros X. apply Rmult_integral in X. tauto. }
  refine (proj1 (c66_exact SY OK _ _ _ _ B r (m_ppm SY r mu L C Rs q 1 G HC NR Iq Nq Nd) l p s E) None n s' Hn _).
  destruct (built _ _ _ _ (builder_builds OK _ _ _ _ B None _ I (si_inv _ (reachable_inv SY l))) p s E) as (_ & Ep & _).
  split; [|split; [exact I|repeat split; lra]]. rewrite Ep. intros x Hx. vm_compute in Hx. destruct Hx.
Qed.
Print Assumptions c66_proximal_point.

(** The capacitor variant of decentralised ADMM moves at all parameter values: for
    smooth classes no valid rate is missed. *)
Theorem c66_dadmm_C SY : sympy_ok SY -> forall l mu0 mu1 l0 l1 Rs C Ind p s n s' r,
  good_class mu0 (Fin l0) -> good_class mu1 (Fin l1) -> Q2R Rs <> 0 -> Q2R C <> 0 -> Q2R Ind <> 0 ->
  dadmm_C_graph6 SY None mu0 mu1 (Fin l0) (Fin l1) Rs C Ind (se_st (run SY session0 l)) = (Ok p, s) -> ipopt_nlp SY p None s = (Ok n, s') ->
  0 <= r "h"%string -> 0 <= r "eta"%string -> 0 <= r "rho"%string ->
  (accepts n default_params r <->
   forall d q, dadmm_C_graph6_run d mu0 mu1 (Fin l0) (Fin l1) (Q2R Rs) (Q2R C) (Q2R Ind)
     (r "h"%string) (r "eta"%string) (r "rho"%string) (r "gamma"%string) q -> q <= 0).
Proof.
  intros OK l mu0 mu1 l0 l1 Rs C Ind p s n s' r G0 G1 HR HC HI E Hn H1 H2 H3. assert (B := b_dadmm_C_graph6 SY mu0 mu1 (Fin l0) (Fin l1) Rs C Ind G0 G1 HR HC HI).
  refine (proj1 (c66_exact SY OK _ _ _ _ B r (m_C_graph6 SY r mu0 mu1 l0 l1 Rs C Ind G0 G1) l p s E) None n s' Hn _).
  destruct (built _ _ _ _ (builder_builds OK _ _ _ _ B None _ I (si_inv _ (reachable_inv SY l))) p s E) as (_ & Ep & _).
  split; [|split; [exact I|repeat split; lra]]. rewrite Ep. intros x Hx. vm_compute in Hx. destruct Hx.
Qed.
Print Assumptions c66_dadmm_C.

(** Primal decomposition of any number of functions moves unless h = 0 or
    alpha = 0. *)
Theorem c66_primal_decomposition SY : sympy_ok SY -> forall l nf mu L C p s n s' r, good_class mu L -> Q2R C <> 0 -> (1 <= nf)%nat ->
  primal_decomposition SY None nf mu L C (se_st (run SY session0 l)) = (Ok p, s) -> ipopt_nlp SY p None s = (Ok n, s') ->
  0 < r "h"%string -> r "alpha"%string <> 0 -> 0 <= r "eta"%string -> 0 <= r "rho"%string ->
  (accepts n default_params r <->
   forall d q, primal_decomposition_run d nf mu L (Q2R C) (r "h"%string) (r "alpha"%string) (r "beta"%string) (r "eta"%string) q -> q <= 0).
Proof.
  intros OK l nf mu L C p s n s' r G HC Hnf E Hn Hh Ha H1 H2. assert (B := b_primal_decomposition SY nf mu L C G HC Hnf).
  destruct (primal_moves nf mu L (Q2R C) (r "h"%string) (r "alpha"%string) G Hnf HC) as (q & Iq & Nd); [lra|exact Ha|].
  refine (proj1 (c66_exact SY OK _ _ _ _ B r (m_primal_decomposition SY r nf mu L C q 1 G HC Hnf Iq Nd) l p s E) None n s' Hn _).
  destruct (built _ _ _ _ (builder_builds OK _ _ _ _ B None _ I (si_inv _ (reachable_inv SY l))) p s E) as (_ & Ep & _).
  split; [|split; [exact I|repeat split; lra]]. rewrite Ep. intros x Hx. vm_compute in Hx. destruct Hx.
Qed.
Print Assumptions c66_primal_decomposition.

(** The same for dual decomposition of at least two smooth functions. *)
Theorem c66_dual_decomposition SY : sympy_ok SY -> forall l nf mu lf Ind p s n s' r, good_class mu (Fin lf) -> Q2R Ind <> 0 -> (2 <= nf)%nat ->
  dual_decomposition SY None nf mu (Fin lf) Ind (se_st (run SY session0 l)) = (Ok p, s) -> ipopt_nlp SY p None s = (Ok n, s') ->
  0 < r "h"%string -> r "alpha"%string <> 0 -> 0 <= r "eta"%string -> 0 <= r "rho"%string ->
  (accepts n default_params r <->
   forall d q, dual_decomposition_run d nf mu (Fin lf) (Q2R Ind) (r "h"%string) (r "alpha"%string) (r "beta"%string) (r "eta"%string) q -> q <= 0).
Proof.
  intros OK l nf mu lf Ind p s n s' r G HC Hnf E Hn Hh Ha H1 H2. assert (B := b_dual_decomposition SY nf mu (Fin lf) Ind G HC Hnf).
  destruct (dual_moves nf mu lf (Q2R Ind) (r "h"%string) (r "alpha"%string) G Hnf HC) as (q & cur & Iq & Hl & Hs & Nd); [lra|exact Ha|].
  refine (proj1 (c66_exact SY OK _ _ _ _ B r (m_dual_decomposition SY r nf mu lf Ind q cur G HC Hnf Iq Hl Hs Nd) l p s E) None n s' Hn _).
  destruct (built _ _ _ _ (builder_builds OK _ _ _ _ B None _ I (si_inv _ (reachable_inv SY l))) p s E) as (_ & Ep & _).
  split; [|split; [exact I|repeat split; lra]]. rewrite Ep. intros x Hx. vm_compute in Hx. destruct Hx.
Qed.
Print Assumptions c66_dual_decomposition.

(** Cases.  One parameter vector at which all sixteen methods move: h = 1,
    alpha = 1/2, beta = 1/4, C = 2, R = 1, L = 4. *)
Definition case_env (x : string) : R :=
  (if String.eqb x "h" then 1 else if String.eqb x "alpha" then 1 / 2 else if String.eqb x "beta" then 1 / 4 else
   if String.eqb x "C" then 2 else if String.eqb x "invC" then 1 / 2 else if String.eqb x "L" then 4 else if String.eqb x "invL" then 1 / 4 else
   if String.eqb x "R" then 1 else 0)%string.
Ltac distinct := repeat constructor; intros X; repeat (destruct X as [X|X]; [lra|]); destruct X.
Ltac several := repeat apply Forall_cons; try apply Forall_nil; distinct.
Ltac q2r := unfold Q2R; simpl; lra.
Example c66_cases : forall SY,
  moves SY case_env (fun params => gradient_flow_circuit SY params 0 (Fin 3) 2) /\
  moves SY case_env (fun params => gradient_flow_circuit_tuneC SY params (1 # 2) Inf) /\
  moves SY case_env (fun params => accelerated_gradient_circuit SY params 0 (Fin 3) 1 2 4) /\
  moves SY case_env (fun params => accelerated_gradient_circuit_tuneRLC SY params (1 # 2) (Fin 3)) /\
  moves SY case_env (fun params => ppm_circuit SY params 0 Inf 2 1) /\
  moves SY case_env (fun params => example_fC3RC_circuit SY params 0 (Fin 3) 2 1) /\
  moves SY case_env (fun params => prox_gradient_circuit SY params 0 (Fin 3) 1 2) /\
  moves SY case_env (fun params => douglas_rachford_splitting SY params 0 (Fin 3) 1 2) /\
  moves SY case_env (fun params => davis_yin_splitting SY params (1 # 2) (Fin 3) 1 2) /\
  moves SY case_env (fun params => primal_decomposition SY params 4 0 Inf 2) /\
  moves SY case_env (fun params => dual_decomposition SY params 3 0 (Fin 3) 2) /\
  moves SY case_env (fun params => admm_consensus_proof SY params 0 (Fin 3) 2) /\
  moves SY case_env (fun params => pg_extra_l3 SY params 0 (Fin 3) (Fin 3) 1 (fun _ _ => 1 # 3)) /\
  moves SY case_env (fun params => decentralized_admm_cycle4 SY params (1 # 2) (Fin 3) 1 2) /\
  moves SY case_env (fun params => decentralized_admm_graph6 SY params 0 (Fin 3) 1 2) /\
  moves SY case_env (fun params => dadmm_C_graph6 SY params 0 (1 # 2) (Fin 3) (Fin 3) 1 10 2).
Proof.
  intros SY.
  assert (G1 : good_class 0 (Fin 3)) by (split; simpl; q2r). assert (G2 : good_class (1 # 2) Inf) by (split; [q2r|exact I]).
  assert (G3 : good_class (1 # 2) (Fin 3)) by (split; simpl; q2r). assert (G4 : good_class 0 Inf) by (split; [q2r|exact I]).
  assert (E2 : Q2R 2 = 2) by q2r. assert (E4 : Q2R 4 = 4) by q2r. assert (E1 : Q2R 1 = 1) by q2r.
  repeat match goal with |- _ /\ _ => split end.
  - apply (m_gradient_flow SY case_env 0 (Fin 3) 2 1 1 G1); [q2r|split; simpl; q2r|]. rewrite E2. unfold gradient_flow_points, case_env; simpl. distinct.
  - apply (m_tuneC SY case_env (1 # 2) Inf 1 1 G2); [split; simpl; [q2r|exact I]|]. unfold gradient_flow_points, case_env; simpl. distinct.
  - apply (m_accelerated SY case_env 0 (Fin 3) 1 2 4 1 1 0 G1); [q2r|q2r|split; simpl; q2r|]. rewrite E2, E4, E1. unfold accelerated_points, case_env; simpl. distinct.
  - apply (m_tuneRLC SY case_env (1 # 2) (Fin 3) 1 1 0 G3); [split; simpl; q2r|]. unfold accelerated_points, case_env; simpl. distinct.
  - apply (m_ppm SY case_env 0 Inf 2 1 1 1 G4); [q2r|q2r|split; simpl; [q2r|exact I]|rewrite E1; lra|]. rewrite E2, E1. unfold ppm_points, case_env; simpl. distinct.
  - apply (m_example SY case_env 0 (Fin 3) 2 1 1 1 0 G1); [q2r|q2r|split; simpl; q2r|rewrite E1; lra|]. rewrite E2, E1. unfold example_points, case_env; simpl. distinct.
  - apply (m_prox_gradient SY case_env 0 3 1 2 (1 / 2) 1 1 G1); [q2r|q2r|split; simpl; q2r|split; simpl; [q2r|exact I]|rewrite E1; lra|]. rewrite E2, E1. unfold prox_gradient_points, case_env; simpl. several.
  - apply (m_douglas_rachford SY case_env 0 3 1 2 1 (1 / 2) 0 2 G1); [q2r|split; simpl; q2r|split; simpl; q2r|rewrite E1; lra|rewrite E1; lra|]. rewrite E2, E1. unfold douglas_rachford_points, case_env; simpl. several.
  - apply (m_davis_yin SY case_env (1 # 2) 3 1 2 1 2 1 0 2 G3); [q2r|q2r|split; simpl; q2r|split; simpl; q2r|split; simpl; q2r|rewrite E1; lra|rewrite E1; lra|]. rewrite E2, E1. unfold davis_yin_points, case_env; simpl. several.
  - apply (m_primal_decomposition SY case_env 4 0 Inf 2 (1 / 3) 1 G4); [q2r|lia|split; simpl; [q2r|exact I]|]. rewrite E2. unfold primal_points, case_env; simpl. distinct.
  - apply (m_dual_decomposition SY case_env 3 0 3 2 1 [1; 2; -3] G1); [q2r|lia|split; simpl; q2r|reflexivity|unfold rsuml; simpl; lra|]. rewrite E2. unfold dual_points, case_env; simpl. several.
  - exact (m_consensus_proof SY case_env 0 3 2 G1 ltac:(q2r)).
  - exact (m_pg_extra SY case_env 0 3 3 1 _ G1 G1 ltac:(q2r)).
  - exact (m_cycle4 SY case_env (1 # 2) 3 1 2 G3).
  - exact (m_graph6 SY case_env 0 3 1 2 G1).
  - exact (m_C_graph6 SY case_env 0 (1 # 2) 3 3 1 10 2 G1 G3).
Qed.
(** The side conditions hold there, also for the tuned circuits. *)
Example c66_side : forall p, pr_params p = (ssort (default_params ++ ["C"; "invC"; "L"; "invL"; "R"]%string)) -> side_ok p None case_env.
Proof.
  intros p E. split; [|split; [exact I|unfold case_env; simpl; lra]]. rewrite E. intros x Hx. vm_compute in Hx.
  destruct Hx as [<-|[<-|[]]]; (split; [unfold case_env; simpl; lra|unfold case_env, tiny, Q2R; simpl; lra]).
Qed.
