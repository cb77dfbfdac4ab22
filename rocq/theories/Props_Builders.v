(** C44-C46: the problem builders of the package and of the README.

    [builds k s params A] (BuildsSpec) reads: the builder [k] succeeds, leaves a
    well-formed problem over the parameters [params] that maximises eta, and
    its metric takes exactly the values described by [A]; the predicates
    [.._run] (BuilderSpec) describe one step of each method on arbitrary
    functions of the class, in R^d for arbitrary d. *)
From Coq Require Import List Arith Bool String Ascii QArith Reals Qreals Lra Lia.
From Verif Require Import Prelude PreludeFacts Sympy SympyFacts AlgebraModel Denote FunctionModel CircuitModel
  SymSpec Spec ClassSpec CertSpec StateSpec SessionModel StateFacts CertFacts Examples
  ParsingModel SolverModel SolverSpec QcqpModel SdpModel SdpSpec
  BuilderModel BuilderSpec BuildsSpec BuilderUseSpec BuilderLogic BuilderT BuilderRun BuilderProof BuilderListProof BuilderUse BuilderExamples.
Import ListNotations.
Local Open Scope R_scope.

(** ** C44, C45: every builder builds the problem it is named after *)
Theorem c44_gradient_flow_builder SY : sympy_ok SY -> forall l mu L C,
  good_class mu L -> Q2R C <> 0 ->
  builds (gradient_flow_circuit SY None mu L C) (se_st (run SY session0 l)) default_params (fun d r q => gradient_flow_run d mu L (Q2R C) (r "h") (r "alpha") (r "beta") (r "eta") q)%string.
Proof. intros OK l mu L C H0 H1. exact (gradient_flow_builds OK None _ mu L C I H0 H1 (si_inv _ (reachable_inv SY l))). Qed.
Print Assumptions c44_gradient_flow_builder.

Theorem c45_tuneC_builder SY : sympy_ok SY -> forall l mu L,
  good_class mu L ->
  builds (gradient_flow_circuit_tuneC SY None mu L) (se_st (run SY session0 l)) (ssort (default_params ++ ["C"; "invC"]))%string (fun d r q => gradient_flow_tuneC_run d mu L (r "C") (r "invC") (r "h") (r "alpha") (r "beta") (r "eta") q)%string.
Proof. intros OK l mu L H0. exact (tuneC_builds OK None _ mu L I H0 (si_inv _ (reachable_inv SY l))). Qed.
Print Assumptions c45_tuneC_builder.

Theorem c45_accelerated_builder SY : sympy_ok SY -> forall l mu L Rs C Ind,
  good_class mu L -> Q2R C <> 0 -> Q2R Ind <> 0 ->
  builds (accelerated_gradient_circuit SY None mu L Rs C Ind) (se_st (run SY session0 l)) default_params (fun d r q => accelerated_gradient_run d mu L (Q2R Rs) (Q2R C) (Q2R Ind) (/ Q2R C) (/ Q2R Ind) (r "h") (r "alpha") (r "beta") (r "eta") (r "rho") q)%string.
Proof. intros OK l mu L Rs C Ind H0 H1 H2. exact (accelerated_builds OK None _ mu L Rs C Ind I H0 H1 H2 (si_inv _ (reachable_inv SY l))). Qed.
Print Assumptions c45_accelerated_builder.

Theorem c45_tuneRLC_builder SY : sympy_ok SY -> forall l mu L,
  good_class mu L ->
  builds (accelerated_gradient_circuit_tuneRLC SY None mu L) (se_st (run SY session0 l)) (ssort (default_params ++ ["C"; "invC"; "L"; "invL"; "R"]))%string (fun d r q => accelerated_gradient_run d mu L (r "R") (r "C") (r "L") (r "invC") (r "invL") (r "h") (r "alpha") (r "beta") (r "eta") (r "rho") q)%string.
Proof. intros OK l mu L H0. exact (tuneRLC_builds OK None _ mu L I H0 (si_inv _ (reachable_inv SY l))). Qed.
Print Assumptions c45_tuneRLC_builder.

Theorem c45_ppm_builder SY : sympy_ok SY -> forall l mu L C Rs,
  good_class mu L -> Q2R C <> 0 -> Q2R Rs <> 0 ->
  builds (ppm_circuit SY None mu L C Rs) (se_st (run SY session0 l)) default_params (fun d r q => ppm_run d mu L (Q2R C) (Q2R Rs) (r "h") (r "alpha") (r "beta") (r "eta") (r "rho") q)%string.
Proof. intros OK l mu L C Rs H0 H1 H2. exact (ppm_builds OK None _ mu L C Rs I H0 H1 H2 (si_inv _ (reachable_inv SY l))). Qed.
Print Assumptions c45_ppm_builder.

Theorem c45_prox_gradient_builder SY : sympy_ok SY -> forall l mu L Rs C,
  good_class mu L -> Q2R C <> 0 -> Q2R Rs <> 0 ->
  builds (prox_gradient_circuit SY None mu L Rs C) (se_st (run SY session0 l)) default_params (fun d r q => prox_gradient_run d mu L (Q2R Rs) (Q2R C) (r "h") (r "eta") (r "rho") q)%string.
Proof. intros OK l mu L Rs C H0 H1 H2. exact (prox_gradient_builds OK None _ mu L Rs C I H0 H1 H2 (si_inv _ (reachable_inv SY l))). Qed.
Print Assumptions c45_prox_gradient_builder.

Theorem c45_douglas_rachford_builder SY : sympy_ok SY -> forall l mu L Rs Ind,
  good_class mu L -> Q2R Ind <> 0 ->
  builds (douglas_rachford_splitting SY None mu L Rs Ind) (se_st (run SY session0 l)) default_params (fun d r q => douglas_rachford_run d mu L (Q2R Rs) (Q2R Ind) (r "h") (r "alpha") (r "beta") (r "eta") (r "rho") (r "gamma") q)%string.
Proof. intros OK l mu L Rs Ind H0 H1. exact (douglas_rachford_builds OK None _ mu L Rs Ind I H0 H1 (si_inv _ (reachable_inv SY l))). Qed.
Print Assumptions c45_douglas_rachford_builder.

Theorem c45_davis_yin_builder SY : sympy_ok SY -> forall l mu L Rs Ind,
  good_class mu L -> Q2R Rs <> 0 -> Q2R Ind <> 0 ->
  builds (davis_yin_splitting SY None mu L Rs Ind) (se_st (run SY session0 l)) default_params (fun d r q => davis_yin_run d mu L (Q2R Rs) (Q2R Ind) (r "h") (r "alpha") (r "beta") (r "eta") (r "rho") (r "gamma") q)%string.
Proof. intros OK l mu L Rs Ind H0 H1 H2. exact (davis_yin_builds OK None _ mu L Rs Ind I H0 H1 H2 (si_inv _ (reachable_inv SY l))). Qed.
Print Assumptions c45_davis_yin_builder.

Theorem c45_admm_consensus_proof_builder SY : sympy_ok SY -> forall l mu L Rs,
  good_class mu L -> Q2R Rs <> 0 ->
  builds (admm_consensus_proof SY None mu L Rs) (se_st (run SY session0 l)) default_params (fun d r q => admm_consensus_proof_run d mu L (Q2R Rs) (r "h") (r "eta") q)%string.
Proof. intros OK l mu L Rs H0 H1. exact (admm_consensus_proof_builds OK None _ mu L Rs I H0 H1 (si_inv _ (reachable_inv SY l))). Qed.
Print Assumptions c45_admm_consensus_proof_builder.

Theorem c45_dgd_line3_builder SY : sympy_ok SY -> forall l mu L Rs C,
  good_class mu L -> Q2R Rs <> 0 -> Q2R C <> 0 ->
  builds (decentralized_gradient_descent_line3 SY None mu L Rs C) (se_st (run SY session0 l)) default_params (fun d r q => dgd_line3_run d mu L (Q2R Rs) (Q2R C) (r "h") (r "eta") (r "rho") q)%string.
Proof. intros OK l mu L Rs C H0 H1 H2. exact (dgd_line3_builds OK None _ mu L Rs C I H0 H1 H2 (si_inv _ (reachable_inv SY l))). Qed.
Print Assumptions c45_dgd_line3_builder.

Theorem c45_diffusion_line3_builder SY : sympy_ok SY -> forall l mu L Rs C,
  good_class mu L -> Q2R Rs <> 0 -> Q2R C <> 0 ->
  builds (diffusion_line3 SY None mu L Rs C) (se_st (run SY session0 l)) default_params (fun d r q => diffusion_line3_run d mu L (Q2R Rs) (Q2R C) (r "h") (r "eta") (r "rho") q)%string.
Proof. intros OK l mu L Rs C H0 H1 H2. exact (diffusion_line3_builds OK None _ mu L Rs C I H0 H1 H2 (si_inv _ (reachable_inv SY l))). Qed.
Print Assumptions c45_diffusion_line3_builder.

Theorem c45_pg_extra_l3_builder SY : sympy_ok SY -> forall l mu Lh Lf Rs W,
  good_class mu Lh -> good_class mu Lf -> Q2R Rs <> 0 -> Q2R (W 0 1)%nat <> 0 -> Q2R (W 1 2)%nat <> 0 ->
  builds (pg_extra_l3 SY None mu Lh Lf Rs W) (se_st (run SY session0 l)) default_params (fun d r q => pg_extra_l3_run d mu Lh Lf (Q2R Rs) (fun i j => Q2R (W i j)) (r "h") (r "eta") (r "rho") (r "gamma") q)%string.
Proof. intros OK l mu Lh Lf Rs W H0 H1 H2 H3 H4. exact (pg_extra_l3_builds OK None _ mu Lh Lf Rs W I H0 H1 H2 H3 H4 (si_inv _ (reachable_inv SY l))). Qed.
Print Assumptions c45_pg_extra_l3_builder.

Theorem c45_dadmm_l3_builder SY : sympy_ok SY -> forall l mu L Rs Ind,
  good_class mu L -> Q2R Rs <> 0 -> Q2R Ind <> 0 ->
  builds (decentralized_admm_consensus_l3 SY None mu L Rs Ind) (se_st (run SY session0 l)) default_params (fun d r q => dadmm_l3_run d mu L (Q2R Rs) (Q2R Ind) (r "h") (r "alpha") (r "beta") (r "eta") (r "rho") (r "gamma") q)%string.
Proof. intros OK l mu L Rs Ind H0 H1 H2. exact (dadmm_l3_builds OK None _ mu L Rs Ind I H0 H1 H2 (si_inv _ (reachable_inv SY l))). Qed.
Print Assumptions c45_dadmm_l3_builder.

Theorem c45_dadmm_cycle4_builder SY : sympy_ok SY -> forall l mu L Rs Ind,
  good_class mu L -> Q2R Rs <> 0 -> Q2R Ind <> 0 ->
  builds (decentralized_admm_cycle4 SY None mu L Rs Ind) (se_st (run SY session0 l)) default_params (fun d r q => dadmm_cycle4_run d mu L (Q2R Rs) (Q2R Ind) (r "h") (r "eta") (r "rho") (r "gamma") q)%string.
Proof. intros OK l mu L Rs Ind H0 H1 H2. exact (dadmm_cycle4_builds OK None _ mu L Rs Ind I H0 H1 H2 (si_inv _ (reachable_inv SY l))). Qed.
Print Assumptions c45_dadmm_cycle4_builder.

Theorem c45_dadmm_graph6_builder SY : sympy_ok SY -> forall l mu L Rs Ind,
  good_class mu L -> Q2R Rs <> 0 -> Q2R Ind <> 0 ->
  builds (decentralized_admm_graph6 SY None mu L Rs Ind) (se_st (run SY session0 l)) default_params (fun d r q => dadmm_graph6_run d mu L (Q2R Rs) (Q2R Ind) (r "h") (r "eta") (r "rho") (r "gamma") q)%string.
Proof. intros OK l mu L Rs Ind H0 H1 H2. exact (dadmm_graph6_builds OK None _ mu L Rs Ind I H0 H1 H2 (si_inv _ (reachable_inv SY l))). Qed.
Print Assumptions c45_dadmm_graph6_builder.

Theorem c45_dadmm_C_graph6_builder SY : sympy_ok SY -> forall l mu0 mu1 L0 L1 Rs C Ind,
  good_class mu0 L0 -> good_class mu1 L1 -> Q2R Rs <> 0 -> Q2R C <> 0 -> Q2R Ind <> 0 ->
  builds (dadmm_C_graph6 SY None mu0 mu1 L0 L1 Rs C Ind) (se_st (run SY session0 l)) default_params (fun d r q => dadmm_C_graph6_run d mu0 mu1 L0 L1 (Q2R Rs) (Q2R C) (Q2R Ind) (r "h") (r "eta") (r "rho") (r "gamma") q)%string.
Proof. intros OK l mu0 mu1 L0 L1 Rs C Ind H0 H1 H2 H3 H4. exact (dadmm_C_graph6_builds OK None _ mu0 mu1 L0 L1 Rs C Ind I H0 H1 H2 H3 H4 (si_inv _ (reachable_inv SY l))). Qed.
Print Assumptions c45_dadmm_C_graph6_builder.

Theorem c45_example_fC3RC_builder SY : sympy_ok SY -> forall l mu L C Rs,
  good_class mu L -> Q2R C <> 0 -> Q2R Rs <> 0 ->
  builds (example_fC3RC_circuit SY None mu L C Rs) (se_st (run SY session0 l)) default_params (fun d r q => example_fC3RC_run d mu L (Q2R C) (Q2R Rs) (r "h") (r "alpha") (r "beta") (r "eta") (r "rho") q)%string.
Proof. intros OK l mu L C Rs H0 H1 H2. exact (example_fC3RC_builds OK None _ mu L C Rs I H0 H1 H2 (si_inv _ (reachable_inv SY l))). Qed.
Print Assumptions c45_example_fC3RC_builder.

Theorem c45_readme_builder SY : sympy_ok SY -> forall l mu L Rs C,
  good_class mu L -> Q2R Rs <> 0 -> Q2R C <> 0 ->
  builds (readme_hello_world SY mu L Rs C) (se_st (run SY session0 l)) default_params (fun d r q => readme_run d mu L (Q2R Rs) (Q2R C) (r "h") (r "eta") q)%string.
Proof. intros OK l mu L Rs C H0 H1 H2. exact (readme_builds OK _ mu L Rs C H0 H1 H2 (si_inv _ (reachable_inv SY l))). Qed.
Print Assumptions c45_readme_builder.

Theorem c45_primal_decomposition_builder SY : sympy_ok SY -> forall l n mu L C,
  good_class mu L -> Q2R C <> 0 -> (1 <= n)%nat ->
  builds (primal_decomposition SY None n mu L C) (se_st (run SY session0 l)) default_params (fun d r q => primal_decomposition_run d n mu L (Q2R C) (r "h") (r "alpha") (r "beta") (r "eta") q)%string.
Proof. intros OK l n mu L C H0 H1 H2. exact (primal_decomposition_builds OK None _ n mu L C I H0 H1 H2 (si_inv _ (reachable_inv SY l))). Qed.
Print Assumptions c45_primal_decomposition_builder.

Theorem c45_dual_decomposition_builder SY : sympy_ok SY -> forall l n mu L Ind,
  good_class mu L -> Q2R Ind <> 0 -> (2 <= n)%nat ->
  builds (dual_decomposition SY None n mu L Ind) (se_st (run SY session0 l)) default_params (fun d r q => dual_decomposition_run d n mu L (Q2R Ind) (r "h") (r "alpha") (r "beta") (r "eta") q)%string.
Proof. intros OK l n mu L Ind H0 H1 H2. exact (dual_decomposition_builds OK None _ n mu L Ind I H0 H1 H2 (si_inv _ (reachable_inv SY l))). Qed.
Print Assumptions c45_dual_decomposition_builder.

Theorem c45_admm_consensus_builder SY : sympy_ok SY -> forall l n mu L Rs Ind,
  good_class mu L -> Q2R Ind <> 0 -> (2 <= n)%nat ->
  builds (admm_consensus SY None n mu L Rs Ind) (se_st (run SY session0 l)) default_params (fun d r q => admm_consensus_run d n mu L (Q2R Rs) (Q2R Ind) (r "h") (r "alpha") (r "beta") (r "eta") (r "rho") (r "gamma") q)%string.
Proof. intros OK l n mu L Rs Ind H0 H1 H2. exact (admm_consensus_builds OK None _ n mu L Rs Ind I H0 H1 H2 (si_inv _ (reachable_inv SY l))). Qed.
Print Assumptions c45_admm_consensus_builder.

Theorem c45_admm_euler_builder SY : sympy_ok SY -> forall l n mu L Rs Ind,
  good_class mu L -> Q2R Ind <> 0 -> (2 <= n)%nat ->
  builds (admm_euler_consensus SY None n mu L Rs Ind) (se_st (run SY session0 l)) default_params (fun d r q => admm_euler_run d n mu L (Q2R Rs) (Q2R Ind) (r "h") (r "eta") (r "rho") q)%string.
Proof. intros OK l n mu L Rs Ind H0 H1 H2. exact (admm_euler_builds OK None _ n mu L Rs Ind I H0 H1 H2 (si_inv _ (reachable_inv SY l))). Qed.
Print Assumptions c45_admm_euler_builder.

(** The hypotheses can be met, and each method has runs other than standing
    still: x^2/2 on the line, started at 1. *)
Lemma Q2R_1_neq : Q2R 1 <> 0. Proof. unfold Q2R; simpl; lra. Qed.
Lemma class01 : good_class 0 (Fin 1). Proof. split; unfold Q2R; simpl; lra. Qed.
Example c44_case : good_class 0 (Fin 1) /\ Q2R 1 <> 0 /\ exists q, gradient_flow_run 1 0 (Fin 1) 1 1 0 1 1 q.
Proof. exact (conj class01 (conj Q2R_1_neq gradient_flow_case)). Qed.
Example c45_cases : good_class 0 (Fin 1) /\ Q2R 1 <> 0 /\
  (exists q, gradient_flow_tuneC_run 1 0 (Fin 1) 1 1 1 0 1 1 q) /\
  (exists q, accelerated_gradient_run 1 0 (Fin 1) 1 1 1 1 1 1 0 1 1 1 q) /\
  (exists q, ppm_run 1 0 (Fin 1) 1 1 1 0 1 1 1 q) /\
  (exists q, prox_gradient_run 1 0 (Fin 1) 1 1 1 1 1 q) /\
  (exists q, douglas_rachford_run 1 0 (Fin 1) 1 1 1 1 1 1 1 1 q) /\
  (exists q, davis_yin_run 1 0 (Fin 1) 1 1 1 1 1 1 1 1 q) /\
  (exists q, admm_consensus_proof_run 1 0 (Fin 1) 1 1 1 q) /\
  (exists q, dgd_line3_run 1 0 (Fin 1) 1 1 1 1 1 q) /\
  (exists q, diffusion_line3_run 1 0 (Fin 1) 1 1 1 1 1 q) /\
  (exists q, pg_extra_l3_run 1 0 (Fin 1) (Fin 1) 1 (fun _ _ => 1) 1 1 1 1 q) /\
  (exists q, dadmm_l3_run 1 0 (Fin 1) 1 1 1 1 1 1 1 1 q) /\
  (exists q, dadmm_cycle4_run 1 0 (Fin 1) 1 1 1 1 1 1 q) /\
  (exists q, dadmm_graph6_run 1 0 (Fin 1) 1 1 1 1 1 1 q) /\
  (exists q, dadmm_C_graph6_run 1 0 0 (Fin 1) (Fin 1) 1 1 1 1 1 1 1 q) /\
  (exists q, example_fC3RC_run 1 0 (Fin 1) 1 1 1 0 1 1 1 q) /\
  (exists q, readme_run 1 0 (Fin 1) 1 1 1 1 q) /\
  (exists q, primal_decomposition_run 1 2 0 (Fin 1) 1 (1 / 4) 0 1 1 q).
Proof.
  exact (conj class01 (conj Q2R_1_neq (conj tuneC_case (conj accelerated_case (conj ppm_case (conj prox_gradient_case (conj douglas_rachford_case
    (conj davis_yin_case (conj admm_consensus_proof_case (conj dgd_line3_case (conj diffusion_line3_case (conj pg_extra_l3_case (conj dadmm_l3_case
    (conj dadmm_cycle4_case (conj dadmm_graph6_case (conj dadmm_C_graph6_case (conj example_fC3RC_case (conj readme_case primal_case)))))))))))))))))).
Qed.

(** ** What a solution of the problem says about the method *)
(** Whatever feasible point ipopt, the QCQP solvers or the SDP for fixed
    parameters return, the metric is at most 0 for every run of the method at
    the returned parameters: in every dimension, for all functions of the
    class, from every starting point. *)
Theorem c45_certificate SY : sympy_ok SY -> forall k s0 params A, builds k s0 params A -> NoDup params ->
  forall p s, k s0 = (Ok p, s) ->
  (forall b n s' a r, ipopt_nlp SY p b s = (Ok n, s') -> feasible (nlp_opti n) a ->
     (forall x q, In (x, q) (dict_parameters (nlp_opti n) a params) -> r x = q) -> forall d q, A d r q -> q <= 0) /\
  (forall b extra n s' a r, qcqp_nlp SY p b extra s = (Ok n, s') -> feasible (nlp_opti n) a ->
     (forall x q, In (x, q) (dict_parameters (nlp_opti n) a params) -> r x = q) -> forall d q, A d r q -> q <= 0) /\
  (forall ps sr dp s' a r, fix_discr_sdp SY p ps s = (Ok (sr, dp), s') -> sdp_feasible dp a ->
     (forall x q, In (x, q) ps -> r x = Q2R q) -> forall d q, A d r q -> q <= 0).
Proof.
  intros OK k s0 params A HB Nd p s Hk. split; [|split].
  - intros b n s' a r. exact (ipopt_value OK k s0 params A HB p s Hk b n s' a r).
  - intros b extra n s' a r. exact (qcqp_value OK k s0 params A HB p s Hk b extra n s' a r Nd).
  - intros ps sr dp s' a r. exact (sdp_value OK k s0 params A HB p s Hk ps sr dp s' a r Nd).
Qed.
Print Assumptions c45_certificate.

(** For the gradient flow builder this is the convergence bound, for a run of
    any length: sum_{k<N} eta (f(x_k) - f_star) <= E(x_0) - E(x_N). *)
Theorem c44_convergence SY : sympy_ok SY -> forall l mu L C, good_class mu L -> Q2R C <> 0 ->
  forall p s b n s' a r, gradient_flow_circuit SY None mu L C (se_st (run SY session0 l)) = (Ok p, s) ->
    ipopt_nlp SY p b s = (Ok n, s') -> feasible (nlp_opti n) a ->
    (forall x q, In (x, q) (dict_parameters (nlp_opti n) a default_params) -> r x = q) ->
  forall d phi xs fs x y f,
    gradient_flow_trajectory d mu L (Q2R C) (r "h"%string) (r "alpha"%string) (r "beta"%string) phi xs fs x y f ->
  forall N, rsum N (fun k => r "eta"%string * (f k - fs)) <=
    Q2R C / 2 * nsq d (vsub (x 0%nat) xs) - Q2R C / 2 * nsq d (vsub (x N) xs).
Proof.
  intros OK l mu L C Hc HC p s b n s' a r Hk H Ha Hr d phi xs fs x y f Ht. eapply gradient_flow_sum; [|exact Ht].
  exact (ipopt_value OK _ _ _ _ (c44_gradient_flow_builder SY OK l mu L C Hc HC) p s Hk b n s' a r H Ha Hr d).
Qed.
Print Assumptions c44_convergence.
Theorem c45_primal_convergence SY : sympy_ok SY -> forall l n mu L C, good_class mu L -> Q2R C <> 0 -> (1 <= n)%nat ->
  forall p s b nl s' a r, primal_decomposition SY None n mu L C (se_st (run SY session0 l)) = (Ok p, s) ->
    ipopt_nlp SY p b s = (Ok nl, s') -> feasible (nlp_opti nl) a ->
    (forall x q, In (x, q) (dict_parameters (nlp_opti nl) a default_params) -> r x = q) ->
  forall d phis xs fs z y,
    primal_trajectory d n mu L (Q2R C) (r "h"%string) (r "alpha"%string) (r "beta"%string) phis xs fs z y ->
  forall N, rsum N (fun k => r "eta"%string * dot d (vsub (z k) xs) (vsum (y k))) <=
    Q2R C / 2 * nsq d (vsub (z 0%nat) xs) - Q2R C / 2 * nsq d (vsub (z N) xs).
Proof.
  intros OK l n mu L C Hc HC Hn p s b nl s' a r Hk H Ha Hr d phis xs fs z y Ht. eapply primal_sum; [|exact Ht].
  exact (ipopt_value OK _ _ _ _ (c45_primal_decomposition_builder SY OK l n mu L C Hc HC Hn) p s Hk b nl s' a r H Ha Hr d).
Qed.
Print Assumptions c45_primal_convergence.
(** The README's example: sum_{k<N} eta <x_k - x_star, y_k> <= E_0 - E_N. *)
Theorem c45_readme_convergence SY : sympy_ok SY -> forall l mu L Rs C, good_class mu L -> Q2R Rs <> 0 -> Q2R C <> 0 ->
  forall p s b n s' a r, readme_hello_world SY mu L Rs C (se_st (run SY session0 l)) = (Ok p, s) ->
    ipopt_nlp SY p b s = (Ok n, s') -> feasible (nlp_opti n) a ->
    (forall x q, In (x, q) (dict_parameters (nlp_opti n) a default_params) -> r x = q) ->
  forall d phi xs fs z w x y, readme_trajectory d mu L (Q2R Rs) (Q2R C) (r "h"%string) phi xs fs z w x y ->
  let E k := Q2R C / 2 * nsq d (vadd (vsub (vscal (/ 2) (w k)) (z k)) xs) + Q2R C / 2 * nsq d (w k) in
  forall N, rsum N (fun k => r "eta"%string * dot d (vsub (x k) xs) (y k)) <= E 0%nat - E N.
Proof.
  intros OK l mu L Rs C Hc HR HC p s b n s' a r Hk H Ha Hr d phi xs fs z w x y Ht. eapply readme_sum; [|exact Ht].
  exact (ipopt_value OK _ _ _ _ (c45_readme_builder SY OK l mu L Rs C Hc HR HC) p s Hk b n s' a r H Ha Hr d).
Qed.
Print Assumptions c45_readme_convergence.

(** A feasible point of the gradient flow problem with mu = 0, L = 1, C = 1:
    h = 1, alpha = 0, beta = 1, eta = 1.  Hence gradient descent with step 1
    on a convex 1-smooth function satisfies
    sum_{k<N} (f(x_k) - f_star) <= |x_0 - x_star|^2 / 2. *)
Definition gf_assign (i : nat) : R := if existsb (Nat.eqb i) [0; 2; 6; 33; 48; 49; 50; 51; 53; 54]%nat then 1 else 0.
Definition gf_env (x : string) : R := if existsb (String.eqb x) ["eta"; "h"; "beta"]%string then 1 else 0.
Definition gf_nlp : list ccon * list (string * cavar) := Eval vm_compute in
  match gradient_flow_circuit sympy0 None 0 (Fin 1) 1 (se_st session0) with
  | (Ok p, s) => match ipopt_nlp sympy0 p None s with (Ok n, _) => (op_cons (nlp_opti n), op_vars (nlp_opti n)) | _ => ([], []) end
  | _ => ([], []) end.
Example c44_feasible : exists p s n s',
  gradient_flow_circuit sympy0 None 0 (Fin 1) 1 (se_st (run sympy0 session0 [])) = (Ok p, s) /\
  ipopt_nlp sympy0 p None s = (Ok n, s') /\ feasible (nlp_opti n) gf_assign /\
  (forall x q, In (x, q) (dict_parameters (nlp_opti n) gf_assign default_params) -> gf_env x = q).
Proof.
  assert (H : match gradient_flow_circuit sympy0 None 0 (Fin 1) 1 (se_st (run sympy0 session0 [])) with
    | (Ok p, s) => match ipopt_nlp sympy0 p None s with
        | (Ok n, _) => op_cons (nlp_opti n) = fst gf_nlp /\ op_vars (nlp_opti n) = snd gf_nlp | _ => False end
    | _ => False end) by (vm_compute; split; reflexivity).
  destruct (gradient_flow_circuit sympy0 None 0 (Fin 1) 1 (se_st (run sympy0 session0 []))) as [[p|] s]; [|destruct H].
  destruct (ipopt_nlp sympy0 p None s) as [[n|] s'] eqn:E; [|destruct H]. destruct H as [H1 H2].
  exists p, s, n, s'. split; [reflexivity|]. split; [exact E|]. split.
  - unfold feasible. rewrite H1. unfold gf_nlp. cbn [fst]. repeat apply Forall_cons; try apply Forall_nil; unfold gf_assign; simpl; unfold Q2R; simpl; try lra.
  - intros x q Hx. unfold dict_parameters in Hx. rewrite H2 in Hx. unfold gf_nlp in Hx. cbn in Hx.
    repeat (destruct Hx as [Hx|Hx]; [injection Hx as <- <-; reflexivity|]). destruct Hx.
Qed.
Example c44_gradient_descent : forall d phi xs fs x y f,
  gradient_flow_trajectory d 0 (Fin 1) 1 1 0 1 phi xs fs x y f ->
  forall N, rsum N (fun k => f k - fs) <= nsq d (vsub (x 0%nat) xs) / 2.
Proof.
  intros d phi xs fs x y f Ht N. destruct c44_feasible as (p & s & n & s' & Hk & Hn & Hf & Hr).
  assert (E1 : Q2R 1 = 1) by (unfold Q2R; simpl; lra). rewrite <- E1 in Ht at 1.
  assert (H := c44_convergence sympy0 sympy0_ok [] 0 (Fin 1) 1 class01 Q2R_1_neq p s None n s' gf_assign gf_env Hk Hn Hf Hr d phi xs fs x y f Ht N).
  rewrite E1 in H. assert (0 <= nsq d (vsub (x N) xs)) by apply nsq_nonneg.
  assert (E2 : rsum N (fun k => gf_env "eta" * (f k - fs)) = rsum N (fun k => f k - fs)).
  { apply rsum_ext. intros k _. change (gf_env "eta") with 1. lra. }
  rewrite E2 in H. lra.
Qed.
(** Trajectories exist: 1, 1/2, 1/4, ... for x^2/2 and step 1/2. *)
Example c44_trajectory_case : gradient_flow_trajectory 1 0 (Fin 1) 1 (1 / 2) 0 1 quad vzero (val quad vzero) halves halves (fun k => val quad (halves k)).
Proof. exact gradient_flow_trajectory_case. Qed.
Example c45_primal_trajectory_case : exists y,
  primal_trajectory 1 2 0 (Fin 1) 1 (1 / 4) 0 1 quads vzero (rsuml (repeat (val quad vzero) 2)) halves y.
Proof. exact primal_trajectory_case. Qed.
Example c45_readme_trajectory_case : let z k := fst (readme_states k) in let w k := snd (readme_states k) in
  let x k := vscal (/ (1 + 1 / 2)) (z k) in
  readme_trajectory 1 0 (Fin 1) 1 1 (1 / 2) quad vzero (val quad vzero) z w x (fun k => vscal (2 / 1) (vsub (z k) (x k))).
Proof. exact readme_trajectory_case. Qed.

(** ** C46: the inductor currents of the builders with n functions *)
(** Dual decomposition: the metric takes exactly the values of steps with
    currents i1, i15, i2, and at all three stages they add up to zero. *)
Theorem c46_dual_decomposition SY : sympy_ok SY -> forall l n mu L Ind, good_class mu L -> Q2R Ind <> 0 -> (2 <= n)%nat ->
  builds (dual_decomposition SY None n mu L Ind) (se_st (run SY session0 l)) default_params
    (fun d r q => exists i1 i15 i2, balanced d n i1 /\ balanced d n i15 /\ balanced d n i2 /\
       dual_decomposition_step d n mu L (Q2R Ind) (r "h") (r "alpha") (r "beta") (r "eta") i1 i15 i2 q)%string.
Proof.
  intros OK l n mu L Ind Hc HI Hn. destruct (c45_dual_decomposition_builder SY OK l n mu L Ind Hc HI Hn) as (p & s & H1 & H2 & H3 & H4).
  exists p, s. split; [exact H1|]. split; [exact H2|]. split; [exact H3|]. intros d r q. rewrite (H4 d r q), dual_step_run. split.
  - intros (i1 & i15 & i2 & H). exists i1, i15, i2. destruct (dual_balanced _ _ _ _ _ _ _ _ _ _ _ _ _ (Nat.le_trans 1 2 n (Nat.le_succ_diag_r 1) Hn) H) as (B1 & B2 & B3). repeat (split; [assumption|]). exact H.
  - intros (i1 & i15 & i2 & _ & _ & _ & H). exists i1, i15, i2. exact H.
Qed.
Print Assumptions c46_dual_decomposition.
(** Consensus ADMM: balanced before and after the step. *)
Theorem c46_admm_consensus SY : sympy_ok SY -> forall l n mu L Rs Ind, good_class mu L -> Q2R Ind <> 0 -> (2 <= n)%nat ->
  builds (admm_consensus SY None n mu L Rs Ind) (se_st (run SY session0 l)) default_params
    (fun d r q => exists i1 i15 i2, balanced d n i1 /\ balanced d n i2 /\
       admm_consensus_step d n mu L (Q2R Rs) (Q2R Ind) (r "h") (r "alpha") (r "beta") (r "eta") (r "rho") (r "gamma") i1 i15 i2 q)%string.
Proof.
  intros OK l n mu L Rs Ind Hc HI Hn. destruct (c45_admm_consensus_builder SY OK l n mu L Rs Ind Hc HI Hn) as (p & s & H1 & H2 & H3 & H4).
  exists p, s. split; [exact H1|]. split; [exact H2|]. split; [exact H3|]. intros d r q. rewrite (H4 d r q), admm_step_run. split.
  - intros (i1 & i15 & i2 & H). exists i1, i15, i2. destruct (admm_balanced _ _ _ _ _ _ _ _ _ _ _ _ _ _ _ _ (Nat.le_trans 1 2 n (Nat.le_succ_diag_r 1) Hn) H) as (B1 & B2 & _). repeat (split; [assumption|]). exact H.
  - intros (i1 & i15 & i2 & _ & _ & H). exists i1, i15, i2. exact H.
Qed.
Print Assumptions c46_admm_consensus.
(** but not in the middle stage, where the code uses the sum of the points
    instead of the average. *)
Theorem c46_admm_middle_stage_refuted :
  exists d n mu L Rs Ind h alpha beta eta rho gamma i1 i15 i2 q, (2 <= n)%nat /\ good_class mu L /\
    admm_consensus_step d n mu L Rs Ind h alpha beta eta rho gamma i1 i15 i2 q /\ vsum i15 <> vzero.
Proof.
  destruct admm_unbalanced as (i1 & i15 & i2 & q & H & H0).
  exists 1%nat, 2%nat, 0%Q, (Fin 1), 1, 1, 1, 1, (1 / 2), 1, 1, 1, i1, i15, i2, q. split; [lia|]. split; [exact class01|]. split; [exact H|].
  intros E. rewrite E in H0. unfold vzero in H0. lra.
Qed.
Print Assumptions c46_admm_middle_stage_refuted.
Theorem c46_admm_euler SY : sympy_ok SY -> forall l n mu L Rs Ind, good_class mu L -> Q2R Ind <> 0 -> (2 <= n)%nat ->
  builds (admm_euler_consensus SY None n mu L Rs Ind) (se_st (run SY session0 l)) default_params
    (fun d r q => exists i1 i2, balanced d n i1 /\ balanced d n i2 /\
       admm_euler_step d n mu L (Q2R Rs) (Q2R Ind) (r "h") (r "eta") (r "rho") i1 i2 q)%string.
Proof.
  intros OK l n mu L Rs Ind Hc HI Hn. destruct (c45_admm_euler_builder SY OK l n mu L Rs Ind Hc HI Hn) as (p & s & H1 & H2 & H3 & H4).
  exists p, s. split; [exact H1|]. split; [exact H2|]. split; [exact H3|]. intros d r q. rewrite (H4 d r q), euler_step_run. split.
  - intros (i1 & i2 & H). exists i1, i2. destruct (euler_balanced _ _ _ _ _ _ _ _ _ _ _ _ (Nat.le_trans 1 2 n (Nat.le_succ_diag_r 1) Hn) H) as (B1 & B2). repeat (split; [assumption|]). exact H.
  - intros (i1 & i2 & _ & _ & H). exists i1, i2. exact H.
Qed.
Print Assumptions c46_admm_euler.
Example c46_cases :
  (exists i1 i15 i2 q, dual_decomposition_step 1 2 0 (Fin 1) 1 1 1 (1 / 2) 1 i1 i15 i2 q /\ i1 = [pt 1; pt (-1)]) /\
  (exists i1 i15 i2 q, admm_consensus_step 1 2 0 (Fin 1) 1 1 1 1 (1 / 2) 1 1 1 i1 i15 i2 q /\ vsum i15 0%nat = 1) /\
  (exists i1 i2 q, admm_euler_step 1 2 0 (Fin 1) 1 1 1 1 1 i1 i2 q /\ i1 = [pt 1; pt (-1)]).
Proof. exact (conj dual_case (conj admm_unbalanced euler_case)). Qed.

(** With too few functions these builders fail. *)
Theorem c46_no_function SY : forall l mu L Rs Ind, let s0 := se_st (run SY session0 l) in
  fst (primal_decomposition SY None 0 mu L Rs s0) = Err UnboundLocalError /\ fst (dual_decomposition SY None 0 mu L Ind s0) = Err UnboundLocalError /\
  fst (admm_consensus SY None 0 mu L Rs Ind s0) = Err UnboundLocalError /\ fst (admm_euler_consensus SY None 0 mu L Rs Ind s0) = Err UnboundLocalError.
Proof. intros l mu L Rs Ind s0. exact (no_function s0 mu L Rs Ind). Qed.
Print Assumptions c46_no_function.
Theorem c46_one_function SY : sympy_ok SY -> forall l mu L Rs Ind, let s0 := se_st (run SY session0 l) in good_class mu L ->
  fst (dual_decomposition SY None 1 mu L Ind s0) = Err AssertionError /\
  fst (admm_consensus SY None 1 mu L Rs Ind s0) = Err TypeError /\ fst (admm_euler_consensus SY None 1 mu L Rs Ind s0) = Err TypeError.
Proof. intros OK l mu L Rs Ind s0 Hc. exact (one_function OK s0 mu L Rs Ind Hc (si_inv _ (reachable_inv SY l))). Qed.
Print Assumptions c46_one_function.
