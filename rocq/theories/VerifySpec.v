(** The two modes of the builders: Ciropt mode and verification mode. *)
From Coq Require Import List String QArith Reals.
From Verif Require Import Prelude Sympy AlgebraModel Denote FunctionModel CircuitModel BuilderModel BuilderSpec BuildsSpec.
Import ListNotations.
Local Open Scope R_scope.

(** The builders with a verification mode.  [builder SY k names params A]: [k] is
    the builder as a function of its argument [params], [names] are the keys it
    reads in verification mode, [params] are the parameters it declares in Ciropt
    mode, and [A d r q] says that [q] is a value of the metric in a run of the
    method in R^d with parameters [r] (see [BuilderSpec]). *)
Inductive builder (SY : sympy) : (option (list (string * Q)) -> M problem) -> list string -> list string -> (nat -> env -> R -> Prop) -> Prop :=
| b_gradient_flow mu L C : good_class mu L -> Q2R C <> 0 ->
    builder SY (fun params => gradient_flow_circuit SY params mu L C) ["h"; "alpha"; "beta"; "eta"]%string default_params
      (fun d r q => gradient_flow_run d mu L (Q2R C) (r "h") (r "alpha") (r "beta") (r "eta") q)%string
| b_tuneC mu L : good_class mu L ->
    builder SY (fun params => gradient_flow_circuit_tuneC SY params mu L) ["h"; "alpha"; "beta"; "eta"; "C"; "invC"]%string (ssort (default_params ++ ["C"; "invC"]))%string
      (fun d r q => gradient_flow_tuneC_run d mu L (r "C") (r "invC") (r "h") (r "alpha") (r "beta") (r "eta") q)%string
| b_accelerated mu L Rs C Ind : good_class mu L -> Q2R C <> 0 -> Q2R Ind <> 0 ->
    builder SY (fun params => accelerated_gradient_circuit SY params mu L Rs C Ind) ["h"; "alpha"; "beta"; "eta"; "rho"]%string default_params
      (fun d r q => accelerated_gradient_run d mu L (Q2R Rs) (Q2R C) (Q2R Ind) (/ Q2R C) (/ Q2R Ind) (r "h") (r "alpha") (r "beta") (r "eta") (r "rho") q)%string
| b_tuneRLC mu L : good_class mu L ->
    builder SY (fun params => accelerated_gradient_circuit_tuneRLC SY params mu L) ["h"; "alpha"; "beta"; "eta"; "rho"; "C"; "invC"; "L"; "invL"; "R"]%string (ssort (default_params ++ ["C"; "invC"; "L"; "invL"; "R"]))%string
      (fun d r q => accelerated_gradient_run d mu L (r "R") (r "C") (r "L") (r "invC") (r "invL") (r "h") (r "alpha") (r "beta") (r "eta") (r "rho") q)%string
| b_ppm mu L C Rs : good_class mu L -> Q2R C <> 0 -> Q2R Rs <> 0 ->
    builder SY (fun params => ppm_circuit SY params mu L C Rs) ["h"; "alpha"; "beta"; "eta"; "rho"]%string default_params
      (fun d r q => ppm_run d mu L (Q2R C) (Q2R Rs) (r "h") (r "alpha") (r "beta") (r "eta") (r "rho") q)%string
| b_prox_gradient mu L Rs C : good_class mu L -> Q2R C <> 0 -> Q2R Rs <> 0 ->
    builder SY (fun params => prox_gradient_circuit SY params mu L Rs C) ["h"; "eta"; "rho"]%string default_params
      (fun d r q => prox_gradient_run d mu L (Q2R Rs) (Q2R C) (r "h") (r "eta") (r "rho") q)%string
| b_douglas_rachford mu L Rs Ind : good_class mu L -> Q2R Ind <> 0 ->
    builder SY (fun params => douglas_rachford_splitting SY params mu L Rs Ind) ["h"; "alpha"; "beta"; "eta"; "rho"; "gamma"]%string default_params
      (fun d r q => douglas_rachford_run d mu L (Q2R Rs) (Q2R Ind) (r "h") (r "alpha") (r "beta") (r "eta") (r "rho") (r "gamma") q)%string
| b_davis_yin mu L Rs Ind : good_class mu L -> Q2R Rs <> 0 -> Q2R Ind <> 0 ->
    builder SY (fun params => davis_yin_splitting SY params mu L Rs Ind) ["h"; "alpha"; "beta"; "eta"; "rho"; "gamma"]%string default_params
      (fun d r q => davis_yin_run d mu L (Q2R Rs) (Q2R Ind) (r "h") (r "alpha") (r "beta") (r "eta") (r "rho") (r "gamma") q)%string
| b_admm_consensus_proof mu L Rs : good_class mu L -> Q2R Rs <> 0 ->
    builder SY (fun params => admm_consensus_proof SY params mu L Rs) ["h"; "eta"; "rho"]%string default_params
      (fun d r q => admm_consensus_proof_run d mu L (Q2R Rs) (r "h") (r "eta") q)%string
| b_dgd_line3 mu L Rs C : good_class mu L -> Q2R Rs <> 0 -> Q2R C <> 0 ->
    builder SY (fun params => decentralized_gradient_descent_line3 SY params mu L Rs C) ["h"; "alpha"; "beta"; "eta"; "rho"]%string default_params
      (fun d r q => dgd_line3_run d mu L (Q2R Rs) (Q2R C) (r "h") (r "eta") (r "rho") q)%string
| b_diffusion_line3 mu L Rs C : good_class mu L -> Q2R Rs <> 0 -> Q2R C <> 0 ->
    builder SY (fun params => diffusion_line3 SY params mu L Rs C) ["h"; "alpha"; "beta"; "eta"; "rho"]%string default_params
      (fun d r q => diffusion_line3_run d mu L (Q2R Rs) (Q2R C) (r "h") (r "eta") (r "rho") q)%string
| b_pg_extra_l3 mu Lh Lf Rs W : good_class mu Lh -> good_class mu Lf -> Q2R Rs <> 0 -> Q2R (W 0 1)%nat <> 0 -> Q2R (W 1 2)%nat <> 0 ->
    builder SY (fun params => pg_extra_l3 SY params mu Lh Lf Rs W) ["h"; "alpha"; "beta"; "eta"; "rho"; "gamma"]%string default_params
      (fun d r q => pg_extra_l3_run d mu Lh Lf (Q2R Rs) (fun i j => Q2R (W i j)) (r "h") (r "eta") (r "rho") (r "gamma") q)%string
| b_dadmm_l3 mu L Rs Ind : good_class mu L -> Q2R Rs <> 0 -> Q2R Ind <> 0 ->
    builder SY (fun params => decentralized_admm_consensus_l3 SY params mu L Rs Ind) ["h"; "alpha"; "beta"; "eta"; "rho"; "gamma"]%string default_params
      (fun d r q => dadmm_l3_run d mu L (Q2R Rs) (Q2R Ind) (r "h") (r "alpha") (r "beta") (r "eta") (r "rho") (r "gamma") q)%string
| b_dadmm_cycle4 mu L Rs Ind : good_class mu L -> Q2R Rs <> 0 -> Q2R Ind <> 0 ->
    builder SY (fun params => decentralized_admm_cycle4 SY params mu L Rs Ind) ["h"; "eta"; "rho"; "gamma"]%string default_params
      (fun d r q => dadmm_cycle4_run d mu L (Q2R Rs) (Q2R Ind) (r "h") (r "eta") (r "rho") (r "gamma") q)%string
| b_dadmm_graph6 mu L Rs Ind : good_class mu L -> Q2R Rs <> 0 -> Q2R Ind <> 0 ->
    builder SY (fun params => decentralized_admm_graph6 SY params mu L Rs Ind) ["h"; "eta"; "rho"; "gamma"]%string default_params
      (fun d r q => dadmm_graph6_run d mu L (Q2R Rs) (Q2R Ind) (r "h") (r "eta") (r "rho") (r "gamma") q)%string
| b_dadmm_C_graph6 mu0 mu1 L0 L1 Rs C Ind : good_class mu0 L0 -> good_class mu1 L1 -> Q2R Rs <> 0 -> Q2R C <> 0 -> Q2R Ind <> 0 ->
    builder SY (fun params => dadmm_C_graph6 SY params mu0 mu1 L0 L1 Rs C Ind) ["h"; "eta"; "rho"; "gamma"]%string default_params
      (fun d r q => dadmm_C_graph6_run d mu0 mu1 L0 L1 (Q2R Rs) (Q2R C) (Q2R Ind) (r "h") (r "eta") (r "rho") (r "gamma") q)%string
| b_example_fC3RC mu L C Rs : good_class mu L -> Q2R C <> 0 -> Q2R Rs <> 0 ->
    builder SY (fun params => example_fC3RC_circuit SY params mu L C Rs) ["h"; "alpha"; "beta"; "eta"; "rho"]%string default_params
      (fun d r q => example_fC3RC_run d mu L (Q2R C) (Q2R Rs) (r "h") (r "alpha") (r "beta") (r "eta") (r "rho") q)%string
| b_primal_decomposition n mu L C : good_class mu L -> Q2R C <> 0 -> (1 <= n)%nat ->
    builder SY (fun params => primal_decomposition SY params n mu L C) ["h"; "alpha"; "beta"; "eta"]%string default_params
      (fun d r q => primal_decomposition_run d n mu L (Q2R C) (r "h") (r "alpha") (r "beta") (r "eta") q)%string
| b_dual_decomposition n mu L Ind : good_class mu L -> Q2R Ind <> 0 -> (2 <= n)%nat ->
    builder SY (fun params => dual_decomposition SY params n mu L Ind) ["h"; "alpha"; "beta"; "eta"]%string default_params
      (fun d r q => dual_decomposition_run d n mu L (Q2R Ind) (r "h") (r "alpha") (r "beta") (r "eta") q)%string
| b_admm_consensus n mu L Rs Ind : good_class mu L -> Q2R Ind <> 0 -> (2 <= n)%nat ->
    builder SY (fun params => admm_consensus SY params n mu L Rs Ind) ["h"; "alpha"; "beta"; "eta"; "rho"; "gamma"]%string default_params
      (fun d r q => admm_consensus_run d n mu L (Q2R Rs) (Q2R Ind) (r "h") (r "alpha") (r "beta") (r "eta") (r "rho") (r "gamma") q)%string
| b_admm_euler n mu L Rs Ind : good_class mu L -> Q2R Ind <> 0 -> (2 <= n)%nat ->
    builder SY (fun params => admm_euler_consensus SY params n mu L Rs Ind) ["h"; "eta"; "rho"]%string default_params
      (fun d r q => admm_euler_run d n mu L (Q2R Rs) (Q2R Ind) (r "h") (r "eta") (r "rho") q)%string.

(** The numbers of a dictionary. *)
Definition dict_env (ps : list (string * Q)) : env :=
  fun x => Q2R (match dget String.eqb x ps with Some q => q | None => 0 end).

(** What PEPit computes for a problem: the largest value of the metric, over all
    dimensions, functions of the classes and runs. *)
Definition worst_case (s : state) (p : problem) (tau : R) : Prop :=
  is_lub (fun q => exists d r, metric_value s p d r q) tau.
