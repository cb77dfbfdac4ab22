From Coq Require Import List Arith Bool String QArith Reals Qreals Lia Lra FunctionalExtensionality.
From Verif Require Import Prelude PreludeFacts Sympy SympyFacts AlgebraModel Denote AlgebraFacts FunctionModel CircuitModel
  Spec SpecFacts ClassSpec CertSpec StateSpec StateFacts CertFacts FunctionSpec FunctionFacts FunctionFacts2
  SymbolFacts SolverSpec BuilderModel BuilderSpec BuildsSpec BuilderLogic BuilderT BuilderRun.
Import ListNotations.
Local Open Scope R_scope.

Ltac good_params := lazymatch goal with |- Forall _ ?l => let l' := eval vm_compute in l in change l with l' end;
  repeat constructor; try discriminate; intros Hin; vm_compute in Hin; intuition discriminate.
Tactic Notation "open" reference(x) := cbv delta [x]; cbv beta.
Lemma default_good : Forall good_param default_params.
Proof. good_params. Qed.
Lemma inv_ext_L mu L : good_class mu L -> Q2R (inv_ext L) = inv_L L.
Proof.
  intros [A B]. destruct L as [l|]; simpl; [|apply Q2R_0']. rewrite Q2R_red. apply Q2R_inv. apply Q2R_nz. lra.
Qed.
Lemma good_zero_inf : good_class 0 Inf.
Proof. split; [rewrite Q2R_0'; lra|easy]. Qed.
Ltac classes := repeat match goal with H : good_class ?m ?l |- _ =>
  lazymatch goal with K : Q2R (inv_ext l) = _ |- _ => fail | _ => pose proof (inv_ext_L m l H) end end; pose proof good_zero_inf.

Section B.
  Context {SY : sympy} (OK : sympy_ok SY).

  Lemma gradient_flow_builds params s0 mu L C : has_keys params ["h"; "alpha"; "beta"; "eta"]%string -> good_class mu L -> Q2R C <> 0 -> Inv s0 ->
    builds (gradient_flow_circuit SY params mu L C) s0 default_params
      (fun d r q => gradient_flow_run d mu L (Q2R C) (value params r "h") (value params r "alpha") (value params r "beta") (value params r "eta") q)%string.
  Proof.
    intros. classes. open gradient_flow_circuit. eapply (builder_start _ default_good _ _ _ _ _ _ pb0); [assumption|assumption|reflexivity|reflexivity| |].
    - repeat step OK.
    - intros d r q. open gradient_flow_run. semantics. walk.
  Qed.

  Lemma tuneC_good : Forall good_param (ssort (default_params ++ ["C"; "invC"]))%string.
  Proof. good_params. Qed.
  Lemma tuneC_builds params s0 mu L : has_keys params ["h"; "alpha"; "beta"; "eta"; "C"; "invC"]%string -> good_class mu L -> Inv s0 ->
    builds (gradient_flow_circuit_tuneC SY params mu L) s0 (ssort (default_params ++ ["C"; "invC"]))%string
      (fun d r q => gradient_flow_tuneC_run d mu L (value params r "C") (value params r "invC") (value params r "h") (value params r "alpha") (value params r "beta") (value params r "eta") q)%string.
  Proof.
    intros. classes. open gradient_flow_circuit_tuneC. eapply (builder_start _ tuneC_good _ _ _ _ _ _ (set_params pb0 (ssort (default_params ++ ["C"; "invC"]))%string)); [assumption|assumption|reflexivity|reflexivity| |].
    - repeat step OK.
    - intros d r q. open gradient_flow_tuneC_run. semantics. walk.
  Qed.

  Lemma accelerated_builds params s0 mu L Rs C Ind : has_keys params ["h"; "alpha"; "beta"; "eta"; "rho"]%string -> good_class mu L -> Q2R C <> 0 -> Q2R Ind <> 0 -> Inv s0 ->
    builds (accelerated_gradient_circuit SY params mu L Rs C Ind) s0 default_params
      (fun d r q => accelerated_gradient_run d mu L (Q2R Rs) (Q2R C) (Q2R Ind) (/ Q2R C) (/ Q2R Ind) (value params r "h") (value params r "alpha") (value params r "beta") (value params r "eta") (value params r "rho") q)%string.
  Proof.
    intros. classes. open accelerated_gradient_circuit. eapply (builder_start _ default_good _ _ _ _ _ _ pb0); [assumption|assumption|reflexivity|reflexivity| |].
    - repeat step OK.
    - intros d r q. open accelerated_gradient_run. semantics. walk.
  Qed.

  Lemma tuneRLC_good : Forall good_param (ssort (default_params ++ ["C"; "invC"; "L"; "invL"; "R"]))%string.
  Proof. good_params. Qed.
  Lemma tuneRLC_builds params s0 mu L : has_keys params ["h"; "alpha"; "beta"; "eta"; "rho"; "C"; "invC"; "L"; "invL"; "R"]%string -> good_class mu L -> Inv s0 ->
    builds (accelerated_gradient_circuit_tuneRLC SY params mu L) s0 (ssort (default_params ++ ["C"; "invC"; "L"; "invL"; "R"]))%string
      (fun d r q => accelerated_gradient_run d mu L (value params r "R") (value params r "C") (value params r "L") (value params r "invC") (value params r "invL") (value params r "h") (value params r "alpha") (value params r "beta") (value params r "eta") (value params r "rho") q)%string.
  Proof.
    intros. classes. open accelerated_gradient_circuit_tuneRLC. eapply (builder_start _ tuneRLC_good _ _ _ _ _ _ (set_params pb0 (ssort (default_params ++ ["C"; "invC"; "L"; "invL"; "R"]))%string)); [assumption|assumption|reflexivity|reflexivity| |].
    - repeat step OK.
    - intros d r q. open accelerated_gradient_run. semantics. walk.
  Qed.

  Lemma ppm_builds params s0 mu L C Rs : has_keys params ["h"; "alpha"; "beta"; "eta"; "rho"]%string -> good_class mu L -> Q2R C <> 0 -> Q2R Rs <> 0 -> Inv s0 ->
    builds (ppm_circuit SY params mu L C Rs) s0 default_params
      (fun d r q => ppm_run d mu L (Q2R C) (Q2R Rs) (value params r "h") (value params r "alpha") (value params r "beta") (value params r "eta") (value params r "rho") q)%string.
  Proof.
    intros. classes. open ppm_circuit. eapply (builder_start _ default_good _ _ _ _ _ _ pb0); [assumption|assumption|reflexivity|reflexivity| |].
    - repeat step OK.
    - intros d r q. open ppm_run. semantics. walk.
  Qed.

  Lemma prox_gradient_builds params s0 mu L Rs C : has_keys params ["h"; "eta"; "rho"]%string -> good_class mu L -> Q2R C <> 0 -> Q2R Rs <> 0 -> Inv s0 ->
    builds (prox_gradient_circuit SY params mu L Rs C) s0 default_params
      (fun d r q => prox_gradient_run d mu L (Q2R Rs) (Q2R C) (value params r "h") (value params r "eta") (value params r "rho") q)%string.
  Proof.
    intros. classes. open prox_gradient_circuit. eapply (builder_start _ default_good _ _ _ _ _ _ pb0); [assumption|assumption|reflexivity|reflexivity| |].
    - repeat step OK.
    - intros d r q. open prox_gradient_run. semantics. walk.
  Qed.

  Lemma douglas_rachford_builds params s0 mu L Rs Ind : has_keys params ["h"; "alpha"; "beta"; "eta"; "rho"; "gamma"]%string -> good_class mu L -> Q2R Ind <> 0 -> Inv s0 ->
    builds (douglas_rachford_splitting SY params mu L Rs Ind) s0 default_params
      (fun d r q => douglas_rachford_run d mu L (Q2R Rs) (Q2R Ind) (value params r "h") (value params r "alpha") (value params r "beta") (value params r "eta") (value params r "rho") (value params r "gamma") q)%string.
  Proof.
    intros. classes. open douglas_rachford_splitting. eapply (builder_start _ default_good _ _ _ _ _ _ pb0); [assumption|assumption|reflexivity|reflexivity| |].
    - repeat step OK.
    - intros d r q. open douglas_rachford_run. semantics. walk.
  Qed.

  Lemma davis_yin_builds params s0 mu L Rs Ind : has_keys params ["h"; "alpha"; "beta"; "eta"; "rho"; "gamma"]%string -> good_class mu L -> Q2R Rs <> 0 -> Q2R Ind <> 0 -> Inv s0 ->
    builds (davis_yin_splitting SY params mu L Rs Ind) s0 default_params
      (fun d r q => davis_yin_run d mu L (Q2R Rs) (Q2R Ind) (value params r "h") (value params r "alpha") (value params r "beta") (value params r "eta") (value params r "rho") (value params r "gamma") q)%string.
  Proof.
    intros. classes. open davis_yin_splitting. eapply (builder_start _ default_good _ _ _ _ _ _ pb0); [assumption|assumption|reflexivity|reflexivity| |].
    - repeat step OK.
    - intros d r q. open davis_yin_run. semantics. walk.
  Qed.

  Lemma admm_consensus_proof_builds params s0 mu L Rs : has_keys params ["h"; "eta"; "rho"]%string -> good_class mu L -> Q2R Rs <> 0 -> Inv s0 ->
    builds (admm_consensus_proof SY params mu L Rs) s0 default_params
      (fun d r q => admm_consensus_proof_run d mu L (Q2R Rs) (value params r "h") (value params r "eta") q)%string.
  Proof.
    intros. classes. open admm_consensus_proof. eapply (builder_start _ default_good _ _ _ _ _ _ pb0); [assumption|assumption|reflexivity|reflexivity| |].
    - repeat step OK.
    - intros d r q. open admm_consensus_proof_run. semantics. walk.
  Qed.

  Lemma dgd_line3_builds params s0 mu L Rs C : has_keys params ["h"; "alpha"; "beta"; "eta"; "rho"]%string -> good_class mu L -> Q2R Rs <> 0 -> Q2R C <> 0 -> Inv s0 ->
    builds (decentralized_gradient_descent_line3 SY params mu L Rs C) s0 default_params
      (fun d r q => dgd_line3_run d mu L (Q2R Rs) (Q2R C) (value params r "h") (value params r "eta") (value params r "rho") q)%string.
  Proof.
    intros. classes. open decentralized_gradient_descent_line3. eapply (builder_start _ default_good _ _ _ _ _ _ pb0); [assumption|assumption|reflexivity|reflexivity| |].
    - repeat step OK.
    - intros d r q. open dgd_line3_run. semantics. walk.
  Qed.

  Lemma diffusion_line3_builds params s0 mu L Rs C : has_keys params ["h"; "alpha"; "beta"; "eta"; "rho"]%string -> good_class mu L -> Q2R Rs <> 0 -> Q2R C <> 0 -> Inv s0 ->
    builds (diffusion_line3 SY params mu L Rs C) s0 default_params
      (fun d r q => diffusion_line3_run d mu L (Q2R Rs) (Q2R C) (value params r "h") (value params r "eta") (value params r "rho") q)%string.
  Proof.
    intros. classes. open diffusion_line3. eapply (builder_start _ default_good _ _ _ _ _ _ pb0); [assumption|assumption|reflexivity|reflexivity| |].
    - repeat step OK.
    - intros d r q. open diffusion_line3_run. semantics. walk.
  Qed.

  Lemma pg_extra_l3_builds params s0 mu Lh Lf Rs W : has_keys params ["h"; "alpha"; "beta"; "eta"; "rho"; "gamma"]%string -> good_class mu Lh -> good_class mu Lf -> Q2R Rs <> 0 -> Q2R (W 0 1)%nat <> 0 -> Q2R (W 1 2)%nat <> 0 -> Inv s0 ->
    builds (pg_extra_l3 SY params mu Lh Lf Rs W) s0 default_params
      (fun d r q => pg_extra_l3_run d mu Lh Lf (Q2R Rs) (fun i j => Q2R (W i j)) (value params r "h") (value params r "eta") (value params r "rho") (value params r "gamma") q)%string.
  Proof.
    intros. classes. open pg_extra_l3. eapply (builder_start _ default_good _ _ _ _ _ _ pb0); [assumption|assumption|reflexivity|reflexivity| |].
    - repeat step OK.
    - intros d r q. open pg_extra_l3_run. semantics. walk.
  Qed.

  Lemma dadmm_l3_builds params s0 mu L Rs Ind : has_keys params ["h"; "alpha"; "beta"; "eta"; "rho"; "gamma"]%string -> good_class mu L -> Q2R Rs <> 0 -> Q2R Ind <> 0 -> Inv s0 ->
    builds (decentralized_admm_consensus_l3 SY params mu L Rs Ind) s0 default_params
      (fun d r q => dadmm_l3_run d mu L (Q2R Rs) (Q2R Ind) (value params r "h") (value params r "alpha") (value params r "beta") (value params r "eta") (value params r "rho") (value params r "gamma") q)%string.
  Proof.
    intros. classes. open decentralized_admm_consensus_l3. eapply (builder_start _ default_good _ _ _ _ _ _ pb0); [assumption|assumption|reflexivity|reflexivity| |].
    - repeat step OK.
    - intros d r q. open dadmm_l3_run. semantics. walk.
  Qed.

  Lemma dadmm_cycle4_builds params s0 mu L Rs Ind : has_keys params ["h"; "eta"; "rho"; "gamma"]%string -> good_class mu L -> Q2R Rs <> 0 -> Q2R Ind <> 0 -> Inv s0 ->
    builds (decentralized_admm_cycle4 SY params mu L Rs Ind) s0 default_params
      (fun d r q => dadmm_cycle4_run d mu L (Q2R Rs) (Q2R Ind) (value params r "h") (value params r "eta") (value params r "rho") (value params r "gamma") q)%string.
  Proof.
    intros. classes. open decentralized_admm_cycle4. eapply (builder_start _ default_good _ _ _ _ _ _ pb0); [assumption|assumption|reflexivity|reflexivity| |].
    - repeat step OK.
    - intros d r q. open dadmm_cycle4_run. semantics. walk.
  Qed.

  Lemma dadmm_graph6_builds params s0 mu L Rs Ind : has_keys params ["h"; "eta"; "rho"; "gamma"]%string -> good_class mu L -> Q2R Rs <> 0 -> Q2R Ind <> 0 -> Inv s0 ->
    builds (decentralized_admm_graph6 SY params mu L Rs Ind) s0 default_params
      (fun d r q => dadmm_graph6_run d mu L (Q2R Rs) (Q2R Ind) (value params r "h") (value params r "eta") (value params r "rho") (value params r "gamma") q)%string.
  Proof.
    intros. classes. open decentralized_admm_graph6. eapply (builder_start _ default_good _ _ _ _ _ _ pb0); [assumption|assumption|reflexivity|reflexivity| |].
    - repeat step OK.
    - intros d r q. open dadmm_graph6_run. semantics. walk.
  Qed.

  Lemma dadmm_C_graph6_builds params s0 mu0 mu1 L0 L1 Rs C Ind : has_keys params ["h"; "eta"; "rho"; "gamma"]%string -> good_class mu0 L0 -> good_class mu1 L1 -> Q2R Rs <> 0 -> Q2R C <> 0 -> Q2R Ind <> 0 -> Inv s0 ->
    builds (dadmm_C_graph6 SY params mu0 mu1 L0 L1 Rs C Ind) s0 default_params
      (fun d r q => dadmm_C_graph6_run d mu0 mu1 L0 L1 (Q2R Rs) (Q2R C) (Q2R Ind) (value params r "h") (value params r "eta") (value params r "rho") (value params r "gamma") q)%string.
  Proof.
    intros. classes. open dadmm_C_graph6. eapply (builder_start _ default_good _ _ _ _ _ _ pb0); [assumption|assumption|reflexivity|reflexivity| |].
    - repeat step OK.
    - intros d r q. open dadmm_C_graph6_run. semantics. walk.
  Qed.

  Lemma example_fC3RC_builds params s0 mu L C Rs : has_keys params ["h"; "alpha"; "beta"; "eta"; "rho"]%string -> good_class mu L -> Q2R C <> 0 -> Q2R Rs <> 0 -> Inv s0 ->
    builds (example_fC3RC_circuit SY params mu L C Rs) s0 default_params
      (fun d r q => example_fC3RC_run d mu L (Q2R C) (Q2R Rs) (value params r "h") (value params r "alpha") (value params r "beta") (value params r "eta") (value params r "rho") q)%string.
  Proof.
    intros. classes. open example_fC3RC_circuit. eapply (builder_start _ default_good _ _ _ _ _ _ pb0); [assumption|assumption|reflexivity|reflexivity| |].
    - repeat step OK.
    - intros d r q. open example_fC3RC_run. semantics. walk.
  Qed.

  Lemma readme_builds s0 mu L Rs C : good_class mu L -> Q2R Rs <> 0 -> Q2R C <> 0 -> Inv s0 ->
    builds (readme_hello_world SY mu L Rs C) s0 default_params
      (fun d r q => readme_run d mu L (Q2R Rs) (Q2R C) (r "h") (r "eta") q)%string.
  Proof.
    intros. classes. open readme_hello_world. change (bind circuit_opt ?k) with (bind (start None []) k). eapply (builder_start _ default_good _ _ _ _ _ _ pb0); [exact I|assumption|reflexivity|reflexivity| |].
    - repeat step OK.
    - intros d r q. open readme_run. semantics. walk.
  Qed.
End B.
