(** C64: the verification mode of the builders.

    Called with a dictionary of numbers, a builder builds the same problem with
    the numbers in place of the symbols, for PEPit to compute the worst case of
    the metric.  [builder SY k names P A] (VerifySpec) lists the 21 builders:
    [k] is the builder as a function of its argument [params], [names] the keys
    it reads, [P] the parameters of Ciropt mode, [A d r q] that [q] is a value of
    the metric in a run of the method in R^d with parameter values [r]. *)
From Coq Require Import List Arith Bool String QArith Reals Qreals Lra Lia FunctionalExtensionality.
From Verif Require Import Prelude PreludeFacts Sympy SympyFacts AlgebraModel Denote FunctionModel CircuitModel SymSpec
  Spec ClassSpec CertSpec StateSpec SessionModel StateFacts CertFacts ParsingModel ParsingSpec SolverModel SolverSpec SolverProps QcqpModel QcqpMain SdpModel SdpSpec
  ExtraSpec BuilderModel BuilderSpec BuildsSpec BuilderLogic BuilderUse Examples BuilderExamples DualitySpec DualityProps DualityExamples VerifySpec VerifyProps Props_Builders Props_Duality.
Import ListNotations.
Local Open Scope R_scope.

(** ** C64: both modes build the same method: with symbols the values of the
    metric are those of the runs with the values of the symbols, with a
    dictionary those of the runs with its numbers. *)
Theorem c64_modes_agree SY : sympy_ok SY -> forall k names P A, builder SY k names P A -> forall l,
  builds (k None) (se_st (run SY session0 l)) P A /\
  forall ps, (forall x, In x names -> exists q, dget String.eqb x ps = Some q) ->
    builds (k (Some ps)) (se_st (run SY session0 l)) P (fun d _ q => A d (dict_env ps) q).
Proof.
  intros OK k names P A HB l. assert (HI := si_inv _ (reachable_inv SY l)). split.
  - exact (builder_builds OK k names P A HB None _ I HI).
  - intros ps HK. exact (builder_builds OK k names P A HB (Some ps) _ HK HI).
Qed.
Print Assumptions c64_modes_agree.

(** A key that the builder reads is missing: KeyError. *)
Theorem c64_missing_key SY : forall k names P A, builder SY k names P A ->
  forall ps x s, In x names -> dget String.eqb x ps = None -> fst (k (Some ps) s) = Err KeyError.
Proof. intros k names P A HB. exact (builder_missing k names P A HB). Qed.
Print Assumptions c64_missing_key.

(** The worst case in verification mode is 0, or the metric is unbounded. *)
Theorem c64_zero_or_unbounded SY : sympy_ok SY -> forall k names P A, builder SY k names P A -> forall l ps p s,
  (forall x, In x names -> exists q, dget String.eqb x ps = Some q) -> k (Some ps) (se_st (run SY session0 l)) = (Ok p, s) ->
  (forall tau, worst_case s p tau -> tau = 0) /\
  (worst_case s p 0 \/ exists d r, forall B, exists q, B < q /\ metric_value s p d r q).
Proof.
  intros OK k names P A HB l ps p s HK E. exact (verify_dichotomy OK k names P A HB ps _ HK (si_inv _ (reachable_inv SY l)) p s E).
Qed.
Print Assumptions c64_zero_or_unbounded.

(** Parameters returned by a feasible point of solve_ipopt, of solve_ipopt_qcqp
    or accepted by solve_fix_discr_sdp pass the verification: handed to the
    same builder in verification mode they give a problem with worst case 0. *)
Theorem c64_verified SY : sympy_ok SY -> forall k names P A, builder SY k names P A -> forall l l' p s ps,
  k None (se_st (run SY session0 l)) = (Ok p, s) ->
  (exists b n s' a, ipopt_nlp SY p b s = (Ok n, s') /\ feasible (nlp_opti n) a /\
     forall x q, In (x, q) (dict_parameters (nlp_opti n) a P) -> exists q', dget String.eqb x ps = Some q' /\ Q2R q' = q) \/
  (exists b extra n s' a, qcqp_nlp SY p b extra s = (Ok n, s') /\ feasible (nlp_opti n) a /\
     forall x q, In (x, q) (dict_parameters (nlp_opti n) a P) -> exists q', dget String.eqb x ps = Some q' /\ Q2R q' = q) \/
  (exists sr dp s' a, fix_discr_sdp SY p ps s = (Ok (sr, dp), s') /\ sdp_feasible dp a /\ NoDup (map fst ps) /\
     forall x, In x names -> exists q, dget String.eqb x ps = Some q) ->
  exists p' s', k (Some ps) (se_st (run SY session0 l')) = (Ok p', s') /\ worst_case s' p' 0.
Proof.
  intros OK k names P A HB l l' p s ps Hk H. assert (HI := si_inv _ (reachable_inv SY l)). assert (HI' := si_inv _ (reachable_inv SY l')).
  assert (B0 := builder_builds OK k names P A HB None _ I HI). assert (Nd := builder_nodup k names P A HB).
  destruct (built _ _ _ _ B0 p s Hk) as ([W1 W2 W3 W4 W5 W6] & EP & _).
  assert (DE : forall x q', dget String.eqb x ps = Some q' -> dict_env ps x = Q2R q') by (intros x q' E; unfold dict_env; rewrite E; reflexivity).
  assert (G : has_keys (Some ps) names /\ forall d q, A d (dict_env ps) q -> q <= 0).
  { destruct H as [(b & n & s' & a & Hn & Ha & Hr)|[(b & ex & n & s' & a & Hn & Ha & Hr)|(sr & dp & s' & a & Hn & Ha & Nk & HK)]].
    - split.
      + intros x Hx. apply (builder_incl k names P A HB) in Hx. destruct (returned_values OK p b s n s' a W1 W3 W4 Hn Ha) as [Hf _].
        rewrite EP in Hf. rewrite <- Hf in Hx. apply in_map_iff in Hx as ([y q] & <- & Hx). destruct (Hr y q Hx) as (q' & E & _). eauto.
      + intros d q. apply (ipopt_value OK _ _ _ _ B0 p s Hk b n s' a (dict_env ps) Hn Ha).
        intros x z Hx. destruct (Hr x z Hx) as (q' & E & <-). apply DE, E.
    - split.
      + intros x Hx. apply (builder_incl k names P A HB) in Hx. rewrite <- EP in Nd.
        destruct (vec_returned OK true p b s s' n W3 (qcqp_prog OK p b s W1 Nd W3 W4 ex n s' Hn) a Ha) as [Hf _].
        rewrite EP in Hf. rewrite <- Hf in Hx. apply in_map_iff in Hx as ([y q] & <- & Hx). destruct (Hr y q Hx) as (q' & E & _). eauto.
      + intros d q. apply (qcqp_value OK _ _ _ _ B0 p s Hk b ex n s' a (dict_env ps) Nd Hn Ha).
        intros x z Hx. destruct (Hr x z Hx) as (q' & E & <-). apply DE, E.
    - split; [exact HK|]. intros d q. apply (sdp_value OK _ _ _ _ B0 p s Hk ps sr dp s' a (dict_env ps) Nd Hn Ha).
      intros x z Hx. apply DE. clear - Nk Hx. induction ps as [|[y w] m IH]; [destruct Hx|]. simpl in *. inversion Nk; subst.
      destruct Hx as [[= -> ->]|Hx]; [rewrite String.eqb_refl; reflexivity|]. destruct (String.eqb_spec x y) as [->|N]; [|apply IH; assumption].
      exfalso. apply H1. change y with (fst (y, z)). apply in_map, Hx. }
  destruct G as [HK G]. destruct (verify_built OK k names P A HB ps _ HK HI') as (p' & s' & E & _). exists p', s'. split; [exact E|].
  apply (verify_nonpos OK k names P A HB ps _ HK HI' p' s' E). exact G.
Qed.
Print Assumptions c64_verified.

(** With a strictly feasible point the two modes agree on every dictionary:
    solve_ipopt can return its values if and only if the worst case is 0. *)
Theorem c64_exact SY : sympy_ok SY -> forall k names P A, builder SY k names P A -> forall l l' p s b n s' ps v0 p1 s1,
  k None (se_st (run SY session0 l)) = (Ok p, s) -> ipopt_nlp SY p b s = (Ok n, s') ->
  (forall x, In x names -> exists q, dget String.eqb x ps = Some q) -> k (Some ps) (se_st (run SY session0 l')) = (Ok p1, s1) ->
  side_ok p b (dict_env ps) -> v_env v0 = dict_env ps -> strictly_feasible v0 p s ->
  (accepts n P (dict_env ps) <-> worst_case s1 p1 0).
Proof.
  intros OK k names P A HB l l' p s b n s' ps v0 p1 s1 Hk Hn HK E1 Hs Hv Hst.
  assert (HI := si_inv _ (reachable_inv SY l)). assert (HI' := si_inv _ (reachable_inv SY l')).
  rewrite (verify_nonpos OK k names P A HB ps _ HK HI' p1 s1 E1).
  exact (builder_ipopt_exact OK _ _ _ _ (builder_builds OK k names P A HB None _ I HI) (builder_nodup k names P A HB) p s Hk b n s' _ v0 Hn
    (builder_three k names P A HB) (builder_recips k names P A HB) Hs Hv Hst).
Qed.
Print Assumptions c64_exact.

(** Cases: gradient descent with step 1 on 1-smooth functions passes, from the
    feasible point of C44; with eta = 2 the metric is unbounded. *)
Definition gf_dict (eta : Q) : list (string * Q) := [("h", 1); ("alpha", 0); ("beta", 1); ("gamma", 0); ("delta", 0); ("rho", 0); ("eta", eta)]%string%Q.
Lemma gf_builder : builder sympy0 (fun params => gradient_flow_circuit sympy0 params 0 (Fin 1) 1) ["h"; "alpha"; "beta"; "eta"]%string default_params
  (fun d r q => gradient_flow_run d 0 (Fin 1) (Q2R 1) (r "h") (r "alpha") (r "beta") (r "eta") q)%string.
Proof. constructor; apply c44_case. Qed.
Example c64_gradient_descent : exists p s, gradient_flow_circuit sympy0 (Some (gf_dict 1)) 0 (Fin 1) 1 (se_st (run sympy0 session0 [])) = (Ok p, s) /\ worst_case s p 0.
Proof.
  destruct c44_feasible as (p & s & n & s' & Hk & Hn & Hf & Hr).
  refine (c64_verified sympy0 sympy0_ok _ _ _ _ gf_builder [] [] p s (gf_dict 1) Hk (or_introl _)).
  exists None, n, s', gf_assign. split; [exact Hn|]. split; [exact Hf|]. intros x q Hx. assert (E := Hr x q Hx). subst q.
  assert (Hp : In x default_params).
  { unfold dict_parameters in Hx. apply in_flat_map in Hx as (y & Hy & Hx). destruct (dget String.eqb y (op_vars (nlp_opti n))); [|destruct Hx].
    destruct (_ && _); [|destruct Hx]. destruct Hx as [[= <- _]|[]]. exact Hy. }
  vm_compute in Hp. repeat (destruct Hp as [<-|Hp]; [eexists; split; [vm_compute; reflexivity|unfold gf_env, Q2R; simpl; lra]|]). destruct Hp.
Qed.
(** A rate that is not valid is refused: on x^2/2 from the point 1 the metric is
    1/2, so it is unbounded, and the value 0 is not the worst case. *)
Definition unit1 : vec := fun k => if Nat.eqb k 0 then 1 else 0.
Lemma unit1_Rd : in_Rd 1 unit1. Proof. intros [|k] H; [lia|reflexivity]. Qed.
Example c64_too_fast : exists p s, gradient_flow_circuit sympy0 (Some (gf_dict 2)) 0 (Fin 1) 1 (se_st (run sympy0 session0 [])) = (Ok p, s) /\
  ~ worst_case s p 0 /\ exists d r, forall B, exists q, B < q /\ metric_value s p d r q.
Proof.
  assert (HK : forall x, In x ["h"; "alpha"; "beta"; "eta"]%string -> exists q, dget String.eqb x (gf_dict 2) = Some q).
  { intros x Hx. simpl in Hx. repeat (destruct Hx as [<-|Hx]; [eexists; vm_compute; reflexivity|]). destruct Hx. }
  destruct (proj2 (c64_modes_agree sympy0 sympy0_ok _ _ _ _ gf_builder []) (gf_dict 2) HK) as (p & s & E & W & _ & V). exists p, s. split; [exact E|].
  assert (N : ~ worst_case s p 0).
  { intros [U _]. assert (1 / 2 <= 0); [|lra]. apply U. exists 1%nat, (fun _ => 0). apply V. clear.
    assert (D : forall x, x = Q2R 1 -> x = 1) by (intros x ->; unfold Q2R; simpl; lra).
    exists quad. split; [apply quad_class1|]. exists vzero, (val quad vzero). split; [apply in_Rd_zero|]. split; [apply quad_query, in_Rd_zero|].
    exists unit1. split; [apply unit1_Rd|]. exists unit1, (val quad unit1). split; [apply quad_query, unit1_Rd|]. cbv zeta.
    eexists _, _. split; [apply quad_query, in_Rd_sub; [apply unit1_Rd|apply in_Rd_scal, unit1_Rd]|].
    eexists _, _. split; [apply quad_query; repeat apply in_Rd_sub; try apply in_Rd_scal; repeat apply in_Rd_sub; try apply in_Rd_scal; apply unit1_Rd|].
    unfold dict_env, gf_dict, quad, unit1, nsq, dot, vsub, vscal, vzero; simpl. unfold Q2R; simpl. field. }
  split; [exact N|]. destruct (proj2 (c64_zero_or_unbounded sympy0 sympy0_ok _ _ _ _ gf_builder [] (gf_dict 2) p s HK E)) as [H|H]; [destruct (N H)|exact H].
Qed.
(** For the parameters h = 1, alpha = 1/2, beta = 1, eta = 1 (C63) the equivalence
    applies. *)
Definition half_dict : list (string * Q) := [("h", 1); ("alpha", 1 # 2); ("beta", 1); ("gamma", 0); ("delta", 0); ("rho", 0); ("eta", 1)]%string%Q.
Example c64_exact_case : forall p s n s' p1 s1,
  gradient_flow_circuit sympy0 None 0 (Fin 1) 1 (se_st (run sympy0 session0 [])) = (Ok p, s) -> ipopt_nlp sympy0 p None s = (Ok n, s') ->
  gradient_flow_circuit sympy0 (Some half_dict) 0 (Fin 1) 1 (se_st (run sympy0 session0 [])) = (Ok p1, s1) ->
  (accepts n default_params (dict_env half_dict) <-> worst_case s1 p1 0).
Proof.
  intros p s n s' p1 s1 Hk Hn H1.
  assert (HK : forall x, In x ["h"; "alpha"; "beta"; "eta"]%string -> exists q, dget String.eqb x half_dict = Some q).
  { intros x Hx. simpl in Hx. repeat (destruct Hx as [<-|Hx]; [eexists; vm_compute; reflexivity|]). destruct Hx. }
  destruct (gf_strict (dict_env half_dict) p s Hk) as (v0 & Hv & Hst); try (unfold dict_env, Q2R; simpl; lra).
  refine (c64_exact sympy0 sympy0_ok _ _ _ _ gf_builder [] [] p s None n s' half_dict v0 p1 s1 Hk Hn HK H1 _ Hv Hst).
  assert (HB := c44_gradient_flow_builder sympy0 sympy0_ok [] 0 (Fin 1) 1 ltac:(apply c44_case) ltac:(apply c44_case)).
  destruct (built _ _ _ _ HB p s Hk) as (_ & E & _). split; [|split; [exact I|]].
  - rewrite E. intros x Hx. vm_compute in Hx. destruct Hx.
  - repeat split; unfold dict_env, Q2R; simpl; lra.
Qed.
