(** C65: gradient descent and the proximal point method.  For the parameters
    with which two builders are the textbook methods, exactly the rates that
    hold are certified. *)
From Coq Require Import List Arith Bool String QArith Reals Qreals Lra Lia FunctionalExtensionality.
From Verif Require Import Prelude PreludeFacts Sympy SympyFacts AlgebraModel Denote FunctionModel CircuitModel SymSpec
  Spec ClassSpec CertSpec StateSpec SessionModel StateFacts CertFacts ParsingModel SolverModel SolverSpec QcqpModel SdpModel SdpSpec
  ExtraSpec BuilderModel BuilderSpec BuildsSpec BuilderUse BuilderExamples DualitySpec DualityProps DualityExamples VerifySpec VerifyProps TextbookProps
  Props_Builders Props_Duality Props_Verify StrictSpec Props_Strict.
Import ListNotations.
Local Open Scope R_scope.

(** ** C65: gradient_flow_circuit in verification mode.  With alpha = 0 or
    beta = 1 the method is gradient descent x - (h/C) grad f(x).  For L-smooth
    convex functions the worst case is 0 if and only if 0 <= h, eta <= h and
    eta <= 2 h - h^2 L / C; in particular the largest eta is h for h <= C/L. *)
Theorem c65_gradient_descent SY : sympy_ok SY -> forall l L C ps p s, 0 < Q2R L -> 0 < Q2R C ->
  (forall x, In x ["h"; "alpha"; "beta"; "eta"]%string -> exists q, dget String.eqb x ps = Some q) ->
  gradient_flow_circuit SY (Some ps) 0 (Fin L) C (se_st (run SY session0 l)) = (Ok p, s) ->
  let h := dict_env ps "h"%string in let eta := dict_env ps "eta"%string in
  dict_env ps "alpha"%string = 0 \/ dict_env ps "beta"%string = 1 ->
  (worst_case s p 0 <-> 0 <= h /\ eta <= h /\ eta <= 2 * h - h * h * Q2R L / Q2R C).
Proof.
  intros OK l L C ps p s HL HC HK E h eta Hab.
  assert (G : good_class 0 (Fin L)) by (split; simpl; replace (Q2R 0) with 0 by (unfold Q2R; simpl; lra); lra).
  assert (B := b_gradient_flow SY 0 (Fin L) C G ltac:(lra)).
  rewrite (verify_nonpos OK _ _ _ _ B ps _ HK (si_inv _ (reachable_inv SY l)) p s E). split.
  - intros H. apply (gd_needed L (Q2R C) h (dict_env ps "alpha"%string) (dict_env ps "beta"%string) eta HL HC Hab). intros q Hq. apply (H 1%nat q Hq).
  - intros (H1 & H2 & H3) d q Hq. exact (gd_valid 0 L (Q2R C) h _ _ eta G HC Hab H1 H2 H3 d q Hq).
Qed.
Print Assumptions c65_gradient_descent.

(** Strongly convex functions: the same rates hold. *)
Theorem c65_gradient_descent_strong SY : sympy_ok SY -> forall l mu L C ps p s, good_class mu (Fin L) -> 0 < Q2R C ->
  (forall x, In x ["h"; "alpha"; "beta"; "eta"]%string -> exists q, dget String.eqb x ps = Some q) ->
  gradient_flow_circuit SY (Some ps) mu (Fin L) C (se_st (run SY session0 l)) = (Ok p, s) ->
  let h := dict_env ps "h"%string in let eta := dict_env ps "eta"%string in
  dict_env ps "alpha"%string = 0 \/ dict_env ps "beta"%string = 1 ->
  0 <= h -> eta <= h -> eta <= 2 * h - h * h * Q2R L / Q2R C -> worst_case s p 0.
Proof.
  intros OK l mu L C ps p s G HC HK E h eta Hab H1 H2 H3. assert (B := b_gradient_flow SY mu (Fin L) C G ltac:(lra)).
  apply (verify_nonpos OK _ _ _ _ B ps _ HK (si_inv _ (reachable_inv SY l)) p s E). intros d q Hq.
  exact (gd_valid mu L (Q2R C) h _ _ eta G HC Hab H1 H2 H3 d q Hq).
Qed.
Print Assumptions c65_gradient_descent_strong.

(** What solve_ipopt returns: never a rate that gradient descent does not have;
    in particular never eta > C/L, whatever h. *)
Theorem c65_gradient_descent_returned SY : sympy_ok SY -> forall l L C p s b n s' a r, 0 < Q2R L -> 0 < Q2R C ->
  gradient_flow_circuit SY None 0 (Fin L) C (se_st (run SY session0 l)) = (Ok p, s) ->
  ipopt_nlp SY p b s = (Ok n, s') -> feasible (nlp_opti n) a ->
  (forall x q, In (x, q) (dict_parameters (nlp_opti n) a default_params) -> r x = q) ->
  let h := r "h"%string in let eta := r "eta"%string in
  r "alpha"%string = 0 \/ r "beta"%string = 1 ->
  0 <= h /\ eta <= h /\ eta <= 2 * h - h * h * Q2R L / Q2R C /\ eta <= Q2R C / Q2R L.
Proof.
  intros OK l L C p s b n s' a r HL HC Hk Hn Ha Hr h eta Hab.
  assert (G : good_class 0 (Fin L)) by (split; simpl; replace (Q2R 0) with 0 by (unfold Q2R; simpl; lra); lra).
  assert (HB := c44_gradient_flow_builder SY OK l 0 (Fin L) C G ltac:(lra)).
  destruct (gd_needed L (Q2R C) h (r "alpha"%string) (r "beta"%string) eta HL HC Hab) as (H1 & H2 & H3).
  { intros q Hq. exact (ipopt_value OK _ _ _ _ HB p s Hk b n s' a r Hn Ha Hr 1%nat q Hq). }
  split; [exact H1|]. split; [exact H2|]. split; [exact H3|].
  assert (E : 2 * h - h * h * Q2R L / Q2R C = Q2R C / Q2R L - Q2R L / Q2R C * ((h - Q2R C / Q2R L) * (h - Q2R C / Q2R L))) by (field; lra).
  assert (0 <= Q2R L / Q2R C * ((h - Q2R C / Q2R L) * (h - Q2R C / Q2R L))).
  { apply Rmult_le_pos; [|apply Rle_0_sqr]. apply Rlt_le, Rdiv_lt_0_compat; assumption. }
  lra.
Qed.
Print Assumptions c65_gradient_descent_returned.

(** And it returns each of them, with alpha away from the values at which two
    recorded points coincide: solve_ipopt accepts exactly the rates of gradient
    descent. *)
Theorem c65_gradient_descent_accepted SY : sympy_ok SY -> forall l L C p s n s' r, 0 < Q2R L -> 0 < Q2R C ->
  gradient_flow_circuit SY None 0 (Fin L) C (se_st (run SY session0 l)) = (Ok p, s) ->
  ipopt_nlp SY p None s = (Ok n, s') ->
  let h := r "h"%string in let eta := r "eta"%string in
  0 < h -> r "alpha"%string <> 0 -> r "alpha"%string <> 1 -> r "beta"%string = 1 -> 0 <= eta -> 0 <= r "rho"%string ->
  (accepts n default_params r <-> eta <= h /\ eta <= 2 * h - h * h * Q2R L / Q2R C).
Proof.
  intros OK l L C p s n s' r HL HC Hk Hn h eta Hh Ha Ha1 Hb He Hrho.
  assert (G : good_class 0 (Fin L)) by (split; simpl; replace (Q2R 0) with 0 by (unfold Q2R; simpl; lra); lra).
  rewrite (c66_gradient_flow SY OK l 0 (Fin L) C p s n s' r G ltac:(lra) Hk Hn Hh Ha ltac:(intros [X _]; exact (Ha1 X)) He Hrho). fold h eta. split.
  - intros H. destruct (gd_needed L (Q2R C) h (r "alpha"%string) (r "beta"%string) eta HL HC (or_intror Hb)) as (_ & H2 & H3); [|split; assumption].
    intros q Hq. exact (H 1%nat q Hq).
  - intros (H2 & H3) d q Hq. exact (gd_valid 0 L (Q2R C) h _ _ eta G HC (or_intror Hb) ltac:(lra) H2 H3 d q Hq).
Qed.
Print Assumptions c65_gradient_descent_accepted.

(** ppm_circuit in verification mode with alpha = 0, beta = 1 and h = C R: one
    step is the proximal point method x -> prox_{R f}(x).  For convex functions
    the worst case is 0 if and only if eta <= C R and rho <= C R / 2. *)
Theorem c65_proximal_point SY : sympy_ok SY -> forall l C Rs ps p s, 0 < Q2R C -> 0 < Q2R Rs ->
  (forall x, In x ["h"; "alpha"; "beta"; "eta"; "rho"]%string -> exists q, dget String.eqb x ps = Some q) ->
  ppm_circuit SY (Some ps) 0 Inf C Rs (se_st (run SY session0 l)) = (Ok p, s) ->
  dict_env ps "alpha"%string = 0 -> dict_env ps "beta"%string = 1 -> dict_env ps "h"%string = Q2R C * Q2R Rs ->
  (worst_case s p 0 <-> dict_env ps "eta"%string <= Q2R C * Q2R Rs /\ dict_env ps "rho"%string <= Q2R C * Q2R Rs / 2).
Proof.
  intros OK l C Rs ps p s HC HR HK E Ha Hb Hh.
  assert (G : good_class 0 Inf) by (split; [unfold Q2R; simpl; lra|exact I]).
  assert (B := b_ppm SY 0 Inf C Rs G ltac:(lra) ltac:(lra)).
  rewrite (verify_nonpos OK _ _ _ _ B ps _ HK (si_inv _ (reachable_inv SY l)) p s E). rewrite Hh. split.
  - intros H. apply (ppm_needed (Q2R C) (Q2R Rs) _ _ _ _ HC HR Hb Ha). intros q Hq. apply (H 1%nat q Hq).
  - intros (H1 & H2) d q Hq. exact (ppm_valid 0 Inf (Q2R C) (Q2R Rs) _ _ _ _ G HC HR Hb H1 H2 d q Hq).
Qed.
Print Assumptions c65_proximal_point.

(** What solve_ipopt returns for the proximal point method. *)
Theorem c65_proximal_point_returned SY : sympy_ok SY -> forall l C Rs p s b n s' a r, 0 < Q2R C -> 0 < Q2R Rs ->
  ppm_circuit SY None 0 Inf C Rs (se_st (run SY session0 l)) = (Ok p, s) ->
  ipopt_nlp SY p b s = (Ok n, s') -> feasible (nlp_opti n) a ->
  (forall x q, In (x, q) (dict_parameters (nlp_opti n) a default_params) -> r x = q) ->
  r "alpha"%string = 0 -> r "beta"%string = 1 -> r "h"%string = Q2R C * Q2R Rs ->
  r "eta"%string <= Q2R C * Q2R Rs /\ r "rho"%string <= Q2R C * Q2R Rs / 2.
Proof.
  intros OK l C Rs p s b n s' a r HC HR Hk Hn Ha Hr Hal Hbe Hh.
  assert (G : good_class 0 Inf) by (split; [unfold Q2R; simpl; lra|exact I]).
  assert (HB := builder_builds OK _ _ _ _ (b_ppm SY 0 Inf C Rs G ltac:(lra) ltac:(lra)) None _ I (si_inv _ (reachable_inv SY l))).
  apply (ppm_needed (Q2R C) (Q2R Rs) _ _ _ _ HC HR Hbe Hal). rewrite <- Hh. intros q Hq.
  exact (ipopt_value OK _ _ _ _ HB p s Hk b n s' a r Hn Ha Hr 1%nat q Hq).
Qed.
Print Assumptions c65_proximal_point_returned.

(** Cases.  Step 1/4 on 2-smooth functions with C = 1: eta = 1/4 passes, eta = 1/3
    does not. *)
Definition step_dict (h eta : Q) : list (string * Q) := [("h", h); ("alpha", 0); ("beta", 1); ("eta", eta); ("rho", 1 # 8)]%string%Q.
Lemma step_keys h eta names : incl names ["h"; "alpha"; "beta"; "eta"; "rho"]%string ->
  forall x, In x names -> exists q, dget String.eqb x (step_dict h eta) = Some q.
Proof. intros H x Hx. apply H in Hx. simpl in Hx. repeat (destruct Hx as [<-|Hx]; [eexists; reflexivity|]). destruct Hx. Qed.
Example c65_step_case : exists p s p' s',
  gradient_flow_circuit sympy0 (Some (step_dict (1 # 4) (1 # 4))) 0 (Fin 2) 1 (se_st (run sympy0 session0 [])) = (Ok p, s) /\ worst_case s p 0 /\
  gradient_flow_circuit sympy0 (Some (step_dict (1 # 4) (1 # 3))) 0 (Fin 2) 1 (se_st (run sympy0 session0 [])) = (Ok p', s') /\ ~ worst_case s' p' 0.
Proof.
  assert (G : good_class 0 (Fin 2)) by (split; simpl; unfold Q2R; simpl; lra). assert (N1 : Q2R 1 <> 0) by (unfold Q2R; simpl; lra).
  assert (B := b_gradient_flow sympy0 0 (Fin 2) 1 G N1).
  assert (K : incl ["h"; "alpha"; "beta"; "eta"]%string ["h"; "alpha"; "beta"; "eta"; "rho"]%string) by (intros x; simpl; tauto).
  destruct (verify_built sympy0_ok _ _ _ _ B (step_dict (1 # 4) (1 # 4)) _ (step_keys _ _ _ K) (si_inv _ (reachable_inv sympy0 []))) as (p & s & E & _).
  destruct (verify_built sympy0_ok _ _ _ _ B (step_dict (1 # 4) (1 # 3)) _ (step_keys _ _ _ K) (si_inv _ (reachable_inv sympy0 []))) as (p' & s' & E' & _).
  exists p, s, p', s'. split; [exact E|]. split; [|split; [exact E'|]].
  - apply (c65_gradient_descent sympy0 sympy0_ok [] 2 1 _ p s ltac:(unfold Q2R; simpl; lra) ltac:(unfold Q2R; simpl; lra) (step_keys _ _ _ K) E); unfold dict_env, Q2R; simpl; [left; lra|lra].
  - intros H. apply (c65_gradient_descent sympy0 sympy0_ok [] 2 1 _ p' s' ltac:(unfold Q2R; simpl; lra) ltac:(unfold Q2R; simpl; lra) (step_keys _ _ _ K) E') in H; unfold dict_env, Q2R in *; simpl in *; [lra|left; lra].
Qed.
(** The proximal point method with C = 1, R = 1/4: eta = 1/4, rho = 1/8 passes. *)
Example c65_ppm_case : exists p s, ppm_circuit sympy0 (Some (step_dict (1 # 4) (1 # 4))) 0 Inf 1 (1 # 4) (se_st (run sympy0 session0 [])) = (Ok p, s) /\ worst_case s p 0.
Proof.
  assert (G : good_class 0 Inf) by (split; [unfold Q2R; simpl; lra|exact I]). assert (N1 : Q2R 1 <> 0) by (unfold Q2R; simpl; lra). assert (N2 : Q2R (1 # 4) <> 0) by (unfold Q2R; simpl; lra).
  assert (B := b_ppm sympy0 0 Inf 1 (1 # 4) G N1 N2). assert (K : incl ["h"; "alpha"; "beta"; "eta"; "rho"]%string ["h"; "alpha"; "beta"; "eta"; "rho"]%string) by (intros x; simpl; tauto).
  destruct (verify_built sympy0_ok _ _ _ _ B (step_dict (1 # 4) (1 # 4)) _ (step_keys _ _ _ K) (si_inv _ (reachable_inv sympy0 []))) as (p & s & E & _).
  exists p, s. split; [exact E|].
  apply (c65_proximal_point sympy0 sympy0_ok [] 1 (1 # 4) _ p s ltac:(unfold Q2R; simpl; lra) ltac:(unfold Q2R; simpl; lra) (step_keys _ _ _ K) E); unfold dict_env, Q2R; simpl; lra.
Qed.
