(** From the problem of a builder to the method: certificates, trajectories,
    balanced currents, failures for too few functions. *)
From Coq Require Import List Arith Bool String QArith Reals Qreals Lia Lra FunctionalExtensionality.
From Verif Require Import Prelude PreludeFacts Sympy SympyFacts AlgebraModel Denote AlgebraFacts FunctionModel CircuitModel
  Spec SpecFacts ClassSpec CertSpec StateSpec StateFacts CertFacts FunctionSpec FunctionFacts FunctionFacts2
  SymSpec ParsingModel SolverModel SolverSpec IpoptProof QcqpModel QcqpMain SdpModel SdpSpec SdpFacts
  BuilderModel BuilderSpec BuildsSpec BuilderUseSpec BuilderLogic BuilderT BuilderRun BuilderProof BuilderListProof.
Import ListNotations.
Local Open Scope R_scope.

(** * certificates *)
Section Cert.
  Context {SY : sympy} (OK : sympy_ok SY).
  Variables (k : M problem) (s0 : state) (params : list string) (A : nat -> env -> R -> Prop).
  Hypothesis HB : builds k s0 params A.
  Variables (p : problem) (s : state).
  Hypothesis Hk : k s0 = (Ok p, s).

  Lemma built : well_posed s p /\ pr_params p = params /\ forall d r q, metric_value s p d r q <-> A d r q.
  Proof using HB Hk. destruct HB as (p' & s' & H & H1). rewrite Hk in H. injection H as <- <-. exact H1. Qed.

  Lemma value_cert d r q : (forall v phi, v_env v = r -> consistent v phi s -> constraints_hold v p ->
      exists e, pr_metric p = Some e /\ den_e v e <= 0) -> A d r q -> q <= 0.
  Proof using HB Hk.
    intros H Ha. destruct built as (W & _ & V). apply V in Ha as (v & phi & _ & Hr & _ & Hc & Hh & m & Hm & <-).
    destruct (H v phi Hr Hc Hh) as (e & He & Hle). rewrite Hm in He. injection He as ->. exact Hle.
  Qed.
  Lemma ipopt_value b n s' a r : ipopt_nlp SY p b s = (Ok n, s') -> feasible (nlp_opti n) a ->
    (forall x q, In (x, q) (dict_parameters (nlp_opti n) a params) -> r x = q) -> forall d q, A d r q -> q <= 0.
  Proof using OK HB Hk.
    intros H Ha Hr d q. destruct built as (W & E & _). rewrite <- E in Hr. apply value_cert. intros v phi Hv Hc Hh. destruct W as [W1 W2 W3 W4 W5 W6].
    apply (@ipopt_sound SY OK s p b n s' a v phi); try assumption. intros x z Hx. rewrite Hv. apply Hr, Hx.
  Qed.
  Lemma qcqp_value b extra n s' a r : NoDup params -> qcqp_nlp SY p b extra s = (Ok n, s') -> feasible (nlp_opti n) a ->
    (forall x q, In (x, q) (dict_parameters (nlp_opti n) a params) -> r x = q) -> forall d q, A d r q -> q <= 0.
  Proof using OK HB Hk.
    intros Nd H Ha Hr d q. destruct built as (W & E & _). rewrite <- E in Hr, Nd. apply value_cert. intros v phi Hv Hc Hh. destruct W as [W1 W2 W3 W4 W5 W6].
    apply (vec_sound OK true p b s s' n W1 W3 W4 (qcqp_prog OK p b s W1 Nd W3 W4 extra n s' H) a v phi); try assumption.
    intros x z Hx. rewrite Hv. apply Hr, Hx.
  Qed.
  Lemma sdp_value ps sr dp s' a r : NoDup params -> fix_discr_sdp SY p ps s = (Ok (sr, dp), s') -> sdp_feasible dp a ->
    (forall x q, In (x, q) ps -> r x = Q2R q) -> forall d q, A d r q -> q <= 0.
  Proof using OK HB Hk.
    intros Nd H Ha Hr d q. destruct built as (W & E & _). apply value_cert. intros v phi Hv Hc Hh. destruct W as [W1 W2 W3 W4 W5 W6].
    rewrite <- E in Nd. apply (fix_sound OK p s W1 Nd W3 W4 ps sr dp s' a v phi); try assumption. intros x z Hx. rewrite Hv. apply Hr, Hx.
  Qed.
End Cert.

(** * trajectories *)
Local Open Scope vec_scope.
Lemma telescope (N : nat) (E D : nat -> R) : (forall k, E (S k) - (E k - D k) <= 0) -> rsum N D <= E 0%nat - E N.
Proof. intros H. induction N as [|N IH]; simpl; [lra|]. specialize (H N). lra. Qed.

Lemma query_Rd d phi x g z : query d phi x g z -> in_Rd d g. Proof. intros [H _]; exact H. Qed.

Lemma gradient_flow_sum d mu L C h alpha beta eta phi xs fs x y f :
  (forall q, gradient_flow_run d mu L C h alpha beta eta q -> q <= 0) ->
  gradient_flow_trajectory d mu L C h alpha beta phi xs fs x y f ->
  forall N, rsum N (fun k => eta * (f k - fs)) <= C / 2 * nsq d (x 0%nat -' xs) - C / 2 * nsq d (x N -' xs).
Proof.
  intros HR (Hc & Hxs & Hs & H0 & Hk) N.
  assert (HX : forall k, in_Rd d (x k)).
  { induction k as [|k IH]; [exact H0|]. destruct (Hk k) as (Q & y15 & f15 & Q15 & ->).
    repeat apply in_Rd_sub; try apply in_Rd_scal; try assumption; eapply query_Rd; eassumption. }
  apply (telescope N (fun k => C / 2 * nsq d (x k -' xs)) (fun k => eta * (f k - fs))). intros k. apply HR.
  destruct (Hk k) as (Q & y15 & f15 & Q15 & E). destruct (Hk (S k)) as (Q2 & _). rewrite E in Q2 |- *.
  exists phi; split; [exact Hc|]. exists xs, fs; split; [exact Hxs|]. split; [exact Hs|]. exists (x k). split; [apply HX|].
  exists (y k), (f k). split; [exact Q|]. exists y15, f15. split; [exact Q15|]. exists (y (S k)), (f (S k)). split; [exact Q2|reflexivity].
Qed.

Lemma queries_Rd d x phis gs zs : queries d x phis gs zs -> in_Rd d (vsum gs).
Proof. intros H. induction H; simpl; [apply in_Rd_zero|]. apply in_Rd_add; [eapply query_Rd; eassumption|assumption]. Qed.
Lemma primal_sum d n mu L C h alpha beta eta phis xs fs z y :
  (forall q, primal_decomposition_run d n mu L C h alpha beta eta q -> q <= 0) ->
  primal_trajectory d n mu L C h alpha beta phis xs fs z y ->
  forall N, rsum N (fun k => eta * dot d (z k -' xs) (vsum (y k))) <= C / 2 * nsq d (z 0%nat -' xs) - C / 2 * nsq d (z N -' xs).
Proof.
  intros HR (Hn & Hc & Hs & H0 & Hk) N.
  assert (HX : forall k, in_Rd d (z k)).
  { induction k as [|k IH]; [exact H0|]. destruct (Hk k) as (f1 & Q & y15 & f15 & Q15 & ->).
    repeat apply in_Rd_sub; try apply in_Rd_scal; try assumption; eapply queries_Rd; eassumption. }
  apply (telescope N (fun k => C / 2 * nsq d (z k -' xs)) (fun k => eta * dot d (z k -' xs) (vsum (y k)))). intros k. apply HR.
  destruct (Hk k) as (f1 & Q & y15 & f15 & Q15 & E). rewrite E.
  exists phis; split; [exact Hn|]. split; [exact Hc|]. exists xs, fs; split; [exact Hs|]. exists (z k). split; [apply HX|].
  exists (y k), f1. split; [exact Q|]. exists y15, f15. split; [exact Q15|reflexivity].
Qed.

Lemma readme_sum d mu L Rs C h eta phi xs fs z w x y :
  (forall q, readme_run d mu L Rs C h eta q -> q <= 0) ->
  readme_trajectory d mu L Rs C h phi xs fs z w x y ->
  let E k := C / 2 * nsq d (/ 2 *' w k -' z k +' xs) + C / 2 * nsq d (w k) in
  forall N, rsum N (fun k => eta * dot d (x k -' xs) (y k)) <= E 0%nat - E N.
Proof.
  intros HR (Hc & Hxs & Hs & Hz0 & Hw0 & Hk) E N.
  assert (HX : forall k, in_Rd d (z k) /\ in_Rd d (w k)).
  { induction k as [|k [IHz IHw]]; [easy|]. destruct (Hk k) as ((g & f & Px & Pq) & Hy & Hw & Hz).
    assert (Hx : in_Rd d (x k)) by (rewrite Px; apply in_Rd_sub; [assumption|apply in_Rd_scal; eapply query_Rd; eassumption]).
    assert (Hyk : in_Rd d (y k)) by (rewrite Hy; apply in_Rd_scal, in_Rd_sub; assumption).
    rewrite Hz, Hw. split; (apply in_Rd_sub; [assumption|]; apply in_Rd_scal, in_Rd_add; apply in_Rd_scal; assumption). }
  apply (telescope N E). intros k. apply HR. unfold E.
  destruct (Hk k) as ((g & f & P) & Hy & Hw & Hz). destruct (Hk (S k)) as ((g2 & f2 & P2) & Hy2 & _).
  exists phi; split; [exact Hc|]. exists xs, fs; split; [exact Hxs|]. split; [exact Hs|]. exists (z k). split; [apply HX|].
  exists (w k). split; [apply HX|]. exists (x k), g, f. split; [exact P|]. cbv zeta. rewrite <- Hy, <- Hw, <- Hz.
  exists (x (S k)), g2, f2. split; [exact P2|reflexivity].
Qed.

(** * currents *)
Lemma dual_step_run d n mu L Ind h alpha beta eta q :
  dual_decomposition_run d n mu L Ind h alpha beta eta q <->
  exists i1 i15 i2, dual_decomposition_step d n mu L Ind h alpha beta eta i1 i15 i2 q.
Proof.
  split.
  - intros (phis & H1 & H2 & xs & fs & H3 & ys & zs & H4 & i1 & H5 & x1 & H6 & x15 & H7 & H8).
    exists i1. eexists _, _. exists phis. repeat (split; [assumption|]). exists xs, fs. split; [assumption|].
    exists ys, zs. repeat (split; [assumption|]). exists x1. split; [assumption|]. split; [reflexivity|]. exists x15. split; [assumption|]. split; [reflexivity|]. exact H8.
  - intros (i1 & i15 & i2 & phis & H1 & H2 & xs & fs & H3 & ys & zs & H4 & H5 & x1 & H6 & -> & x15 & H7 & -> & H8).
    exists phis. repeat (split; [assumption|]). exists xs, fs. split; [assumption|].
    exists ys, zs. repeat (split; [assumption|]). exists i1. split; [assumption|]. exists x1. split; [assumption|]. exists x15. split; [assumption|]. exact H8.
Qed.
Lemma admm_step_run d n mu L Rs Ind h alpha beta eta rho gamma q :
  admm_consensus_run d n mu L Rs Ind h alpha beta eta rho gamma q <->
  exists i1 i15 i2, admm_consensus_step d n mu L Rs Ind h alpha beta eta rho gamma i1 i15 i2 q.
Proof.
  split.
  - intros (phis & H1 & H2 & xs & fs & H3 & ys & zs & H4 & H4' & e1 & He & i1 & H5 & x15 & g15 & f15 & H6 & x2 & g2 & f2 & H7 & H8).
    exists i1. eexists _, _. exists phis. repeat (split; [assumption|]). exists xs, fs. split; [assumption|].
    exists ys, zs. repeat (split; [assumption|]). exists e1. repeat (split; [assumption|]). exists x15, g15, f15. split; [assumption|]. split; [reflexivity|].
    exists x2, g2, f2. split; [assumption|]. split; [reflexivity|]. exact H8.
  - intros (i1 & i15 & i2 & phis & H1 & H2 & xs & fs & H3 & ys & zs & H4 & H4' & e1 & He & H5 & x15 & g15 & f15 & H6 & -> & x2 & g2 & f2 & H7 & -> & H8).
    exists phis. repeat (split; [assumption|]). exists xs, fs. split; [assumption|].
    exists ys, zs. repeat (split; [assumption|]). exists e1. split; [assumption|]. exists i1. split; [assumption|]. exists x15, g15, f15. split; [assumption|].
    exists x2, g2, f2. split; [assumption|]. exact H8.
Qed.
Lemma euler_step_run d n mu L Rs Ind h eta rho q :
  admm_euler_run d n mu L Rs Ind h eta rho q <->
  exists i1 i2, admm_euler_step d n mu L Rs Ind h eta rho i1 i2 q.
Proof.
  split.
  - intros (phis & H1 & H2 & xs & fs & H3 & ys & zs & H4 & H4' & e1 & He & i1 & H5 & x1 & g1 & f1 & H6 & H7 & H8).
    exists i1. eexists _. exists phis. repeat (split; [assumption|]). exists xs, fs. split; [assumption|].
    exists ys, zs. repeat (split; [assumption|]). exists e1. repeat (split; [assumption|]). exists x1, g1, f1. split; [assumption|]. split; [reflexivity|].
    split; [assumption|]. exact H8.
  - intros (i1 & i2 & phis & H1 & H2 & xs & fs & H3 & ys & zs & H4 & H4' & e1 & He & H5 & x1 & g1 & f1 & H6 & -> & H7 & H8).
    exists phis. repeat (split; [assumption|]). exists xs, fs. split; [assumption|].
    exists ys, zs. repeat (split; [assumption|]). exists e1. split; [assumption|]. exists i1. split; [assumption|]. exists x1, g1, f1. split; [assumption|].
    split; [assumption|]. exact H8.
Qed.

Lemma conjs_Rd d phis gs xs : conjs d phis gs xs -> List.length xs = List.length gs /\ Forall (in_Rd d) xs.
Proof. intros H. induction H as [|phi g x phis gs xs [H1 _] _ [IH1 IH2]]; simpl; [easy|]. split; [congruence|]. constructor; assumption. Qed.
Lemma proxes_Rd d c phis a xs gs zs : proxes d c phis a xs gs zs -> Forall (in_Rd d) a -> List.length xs = List.length a /\ Forall (in_Rd d) xs.
Proof.
  intros H. induction H as [|phi a x g z phis azs xs gs zs [-> Hq] _ IH]; simpl; [easy|].
  intros F. inversion F as [|? ? F1 F2]; subst. destruct (IH F2) as [IH1 IH2]. split; [congruence|].
  constructor; [|assumption]. apply in_Rd_sub; [assumption|]. apply in_Rd_scal. eapply query_Rd; eassumption.
Qed.
Lemma vsum_Rd d l : Forall (in_Rd d) l -> in_Rd d (vsum l).
Proof. intros H. induction H; simpl; [apply in_Rd_zero|apply in_Rd_add; assumption]. Qed.

Lemma vsum_map2 c z i : forall x, List.length x = List.length i ->
  vsum (map2 (fun i x => i +' c *' (z -' x)) i x) = vsum i +' c *' (INR (List.length i) *' z -' vsum x).
Proof.
  induction i as [|a i IH]; intros [|b x] H; try easy.
  - apply functional_extensionality. intros k. unfold vsum, vadd, vscal, vsub, vzero. simpl. ring.
  - injection H as H. cbn [map2 vsum fold_right]. change (fold_right vadd vzero ?l) with (vsum l). rewrite (IH x H).
    apply functional_extensionality. intros k. unfold vadd, vscal, vsub. cbn [List.length]. rewrite S_INR. ring.
Qed.
Lemma vsum_map3 c z c' z' i : forall x x', List.length x = List.length i -> List.length x' = List.length i ->
  vsum (map3 (fun i x x' => i +' c *' (z -' x) +' c' *' (z' -' x')) i x x') =
  vsum i +' c *' (INR (List.length i) *' z -' vsum x) +' c' *' (INR (List.length i) *' z' -' vsum x').
Proof.
  induction i as [|a i IH]; intros [|b x] [|b' x'] H H'; try easy.
  - apply functional_extensionality. intros k. unfold vsum, vadd, vscal, vsub, vzero. simpl. ring.
  - injection H as H. injection H' as H'. cbn [map3 vsum fold_right]. change (fold_right vadd vzero ?l) with (vsum l). rewrite (IH x x' H H').
    apply functional_extensionality. intros k. unfold vadd, vscal, vsub. cbn [List.length]. rewrite S_INR. ring.
Qed.
Lemma map2_Rd d c z i : forall x, in_Rd d z -> Forall (in_Rd d) i -> Forall (in_Rd d) x ->
  Forall (in_Rd d) (map2 (fun i x => i +' c *' (z -' x)) i x).
Proof.
  induction i as [|a i IH]; intros [|b x] Hz Hi Hx; try constructor; inversion Hi; inversion Hx; subst; [|auto].
  apply in_Rd_add; [assumption|]. apply in_Rd_scal, in_Rd_sub; assumption.
Qed.
Lemma map3_Rd d c z c' z' i : forall x x', in_Rd d z -> in_Rd d z' -> Forall (in_Rd d) i -> Forall (in_Rd d) x -> Forall (in_Rd d) x' ->
  Forall (in_Rd d) (map3 (fun i x x' => i +' c *' (z -' x) +' c' *' (z' -' x')) i x x').
Proof.
  induction i as [|a i IH]; intros [|b x] [|b' x'] Hz Hz' Hi Hx Hx'; try constructor; inversion Hi; inversion Hx; inversion Hx'; subst; [|auto].
  repeat (apply in_Rd_add; [|apply in_Rd_scal, in_Rd_sub; assumption]). assumption.
Qed.
Lemma map2_length {A B X} (f : A -> B -> X) l : forall m, List.length m = List.length l -> List.length (map2 f l m) = List.length l.
Proof. induction l as [|a l IH]; intros [|b m] H; try easy. simpl. f_equal. apply IH. injection H; easy. Qed.
Lemma map3_length {A B C X} (f : A -> B -> C -> X) l : forall m o, List.length m = List.length l -> List.length o = List.length l -> List.length (map3 f l m o) = List.length l.
Proof. induction l as [|a l IH]; intros [|b m] [|c o] H H'; try easy. simpl. f_equal. apply IH; [injection H|injection H']; easy. Qed.

Lemma average_zero n (s : vec) : (1 <= n)%nat -> INR n *' (/ INR n *' s) -' s = vzero.
Proof. intros H. apply functional_extensionality. intros k. unfold vsub, vscal, vzero. field. apply not_0_INR. lia. Qed.

(** Adding [c (average x - x_i)] to each current keeps the balance. *)
Lemma balanced2 d n c i x : (1 <= n)%nat -> balanced d n i -> List.length x = n -> Forall (in_Rd d) x ->
  balanced d n (map2 (fun i x' => i +' c *' (/ INR n *' vsum x -' x')) i x).
Proof.
  intros Hn (H1 & H2 & H3) Hl Hx. split; [rewrite map2_length; congruence|]. split.
  - apply map2_Rd; try assumption. apply in_Rd_scal, vsum_Rd, Hx.
  - rewrite vsum_map2 by congruence. rewrite H3, H1, average_zero by assumption.
    apply functional_extensionality. intros k. unfold vadd, vscal, vzero. ring.
Qed.
Lemma balanced3 d n c c' i x x' : (1 <= n)%nat -> balanced d n i -> List.length x = n -> Forall (in_Rd d) x -> List.length x' = n -> Forall (in_Rd d) x' ->
  balanced d n (map3 (fun i a b => i +' c *' (/ INR n *' vsum x -' a) +' c' *' (/ INR n *' vsum x' -' b)) i x x').
Proof.
  intros Hn (H1 & H2 & H3) Hl Hx Hl' Hx'. split; [rewrite map3_length; congruence|]. split.
  - apply map3_Rd; try assumption; apply in_Rd_scal, vsum_Rd; assumption.
  - rewrite vsum_map3 by congruence. rewrite H3, H1, !average_zero by assumption.
    apply functional_extensionality. intros k. unfold vadd, vscal, vzero. ring.
Qed.

Lemma dual_balanced d n mu L Ind h alpha beta eta i1 i15 i2 q : (1 <= n)%nat ->
  dual_decomposition_step d n mu L Ind h alpha beta eta i1 i15 i2 q -> balanced d n i1 /\ balanced d n i15 /\ balanced d n i2.
Proof.
  intros Hn (phis & H1 & H2 & xs & fs & H3 & ys & zs & H4 & H5 & x1 & H6 & E15 & x15 & H7 & E2 & H8).
  destruct (conjs_Rd _ _ _ _ H6) as [L1 F1]. destruct (conjs_Rd _ _ _ _ H7) as [L15 F15].
  assert (B15 : balanced d n i15) by (rewrite E15; apply balanced2; try assumption; rewrite L1; apply H5).
  split; [exact H5|]. split; [exact B15|]. rewrite E2. apply balanced3; try assumption; [rewrite L1; apply H5|rewrite L15; apply B15].
Qed.
Lemma admm_balanced d n mu L Rs Ind h alpha beta eta rho gamma i1 i15 i2 q : (1 <= n)%nat ->
  admm_consensus_step d n mu L Rs Ind h alpha beta eta rho gamma i1 i15 i2 q ->
  balanced d n i1 /\ balanced d n i2 /\
  exists x15, List.length x15 = n /\ vsum i15 = (alpha * h / Ind * (INR n - 1)) *' vsum x15.
Proof.
  intros Hn (phis & H1 & H2 & xs & fs & H3 & ys & zs & H4 & H4' & e1 & He & H5 & x15 & g15 & f15 & H6 & E15 & x2 & g2 & f2 & H7 & E2 & H8).
  destruct H5 as (J1 & J2 & J3).
  assert (Z1 : Forall (in_Rd d) (map (fun i => Rs *' i +' e1) i1)).
  { apply Forall_map. eapply Forall_impl; [|exact J2]. intros i Hi. apply in_Rd_add; [apply in_Rd_scal|]; assumption. }
  destruct (proxes_Rd _ _ _ _ _ _ _ H6 Z1) as [L15 F15]. rewrite map_length, J1 in L15.
  assert (I15 : List.length i15 = n /\ Forall (in_Rd d) i15).
  { rewrite E15. split; [rewrite map2_length; congruence|]. apply map2_Rd; try assumption. apply vsum_Rd, F15. }
  destruct I15 as [I1 I2].
  assert (Z2 : Forall (in_Rd d) (map (fun i => Rs *' i +' (/ INR n *' vsum x15)) i15)).
  { apply Forall_map. eapply Forall_impl; [|exact I2]. intros i Hi. apply in_Rd_add; [apply in_Rd_scal; assumption|]. apply in_Rd_scal, vsum_Rd, F15. }
  destruct (proxes_Rd _ _ _ _ _ _ _ H7 Z2) as [L2 F2]. rewrite map_length, I1 in L2.
  split; [easy|]. split; [rewrite E2; apply balanced3; easy|]. exists x15. split; [exact L15|].
  rewrite E15, vsum_map2 by congruence. rewrite J3, J1. apply functional_extensionality. intros k. unfold vadd, vscal, vsub, vzero. ring.
Qed.
Lemma euler_balanced d n mu L Rs Ind h eta rho i1 i2 q : (1 <= n)%nat ->
  admm_euler_step d n mu L Rs Ind h eta rho i1 i2 q -> balanced d n i1 /\ balanced d n i2.
Proof.
  intros Hn (phis & H1 & H2 & xs & fs & H3 & ys & zs & H4 & H4' & e1 & He & H5 & x1 & g1 & f1 & H6 & E2 & Ea & H8).
  split; [exact H5|]. destruct H5 as (J1 & J2 & J3).
  assert (Z1 : Forall (in_Rd d) (map (fun i => Rs *' i +' e1) i1)).
  { apply Forall_map. eapply Forall_impl; [|exact J2]. intros i Hi. apply in_Rd_add; [apply in_Rd_scal|]; assumption. }
  destruct (proxes_Rd _ _ _ _ _ _ _ H6 Z1) as [L1 F1]. rewrite map_length, J1 in L1.
  rewrite E2, Ea. apply balanced2; easy.
Qed.

(** * too few functions *)
Section Few.
  Context {SY : sympy} (OK : sympy_ok SY).
  Lemma no_function s0 mu L Rs Ind :
    fst (primal_decomposition SY None 0 mu L Rs s0) = Err UnboundLocalError /\ fst (dual_decomposition SY None 0 mu L Ind s0) = Err UnboundLocalError /\
    fst (admm_consensus SY None 0 mu L Rs Ind s0) = Err UnboundLocalError /\ fst (admm_euler_consensus SY None 0 mu L Rs Ind s0) = Err UnboundLocalError.
  Proof. repeat split. Qed.

  Lemma one_start s0 mu L : good_class mu L -> Inv s0 ->
    exists f x e y s1 s2 s3, define_loop SY mu L 1 [] None (reset_state s0) = (Ok ([f], Some f), s1) /\
      stationary_of SY (Some f) s1 = (Ok (x, zero_point, e), s2) /\ oracle_loop SY [f] x s2 = (Ok [y], s3).
  Proof using OK.
    intros Hc I. assert (HS : St default_params (reset_state s0)).
    { split; [apply reset_inv; apply inv_fid; easy|]. intros f fn []. }
    destruct (rule_def default_params _ mu L HS Hc) as (f & s1 & R1 & S1 & E1 & F1 & _ & If & _).
    destruct (rule_stationary OK default_params s1 f S1 If) as (x & e & s2 & R2 & S2 & E2 & F2 & Ox & Oe & Pr & _).
    assert (If2 := isf_ext _ _ _ E2 If).
    destruct (rule_oracle OK default_params s2 f (leaf_point x) S2 If2 Ox Pr) as (g & e' & s3 & R3 & _).
    exists f, (leaf_point x), e, g, s1, s2, s3. split; [|split].
    - cbn [define_loop]. rewrite (bind_ok _ _ _ _ _ R1). reflexivity.
    - exact R2.
    - cbn [oracle_loop]. rewrite (bind_ok _ _ _ _ _ R3). reflexivity.
  Qed.
  Lemma one_function s0 mu L Rs Ind : good_class mu L -> Inv s0 ->
    fst (dual_decomposition SY None 1 mu L Ind s0) = Err AssertionError /\
    fst (admm_consensus SY None 1 mu L Rs Ind s0) = Err TypeError /\ fst (admm_euler_consensus SY None 1 mu L Rs Ind s0) = Err TypeError.
  Proof using OK.
    intros Hc I. destruct (one_start s0 mu L Hc I) as (f & x & e & y & s1 & s2 & s3 & R1 & R2 & R3).
    split; [|split].
    - unfold dual_decomposition. change (bind (start None _) ?k s0) with (k pb0 (reset_state s0)). cbv beta.
      rewrite (bind_ok _ _ _ _ _ R1). rewrite (bind_ok _ _ _ _ _ R2). rewrite (bind_ok _ _ _ _ _ R3). reflexivity.
    - unfold admm_consensus. change (bind (start None _) ?k s0) with (k pb0 (reset_state s0)). cbv beta.
      rewrite (bind_ok _ _ _ _ _ R1). rewrite (bind_ok _ _ _ _ _ R2). rewrite (bind_ok _ _ _ _ _ R3). reflexivity.
    - unfold admm_euler_consensus. change (bind (start None _) ?k s0) with (k pb0 (reset_state s0)). cbv beta.
      rewrite (bind_ok _ _ _ _ _ R1). rewrite (bind_ok _ _ _ _ _ R2). rewrite (bind_ok _ _ _ _ _ R3). reflexivity.
  Qed.
End Few.
