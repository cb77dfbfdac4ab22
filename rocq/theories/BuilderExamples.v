(** Concrete runs of every builder's circuit: x^2/2 on the real line, all
    constants 1, started at 1. *)
From Coq Require Import List Arith Bool String QArith Reals Qreals Lia Lra FunctionalExtensionality.
From Verif Require Import Prelude PreludeFacts FunctionModel Spec SpecFacts Examples BuilderSpec BuilderUseSpec BuilderLogic.
Import ListNotations.
Local Open Scope R_scope.

Definition pt (c : R) : vec := fun k => if Nat.eqb k 0 then c else 0.
Lemma pt_Rd c : in_Rd 1 (pt c).
Proof. intros [|k] H; [lia|reflexivity]. Qed.
Lemma pt_eta x : in_Rd 1 x -> pt (x 0%nat) = x.
Proof. intros H. apply functional_extensionality. intros [|k]; [reflexivity|]. symmetry. apply H. lia. Qed.
Lemma opp_Rd d x : in_Rd d x -> in_Rd d (vopp x).
Proof. intros H k Hk. unfold vopp. rewrite (H k Hk). ring. Qed.

Lemma quad_strongly0 : strongly_convex 1 0 quad.
Proof.
  intros x y t _ _ Ht. split; [exact I|]. unfold quad, segment, vadd, vscal, nsq; simpl. rewrite dot1. unfold vsub.
  set (a := x 0%nat); set (b := y 0%nat). assert (0 <= t * (1 - t) * ((a - b) * (a - b))); [|nra].
  apply Rmult_le_pos; [nra|]. apply Rle_0_sqr.
Qed.
Lemma quad_smooth1 : smooth 1 1 quad.
Proof.
  destruct quad_smooth as [H1 _]. split; [exact H1|]. exists (fun x => x). split.
  - intros x u. unfold quad; simpl. rewrite dot1.
    apply derivable_pt_lim_ext with (f := fun t => (x 0%nat + t * u 0%nat) * (x 0%nat + t * u 0%nat) / 2).
    { intros t. unfold vadd, vscal. reflexivity. }
    intros eps He. exists (mkposreal (eps / (1 + u 0%nat * u 0%nat)) ltac:(apply Rdiv_lt_0_compat; nra)).
    intros h Hh Hd. simpl in Hd.
    replace (((x 0%nat + (0 + h) * u 0%nat) * (x 0%nat + (0 + h) * u 0%nat) / 2 - (x 0%nat + 0 * u 0%nat) * (x 0%nat + 0 * u 0%nat) / 2) / h - x 0%nat * u 0%nat)
      with (h * (u 0%nat * u 0%nat / 2)) by (field; exact Hh).
    rewrite Rabs_mult, (Rabs_right (u 0%nat * u 0%nat / 2)) by nra.
    apply Rle_lt_trans with (Rabs h * (1 + u 0%nat * u 0%nat)).
    + apply Rmult_le_compat_l; [apply Rabs_pos|nra].
    + apply Rmult_lt_reg_r with (/ (1 + u 0%nat * u 0%nat)); [apply Rinv_0_lt_compat; nra|].
      rewrite Rmult_assoc, Rinv_r, Rmult_1_r by nra. exact Hd.
  - intros x y. lra.
Qed.
Lemma quad_class1 : function_class 1 0 (Fin 1) quad.
Proof.
  split; [replace (Q2R 0) with 0 by (unfold Q2R; simpl; lra); exact quad_strongly0|].
  cbn. replace (Q2R 1) with 1 by (unfold Q2R; simpl; lra). exact quad_smooth1.
Qed.
Lemma quad_class0 : function_class 1 0 Inf quad.
Proof. split; [apply quad_class1|exact I]. Qed.

Lemma quad_query x : in_Rd 1 x -> query 1 quad x x (val quad x).
Proof. intros H. split; [exact H|]. split; [apply quad_sub|reflexivity]. Qed.
Lemma quad_prox c a : in_Rd 1 a -> 1 + c <> 0 ->
  proxed 1 quad c a (vscal (/ (1 + c)) a) (vscal (/ (1 + c)) a) (val quad (vscal (/ (1 + c)) a)).
Proof.
  intros Ha Hc. split; [|apply quad_query, in_Rd_scal, Ha].
  apply functional_extensionality. intros k. unfold vsub, vscal. field. exact Hc.
Qed.
Lemma quad_conj g : in_Rd 1 g -> conjugated 1 quad g g.
Proof. intros H. split; [exact H|apply quad_sub]. Qed.
Lemma quad_queries x n : in_Rd 1 x -> queries 1 x (repeat quad n) (repeat x n) (repeat (val quad x) n).
Proof. intros H. induction n; simpl; constructor; [apply quad_query; exact H|assumption]. Qed.
Lemma vsum_zero n : vsum (repeat vzero n) = vzero.
Proof. induction n as [|n IH]; [reflexivity|]. cbn. change (fold_right vadd vzero ?l) with (vsum l). rewrite IH. apply functional_extensionality. intros k. unfold vadd, vzero. ring. Qed.
Lemma quad_optimal n : optimal 1 (repeat quad n) vzero (rsuml (repeat (val quad vzero) n)).
Proof.
  split; [apply in_Rd_zero|]. exists (repeat vzero n), (repeat (val quad vzero) n).
  split; [apply quad_queries, in_Rd_zero|]. split; [apply vsum_zero|reflexivity].
Qed.

Ltac rd := solve [repeat first [assumption | apply in_Rd_zero | apply pt_Rd | apply in_Rd_scal | apply opp_Rd | apply in_Rd_add | apply in_Rd_sub]].
Ltac veq := apply functional_extensionality; intros ?k; unfold vadd, vsub, vscal, vopp, vzero; try lra; try field.
Ltac real := rewrite ?RMicromega.Q2R_1; lra.
Ltac classq := repeat first [apply quad_class1 | apply quad_class0].
(** One step of a run; [v] is the value of free points. *)
Ltac runx v := cbv zeta; lazymatch goal with
  | |- exists phi, function_class _ _ _ phi /\ _ => exists quad; split; [classq|]
  | |- exists xs fs, in_Rd _ xs /\ query _ _ xs vzero fs /\ _ => exists vzero, (val quad vzero); split; [apply in_Rd_zero|split; [apply quad_query, in_Rd_zero|]]
  | |- exists xs fs, optimal _ ?l xs fs /\ _ => exists vzero; eexists; split; [exact (quad_optimal (List.length l))|]
  | |- exists x g z, proxed _ _ _ _ x g z /\ _ => eexists _, _, _; split; [apply quad_prox; [rd|real]|]
  | |- exists g z, query _ _ _ g z /\ _ => eexists _, _; split; [apply quad_query; rd|]
  | |- exists x, in_Rd _ x /\ _ => exists v; split; [rd|]
  | |- _ = _ /\ _ => split; [veq|]
  | |- _ = _ => reflexivity
  end.
Ltac runz := runx vzero.
Ltac run1 := runx (pt 1).
Ltac head_of g := lazymatch g with ?f _ => head_of f | ?f => f end.
Ltac enter := eexists; lazymatch goal with |- ?g => let h := head_of g in unfold h end.
Ltac runs := enter; repeat run1.

Lemma gradient_flow_case : exists q, gradient_flow_run 1 0 (Fin 1) 1 1 0 1 1 q. Proof. runs. Qed.
Lemma tuneC_case : exists q, gradient_flow_tuneC_run 1 0 (Fin 1) 1 1 1 0 1 1 q. Proof. runs. Qed.
Lemma accelerated_case : exists q, accelerated_gradient_run 1 0 (Fin 1) 1 1 1 1 1 1 0 1 1 1 q. Proof. runs. Qed.
Lemma ppm_case : exists q, ppm_run 1 0 (Fin 1) 1 1 1 0 1 1 1 q. Proof. runs. Qed.
Lemma prox_gradient_case : exists q, prox_gradient_run 1 0 (Fin 1) 1 1 1 1 1 q. Proof. runs. Qed.
Lemma douglas_rachford_case : exists q, douglas_rachford_run 1 0 (Fin 1) 1 1 1 1 1 1 1 1 q. Proof. runs. Qed.
Lemma davis_yin_case : exists q, davis_yin_run 1 0 (Fin 1) 1 1 1 1 1 1 1 1 q. Proof. runs. Qed.
Lemma admm_consensus_proof_case : exists q, admm_consensus_proof_run 1 0 (Fin 1) 1 1 1 q. Proof. runs. Qed.
Lemma dgd_line3_case : exists q, dgd_line3_run 1 0 (Fin 1) 1 1 1 1 1 q. Proof. enter. do 9 runz. repeat run1. Qed.
Lemma diffusion_line3_case : exists q, diffusion_line3_run 1 0 (Fin 1) 1 1 1 1 1 q. Proof. enter. do 12 runz. repeat run1. Qed.
Lemma pg_extra_l3_case : exists q, pg_extra_l3_run 1 0 (Fin 1) (Fin 1) 1 (fun _ _ => 1) 1 1 1 1 q. Proof. runs. Qed.
Lemma dadmm_l3_case : exists q, dadmm_l3_run 1 0 (Fin 1) 1 1 1 1 1 1 1 1 q. Proof. enter. do 11 runz. repeat run1. Qed.
Lemma dadmm_cycle4_case : exists q, dadmm_cycle4_run 1 0 (Fin 1) 1 1 1 1 1 1 q. Proof. enter. do 12 runz. repeat run1. Qed.
Lemma dadmm_graph6_case : exists q, dadmm_graph6_run 1 0 (Fin 1) 1 1 1 1 1 1 q. Proof. enter. do 17 runz. repeat run1. Qed.
Lemma dadmm_C_graph6_case : exists q, dadmm_C_graph6_run 1 0 0 (Fin 1) (Fin 1) 1 1 1 1 1 1 1 q. Proof. enter. do 17 runz. repeat run1. Qed.
Lemma example_fC3RC_case : exists q, example_fC3RC_run 1 0 (Fin 1) 1 1 1 0 1 1 1 q. Proof. runs. Qed.
Lemma readme_case : exists q, readme_run 1 0 (Fin 1) 1 1 1 1 q. Proof. runs. Qed.

(** ** with several functions *)
Local Open Scope vec_scope.
Definition quads : list rfun := [quad; quad].
Lemma quads_class : Forall (function_class 1 0 (Fin 1)) quads.
Proof. repeat apply Forall_cons; try apply Forall_nil; exact quad_class1. Qed.
Lemma pm_balanced : balanced 1 2 [pt 1; pt (-1)].
Proof.
  split; [reflexivity|]. split; [repeat apply Forall_cons; try apply Forall_nil; apply pt_Rd|].
  apply functional_extensionality. intros [|k]; unfold vsum, vadd, vzero, pt; simpl; lra.
Qed.
Lemma zero_balanced : balanced 1 2 [vzero; vzero].
Proof.
  split; [reflexivity|]. split; [repeat apply Forall_cons; try apply Forall_nil; apply in_Rd_zero|].
  apply functional_extensionality. intros k; unfold vsum, vadd, vzero; simpl; lra.
Qed.
Ltac listq := repeat first [apply conjs_nil | apply proxes_nil | apply queries_nil
  | apply conjs_cons; [apply quad_conj; rd|] | apply proxes_cons; [apply quad_prox; [rd|lra]|] | apply queries_cons; [apply quad_query; rd|]].
Lemma dual_case : exists i1 i15 i2 q, dual_decomposition_step 1 2 0 (Fin 1) 1 1 1 (1 / 2) 1 i1 i15 i2 q /\ i1 = [pt 1; pt (-1)].
Proof.
  exists [pt 1; pt (-1)]. eexists _, _, _. split; [|reflexivity]. exists quads. split; [reflexivity|]. split; [exact quads_class|].
  exists vzero. eexists. split; [exact (quad_optimal 2)|]. eexists _, _. split; [exact (quad_queries vzero 2 (in_Rd_zero 1))|].
  split; [exact pm_balanced|]. exists [pt 1; pt (-1)]. split; [unfold quads; listq|]. split; [reflexivity|].
  eexists. split; [unfold quads; cbn [map2]; listq; cbn; rd|]. split; [reflexivity|]. reflexivity.
Qed.
Lemma primal_case : exists q, primal_decomposition_run 1 2 0 (Fin 1) 1 (1 / 4) 0 1 1 q.
Proof.
  eexists. exists quads. split; [reflexivity|]. split; [exact quads_class|]. exists vzero. eexists. split; [exact (quad_optimal 2)|].
  exists (pt 1). split; [apply pt_Rd|]. eexists _, _. split; [exact (quad_queries (pt 1) 2 (pt_Rd 1))|]. cbv zeta.
  eexists _, _. split; [refine (quad_queries _ 2 _); apply in_Rd_sub; [apply pt_Rd|apply in_Rd_scal; cbn; rd]|]. reflexivity.
Qed.
(** Here the middle-stage currents add up to 1. *)
Lemma admm_unbalanced : exists i1 i15 i2 q,
  admm_consensus_step 1 2 0 (Fin 1) 1 1 1 1 (1 / 2) 1 1 1 i1 i15 i2 q /\ vsum i15 0%nat = 1.
Proof.
  exists [vzero; vzero]. eexists _, _, _. split.
  - exists quads. split; [reflexivity|]. split; [exact quads_class|].
    exists vzero. eexists. split; [exact (quad_optimal 2)|]. eexists _, _. split; [exact (quad_queries vzero 2 (in_Rd_zero 1))|].
    split; [exact (vsum_zero 2)|]. exists (pt 1). split; [apply pt_Rd|]. split; [exact zero_balanced|]. cbv zeta.
    eexists _, _, _. split; [unfold quads; cbn [map]; listq|]. split; [reflexivity|]. cbn [map map2].
    eexists _, _, _. split; [unfold quads; listq; cbn; rd|]. split; [reflexivity|]. reflexivity.
  - unfold vsum, vadd, vscal, vsub, vzero, pt. cbn. field.
Qed.
Lemma euler_case : exists i1 i2 q, admm_euler_step 1 2 0 (Fin 1) 1 1 1 1 1 i1 i2 q /\ i1 = [pt 1; pt (-1)].
Proof.
  exists [pt 1; pt (-1)]. eexists _, _. split; [|reflexivity]. exists quads. split; [reflexivity|]. split; [exact quads_class|].
  exists vzero. eexists. split; [exact (quad_optimal 2)|]. eexists _, _. split; [exact (quad_queries vzero 2 (in_Rd_zero 1))|].
  split; [exact (vsum_zero 2)|]. exists vzero. split; [apply in_Rd_zero|]. split; [exact pm_balanced|]. cbv zeta.
  eexists _, _, _. split; [unfold quads; cbn [map]; listq|]. split; [reflexivity|]. split; [|reflexivity].
  apply functional_extensionality. intros [|k]; unfold vsum, vadd, vscal, vzero, pt; cbn; field.
Qed.

(** Gradient descent with step 1/2: 1, 1/2, 1/4, ... *)
Definition halves (k : nat) : vec := pt (/ 2 ^ k).
Lemma gradient_flow_trajectory_case :
  gradient_flow_trajectory 1 0 (Fin 1) 1 (1 / 2) 0 1 quad vzero (val quad vzero) halves halves (fun k => val quad (halves k)).
Proof.
  split; [exact quad_class1|]. split; [apply in_Rd_zero|]. split; [apply quad_query, in_Rd_zero|]. split; [apply pt_Rd|].
  intros k. split; [apply quad_query, pt_Rd|]. eexists _, _. split; [apply quad_query; unfold halves; rd|].
  apply functional_extensionality. intros [|j]; unfold halves, pt, vsub, vscal; cbn [Nat.eqb]; [|field].
  cbn [pow]. rewrite Rinv_mult. field. apply pow_nonzero. lra.
Qed.
Lemma primal_trajectory_case : exists y,
  primal_trajectory 1 2 0 (Fin 1) 1 (1 / 4) 0 1 quads vzero (rsuml (repeat (val quad vzero) 2)) halves y.
Proof.
  exists (fun k => [halves k; halves k]). split; [reflexivity|]. split; [exact quads_class|]. split; [exact (quad_optimal 2)|]. split; [apply pt_Rd|].
  intros k. eexists. split; [exact (quad_queries (halves k) 2 (pt_Rd _))|]. eexists _, _.
  split; [refine (quad_queries _ 2 _); unfold halves; apply in_Rd_sub; [apply pt_Rd|apply in_Rd_scal; cbn; rd]|].
  apply functional_extensionality. intros [|j]; unfold halves, pt, vsum, vsub, vadd, vscal, vzero; cbn [Nat.eqb fold_right]; [|field].
  cbn [pow]. rewrite Rinv_mult. field. apply pow_nonzero. lra.
Qed.
Fixpoint readme_states (k : nat) : vec * vec :=
  match k with
  | O => (pt 1, pt 1)
  | S k' => let (z, w) := readme_states k' in
      let y := 2 *' (z -' / (1 + 1 / 2) *' z) in
      (z -' (1 / 8) *' (5 *' y +' 3 *' w), w -' (1 / 4) *' (y +' 3 *' w))
  end.
Lemma readme_trajectory_case : let z k := fst (readme_states k) in let w k := snd (readme_states k) in
  let x k := / (1 + 1 / 2) *' z k in
  readme_trajectory 1 0 (Fin 1) 1 1 (1 / 2) quad vzero (val quad vzero) z w x (fun k => (2 / 1) *' (z k -' x k)).
Proof.
  intros z w x. assert (H : forall k, in_Rd 1 (z k) /\ in_Rd 1 (w k)).
  { induction k as [|k [IH1 IH2]]; [split; apply pt_Rd|]. unfold z, w in *. cbn. destruct (readme_states k) as [a b]. cbn in *. split; rd. }
  split; [exact quad_class1|]. split; [apply in_Rd_zero|]. split; [apply quad_query, in_Rd_zero|].
  split; [apply pt_Rd|]. split; [apply pt_Rd|]. intros k. destruct (H k) as [Hz Hw]. split; [|split; [reflexivity|]].
  - eexists _, _. apply quad_prox; [exact Hz|lra].
  - unfold x, z, w. cbn [readme_states]. destruct (readme_states k) as [a b]. cbn [fst snd].
    split; apply functional_extensionality; intros j; unfold vsub, vadd, vscal; field.
Qed.
