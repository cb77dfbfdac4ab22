(** Proofs about the two modes of the builders. *)
From Coq Require Import List Arith Bool String QArith Reals Qreals Lia Lra FunctionalExtensionality Classical_Prop Classical_Pred_Type.
From Verif Require Import Prelude PreludeFacts Sympy SympyFacts AlgebraModel Denote AlgebraFacts FunctionModel CircuitModel
  Spec SpecFacts ClassSpec CertSpec StateSpec StateFacts CertFacts SymSpec ParsingModel SolverModel SolverSpec SdpModel SdpSpec ExtraSpec
  BuilderModel BuilderSpec BuildsSpec BuilderRun BuilderProof BuilderListProof BuilderUse DualitySpec DualityProps VerifySpec.
Import ListNotations.
Local Open Scope R_scope.

(** * Scaling: the values of the metric form a cone *)
Definition scale_val (t : R) (v : valuation) : valuation :=
  mkVal (v_dim v) (fun l => vscal t (v_pt v l)) (fun l => t * t * v_fv v l) (v_env v).
Definition scale_fun (t : R) (phi : rfun) : rfun :=
  mkFun (fun x => dom phi (vscal (/ t) x)) (fun x => t * t * val phi (vscal (/ t) x)).

Lemma lsum_cons' {A} (f : A -> R) a l : lsum f (a :: l) = f a + lsum f l.
Proof. reflexivity. Qed.
Lemma dot_scal2 d t x y : dot d (vscal t x) (vscal t y) = t * t * dot d x y.
Proof. unfold dot, vscal. rewrite <- rsum_scal. apply rsum_ext. intros; ring. Qed.
Lemma scale_p t v p : den_p (scale_val t v) p = vscal t (den_p v p).
Proof.
  apply functional_extensionality. intros k. unfold den_p, den_pd, vscal. simpl. induction (pt_dict p) as [|kv l IH]; simpl; [ring|].
  rewrite IH. unfold vscal. ring.
Qed.
Lemma scale_e t v e : no_const e -> den_e (scale_val t v) e = t * t * den_e v e.
Proof.
  unfold no_const, den_e, den_ed. induction (ex_dict e) as [|[k w] l IH]; intros H; [unfold lsum; simpl; ring|]. rewrite !lsum_cons'.
  rewrite IH by (intros w' r' H'; apply H; right; exact H'). destruct k as [f|x y|]; simpl.
  - ring.
  - rewrite dot_scal2. ring.
  - rewrite (H w (v_env v)) by (left; reflexivity). ring.
Qed.

Lemma unscale t (x : vec) : t <> 0 -> vscal (/ t) (vscal t x) = x.
Proof. intros H. apply functional_extensionality. intros k. unfold vscal. field. exact H. Qed.
Lemma scale_segment t a x y : vscal (/ t) (segment a x y) = segment a (vscal (/ t) x) (vscal (/ t) y).
Proof. apply functional_extensionality. intros k. unfold segment, vadd, vscal. ring. Qed.
Lemma scale_nsq d t x y : t <> 0 -> t * t * nsq d (vsub (vscal (/ t) x) (vscal (/ t) y)) = nsq d (vsub x y).
Proof.
  intros H. replace (vsub (vscal (/ t) x) (vscal (/ t) y)) with (vscal (/ t) (vsub x y)).
  - unfold nsq. rewrite dot_scal2. field. exact H.
  - apply functional_extensionality. intros k. unfold vsub, vscal. ring.
Qed.
Lemma scale_strongly d t mu phi : 0 < t -> strongly_convex d mu phi -> strongly_convex d mu (scale_fun t phi).
Proof.
  intros Ht H x y a Hx Hy Ha. simpl in *. destruct (H _ _ a Hx Hy Ha) as [H1 H2]. rewrite scale_segment. split; [exact H1|].
  rewrite <- (scale_nsq d t x y) by lra. assert (0 < t * t) by nra.
  apply (Rmult_le_compat_l (t * t)) in H2; [|lra]. eapply Rle_trans; [exact H2|]. apply Req_le. ring.
Qed.
Lemma scale_convex t phi : 0 < t -> convex phi -> convex (scale_fun t phi).
Proof.
  intros Ht H x y a Hx Hy Ha. simpl in *. destruct (H _ _ a Hx Hy Ha) as [H1 H2]. rewrite scale_segment. split; [exact H1|].
  assert (0 < t * t) by nra. apply (Rmult_le_compat_l (t * t)) in H2; [|lra]. eapply Rle_trans; [exact H2|]. apply Req_le. ring.
Qed.
Lemma scale_smooth d t L phi : 0 < t -> smooth d L phi -> smooth d L (scale_fun t phi).
Proof.
  intros Ht (D & grad & H1 & H2). split; [intros x; apply D|]. exists (fun x => vscal t (grad (vscal (/ t) x))). split.
  - intros x u. simpl.
    replace (dot d (vscal t (grad (vscal (/ t) x))) u) with (t * t * dot d (grad (vscal (/ t) x)) (vscal (/ t) u)).
    + apply derivable_pt_lim_ext with (f := mult_real_fct (t * t) (fun a => val phi (vadd (vscal (/ t) x) (vscal a (vscal (/ t) u))))).
      * intros a. unfold mult_real_fct. do 2 f_equal. apply functional_extensionality. intros k. unfold vadd, vscal. ring.
      * apply derivable_pt_lim_scal. apply H1.
    + unfold dot, vscal. rewrite <- rsum_scal. apply rsum_ext. intros k _. field. lra.
  - intros x y. specialize (H2 (vscal (/ t) x) (vscal (/ t) y)). assert (0 < t * t) by nra.
    replace (vsub (vscal t (grad (vscal (/ t) x))) (vscal t (grad (vscal (/ t) y)))) with
      (vscal t (vsub (grad (vscal (/ t) x)) (grad (vscal (/ t) y)))) by (apply functional_extensionality; intros k; unfold vsub, vscal; ring).
    unfold nsq at 1. rewrite dot_scal2. rewrite <- (scale_nsq d t x y) by lra. unfold nsq in *.
    apply (Rmult_le_compat_l (t * t)) in H2; [|lra]. eapply Rle_trans; [exact H2|]. apply Req_le. ring.
Qed.
Lemma scale_class d t c phi : 0 < t -> in_class d c phi -> in_class d c (scale_fun t phi).
Proof.
  intros Ht. destruct c; simpl; auto using scale_convex, scale_strongly.
  intros [H1 H2]. auto using scale_strongly, scale_smooth.
Qed.
Lemma scale_sampled d t phi x g z : 0 < t -> sampled d phi x g z -> sampled d (scale_fun t phi) (vscal t x) (vscal t g) (t * t * z).
Proof.
  intros Ht [[H1 H2] H3]. split; [split|]; simpl; rewrite ?unscale by lra; [exact H1| |rewrite H3; reflexivity].
  intros y Hy. simpl in Hy. rewrite ?unscale by lra. specialize (H2 _ Hy). assert (0 < t * t) by nra.
  replace (dot d (vscal t g) (vsub y (vscal t x))) with (t * t * dot d g (vsub (vscal (/ t) y) x)).
  - rewrite <- Rmult_plus_distr_l. apply Rmult_ge_compat_l; lra.
  - unfold dot, vscal, vsub. rewrite <- rsum_scal. apply rsum_ext. intros k _. field. lra.
Qed.

Lemma metric_scale s p d r q t : well_posed s p -> 0 < t -> metric_value s p d r q -> metric_value s p d r (t * t * q).
Proof.
  intros [W1 W2 W3 W4 (C1 & C2 & C3) W6] Ht (v & phi & Hd & Hr & Hx & Hc & Hh & m & Hm & Hq).
  exists (scale_val t v), (fun f => scale_fun t (phi f)). split; [exact Hd|]. split; [exact Hr|].
  split; [intros l; apply BuilderLogic.in_Rd_scal, Hx|]. split; [|split].
  - intros f fn Hf Hg Hl. destruct (Hc f fn Hf Hg Hl) as (A & B & D). split; [exact A|]. split; [apply scale_class; assumption|].
    rewrite Forall_forall in *. intros tr Htr. unfold rec_sampled. rewrite !scale_p, scale_e; [|specialize (C3 f fn Hf Hg Hl); rewrite Forall_forall in C3; apply C3, Htr].
    apply scale_sampled; [exact Ht|]. exact (D tr Htr).
  - intros c Hcn. specialize (Hh c Hcn). rewrite Forall_forall in C2. rewrite scale_e by (apply C2, Hcn). assert (0 < t * t) by nra.
    destruct (c_kind c); [rewrite Hh; ring|nra].
  - exists m. split; [exact Hm|]. rewrite scale_e by (apply C1, Hm). rewrite Hq. reflexivity.
Qed.

(** the run in which nothing moves: dimension 0 *)
Lemma metric_zero s p d r q : well_posed s p -> metric_value s p d r q -> metric_value s p 0 r 0.
Proof.
  intros [W1 W2 W3 W4 (C1 & C2 & C3) W6] (v & phi & Hd & Hr & Hx & Hc & Hh & m & Hm & Hq).
  set (v' := mkVal 0 (fun _ => vzero) (fun _ => 0) r).
  assert (Z : forall e, no_const e -> den_e v' e = 0).
  { intros e. unfold no_const, den_e, den_ed. induction (ex_dict e) as [|[k w] l IH]; intros H; [reflexivity|]. rewrite lsum_cons'.
    rewrite IH by (intros w' r' H'; apply H; right; exact H'). destruct k as [f|x y|]; simpl; [ring|unfold dot; simpl; ring|].
    rewrite (H w r) by (left; reflexivity). ring. }
  assert (N : forall x, nsq 0 x = 0) by reflexivity. assert (D0 : forall x y, dot 0 x y = 0) by reflexivity.
  exists v', (fun _ => mkFun (fun _ => True) (fun _ => 0)). split; [reflexivity|]. split; [reflexivity|]. split; [intros l k _; reflexivity|]. split; [|split].
  - intros f fn Hf Hg Hl. destruct (Hc f fn Hf Hg Hl) as (A & B & D). split; [exact A|]. split.
    + assert (S0 : forall mu, strongly_convex 0 mu (mkFun (fun _ => True) (fun _ => 0))).
      { intros mu x y a _ _ _. simpl. rewrite N. split; [exact I|lra]. }
      simpl. destruct (fn_class fn); simpl in *; [exact B| | |].
      * intros x y a _ _ _. simpl. split; [exact I|lra].
      * split; [apply S0|]. split; [intros; exact I|]. exists (fun _ => vzero). split.
        -- intros x u. rewrite D0. simpl. apply derivable_pt_lim_const.
        -- intros x y. rewrite !N. lra.
      * apply S0.
    + apply Forall_forall. intros tr Htr. unfold rec_sampled. specialize (C3 f fn Hf Hg Hl). rewrite Forall_forall in C3. rewrite (Z _ (C3 tr Htr)).
      split; [|reflexivity]. split; [exact I|]. intros y _. simpl. rewrite D0. lra.
  - intros c Hcn. rewrite Forall_forall in C2. rewrite (Z _ (C2 c Hcn)). destruct (c_kind c); [reflexivity|lra].
  - exists m. split; [exact Hm|]. apply Z, C1, Hm.
Qed.

Lemma worst_zero s p tau : well_posed s p -> worst_case s p tau -> tau = 0.
Proof.
  intros W [U L].
  assert (NE : exists d r q, metric_value s p d r q).
  { apply NNPP. intros N. assert (tau <= tau - 1); [|lra]. apply L. intros q (d & r & H). exfalso. apply N. eauto. }
  destruct NE as (d & r & q & H). assert (T0 : 0 <= tau) by (apply U; exists 0%nat, r; exact (metric_zero s p d r q W H)).
  destruct (Rle_lt_dec tau 0) as [|Tp]; [lra|]. exfalso.
  assert (E : exists q0, tau / 2 < q0 /\ exists d r, metric_value s p d r q0).
  { apply NNPP. intros N. assert (tau <= tau / 2); [|lra]. apply L. intros q0 Hq0. apply Rnot_lt_le. intros K. apply N. eauto. }
  destruct E as (q0 & Hq0 & d0 & r0 & H0). assert (2 * 2 * q0 <= tau); [|lra].
  apply U. exists d0, r0. apply metric_scale; [exact W|lra|exact H0].
Qed.
Lemma worst_iff s p : well_posed s p -> (exists d r q, metric_value s p d r q) ->
  worst_case s p 0 <-> (forall d r q, metric_value s p d r q -> q <= 0).
Proof.
  intros W (d & r & q & H). split.
  - intros [U _] d0 r0 q0 H0. apply U. eauto.
  - intros A. split; [intros q0 (d0 & r0 & H0); exact (A d0 r0 q0 H0)|]. intros b Hb. apply Hb. exists 0%nat, r. exact (metric_zero s p d r q W H).
Qed.
Lemma unbounded s p d r q : well_posed s p -> metric_value s p d r q -> 0 < q -> forall B, exists q', B < q' /\ metric_value s p d r q'.
Proof.
  intros W H Hq B. destruct (Rle_lt_dec B 0) as [HB|HB].
  - exists q. split; [lra|exact H].
  - set (t := 1 + B / q). assert (0 < B / q) by (apply Rdiv_lt_0_compat; assumption). assert (Ht : 1 < t) by (unfold t; lra).
    exists (t * t * q). split; [|apply metric_scale; [exact W|lra|exact H]].
    assert (E : B = B / q * q) by (field; lra). assert (B / q < t * t) by (unfold t; nra). rewrite E. apply Rmult_lt_compat_r; assumption.
Qed.

(** * Every method has a run: nothing moves, in dimension 0 *)
Definition phi0 : rfun := mkFun (fun _ => True) (fun _ => 0).
Lemma phi0_class mu L : function_class 0 mu L phi0.
Proof.
  split; [intros x y a _ _ _; split; [exact I|]; unfold nsq, dot; simpl; lra|]. destruct L as [l|]; [|exact I].
  split; [intros; exact I|]. exists (fun _ => vzero). split; [|intros; unfold nsq, dot; simpl; lra].
  intros x u. unfold dot. simpl. apply derivable_pt_lim_const.
Qed.
Lemma phi0_sub x g : subgradient 0 phi0 x g.
Proof. split; [exact I|]. intros y _. unfold dot. simpl. lra. Qed.
Lemma phi0_query x : query 0 phi0 x vzero 0.
Proof. split; [apply BuilderLogic.in_Rd_zero|]. split; [apply phi0_sub|reflexivity]. Qed.
Lemma phi0_prox c a : proxed 0 phi0 c a (vsub a (vscal c vzero)) vzero 0.
Proof. split; [reflexivity|apply phi0_query]. Qed.
Lemma phi0_queries x n : queries 0 x (repeat phi0 n) (repeat vzero n) (repeat 0 n).
Proof. induction n as [|n IH]; simpl; constructor; [apply phi0_query|exact IH]. Qed.
Lemma phi0_proxes c l : proxes 0 c (repeat phi0 (List.length l)) l (map (fun a => vsub a (vscal c vzero)) l) (repeat vzero (List.length l)) (repeat 0 (List.length l)).
Proof. induction l as [|a l IH]; simpl; constructor; [apply phi0_prox|exact IH]. Qed.
Lemma phi0_conjs l : conjs 0 (repeat phi0 (List.length l)) l (repeat vzero (List.length l)).
Proof. induction l as [|a l IH]; simpl; constructor; [split; [apply BuilderLogic.in_Rd_zero|apply phi0_sub]|exact IH]. Qed.
Lemma vsum_zero n : vsum (repeat vzero n) = vzero.
Proof. induction n as [|n IH]; [reflexivity|]. simpl. rewrite IH. apply functional_extensionality. intros k. unfold vadd, vzero. ring. Qed.
Lemma phi0_optimal n : optimal 0 (repeat phi0 n) vzero (rsuml (repeat 0 n)).
Proof. split; [apply BuilderLogic.in_Rd_zero|]. exists (repeat vzero n), (repeat 0 n). split; [apply phi0_queries|]. split; [apply vsum_zero|reflexivity]. Qed.
Lemma zero_balanced n : balanced 0 n (repeat vzero n).
Proof. split; [apply repeat_length|]. split; [|apply vsum_zero]. apply Forall_forall. intros x Hx. apply repeat_spec in Hx. subst x. apply BuilderLogic.in_Rd_zero. Qed.
Lemma phi0_classes n mu L : Forall (function_class 0 mu L) (repeat phi0 n).
Proof. apply Forall_forall. intros x Hx. apply repeat_spec in Hx. subst x. apply phi0_class. Qed.

Ltac zleaf := first
  [ simple apply phi0_class | simple apply phi0_query | simple apply phi0_prox
  | exact (phi0_optimal 1) | exact (phi0_optimal 2) | exact (phi0_optimal 3) | exact (phi0_optimal 4) | exact (phi0_optimal 5) | exact (phi0_optimal 6)
  | simple apply BuilderLogic.in_Rd_zero
  | reflexivity
  | apply functional_extensionality; intros ?; unfold vadd, vsub, vscal, vopp, vzero; simpl; ring
  | intros ?; intros; reflexivity ].
Ltac zrun := cbv zeta; lazymatch goal with
  | |- exists _, _ => eexists; zrun
  | |- _ /\ _ => split; [zleaf | zrun]
  | |- _ => zleaf
  end.
Lemma map2_len {A B X} (f : A -> B -> X) l m : List.length l = List.length m -> List.length (map2 f l m) = List.length l.
Proof. revert m. induction l as [|a l IH]; intros [|b m] H; simpl in *; try congruence. rewrite IH; congruence. Qed.
Lemma builder_has_run SY k names P A : builder SY k names P A -> forall r, exists d q, A d r q.
Proof.
  intros H r. exists 0%nat. destruct H.
  all: try (unfold gradient_flow_run, gradient_flow_tuneC_run, accelerated_gradient_run, ppm_run, prox_gradient_run, douglas_rachford_run, davis_yin_run,
    admm_consensus_proof_run, dgd_line3_run, diffusion_line3_run, pg_extra_l3_run, dadmm_l3_run, dadmm_cycle4_run, dadmm_graph6_run, dadmm_C_graph6_run, example_fC3RC_run; zrun).
  all: eexists; exists (repeat phi0 n); (split; [apply repeat_length|]); (split; [apply phi0_classes|]); exists vzero, (rsuml (repeat 0 n)); (split; [apply phi0_optimal|]).
  - exists vzero. split; [apply BuilderLogic.in_Rd_zero|]. exists (repeat vzero n), (repeat 0 n). split; [apply phi0_queries|].
    cbv zeta. exists (repeat vzero n), (repeat 0 n). split; [apply phi0_queries|]. reflexivity.
  - exists (repeat vzero n), (repeat 0 n). split; [apply phi0_queries|]. exists (repeat vzero n). split; [apply zero_balanced|].
    exists (repeat vzero n). split; [assert (Hc := phi0_conjs (repeat vzero n)); rewrite repeat_length in Hc; exact Hc|]. cbv zeta.
    exists (repeat vzero n). split; [|reflexivity].
    match goal with |- conjs 0 _ ?l _ => assert (Hc := phi0_conjs l); rewrite map2_len, repeat_length in Hc by reflexivity; exact Hc end.
  - exists (repeat vzero n), (repeat 0 n). split; [apply phi0_queries|]. split; [apply vsum_zero|]. exists vzero. split; [apply BuilderLogic.in_Rd_zero|].
    exists (repeat vzero n). split; [apply zero_balanced|]. cbv zeta.
    match goal with |- exists x g f, proxes 0 ?c _ ?l x g f /\ _ => exists (map (fun a => vsub a (vscal c vzero)) l), (repeat vzero n), (repeat 0 n); split;
      [assert (Hc := phi0_proxes c l); rewrite map_length, repeat_length in Hc; exact Hc|] end.
    match goal with |- exists x g f, proxes 0 ?c _ ?l x g f /\ _ => exists (map (fun a => vsub a (vscal c vzero)) l), (repeat vzero n), (repeat 0 n); split;
      [assert (Hc := phi0_proxes c l); rewrite map_length, map2_len, repeat_length in Hc by (rewrite !map_length; reflexivity); exact Hc|reflexivity] end.
  - exists (repeat vzero n), (repeat 0 n). split; [apply phi0_queries|]. split; [apply vsum_zero|]. exists vzero. split; [apply BuilderLogic.in_Rd_zero|].
    exists (repeat vzero n). split; [apply zero_balanced|]. cbv zeta.
    match goal with |- exists x g f, proxes 0 ?c _ ?l x g f /\ _ => exists (map (fun a => vsub a (vscal c vzero)) l), (repeat vzero n), (repeat 0 n); split;
      [assert (Hc := phi0_proxes c l); rewrite map_length, repeat_length in Hc; exact Hc|] end.
    split; [|reflexivity].
    assert (E : forall m, vsum (map (fun a => vsub a (vscal (Q2R Rs) vzero)) (map (fun i => vadd (vscal (Q2R Rs) i) vzero) (repeat vzero m))) = vzero).
    { induction m as [|m IH]; [reflexivity|]. simpl. rewrite IH. apply functional_extensionality. intros k. unfold vadd, vsub, vscal, vzero. ring. }
    rewrite E. apply functional_extensionality. intros k. unfold vscal, vzero. ring.
Qed.

(** * The two modes *)
Section Modes.
  Context {SY : sympy} (OK : sympy_ok SY).
  Lemma builder_builds k names P A : builder SY k names P A -> forall params s0, has_keys params names -> Inv s0 ->
    builds (k params) s0 P (fun d r q => A d (value params r) q).
  Proof using OK.
    intros H params s0 HK HI. destruct H.
    - exact (gradient_flow_builds OK params s0 mu L C HK H H0 HI).
    - exact (tuneC_builds OK params s0 mu L HK H HI).
    - exact (accelerated_builds OK params s0 mu L Rs C Ind HK H H0 H1 HI).
    - exact (tuneRLC_builds OK params s0 mu L HK H HI).
    - exact (ppm_builds OK params s0 mu L C Rs HK H H0 H1 HI).
    - exact (prox_gradient_builds OK params s0 mu L Rs C HK H H0 H1 HI).
    - exact (douglas_rachford_builds OK params s0 mu L Rs Ind HK H H0 HI).
    - exact (davis_yin_builds OK params s0 mu L Rs Ind HK H H0 H1 HI).
    - exact (admm_consensus_proof_builds OK params s0 mu L Rs HK H H0 HI).
    - exact (dgd_line3_builds OK params s0 mu L Rs C HK H H0 H1 HI).
    - exact (diffusion_line3_builds OK params s0 mu L Rs C HK H H0 H1 HI).
    - exact (pg_extra_l3_builds OK params s0 mu Lh Lf Rs W HK H H0 H1 H2 H3 HI).
    - exact (dadmm_l3_builds OK params s0 mu L Rs Ind HK H H0 H1 HI).
    - exact (dadmm_cycle4_builds OK params s0 mu L Rs Ind HK H H0 H1 HI).
    - exact (dadmm_graph6_builds OK params s0 mu L Rs Ind HK H H0 H1 HI).
    - exact (dadmm_C_graph6_builds OK params s0 mu0 mu1 L0 L1 Rs C Ind HK H H0 H1 H2 H3 HI).
    - exact (example_fC3RC_builds OK params s0 mu L C Rs HK H H0 H1 HI).
    - exact (primal_decomposition_builds OK params s0 n mu L C HK H H0 H1 HI).
    - exact (dual_decomposition_builds OK params s0 n mu L Ind HK H H0 H1 HI).
    - exact (admm_consensus_builds OK params s0 n mu L Rs Ind HK H H0 H1 HI).
    - exact (admm_euler_builds OK params s0 n mu L Rs Ind HK H H0 H1 HI).
  Qed.
  Lemma builder_nodup k names P A : builder SY k names P A -> NoDup P.
  Proof using Type. intros H. destruct H; repeat constructor; intros K; vm_compute in K; intuition discriminate. Qed.
  Lemma builder_incl k names P A : builder SY k names P A -> incl names P.
  Proof using Type. intros H. destruct H; intros x K; vm_compute in K; vm_compute; tauto. Qed.
  Lemma start_missing ps names x s : In x names -> dget String.eqb x ps = None -> fst (start (Some ps) names s) = Err KeyError.
  Proof using Type.
    intros Hx Hn. change (start (Some ps) names s) with ((if forallb (fun x => match dget String.eqb x ps with Some _ => true | None => false end) names
      then ret pb0 else lift (Err KeyError)) (reset_state s)).
    replace (forallb _ names) with false; [reflexivity|]. symmetry. apply not_true_is_false. intros T. rewrite forallb_forall in T. specialize (T x Hx). rewrite Hn in T. discriminate T.
  Qed.
  Lemma bind_err {A B} (m : M A) (f : A -> M B) s e : fst (m s) = Err e -> fst (bind m f s) = Err e.
  Proof using Type. unfold bind. destruct (m s) as [[a|e'] s']; simpl; congruence. Qed.
  Lemma builder_missing k names P A : builder SY k names P A -> forall ps x s0, In x names -> dget String.eqb x ps = None -> fst (k (Some ps) s0) = Err KeyError.
  Proof using Type. intros H ps x s0 Hx Hn. destruct H; apply bind_err, (start_missing ps _ x s0 Hx Hn). Qed.
End Modes.

(** * What verification mode computes *)
Section Verify.
  Context {SY : sympy} (OK : sympy_ok SY).
  Variables (k : option (list (string * Q)) -> M problem) (names P : list string) (A : nat -> env -> R -> Prop).
  Hypothesis HB : builder SY k names P A.
  Lemma builder_recips : recips_declared P.
  Proof using HB. destruct HB; intros x K; vm_compute in K; try (destruct K); intuition (subst; vm_compute; tauto). Qed.
  Lemma builder_three : forall x, In x ["eta"; "h"; "rho"]%string -> In x P.
  Proof using HB. destruct HB; intros x K; vm_compute in K; vm_compute; tauto. Qed.

  Variables (ps : list (string * Q)) (s1 : state).
  Hypothesis HK : has_keys (Some ps) names.
  Hypothesis I1 : Inv s1.

  Lemma verify_built : exists p' s', k (Some ps) s1 = (Ok p', s') /\ well_posed s' p' /\
    (forall d r q, metric_value s' p' d r q <-> A d (dict_env ps) q).
  Proof using OK HB HK I1.
    destruct (builder_builds OK k names P A HB (Some ps) s1 HK I1) as (p' & s' & E & W & _ & V). exists p', s'. auto.
  Qed.
  Lemma verify_nonpos p' s' : k (Some ps) s1 = (Ok p', s') ->
    (worst_case s' p' 0 <-> forall d q, A d (dict_env ps) q -> q <= 0).
  Proof using OK HB HK I1.
    intros E. destruct verify_built as (p2 & s2 & E2 & W & V). rewrite E in E2. injection E2 as <- <-.
    destruct (builder_has_run SY k names P A HB (dict_env ps)) as (d0 & q0 & H0).
    rewrite worst_iff; [|exact W|exists d0, (fun _ => 0), q0; apply V, H0].
    split; [intros H d q Hq; apply (H d (fun _ => 0)), V, Hq|intros H d r q Hq; apply (H d), (V d r q), Hq].
  Qed.
  Lemma verify_dichotomy p' s' : k (Some ps) s1 = (Ok p', s') ->
    (forall tau, worst_case s' p' tau -> tau = 0) /\
    (worst_case s' p' 0 \/ exists d r, forall B, exists q, B < q /\ metric_value s' p' d r q).
  Proof using OK HB HK I1.
    intros E. destruct verify_built as (p2 & s2 & E2 & W & V). rewrite E in E2. injection E2 as <- <-.
    split; [intros tau; apply worst_zero, W|].
    destruct (classic (forall d q, A d (dict_env ps) q -> q <= 0)) as [H|H]; [left; apply (verify_nonpos p' s' E); exact H|right].
    apply not_all_ex_not in H as (d & H). apply not_all_ex_not in H as (q & H). apply imply_to_and in H as (H1 & H2). apply Rnot_le_lt in H2.
    exists d, (fun _ => 0). apply (unbounded s' p' d (fun _ => 0) q W); [apply V, H1|exact H2].
  Qed.
End Verify.
