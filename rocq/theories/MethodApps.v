From Coq Require Import List Arith Bool Reals Lia Lra Psatz FunctionalExtensionality.
From Verif Require Import Prelude PreludeFacts Spec SpecFacts BuilderSpec MethodModel MethodSpec MethodRunSpec ProxSpec
  GraphFacts ProxFacts DadmmFacts DadmmConv PgFacts DadmmLimit FormFacts PgConv MetropolisFacts ProxForms MethodRuns.
Import ListNotations.
Local Open Scope R_scope.

(** convexity of the functions in opt_problems *)
Lemma segment_sub t x y b : vsub (segment t x y) b = segment t (vsub x b) (vsub y b).
Proof. apply functional_extensionality. intros k. unfold segment, vsub, vadd, vscal. ring. Qed.
Lemma norm_segment d t u v : 0 <= t <= 1 -> norm d (segment t u v) <= t * norm d u + (1 - t) * norm d v.
Proof.
  intros Ht. pose proof (norm_nonneg d u) as Nu. pose proof (norm_nonneg d v) as Nv.
  assert (P : 0 <= t * norm d u + (1 - t) * norm d v) by (apply Rplus_le_le_0_compat; apply Rmult_le_pos; lra).
  unfold norm at 1. rewrite <- (sqrt_Rsqr (t * norm d u + (1 - t) * norm d v)) by easy. apply sqrt_le_1_alt.
  unfold nsq, segment. rewrite !dot_add_l, !dot_add_r, !dot_scal_l, !dot_scal_r, (dot_comm d v u).
  change (dot d u u) with (nsq d u). change (dot d v v) with (nsq d v). rewrite <- !norm_sq. unfold Rsqr.
  pose proof (dot_norm d u v) as C. assert (0 <= t * (1 - t)) by (apply Rmult_le_pos; lra). nra.
Qed.
Lemma nsq_segment d t u v : nsq d (segment t u v) = t * nsq d u + (1 - t) * nsq d v - t * (1 - t) * nsq d (vsub u v).
Proof. unfold nsq, segment. rewrite !dot_add_l, !dot_add_r, !dot_scal_l, !dot_scal_r, !dot_sub_l, !dot_sub_r, (dot_comm d v u). ring. Qed.
Lemma distance_convex d b : convex (distance d b).
Proof. intros x y t _ _ Ht. split; [exact I|]. cbn [val distance]. rewrite segment_sub. apply norm_segment, Ht. Qed.
Lemma distance_sc_strong d b c theta : strongly_convex d (2 * theta) (distance_sc d b c theta).
Proof.
  intros x y t _ _ Ht. split; [exact I|]. cbn [val distance_sc]. rewrite !segment_sub, (nsq_segment d t (vsub x c) (vsub y c)).
  pose proof (norm_segment d t (vsub x b) (vsub y b) Ht) as N. unfold norm in N.
  assert (E : nsq d (vsub (vsub x c) (vsub y c)) = nsq d (vsub x y)) by (unfold nsq; apply dot_ext; intros; unfold vsub; ring).
  rewrite E. lra.
Qed.
Lemma halfspace_convex d a b : convex (halfspace d a b).
Proof.
  intros x y t Hx Hy Ht. simpl in *. split; [|lra]. unfold segment. rewrite dot_add_r, !dot_scal_r. nra.
Qed.
Lemma l1_convex d rho : 0 <= rho -> convex (l1 d rho).
Proof.
  intros Hr x y t _ _ Ht. split; [exact I|]. cbn [val l1].
  apply Rle_trans with (rho * rsum d (fun k => t * Rabs (x k) + (1 - t) * Rabs (y k))).
  - apply Rmult_le_compat_l; [easy|]. apply rsum_le. intros k _. unfold segment, vadd, vscal. eapply Rle_trans; [apply Rabs_triang|].
    rewrite !Rabs_mult, (Rabs_right t), (Rabs_right (1 - t)) by lra. lra.
  - rewrite rsum_plus, !rsum_scal. lra.
Qed.
(** functions with a second order expansion *)
Lemma expand_smooth d L phi grad q : (forall x, dom phi x) ->
  (forall x y, val phi y = val phi x + dot d (grad x) (vsub y x) + / 2 * q (vsub y x)) ->
  (forall v, 0 <= q v) -> (forall t v, q (vscal t v) = t * t * q v) ->
  (forall x y, nsq d (vsub (grad x) (grad y)) <= L * L * nsq d (vsub x y)) ->
  convex phi /\ smooth d L phi /\ forall x, subgradient d phi x (grad x).
Proof.
  intros Hd He Hq Hs Hl.
  assert (Sg : forall x, subgradient d phi x (grad x)).
  { intros x. split; [apply Hd|]. intros y _. rewrite (He x y). specialize (Hq (vsub y x)). lra. }
  split; [|split; [split; [exact Hd|]|exact Sg]].
  - intros x y t _ _ Ht. split; [apply Hd|]. set (z := segment t x y).
    destruct (Sg z) as [_ Sz]. pose proof (Sz x (Hd x)) as S1. pose proof (Sz y (Hd y)) as S2.
    assert (E : t * dot d (grad z) (vsub x z) + (1 - t) * dot d (grad z) (vsub y z) = 0).
    { rewrite <- !dot_scal_r, <- dot_add_r. unfold dot. apply rsum_zero. intros k _. unfold vadd, vscal, vsub, z, segment, vadd, vscal. ring. }
    nra.
  - exists grad. split; [|exact Hl]. intros x u eps He'.
    assert (Hp : 0 <= q u) by apply Hq. assert (0 < 2 * eps / (q u + 1)) by (apply Rdiv_lt_0_compat; lra).
    exists (mkposreal _ H). intros t Ht Hb. cbn [pos] in Hb.
    assert (E0 : vadd x (vscal (0 + t) u) = vadd x (vscal t u)) by (rewrite Rplus_0_l; easy).
    assert (E1 : vadd x (vscal 0 u) = x) by (apply functional_extensionality; intros; unfold vadd, vscal; ring).
    rewrite E0, E1, (He x (vadd x (vscal t u))).
    assert (E2 : vsub (vadd x (vscal t u)) x = vscal t u) by (apply functional_extensionality; intros; unfold vadd, vsub; ring).
    rewrite E2, dot_scal_r, Hs.
    replace ((val phi x + t * dot d (grad x) u + / 2 * (t * t * q u) - val phi x) / t - dot d (grad x) u) with (/ 2 * t * q u) by (field; easy).
    rewrite !Rabs_mult, (Rabs_right (/ 2)), (Rabs_right (q u)) by lra.
    pose proof (Rabs_pos t). apply Rmult_lt_compat_r with (r := q u + 1) in Hb; [|lra].
    replace (2 * eps / (q u + 1) * (q u + 1)) with (2 * eps) in Hb by (field; lra). nra.
Qed.
Lemma cs_sum d m (A : nat -> vec) (u : vec) : nsq d (fun k => rsum m (fun i => A i k * u i)) <= rsum m (fun i => nsq d (A i)) * rsum m (fun i => u i * u i).
Proof.
  change (rsum m (fun i => nsq d (A i))) with (rsum m (fun i => rsum d (fun k => A i k * A i k))).
  rewrite <- (rsum_swap d m (fun k i => A i k * A i k)). rewrite <- rsum_scal_r. unfold nsq at 1, dot at 1. apply rsum_le. intros k _.
  pose proof (cauchy_schwarz m (fun i => A i k) u) as C. unfold nsq, dot in C. exact C.
Qed.
Lemma cs_rows d m (A : nat -> vec) v : rsum m (fun i => dot d (A i) v * dot d (A i) v) <= rsum m (fun i => nsq d (A i)) * nsq d v.
Proof. rewrite <- rsum_scal_r. apply rsum_le. intros i _. apply cauchy_schwarz. Qed.
Theorem least_squares_smooth m d A b L : rsum m (fun i => nsq d (A i)) <= L ->
  convex (least_squares m d A b) /\ smooth d L (least_squares m d A b) /\ forall x, subgradient d (least_squares m d A b) x (grad_lsq m d A b x).
Proof.
  intros HL. set (F := rsum m (fun i => nsq d (A i))) in *. assert (HF : 0 <= F) by (apply rsum_nonneg; intros; apply nsq_nonneg).
  apply (expand_smooth d L _ (grad_lsq m d A b) (fun v => rsum m (fun i => dot d (A i) v * dot d (A i) v))).
  - intros; exact I.
  - intros. apply grad_lsq_correct.
  - intros v. apply rsum_nonneg. intros. apply Rle_0_sqr.
  - intros t v. rewrite <- rsum_scal. apply rsum_ext. intros. rewrite dot_scal_r. ring.
  - intros x y.
    assert (E : nsq d (vsub (grad_lsq m d A b x) (grad_lsq m d A b y)) = nsq d (fun k => rsum m (fun i => A i k * dot d (A i) (vsub x y)))).
    { unfold nsq. apply dot_ext; intros k _; unfold vsub at 1, grad_lsq; rewrite <- rsum_minus; apply rsum_ext; intros; rewrite dot_sub_r; ring. }
    rewrite E. eapply Rle_trans; [apply (cs_sum d m A (fun i => dot d (A i) (vsub x y)))|]. fold F.
    pose proof (cs_rows d m A (vsub x y)) as C. fold F in C. pose proof (nsq_nonneg d (vsub x y)) as N.
    apply Rle_trans with (F * (F * nsq d (vsub x y))); [apply Rmult_le_compat_l; easy|]. rewrite <- Rmult_assoc. apply Rmult_le_compat_r; [easy|]. apply Rmult_le_compat; lra.
Qed.
Theorem quadratic_smooth d Q p L : psd_matrix d Q -> rsum d (fun i => nsq d (Q i)) <= L * L ->
  convex (quadratic d Q p) /\ smooth d L (quadratic d Q p) /\ forall x, subgradient d (quadratic d Q p) x (grad_quadratic d Q p x).
Proof.
  intros HQ HL. apply (expand_smooth d L _ (grad_quadratic d Q p) (fun v => rsum d (fun i => v i * dot d (Q i) v))).
  - intros; exact I.
  - intros. apply grad_quadratic_correct, HQ.
  - apply HQ.
  - intros t v. rewrite <- rsum_scal. apply rsum_ext. intros. rewrite dot_scal_r. unfold vscal. ring.
  - intros x y.
    assert (E : nsq d (vsub (grad_quadratic d Q p x) (grad_quadratic d Q p y)) = rsum d (fun i => dot d (Q i) (vsub x y) * dot d (Q i) (vsub x y))).
    { unfold nsq, dot at 1. apply rsum_ext. intros k _. unfold vsub at 1 2, grad_quadratic. rewrite dot_sub_r. ring. }
    rewrite E. eapply Rle_trans; [apply cs_rows|]. apply Rmult_le_compat_r; [apply nsq_nonneg|easy].
Qed.
Lemma quad_at_convex d P b : psd_matrix d P -> convex (quad_at d P b).
Proof.
  intros [Hs Hp] x y t _ _ Ht. split; [exact I|]. cbn [val quad_at].
  pose (u := vsub x b). pose (v := vsub y b). pose (w := vsub v u).
  assert (E : forall z z', (forall k, z k - b k = z' k) -> rsum d (fun i => (z i - b i) * dot d (P i) (vsub z b)) = rsum d (fun i => z' i * dot d (P i) z')).
  { intros z z' Hz. apply rsum_ext. intros i _. rewrite Hz. f_equal. apply dot_ext; [easy|]. intros; apply Hz. }
  rewrite (E (segment t x y) (vadd u (vscal (1 - t) w))) by (intros; unfold segment, w, u, v, vadd, vscal, vsub; ring).
  rewrite (E x u) by easy. rewrite (E y (vadd u w)) by (intros; unfold w, u, v, vadd, vsub; ring).
  rewrite !form_add by easy.
  rewrite (rsum_ext d (fun i => vscal (1 - t) w i * dot d (P i) u) (fun i => (1 - t) * (w i * dot d (P i) u))) by (intros; unfold vscal; ring).
  rewrite (rsum_ext d (fun i => vscal (1 - t) w i * dot d (P i) (vscal (1 - t) w)) (fun i => (1 - t) * (1 - t) * (w i * dot d (P i) w))) by (intros; rewrite dot_scal_r; unfold vscal; ring).
  rewrite !rsum_scal. pose proof (Hp w) as Hw. assert (0 <= t * (1 - t)) by (apply Rmult_le_pos; lra). nra.
Qed.

(** compressed sensing *)
Section Sensing.
  Variables (n m d : nat) (es : list (nat * nat)) (alpha rho L c : R) (W : nat -> nat -> R) (A : nat -> nat -> vec) (b : nat -> vec).
  Notation prox := (fun (_ : nat) (z : vec) (al : R) => soft_threshold (al * rho) z).
  Notation gradh := (fun j => grad_lsq m d (A j) (b j)).
  Theorem cs_is_pg s0 k : cs_iter n m d alpha rho W A b s0 k = pg_iter n alpha W prox gradh s0 k.
  Proof.
    induction k as [|k IH]; [easy|]. cbn [cs_iter pg_iter]. rewrite IH. unfold cs_step, pg_step. f_equal.
    apply functional_extensionality. intros j. f_equal. apply functional_extensionality. intros e. unfold vsub, vscal. ring.
  Qed.
  Hypothesis alpha_pos : 0 < alpha.
  Hypothesis rho_nonneg : 0 <= rho.
  Hypothesis Lpos : 0 < L.
  Hypothesis mw : mixing n es W c.
  Hypothesis A_Rd : forall j i, (j < n)%nat -> (i < m)%nat -> in_Rd d (A j i).
  Hypothesis bound : forall j, (j < n)%nat -> rsum m (fun i => nsq d (A j i)) <= L.
  Hypothesis stable : alpha * L < 2 * c.
  Notation f := (fun _ : nat => l1 d rho).
  Notation h := (fun j => least_squares m d (A j) (b j)).
  Notation fh := (fun j => add_fun (f j) (h j)).
  Variables (xs : vec) (gs : nat -> vec).
  Hypothesis opt : composite_optimum d n f gradh xs gs.
  Variable x0 : nat -> vec.
  Hypothesis x0_Rd : forall j, (j < n)%nat -> in_Rd d (x0 j).
  Lemma cs_gf : grad_family d n h gradh.
  Proof.
    intros j x Hj Hx. split.
    - intros k Hk. unfold grad_lsq. apply rsum_zero. intros i Hi. rewrite (A_Rd j i Hj Hi k Hk). ring.
    - apply (least_squares_smooth m d (A j) (b j) L (bound j Hj)).
  Qed.
  Lemma cs_pf : prox_family d n f prox.
  Proof. intros j z r Hj Hz Hr. apply soft_threshold_correct; easy. Qed.
  Lemma cs_sc j : (j < n)%nat -> strongly_convex d 0 (f j).
  Proof. intros _. apply convex_strongly0, l1_convex, rho_nonneg. Qed.
  Lemma cs_f_val j x : cs_f m d rho A b j x = val (fh j) x.
  Proof. unfold cs_f. cbn [val add_fun l1 least_squares]. lra. Qed.
  Lemma cs_values : Un_cv (fun k => rsum n (fun j => cs_f m d rho A b j (p_x (cs_iter n m d alpha rho W A b (mkP x0 (fun _ => vzero)) (S k)) j)) - value_at n fh xs) 0.
  Proof.
    pose proof (pg_values' n d es alpha L c W prox gradh f h (fun _ => 0) alpha_pos Lpos mw (fun j _ => Rle_refl 0) cs_sc cs_pf cs_gf
      (fun j Hj => proj1 (least_squares_smooth m d (A j) (b j) L (bound j Hj)))
      (fun j Hj => proj1 (proj2 (least_squares_smooth m d (A j) (b j) L (bound j Hj)))) stable xs gs opt x0 x0_Rd) as V.
    eapply cv_ext; [|exact V]. intros k. cbv beta. f_equal. apply rsum_ext. intros j Hj. rewrite cs_is_pg, cs_f_val. easy.
  Qed.
  Theorem cs_run_values xstar : value_at n fh xs <> 0 ->
    exists rep, (forall itr, cs_run n m d itr alpha rho W A b x0 xstar (value_at n fh xs) = map rep (seq 0 itr)) /\ Un_cv (fun k => cr_f (rep k)) 0.
  Proof.
    intros Hf. eexists. split; [intros; reflexivity|]. cbn [cr_f cs_report].
    pose proof (cv_scal (/ value_at n fh xs) _ (cv_abs _ cs_values)) as V. eapply cv_ext; [|exact V]. intros k. cbv beta.
    rewrite Rabs_minus_sym. unfold Rdiv. apply Rmult_comm.
  Qed.
  (** the reference value computed by the code itself tends to the optimum *)
  Theorem cs_solution_values : Un_cv (fun itr => snd (cs_solution n m d itr alpha rho W A b x0)) (value_at n fh xs).
  Proof.
    apply cv_minus. intros eps He. destruct (cs_values eps He) as (N & HN). exists (S N). intros itr Hi.
    specialize (HN (2 * itr - 1)%nat ltac:(lia)). replace (S (2 * itr - 1)) with (2 * itr)%nat in HN by lia. exact HN.
  Qed.
End Sensing.

(** the constrained quadratic problem *)
Section Qp.
  Variables (n d : nat) (es : list (nat * nat)) (g : graph) (rho L c : R) (W : nat -> nat -> R) (Q : nat -> nat -> vec) (p a : nat -> vec) (b : nat -> R).
  Hypothesis rho_pos : 0 < rho.
  Hypothesis Lpos : 0 < L.
  Hypothesis mw : mixing n es W c.
  Hypothesis HQ : forall j, (j < n)%nat -> psd_matrix d (Q j).
  Hypothesis Q_Rd : forall j k, (j < n)%nat -> (d <= k)%nat -> in_Rd d (Q j k) /\ forall i, Q j k i = 0.
  Hypothesis p_Rd : forall j, (j < n)%nat -> in_Rd d (p j).
  Hypothesis a_Rd : forall j, (j < n)%nat -> in_Rd d (a j) /\ 0 < nsq d (a j).
  Hypothesis bound : forall j, (j < n)%nat -> rsum d (fun i => nsq d (Q j i)) <= L * L.
  Hypothesis stable : rho * L < 2 * c.
  Notation f := (fun j => halfspace d (a j) (b j)).
  Notation h := (fun j => quadratic d (Q j) (p j)).
  Notation fh := (fun j => add_fun (f j) (h j)).
  Notation gradh := (fun j => grad_quadratic d (Q j) (p j)).
  Variable prox : nat -> vec -> R -> vec.
  Hypothesis proxE : forall j z r, (j < n)%nat -> prox_halfspace d z r (a j) (b j) = Some (prox j z r).
  Variables (xs : vec) (gs : nat -> vec).
  Hypothesis opt : composite_optimum d n f gradh xs gs.
  Theorem qp_values : value_at n fh xs <> 0 ->
    settles (fun itr => pg_extra PgExtra n d itr rho W g (fun _ => xs) (value_at n fh xs) prox gradh (fun j => val (fh j))) pr_f.
  Proof.
    apply (pg_extra_values n d es g rho L c W prox gradh f h (fun _ => 0)) with (gs := gs); try assumption.
    - intros; lra.
    - intros j Hj. apply convex_strongly0, halfspace_convex.
    - intros j z r Hj Hz Hr. apply prox_halfspace_correct; auto. apply a_Rd, Hj.
    - intros j x Hj Hx. split.
      + intros k Hk. unfold grad_quadratic. rewrite (p_Rd j Hj k Hk). unfold dot. rewrite rsum_zero; [ring|]. intros i _. rewrite (proj2 (Q_Rd j k Hj Hk)). ring.
      + apply (quadratic_smooth d (Q j) (p j) L (HQ j Hj) (bound j Hj)).
    - intros j Hj. apply (quadratic_smooth d (Q j) (p j) L (HQ j Hj) (bound j Hj)).
    - intros j Hj. apply (quadratic_smooth d (Q j) (p j) L (HQ j Hj) (bound j Hj)).
  Qed.
End Qp.

(** p_extra *)
Lemma all_some_spec n f x : all_some n f = Some x -> forall j, (j < n)%nat -> f j = Some (x j).
Proof.
  unfold all_some. destruct (forallb _ (seq 0 n)) eqn:E; [|easy]. intros H. injection H as <-. intros j Hj.
  rewrite forallb_forall in E. specialize (E j ltac:(apply in_seq; lia)). destruct (f j); easy.
Qed.
Lemma all_none n f j : (j < n)%nat -> f j = None -> all_some n f = None.
Proof.
  intros Hj H. unfold all_some. destruct (forallb _ (seq 0 n)) eqn:E; [|easy]. rewrite forallb_forall in E. specialize (E j ltac:(apply in_seq; lia)).
  rewrite H in E. easy.
Qed.
Section PExtra.
  Variables (n d : nat) (rho : R) (W : nat -> nat -> R) (oprox : nat -> vec -> R -> option vec) (prox : nat -> vec -> R -> vec) (b : nat -> vec).
  Hypothesis agree : forall j z v, (j < n)%nat -> oprox j z rho = Some v -> prox j z rho = v.
  Lemma mix_ext x y j : (forall l, (l < n)%nat -> x l = y l) -> mix n W x j = mix n W y j.
  Proof. intros H. apply functional_extensionality. intros k. unfold mix, vsumn. apply rsum_ext. intros l Hl. rewrite H by easy. easy. Qed.
  Lemma lap_ext x y j : (forall l, (l < n)%nat -> x l = y l) -> lap n W x j = lap n W y j.
  Proof. intros H. apply functional_extensionality. intros k. unfold lap, vsumn. apply rsum_ext. intros l Hl. rewrite H by easy. easy. Qed.
  Theorem p_is_pg k s : p_iter n rho W oprox b k = Some s ->
    forall j, (j < n)%nat -> p_x s j = p_x (pg_iter n rho W prox (fun _ _ => vzero) (mkP b (fun _ => vzero)) k) j /\
      p_w s j = p_w (pg_iter n rho W prox (fun _ _ => vzero) (mkP b (fun _ => vzero)) k) j.
  Proof.
    revert s. induction k as [|k IH]; intros s H.
    - injection H as <-. easy.
    - cbn [p_iter] in H. destruct (p_iter n rho W oprox b k) as [s'|]; [|easy]. specialize (IH s' eq_refl).
      unfold p_step in H. destruct (all_some n _) as [x|] eqn:E; [|easy]. injection H as <-.
      pose proof (all_some_spec _ _ _ E) as Hx. intros j Hj. cbn [p_x p_w pg_iter pg_step].
      set (t := pg_iter n rho W prox (fun _ _ => vzero) (mkP b (fun _ => vzero)) k) in *.
      assert (M : forall l, (l < n)%nat -> p_x s' l = p_x t l) by (intros; apply IH; easy).
      rewrite <- (mix_ext _ _ j M), <- (lap_ext _ _ j M), <- (proj2 (IH j Hj)). split; [|easy].
      symmetry. replace (vsub (vsub (mix n W (p_x s') j) (p_w s' j)) (vscal rho vzero)) with (vsub (mix n W (p_x s') j) (p_w s' j)).
      + apply agree; [easy|]. apply (Hx j Hj).
      + apply functional_extensionality. intros e. unfold vsub, vscal, vzero. ring.
  Qed.
  Variables (es : list (nat * nat)) (c : R) (f : nat -> rfun) (fv : nat -> vec -> R) (mu : nat -> R).
  Hypothesis rho_pos : 0 < rho.
  Hypothesis mw : mixing n es W c.
  Hypothesis c_pos : 0 < c.
  Hypothesis mu_pos : forall j, (j < n)%nat -> 0 <= mu j.
  Hypothesis scvx : forall j, (j < n)%nat -> strongly_convex d (mu j) (f j).
  Hypothesis pf : prox_family d n f prox.
  Hypothesis fvE : forall j x, (j < n)%nat -> fv j x = val (f j) x.
  Hypothesis b_Rd : forall j, (j < n)%nat -> in_Rd d (b j).
  Hypothesis no_nan : forall k, p_iter n rho W oprox b k <> None.
  Variables (xs : vec) (gs : nat -> vec).
  Hypothesis opt : balanced_optimum d n f xs gs.
  Definition zerof : rfun := mkFun (fun _ => True) (fun _ => 0).
  Lemma zerof_smooth L : 0 < L -> smooth d L zerof.
  Proof.
    intros HL. split; [intros; exact I|]. exists (fun _ => vzero). split.
    - intros x u. simpl. replace (dot d vzero u) with 0 by (symmetry; unfold dot; apply rsum_zero; intros; unfold vzero; ring). apply derivable_pt_lim_const.
    - intros x y. replace (nsq d (vsub vzero vzero)) with 0 by (symmetry; unfold nsq, dot; apply rsum_zero; intros; unfold vsub, vzero; ring).
      apply Rmult_le_pos; [apply Rmult_le_pos; lra|apply nsq_nonneg].
  Qed.
  Lemma zerof_sub x : subgradient d zerof x vzero.
  Proof. split; [exact I|]. intros y _. simpl. rewrite dot_zero_l. lra. Qed.
  Lemma zerof_convex : convex zerof.
  Proof. intros x y t _ _ Ht. split; [exact I|]. simpl. lra. Qed.
  Lemma zerof_gf : grad_family d n (fun _ => zerof) (fun _ _ => vzero).
  Proof. intros j x Hj Hx. split; [intros k _; easy|apply zerof_sub]. Qed.
  Lemma zerof_opt : composite_optimum d n f (fun _ _ => vzero) xs gs.
  Proof. destruct opt as (H1 & H2 & H3). split; [easy|]. split; [easy|]. intros k. rewrite <- (H3 k). apply rsum_ext. intros. unfold vzero. ring. Qed.
  Lemma small_step : 0 < c / rho /\ rho * (c / rho) < 2 * c.
  Proof. split; [apply Rdiv_lt_0_compat; easy|]. replace (rho * (c / rho)) with c by (field; lra). lra. Qed.
  Definition xrun (k : nat) : nat -> vec := match p_iter n rho W oprox b k with Some s => p_x s | None => fun _ => vzero end.
  Lemma xrun_pg k j : (j < n)%nat -> xrun k j = p_x (pg_iter n rho W prox (fun _ _ => vzero) (mkP b (fun _ => vzero)) k) j.
  Proof.
    intros Hj. unfold xrun. destruct (p_iter n rho W oprox b k) as [s|] eqn:E; [|destruct (no_nan k E)]. apply (p_is_pg k s E j Hj).
  Qed.
  Lemma p_run xstar fstar itr : p_extra n d itr rho W b xstar fstar oprox fv = map (fun k => Some (p_report n d b xstar fstar fv (xrun (S k)))) (seq 0 itr).
  Proof.
    unfold p_extra. apply map_ext. intros k. unfold xrun. pose proof (no_nan (S k)). destruct (p_iter n rho W oprox b (S k)); easy.
  Qed.
  Theorem p_extra_values xstar : value_at n f xs <> 0 ->
    exists rep, (forall itr, p_extra n d itr rho W b xstar (value_at n f xs) oprox fv = map (fun k => Some (rep k)) (seq 0 itr)) /\ Un_cv (fun k => rp_f (rep k)) 0.
  Proof.
    intros Hf. eexists. split; [intros; apply p_run|]. cbn [rp_f p_report]. destruct small_step as [S1 S2].
    pose proof (pg_values' n d es rho (c / rho) c W prox (fun _ _ => vzero) f (fun _ => zerof) mu rho_pos S1 mw mu_pos scvx pf zerof_gf
      (fun j _ => zerof_convex) (fun j _ => zerof_smooth _ S1) S2 xs gs zerof_opt b b_Rd) as V.
    pose proof (cv_scal (/ value_at n f xs) _ (cv_abs _ V)) as V2. eapply cv_ext; [|exact V2]. intros k. cbv beta.
    rewrite Rabs_minus_sym. unfold Rdiv. rewrite Rmult_comm. f_equal. f_equal. f_equal.
    - unfold value_at. apply rsum_ext. intros. cbn [val add_fun zerof]. ring.
    - apply rsum_ext. intros j Hj. rewrite fvE, xrun_pg by easy. cbn [val add_fun zerof]. ring.
  Qed.
  Theorem p_extra_iterates fstar j0 : (j0 < n)%nat -> 0 < mu j0 ->
    exists rep, (forall itr, p_extra n d itr rho W b (fun _ => xs) fstar oprox fv = map (fun k => Some (rep k)) (seq 0 itr)) /\ Un_cv (fun k => rp_err (rep k)) 0.
  Proof.
    intros H0 Hm. eexists. split; [intros; apply p_run|]. cbn [rp_err p_report]. destruct small_step as [S1 S2].
    apply (cv_frob n d (fun k => xrun (S k))). intros j Hj.
    pose proof (pg_iterates' n d es rho (c / rho) c W prox (fun _ _ => vzero) f (fun _ => zerof) mu rho_pos S1 mw mu_pos scvx pf zerof_gf
      (fun j _ => zerof_convex) (fun j _ => zerof_smooth _ S1) S2 xs gs zerof_opt b b_Rd j0 H0 Hm j Hj) as V.
    eapply cv_ext; [|exact V]. intros k. cbv beta. rewrite xrun_pg by easy. easy.
  Qed.
End PExtra.
