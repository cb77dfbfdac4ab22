From Coq Require Import List Arith Bool Reals Lia Lra Psatz FunctionalExtensionality.
From Verif Require Import Prelude PreludeFacts Spec SpecFacts BuilderSpec MethodModel MethodSpec GraphFacts ProxFacts DadmmFacts DadmmConv.
Import ListNotations.
Local Open Scope R_scope.

(** sequences *)
Lemma cv_ext u v l : (forall k, u k = v k) -> Un_cv u l -> Un_cv v l.
Proof. intros H Hu eps He. destruct (Hu eps He) as (N & HN). exists N. intros k Hk. rewrite <- H. auto. Qed.
Lemma cv_const c : Un_cv (fun _ => c) c.
Proof. intros eps He. exists 0%nat. intros. unfold R_dist. rewrite Rminus_diag_eq, Rabs_R0; easy. Qed.
Lemma cv_plus0 u v : Un_cv u 0 -> Un_cv v 0 -> Un_cv (fun k => u k + v k) 0.
Proof. intros H K. replace 0 with (0 + 0) by ring. apply CV_plus; easy. Qed.
Lemma cv_scal c u : Un_cv u 0 -> Un_cv (fun k => c * u k) 0.
Proof. intros H. replace 0 with (c * 0) by ring. apply CV_mult; [apply cv_const|easy]. Qed.
Lemma cv_squeeze lo hi x : Un_cv lo 0 -> Un_cv hi 0 -> (forall k, lo k <= x k <= hi k) -> Un_cv x 0.
Proof.
  intros Hl Hh H eps He. destruct (Hl eps He) as (N1 & H1). destruct (Hh eps He) as (N2 & H2).
  exists (max N1 N2). intros k Hk. specialize (H1 k ltac:(lia)). specialize (H2 k ltac:(lia)). specialize (H k).
  unfold R_dist in *. rewrite Rminus_0_r in *. apply Rabs_def2 in H1, H2. apply Rabs_def1; lra.
Qed.
Lemma cv_bound0 u v : (forall k, 0 <= u k <= v k) -> Un_cv v 0 -> Un_cv u 0.
Proof. intros H Hv. apply cv_squeeze with (fun _ => 0) v; [apply cv_const|easy|easy]. Qed.
Lemma cv_shift u l : Un_cv u l -> Un_cv (fun k => u (S k)) l.
Proof. intros H eps He. destruct (H eps He) as (N & HN). exists N. intros k Hk. apply HN. lia. Qed.
Lemma cv_minus u l : Un_cv u l <-> Un_cv (fun k => u k - l) 0.
Proof.
  split; intros H eps He; destruct (H eps He) as (N & HN); exists N; intros k Hk; specialize (HN k Hk); unfold R_dist in *.
  - rewrite Rminus_0_r. easy.
  - rewrite Rminus_0_r in HN. easy.
Qed.
Lemma cv_rsum n (u : nat -> nat -> R) : (forall j, (j < n)%nat -> Un_cv (u j) 0) -> Un_cv (fun k => rsum n (fun j => u j k)) 0.
Proof.
  induction n as [|n IH]; intros H; simpl; [apply cv_const|]. apply cv_plus0; [apply IH; auto|apply H; lia].
Qed.
Lemma decrease_cv V r c : 0 < c -> (forall k, 0 <= V k) -> (forall k, 0 <= r k) -> (forall k, V (S k) <= V k - c * r k) -> Un_cv r 0.
Proof.
  intros Hc HV Hr Hd.
  assert (D : Un_decreasing V) by (intros k; specialize (Hd k); specialize (Hr k); nra).
  assert (B : has_lb V).
  { exists 0. intros x (k & ->). unfold opp_seq. specialize (HV k). lra. }
  destruct (decreasing_cv V D B) as (l & Hl).
  apply cv_bound0 with (fun k => / c * (V k - V (S k))).
  - intros k. split; [easy|]. specialize (Hd k). apply Rmult_le_reg_l with c; [easy|].
    rewrite <- Rmult_assoc, Rinv_r, Rmult_1_l by lra. lra.
  - apply cv_scal. replace 0 with (l - l) by ring. apply CV_minus; [easy|apply (cv_shift V), Hl].
Qed.
Lemma cv_young p r B : 0 <= B -> (forall k, 0 <= r k) -> Un_cv r 0 ->
  (forall eta k, 0 < eta -> Rabs (p k) <= eta * B + r k / eta) -> Un_cv p 0.
Proof.
  intros HB Hr Hc H eps He. set (eta := eps / (2 * (B + 1))).
  assert (Heta : 0 < eta) by (apply Rdiv_lt_0_compat; lra).
  destruct (Hc (eta * (eps / 2))) as (N & HN); [apply Rmult_lt_0_compat; lra|].
  exists N. intros k Hk. specialize (HN k Hk). specialize (H eta k Heta). unfold R_dist in *. rewrite Rminus_0_r in *.
  rewrite Rabs_pos_eq in HN by easy.
  assert (r k / eta < eps / 2).
  { apply Rmult_lt_reg_l with eta; [easy|]. unfold Rdiv at 1. rewrite Rmult_comm, Rmult_assoc, Rinv_l by lra. lra. }
  assert (eta * B <= eps / 2).
  { unfold eta. apply Rmult_le_reg_r with (2 * (B + 1)); [lra|].
    replace (eps / (2 * (B + 1)) * B * (2 * (B + 1))) with (eps * B) by (field; lra). nra. }
  lra.
Qed.

Lemma dot_young d u v eta : 0 < eta -> Rabs (dot d u v) <= eta * nsq d u + nsq d v / eta.
Proof.
  intros He. assert (Hi : 0 < / eta) by (apply Rinv_0_lt_compat; easy).
  assert (G : forall c, c * c = 1 -> c * dot d u v <= eta * nsq d u + nsq d v / eta).
  { intros c Hc. pose proof (nsq_nonneg d (vsub (vscal eta u) (vscal c v))) as P.
    rewrite dot_sub_sub, !nsq_scal, dot_scal_l, dot_scal_r, Hc in P.
    pose proof (nsq_nonneg d u). pose proof (nsq_nonneg d v).
    apply Rmult_le_reg_l with eta; [easy|].
    replace (eta * (eta * nsq d u + nsq d v / eta)) with (eta * eta * nsq d u + nsq d v) by (field; lra).
    assert (0 <= eta * eta * nsq d u) by (apply Rmult_le_pos; [nra|easy]). lra. }
  apply Rabs_le. pose proof (G 1 ltac:(lra)). pose proof (G (-1) ltac:(lra)). lra.
Qed.
Lemma nsq_tri d u v w : nsq d (vsub u w) <= 2 * nsq d (vsub u v) + 2 * nsq d (vsub v w).
Proof.
  pose proof (nsq_nonneg d (vsub (vsub u v) (vsub v w))) as P.
  assert (E : nsq d (vsub u w) + nsq d (vsub (vsub u v) (vsub v w)) = 2 * nsq d (vsub u v) + 2 * nsq d (vsub v w)); [|lra].
  unfold nsq. rewrite !dot_sub_l, !dot_sub_r, (dot_comm d w u), (dot_comm d v u), (dot_comm d w v). ring.
Qed.

Section Limit.
  Variables (n d : nat) (es : list (nat * nat)) (g : graph) (a : dalg) (step : R) (prox : nat -> vec -> R -> vec)
            (phi : nat -> rfun).
  Hypothesis net : network n es g.
  Hypothesis conn : connected n es.
  Hypothesis n2 : (2 <= n)%nat.
  Hypothesis pf : prox_family d n phi prox.
  Hypothesis Rpos : 0 < d_R a.
  Hypothesis nocap : forall j l, cap_edge a j l = false.
  Hypothesis spos : 0 < step.
  Hypothesis stable : step * d_R a < 2.
  Variables (xs : vec) (gs : nat -> vec) (mu : nat -> R).
  Hypothesis mu_pos : forall j, (j < n)%nat -> 0 <= mu j.
  Hypothesis scvx : forall j, (j < n)%nat -> strongly_convex d (mu j) (phi j).
  Hypothesis opt : balanced_optimum d n phi xs gs.
  Notation esum := (esum n g).
  Notation st k := (dadmm_iter a step g prox k).
  Notation xk k := (st_x (st (S k))).

  Lemma cvx j : (j < n)%nat -> convex (phi j).
  Proof. intros H. apply (strongly_convex_convex d (mu j)); auto. Qed.
  Lemma st_cons k : consistent d es g a (st k).
  Proof. apply (iter_consistent n); [easy|]. intros. apply (prox_Rd_fam n d es g a prox phi); auto. Qed.

  Section Flow.
    Variable Is : nat -> nat -> vec.
    Hypothesis IsA : forall j l k, Is j l k + Is l j k = 0.
    Hypothesis IsD : forall j k, (j < n)%nat -> rsum n (fun l => A g j l * Is j l k) = gs j k.
    Notation V k := (energy n d g a step xs Is (st k)).
    Notation r k := (esum (fun j l => nsq d (dI g a step prox (st k) j l))).
    Notation w k := (esum (fun j l => nsq d (dE g a step prox (st k) j l))).
    Notation m k := (spread n d g a step prox phi xs mu (st k)).

    Lemma r_nonneg k : 0 <= r k.
    Proof. apply (esum_nonneg n es g net). intros. apply nsq_nonneg. Qed.
    Lemma w_nonneg k : 0 <= w k.
    Proof. apply (esum_nonneg n es g net). intros. apply nsq_nonneg. Qed.
    Lemma m_nonneg k : 0 <= spread n d g a step prox xs mu (st k).
    Proof.
      apply rsum_nonneg. intros j Hj. specialize (mu_pos j Hj). apply Rmult_le_pos; [lra|apply nsq_nonneg].
    Qed.
    Lemma V_nonneg k : 0 <= V k.
    Proof.
      unfold energy. apply Rplus_le_le_0_compat; apply Rmult_le_pos;
        try (apply Rlt_le, Rinv_0_lt_compat; easy); apply (esum_nonneg n es g net); intros; apply nsq_nonneg.
    Qed.
    Lemma decr k : V (S k) <= V k - / step * (2 / (step * d_R a) - 1) * r k - / d_R a * w k - 2 * spread n d g a step prox xs mu (st k).
    Proof. apply (energy_decrease n d es g a step prox phi net conn n2 cvx pf Rpos nocap spos xs gs Is mu mu_pos scvx opt IsA IsD). apply st_cons. Qed.
    Lemma c_pos : 0 < / step * (2 / (step * d_R a) - 1).
    Proof.
      apply Rmult_lt_0_compat; [apply Rinv_0_lt_compat; easy|].
      assert (0 < step * d_R a) by (apply Rmult_lt_0_compat; easy).
      assert (1 < 2 / (step * d_R a)); [|lra]. apply Rmult_lt_reg_r with (step * d_R a); [easy|].
      unfold Rdiv. rewrite Rmult_assoc, Rinv_l by lra. lra.
    Qed.
    Lemma i_pos : 0 < / d_R a. Proof. apply Rinv_0_lt_compat. easy. Qed.
    Lemma r_cv : Un_cv (fun k => r k) 0.
    Proof.
      apply (decrease_cv (fun k => V k) _ _ c_pos); [apply V_nonneg|apply r_nonneg|].
      intros k. pose proof (decr k). pose proof (w_nonneg k). pose proof (m_nonneg k). pose proof i_pos.
      assert (0 <= / d_R a * w k) by (apply Rmult_le_pos; lra). lra.
    Qed.
    Lemma w_cv : Un_cv (fun k => w k) 0.
    Proof.
      apply (decrease_cv (fun k => V k) _ _ i_pos); [apply V_nonneg|apply w_nonneg|].
      intros k. pose proof (decr k). pose proof (r_nonneg k). pose proof (m_nonneg k). pose proof c_pos.
      assert (0 <= / step * (2 / (step * d_R a) - 1) * r k) by (apply Rmult_le_pos; lra). lra.
    Qed.
    Lemma m_cv : Un_cv (fun k => spread n d g a step prox xs mu (st k)) 0.
    Proof.
      apply (decrease_cv (fun k => V k) _ 2 ltac:(lra)); [apply V_nonneg|apply m_nonneg|].
      intros k. pose proof (decr k). pose proof (r_nonneg k). pose proof (w_nonneg k). pose proof c_pos. pose proof i_pos.
      assert (0 <= / step * (2 / (step * d_R a) - 1) * r k) by (apply Rmult_le_pos; lra).
      assert (0 <= / d_R a * w k) by (apply Rmult_le_pos; lra). lra.
    Qed.
    Lemma V_le k : V k <= V 0.
    Proof.
      induction k as [|k IH]; [lra|]. pose proof (decr k). pose proof (r_nonneg k). pose proof (w_nonneg k). pose proof (m_nonneg k).
      pose proof c_pos. pose proof i_pos.
      assert (0 <= / step * (2 / (step * d_R a) - 1) * r k) by (apply Rmult_le_pos; lra).
      assert (0 <= / d_R a * w k) by (apply Rmult_le_pos; lra). lra.
    Qed.
    Lemma sum_bound K : rsum K (fun k => / step * (2 / (step * d_R a) - 1) * r k + / d_R a * w k) <= V 0 - V K.
    Proof.
      induction K as [|K IH]; [simpl; lra|]. cbn [rsum]. pose proof (decr K). pose proof (m_nonneg K). lra.
    Qed.
    Lemma I_bound k : esum (fun j l => nsq d (vsub (current g (st k) j l) (Is j l))) <= step * V 0.
    Proof.
      pose proof (V_le k) as H. apply Rle_trans with (step * V k); [|apply Rmult_le_compat_l; lra].
      unfold energy. rewrite Rmult_plus_distr_l, <- Rmult_assoc, Rinv_r, Rmult_1_l by lra.
      assert (0 <= step * (/ d_R a * esum (fun j l => nsq d (vsub (potential g (st k) j l) xs)))); [|lra].
      apply Rmult_le_pos; [lra|]. apply Rmult_le_pos; [pose proof i_pos; lra|]. apply (esum_nonneg n es g net). intros; apply nsq_nonneg.
    Qed.
    Lemma E_bound k : esum (fun j l => nsq d (vsub (potential g (st k) j l) xs)) <= d_R a * V 0.
    Proof.
      pose proof (V_le k) as H. apply Rle_trans with (d_R a * V k); [|apply Rmult_le_compat_l; lra].
      unfold energy. rewrite Rmult_plus_distr_l, <- (Rmult_assoc (d_R a) (/ d_R a)), Rinv_r, Rmult_1_l by lra.
      assert (0 <= d_R a * (/ step * esum (fun j l => nsq d (vsub (current g (st k) j l) (Is j l))))); [|lra].
      apply Rmult_le_pos; [lra|]. apply Rmult_le_pos; [apply Rlt_le, Rinv_0_lt_compat; easy|]. apply (esum_nonneg n es g net). intros; apply nsq_nonneg.
    Qed.

    Lemma esum_abs f : Rabs (esum f) <= esum (fun j l => Rabs (f j l)).
    Proof.
      apply Rabs_le. split.
      - assert (0 <= esum (fun j l => Rabs (f j l) + f j l)).
        { apply (esum_nonneg n es g net). intros j l _. pose proof (Rle_abs (- f j l)). rewrite Rabs_Ropp in H. lra. }
        rewrite (esum_plus n g) in H. lra.
      - apply (esum_le n es g net). intros. apply Rle_abs.
    Qed.
    Lemma esum_young (U W : nat -> nat -> vec) eta : 0 < eta ->
      Rabs (esum (fun j l => dot d (U j l) (W j l))) <= eta * esum (fun j l => nsq d (U j l)) + esum (fun j l => nsq d (W j l)) / eta.
    Proof.
      intros He. eapply Rle_trans; [apply esum_abs|]. unfold Rdiv. rewrite (Rmult_comm _ (/ eta)), <- !(esum_scal n g), <- (esum_plus n g).
      apply (esum_le n es g net). intros j l _. pose proof (dot_young d (U j l) (W j l) eta He). unfold Rdiv in H. lra.
    Qed.

    Lemma gap_cv : Un_cv (fun k => gap n g a step prox phi xs (st k)) 0.
    Proof.
      set (p := fun k => esum (fun j l => dot d (current g (st (S k)) j l) (dI g a step prox (st k) j l))).
      set (q := fun k => esum (fun j l => dot d (Is j l) (dI g a step prox (st k) j l))).
      set (u := fun k => esum (fun j l => dot d (dE g a step prox (st k) j l) (vsub (potential g (st (S k)) j l) xs))).
      assert (Hp : Un_cv p 0).
      { apply (cv_young p (fun k => r k) (2 * (step * V 0) + 2 * esum (fun j l => nsq d (Is j l)))).
        - pose proof (V_nonneg 0). assert (0 <= esum (fun j l => nsq d (Is j l))) by (apply (esum_nonneg n es g net); intros; apply nsq_nonneg).
          assert (0 <= step * V 0) by (apply Rmult_le_pos; lra). lra.
        - apply r_nonneg.
        - apply r_cv.
        - intros eta k He. unfold p. eapply Rle_trans; [apply esum_young, He|]. apply Rplus_le_compat_r, Rmult_le_compat_l; [lra|].
          apply Rle_trans with (2 * esum (fun j l => nsq d (vsub (current g (st (S k)) j l) (Is j l))) + 2 * esum (fun j l => nsq d (Is j l))).
          + rewrite <- !(esum_scal n g), <- (esum_plus n g). apply (esum_le n es g net). intros j l _.
            pose proof (nsq_tri d (current g (st (S k)) j l) (Is j l) vzero) as T.
            replace (nsq d (vsub (current g (st (S k)) j l) vzero)) with (nsq d (current g (st (S k)) j l)) in T
              by (unfold nsq; apply dot_ext; intros; unfold vsub, vzero; ring).
            replace (nsq d (vsub (Is j l) vzero)) with (nsq d (Is j l)) in T
              by (unfold nsq; apply dot_ext; intros; unfold vsub, vzero; ring). exact T.
          + pose proof (I_bound (S k)). lra. }
      assert (Hq : Un_cv q 0).
      { apply (cv_young q (fun k => r k) (esum (fun j l => nsq d (Is j l)))).
        - apply (esum_nonneg n es g net); intros; apply nsq_nonneg.
        - apply r_nonneg.
        - apply r_cv.
        - intros eta k He. unfold q. apply esum_young, He. }
      assert (Hu : Un_cv u 0).
      { apply (cv_young u (fun k => w k) (d_R a * V 0)).
        - apply Rmult_le_pos; [lra|apply V_nonneg].
        - apply w_nonneg.
        - apply w_cv.
        - intros eta k He. unfold u.
          rewrite (esum_ext n es g net _ (fun j l => dot d (vsub (potential g (st (S k)) j l) xs) (dE g a step prox (st k) j l)))
            by (intros; apply dot_comm).
          eapply Rle_trans; [apply esum_young, He|]. apply Rplus_le_compat_r, Rmult_le_compat_l; [lra|]. apply E_bound. }
      apply cv_squeeze with (fun k => - / step * q k)
        (fun k => (- / step * p k + - (/ step * (/ (step * d_R a) - 1)) * r k) + - / d_R a * u k).
      - apply cv_scal, Hq.
      - apply cv_plus0; [apply cv_plus0|]; apply cv_scal; [easy|apply r_cv|easy].
      - intros k. split.
        + pose proof (gap_lower n d es g a step prox phi net conn n2 cvx pf Rpos spos xs gs Is mu mu_pos scvx opt IsA IsD (st k) (st_cons k)).
          pose proof (m_nonneg k). unfold q. lra.
        + pose proof (gap_upper n d es g a step prox phi net conn n2 cvx pf Rpos nocap spos xs gs opt (st k) (st_cons k)).
          unfold p, u. cbn [dadmm_iter]. lra.
    Qed.
    Lemma link_cv j l : linked es j l -> Un_cv (fun k => nsq d (vsub (xk k j) (xk k l))) 0.
    Proof.
      intros K. apply cv_ext with (fun k => 4 * (/ step * / step) * nsq d (dI g a step prox (st k) j l)).
      - intros k. symmetry. apply (disagreement n d es g a step prox phi net conn n2 pf Rpos nocap spos (st k) (st_cons k) j l K).
      - apply cv_scal. apply cv_bound0 with (fun k => r k); [|apply r_cv].
        intros k. split; [apply nsq_nonneg|].
        apply (esum_ge_term n es g net (fun j l => nsq d (dI g a step prox (st k) j l))); [intros; apply nsq_nonneg|easy].
    Qed.
  End Flow.

  Lemma flow : exists Is : nat -> nat -> vec, (forall p q, in_Rd d (Is p q)) /\ (forall p q k, Is p q k + Is q p k = 0) /\
      forall p k, (p < n)%nat -> rsum n (fun q => A g p q * Is p q k) = gs p k.
  Proof.
    destruct opt as (_ & Hg & Hz). apply (flow_exists n es g net d gs conn (fun j Hj => proj1 (Hg j Hj)) Hz).
  Qed.

  Theorem values_converge : Un_cv (fun k => rsum n (fun j => val (phi j) (xk k j))) (rsum n (fun j => val (phi j) xs)).
  Proof.
    destruct flow as (Is & _ & IA & ID). apply cv_minus.
    apply cv_ext with (fun k => gap n g a step prox phi xs (st k)); [|apply (gap_cv Is IA ID)].
    intros k. unfold gap. rewrite rsum_minus. reflexivity.
  Qed.
  Theorem consensus_converges j l : (j < n)%nat -> (l < n)%nat -> Un_cv (fun k => nsq d (vsub (xk k j) (xk k l))) 0.
  Proof.
    destruct flow as (Is & _ & IA & ID). intros Hj Hl. pose proof (conn j l Hj Hl) as P. clear Hj Hl.
    induction P as [j|j l m K _ IH].
    - apply cv_ext with (fun _ => 0); [|apply cv_const]. intros k. symmetry. unfold nsq, dot. apply rsum_zero.
      intros i _. unfold vsub. ring.
    - apply cv_bound0 with (fun k => 2 * nsq d (vsub (xk k j) (xk k l)) + 2 * nsq d (vsub (xk k l) (xk k m))).
      + intros k. split; [apply nsq_nonneg|apply nsq_tri].
      + apply cv_plus0; apply cv_scal; [apply (link_cv Is IA ID); easy|easy].
  Qed.
  Theorem iterates_converge j0 : (j0 < n)%nat -> 0 < mu j0 -> forall j, (j < n)%nat -> Un_cv (fun k => nsq d (vsub (xk k j) xs)) 0.
  Proof.
    intros H0 Hm j Hj. destruct flow as (Is & _ & IA & ID).
    apply cv_bound0 with (fun k => 2 * nsq d (vsub (xk k j) (xk k j0)) + 2 * nsq d (vsub (xk k j0) xs)).
    - intros k. split; [apply nsq_nonneg|apply nsq_tri].
    - apply cv_plus0; apply cv_scal; [apply consensus_converges; easy|].
      apply cv_bound0 with (fun k => 2 / mu j0 * spread n d g a step prox xs mu (st k)).
      + intros k. split; [apply nsq_nonneg|]. apply Rmult_le_reg_l with (mu j0 / 2); [lra|].
        replace (mu j0 / 2 * (2 / mu j0 * spread n d g a step prox xs mu (st k))) with (spread n d g a step prox xs mu (st k)) by (field; lra).
        apply (rsum_ge_term n (fun j => mu j / 2 * nsq d (vsub (xk k j) xs))); [|easy].
        intros i Hi. specialize (mu_pos i Hi). apply Rmult_le_pos; [lra|apply nsq_nonneg].
      + apply cv_scal, (m_cv Is IA ID).
  Qed.
End Limit.
