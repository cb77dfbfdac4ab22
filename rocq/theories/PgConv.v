From Coq Require Import List Arith Bool Reals Lia Lra Psatz FunctionalExtensionality.
From Verif Require Import Prelude PreludeFacts Spec SpecFacts BuilderSpec MethodModel MethodSpec GraphFacts ProxFacts DadmmFacts PgFacts DadmmLimit FormFacts.
Local Open Scope R_scope.

Lemma smooth_descent d L phi x g y : 0 <= L -> smooth d L phi -> subgradient d phi x g ->
  val phi y <= val phi x + dot d g (vsub y x) + L / 2 * nsq d (vsub y x).
Proof.
  intros HL [Hdom [grad [Hder Hlip]]] Hg. pose proof (descent_lemma d L phi grad HL Hder Hlip x (vsub y x)) as H.
  replace (vadd x (vsub y x)) with y in H by (apply functional_extensionality; intros; unfold vadd, vsub; ring).
  rewrite <- (subgradient_is_gradient d phi grad Hdom Hder x g _ Hg) in H. exact H.
Qed.
Lemma cocoercive d L phi x gx y gy : 0 < L -> convex phi -> smooth d L phi -> subgradient d phi x gx -> subgradient d phi y gy ->
  nsq d (vsub gx gy) <= L * dot d (vsub gx gy) (vsub x y).
Proof.
  intros HL Hc Hs Hx Hy.
  assert (Hc0 : strongly_convex d 0 phi) by (apply convex_strongly0; easy).
  pose proof (smooth_sc_interp d 0 L phi x gx _ y gy _ ltac:(lra) Hc0 Hs (conj Hx eq_refl) (conj Hy eq_refl)) as H1.
  pose proof (smooth_sc_interp d 0 L phi y gy _ x gx _ ltac:(lra) Hc0 Hs (conj Hy eq_refl) (conj Hx eq_refl)) as H2.
  unfold Rdiv in H1, H2. rewrite Rmult_0_l, Rmult_0_l, Rplus_0_r in H1, H2.
  assert (E1 : nsq d (vsub gy gx) = nsq d (vsub gx gy)).
  { unfold nsq. rewrite !dot_sub_l, !dot_sub_r, (dot_comm d gx gy). ring. }
  rewrite E1 in H2.
  assert (E2 : dot d gy (vsub x y) + dot d gx (vsub y x) = - dot d (vsub gx gy) (vsub x y)).
  { rewrite !dot_sub_l, !dot_sub_r. ring. }
  set (N := nsq d (vsub gx gy)) in *.
  assert (H : / L * N <= dot d (vsub gx gy) (vsub x y)).
  { replace (/ L * N) with (1 * / (2 * L) * N + 1 * / (2 * L) * N) by (field; lra). lra. }
  apply Rmult_le_reg_l with (/ L); [apply Rinv_0_lt_compat; easy|]. rewrite <- Rmult_assoc, Rinv_l, Rmult_1_l by lra. easy.
Qed.

Section PgConv.
  Variables (n d : nat) (rho L c : R) (W : nat -> nat -> R) (prox : nat -> vec -> R -> vec) (gradh : nat -> vec -> vec).
  Variables (f h : nat -> rfun) (es : list (nat * nat)) (mu : nat -> R).
  Hypothesis rho_pos : 0 < rho.
  Hypothesis Lpos : 0 < L.
  Hypothesis sym : symmetric n W.
  Hypothesis rows : row_stochastic n W.
  Hypothesis nonneg : nonneg_entries n W.
  Hypothesis conn : connected n es.
  Hypothesis supp : forall i j, (i < n)%nat -> (j < n)%nat -> linked es i j -> 0 < W i j.
  Hypothesis in_range : forall i j, linked es i j -> (i < n)%nat /\ (j < n)%nat.
  Hypothesis npos : (0 < n)%nat.
  Hypothesis mu_pos : forall j, (j < n)%nat -> 0 <= mu j.
  Hypothesis scvx : forall j, (j < n)%nat -> strongly_convex d (mu j) (f j).
  Hypothesis pf : prox_family d n f prox.
  Hypothesis gf : grad_family d n h gradh.
  Hypothesis hcvx : forall j, (j < n)%nat -> convex (h j).
  Hypothesis hsm : forall j, (j < n)%nat -> smooth d L (h j).
  Hypothesis lower : forall t, c * rsum n (fun i => t i * t i) <= quad_form n (Qm W) t.
  Hypothesis stable : rho * L < 2 * c.
  Variables (xs : vec) (gs : nat -> vec).
  Hypothesis opt : composite_optimum d n f gradh xs gs.
  Variable s0 : pstate.
  Hypothesis x0_Rd : forall j, (j < n)%nat -> in_Rd d (p_x s0 j).
  Hypothesis w0 : forall j k, p_w s0 j k = 0.

  Notation P := (Pm W).
  Notation Q := (Qm W).
  Notation bl := (bil n d).
  Notation st k := (pg_iter n rho W prox gradh s0 k).
  Notation x k := (p_x (st k)).

  Lemma fcvx j : (j < n)%nat -> convex (f j).
  Proof. intros H. apply (strongly_convex_convex d (mu j)); auto. Qed.
  Lemma s0_zero : zero_sum n d s0.
  Proof.
    split.
    - intros j Hj. split; [auto|]. intros k _. apply w0.
    - intros k. apply rsum_zero. intros. apply w0.
  Qed.
  Lemma st_zero k : zero_sum n d (st k).
  Proof. apply (iter_zero n d rho W prox gradh f h); auto. apply s0_zero. Qed.
  Lemma x_Rd k j : (j < n)%nat -> in_Rd d (x k j).
  Proof. intros Hj. apply (proj1 (st_zero k) j Hj). Qed.

  Fixpoint ysum (k : nat) : nat -> vec := match k with O => fun _ => vzero | S k' => fun j => vadd (ysum k' j) (x k' j) end.
  Lemma ap_lap V j k : (j < n)%nat -> ap n P V j k = / 2 * lap n W V j k.
  Proof. intros Hj. unfold ap. rewrite (Pm_row n W rows j (fun j => V j k)) by easy. rewrite (lap_eq n W rows) by easy. easy. Qed.
  Lemma ap_add M U V j k : ap n M (fun i => vadd (U i) (V i)) j k = ap n M U j k + ap n M V j k.
  Proof. unfold ap. rewrite <- rsum_plus. apply rsum_ext. intros. unfold vadd. ring. Qed.
  Lemma ap_sub M U V j k : ap n M (fun i => vsub (U i) (V i)) j k = ap n M U j k - ap n M V j k.
  Proof. unfold ap. rewrite <- rsum_minus. apply rsum_ext. intros. unfold vsub. ring. Qed.
  Lemma ap_Q V j k : (j < n)%nat -> ap n Q V j k = V j k - ap n P V j k.
  Proof.
    intros Hj. unfold ap. rewrite <- (idm_sum n j (fun i => V i k)) by easy. rewrite <- rsum_minus. apply rsum_ext. intros. unfold Qm, Pm. field.
  Qed.
  Lemma w_y k j e : (j < n)%nat -> p_w (st k) j e = ap n P (ysum k) j e.
  Proof.
    intros Hj. induction k as [|k IH].
    - simpl. rewrite w0. unfold ap. symmetry. apply rsum_zero. intros. unfold vzero. ring.
    - cbn [ysum]. rewrite ap_add, <- IH, ap_lap by easy. cbn [pg_iter pg_step p_w]. unfold vadd, vscal. field.
  Qed.
  Notation gk k := (gpg n rho W prox gradh (st k)).
  Lemma step_eq k j e : (j < n)%nat ->
    rho * (gk k j e + gradh j (x k j) e) = ap n Q (fun i => vsub (x k i) (x (S k) i)) j e - ap n P (ysum (S (S k))) j e.
  Proof.
    intros Hj. unfold gpg, zpg, vscal, vsub at 1 2 3. rewrite (mix_lap n W rows) by easy. rewrite w_y by easy.
    rewrite ap_Q by easy. rewrite ap_sub. cbn [ysum]. rewrite !ap_add. rewrite (ap_lap (x k)) by easy.
    change (p_x (pg_step n rho W prox gradh (st k)) j e) with (x (S k) j e).
    unfold vsub. field. lra.
  Qed.

  Section Multiplier.
    Variable ys : nat -> vec.
    Hypothesis ysE : forall j e, (j < n)%nat -> ap n P ys j e = - (rho * (gs j e + gradh j xs e)).
    Definition X (k : nat) : nat -> vec := fun i => vsub (x k i) xs.
    Definition Y (k : nat) : nat -> vec := fun i => vsub (ysum k i) (ys i).
    Definition DX (k : nat) : nat -> vec := fun i => vsub (x (S k) i) (x k i).
    Definition Vk (k : nat) : R := bl Q (X k) (X k) + bl P (Y (S k)) (Y (S k)).
    Definition Dk (k : nat) : R := rsum n (fun j => nsq d (DX k j)).
    Definition Mk (k : nat) : R := rsum n (fun j => mu j / 2 * nsq d (X (S k) j)).
    Definition Ck (k : nat) : R := bl P (x (S k)) (x (S k)).

    Lemma bl_const V : bl P V (fun _ => xs) = 0.
    Proof.
      rewrite (bil_sym n d P V) by (apply Pm_sym; easy). rewrite <- dot_ap. (* sum_i <ap P V i, xs> *)
      unfold dot. rewrite rsum_swap. apply rsum_zero. intros e _. rewrite rsum_scal_r.
      rewrite (rsum_ext n _ (fun i => / 2 * lap n W V i e)) by (intros; apply ap_lap; easy).
      rewrite rsum_scal, (sum_lap n W sym rows). ring.
    Qed.
    Lemma bl_X V k : bl P V (X k) = bl P V (x k).
    Proof. unfold X. rewrite (bil_sub_r n d P V (x k) (fun _ => xs)), bl_const. ring. Qed.

    Lemma f_lower k j : (j < n)%nat -> val (f j) (x (S k) j) >= val (f j) xs + dot d (gs j) (X (S k) j) + mu j / 2 * nsq d (X (S k) j).
    Proof.
      intros Hj. destruct opt as (Hx & Hg & _). destruct (Hg j Hj) as [_ Sg].
      destruct (gpg_sub n d rho W prox gradh f h rho_pos fcvx pf gf (st k) j (st_zero k) Hj) as [[_ D] _].
      apply (strongly_convex_lower d (mu j) (f j) xs (gs j) (x (S k) j)); auto.
    Qed.
    Lemma f_upper k j : (j < n)%nat -> val (f j) (x (S k) j) <= val (f j) xs + dot d (gk k j) (X (S k) j).
    Proof.
      intros Hj. destruct opt as (Hx & Hg & _). destruct (Hg j Hj) as [_ [Dx _]].
      destruct (gpg_sub n d rho W prox gradh f h rho_pos fcvx pf gf (st k) j (st_zero k) Hj) as [_ SU].
      specialize (SU xs (conj Hx Dx)). unfold restr in SU. cbn [val] in SU. unfold X.
      change (p_x (pg_step n rho W prox gradh (st k)) j) with (x (S k) j) in SU. rewrite dot_sub_r in SU |- *. lra.
    Qed.
    Lemma h_sub k j : (j < n)%nat -> subgradient d (h j) (x k j) (gradh j (x k j)).
    Proof. intros Hj. apply (gf j (x k j) Hj). apply x_Rd, Hj. Qed.
    Lemma hs_sub j : (j < n)%nat -> subgradient d (h j) xs (gradh j xs).
    Proof. intros Hj. apply (gf j xs Hj). apply opt. Qed.

    (** the inner product of the residual with the new error *)
    Lemma inner k : rho * rsum n (fun j => dot d (vadd (vsub (gk k j) (gs j)) (vsub (gradh j (x k j)) (gradh j xs))) (X (S k) j)) =
      - bl Q (X (S k)) (DX k) - bl P (x (S k)) (Y (S (S k))).
    Proof.
      rewrite <- rsum_scal.
      rewrite (rsum_ext n _ (fun j => dot d (ap n Q (fun i => vsub (x k i) (x (S k) i)) j) (X (S k) j) - dot d (ap n P (Y (S (S k))) j) (X (S k) j))).
      - rewrite rsum_minus, !dot_ap.
        rewrite (bil_sym n d P (X (S k))) by (apply Pm_sym; easy). rewrite bl_X, (bil_sym n d P (Y (S (S k)))) by (apply Pm_sym; easy).
        assert (E : bl Q (X (S k)) (fun i => vsub (x k i) (x (S k) i)) = - bl Q (X (S k)) (DX k)); [|rewrite E; ring].
        unfold DX. rewrite (bil_sub_r n d Q (X (S k)) (x k) (x (S k))), (bil_sub_r n d Q (X (S k)) (x (S k)) (x k)). ring.
      - intros j Hj. rewrite <- dot_scal_l, <- dot_sub_l. apply dot_ext; [|easy]. intros e He. unfold vscal, vadd, vsub at 1 2 3.
        unfold Y. rewrite (ap_sub P), ysE by easy. pose proof (step_eq k j e Hj) as SE. lra.
    Qed.
    Lemma coco k j : (j < n)%nat ->
      - dot d (vsub (gradh j (x k j)) (gradh j xs)) (X (S k) j) <= L / 4 * nsq d (DX k j).
    Proof.
      intros Hj. set (G := vsub (gradh j (x k j)) (gradh j xs)).
      assert (E : dot d G (X (S k) j) = dot d G (X k j) + dot d G (DX k j)).
      { rewrite <- dot_add_r. apply dot_ext; [easy|]. intros e _. unfold X, DX, vadd, vsub. ring. }
      pose proof (cocoercive d L (h j) _ _ _ _ Lpos (hcvx j Hj) (hsm j Hj) (h_sub k j Hj) (hs_sub j Hj)) as C.
      fold G in C. change (vsub (x k j) xs) with (X k j) in C.
      pose proof (nsq_nonneg d (vadd (vscal (/ L) G) (vscal (/ 2) (DX k j)))) as N.
      assert (EN : nsq d (vadd (vscal (/ L) G) (vscal (/ 2) (DX k j))) = / L * / L * nsq d G + / L * dot d G (DX k j) + / 4 * nsq d (DX k j)).
      { unfold nsq. rewrite !dot_add_l, !dot_add_r, !dot_scal_l, !dot_scal_r, (dot_comm d (DX k j) G). field. lra. }
      rewrite EN in N. rewrite E.
      assert (M1 : / L * nsq d G <= dot d G (X k j)).
      { apply Rmult_le_reg_l with L; [easy|]. rewrite <- Rmult_assoc, Rinv_r, Rmult_1_l by lra. easy. }
      assert (M2 : 0 <= / L * nsq d G + dot d G (DX k j) + L / 4 * nsq d (DX k j)).
      { replace (/ L * nsq d G + dot d G (DX k j) + L / 4 * nsq d (DX k j)) with
          (L * (/ L * / L * nsq d G + / L * dot d G (DX k j) + / 4 * nsq d (DX k j))) by (field; lra).
        apply Rmult_le_pos; lra. }
      lra.
    Qed.
    Theorem pg_decrease k : Vk (S k) <= Vk k - (c - rho * L / 2) * Dk k - Ck k - 2 * rho * Mk k.
    Proof.
      assert (S1 : rsum n (fun j => dot d (vadd (vsub (gk k j) (gs j)) (vsub (gradh j (x k j)) (gradh j xs))) (X (S k) j)) >= Mk k - L / 4 * Dk k).
      { unfold Mk, Dk. rewrite <- rsum_scal, <- rsum_minus. apply Rle_ge, rsum_le. intros j Hj.
        rewrite dot_add_l, (dot_sub_l d (gk k j)). pose proof (f_lower k j Hj). pose proof (f_upper k j Hj). pose proof (coco k j Hj). lra. }
      pose proof (inner k) as I.
      assert (SP : symmetric n P) by (apply Pm_sym; easy). assert (SQ : symmetric n Q) by (apply Qm_sym; easy).
      assert (EQ : bl Q (X (S k)) (X (S k)) = bl Q (X k) (X k) + 2 * bl Q (X (S k)) (DX k) - bl Q (DX k) (DX k)).
      { assert (EX : bl Q (X k) (X k) = bl Q (fun i => vsub (X (S k) i) (DX k i)) (fun i => vsub (X (S k) i) (DX k i))).
        { apply bil_ext; intros; unfold X, DX, vsub; ring. }
        rewrite EX, bil_sub_l, !bil_sub_r, (bil_sym n d Q (DX k) (X (S k))) by easy. ring. }
      assert (EP : bl P (Y (S (S k))) (Y (S (S k))) = bl P (Y (S k)) (Y (S k)) + 2 * bl P (x (S k)) (Y (S (S k))) - Ck k).
      { assert (EY : bl P (Y (S k)) (Y (S k)) = bl P (fun i => vsub (Y (S (S k)) i) (x (S k) i)) (fun i => vsub (Y (S (S k)) i) (x (S k) i))).
        { apply bil_ext; intros; unfold Y; cbn [ysum]; unfold vsub, vadd; ring. }
        rewrite EY, bil_sub_l, !bil_sub_r, (bil_sym n d P (Y (S (S k))) (x (S k))) by easy. unfold Ck. ring. }
      assert (LQ : c * Dk k <= bl Q (DX k) (DX k)) by (apply bil_lower; easy).
      unfold Vk. rewrite EQ, EP.
      assert (rho * (Mk k - L / 4 * Dk k) <= - bl Q (X (S k)) (DX k) - bl P (x (S k)) (Y (S (S k)))).
      { rewrite <- I. apply Rmult_le_compat_l; lra. }
      lra.
    Qed.
    Lemma D_nonneg k : 0 <= Dk k. Proof. apply rsum_nonneg. intros. apply nsq_nonneg. Qed.
    Lemma C_nonneg k : 0 <= Ck k. Proof. apply bil_nonneg, Pm_psd; easy. Qed.
    Lemma M_nonneg k : 0 <= Mk k.
    Proof. apply rsum_nonneg. intros j Hj. specialize (mu_pos j Hj). apply Rmult_le_pos; [lra|apply nsq_nonneg]. Qed.
    Lemma c_nonneg : 0 < c. Proof. pose proof (Rmult_lt_0_compat _ _ rho_pos Lpos). lra. Qed.
    Lemma Q_psd : psd_form n Q.
    Proof.
      intros t. eapply Rle_trans; [|apply lower]. pose proof c_nonneg. apply Rmult_le_pos; [lra|]. apply rsum_nonneg. intros. apply Rle_0_sqr.
    Qed.
    Lemma Vk_nonneg k : 0 <= Vk k.
    Proof. unfold Vk. apply Rplus_le_le_0_compat; apply bil_nonneg; [apply Q_psd|apply Pm_psd; easy]. Qed.
    Lemma cd_pos : 0 < c - rho * L / 2. Proof. lra. Qed.
    Lemma pg_terms k : 0 <= (c - rho * L / 2) * Dk k /\ 0 <= Ck k /\ 0 <= 2 * rho * Mk k.
    Proof.
      pose proof cd_pos. pose proof (D_nonneg k). pose proof (C_nonneg k). pose proof (M_nonneg k).
      repeat split; [apply Rmult_le_pos; lra|easy|apply Rmult_le_pos; lra].
    Qed.
    Lemma D_cv : Un_cv Dk 0.
    Proof.
      apply (decrease_cv Vk _ _ cd_pos Vk_nonneg D_nonneg). intros k. pose proof (pg_decrease k). pose proof (pg_terms k). lra.
    Qed.
    Lemma C_cv : Un_cv Ck 0.
    Proof.
      apply (decrease_cv Vk _ 1 ltac:(lra) Vk_nonneg C_nonneg). intros k. pose proof (pg_decrease k). pose proof (pg_terms k). lra.
    Qed.
    Lemma M_cv : Un_cv Mk 0.
    Proof.
      apply (decrease_cv Vk _ (2 * rho) ltac:(lra) Vk_nonneg M_nonneg). intros k. pose proof (pg_decrease k). pose proof (pg_terms k). lra.
    Qed.
    Lemma Vk_le k : Vk k <= Vk 0.
    Proof. induction k as [|k IH]; [lra|]. pose proof (pg_decrease k). pose proof (pg_terms k). lra. Qed.
    Lemma pg_sum_bound K : rsum K (fun k => (c - rho * L / 2) * Dk k + Ck k) <= Vk 0 - Vk K.
    Proof. induction K as [|K IH]; [simpl; lra|]. cbn [rsum]. pose proof (pg_decrease K). pose proof (pg_terms K). lra. Qed.

    Definition gapk (k : nat) : R := rsum n (fun j => (val (f j) (x (S k) j) + val (h j) (x (S k) j)) - (val (f j) xs + val (h j) xs)).
    Lemma gap_up k : gapk k <= / rho * (- bl Q (X (S k)) (DX k) - bl P (x (S k)) (ysum (S (S k)))) + L / 2 * Dk k.
    Proof.
      apply Rle_trans with (rsum n (fun j => dot d (vadd (gk k j) (gradh j (x k j))) (X (S k) j)) + L / 2 * Dk k).
      - unfold gapk, Dk. rewrite <- rsum_scal, <- rsum_plus. apply rsum_le. intros j Hj. rewrite dot_add_l.
        pose proof (f_upper k j Hj) as F.
        pose proof (smooth_descent d L (h j) _ _ (x (S k) j) (Rlt_le _ _ Lpos) (hsm j Hj) (h_sub k j Hj)) as H1.
        destruct (h_sub k j Hj) as [_ H2]. specialize (H2 xs (proj1 (hs_sub j Hj))).
        change (vsub (x (S k) j) (x k j)) with (DX k j) in H1.
        assert (E : dot d (gradh j (x k j)) (X (S k) j) = dot d (gradh j (x k j)) (DX k j) - dot d (gradh j (x k j)) (vsub xs (x k j))).
        { rewrite <- dot_sub_r. apply dot_ext; [easy|]. intros e _. unfold X, DX, vsub. ring. }
        lra.
      - apply Rplus_le_compat_r. apply Req_le.
        assert (E : rho * rsum n (fun j => dot d (vadd (gk k j) (gradh j (x k j))) (X (S k) j)) =
          - bl Q (X (S k)) (DX k) - bl P (x (S k)) (ysum (S (S k)))).
        { rewrite <- rsum_scal.
          rewrite (rsum_ext n _ (fun j => dot d (ap n Q (fun i => vsub (x k i) (x (S k) i)) j) (X (S k) j) - dot d (ap n P (ysum (S (S k))) j) (X (S k) j))).
          - rewrite rsum_minus, !dot_ap.
            rewrite (bil_sym n d P (X (S k))) by (apply Pm_sym; easy). rewrite bl_X, (bil_sym n d P (ysum (S (S k)))) by (apply Pm_sym; easy).
            assert (E : bl Q (X (S k)) (fun i => vsub (x k i) (x (S k) i)) = - bl Q (X (S k)) (DX k)); [|rewrite E; ring].
            unfold DX. rewrite (bil_sub_r n d Q (X (S k)) (x k) (x (S k))), (bil_sub_r n d Q (X (S k)) (x (S k)) (x k)). ring.
          - intros j Hj. rewrite <- dot_scal_l, <- dot_sub_l. apply dot_ext; [|easy]. intros e He. unfold vscal, vadd, vsub at 1.
            apply (step_eq k j e Hj). }
        rewrite <- E. field. lra.
    Qed.
    Lemma gap_low k : gapk k >= - / rho * bl P (x (S k)) ys.
    Proof.
      assert (E : rho * rsum n (fun j => dot d (vadd (gs j) (gradh j xs)) (X (S k) j)) = - bl P (x (S k)) ys).
      { rewrite <- rsum_scal. rewrite (rsum_ext n _ (fun j => - 1 * dot d (ap n P ys j) (X (S k) j))).
        - rewrite rsum_scal, dot_ap, (bil_sym n d P (X (S k))) by (apply Pm_sym; easy). rewrite bl_X, (bil_sym n d P ys) by (apply Pm_sym; easy). ring.
        - intros j Hj. rewrite <- !dot_scal_l. apply dot_ext; [|easy]. intros e He. unfold vscal, vadd. rewrite ysE by easy. ring. }
      apply Rle_ge. apply Rle_trans with (rsum n (fun j => dot d (vadd (gs j) (gradh j xs)) (X (S k) j))).
      - apply Req_le. replace (- / rho * bl P (x (S k)) ys) with (/ rho * - bl P (x (S k)) ys) by ring. rewrite <- E. field. lra.
      - unfold gapk. apply rsum_le. intros j Hj. rewrite dot_add_l. pose proof (f_lower k j Hj) as F.
        destruct (hs_sub j Hj) as [_ H]. specialize (H (x (S k) j) (proj1 (h_sub (S k) j Hj))).
        change (vsub (x (S k) j) xs) with (X (S k) j) in H. pose proof (nsq_nonneg d (X (S k) j)). specialize (mu_pos j Hj).
        assert (0 <= mu j / 2 * nsq d (X (S k) j)) by (apply Rmult_le_pos; lra). lra.
    Qed.
    Lemma gapk_cv : Un_cv gapk 0.
    Proof.
      assert (SP : symmetric n P) by (apply Pm_sym; easy). assert (SQ : symmetric n Q) by (apply Qm_sym; easy).
      assert (PP : psd_form n P) by (apply Pm_psd; easy). pose proof Q_psd as PQ'.
      assert (H1 : Un_cv (fun k => bl Q (X (S k)) (DX k)) 0).
      { apply (cv_young _ Dk (Vk 0)); [apply Vk_nonneg|apply D_nonneg|apply D_cv|].
        intros eta k He. eapply Rle_trans; [apply (bil_young n d Q _ _ eta); assumption|]. apply Rplus_le_compat.
        - apply Rmult_le_compat_l; [lra|]. eapply Rle_trans; [|apply (Vk_le (S k))]. unfold Vk.
          assert (0 <= bl P (Y (S (S k))) (Y (S (S k)))) by (apply bil_nonneg; easy). lra.
        - apply Rmult_le_compat_r; [apply Rlt_le, Rinv_0_lt_compat; easy|].
          (* Q <= I *)
          rewrite bil_coord. unfold Dk, nsq, dot. rewrite (rsum_swap n d (fun i e => DX k i e * DX k i e)). apply rsum_le. intros e He'.
          pose proof (PQ n W (fun i => DX k i e)) as H. pose proof (PP (fun i => DX k i e)). unfold quad_form in *. lra. }
      assert (H2 : Un_cv (fun k => bl P (x (S k)) (ysum (S (S k)))) 0).
      { apply (cv_young _ Ck (2 * Vk 0 + 2 * bl P ys ys)).
        - pose proof (Vk_nonneg 0). assert (0 <= bl P ys ys) by (apply bil_nonneg; easy). lra.
        - apply C_nonneg.
        - apply C_cv.
        - intros eta k He. rewrite (bil_sym n d P (x (S k))) by easy. eapply Rle_trans; [apply (bil_young n d P _ _ eta); assumption|]. apply Rplus_le_compat_r.
          apply Rmult_le_compat_l; [lra|]. eapply Rle_trans; [apply (bil_tri n d P _ ys); assumption|].
          pose proof (Vk_le (S k)) as VL. unfold Vk at 1 in VL. assert (0 <= bl Q (X (S k)) (X (S k))) by (apply bil_nonneg; easy).
          change (fun i => vsub (ysum (S (S k)) i) (ys i)) with (Y (S (S k))). lra. }
      assert (H3 : Un_cv (fun k => bl P (x (S k)) ys) 0).
      { apply (cv_young _ Ck (bl P ys ys)); [apply bil_nonneg; easy|apply C_nonneg|apply C_cv|].
        intros eta k He. rewrite (bil_sym n d P (x (S k))) by easy. apply (bil_young n d P _ _ eta); assumption. }
      apply cv_squeeze with (fun k => - / rho * bl P (x (S k)) ys)
        (fun k => (- / rho * bl Q (X (S k)) (DX k) + - / rho * bl P (x (S k)) (ysum (S (S k)))) + L / 2 * Dk k).
      - apply cv_scal, H3.
      - apply cv_plus0; [apply cv_plus0|]; apply cv_scal; [easy|easy|apply D_cv].
      - intros k. pose proof (gap_up k). pose proof (gap_low k). lra.
    Qed.
    Lemma C_form k : Ck k = / 4 * rsum n (fun i => rsum n (fun j => W i j * nsq d (vsub (x (S k) i) (x (S k) j)))).
    Proof.
      unfold Ck. rewrite bil_coord.
      rewrite (rsum_ext d _ (fun e => / 4 * rsum n (fun j => rsum n (fun l => W j l * ((x (S k) j e - x (S k) l e) * (x (S k) j e - x (S k) l e)))))).
      - rewrite rsum_scal. f_equal. rewrite rsum_swap. apply rsum_ext. intros i Hi. rewrite rsum_swap. apply rsum_ext. intros j Hj.
        unfold nsq, dot. rewrite rsum_scal. easy.
      - intros e He. apply (Pm_form n W sym rows (fun i => x (S k) i e)).
    Qed.
    Lemma link_close i j : linked es i j -> Un_cv (fun k => nsq d (vsub (x (S k) i) (x (S k) j))) 0.
    Proof.
      intros K. destruct (in_range i j K) as [Hi Hj]. pose proof (supp i j Hi Hj K) as Hw.
      apply cv_bound0 with (fun k => 4 / W i j * Ck k); [|apply cv_scal, C_cv].
      intros k. split; [apply nsq_nonneg|]. rewrite C_form.
      apply Rmult_le_reg_l with (W i j); [easy|].
      match goal with |- _ <= W i j * (4 / W i j * (/ 4 * ?S)) => replace (W i j * (4 / W i j * (/ 4 * S))) with S by (field; lra) end.
      assert (NN : forall a b, (a < n)%nat -> (b < n)%nat -> 0 <= W a b * nsq d (vsub (x (S k) a) (x (S k) b))).
      { intros. apply Rmult_le_pos; [apply nonneg; easy|apply nsq_nonneg]. }
      apply Rle_trans with (rsum n (fun b => W i b * nsq d (vsub (x (S k) i) (x (S k) b)))).
      - apply (rsum_ge_term n (fun b => W i b * nsq d (vsub (x (S k) i) (x (S k) b)))); auto.
      - apply (rsum_ge_term n (fun a => rsum n (fun b => W a b * nsq d (vsub (x (S k) a) (x (S k) b))))); [|easy].
        intros. apply rsum_nonneg. auto.
    Qed.
  End Multiplier.

  Lemma multiplier : exists ys : nat -> vec, forall j e, (j < n)%nat -> ap n P ys j e = - (rho * (gs j e + gradh j xs e)).
  Proof.
    destruct opt as (Hx & Hg & Hz).
    assert (forall m, exists ys : nat -> vec, forall j e, (j < n)%nat -> (e < m)%nat -> ap n P ys j e = - (rho * (gs j e + gradh j xs e))) as Hm.
    { induction m as [|m (ys & IH)]; [exists (fun _ => vzero); intros; lia|].
      destruct (solve_lap n W es sym rows nonneg conn supp in_range npos (fun j => - (rho * (gs j m + gradh j xs m)))) as (y & Hy).
      { rewrite (rsum_ext n _ (fun j => - rho * (gs j m + gradh j xs m))) by (intros; ring). rewrite rsum_scal, Hz. ring. }
      exists (fun j e => if Nat.eqb e m then y j else ys j e). intros j e Hj He. unfold ap. destruct (Nat.eqb e m) eqn:E.
      - apply Nat.eqb_eq in E. subst e. apply (Hy j Hj).
      - apply Nat.eqb_neq in E. apply (IH j e Hj). lia. }
    destruct (Hm d) as (ys & Hys). exists (fun j e => if Nat.ltb e d then ys j e else 0). intros j e Hj.
    unfold ap. destruct (Nat.ltb e d) eqn:E.
    - apply Nat.ltb_lt in E. apply (Hys j e Hj E).
    - apply Nat.ltb_ge in E. rewrite (proj1 (Hg j Hj) e E), (proj1 (gf j xs Hj Hx) e E). rewrite rsum_zero; [ring|]. intros; ring.
  Qed.

  Theorem pg_values : Un_cv (fun k => rsum n (fun j => val (f j) (x (S k) j) + val (h j) (x (S k) j))) (rsum n (fun j => val (f j) xs + val (h j) xs)).
  Proof.
    destruct multiplier as (ys & Hys). apply cv_minus. apply cv_ext with gapk; [|apply (gapk_cv ys Hys)].
    intros k. unfold gapk. rewrite rsum_minus. reflexivity.
  Qed.
  Theorem pg_steps : Un_cv (fun k => rsum n (fun j => nsq d (vsub (x (S k) j) (x k j)))) 0.
  Proof. destruct multiplier as (ys & Hys). apply (D_cv ys Hys). Qed.
  Theorem pg_consensus i j : (i < n)%nat -> (j < n)%nat -> Un_cv (fun k => nsq d (vsub (x (S k) i) (x (S k) j))) 0.
  Proof.
    intros Hi Hj. destruct multiplier as (ys & Hys). pose proof (conn i j Hi Hj) as R. clear Hi Hj.
    induction R as [i|i l m K _ IH].
    - apply cv_ext with (fun _ => 0); [|apply cv_const]. intros k. symmetry. unfold nsq, dot. apply rsum_zero. intros e _. unfold vsub. ring.
    - apply cv_bound0 with (fun k => 2 * nsq d (vsub (x (S k) i) (x (S k) l)) + 2 * nsq d (vsub (x (S k) l) (x (S k) m))).
      + intros k. split; [apply nsq_nonneg|apply nsq_tri].
      + apply cv_plus0; apply cv_scal; [apply (link_close ys Hys i l K)|easy].
  Qed.
  Theorem pg_iterates j0 : (j0 < n)%nat -> 0 < mu j0 -> forall j, (j < n)%nat -> Un_cv (fun k => nsq d (vsub (x (S k) j) xs)) 0.
  Proof.
    intros H0 Hm j Hj. destruct multiplier as (ys & Hys).
    apply cv_bound0 with (fun k => 2 * nsq d (vsub (x (S k) j) (x (S k) j0)) + 2 * nsq d (vsub (x (S k) j0) xs)).
    - intros k. split; [apply nsq_nonneg|apply nsq_tri].
    - apply cv_plus0; apply cv_scal; [apply pg_consensus; easy|].
      apply cv_bound0 with (fun k => 2 / mu j0 * Mk k); [|apply cv_scal, (M_cv ys Hys)].
      intros k. split; [apply nsq_nonneg|]. apply Rmult_le_reg_l with (mu j0 / 2); [lra|].
      replace (mu j0 / 2 * (2 / mu j0 * Mk k)) with (Mk k) by (field; lra).
      apply (rsum_ge_term n (fun j => mu j / 2 * nsq d (X (S k) j))); [|easy].
      intros i Hi. specialize (mu_pos i Hi). apply Rmult_le_pos; [lra|apply nsq_nonneg].
  Qed.
End PgConv.
