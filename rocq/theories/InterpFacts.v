(** Interpolation of finite data by (strongly) convex functions: a maximum of
    finitely many affine or quadratic functions; and the Moreau envelope of a
    maximum of affine functions for the smooth case. *)
From Coq Require Import List Arith Bool Reals Lia Lra Psatz FunctionalExtensionality.
From Verif Require Import Prelude PreludeFacts Spec SpecFacts.
Local Open Scope R_scope.

(** maximum of f 0, ..., f n, and where it is attained *)
Fixpoint maxto (n : nat) (f : nat -> R) : R := match n with O => f 0%nat | S m => Rmax (maxto m f) (f (S m)) end.
Fixpoint argto (n : nat) (f : nat -> R) : nat :=
  match n with O => 0%nat | S m => if Rle_dec (maxto m f) (f (S m)) then S m else argto m f end.
Lemma maxto_ge n f i : (i <= n)%nat -> f i <= maxto n f.
Proof.
  induction n as [|n IH]; intros H; simpl; [replace i with 0%nat by lia; lra|].
  destruct (Nat.eq_dec i (S n)) as [->|]; [apply Rmax_r|]. eapply Rle_trans; [apply IH; lia|apply Rmax_l].
Qed.
Lemma maxto_le n f b : (forall i, (i <= n)%nat -> f i <= b) -> maxto n f <= b.
Proof. induction n as [|n IH]; intros H; simpl; [apply H; lia|]. apply Rmax_lub; [apply IH; intros; apply H; lia|apply H; lia]. Qed.
Lemma argto_ok n f : (argto n f <= n)%nat /\ maxto n f = f (argto n f).
Proof.
  induction n as [|n [H1 H2]]; simpl; [split; [lia|easy]|]. destruct (Rle_dec (maxto n f) (f (S n))) as [H|H].
  - split; [lia|]. apply Rmax_right. easy.
  - split; [lia|]. rewrite <- H2. apply Rmax_left. lra.
Qed.

(** ** convex and strongly convex data *)
Section Strong.
  Variables (d N : nat) (mu : R) (x g : nat -> vec) (f : nat -> R).
  Hypothesis ok : forall i j, (i <= N)%nat -> (j <= N)%nat -> f j - f i + dot d (g j) (vsub (x i) (x j)) + mu / 2 * nsq d (vsub (x i) (x j)) <= 0.
  Definition piece (y : vec) (i : nat) : R := f i + dot d (g i) (vsub y (x i)) + mu / 2 * nsq d (vsub y (x i)).
  Definition envelope : rfun := mkFun (fun _ => True) (fun y => maxto N (piece y)).
  Lemma piece_seg t y z i : piece (segment t y z) i = t * piece y i + (1 - t) * piece z i - mu / 2 * (t * (1 - t)) * nsq d (vsub y z).
  Proof.
    unfold piece. assert (E1 : dot d (g i) (vsub (segment t y z) (x i)) = t * dot d (g i) (vsub y (x i)) + (1 - t) * dot d (g i) (vsub z (x i))).
    { unfold dot. rewrite <- !rsum_scal, <- rsum_plus. apply rsum_ext. intros k _. unfold segment, vsub, vadd, vscal. ring. }
    assert (E2 : nsq d (vsub (segment t y z) (x i)) = t * nsq d (vsub y (x i)) + (1 - t) * nsq d (vsub z (x i)) - t * (1 - t) * nsq d (vsub y z)).
    { unfold nsq, dot. rewrite <- !rsum_scal, <- rsum_plus, <- rsum_minus. apply rsum_ext. intros k _. unfold segment, vsub, vadd, vscal. ring. }
    rewrite E1, E2. ring.
  Qed.
  Lemma envelope_strong : strongly_convex d mu envelope.
  Proof.
    intros y z t _ _ Ht. split; [exact I|]. simpl. apply maxto_le. intros i Hi. rewrite piece_seg.
    pose proof (maxto_ge N (piece y) i Hi). pose proof (maxto_ge N (piece z) i Hi).
    assert (t * piece y i <= t * maxto N (piece y)) by (apply Rmult_le_compat_l; lra).
    assert ((1 - t) * piece z i <= (1 - t) * maxto N (piece z)) by (apply Rmult_le_compat_l; lra). lra.
  Qed.
  Lemma envelope_value i : (i <= N)%nat -> val envelope (x i) = f i.
  Proof.
    intros Hi. simpl. apply Rle_antisym.
    - apply maxto_le. intros j Hj. unfold piece. specialize (ok i j Hi Hj). lra.
    - eapply Rle_trans; [|apply maxto_ge, Hi]. unfold piece.
      assert (dot d (g i) (vsub (x i) (x i)) = 0) as -> by (unfold dot; apply rsum_zero; intros; unfold vsub; ring).
      assert (nsq d (vsub (x i) (x i)) = 0) as -> by (unfold nsq, dot; apply rsum_zero; intros; unfold vsub; ring). lra.
  Qed.
  Theorem strong_interp : 0 <= mu -> strongly_convex d mu envelope /\ forall i, (i <= N)%nat -> sampled d envelope (x i) (g i) (f i).
  Proof.
    intros Hm. split; [apply envelope_strong|]. intros i Hi. split; [|apply envelope_value, Hi]. split; [exact I|]. intros y _.
    rewrite (envelope_value i Hi). simpl. pose proof (maxto_ge N (piece y) i Hi) as H. unfold piece at 1 in H.
    pose proof (nsq_nonneg d (vsub y (x i))). assert (0 <= mu / 2 * nsq d (vsub y (x i))) by (apply Rmult_le_pos; lra). lra.
  Qed.
End Strong.

(** ** the Moreau envelope of a maximum of affine functions *)
Section Moreau.
  Variables (d N : nat) (M : R) (h c : nat -> vec) (e : nat -> R).
  Hypothesis Mpos : 0 < M.
  Definition aff (z : vec) (i : nat) : R := e i + dot d (h i) (vsub z (c i)).
  Definition H (z : vec) : R := maxto N (aff z).
  Definition Fy (y z : vec) : R := H z + M / 2 * nsq d (vsub z y).
  Lemma aff_seg t y z i : aff (segment t y z) i = t * aff y i + (1 - t) * aff z i.
  Proof.
    unfold aff. assert (E1 : dot d (h i) (vsub (segment t y z) (c i)) = t * dot d (h i) (vsub y (c i)) + (1 - t) * dot d (h i) (vsub z (c i))).
    { unfold dot. rewrite <- !rsum_scal, <- rsum_plus. apply rsum_ext. intros k _. unfold segment, vsub, vadd, vscal. ring. }
    rewrite E1. ring.
  Qed.
  Lemma H_seg t y z : 0 <= t <= 1 -> H (segment t y z) <= t * H y + (1 - t) * H z.
  Proof.
    intros Ht. apply maxto_le. intros i Hi. rewrite aff_seg. pose proof (maxto_ge N (aff y) i Hi). pose proof (maxto_ge N (aff z) i Hi). unfold H.
    assert (t * aff y i <= t * maxto N (aff y)) by (apply Rmult_le_compat_l; lra).
    assert ((1 - t) * aff z i <= (1 - t) * maxto N (aff z)) by (apply Rmult_le_compat_l; lra). lra.
  Qed.
  Lemma F_seg y t u v : 0 <= t <= 1 -> Fy y (segment t u v) <= t * Fy y u + (1 - t) * Fy y v - M / 2 * (t * (1 - t)) * nsq d (vsub u v).
  Proof.
    intros Ht. unfold Fy. pose proof (H_seg t u v Ht) as K.
    assert (E2 : nsq d (vsub (segment t u v) y) = t * nsq d (vsub u y) + (1 - t) * nsq d (vsub v y) - t * (1 - t) * nsq d (vsub u v)).
    { unfold nsq, dot. rewrite <- !rsum_scal, <- rsum_plus, <- rsum_minus. apply rsum_ext. intros k _. unfold segment, vsub, vadd, vscal. ring. }
    rewrite E2. lra.
  Qed.
  (** a convergent scheme for the minimiser of Fy y: the subgradient method with averaging *)
  Definition slope (z : vec) : vec := h (argto N (aff z)).
  Lemma slope_sub z w : H w >= H z + dot d (slope z) (vsub w z).
  Proof.
    unfold H, slope. destruct (argto_ok N (aff z)) as [K1 K2]. rewrite K2. pose proof (maxto_ge N (aff w) _ K1) as K3. unfold aff at 2. unfold aff at 1 in K3.
    assert (E : dot d (h (argto N (aff z))) (vsub w (c (argto N (aff z)))) = dot d (h (argto N (aff z))) (vsub z (c (argto N (aff z)))) + dot d (h (argto N (aff z))) (vsub w z)).
    { unfold dot. rewrite <- rsum_plus. apply rsum_ext. intros k _. unfold vsub. ring. }
    lra.
  Qed.
  Definition G : R := rsum (S N) (fun i => nsq d (h i)).
  Lemma G_nonneg : 0 <= G. Proof. apply rsum_nonneg. intros. apply nsq_nonneg. Qed.
  Lemma slope_bound z : nsq d (slope z) <= G.
  Proof.
    unfold slope. destruct (argto_ok N (aff z)) as [K1 _]. unfold G. set (i := argto N (aff z)) in *.
    replace (nsq d (h i)) with (rsum (S N) (fun k => if Nat.eqb k i then nsq d (h i) else 0)) by (rewrite rsum_single by lia; easy).
    apply rsum_le. intros k _. destruct (Nat.eqb_spec k i) as [->|]; [lra|apply nsq_nonneg].
  Qed.
  Fixpoint zs (y : vec) (k : nat) : vec :=
    match k with
    | O => y
    | S k' => vsub (zs y k') (vscal (2 / (INR k' + 2) / M) (vadd (slope (zs y k')) (vscal M (vsub (zs y k') y))))
    end.
  Fixpoint av (y : vec) (n : nat) : vec :=
    match n with O => y | S n' => segment (1 - 2 / (INR n' + 3)) (av y n') (zs y (S n')) end.
  Lemma beta k : 0 < 2 / (INR k + 2) <= 1.
  Proof.
    pose proof (pos_INR k). split; [apply Rdiv_lt_0_compat; lra|]. apply (Rmult_le_reg_r (INR k + 2)); [lra|]. unfold Rdiv. rewrite Rmult_assoc, Rinv_l by lra. lra.
  Qed.
  Lemma w_bound y k : nsq d (vscal M (vsub (zs y k) y)) <= G.
  Proof.
    induction k as [|k IH]; cbn [zs].
    - assert (nsq d (vscal M (vsub y y)) = 0) as ->; [|apply G_nonneg]. unfold nsq, dot. apply rsum_zero. intros. unfold vscal, vsub. ring.
    - destruct (beta k) as [B1 B2]. pose proof (pos_INR k) as Pk. set (b := 2 / (INR k + 2)) in *. set (z := zs y k) in *. pose proof (slope_bound z) as S.
      assert (E : nsq d (vscal M (vsub (vsub z (vscal (b / M) (vadd (slope z) (vscal M (vsub z y))))) y)) =
        (1 - b) * nsq d (vscal M (vsub z y)) + b * nsq d (slope z) - b * (1 - b) * nsq d (vadd (vscal M (vsub z y)) (slope z))).
      { unfold nsq, dot. rewrite <- !rsum_scal, <- rsum_plus, <- rsum_minus. apply rsum_ext. intros i _. unfold vscal, vsub, vadd. field. lra. }
      rewrite E. pose proof (nsq_nonneg d (vadd (vscal M (vsub z y)) (slope z))) as P.
      assert (0 <= b * (1 - b) * nsq d (vadd (vscal M (vsub z y)) (slope z))) by (apply Rmult_le_pos; [apply Rmult_le_pos; lra|easy]).
      assert ((1 - b) * nsq d (vscal M (vsub z y)) <= (1 - b) * G) by (apply Rmult_le_compat_l; lra).
      assert (b * nsq d (slope z) <= b * G) by (apply Rmult_le_compat_l; lra). lra.
  Qed.
  Lemma sub_norm y k : nsq d (vadd (slope (zs y k)) (vscal M (vsub (zs y k) y))) <= 4 * G.
  Proof.
    pose proof (slope_bound (zs y k)) as A. pose proof (w_bound y k) as B. set (u := slope (zs y k)) in *. set (w := vscal M (vsub (zs y k) y)) in *.
    assert (E : nsq d (vadd u w) = 2 * nsq d u + 2 * nsq d w - nsq d (vsub u w)).
    { unfold nsq, dot. rewrite <- !rsum_scal, <- rsum_plus, <- rsum_minus. apply rsum_ext. intros i _. unfold vsub, vadd. ring. }
    pose proof (nsq_nonneg d (vsub u w)). lra.
  Qed.
  Lemma descent y z k : let b := 2 / (INR k + 2) in
    nsq d (vsub (zs y (S k)) z) <= (1 - b) * nsq d (vsub (zs y k) z) - 2 * b / M * (Fy y (zs y k) - Fy y z) + 4 * G * (b * b) / (M * M).
  Proof.
    intros b. cbn [zs]. fold b. destruct (beta k) as [B1 B2]. fold b in B1, B2. pose proof (sub_norm y k) as S. pose proof (slope_sub (zs y k) z) as K.
    set (w := zs y k) in *. set (u := vadd (slope w) (vscal M (vsub w y))) in *.
    assert (E : nsq d (vsub (vsub w (vscal (b / M) u)) z) = nsq d (vsub w z) - 2 * b / M * dot d u (vsub w z) + b * b / (M * M) * nsq d u).
    { unfold nsq, dot. rewrite <- !rsum_scal, <- rsum_minus, <- rsum_plus. apply rsum_ext. intros i _. unfold vsub, vscal. field. lra. }
    assert (E2 : dot d u (vsub w z) = - dot d (slope w) (vsub z w) + M / 2 * (nsq d (vsub w z) + nsq d (vsub w y) - nsq d (vsub z y))).
    { unfold nsq, dot, u.
      transitivity (rsum d (fun k0 => - (slope w k0 * vsub z w k0) + M / 2 * (vsub w z k0 * vsub w z k0 + vsub w y k0 * vsub w y k0 - vsub z y k0 * vsub z y k0))).
      - apply rsum_ext. intros i _. unfold vsub, vadd, vscal. field.
      - rewrite rsum_plus, rsum_scal, rsum_minus, rsum_plus. f_equal. rewrite (rsum_ext d _ (fun k0 => -1 * (slope w k0 * vsub z w k0))) by (intros; ring). rewrite rsum_scal. ring. }
    rewrite E. unfold Fy. assert (0 < b / M) by (apply Rdiv_lt_0_compat; easy).
    assert (D : dot d u (vsub w z) >= H w + M / 2 * nsq d (vsub w y) - (H z + M / 2 * nsq d (vsub z y)) + M / 2 * nsq d (vsub w z)) by lra.
    assert (D2 : 2 * b / M * dot d u (vsub w z) >= 2 * b / M * (H w + M / 2 * nsq d (vsub w y) - (H z + M / 2 * nsq d (vsub z y)) + M / 2 * nsq d (vsub w z))).
    { apply Rmult_ge_compat_l; [|easy]. unfold Rdiv in *. lra. }
    assert (D3 : 2 * b / M * (M / 2 * nsq d (vsub w z)) = b * nsq d (vsub w z)) by (field; lra).
    assert (D4 : b * b / (M * M) * nsq d u <= 4 * G * (b * b) / (M * M)).
    { replace (4 * G * (b * b) / (M * M)) with (b * b / (M * M) * (4 * G)) by (field; lra). apply Rmult_le_compat_l; [|easy].
      apply Rlt_le, Rdiv_lt_0_compat; apply Rmult_lt_0_compat; lra. }
    rewrite Rmult_plus_distr_l in D2. lra.
  Qed.
  Lemma average y z n : (INR n + 1) * (INR n + 2) * (2 / M * (Fy y (av y n) - Fy y z) + nsq d (vsub (zs y (S n)) z)) <= 16 * G * (INR n + 1) / (M * M).
  Proof.
    induction n as [|n IH].
    - pose proof (descent y z 0) as D. cbv zeta in D. simpl INR in *. replace (2 / (0 + 2)) with 1 in D by lra. change (zs y 0) with y in D. cbn [av].
      replace (16 * G * (0 + 1) / (M * M)) with (2 * (2 * (4 * G * (1 * 1) / (M * M)))) by (field; lra). 
      assert (E : 2 * 1 / M * (Fy y y - Fy y z) = 2 / M * (Fy y y - Fy y z)) by (field; lra).
      assert (0 <= 4 * G * (1 * 1) / (M * M)). { pose proof G_nonneg. apply Rmult_le_pos; [lra|]. apply Rlt_le, Rinv_0_lt_compat. nra. }
      lra.
    - pose proof (descent y z (S n)) as D. cbv zeta in D. set (r1 := nsq d (vsub (zs y (S n)) z)) in *. set (r2 := nsq d (vsub (zs y (S (S n))) z)) in *.
      change (av y (S n)) with (segment (1 - 2 / (INR n + 3)) (av y n) (zs y (S n))).
      rewrite S_INR in *. set (m := INR n) in *. assert (Hm : 0 <= m) by apply pos_INR.
      assert (B : 0 <= 1 - 2 / (m + 3) <= 1).
      { assert (0 < 2 / (m + 3)) by (apply Rdiv_lt_0_compat; lra). assert (2 / (m + 3) <= 1) by (apply (Rmult_le_reg_r (m + 3)); [lra|]; unfold Rdiv; rewrite Rmult_assoc, Rinv_l by lra; lra). lra. }
      pose proof (F_seg y (1 - 2 / (m + 3)) (av y n) (zs y (S n)) B) as K.
      set (Fa := Fy y (av y n)) in *. set (Fz := Fy y z) in *. set (F1 := Fy y (zs y (S n))) in *. set (F2 := Fy y (segment (1 - 2 / (m + 3)) (av y n) (zs y (S n)))) in *.
      assert (K2 : F2 <= (1 - 2 / (m + 3)) * Fa + (2 / (m + 3)) * F1).
      { pose proof (nsq_nonneg d (vsub (av y n) (zs y (S n)))) as P.
        assert (0 <= M / 2 * ((1 - 2 / (m + 3)) * (1 - (1 - 2 / (m + 3)))) * nsq d (vsub (av y n) (zs y (S n)))) by (apply Rmult_le_pos; [apply Rmult_le_pos; [lra|apply Rmult_le_pos; lra]|easy]). lra. }
      assert (K3 : (m + 1 + 1) * (m + 1 + 2) * F2 <= (m + 1) * (m + 2) * Fa + 2 * (m + 2) * F1).
      { apply Rle_trans with ((m + 1 + 1) * (m + 1 + 2) * ((1 - 2 / (m + 3)) * Fa + 2 / (m + 3) * F1)); [apply Rmult_le_compat_l; [apply Rmult_le_pos; lra|easy]|].
        apply Req_le. field. lra. }
      replace (m + 1 + 2) with (m + 3) in * by ring.
      assert (D2 : (m + 2) * (m + 3) * r2 <= (m + 2) * (m + 3) * ((1 - 2 / (m + 3)) * r1 - 2 * (2 / (m + 3)) / M * (F1 - Fz) + 4 * G * (2 / (m + 3) * (2 / (m + 3))) / (M * M))).
      { apply Rmult_le_compat_l; [apply Rmult_le_pos; lra|easy]. }
      replace ((m + 2) * (m + 3) * ((1 - 2 / (m + 3)) * r1 - 2 * (2 / (m + 3)) / M * (F1 - Fz) + 4 * G * (2 / (m + 3) * (2 / (m + 3))) / (M * M)))
        with ((m + 1) * (m + 2) * r1 - 4 * (m + 2) / M * (F1 - Fz) + 16 * G / (M * M) * ((m + 2) / (m + 3))) in D2 by (field; lra).
      assert (Q : 16 * G / (M * M) * ((m + 2) / (m + 3)) <= 16 * G / (M * M)).
      { rewrite <- (Rmult_1_r (16 * G / (M * M))) at 2. apply Rmult_le_compat_l.
        - pose proof G_nonneg. apply Rmult_le_pos; [lra|]. apply Rlt_le, Rinv_0_lt_compat. nra.
        - apply (Rmult_le_reg_r (m + 3)); [lra|]. unfold Rdiv. rewrite Rmult_assoc, Rinv_l by lra. lra. }
      assert (K4 : 2 / M * ((m + 2) * (m + 3) * F2) <= 2 / M * ((m + 1) * (m + 2) * Fa + 2 * (m + 2) * F1)).
      { apply Rmult_le_compat_l; [apply Rlt_le, Rdiv_lt_0_compat; lra|]. replace (m + 1 + 1) with (m + 2) in K3 by ring. easy. }
      replace (m + 1 + 1) with (m + 2) by ring.
      replace ((m + 2) * (m + 3) * (2 / M * (F2 - Fz) + r2)) with (2 / M * ((m + 2) * (m + 3) * F2) - 2 / M * ((m + 2) * (m + 3)) * Fz + (m + 2) * (m + 3) * r2) by ring.
      replace (16 * G * (m + 2) / (M * M)) with (16 * G * (m + 1) / (M * M) + 16 * G / (M * M)) by (field; lra).
      replace (2 / M * ((m + 1) * (m + 2) * Fa + 2 * (m + 2) * F1)) with (2 / M * ((m + 1) * (m + 2)) * Fa + 4 * (m + 2) / M * F1) in K4 by (field; lra).
      replace ((m + 1) * (m + 2) * (2 / M * (Fa - Fz) + r1)) with (2 / M * ((m + 1) * (m + 2)) * Fa - 2 / M * ((m + 1) * (m + 2)) * Fz + (m + 1) * (m + 2) * r1) in IH by ring.
      assert (E5 : 2 / M * ((m + 2) * (m + 3)) * Fz = 2 / M * ((m + 1) * (m + 2)) * Fz + 4 * (m + 2) / M * Fz) by (field; lra).
      assert (E6 : 4 * (m + 2) / M * (F1 - Fz) = 4 * (m + 2) / M * F1 - 4 * (m + 2) / M * Fz) by ring. lra.
  Qed.
  Lemma rate y z n : Fy y (av y n) <= Fy y z + 8 * G / M / (INR n + 1).
  Proof.
    pose proof (average y z n) as A. pose proof (pos_INR n) as Pn. set (m := INR n) in *. pose proof (nsq_nonneg d (vsub (zs y (S n)) z)) as R. set (r := nsq d (vsub (zs y (S n)) z)) in *.
    set (D := Fy y (av y n) - Fy y z). assert (A2 : (m + 1) * ((m + 2) * (2 / M * D + r)) <= (m + 1) * (16 * G / (M * M))).
    { replace ((m + 1) * (16 * G / (M * M))) with (16 * G * (m + 1) / (M * M)) by (field; lra). unfold D. lra. }
    apply Rmult_le_reg_l in A2; [|lra]. assert (A3 : (m + 2) * (2 / M * D) <= 16 * G / (M * M)) by (assert (0 <= (m + 2) * r) by (apply Rmult_le_pos; lra); lra).
    assert (A4 : (m + 2) * D <= 8 * G / M).
    { apply (Rmult_le_reg_l (2 / M)); [apply Rdiv_lt_0_compat; lra|]. replace (2 / M * (8 * G / M)) with (16 * G / (M * M)) by (field; lra). lra. }
    assert (G0 : 0 <= 8 * G / M) by (pose proof G_nonneg; apply Rmult_le_pos; [lra|apply Rlt_le, Rinv_0_lt_compat; lra]).
    assert (D <= 8 * G / M / (m + 1)); [|unfold D in *; lra].
    apply (Rmult_le_reg_l (m + 1)); [lra|]. replace ((m + 1) * (8 * G / M / (m + 1))) with (8 * G / M) by (field; lra).
    destruct (Rle_dec 0 D); [nra|]. assert ((m + 1) * D <= 0) by nra. lra.
  Qed.
  Lemma close y n k : (n <= k)%nat -> nsq d (vsub (av y n) (av y k)) <= 64 * G / (M * M) / (INR n + 1).
  Proof.
    intros Hnk. pose proof (F_seg y (1 / 2) (av y n) (av y k) ltac:(lra)) as K. set (p := segment (1 / 2) (av y n) (av y k)) in *.
    pose proof (rate y p n) as R1. pose proof (rate y p k) as R2. set (q := nsq d (vsub (av y n) (av y k))) in *.
    pose proof (le_INR n k Hnk) as L. pose proof (pos_INR n) as Pn. set (A := 8 * G / M) in *.
    assert (A0 : 0 <= A) by (unfold A; pose proof G_nonneg; apply Rmult_le_pos; [lra|apply Rlt_le, Rinv_0_lt_compat; lra]).
    assert (R3 : A / (INR k + 1) <= A / (INR n + 1)) by (apply Rmult_le_compat_l; [easy|apply Rinv_le_contravar; lra]).
    assert (Q : M / 8 * q <= A / (INR n + 1)) by lra.
    replace (64 * G / (M * M) / (INR n + 1)) with (8 / M * (A / (INR n + 1))) by (unfold A; field; lra).
    replace q with (8 / M * (M / 8 * q)) by (field; lra). apply Rmult_le_compat_l; [apply Rlt_le, Rdiv_lt_0_compat; lra|easy].
  Qed.
  Lemma coord_sq n u k : (k < n)%nat -> u k * u k <= nsq n u.
  Proof.
    intros Hk. unfold nsq, dot. replace (u k * u k) with (rsum n (fun j => if Nat.eqb j k then u k * u k else 0)) by (rewrite rsum_single by lia; easy).
    apply rsum_le. intros j _. destruct (Nat.eqb_spec j k) as [->|]; [lra|apply Rle_0_sqr].
  Qed.
  Lemma small A eps : 0 <= A -> 0 < eps -> exists n0, forall n, (n0 <= n)%nat -> A / (INR n + 1) < eps.
  Proof.
    intros HA He. destruct (archimed_cor1 (eps / (A + 1))) as (n0 & H1 & H2); [apply Rdiv_lt_0_compat; lra|]. exists n0. intros n Hn.
    pose proof (le_INR n0 n Hn) as L. assert (P : 0 < INR n0) by (apply lt_0_INR; lia).
    assert (K : / (INR n + 1) < eps / (A + 1)) by (apply Rle_lt_trans with (/ INR n0); [apply Rinv_le_contravar; lra|easy]).
    assert (K2 : (A + 1) * / (INR n + 1) < eps).
    { apply (Rmult_lt_compat_l (A + 1)) in K; [|lra]. replace ((A + 1) * (eps / (A + 1))) with eps in K by (field; lra). easy. }
    assert (0 < / (INR n + 1)) by (apply Rinv_0_lt_compat; lra). unfold Rdiv. lra.
  Qed.
  Lemma cauchy y k : (k < d)%nat -> Cauchy_crit (fun n => av y n k).
  Proof.
    intros Hk eps He. destruct (small (64 * G / (M * M)) (eps * eps)) as (n0 & Hn0).
    { pose proof G_nonneg. apply Rmult_le_pos; [lra|]. apply Rlt_le, Rinv_0_lt_compat. nra. }
    { nra. }
    assert (W : forall n m, (n0 <= n)%nat -> (n <= m)%nat -> Rabs (av y n k - av y m k) < eps).
    { intros n m Hn Hm. pose proof (close y n m Hm) as C. pose proof (coord_sq d (vsub (av y n) (av y m)) k Hk) as C2. specialize (Hn0 n Hn).
      unfold vsub at 1 2 in C2. rewrite <- (Rabs_right eps) by lra. apply Rsqr_lt_abs_0. unfold Rsqr. lra. }
    exists n0. intros n m Hn Hm. unfold R_dist. destruct (le_lt_dec n m); [apply W; easy|]. rewrite Rabs_minus_sym. apply W; [easy|lia].
  Qed.
End Moreau.
