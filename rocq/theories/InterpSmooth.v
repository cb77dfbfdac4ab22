(** Interpolation of finite data by smooth strongly convex functions. *)
From Coq Require Import List Arith Bool Reals Lia Lra Psatz FunctionalExtensionality.
From Verif Require Import Prelude PreludeFacts Spec SpecFacts InterpFacts.
Local Open Scope R_scope.

Lemma cv_unique_le u v a b : Un_cv u a -> Un_cv v b -> (forall n, u n <= v n) -> a <= b.
Proof. intros A B C. apply (Rle_cv_lim C A B). Qed.
Lemma cv_rsum' n (u : nat -> nat -> R) l : (forall j, (j < n)%nat -> Un_cv (u j) (l j)) -> Un_cv (fun k => rsum n (fun j => u j k)) (rsum n l).
Proof.
  induction n as [|n IH]; intros H; cbn [rsum].
  - intros eps He. exists 0%nat. intros. unfold R_dist. rewrite Rminus_diag_eq by easy. rewrite Rabs_R0. easy.
  - apply (CV_plus (fun k => rsum n (fun j => u j k)) (u n)); [apply IH; intros; apply H; lia|apply H; lia].
Qed.
Lemma cv_cst c : Un_cv (fun _ => c) c.
Proof. intros eps He. exists 0%nat. intros. unfold R_dist. rewrite Rminus_diag_eq by easy. rewrite Rabs_R0. easy. Qed.
Lemma cv_inv_n A : 0 <= A -> Un_cv (fun n => A / (INR n + 1)) 0.
Proof.
  intros HA eps He. destruct (small A eps HA He) as (n0 & H). exists n0. intros n Hn. unfold R_dist. rewrite Rminus_0_r, Rabs_right; [apply H; lia|].
  apply Rle_ge, Rmult_le_pos; [easy|]. apply Rlt_le, Rinv_0_lt_compat. pose proof (pos_INR n). lra.
Qed.

Section Smooth.
  Variables (d N : nat) (M : R) (h c : nat -> vec) (e : nat -> R).
  Hypothesis Mpos : 0 < M.
  Notation Hf := (H d N h c e).
  Notation F := (Fy d N M h c e).
  Definition pr (y : vec) : vec := fun k =>
    match lt_dec k d with left Hk => proj1_sig (R_complete _ (cauchy d N M h c e Mpos y k Hk)) | right _ => 0 end.
  Lemma pr_cv y k : (k < d)%nat -> Un_cv (fun n => av d N M h c e y n k) (pr y k).
  Proof. intros Hk. unfold pr. destruct (lt_dec k d) as [Hk'|]; [|lia]. destruct (R_complete _ _). easy. Qed.
  Lemma pr_min y z : F y (pr y) <= F y z.
  Proof.
    unfold Fy at 1. unfold H. destruct (argto_ok N (aff d h c e (pr y))) as [Hi ->]. set (i := argto N (aff d h c e (pr y))) in *.
    apply (cv_unique_le (fun n => aff d h c e (av d N M h c e y n) i + M / 2 * nsq d (vsub (av d N M h c e y n) y)) (fun n => F y z + 8 * G d N h / M / (INR n + 1))).
    - unfold aff. apply (CV_plus (fun n => e i + dot d (h i) (vsub (av d N M h c e y n) (c i))) (fun n => M / 2 * nsq d (vsub (av d N M h c e y n) y))).
      + apply (CV_plus (fun _ => e i)); [apply cv_cst|]. unfold dot. apply (cv_rsum' d (fun k n => h i k * vsub (av d N M h c e y n) (c i) k)).
        intros k Hk. apply (CV_mult (fun _ => h i k)); [apply cv_cst|]. unfold vsub. apply (CV_minus (fun n => av d N M h c e y n k) (fun _ => c i k)); [apply pr_cv, Hk|apply cv_cst].
      + apply (CV_mult (fun _ => M / 2)); [apply cv_cst|]. unfold nsq, dot.
        apply (cv_rsum' d (fun k n => vsub (av d N M h c e y n) y k * vsub (av d N M h c e y n) y k)). intros k Hk.
        assert (C : Un_cv (fun n => vsub (av d N M h c e y n) y k) (vsub (pr y) y k)).
        { unfold vsub. apply (CV_minus (fun n => av d N M h c e y n k) (fun _ => y k)); [apply pr_cv, Hk|apply cv_cst]. }
        apply (CV_mult _ _ _ _ C C).
    - rewrite <- (Rplus_0_r (F y z)) at 1. apply (CV_plus (fun _ => F y z)); [apply cv_cst|]. apply cv_inv_n.
      pose proof (G_nonneg d N h). apply Rmult_le_pos; [lra|apply Rlt_le, Rinv_0_lt_compat; lra].
    - intros n. eapply Rle_trans; [|apply rate; easy]. unfold Fy, H. apply Rplus_le_compat_r. apply maxto_ge, Hi.
  Qed.
  (** the gradient of the envelope *)
  Definition sl (y : vec) : vec := vscal M (vsub y (pr y)).
  Lemma sl_sub y z : Hf z >= Hf (pr y) + dot d (sl y) (vsub z (pr y)).
  Proof.
    set (p := pr y). pose (q := nsq d (vsub z p)).
    assert (K : forall t, 0 < t <= 1 -> Hf p + dot d (sl y) (vsub z p) <= Hf z + t * (M / 2 * q)).
    { intros t Ht. pose proof (pr_min y (segment t z p)) as K. fold p in K. pose proof (H_seg d N h c e t z p ltac:(lra)) as K2. unfold Fy in K.
      assert (E : nsq d (vsub (segment t z p) y) = nsq d (vsub p y) + 2 * t * dot d (vsub p y) (vsub z p) + t * t * q).
      { unfold q, nsq, dot. rewrite <- !rsum_scal, <- !rsum_plus. apply rsum_ext. intros i _. unfold segment, vsub, vadd, vscal. ring. }
      assert (E2 : dot d (sl y) (vsub z p) = - M * dot d (vsub p y) (vsub z p)).
      { unfold sl. fold p. unfold dot. rewrite <- rsum_scal. apply rsum_ext. intros i _. unfold vsub, vscal. ring. }
      rewrite E in K. rewrite E2. set (a := dot d (vsub p y) (vsub z p)) in *. apply (Rmult_le_reg_l t); [lra|].
      replace (t * (Hf p + - M * a)) with (t * Hf p - t * M * a) by ring. replace (t * (Hf z + t * (M / 2 * q))) with (t * Hf z + M / 2 * (t * t * q)) by field.
      assert (M / 2 * (nsq d (vsub p y) + 2 * t * a + t * t * q) = M / 2 * nsq d (vsub p y) + t * M * a + M / 2 * (t * t * q)) by field. lra. }
    apply Rle_ge. apply (limit_le _ _ (M / 2 * q)); [|exact K]. unfold q. apply Rmult_le_pos; [lra|apply nsq_nonneg].
  Qed.
  Definition psi (y : vec) : R := F y (pr y).
  Lemma psi_lower y y' : psi y' >= psi y + dot d (sl y) (vsub y' y) + nsq d (vsub (sl y') (sl y)) / (2 * M).
  Proof.
    unfold psi, Fy. pose proof (sl_sub y (pr y')) as K. set (p := pr y) in *. set (p' := pr y') in *.
    assert (E : M / 2 * nsq d (vsub p' y') + dot d (sl y) (vsub p' p) = M / 2 * nsq d (vsub p y) + dot d (sl y) (vsub y' y) + nsq d (vsub (sl y') (sl y)) / (2 * M)).
    { unfold Rdiv. rewrite (Rmult_comm (nsq d (vsub (sl y') (sl y)))). unfold sl. fold p p'. unfold nsq, dot. rewrite <- !rsum_scal, <- !rsum_plus. apply rsum_ext. intros i _. unfold vsub, vscal. field. lra. }
    lra.
  Qed.
  Lemma psi_upper y y' : psi y' <= psi y + dot d (sl y) (vsub y' y) + M / 2 * nsq d (vsub y' y).
  Proof.
    unfold psi. eapply Rle_trans; [apply (pr_min y' (pr y))|]. unfold Fy.
    assert (E : M / 2 * nsq d (vsub (pr y) y') = M / 2 * nsq d (vsub (pr y) y) + dot d (sl y) (vsub y' y) + M / 2 * nsq d (vsub y' y)).
    { unfold sl, nsq, dot. rewrite <- !rsum_scal, <- !rsum_plus. apply rsum_ext. intros i _. unfold vsub, vscal. field. }
    lra.
  Qed.
  Lemma sl_cocoercive y y' : nsq d (vsub (sl y') (sl y)) <= M * dot d (vsub (sl y') (sl y)) (vsub y' y).
  Proof.
    pose proof (psi_lower y y') as A. pose proof (psi_lower y' y) as B.
    assert (E : nsq d (vsub (sl y) (sl y')) = nsq d (vsub (sl y') (sl y))) by (unfold nsq, dot; apply rsum_ext; intros; unfold vsub; ring).
    assert (E2 : dot d (sl y') (vsub y y') + dot d (sl y) (vsub y' y) = - dot d (vsub (sl y') (sl y)) (vsub y' y)).
    { unfold dot. rewrite <- rsum_plus. rewrite (rsum_ext d _ (fun k => -1 * (vsub (sl y') (sl y) k * vsub y' y k))) by (intros; unfold vsub; ring). rewrite rsum_scal. ring. }
    rewrite E in B. set (q := nsq d (vsub (sl y') (sl y))) in *. assert (K : q / M <= dot d (vsub (sl y') (sl y)) (vsub y' y)).
    { assert (q / (2 * M) + q / (2 * M) = q / M) by (field; lra). lra. }
    apply (Rmult_le_compat_l M) in K; [|lra]. replace (M * (q / M)) with q in K by (field; lra). easy.
  Qed.
  Lemma sl_lipschitz y y' : nsq d (vsub (sl y') (sl y)) <= M * M * nsq d (vsub y' y) /\ dot d (vsub (sl y') (sl y)) (vsub y' y) <= M * nsq d (vsub y' y).
  Proof.
    pose proof (sl_cocoercive y y') as A. set (S := vsub (sl y') (sl y)) in *. set (D := vsub y' y) in *.
    assert (K : 0 <= nsq d (vsub S (vscal M D))) by apply nsq_nonneg.
    assert (E : nsq d (vsub S (vscal M D)) = nsq d S - 2 * M * dot d S D + M * M * nsq d D).
    { unfold nsq, dot. rewrite <- !rsum_scal, <- rsum_minus, <- rsum_plus. apply rsum_ext. intros i _. unfold vsub, vscal. ring. }
    pose proof (nsq_nonneg d S) as PS. pose proof (nsq_nonneg d D) as PD. pose proof (cauchy_schwarz d S D) as C.
    assert (P : 0 <= dot d S D) by (apply (Rmult_le_reg_l M); lra).
    assert (Q : dot d S D <= M * nsq d D).
    { destruct (Rle_lt_or_eq_dec 0 (dot d S D) P) as [P1|P1].
      - apply (Rmult_le_reg_l (dot d S D)); [easy|]. apply Rle_trans with (nsq d S * nsq d D); [easy|].
        apply Rle_trans with (M * dot d S D * nsq d D); [apply Rmult_le_compat_r; lra|]. apply Req_le. ring.
      - rewrite <- P1. apply Rmult_le_pos; lra. }
    split; [|easy]. apply Rle_trans with (M * dot d S D); [easy|]. rewrite Rmult_assoc. apply Rmult_le_compat_l; lra.
  Qed.

  (** adding a multiple of the squared norm *)
  Variable mu : R.
  Hypothesis mu_nonneg : 0 <= mu.
  Definition sfun : rfun := mkFun (fun _ => True) (fun y => psi y + mu / 2 * nsq d y).
  Definition sgrad (y : vec) : vec := vadd (sl y) (vscal mu y).
  Lemma sfun_lower y y' : val sfun y' >= val sfun y + dot d (sgrad y) (vsub y' y) + mu / 2 * nsq d (vsub y' y).
  Proof.
    simpl. pose proof (psi_lower y y') as A. pose proof (nsq_nonneg d (vsub (sl y') (sl y))) as P.
    assert (0 <= nsq d (vsub (sl y') (sl y)) / (2 * M)) by (apply Rmult_le_pos; [easy|apply Rlt_le, Rinv_0_lt_compat; lra]).
    assert (E : dot d (sgrad y) (vsub y' y) = dot d (sl y) (vsub y' y) + mu * dot d y (vsub y' y)).
    { unfold sgrad. rewrite dot_add_l, dot_scal_l. easy. }
    assert (E2 : mu / 2 * nsq d y' = mu / 2 * nsq d y + mu * dot d y (vsub y' y) + mu / 2 * nsq d (vsub y' y)).
    { unfold nsq, dot. rewrite <- !rsum_scal, <- !rsum_plus. apply rsum_ext. intros i _. unfold vsub. field. }
    lra.
  Qed.
  Lemma sfun_upper y y' : val sfun y' <= val sfun y + dot d (sgrad y) (vsub y' y) + (M + mu) / 2 * nsq d (vsub y' y).
  Proof.
    simpl. pose proof (psi_upper y y') as A.
    assert (E : dot d (sgrad y) (vsub y' y) = dot d (sl y) (vsub y' y) + mu * dot d y (vsub y' y)).
    { unfold sgrad. rewrite dot_add_l, dot_scal_l. easy. }
    assert (E2 : mu / 2 * nsq d y' = mu / 2 * nsq d y + mu * dot d y (vsub y' y) + mu / 2 * nsq d (vsub y' y)).
    { unfold nsq, dot. rewrite <- !rsum_scal, <- !rsum_plus. apply rsum_ext. intros i _. unfold vsub. field. }
    lra.
  Qed.
  Lemma sfun_strong : strongly_convex d mu sfun.
  Proof.
    intros x y t _ _ Ht. split; [exact I|]. set (z := segment t x y).
    pose proof (sfun_lower z x) as A. pose proof (sfun_lower z y) as B.
    assert (E : t * dot d (sgrad z) (vsub x z) + (1 - t) * dot d (sgrad z) (vsub y z) = 0).
    { unfold dot. rewrite <- !rsum_scal, <- rsum_plus. apply rsum_zero. intros i _. unfold z, segment, vsub, vadd, vscal. ring. }
    assert (E2 : t * nsq d (vsub x z) + (1 - t) * nsq d (vsub y z) = t * (1 - t) * nsq d (vsub x y)).
    { unfold nsq, dot. rewrite <- !rsum_scal, <- rsum_plus. apply rsum_ext. intros i _. unfold z, segment, vsub, vadd, vscal. ring. }
    apply (Rmult_ge_compat_l t) in A; [|lra]. apply (Rmult_ge_compat_l (1 - t)) in B; [|lra].
    assert (E3 : mu / 2 * (t * (1 - t)) * nsq d (vsub x y) = mu / 2 * (t * nsq d (vsub x z)) + mu / 2 * ((1 - t) * nsq d (vsub y z))) by (rewrite <- Rmult_plus_distr_l, E2; ring).
    rewrite E3. lra.
  Qed.
  Lemma sandwich_deriv (f : R -> R) l C : 0 <= C -> (forall t, 0 <= f t - f 0 - t * l <= C * (t * t)) -> derivable_pt_lim f 0 l.
  Proof.
    intros HC K eps He. assert (Hd : 0 < eps / (C + 1)) by (apply Rdiv_lt_0_compat; lra). exists (mkposreal _ Hd). intros t Ht Hs. simpl in Hs. rewrite Rplus_0_l.
    specialize (K t). replace ((f t - f 0) / t - l) with ((f t - f 0 - t * l) / t) by (field; easy).
    unfold Rdiv. rewrite Rabs_mult, (Rabs_right (f t - f 0 - t * l)), Rabs_inv by (try easy; lra).
    assert (Pt : 0 < Rabs t) by (apply Rabs_pos_lt, Ht). assert (Q : t * t = Rabs t * Rabs t) by (rewrite <- Rabs_mult, Rabs_right; [easy|apply Rle_ge, Rle_0_sqr]).
    apply (Rmult_lt_reg_r (Rabs t)); [easy|]. rewrite Rmult_assoc, Rinv_l by lra. rewrite Rmult_1_r.
    apply Rle_lt_trans with (C * (t * t)); [easy|]. rewrite Q, <- Rmult_assoc. apply Rmult_lt_compat_r; [easy|].
    apply Rle_lt_trans with ((C + 1) * Rabs t - Rabs t); [lra|]. apply (Rmult_lt_compat_l (C + 1)) in Hs; [|lra]. replace ((C + 1) * (eps / (C + 1))) with eps in Hs by (field; lra). lra.
  Qed.
  Lemma sfun_smooth : smooth d (M + mu) sfun.
  Proof.
    split; [intros; exact I|]. exists sgrad. split.
    - intros x u. apply (sandwich_deriv _ _ ((M + mu) / 2 * nsq d u)); [apply Rmult_le_pos; [lra|apply nsq_nonneg]|]. intros t.
      assert (X : vadd x (vscal 0 u) = x) by (apply functional_extensionality; intros; unfold vadd, vscal; ring). rewrite X.
      pose proof (sfun_lower x (vadd x (vscal t u))) as A. pose proof (sfun_upper x (vadd x (vscal t u))) as B.
      assert (E : dot d (sgrad x) (vsub (vadd x (vscal t u)) x) = t * dot d (sgrad x) u) by (unfold dot; rewrite <- rsum_scal; apply rsum_ext; intros; unfold vsub, vadd, vscal; ring).
      assert (E2 : nsq d (vsub (vadd x (vscal t u)) x) = t * t * nsq d u) by (unfold nsq, dot; rewrite <- rsum_scal; apply rsum_ext; intros; unfold vsub, vadd, vscal; ring).
      rewrite E, E2 in *. pose proof (nsq_nonneg d u). assert (0 <= mu / 2 * (t * t * nsq d u)) by (apply Rmult_le_pos; [lra|apply Rmult_le_pos; [apply Rle_0_sqr|easy]]). lra.
    - intros x y. destruct (sl_lipschitz y x) as [A B].
      assert (E : nsq d (vsub (sgrad x) (sgrad y)) = nsq d (vsub (sl x) (sl y)) + 2 * mu * dot d (vsub (sl x) (sl y)) (vsub x y) + mu * mu * nsq d (vsub x y)).
      { unfold nsq, dot. rewrite <- !rsum_scal, <- !rsum_plus. apply rsum_ext. intros i _. unfold sgrad, vsub, vadd, vscal. ring. }
      rewrite E. assert (2 * mu * dot d (vsub (sl x) (sl y)) (vsub x y) <= 2 * mu * (M * nsq d (vsub x y))) by (apply Rmult_le_compat_l; lra).
      replace ((M + mu) * (M + mu) * nsq d (vsub x y)) with (M * M * nsq d (vsub x y) + 2 * mu * (M * nsq d (vsub x y)) + mu * mu * nsq d (vsub x y)) by ring. lra.
  Qed.
End Smooth.

(** data satisfying the inequalities of the class *)
Section Data.
  Variables (d N : nat) (mu L : R) (x g : nat -> vec) (f : nat -> R).
  Hypothesis par : 0 <= mu < L.
  Hypothesis ok : forall i j, (i <= N)%nat -> (j <= N)%nat ->
    f j - f i + dot d (g j) (vsub (x i) (x j)) + 1 / (2 * L) * nsq d (vsub (g i) (g j)) +
    mu / (2 * (1 - mu / L)) * nsq d (vsub (vsub (x i) (x j)) (vscal (1 / L) (vsub (g i) (g j)))) <= 0.
  Let M := L - mu.
  Let h (i : nat) : vec := vsub (g i) (vscal mu (x i)).
  Let fm (i : nat) : R := f i - mu / 2 * nsq d (x i).
  Let c (i : nat) : vec := vsub (x i) (vscal (/ M) (h i)).
  Let e (i : nat) : R := fm i - nsq d (h i) / (2 * M).
  Lemma Mp : 0 < M. Proof. unfold M. lra. Qed.
  (** the inequality without the quadratic part *)
  Lemma shifted i j : (i <= N)%nat -> (j <= N)%nat -> fm j - fm i + dot d (h j) (vsub (x i) (x j)) + / (2 * M) * nsq d (vsub (h i) (h j)) <= 0.
  Proof.
    intros Hi Hj. specialize (ok i j Hi Hj). pose proof Mp as P. unfold M in P. eapply Rle_trans; [|exact ok]. apply Req_le.
    assert (Q : 1 - mu / L <> 0). { intros E. assert (E1 : mu / L * L = mu) by (field; lra). assert (E2 : mu / L = 1) by lra. rewrite E2 in E1. lra. }
    unfold fm.
    transitivity (f j - f i + (- (mu / 2) * nsq d (x j) + mu / 2 * nsq d (x i) + dot d (h j) (vsub (x i) (x j)) + / (2 * M) * nsq d (vsub (h i) (h j)))); [ring|].
    transitivity (f j - f i + (dot d (g j) (vsub (x i) (x j)) + 1 / (2 * L) * nsq d (vsub (g i) (g j)) + mu / (2 * (1 - mu / L)) * nsq d (vsub (vsub (x i) (x j)) (vscal (1 / L) (vsub (g i) (g j)))))); [|ring].
    f_equal. unfold nsq, dot. rewrite <- !rsum_scal, <- !rsum_plus. apply rsum_ext. intros k _. unfold h, M, vsub, vscal. field. split; [|lra]. lra.
  Qed.
  Definition sinterp : rfun := sfun d N M h c e Mp mu.
  Lemma H_at i : (i <= N)%nat -> H d N h c e (c i) = e i.
  Proof.
    intros Hi. pose proof Mp as P. apply Rle_antisym.
    - apply maxto_le. intros j Hj. pose proof (shifted i j Hi Hj) as S. unfold aff, e.
      assert (E : dot d (h j) (vsub (c i) (c j)) = dot d (h j) (vsub (x i) (x j)) + / (2 * M) * nsq d (vsub (h i) (h j)) - nsq d (h i) / (2 * M) + nsq d (h j) / (2 * M)).
      { unfold Rdiv. rewrite (Rmult_comm (nsq d (h i))), (Rmult_comm (nsq d (h j))). unfold nsq, dot. rewrite <- !rsum_scal, <- rsum_plus, <- rsum_minus, <- rsum_plus.
        apply rsum_ext. intros k _. unfold c, vsub, vscal. field. lra. }
      lra.
    - eapply Rle_trans; [|apply maxto_ge, Hi]. unfold aff. assert (dot d (h i) (vsub (c i) (c i)) = 0) as -> by (unfold dot; apply rsum_zero; intros; unfold vsub; ring). lra.
  Qed.
  Lemma psi_data i y : (i <= N)%nat -> psi d N M h c e Mp y >= fm i + dot d (h i) (vsub y (x i)).
  Proof.
    intros Hi. pose proof Mp as P. unfold psi, Fy. set (z := pr d N M h c e Mp y). assert (K : fm i - nsq d (h i) / (2 * M) + dot d (h i) (vsub z (c i)) <= H d N h c e z) by exact (maxto_ge N (aff d h c e z) i Hi).
    pose proof (nsq_nonneg d (vsub (vscal M (vsub z y)) (vopp (h i)))) as Q.
    assert (E : dot d (h i) (vsub z (c i)) - nsq d (h i) / (2 * M) + M / 2 * nsq d (vsub z y) = dot d (h i) (vsub y (x i)) + / (2 * M) * nsq d (vsub (vscal M (vsub z y)) (vopp (h i)))).
    { unfold Rdiv at 1. rewrite (Rmult_comm (nsq d (h i))). unfold nsq, dot. rewrite <- !rsum_scal, <- rsum_minus, <- !rsum_plus. apply rsum_ext. intros k _. unfold c, vsub, vscal, vopp. field; lra. }
    assert (0 <= / (2 * M) * nsq d (vsub (vscal M (vsub z y)) (vopp (h i)))) by (apply Rmult_le_pos; [apply Rlt_le, Rinv_0_lt_compat; lra|easy]). lra.
  Qed.
  Lemma psi_at i : (i <= N)%nat -> psi d N M h c e Mp (x i) = fm i.
  Proof.
    intros Hi. pose proof Mp as P. apply Rle_antisym.
    - unfold psi. eapply Rle_trans; [apply (pr_min d N M h c e Mp (x i) (c i))|]. unfold Fy. rewrite H_at by easy. unfold e. apply Req_le.
      assert (E : M / 2 * nsq d (vsub (c i) (x i)) = nsq d (h i) / (2 * M)).
      { unfold Rdiv. rewrite (Rmult_comm (nsq d (h i))). unfold nsq, dot. rewrite <- !rsum_scal. apply rsum_ext. intros k _. unfold c, vsub, vscal. field. lra. }
      lra.
    - pose proof (psi_data i (x i) Hi) as K. assert (E : dot d (h i) (vsub (x i) (x i)) = 0) by (unfold dot; apply rsum_zero; intros; unfold vsub; ring). lra.
  Qed.
  Theorem smooth_interp : strongly_convex d mu sinterp /\ smooth d L sinterp /\ forall i, (i <= N)%nat -> sampled d sinterp (x i) (g i) (f i).
  Proof.
    split; [apply sfun_strong; lra|]. split.
    - replace L with (M + mu) by (unfold M; ring). apply sfun_smooth. lra.
    - intros i Hi. assert (V : val sinterp (x i) = f i) by (simpl; rewrite psi_at by easy; unfold fm; ring). split; [|easy]. split; [exact I|]. intros y _. rewrite V. simpl.
      pose proof (psi_data i y Hi) as K. unfold fm in K. pose proof (nsq_nonneg d (vsub y (x i))) as Q.
      assert (E : dot d (h i) (vsub y (x i)) + mu / 2 * nsq d y = dot d (g i) (vsub y (x i)) + mu / 2 * nsq d (x i) + mu / 2 * nsq d (vsub y (x i))).
      { unfold nsq, dot. rewrite <- !rsum_scal, <- !rsum_plus. apply rsum_ext. intros k _. unfold h, vsub, vscal. field. }
      assert (0 <= mu / 2 * nsq d (vsub y (x i))) by (apply Rmult_le_pos; lra). lra.
  Qed.
End Data.
