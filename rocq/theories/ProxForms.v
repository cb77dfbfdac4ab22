From Coq Require Import List Arith Bool Reals Lia Lra Psatz FunctionalExtensionality.
From Verif Require Import Prelude PreludeFacts Spec SpecFacts BuilderSpec MethodModel MethodSpec ProxSpec ProxFacts.
Local Open Scope R_scope.

Lemma norm_nonneg d v : 0 <= norm d v. Proof. apply sqrt_pos. Qed.
Lemma norm_sq d v : norm d v * norm d v = nsq d v. Proof. apply sqrt_sqrt, nsq_nonneg. Qed.
Lemma dot_norm d u v : dot d u v <= norm d u * norm d v.
Proof.
  pose proof (cauchy_schwarz d u v) as H. rewrite <- (norm_sq d u), <- (norm_sq d v) in H.
  pose proof (norm_nonneg d u) as N1. pose proof (norm_nonneg d v) as N2.
  assert (P : 0 <= norm d u * norm d v) by (apply Rmult_le_pos; easy).
  destruct (Rle_lt_dec (dot d u v) (norm d u * norm d v)) as [K|K]; [easy|]. nra.
Qed.
Lemma nsq_split d y x z : nsq d (vsub y z) = nsq d (vsub y x) + 2 * dot d (vsub y x) (vsub x z) + nsq d (vsub x z).
Proof. unfold nsq. rewrite !dot_sub_l, !dot_sub_r, (dot_comm d z y), (dot_comm d z x), (dot_comm d x y). ring. Qed.
Lemma prox_intro d phi rho z x : 0 < rho -> in_Rd d x -> dom phi x ->
  (forall y, in_Rd d y -> dom phi y -> 2 * rho * val phi x + nsq d (vsub x z) <= 2 * rho * val phi y + nsq d (vsub y z)) -> is_prox d phi rho z x.
Proof.
  intros Hr Hx Dx H. split; [easy|]. cbn [dom val]. intros y [Hy Dy]. specialize (H y Hy Dy).
  apply Rmult_le_reg_l with (2 * rho); [lra|].
  replace (2 * rho * (val phi x + nsq d (vsub x z) / (2 * rho))) with (2 * rho * val phi x + nsq d (vsub x z)) by (field; lra).
  replace (2 * rho * (val phi y + nsq d (vsub y z) / (2 * rho))) with (2 * rho * val phi y + nsq d (vsub y z)) by (field; lra). easy.
Qed.

Theorem prox_halfspace_correct d z rho a b x : 0 < rho -> in_Rd d z -> in_Rd d a ->
  prox_halfspace d z rho a b = Some x -> is_prox d (halfspace d a b) rho z x.
Proof.
  intros Hr Hz Ha. unfold prox_halfspace. destruct (Rle_dec (dot d a z - b) 0) as [H|H].
  - intros E. injection E as <-. apply prox_intro; [easy|easy|simpl; lra|]. intros y Hy Dy. simpl.
    assert (nsq d (vsub z z) = 0) as -> by (unfold nsq, dot; apply rsum_zero; intros; unfold vsub; ring). pose proof (nsq_nonneg d (vsub y z)). lra.
  - destruct (Req_EM_T (nsq d a) 0) as [|N]; [easy|]. intros E. injection E as <-. set (t := (b - dot d a z) / nsq d a).
    assert (Hn : 0 < nsq d a) by (pose proof (nsq_nonneg d a); lra).
    assert (Ht : t <= 0) by (unfold t; apply Rmult_le_reg_r with (nsq d a); [easy|]; unfold Rdiv; rewrite Rmult_assoc, Rinv_l by lra; lra).
    assert (Hb : dot d a (vadd z (vscal t a)) = b).
    { rewrite dot_add_r, dot_scal_r. change (dot d a a) with (nsq d a). unfold t. field. lra. }
    apply prox_intro; [easy| |simpl; lra|].
    + intros k Hk. unfold vadd, vscal. rewrite Hz, Ha by easy. ring.
    + intros y Hy Dy. simpl in *. rewrite (nsq_split d y (vadd z (vscal t a)) z).
      assert (Ex : vsub (vadd z (vscal t a)) z = vscal t a) by (apply functional_extensionality; intros; unfold vsub, vadd; ring).
      rewrite Ex, dot_scal_r, dot_sub_l, (dot_comm d y a), (dot_comm d _ a), Hb. pose proof (nsq_nonneg d (vsub y (vadd z (vscal t a)))).
      assert (0 <= t * (dot d a y - b)) by nra. lra.
Qed.
Theorem prox_halfspace_defined d z rho a b : 0 < nsq d a -> exists x, prox_halfspace d z rho a b = Some x.
Proof. intros H. unfold prox_halfspace. destruct (Rle_dec _ 0); eauto. destruct (Req_EM_T (nsq d a) 0); [lra|eauto]. Qed.
(** a zero normal vector: the result is only defined when the constraint holds everywhere *)
Theorem prox_halfspace_degenerate d z rho a b : nsq d a = 0 -> (prox_halfspace d z rho a b = None <-> b < 0).
Proof.
  intros H. assert (E : dot d a z = 0).
  { pose proof (nsq_zero d a H) as K. unfold dot. apply rsum_zero. intros k Hk. rewrite K by easy. ring. }
  unfold prox_halfspace. rewrite E. destruct (Rle_dec (0 - b) 0); destruct (Req_EM_T (nsq d a) 0); try lra; split; intros; try lra; easy.
Qed.

Theorem prox_norm_correct d z rho b x : 0 < rho -> in_Rd d z -> in_Rd d b ->
  prox_norm d z rho b = Some x -> is_prox d (distance d b) rho z x.
Proof.
  intros Hr Hz Hb. unfold prox_norm. set (e := vsub b z). set (r := norm d e). destruct (Req_EM_T r 0) as [|N]; [easy|]. intros E. injection E as <-.
  assert (Hr0 : 0 < r) by (pose proof (norm_nonneg d e); unfold r in *; lra).
  assert (Hrr : r * r = nsq d e) by apply norm_sq.
  apply prox_intro; [easy| |exact I|].
  { intros k Hk. unfold vsub at 1, vscal. rewrite Hb by easy. unfold e, vsub. rewrite Hb, Hz by easy. ring. }
  intros y Hy _. unfold distance. cbn [val]. change (sqrt (nsq d (vsub y b))) with (norm d (vsub y b)).
  set (w := vsub y z). destruct (Rle_lt_dec r rho) as [C|C].
  - rewrite Rmax_right by lra.
    assert (Ex : vsub b (vscal 0 (vscal (/ r) e)) = b) by (apply functional_extensionality; intros; unfold vsub, vscal; ring). rewrite Ex.
    assert (Z : nsq d (vsub b b) = 0) by (unfold nsq, dot; apply rsum_zero; intros; unfold vsub; ring). rewrite Z, sqrt_0.
    pose proof (nsq_split d y b z) as S. fold w e in S. rewrite S.
    pose proof (dot_norm d (vscal (-1) (vsub y b)) e) as K. rewrite dot_scal_l in K.
    assert (Nn : norm d (vscal (-1) (vsub y b)) = norm d (vsub y b)) by (unfold norm; rewrite nsq_scal; f_equal; ring). rewrite Nn in K. fold r in K.
    pose proof (norm_nonneg d (vsub y b)) as N1. pose proof (nsq_nonneg d (vsub y b)) as N2.
    pose proof (Rmult_le_compat_l _ _ _ N1 C) as N3. fold e. lra.
  - rewrite Rmax_left by lra.
    set (x := vsub b (vscal (r - rho) (vscal (/ r) e))).
    assert (Exb : nsq d (vsub x b) = (r - rho) * (r - rho)).
    { replace (vsub x b) with (vscal (- ((r - rho) * / r)) e) by (apply functional_extensionality; intros; unfold x, vsub, vscal; ring).
      rewrite nsq_scal, <- Hrr. field. lra. }
    assert (Exz : nsq d (vsub x z) = rho * rho).
    { replace (vsub x z) with (vscal (rho * / r) e) by (apply functional_extensionality; intros; unfold x, e, vsub, vscal; field; lra).
      rewrite nsq_scal, <- Hrr. field. lra. }
    rewrite Exb, Exz. replace ((r - rho) * (r - rho)) with (Rsqr (r - rho)) by easy. rewrite sqrt_Rsqr by lra.
    pose proof (dot_norm d (vsub y b) (vscal (- / r) e)) as K.
    assert (Nu : norm d (vscal (- / r) e) = 1).
    { unfold norm. rewrite nsq_scal, <- Hrr. replace (- / r * - / r * (r * r)) with 1 by (field; lra). apply sqrt_1. }
    rewrite Nu, dot_scal_r, Rmult_1_r in K.
    assert (Eyb : dot d (vsub y b) e = dot d w e - r * r).
    { rewrite Hrr. unfold nsq. rewrite <- dot_sub_l. apply dot_ext; [|easy]. intros k _. unfold w, e, vsub. ring. }
    pose proof (nsq_nonneg d (vadd w (vscal (rho * - / r) e))) as M.
    assert (EM : nsq d (vadd w (vscal (rho * - / r) e)) = nsq d w + 2 * rho * (- / r * dot d w e) + rho * rho).
    { unfold nsq. rewrite !dot_add_l, !dot_add_r, !dot_scal_l, !dot_scal_r, (dot_comm d e w). change (dot d e e) with (nsq d e). rewrite <- Hrr. field. lra. }
    rewrite EM in M. rewrite Eyb in K.
    replace (- / r * (dot d w e - r * r)) with (- / r * dot d w e + r) in K by (field; lra).
    set (q := - / r * dot d w e) in *. nra.
Qed.
Theorem prox_norm_defined d z rho b : prox_norm d z rho b = None <-> forall k, (k < d)%nat -> z k = b k.
Proof.
  unfold prox_norm. destruct (Req_EM_T (norm d (vsub b z)) 0) as [E|E]; split; intros H; try easy.
  - intros k Hk. assert (Z : nsq d (vsub b z) = 0) by (rewrite <- norm_sq, E; ring). pose proof (nsq_zero d _ Z k Hk) as K. unfold vsub in K. lra.
  - exfalso. apply E. unfold norm. assert (nsq d (vsub b z) = 0) as ->; [|apply sqrt_0]. unfold nsq, dot. apply rsum_zero. intros k Hk. unfold vsub. rewrite H by easy. ring.
Qed.
Theorem prox_norm_sc_correct d z rho b c theta x : 0 < rho -> 0 <= theta -> in_Rd d z -> in_Rd d b -> in_Rd d c ->
  prox_norm_sc d z rho b c theta = Some x -> is_prox d (distance_sc d b c theta) rho z x.
Proof.
  intros Hr Ht Hz Hb Hc E. unfold prox_norm_sc in E. set (m := 1 + 2 * rho * theta) in *.
  assert (Hm : 0 < m) by (unfold m; assert (0 <= 2 * rho * theta) by (apply Rmult_le_pos; lra); lra).
  set (z' := vscal (1 / m) (vadd z (vscal (2 * rho * theta) c))) in *.
  assert (Hz' : in_Rd d z') by (intros k Hk; unfold z', vscal, vadd; rewrite Hz, Hc by easy; ring).
  apply prox_norm_correct in E; [|apply Rdiv_lt_0_compat; easy|easy|easy].
  destruct E as [[Hx _] Hmin]. apply prox_intro; [easy|easy|exact I|]. intros y Hy _. specialize (Hmin y (conj Hy I)).
  cbn [val distance distance_sc] in *.
  assert (K : forall v, nsq d (vsub v z) + 2 * rho * theta * nsq d (vsub v c) = m * nsq d (vsub v z') + (nsq d z + 2 * rho * theta * nsq d c - m * nsq d z')).
  { intros v. unfold nsq. rewrite !dot_sub_l, !dot_sub_r, (dot_comm d z v), (dot_comm d c v), (dot_comm d z' v).
    assert (Ez : dot d v z' = 1 / m * (dot d v z + 2 * rho * theta * dot d v c)) by (unfold z'; rewrite dot_scal_r, dot_add_r, dot_scal_r; ring).
    rewrite Ez. unfold m. field. unfold m in Hm. lra. }
  pose proof (K x) as Kx. pose proof (K y) as Ky.
  assert (M : forall p q, p + q / (2 * (rho / m)) = (2 * rho * p + m * q) * / (2 * rho)) by (intros; field; lra).
  rewrite !M in Hmin. apply Rmult_le_reg_r in Hmin; [lra|]. apply Rinv_0_lt_compat. lra.
Qed.

Lemma abs_sign x : sign x * x = Rabs x.
Proof. unfold sign. destruct (Rlt_dec 0 x); [rewrite Rabs_right; lra|]. destruct (Rlt_dec x 0); [rewrite Rabs_left; lra|]. rewrite (Rle_antisym x 0) by lra. rewrite Rabs_R0. ring. Qed.
Lemma soft_scalar t z y : 0 <= t -> let x := sign z * Rmax (Rabs z - t) 0 in 2 * t * Rabs x + (x - z) * (x - z) <= 2 * t * Rabs y + (y - z) * (y - z).
Proof.
  intros Ht. cbv zeta. unfold sign. pose proof (Rle_abs y) as A1. pose proof (Rle_abs (- y)) as A2. rewrite Rabs_Ropp in A2. pose proof (Rabs_pos y) as A3.
  assert (A4 : Rabs y * Rabs y = y * y) by (rewrite <- Rabs_mult; apply Rabs_pos_eq; apply Rle_0_sqr).
  destruct (Rlt_dec 0 z) as [P|P]; [|destruct (Rlt_dec z 0) as [Q|Q]].
  - rewrite (Rabs_right z) by lra. destruct (Rle_lt_dec (z - t) 0) as [M|M].
    + rewrite Rmax_right by lra. rewrite Rmult_0_r, Rabs_R0. nra.
    + rewrite Rmax_left by lra. rewrite Rmult_1_l, Rabs_right by lra. pose proof (Rle_0_sqr (y - z + t)) as S. unfold Rsqr in S. nra.
  - rewrite (Rabs_left z) by lra. destruct (Rle_lt_dec (- z - t) 0) as [M|M].
    + rewrite Rmax_right by lra. rewrite Rmult_0_r, Rabs_R0. nra.
    + rewrite Rmax_left by lra. replace (-1 * (- z - t)) with (z + t) by ring. rewrite (Rabs_left (z + t)) by lra. pose proof (Rle_0_sqr (y - z - t)) as S. unfold Rsqr in S. nra.
  - assert (z = 0) as -> by lra. rewrite Rmult_0_l, Rabs_R0. nra.
Qed.
Theorem soft_threshold_correct d alpha rho z : 0 < alpha -> 0 <= rho -> in_Rd d z ->
  is_prox d (l1 d rho) alpha z (soft_threshold (alpha * rho) z).
Proof.
  intros Ha Hr Hz. apply prox_intro; [easy| |exact I|].
  - intros k Hk. unfold soft_threshold. rewrite Hz by easy. unfold sign. destruct (Rlt_dec 0 0); [lra|]. ring.
  - intros y Hy _. cbn [val l1]. unfold nsq, dot.
    replace (2 * alpha * (rho * rsum d (fun k => Rabs (soft_threshold (alpha * rho) z k)))) with (rsum d (fun k => 2 * (alpha * rho) * Rabs (soft_threshold (alpha * rho) z k))) by (rewrite rsum_scal; ring).
    replace (2 * alpha * (rho * rsum d (fun k => Rabs (y k)))) with (rsum d (fun k => 2 * (alpha * rho) * Rabs (y k))) by (rewrite rsum_scal; ring).
    rewrite <- !rsum_plus. apply rsum_le. intros k Hk. unfold vsub, soft_threshold. apply soft_scalar. apply Rmult_le_pos; lra.
Qed.

Lemma form_sym d P u v : (forall i j, (i < d)%nat -> (j < d)%nat -> P i j = P j i) ->
  rsum d (fun i => u i * dot d (P i) v) = rsum d (fun i => v i * dot d (P i) u).
Proof.
  intros H. unfold dot. rewrite (rsum_ext d _ (fun i => rsum d (fun k => u i * (P i k * v k)))) by (intros; rewrite rsum_scal; easy).
  rewrite (rsum_ext d (fun i => v i * _) (fun i => rsum d (fun k => v i * (P i k * u k)))) by (intros; rewrite rsum_scal; easy).
  rewrite rsum_swap. apply rsum_ext. intros i Hi. apply rsum_ext. intros k Hk. rewrite (H i k) by easy. ring.
Qed.
Lemma form_add d P u v : (forall i j, (i < d)%nat -> (j < d)%nat -> P i j = P j i) ->
  rsum d (fun i => vadd u v i * dot d (P i) (vadd u v)) = rsum d (fun i => u i * dot d (P i) u) + 2 * rsum d (fun i => v i * dot d (P i) u) + rsum d (fun i => v i * dot d (P i) v).
Proof.
  intros H. rewrite (rsum_ext d _ (fun i => (u i * dot d (P i) u + u i * dot d (P i) v) + (v i * dot d (P i) u + v i * dot d (P i) v))).
  - rewrite !rsum_plus, (form_sym d P u v H). ring.
  - intros i Hi. rewrite dot_add_r. unfold vadd. ring.
Qed.
Theorem prox_quadratic_correct d solve z rho b P : 0 < rho -> in_Rd d z -> in_Rd d b -> psd_matrix d P ->
  solves d solve (fun i j => P i j + (if Nat.eqb i j then 1 / rho else 0)) (vscal (1 / rho) (vsub z b)) ->
  is_prox d (quad_at d P b) rho z (prox_quadratic solve z rho b P).
Proof.
  intros Hr Hz Hb [Hsym Hpsd] [Hs He]. unfold prox_quadratic. set (s := solve _ _) in *. cbv zeta.
  apply prox_intro; [easy| |exact I|].
  { intros k Hk. unfold vadd. rewrite Hb, Hs by easy. ring. }
  intros y Hy _. cbn [val quad_at]. set (x := vadd b s). set (w := vsub y x).
  assert (Exb : forall i, x i - b i = s i) by (intros; unfold x, vadd; ring).
  assert (Ex : forall i, dot d (P i) (vsub x b) = dot d (P i) s) by (intros; apply dot_ext; [easy|intros; apply Exb]).
  rewrite (rsum_ext d (fun i => (x i - b i) * _) (fun i => s i * dot d (P i) s)) by (intros i _; rewrite Exb, Ex; easy).
  assert (Eyb : forall i, y i - b i = vadd s w i) by (intros; unfold w, x, vadd, vsub; ring).
  rewrite (rsum_ext d (fun i => (y i - b i) * _) (fun i => vadd s w i * dot d (P i) (vadd s w)))
    by (intros i _; rewrite Eyb; f_equal; apply dot_ext; [easy|intros; apply Eyb]).
  rewrite form_add by easy. rewrite (nsq_split d y x z). fold w.
  assert (Ew : rsum d (fun i => w i * dot d (P i) s) = - / rho * dot d w (vsub x z)).
  { unfold dot at 2. rewrite <- rsum_scal. apply rsum_ext. intros i Hi. specialize (He i Hi).
    assert (D : dot d (fun j => P i j + (if Nat.eqb i j then 1 / rho else 0)) s = dot d (P i) s + 1 / rho * s i).
    { unfold dot. rewrite (rsum_ext d _ (fun k => P i k * s k + (if Nat.eqb k i then 1 / rho * s i else 0))).
      - rewrite rsum_plus, rsum_single by easy. easy.
      - intros k Hk. rewrite (Nat.eqb_sym i k). destruct (Nat.eqb k i) eqn:X; [apply Nat.eqb_eq in X; subst; ring|ring]. }
    rewrite D in He. unfold vscal, vsub in He. unfold vsub, x, vadd.
    replace (dot d (P i) s) with (1 / rho * (z i - b i) - 1 / rho * s i) by lra. field. lra. }
  rewrite Ew. pose proof (Hpsd w) as Hw. pose proof (nsq_nonneg d w) as Nw.
  replace (2 * rho * (/ 2 * (rsum d (fun i => s i * dot d (P i) s) + 2 * (- / rho * dot d w (vsub x z)) + rsum d (fun i => w i * dot d (P i) w))) + (nsq d w + 2 * dot d w (vsub x z) + nsq d (vsub x z)))
    with (rho * rsum d (fun i => s i * dot d (P i) s) + rho * rsum d (fun i => w i * dot d (P i) w) + nsq d w + nsq d (vsub x z)) by (field; lra).
  assert (0 <= rho * rsum d (fun i => w i * dot d (P i) w)) by (apply Rmult_le_pos; lra). lra.
Qed.

(** gradients *)
Lemma in_Rd_grad_lsq m d A b x : (forall i, in_Rd d (A i)) -> in_Rd d (grad_lsq m d A b x).
Proof. intros H k Hk. unfold grad_lsq. apply rsum_zero. intros i _. rewrite H by easy. ring. Qed.
Theorem grad_lsq_correct m d A b x y :
  val (least_squares m d A b) y = val (least_squares m d A b) x + dot d (grad_lsq m d A b x) (vsub y x) +
    / 2 * rsum m (fun i => dot d (A i) (vsub y x) * dot d (A i) (vsub y x)).
Proof.
  cbn [val least_squares].
  assert (E : dot d (grad_lsq m d A b x) (vsub y x) = rsum m (fun i => (dot d (A i) x - b i) * dot d (A i) (vsub y x))).
  { unfold dot at 1, grad_lsq. rewrite (rsum_ext d _ (fun k => rsum m (fun i => (dot d (A i) x - b i) * (A i k * vsub y x k)))).
    - rewrite rsum_swap. apply rsum_ext. intros i Hi. rewrite rsum_scal. easy.
    - intros k Hk. rewrite <- rsum_scal_r. apply rsum_ext. intros. ring. }
  rewrite E, <- !rsum_scal, <- !rsum_plus. apply rsum_ext. intros i Hi. rewrite dot_sub_r. field.
Qed.
Theorem grad_quadratic_correct d Q p x y : psd_matrix d Q ->
  val (quadratic d Q p) y = val (quadratic d Q p) x + dot d (grad_quadratic d Q p x) (vsub y x) +
    / 2 * rsum d (fun i => vsub y x i * dot d (Q i) (vsub y x)).
Proof.
  intros [Hs _]. cbn [val quadratic]. set (w := vsub y x).
  assert (Ey : forall i, y i = vadd x w i) by (intros; unfold w, vadd, vsub; ring).
  rewrite (rsum_ext d (fun i => y i * _) (fun i => vadd x w i * dot d (Q i) (vadd x w)))
    by (intros i _; rewrite Ey; f_equal; apply dot_ext; [easy|intros; apply Ey]).
  rewrite form_add by easy.
  assert (E : dot d (grad_quadratic d Q p x) w = rsum d (fun i => w i * dot d (Q i) x) + dot d p w).
  { unfold dot at 1 3, grad_quadratic. rewrite <- rsum_plus. apply rsum_ext. intros. ring. }
  rewrite E. assert (Ep : dot d p y = dot d p x + dot d p w) by (unfold w; rewrite dot_sub_r; ring). rewrite Ep. field.
Qed.
