(** Interpolation inequalities hold for the textbook function classes. *)
From Coq Require Import List Arith Bool Reals Lra Lia Psatz FunctionalExtensionality.
From Verif Require Import Prelude PreludeFacts Spec.
Local Open Scope R_scope.

Lemma convex_strongly0 d phi : convex phi <-> strongly_convex d 0 phi.
Proof.
  split; intros H x y t Hx Hy Ht; destruct (H x y t Hx Hy Ht) as [H1 H2]; (split; [easy|]).
  - replace (0 / 2 * (t * (1 - t)) * nsq d (vsub x y)) with 0 by field. lra.
  - replace (0 / 2 * (t * (1 - t)) * nsq d (vsub x y)) with 0 in H2 by field. lra.
Qed.

Lemma strongly_convex_convex d mu phi : 0 <= mu -> strongly_convex d mu phi -> convex phi.
Proof.
  intros Hmu H x y t Hx Hy Ht. destruct (H x y t Hx Hy Ht) as [H1 H2]. split; [easy|].
  assert (0 <= mu / 2 * (t * (1 - t)) * nsq d (vsub x y)).
  { apply Rmult_le_pos; [|apply nsq_nonneg]. apply Rmult_le_pos; [lra|]. apply Rmult_le_pos; lra. }
  lra.
Qed.

(** (a - t b)*t stays below for all small t *)
Lemma limit_le a b c : 0 <= c -> (forall t, 0 < t <= 1 -> a <= b + t * c) -> a <= b.
Proof.
  intros Hc H. destruct (Rle_dec a b) as [|Hn]; [easy|]. exfalso.
  set (t := Rmin 1 ((a - b) / (2 * (c + 1)))).
  assert (Hpos : 0 < (a - b) / (2 * (c + 1))).
  { apply Rdiv_lt_0_compat; lra. }
  assert (Ht : 0 < t <= 1).
  { unfold t. split; [apply Rmin_glb_lt; lra|apply Rmin_l]. }
  assert (Ht2 : t <= (a - b) / (2 * (c + 1))) by apply Rmin_r.
  specialize (H t Ht).
  assert (t * c <= (a - b) / 2).
  { apply Rle_trans with ((a - b) / (2 * (c + 1)) * c).
    - apply Rmult_le_compat_r; lra.
    - apply Rle_trans with ((a - b) / (2 * (c + 1)) * (c + 1)).
      + apply Rmult_le_compat_l; lra.
      + right. field. lra. }
  lra.
Qed.

Theorem strongly_convex_lower d mu phi x g y :
  0 <= mu -> strongly_convex d mu phi -> subgradient d phi x g -> dom phi y ->
  val phi y >= val phi x + dot d g (vsub y x) + mu / 2 * nsq d (vsub y x).
Proof.
  intros Hmu Hsc [Hx Hg] Hy. apply Rle_ge.
  apply (limit_le _ _ (mu / 2 * nsq d (vsub y x))).
  { apply Rmult_le_pos; [lra|apply nsq_nonneg]. }
  intros t Ht.
  destruct (Hsc y x t Hy Hx ltac:(lra)) as [Hd Hv].
  specialize (Hg _ Hd).
  assert (E : vsub (segment t y x) x = vscal t (vsub y x)).
  { apply functional_extensionality; intros k. unfold vsub, segment, vadd, vscal. ring. }
  rewrite E, dot_scal_r in Hg.
  set (D := dot d g (vsub y x)) in *. set (N := nsq d (vsub y x)) in *.
  assert (t * (val phi x + D + mu / 2 * N) <= t * (val phi y + t * (mu / 2 * N))) by nra.
  apply Rmult_le_reg_l with t; lra.
Qed.

Lemma dot_sub_sub d u v : nsq d (vsub u v) = nsq d u - 2 * dot d u v + nsq d v.
Proof.
  unfold nsq, dot. rewrite <- rsum_scal, <- rsum_minus, <- rsum_plus.
  apply rsum_ext. intros; unfold vsub; ring.
Qed.

Lemma nsq_scal d t u : nsq d (vscal t u) = t * t * nsq d u.
Proof. unfold nsq, dot. rewrite <- rsum_scal. apply rsum_ext. intros; unfold vscal; ring. Qed.

Theorem cauchy_schwarz d u v : dot d u v * dot d u v <= nsq d u * nsq d v.
Proof.
  destruct (Req_dec (nsq d v) 0) as [Hz|Hnz].
  - assert (H : forall t, 2 * t * dot d u v <= nsq d u).
    { intros t. assert (P := nsq_nonneg d (vsub u (vscal t v))).
      rewrite dot_sub_sub, dot_scal_r, nsq_scal, Hz in P. lra. }
    assert (dot d u v = 0).
    { destruct (Req_dec (dot d u v) 0) as [|Hd]; [easy|]. exfalso.
      specialize (H ((nsq d u + 1) / (2 * dot d u v))).
      replace (2 * ((nsq d u + 1) / (2 * dot d u v)) * dot d u v) with (nsq d u + 1) in H by (field; easy). lra. }
    rewrite H0, Hz. lra.
  - assert (Hp : 0 < nsq d v) by (assert (P := nsq_nonneg d v); lra).
    assert (P := nsq_nonneg d (vsub u (vscal (dot d u v / nsq d v) v))).
    rewrite dot_sub_sub, dot_scal_r, nsq_scal in P.
    replace (nsq d u - 2 * (dot d u v / nsq d v * dot d u v)
             + dot d u v / nsq d v * (dot d u v / nsq d v) * nsq d v)
      with ((nsq d u * nsq d v - dot d u v * dot d u v) / nsq d v) in P by (field; lra).
    apply Rmult_le_compat_r with (r := nsq d v) in P; [|lra].
    unfold Rdiv in P. rewrite Rmult_assoc, Rinv_l in P by lra. lra.
Qed.

(** <G,u> <= L t |u|^2 whenever |G|^2 <= L^2 t^2 |u|^2 *)
Lemma cs_bound d G u c : 0 <= c -> nsq d G <= c * c * nsq d u -> dot d G u <= c * nsq d u.
Proof.
  intros Hc H. assert (P := cauchy_schwarz d G u). assert (Q := nsq_nonneg d u).
  destruct (Rle_dec (dot d G u) 0) as [|Hn].
  - assert (0 <= c * nsq d u) by (apply Rmult_le_pos; lra). lra.
  - assert (dot d G u * dot d G u <= (c * nsq d u) * (c * nsq d u)) by nra.
    apply Rsqr_incr_0; [unfold Rsqr; lra|lra|]. apply Rmult_le_pos; lra.
Qed.

Section Smooth.
  Variable d : nat.
  Variable L : R.
  Variable phi : rfun.
  Variable grad : vec -> vec.
  Hypothesis HL : 0 <= L.
  Hypothesis Hdom : forall x, dom phi x.
  Hypothesis Hder : forall x u, derivable_pt_lim (fun t => val phi (vadd x (vscal t u))) 0 (dot d (grad x) u).
  Hypothesis Hlip : forall x y, nsq d (vsub (grad x) (grad y)) <= (L * L) * nsq d (vsub x y).

  Lemma line_deriv x u t :
    derivable_pt_lim (fun s => val phi (vadd x (vscal s u))) t (dot d (grad (vadd x (vscal t u))) u).
  Proof using Hder.
    assert (H := Hder (vadd x (vscal t u)) u).
    intros eps Heps. destruct (H eps Heps) as [delta Hd]. exists delta.
    intros h Hh Hlt. specialize (Hd h Hh Hlt).
    replace (vadd x (vscal (t + h) u)) with (vadd (vadd x (vscal t u)) (vscal (0 + h) u)).
    2:{ apply functional_extensionality; intros k; unfold vadd, vscal; ring. }
    replace (vadd (vadd x (vscal t u)) (vscal 0 u)) with (vadd x (vscal t u)) in Hd.
    2:{ apply functional_extensionality; intros k; unfold vadd, vscal; ring. }
    easy.
  Qed.

  Theorem descent_lemma x u :
    val phi (vadd x u) <= val phi x + dot d (grad x) u + L / 2 * nsq d u.
  Proof using HL Hder Hlip.
    set (h := fun t => val phi (vadd x (vscal t u)) - (t * dot d (grad x) u + L / 2 * nsq d u * (t * t))).
    set (h' := fun t => dot d (grad (vadd x (vscal t u))) u - (dot d (grad x) u + L / 2 * nsq d u * (2 * t))).
    assert (Hh : forall t, derivable_pt_lim h t (h' t)).
    { intros t. unfold h, h'. apply derivable_pt_lim_minus; [apply line_deriv|].
      apply derivable_pt_lim_plus.
      - apply (eq_ind (1 * dot d (grad x) u + t * 0) (fun z => derivable_pt_lim (fun t => t * dot d (grad x) u) t z));
          [|ring].
        apply (derivable_pt_lim_mult (fun t => t) (fun _ => dot d (grad x) u));
          [apply derivable_pt_lim_id|apply derivable_pt_lim_const].
      - apply (derivable_pt_lim_scal (fun t => t * t)).
        replace (2 * t) with (1 * t + t * 1) by ring.
        apply (derivable_pt_lim_mult (fun t => t) (fun t => t)); apply derivable_pt_lim_id. }
    assert (Hneg : forall t, 0 <= t -> h' t <= 0).
    { intros t Ht. unfold h'.
      assert (B : dot d (vsub (grad (vadd x (vscal t u))) (grad x)) u <= L * t * nsq d u).
      { apply cs_bound; [apply Rmult_le_pos; easy|].
        eapply Rle_trans; [apply Hlip|].
        replace (vsub (vadd x (vscal t u)) x) with (vscal t u).
        2:{ apply functional_extensionality; intros k; unfold vsub, vadd, vscal; ring. }
        rewrite nsq_scal. right; ring. }
      rewrite dot_sub_l in B. lra. }
    destruct (MVT_cor2 h h' 0 1 ltac:(lra)) as [c [Hc Hc2]].
    { intros t _. apply Hh. }
    specialize (Hneg c ltac:(lra)).
    unfold h in Hc.
    replace (vadd x (vscal 1 u)) with (vadd x u) in Hc.
    2:{ apply functional_extensionality; intros k; unfold vadd, vscal; ring. }
    replace (vadd x (vscal 0 u)) with x in Hc.
    2:{ apply functional_extensionality; intros k; unfold vadd, vscal; ring. }
    lra.
  Qed.

  (** a subgradient of a differentiable function is the gradient *)
  Lemma subgradient_is_gradient x g u : subgradient d phi x g -> dot d g u = dot d (grad x) u.
  Proof using Hdom Hder.
    intros [_ Hg].
    assert (G : forall u, dot d g u <= dot d (grad x) u).
    { intros w. assert (H := Hder x w).
      destruct (Rle_dec (dot d g w) (dot d (grad x) w)) as [|Hn]; [easy|]. exfalso.
      set (e := dot d g w - dot d (grad x) w).
      assert (He : 0 < e) by (unfold e; lra).
      destruct (H e He) as [delta Hd].
      set (t := delta / 2). assert (Hdp := cond_pos delta).
      assert (Ht : 0 < t) by (unfold t; lra).
      specialize (Hd t ltac:(lra)). 
      assert (Habs : Rabs t < delta) by (rewrite Rabs_right; unfold t; lra).
      specialize (Hd Habs). rewrite Rplus_0_l in Hd.
      replace (vadd x (vscal 0 w)) with x in Hd.
      2:{ apply functional_extensionality; intros k; unfold vadd, vscal; ring. }
      specialize (Hg (vadd x (vscal t w)) (Hdom _)).
      replace (vsub (vadd x (vscal t w)) x) with (vscal t w) in Hg.
      2:{ apply functional_extensionality; intros k; unfold vsub, vadd, vscal; ring. }
      rewrite dot_scal_r in Hg.
      apply Rabs_def2 in Hd as [Hd1 Hd2].
      (* h' side: for t > 0 the quotient is >= dot g w ... need upper bound *)
      assert (Hq : (val phi (vadd x (vscal t w)) - val phi x) / t >= dot d g w).
      { apply Rle_ge. apply Rmult_le_reg_r with t; [easy|]. unfold Rdiv.
        rewrite Rmult_assoc, Rinv_l by lra. lra. }
      unfold e in Hd1. lra. }
    apply Rle_antisym; [apply G|].
    specialize (G (vscal (-1) u)). rewrite !dot_scal_r in G. lra.
  Qed.
End Smooth.

(** Interpolation inequality of smooth strongly convex functions. *)
Theorem smooth_sc_interp d mu L phi xi gi fi xj gj fj :
  0 <= mu < L -> strongly_convex d mu phi -> smooth d L phi ->
  sampled d phi xi gi fi -> sampled d phi xj gj fj ->
  fj - fi + dot d gj (vsub xi xj) + 1 / (2 * L) * nsq d (vsub gi gj)
  + mu / (2 * (1 - mu / L)) * nsq d (vsub (vsub xi xj) (vscal (1 / L) (vsub gi gj))) <= 0.
Proof.
  intros Hmu Hsc [Hdom [grad [Hder Hlip]]] [Hi <-] [Hj <-].
  set (z := vscal (/ (L - mu)) (vadd (vsub gj gi) (vsub (vscal L xi) (vscal mu xj)))).
  assert (HU := descent_lemma d L phi grad ltac:(lra) Hder Hlip xi (vsub z xi)).
  replace (vadd xi (vsub z xi)) with z in HU.
  2:{ apply functional_extensionality; intros k; unfold vsub, vadd; ring. }
  rewrite <- (subgradient_is_gradient d phi grad Hdom Hder xi gi _ Hi) in HU.
  assert (HD := strongly_convex_lower d mu phi xj gj z ltac:(lra) Hsc Hj (Hdom z)).
  assert (E : dot d gi (vsub z xi) + L / 2 * nsq d (vsub z xi)
            - (dot d gj (vsub z xj) + mu / 2 * nsq d (vsub z xj))
    = - (dot d gj (vsub xi xj) + 1 / (2 * L) * nsq d (vsub gi gj)
         + mu / (2 * (1 - mu / L)) * nsq d (vsub (vsub xi xj) (vscal (1 / L) (vsub gi gj))))).
  { unfold nsq, dot. rewrite <- !rsum_scal, <- !rsum_plus, <- rsum_minus.
    replace (- rsum d (fun k => gj k * vsub xi xj k + 1 / (2 * L) * (vsub gi gj k * vsub gi gj k)
       + mu / (2 * (1 - mu / L)) * (vsub (vsub xi xj) (vscal (1 / L) (vsub gi gj)) k * vsub (vsub xi xj) (vscal (1 / L) (vsub gi gj)) k)))
     with (-1 * rsum d (fun k => gj k * vsub xi xj k + 1 / (2 * L) * (vsub gi gj k * vsub gi gj k)
       + mu / (2 * (1 - mu / L)) * (vsub (vsub xi xj) (vscal (1 / L) (vsub gi gj)) k * vsub (vsub xi xj) (vscal (1 / L) (vsub gi gj)) k))) by ring.
    rewrite <- rsum_scal. apply rsum_ext. intros k _.
    unfold z, vsub, vadd, vscal. field. lra. }
  lra.
Qed.

Theorem strongly_convex_interp d mu phi xi gi fi xj gj fj :
  0 <= mu -> strongly_convex d mu phi ->
  sampled d phi xi gi fi -> sampled d phi xj gj fj ->
  fj - fi + dot d gj (vsub xi xj) + mu / 2 * nsq d (vsub xi xj) <= 0.
Proof.
  intros Hmu Hsc [[Hdi _] <-] [Hj <-].
  assert (H := strongly_convex_lower d mu phi xj gj xi Hmu Hsc Hj Hdi). lra.
Qed.

Theorem convex_interp d phi xi gi fi xj gj fj :
  sampled d phi xi gi fi -> sampled d phi xj gj fj ->
  fj - fi + dot d gj (vsub xi xj) <= 0.
Proof. intros [[Hdi _] <-] [[_ Hj] <-]. specialize (Hj xi Hdi). lra. Qed.

Lemma minimiser_sampled d phi x : minimiser phi x <-> subgradient d phi x vzero.
Proof.
  assert (E : forall u, dot d vzero u = 0).
  { intros u. unfold dot. apply rsum_zero. intros; unfold vzero; ring. }
  split; intros [Hx H]; split; try easy; intros y Hy; specialize (H y Hy); rewrite ?E in *; lra.
Qed.
