(** Which rates hold for gradient descent and the proximal point method. *)
From Coq Require Import List Arith Bool String QArith Reals Qreals Lia Lra FunctionalExtensionality.
From Verif Require Import Prelude PreludeFacts FunctionModel Spec SpecFacts ClassSpec InterpFacts InterpSmooth BuilderSpec BuilderLogic BuilderExamples.
Import ListNotations.
Local Open Scope R_scope.

(** a smooth convex function can be queried everywhere *)
Lemma gradient_is_subgradient d phi grad x : (forall y, dom phi y) -> convex phi ->
  (forall x u, derivable_pt_lim (fun t => val phi (vadd x (vscal t u))) 0 (dot d (grad x) u)) -> subgradient d phi x (grad x).
Proof.
  intros Hd Hc Hg. split; [apply Hd|]. intros y _. apply Rle_ge. destruct (Rle_lt_dec (val phi x + dot d (grad x) (vsub y x)) (val phi y)) as [|Hn]; [assumption|exfalso].
  set (e := val phi x + dot d (grad x) (vsub y x) - val phi y). assert (He : 0 < e) by (unfold e; lra).
  destruct (Hg x (vsub y x) e He) as [delta Hdl]. assert (Hp := cond_pos delta).
  set (t := Rmin (delta / 2) 1). assert (Ht : 0 < t <= 1) by (unfold t, Rmin; destruct (Rle_dec (delta / 2) 1); lra).
  assert (Ht2 : t < delta) by (unfold t, Rmin; destruct (Rle_dec (delta / 2) 1); lra).
  specialize (Hdl t ltac:(lra)). rewrite Rabs_right in Hdl by lra. specialize (Hdl Ht2). rewrite Rplus_0_l in Hdl.
  replace (vadd x (vscal 0 (vsub y x))) with x in Hdl by (apply functional_extensionality; intros k; unfold vadd, vscal; ring).
  destruct (Hc y x t (Hd _) (Hd _) ltac:(lra)) as [_ Hs].
  replace (segment t y x) with (vadd x (vscal t (vsub y x))) in Hs by (apply functional_extensionality; intros k; unfold segment, vadd, vscal, vsub; ring).
  assert (Hq : (val phi (vadd x (vscal t (vsub y x))) - val phi x) / t <= val phi y - val phi x).
  { apply Rmult_le_reg_r with t; [lra|]. unfold Rdiv. rewrite Rmult_assoc, Rinv_l by lra. lra. }
  apply Rabs_def2 in Hdl as [_ Hdl]. unfold e in Hdl. lra.
Qed.
Lemma smooth_query d L phi x : convex phi -> smooth d L phi -> exists g, query d phi x g (val phi x).
Proof.
  intros Hc (Hd & grad & Hg & _). exists (fun k => if Nat.ltb k d then grad x k else 0).
  assert (E : forall u, dot d (fun k => if Nat.ltb k d then grad x k else 0) u = dot d (grad x) u).
  { intros u. unfold dot. apply rsum_ext. intros k Hk. apply Nat.ltb_lt in Hk. rewrite Hk. reflexivity. }
  split; [intros k Hk; apply Nat.ltb_ge in Hk; rewrite Hk; reflexivity|]. split; [|reflexivity].
  destruct (gradient_is_subgradient d phi grad x Hd Hc Hg) as [H1 H2]. split; [exact H1|]. intros y Hy. rewrite E. apply H2, Hy.
Qed.

Lemma nsq_step d (x y z : vec) c : nsq d (vsub (vsub x (vscal c y)) z) = nsq d (vsub x z) - 2 * c * dot d y (vsub x z) + c * c * nsq d y.
Proof. unfold nsq, dot. rewrite <- !rsum_scal, <- rsum_minus, <- rsum_plus. apply rsum_ext. intros k _. unfold vsub, vscal. ring. Qed.
Lemma dot_flip d y x z : dot d y (vsub z x) = - dot d y (vsub x z).
Proof. replace (- dot d y (vsub x z)) with (-1 * dot d y (vsub x z)) by ring. unfold dot. rewrite <- rsum_scal. apply rsum_ext. intros k _. unfold vsub. ring. Qed.
Lemma nsq_vzero_l d y : nsq d (vsub vzero y) = nsq d y.
Proof. unfold nsq, dot. apply rsum_ext. intros k _. unfold vsub, vzero. ring. Qed.
Lemma nsq_vzero_r d y : nsq d (vsub y vzero) = nsq d y.
Proof. unfold nsq, dot. apply rsum_ext. intros k _. unfold vsub, vzero. ring. Qed.
Lemma dot_vzero_l d y : dot d vzero y = 0.
Proof. unfold dot. apply rsum_zero. intros k _. unfold vzero. ring. Qed.

(** * Gradient descent *)
Lemma gd_valid mu L C h alpha beta eta : good_class mu (Fin L) -> 0 < C -> alpha = 0 \/ beta = 1 ->
  0 <= h -> eta <= h -> eta <= 2 * h - h * h * Q2R L / C ->
  forall d q, gradient_flow_run d mu (Fin L) C h alpha beta eta q -> q <= 0.
Proof.
  intros [Hm Hl] HC Hab Hh H1 H2 d q (phi & [Hsc Hsm] & xs & fs & Hxs & [_ Qs] & x1 & Hx1 & y1 & f1 & Q1 & y15 & f15 & Q15 & y2 & f2 & _ & ->).
  assert (E : vsub (vsub x1 (vscal (beta * h / C) y1)) (vscal ((1 - beta) * h / C) y15) = vsub x1 (vscal (h / C) y1)).
  { destruct Hab as [->| ->].
    - replace (vsub x1 (vscal (0 * h / C) y1)) with x1 in Q15 by (apply functional_extensionality; intros k; unfold vsub, vscal, Rdiv; ring).
      destruct (smooth_unique d (Q2R L) phi x1 y1 f1 y15 f15 Hsm Q1 Q15) as [<- _].
      apply functional_extensionality; intros k; unfold vsub, vscal; field; lra.
    - apply functional_extensionality; intros k; unfold vsub, vscal, Rdiv; ring. }
  rewrite E. clear E Q15. destruct Q1 as [_ Q1].
  assert (I1 := smooth_sc_interp d (Q2R mu) (Q2R L) phi xs vzero fs x1 y1 f1 ltac:(lra) Hsc Hsm Qs Q1).
  assert (I2 := smooth_sc_interp d (Q2R mu) (Q2R L) phi x1 y1 f1 xs vzero fs ltac:(lra) Hsc Hsm Q1 Qs).
  rewrite nsq_vzero_l, dot_flip in I1. rewrite nsq_vzero_r, dot_vzero_l in I2.
  assert (HK : forall u, 0 <= Q2R mu / (2 * (1 - Q2R mu / Q2R L)) * nsq d u).
  { intros u. apply Rmult_le_pos; [|apply nsq_nonneg]. assert (Q2R mu / Q2R L < 1).
    { apply Rmult_lt_reg_r with (Q2R L); [lra|]. unfold Rdiv. rewrite Rmult_assoc, Rinv_l by lra. lra. }
    unfold Rdiv at 1. apply Rmult_le_pos; [lra|]. apply Rlt_le, Rinv_0_lt_compat. lra. }
  match type of I1 with _ + ?a <= 0 => assert (0 <= a) by apply HK end. match type of I2 with _ + ?a <= 0 => assert (0 <= a) by apply HK end.
  rewrite nsq_step. set (N := nsq d y1) in *. set (P := dot d y1 (vsub x1 xs)) in *. assert (HN : 0 <= N) by apply nsq_nonneg.
  set (D := f1 - fs). set (w := 1 / (2 * Q2R L)) in *. assert (Hw : 0 < w) by (unfold w; apply Rdiv_lt_0_compat; lra).
  assert (D1 : D + w * N <= P) by (unfold D; lra). assert (D2 : w * N <= D) by (unfold D; lra).
  replace (C / 2 * (nsq d (vsub x1 xs) - 2 * (h / C) * P + h / C * (h / C) * N) - (C / 2 * nsq d (vsub x1 xs) - eta * D))
    with (- h * P + h * h / (2 * C) * N + eta * D) by (field; lra).
  assert (A1 : h * (D + w * N) <= h * P) by (apply Rmult_le_compat_l; assumption).
  assert (A2 : (h - eta) * (w * N) <= (h - eta) * D) by (apply Rmult_le_compat_l; lra).
  assert (A3 : h * h / (2 * C) * N = (h * h * Q2R L / C) * (w * N)) by (unfold w; field; lra).
  assert (A4 : eta * (w * N) <= (2 * h - h * h * Q2R L / C) * (w * N)) by (apply Rmult_le_compat_r; [apply Rmult_le_pos; lra|assumption]).
  lra.
Qed.

(** functions that attain the extreme values: gradient 1 and value [f] at [t] *)
Lemma ramp L t f : 0 < Q2R L -> 1 / (2 * Q2R L) <= f -> f <= t - 1 / (2 * Q2R L) ->
  exists phi, function_class 1 0 (Fin L) phi /\ query 1 phi vzero vzero 0 /\ query 1 phi (pt t) (pt 1) f.
Proof.
  intros HL H1 H2. assert (Z : Q2R 0 = 0) by (unfold Q2R; simpl; lra).
  set (x := fun i : nat => pt (if Nat.eqb i 0 then 0 else t)). set (g := fun i : nat => pt (if Nat.eqb i 0 then 0 else 1)).
  set (z := fun i : nat => if Nat.eqb i 0 then 0 else f).
  assert (par : 0 <= 0 < Q2R L) by lra.
  destruct (smooth_interp 1 1 0 (Q2R L) x g z par) as (A & B & S).
  - intros i j Hi Hj. assert (Ei : i = 0%nat \/ i = 1%nat) by lia. assert (Ej : j = 0%nat \/ j = 1%nat) by lia.
    assert (Hi0 : 0 < / (2 * Q2R L)) by (apply Rinv_0_lt_compat; lra).
    destruct Ei as [-> | ->], Ej as [-> | ->]; unfold x, g, z, pt, nsq, dot, vsub, vscal; simpl; unfold Rdiv in *; nra.
  - exists (sinterp 1 1 0 (Q2R L) x g z par). split; [split; [rewrite Z; exact A|exact B]|].
    assert (P0 : pt 0 = vzero) by (apply functional_extensionality; intros [|k]; reflexivity).
    split; (split; [first [apply in_Rd_zero|apply pt_Rd]|]).
    + rewrite <- P0. exact (S 0%nat ltac:(lia)).
    + exact (S 1%nat ltac:(lia)).
Qed.
Lemma gd_needed L C h alpha beta eta : 0 < Q2R L -> 0 < C -> alpha = 0 \/ beta = 1 ->
  (forall q, gradient_flow_run 1 0 (Fin L) C h alpha beta eta q -> q <= 0) ->
  0 <= h /\ eta <= h /\ eta <= 2 * h - h * h * Q2R L / C.
Proof.
  intros HL HC Hab H. set (w := 1 / (2 * Q2R L)). assert (Hw : 0 < w) by (unfold w; apply Rdiv_lt_0_compat; lra).
  assert (M : forall t f, w <= f -> f <= t - w -> - h * t + h * h / (2 * C) + eta * f <= 0).
  { intros t f H1 H2. destruct (ramp L t f HL H1 H2) as (phi & Hc & Qs & Q1). apply H.
    assert (Hcv : convex phi) by (apply (convex_strongly0 1); replace 0 with (Q2R 0) by (unfold Q2R; simpl; lra); apply Hc).
    assert (Hsm : smooth 1 (Q2R L) phi) by apply Hc.
    exists phi. split; [exact Hc|]. exists vzero, 0. split; [apply in_Rd_zero|]. split; [exact Qs|]. exists (pt t). split; [apply pt_Rd|].
    exists (pt 1), f. split; [exact Q1|]. cbv zeta.
    destruct (smooth_query 1 (Q2R L) phi (vsub (pt t) (vscal (alpha * h / C) (pt 1))) Hcv Hsm) as (y15 & Q15). exists y15, (val phi (vsub (pt t) (vscal (alpha * h / C) (pt 1)))). split; [exact Q15|].
    match goal with |- exists y2 f2, query 1 phi ?x y2 f2 /\ _ => destruct (smooth_query 1 (Q2R L) phi x Hcv Hsm) as (y2 & Q2); exists y2, (val phi x); split; [exact Q2|] end.
    assert (E : vsub (vsub (pt t) (vscal (beta * h / C) (pt 1))) (vscal ((1 - beta) * h / C) y15) = vsub (pt t) (vscal (h / C) (pt 1))).
    { destruct Hab as [-> | ->].
      - replace (vsub (pt t) (vscal (0 * h / C) (pt 1))) with (pt t) in Q15 by (apply functional_extensionality; intros k; unfold vsub, vscal, Rdiv; ring).
        destruct (smooth_unique 1 (Q2R L) phi (pt t) (pt 1) f y15 _ Hsm Q1 Q15) as [<- _].
        apply functional_extensionality; intros k; unfold vsub, vscal; field; lra.
      - apply functional_extensionality; intros k; unfold vsub, vscal, Rdiv; ring. }
    rewrite E. unfold nsq, dot, vsub, vscal, pt, vzero; simpl. field. lra. }
  assert (A : 0 <= h * h / (2 * C)) by (apply Rmult_le_pos; [apply Rle_0_sqr|apply Rlt_le, Rinv_0_lt_compat; lra]).
  split; [|split].
  - destruct (Rle_lt_dec 0 h) as [|Hn]; [assumption|exfalso].
    set (t := 2 * w + (Rabs (eta * w) + 1) / (- h)). assert (0 <= Rabs (eta * w)) by apply Rabs_pos. assert (Hr := Rle_abs (- (eta * w))). rewrite Rabs_Ropp in Hr.
    assert (T : 0 < (Rabs (eta * w) + 1) / (- h)) by (apply Rdiv_lt_0_compat; lra).
    assert (K := M t w ltac:(lra) ltac:(unfold t; lra)). assert (E : - h * t = - h * (2 * w) + (Rabs (eta * w) + 1)) by (unfold t; field; lra).
    assert (0 <= - h * (2 * w)) by (apply Rmult_le_pos; lra). lra.
  - destruct (Rle_lt_dec eta h) as [|Hn]; [assumption|exfalso].
    set (t := 2 * w + (Rabs (eta * w) + Rabs (h * w) + 1) / (eta - h)). assert (0 <= Rabs (eta * w)) by apply Rabs_pos. assert (0 <= Rabs (h * w)) by apply Rabs_pos.
    assert (Hr := Rle_abs (- (eta * w))). rewrite Rabs_Ropp in Hr. assert (Hr2 := Rle_abs (- (h * w))). rewrite Rabs_Ropp in Hr2. assert (Hr3 := Rle_abs (eta * w)).
    assert (T : 0 < (Rabs (eta * w) + Rabs (h * w) + 1) / (eta - h)) by (apply Rdiv_lt_0_compat; lra).
    assert (K := M t (t - w) ltac:(unfold t; lra) ltac:(lra)).
    assert (E : - h * t + eta * (t - w) = (eta - h) * (2 * w) + (Rabs (eta * w) + Rabs (h * w) + 1) - eta * w) by (unfold t; field; lra).
    assert (0 <= (eta - h) * (2 * w)) by (apply Rmult_le_pos; lra). lra.
  - assert (K := M (2 * w) w ltac:(lra) ltac:(lra)).
    assert (E : - h * (2 * w) + h * h / (2 * C) + eta * w = w * (eta - (2 * h - h * h * Q2R L / C))) by (unfold w; field; lra).
    rewrite E in K. destruct (Rle_lt_dec eta (2 * h - h * h * Q2R L / C)) as [|Hn]; [assumption|]. assert (0 < w * (eta - (2 * h - h * h * Q2R L / C))) by (apply Rmult_lt_0_compat; lra). lra.
Qed.

(** * The proximal point method *)
Lemma ppm_valid mu L C Rs beta eta rho alpha : good_class mu L -> 0 < C -> 0 < Rs -> beta = 1 ->
  eta <= C * Rs -> rho <= C * Rs / 2 ->
  forall d q, ppm_run d mu L C Rs (C * Rs) alpha beta eta rho q -> q <= 0.
Proof.
  intros Hg HC HR -> H1 H2 d q (phi & Hc & xs & fs & Hxs & [_ Qs] & x1 & Hx1 & p1 & g1 & z1 & [Ep [_ Qp]] & p15 & g15 & z15 & _ & y2 & f2 & [_ Q2] & ->).
  assert (E : vsub (vsub x1 (vscal (1 * (C * Rs) / C / Rs) (vsub x1 p1))) (vscal ((1 - 1) * (C * Rs) / C / Rs) (vsub (vsub x1 (vscal (alpha * (C * Rs) / C / Rs) (vsub x1 p1))) p15)) = p1).
  { apply functional_extensionality; intros k; unfold vsub, vscal; field; lra. }
  rewrite E in Q2 |- *. clear E.
  assert (Ei : vscal (/ Rs) (vsub x1 p1) = g1).
  { apply functional_extensionality; intros k. rewrite Ep. unfold vsub, vscal; field; lra. }
  rewrite Ei. assert (Ef : f2 = z1) by (destruct Q2 as [_ <-], Qp as [_ <-]; reflexivity). rewrite Ef.
  assert (I1 := convex_interp d phi xs vzero fs p1 g1 z1 Qs Qp). assert (I2 := convex_interp d phi p1 g1 z1 xs vzero fs Qp Qs).
  rewrite dot_vzero_l in I2. rewrite dot_flip in I1.
  assert (N2 : nsq d (vsub x1 xs) = nsq d (vsub p1 xs) + 2 * Rs * dot d g1 (vsub p1 xs) + Rs * Rs * nsq d g1).
  { assert (X : x1 = vsub p1 (vscal (- Rs) g1)) by (apply functional_extensionality; intros k; rewrite Ep; unfold vsub, vscal; ring).
    rewrite X at 1. rewrite nsq_step. ring. }
  rewrite N2. set (N := nsq d g1) in *. set (P := dot d g1 (vsub p1 xs)) in *. assert (HN : 0 <= N) by apply nsq_nonneg. set (B := nsq d (vsub p1 xs)).
  assert (A1 : (C * Rs) * (z1 - fs) <= (C * Rs) * P) by (apply Rmult_le_compat_l; [apply Rmult_le_pos|]; lra).
  assert (A2 : eta * (z1 - fs) <= C * Rs * (z1 - fs)) by (apply Rmult_le_compat_r; lra).
  assert (A3 : rho * (Rs * N) <= C * Rs / 2 * (Rs * N)) by (apply Rmult_le_compat_r; [apply Rmult_le_pos; lra|assumption]).
  lra.
Qed.
Definition absf : rfun := mkFun (fun _ => True) (fun x => Rabs (x 0%nat)).
Lemma absf_class : function_class 1 0 Inf absf.
Proof.
  split; [|exact I]. replace (Q2R 0) with 0 by (unfold Q2R; simpl; lra). intros x y t _ _ Ht. split; [exact I|]. unfold segment, vadd, vscal. simpl.
  eapply Rle_trans; [apply Rabs_triang|]. rewrite !Rabs_mult, (Rabs_right t), (Rabs_right (1 - t)) by lra. lra.
Qed.
Lemma absf_query t : 0 <= t -> query 1 absf (pt t) (pt 1) t.
Proof.
  intros Ht. split; [apply pt_Rd|]. split; [|simpl; apply Rabs_right; unfold pt; simpl; lra]. split; [exact I|]. intros y _. unfold dot, vsub, pt. simpl.
  rewrite (Rabs_right t) by lra. assert (H := Rle_abs (y 0%nat)). lra.
Qed.
Lemma absf_min : query 1 absf vzero vzero 0.
Proof.
  split; [apply in_Rd_zero|]. split; [|simpl; unfold vzero; apply Rabs_R0]. split; [exact I|]. intros y _. unfold dot, vsub, vzero. simpl. rewrite Rabs_R0.
  assert (H := Rabs_pos (y 0%nat)). lra.
Qed.
Lemma ppm_needed C Rs alpha beta eta rho : 0 < C -> 0 < Rs -> beta = 1 -> alpha = 0 ->
  (forall q, ppm_run 1 0 Inf C Rs (C * Rs) alpha beta eta rho q -> q <= 0) -> eta <= C * Rs /\ rho <= C * Rs / 2.
Proof.
  intros HC HR -> -> H.
  assert (M : forall t, 0 <= t -> (eta - C * Rs) * t + Rs * (rho - C * Rs / 2) <= 0).
  { intros t Ht. apply H. exists absf. split; [apply absf_class|]. exists vzero, 0. split; [apply in_Rd_zero|]. split; [apply absf_min|].
    exists (pt (t + Rs)). split; [apply pt_Rd|].
    assert (Pr : forall x, x = pt (t + Rs) -> proxed 1 absf Rs x (pt t) (pt 1) t).
    { intros x ->. split; [|apply absf_query, Ht]. apply functional_extensionality; intros [|k]; unfold pt, vsub, vscal; simpl; ring. }
    exists (pt t), (pt 1), t. split; [apply Pr; reflexivity|]. cbv zeta. exists (pt t), (pt 1), t. split.
    { apply Pr. apply functional_extensionality; intros k; unfold vsub, vscal; field; lra. }
    assert (E : forall u, vsub (vsub (pt (t + Rs)) (vscal (1 * (C * Rs) / C / Rs) (vsub (pt (t + Rs)) (pt t)))) (vscal ((1 - 1) * (C * Rs) / C / Rs) u) = pt t).
    { intros u. apply functional_extensionality; intros k; unfold vsub, vscal; field; lra. }
    rewrite E. exists (pt 1), t. split; [apply absf_query, Ht|]. unfold nsq, dot, vsub, vscal, pt, vzero; simpl. field. lra. }
  assert (K0 := M 0 ltac:(lra)). split.
  - destruct (Rle_lt_dec eta (C * Rs)) as [|Hn]; [assumption|exfalso].
    set (t := (Rabs (Rs * (rho - C * Rs / 2)) + 1) / (eta - C * Rs)). assert (0 <= Rabs (Rs * (rho - C * Rs / 2))) by apply Rabs_pos.
    assert (T : 0 < t) by (unfold t; apply Rdiv_lt_0_compat; lra). assert (K := M t ltac:(lra)).
    assert (E : (eta - C * Rs) * t = Rabs (Rs * (rho - C * Rs / 2)) + 1) by (unfold t; field; lra).
    assert (Hr := Rle_abs (- (Rs * (rho - C * Rs / 2)))). rewrite Rabs_Ropp in Hr. lra.
  - destruct (Rle_lt_dec rho (C * Rs / 2)) as [|Hn]; [assumption|exfalso]. assert (0 < Rs * (rho - C * Rs / 2)) by (apply Rmult_lt_0_compat; lra). lra.
Qed.
