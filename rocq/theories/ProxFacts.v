From Coq Require Import List Arith Bool Reals Lia Lra Psatz FunctionalExtensionality.
From Verif Require Import Prelude PreludeFacts Spec SpecFacts BuilderSpec MethodModel MethodSpec.
Import ListNotations.
Local Open Scope R_scope.

Lemma dot_ext d u u' v v' : (forall k, (k < d)%nat -> u k = u' k) -> (forall k, (k < d)%nat -> v k = v' k) -> dot d u v = dot d u' v'.
Proof. intros H K. unfold dot. apply rsum_ext. intros k Hk. rewrite H, K by easy. easy. Qed.
Lemma nsq_zero d u : nsq d u = 0 -> forall k, (k < d)%nat -> u k = 0.
Proof.
  unfold nsq, dot. induction d as [|d IH]; intros H k Hk; [lia|]. simpl in H.
  assert (0 <= rsum d (fun k => u k * u k)) by (apply rsum_nonneg; intros; nra).
  assert (0 <= u d * u d) by nra. destruct (Nat.eq_dec k d) as [->|]; [nra|]. apply IH; [lra|lia].
Qed.
Lemma in_Rd_eq d u v : in_Rd d u -> in_Rd d v -> (forall k, (k < d)%nat -> u k = v k) -> u = v.
Proof.
  intros Hu Hv H. apply functional_extensionality. intros k. destruct (Nat.lt_ge_cases k d) as [K|K]; [auto|].
  rewrite Hu, Hv by easy. easy.
Qed.
Definition restr (d : nat) (phi : rfun) : rfun := mkFun (fun y => in_Rd d y /\ dom phi y) (val phi).

Lemma prox_in d phi rho z x : is_prox d phi rho z x -> in_Rd d x /\ dom phi x.
Proof. intros [H _]. exact H. Qed.
Lemma prox_sub d phi rho z x : 0 < rho -> convex phi -> is_prox d phi rho z x ->
  subgradient d (restr d phi) x (vscal (/ rho) (vsub z x)).
Proof.
  intros Hr Hc [[Hx Dx] Hmin]. split; [easy|]. intros y [Hy Dy]. simpl in *.
  set (c := nsq d (vsub y x) / (2 * rho)).
  assert (Hc0 : 0 <= c).
  { unfold c, Rdiv. apply Rmult_le_pos; [apply nsq_nonneg|]. apply Rlt_le, Rinv_0_lt_compat. lra. }
  apply Rle_ge. assert (G : val phi x <= val phi y - dot d (vscal (/ rho) (vsub z x)) (vsub y x)); [|lra].
  apply limit_le with c; [easy|]. intros t Ht.
  destruct (Hc y x t Dy Dx) as [Ds Hs]; [lra|].
  assert (Is : in_Rd d (segment t y x)).
  { intros k Hk. unfold segment, vadd, vscal. rewrite Hx, Hy by easy. lra. }
  specialize (Hmin _ (conj Is Ds)).
  assert (E : nsq d (vsub (segment t y x) z) = nsq d (vsub x z) + 2 * t * dot d (vsub x z) (vsub y x) + t * t * nsq d (vsub y x)).
  { unfold nsq. replace (dot d (vsub (segment t y x) z) (vsub (segment t y x) z))
      with (dot d (vadd (vsub x z) (vscal t (vsub y x))) (vadd (vsub x z) (vscal t (vsub y x)))).
    - rewrite !dot_add_l, !dot_add_r, !dot_scal_l, !dot_scal_r, (dot_comm d (vsub y x) (vsub x z)). ring.
    - apply dot_ext; intros k _; unfold segment, vadd, vsub, vscal; ring. }
  rewrite E in Hmin. rewrite dot_scal_l.
  assert (F : dot d (vsub z x) (vsub y x) = - dot d (vsub x z) (vsub y x)).
  { rewrite <- dot_opp_l. apply dot_ext; intros k _; unfold vsub, vopp; ring. }
  rewrite F. unfold c.
  set (p := dot d (vsub x z) (vsub y x)) in *. set (q := nsq d (vsub y x)) in *.
  assert (M : t * val phi x <= t * (val phi y - / rho * - p + t * (q / (2 * rho)))); [|apply Rmult_le_reg_l with t; lra].
  replace ((nsq d (vsub x z) + 2 * t * p + t * t * q) / (2 * rho))
    with (nsq d (vsub x z) / (2 * rho) + t * (/ rho * p) + t * t * (q / (2 * rho))) in Hmin by (field; lra).
  nra.
Qed.
Lemma sub_prox d phi rho z x : 0 < rho -> subgradient d (restr d phi) x (vscal (/ rho) (vsub z x)) -> is_prox d phi rho z x.
Proof.
  intros Hr [Hx Hs]. split; [exact Hx|]. intros y Hy. specialize (Hs y Hy). simpl in *. rewrite dot_scal_l in Hs.
  assert (E : nsq d (vsub y z) = nsq d (vsub x z) - 2 * dot d (vsub z x) (vsub y x) + nsq d (vsub y x)).
  { unfold nsq. replace (dot d (vsub y z) (vsub y z))
      with (dot d (vsub (vsub y x) (vsub z x)) (vsub (vsub y x) (vsub z x))).
    - replace (dot d (vsub x z) (vsub x z)) with (dot d (vopp (vsub z x)) (vopp (vsub z x))).
      + rewrite !dot_sub_l, !dot_sub_r, !dot_opp_l, !dot_opp_r, !dot_sub_l, !dot_sub_r,
          (dot_comm d x z), (dot_comm d x y), (dot_comm d z y). ring.
      + apply dot_ext; intros k _; unfold vsub, vopp; ring.
    - apply dot_ext; intros k _; unfold vsub; ring. }
  rewrite E. pose proof (nsq_nonneg d (vsub y x)). set (p := dot d (vsub z x) (vsub y x)) in *.
  replace ((nsq d (vsub x z) - 2 * p + nsq d (vsub y x)) / (2 * rho))
    with (nsq d (vsub x z) / (2 * rho) - / rho * p + nsq d (vsub y x) * / (2 * rho)) by (field; lra).
  assert (0 <= nsq d (vsub y x) * / (2 * rho)) by (apply Rmult_le_pos; [easy|apply Rlt_le, Rinv_0_lt_compat; lra]). lra.
Qed.
Lemma prox_unique d phi rho z x y : 0 < rho -> convex phi -> is_prox d phi rho z x -> is_prox d phi rho z y -> x = y.
Proof.
  intros Hr Hc Hx Hy. pose proof (prox_in _ _ _ _ _ Hx) as Ix. pose proof (prox_in _ _ _ _ _ Hy) as Iy.
  apply prox_sub in Hx, Hy; try easy. destruct Hx as [_ Hx], Hy as [_ Hy].
  specialize (Hx y Iy). specialize (Hy x Ix). simpl in *. rewrite !dot_scal_l in *.
  assert (N : nsq d (vsub x y) = dot d (vsub z y) (vsub x y) + dot d (vsub z x) (vsub y x)).
  { unfold nsq. rewrite !dot_sub_l, !dot_sub_r, (dot_comm d x y). ring. }
  pose proof (nsq_nonneg d (vsub x y)) as Np.
  assert (S : / rho * nsq d (vsub x y) <= 0) by (rewrite N; lra).
  assert (P : 0 < / rho) by (apply Rinv_0_lt_compat; easy).
  apply (in_Rd_eq d); try easy. intros k Hk.
  assert (Z : nsq d (vsub x y) = 0) by nra. pose proof (nsq_zero _ _ Z k Hk) as E. unfold vsub in E. lra.
Qed.
Lemma sub_restr d phi x g : in_Rd d x -> subgradient d phi x g -> subgradient d (restr d phi) x g.
Proof. intros Hx [Dx H]. split; [easy|]. intros y [_ Dy]. apply H, Dy. Qed.
