(** Positive semidefinite matrices have a lower triangular factor. *)
From Coq Require Import List Arith Bool Reals Lra Lia.
From Verif Require Import Prelude PreludeFacts SolverSpec.
Local Open Scope R_scope.

Lemma rsum_first n f : rsum (S n) f = f 0%nat + rsum n (fun i => f (S i)).
Proof. induction n as [|n IH]; [simpl; lra|]. change (rsum (S (S n)) f) with (rsum (S n) f + f (S n)). rewrite IH. simpl. lra. Qed.

Lemma psd_split n Z x0 x :
  (forall i j, (i < S n)%nat -> (j < S n)%nat -> Z i j = Z j i) ->
  rsum (S n) (fun i => rsum (S n) (fun j => (match i with O => x0 | S k => x k end) * (match j with O => x0 | S k => x k end) * Z i j)) =
  x0 * x0 * Z 0%nat 0%nat + 2 * x0 * rsum n (fun j => x j * Z 0%nat (S j)) + rsum n (fun i => rsum n (fun j => x i * x j * Z (S i) (S j))).
Proof.
  intros Hs. rewrite rsum_first, rsum_first.
  rewrite (rsum_ext n (fun i => rsum (S n) _) (fun i => x i * x0 * Z 0%nat (S i) + rsum n (fun j => x i * x j * Z (S i) (S j)))).
  2:{ intros i Hi. rewrite rsum_first. rewrite (Hs (S i) 0%nat) by lia. reflexivity. }
  rewrite rsum_plus. rewrite (rsum_ext n (fun i => x0 * x i * Z 0%nat (S i)) (fun i => x0 * (x i * Z 0%nat (S i)))) by (intros; ring).
  rewrite (rsum_ext n (fun i => x i * x0 * Z 0%nat (S i)) (fun i => x0 * (x i * Z 0%nat (S i)))) by (intros; ring).
  rewrite rsum_scal. ring.
Qed.

Lemma psd_diag n Z i : psd n Z -> (i < n)%nat -> 0 <= Z i i.
Proof.
  intros [_ H] Hi. specialize (H (fun k => if Nat.eqb k i then 1 else 0)).
  assert (E : forall f, rsum n (fun k => (if Nat.eqb k i then 1 else 0) * f k) = f i).
  { intros f. clear H. induction n as [|n IH]; [lia|]. simpl. destruct (Nat.eqb n i) eqn:En.
    - apply Nat.eqb_eq in En. subst n. rewrite rsum_zero; [lra|]. intros k Hk. destruct (Nat.eqb k i) eqn:Ek; [apply Nat.eqb_eq in Ek; lia|lra].
    - apply Nat.eqb_neq in En. rewrite IH by lia. lra. }
  rewrite (rsum_ext n _ (fun a => (if Nat.eqb a i then 1 else 0) * Z a i)) in H.
  - rewrite E in H. exact H.
  - intros a Ha. rewrite (rsum_ext n _ (fun b => (if Nat.eqb b i then 1 else 0) * ((if Nat.eqb a i then 1 else 0) * Z a b))) by (intros; ring).
    apply E.
Qed.

(** a non-negative quadratic with zero leading coefficient has zero slope *)
Lemma quad_zero b c : (forall t, 0 <= 2 * t * b + c) -> b = 0.
Proof.
  intros H. destruct (Req_dec b 0) as [->|Hb]; [reflexivity|]. specialize (H (- (Rabs c + 1) / (2 * b))).
  replace (2 * (- (Rabs c + 1) / (2 * b)) * b + c) with (c - (Rabs c + 1)) in H by (field; exact Hb).
  pose proof (Rle_abs c). lra.
Qed.
Lemma psd_zero_row n Z : psd (S n) Z -> Z 0%nat 0%nat = 0 -> forall j, (j < n)%nat -> Z 0%nat (S j) = 0.
Proof.
  intros [Hs H] Hz j Hj.
  set (x := fun k => if Nat.eqb k j then 1 else 0).
  assert (E : forall f, rsum n (fun k => x k * f k) = f j).
  { intros f. unfold x. clear -Hj. induction n as [|n IH]; [lia|]. simpl. destruct (Nat.eqb n j) eqn:En.
    - apply Nat.eqb_eq in En. subst n. rewrite rsum_zero; [lra|]. intros k Hk. destruct (Nat.eqb k j) eqn:Ek; [apply Nat.eqb_eq in Ek; lia|lra].
    - apply Nat.eqb_neq in En. rewrite IH by lia. lra. }
  apply (quad_zero _ (rsum n (fun i => rsum n (fun j => x i * x j * Z (S i) (S j))))). intros t.
  specialize (H (fun i => match i with O => t | S k => x k end)).
  cbv beta in H. rewrite (psd_split n Z t x Hs), Hz, (E (fun j => Z 0%nat (S j))) in H. lra.
Qed.

Lemma psd_schur n Z : psd (S n) Z -> 0 < Z 0%nat 0%nat ->
  psd n (fun i j => Z (S i) (S j) - Z 0%nat (S i) * Z 0%nat (S j) / Z 0%nat 0%nat).
Proof.
  intros [Hs H] Hp. split.
  - intros i j Hi Hj. rewrite (Hs (S i) (S j)) by lia. field. lra.
  - intros x. set (a := Z 0%nat 0%nat) in *. set (c := rsum n (fun j => x j * Z 0%nat (S j))).
    specialize (H (fun i => match i with O => - c / a | S k => x k end)).
    cbv beta in H. rewrite (psd_split n Z (- c / a) x Hs) in H. fold a c in H.
    rewrite (rsum_ext n (fun i => rsum n (fun j => x i * x j * (Z (S i) (S j) - Z 0%nat (S i) * Z 0%nat (S j) / a)))
       (fun i => rsum n (fun j => x i * x j * Z (S i) (S j)) - (c / a) * (x i * Z 0%nat (S i)))).
    + rewrite rsum_minus, rsum_scal. fold c. replace (- c / a * (- c / a) * a + 2 * (- c / a) * c) with (- (c / a * c)) in H by (field; lra). lra.
    + intros i Hi. rewrite (rsum_ext n _ (fun j => x i * x j * Z (S i) (S j) - (x i * Z 0%nat (S i) / a) * (x j * Z 0%nat (S j)))) by (intros; field; lra).
      rewrite rsum_minus, rsum_scal. fold c. field. lra.
Qed.
Lemma psd_tail n Z : psd (S n) Z -> psd n (fun i j => Z (S i) (S j)).
Proof.
  intros [Hs H]. split; [intros i j Hi Hj; apply Hs; lia|]. intros x. specialize (H (fun i => match i with O => 0 | S k => x k end)).
  cbv beta in H. rewrite (psd_split n Z 0 x Hs) in H. lra.
Qed.

Theorem cholesky n : forall Z, psd n Z -> exists L,
  (forall i j, (i < j)%nat -> (j < n)%nat -> L i j = 0) /\ (forall i, (i < n)%nat -> 0 <= L i i) /\
  forall i j, (i < n)%nat -> (j < n)%nat -> Z i j = rsum n (fun c => L i c * L j c).
Proof.
  induction n as [|n IH]; intros Z H.
  - exists (fun _ _ => 0). split; [intros; lia|]. split; intros; lia.
  - assert (Hd := psd_diag (S n) Z 0 H ltac:(lia)). assert (Hs := proj1 H). destruct Hd as [Hp|Hz].
    + destruct (IH _ (psd_schur n Z H Hp)) as (L & L1 & L2 & L3).
      set (q := sqrt (Z 0%nat 0%nat)). assert (Hq : 0 < q) by (apply sqrt_lt_R0; exact Hp).
      assert (Hqq : q * q = Z 0%nat 0%nat) by (apply sqrt_sqrt; lra).
      exists (fun i j => match j with O => Z 0%nat i / q | S j => match i with O => 0 | S i => L i j end end).
      split; [|split].
      * intros i [|j] Hi Hj; [lia|]. destruct i; [reflexivity|]. apply L1; lia.
      * intros [|i] Hi; [|apply L2; lia]. rewrite <- Hqq. unfold Rdiv. rewrite Rmult_assoc, Rinv_r by lra. lra.
      * intros i j Hi Hj. rewrite rsum_first. 
        assert (E0 : forall u v, u / q * (v / q) = u * v / Z 0%nat 0%nat) by (intros; rewrite <- Hqq; field; lra).
        rewrite E0. destruct i as [|i]; [|destruct j as [|j]].
        -- rewrite rsum_zero by (intros; destruct j; ring). field. lra.
        -- rewrite rsum_zero by (intros; ring). rewrite (Hs (S i) 0%nat) by lia. field. lra.
        -- rewrite <- L3 by lia. lra.
    + destruct (IH _ (psd_tail n Z H)) as (L & L1 & L2 & L3). symmetry in Hz.
      assert (Zr := psd_zero_row n Z H Hz).
      exists (fun i j => match j with O => 0 | S j => match i with O => 0 | S i => L i j end end).
      split; [|split].
      * intros i [|j] Hi Hj; [lia|]. destruct i; [reflexivity|]. apply L1; lia.
      * intros [|i] Hi; [lra|apply L2; lia].
      * intros i j Hi Hj. rewrite rsum_first. destruct i as [|i]; [|destruct j as [|j]].
        -- rewrite rsum_zero by (intros; destruct j; ring). destruct j as [|j]; [rewrite Hz; ring|rewrite Zr by lia; ring].
        -- rewrite rsum_zero by (intros; ring). rewrite (Hs (S i) 0%nat) by lia. rewrite Zr by lia. ring.
        -- rewrite <- L3 by lia. lra.
Qed.

(** and conversely *)
Lemma ppt_psd n m P : psd n (fun i j => rsum m (fun c => P i c * P j c)).
Proof.
  split; [intros; apply rsum_ext; intros; ring|]. intros x.
  assert (E : rsum n (fun i => rsum n (fun j => x i * x j * rsum m (fun c => P i c * P j c))) =
     rsum m (fun c => rsum n (fun i => x i * P i c) * rsum n (fun i => x i * P i c))).
  { rewrite (rsum_ext n _ (fun i => rsum m (fun c => (x i * P i c) * rsum n (fun j => x j * P j c)))).
    - rewrite rsum_swap. apply rsum_ext. intros c _. rewrite <- rsum_scal_r. reflexivity.
    - intros i _. rewrite (rsum_ext n _ (fun j => rsum m (fun c => (x i * P i c) * (x j * P j c)))).
      + rewrite rsum_swap. apply rsum_ext. intros c _. rewrite rsum_scal. reflexivity.
      + intros j _. rewrite <- rsum_scal. apply rsum_ext. intros; ring. }
  rewrite E. apply rsum_nonneg. intros c _. apply Rle_0_sqr.
Qed.
