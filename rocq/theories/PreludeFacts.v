(** Lemmas about sums, vectors and dictionaries. *)
From Coq Require Import List Arith Bool Reals Lra Lia FunctionalExtensionality Permutation.
From Verif Require Import Prelude.
Import ListNotations.
Local Open Scope R_scope.

Lemma rsum_ext n f g : (forall k, (k < n)%nat -> f k = g k) -> rsum n f = rsum n g.
Proof.
  induction n as [|n IH]; simpl; intros H; [easy|].
  rewrite IH, H by (intros; try apply H; lia). easy.
Qed.

Lemma rsum_plus n f g : rsum n (fun k => f k + g k) = rsum n f + rsum n g.
Proof. induction n as [|n IH]; simpl; [lra|rewrite IH; lra]. Qed.

Lemma rsum_minus n f g : rsum n (fun k => f k - g k) = rsum n f - rsum n g.
Proof. induction n as [|n IH]; simpl; [lra|rewrite IH; lra]. Qed.

Lemma rsum_scal n c f : rsum n (fun k => c * f k) = c * rsum n f.
Proof. induction n as [|n IH]; simpl; [lra|rewrite IH; lra]. Qed.

Lemma rsum_scal_r n c f : rsum n (fun k => f k * c) = rsum n f * c.
Proof. induction n as [|n IH]; simpl; [lra|rewrite IH; lra]. Qed.

Lemma rsum_zero n f : (forall k, (k < n)%nat -> f k = 0) -> rsum n f = 0.
Proof.
  induction n as [|n IH]; simpl; intros H; [easy|].
  rewrite IH, H by (intros; try apply H; lia). lra.
Qed.

Lemma rsum_nonneg n f : (forall k, (k < n)%nat -> 0 <= f k) -> 0 <= rsum n f.
Proof.
  induction n as [|n IH]; simpl; intros H; [lra|].
  assert (0 <= rsum n f) by (apply IH; intros; apply H; lia).
  assert (0 <= f n) by (apply H; lia). lra.
Qed.

Lemma rsum_le n f g : (forall k, (k < n)%nat -> f k <= g k) -> rsum n f <= rsum n g.
Proof.
  induction n as [|n IH]; simpl; intros H; [lra|].
  assert (rsum n f <= rsum n g) by (apply IH; intros; apply H; lia).
  assert (f n <= g n) by (apply H; lia). lra.
Qed.

Lemma rsum_swap n m (f : nat -> nat -> R) :
  rsum n (fun i => rsum m (fun j => f i j)) = rsum m (fun j => rsum n (fun i => f i j)).
Proof.
  induction n as [|n IH]; simpl.
  - symmetry; apply rsum_zero; easy.
  - rewrite IH, <- rsum_plus. easy.
Qed.

Lemma rsum_single n i c : (i < n)%nat ->
  rsum n (fun k => if Nat.eqb k i then c else 0) = c.
Proof.
  induction n as [|n IH]; intros H; [lia|]. simpl.
  destruct (Nat.eqb_spec n i) as [->|Hne].
  - rewrite rsum_zero; [lra|]. intros k Hk. destruct (Nat.eqb_spec k i); [lia|easy].
  - rewrite IH by lia. lra.
Qed.

Lemma rsum_split n m f : rsum (n + m) f = rsum n f + rsum m (fun k => f (n + k)%nat).
Proof.
  induction m as [|m IH].
  - rewrite Nat.add_0_r; simpl; lra.
  - rewrite Nat.add_succ_r. simpl. rewrite IH. lra.
Qed.

Lemma rsum_S_l n f : rsum (S n) f = f 0%nat + rsum n (fun k => f (S k)).
Proof. induction n as [|n IH]; [simpl; lra|]. simpl in *. rewrite IH. lra. Qed.

Lemma rsum_const n c : rsum n (fun _ => c) = INR n * c.
Proof. induction n as [|n IH]; [simpl; lra|]. simpl rsum. rewrite IH, S_INR. lra. Qed.

Lemma lsum_app {A} (f : A -> R) l1 l2 : lsum f (l1 ++ l2) = lsum f l1 + lsum f l2.
Proof. induction l1 as [|a l1 IH]; simpl; [lra|rewrite IH; lra]. Qed.

Lemma lsum_cons {A} (f : A -> R) a l : lsum f (a :: l) = f a + lsum f l.
Proof. easy. Qed.

Lemma lsum_ext {A} (f g : A -> R) l : (forall a, In a l -> f a = g a) -> lsum f l = lsum g l.
Proof.
  induction l as [|a l IH]; simpl; intros H; [easy|].
  rewrite H, IH by auto. easy.
Qed.

Lemma lsum_map {A B} (f : B -> R) (h : A -> B) l : lsum f (map h l) = lsum (fun a => f (h a)) l.
Proof. induction l as [|a l IH]; simpl; [easy|rewrite IH; easy]. Qed.

Lemma lsum_plus {A} (f g : A -> R) l : lsum (fun a => f a + g a) l = lsum f l + lsum g l.
Proof. induction l as [|a l IH]; simpl; [lra|rewrite IH; lra]. Qed.

Lemma lsum_scal {A} c (f : A -> R) l : lsum (fun a => c * f a) l = c * lsum f l.
Proof. induction l as [|a l IH]; simpl; [lra|rewrite IH; lra]. Qed.

Lemma lsum_scal_r {A} c (f : A -> R) l : lsum (fun a => f a * c) l = lsum f l * c.
Proof. induction l as [|a l IH]; simpl; [lra|rewrite IH; lra]. Qed.

Lemma lsum_zero {A} (f : A -> R) l : (forall a, In a l -> f a = 0) -> lsum f l = 0.
Proof.
  induction l as [|a l IH]; simpl; intros H; [easy|].
  rewrite H, IH by auto. lra.
Qed.

Lemma lsum_nonneg {A} (f : A -> R) l : (forall a, In a l -> 0 <= f a) -> 0 <= lsum f l.
Proof.
  induction l as [|a l IH]; simpl; intros H; [lra|].
  assert (0 <= f a) by auto. assert (0 <= lsum f l) by auto. lra.
Qed.

Lemma lsum_nonpos {A} (f : A -> R) l : (forall a, In a l -> f a <= 0) -> lsum f l <= 0.
Proof.
  induction l as [|a l IH]; simpl; intros H; [lra|].
  assert (f a <= 0) by auto. assert (lsum f l <= 0) by auto. lra.
Qed.

Lemma lsum_rsum {A} n (f : A -> nat -> R) l :
  lsum (fun a => rsum n (f a)) l = rsum n (fun k => lsum (fun a => f a k) l).
Proof.
  induction l as [|a l IH]; simpl.
  - symmetry; apply rsum_zero; easy.
  - rewrite IH, <- rsum_plus. easy.
Qed.

Lemma lsum_swap {A B} (f : A -> B -> R) l1 l2 :
  lsum (fun a => lsum (fun b => f a b) l2) l1 = lsum (fun b => lsum (fun a => f a b) l1) l2.
Proof.
  induction l1 as [|a l1 IH]; simpl.
  - symmetry; apply lsum_zero; easy.
  - rewrite IH, <- lsum_plus. easy.
Qed.

Lemma lsum_perm {A} (f : A -> R) l1 l2 : Permutation l1 l2 -> lsum f l1 = lsum f l2.
Proof. induction 1; simpl; lra. Qed.

Lemma lsum_seq f n : lsum f (seq 0 n) = rsum n f.
Proof.
  induction n as [|n IH]; [easy|].
  rewrite seq_S, lsum_app, IH. simpl. lra.
Qed.

(** Inner product. *)
Lemma dot_comm d u v : dot d u v = dot d v u.
Proof. unfold dot. apply rsum_ext. intros; lra. Qed.
Lemma dot_add_l d u v w : dot d (vadd u v) w = dot d u w + dot d v w.
Proof. unfold dot, vadd. rewrite <- rsum_plus. apply rsum_ext. intros; lra. Qed.
Lemma dot_sub_l d u v w : dot d (vsub u v) w = dot d u w - dot d v w.
Proof. unfold dot, vsub. rewrite <- rsum_minus. apply rsum_ext. intros; lra. Qed.
Lemma dot_scal_l d c u w : dot d (vscal c u) w = c * dot d u w.
Proof. unfold dot, vscal. rewrite <- rsum_scal. apply rsum_ext. intros; lra. Qed.
Lemma dot_opp_l d u w : dot d (vopp u) w = - dot d u w.
Proof.
  unfold dot, vopp. replace (- rsum d (fun k => u k * w k)) with (-1 * rsum d (fun k => u k * w k)) by lra.
  rewrite <- rsum_scal. apply rsum_ext. intros; lra.
Qed.
Lemma dot_zero_l d w : dot d vzero w = 0.
Proof. unfold dot, vzero. apply rsum_zero. intros; lra. Qed.
Lemma dot_add_r d u v w : dot d u (vadd v w) = dot d u v + dot d u w.
Proof. rewrite dot_comm, dot_add_l, (dot_comm d v), (dot_comm d w). easy. Qed.
Lemma dot_sub_r d u v w : dot d u (vsub v w) = dot d u v - dot d u w.
Proof. rewrite dot_comm, dot_sub_l, (dot_comm d v), (dot_comm d w). easy. Qed.
Lemma dot_scal_r d c u w : dot d u (vscal c w) = c * dot d u w.
Proof. rewrite dot_comm, dot_scal_l, (dot_comm d w). easy. Qed.
Lemma dot_opp_r d u w : dot d u (vopp w) = - dot d u w.
Proof. rewrite dot_comm, dot_opp_l, (dot_comm d w). easy. Qed.
Lemma dot_zero_r d u : dot d u vzero = 0.
Proof. rewrite dot_comm. apply dot_zero_l. Qed.
Lemma nsq_nonneg d u : 0 <= nsq d u.
Proof. unfold nsq, dot. apply rsum_nonneg. intros. nra. Qed.

(** Dictionaries. *)
Section DictFacts.
  Context {K V : Type}.
  Variable eqb : K -> K -> bool.
  Hypothesis eqb_eq : forall a b, eqb a b = true <-> a = b.

  Lemma dget_in k (v : V) d : dget eqb k d = Some v -> In (k, v) d.
  Proof.
    induction d as [|[k' v'] d IH]; simpl; [easy|].
    destruct (eqb k k') eqn:E; intros H.
    - apply eqb_eq in E; subst. injection H; intros; subst. auto.
    - auto.
  Qed.

  Lemma dget_none k (d : list (K * V)) : dget eqb k d = None <-> ~ In k (keys d).
  Proof.
    induction d as [|[k' v'] d IH]; simpl; [tauto|].
    destruct (eqb k k') eqn:E.
    - apply eqb_eq in E; subst. split; [easy|]. intros H; exfalso; auto.
    - rewrite IH. split; intros H; [|tauto].
      intros [H1|H1]; [|tauto]. subst. rewrite (proj2 (eqb_eq k k)) in E; easy.
  Qed.

  Lemma dget_nodup k (v : V) d : NoDup (keys d) -> In (k, v) d -> dget eqb k d = Some v.
  Proof.
    induction d as [|[k' v'] d IH]; simpl; [easy|].
    intros Hn [H|H].
    - injection H; intros; subst. rewrite (proj2 (eqb_eq k k)); easy.
    - inversion Hn as [|? ? Hk Hn']; subst.
      destruct (eqb k k') eqn:E.
      + apply eqb_eq in E; subst. exfalso; apply Hk.
        apply in_map_iff. exists (k', v); easy.
      + auto.
  Qed.

  Lemma dmem_true k (d : list (K * V)) : dmem eqb k d = true <-> In k (keys d).
  Proof.
    unfold dmem. destruct (dget eqb k d) eqn:E.
    - split; [intros _|easy]. apply dget_in in E. apply in_map_iff. exists (k, v); easy.
    - apply dget_none in E. split; [easy|tauto].
  Qed.

  Lemma dmem_false k (d : list (K * V)) : dmem eqb k d = false <-> ~ In k (keys d).
  Proof.
    rewrite <- dmem_true. destruct (dmem eqb k d); split; congruence.
  Qed.

  Lemma dset_keys_mem k (v : V) d : In k (keys d) -> keys (dset eqb k v d) = keys d.
  Proof.
    induction d as [|[k' v'] d IH]; simpl; [easy|].
    intros H. destruct (eqb k k') eqn:E; [easy|]. simpl. f_equal. apply IH.
    destruct H as [H|H]; [|easy]. subst. rewrite (proj2 (eqb_eq k k)) in E; easy.
  Qed.

  Lemma dset_notin k (v : V) d : ~ In k (keys d) -> dset eqb k v d = d ++ [(k, v)].
  Proof.
    induction d as [|[k' v'] d IH]; simpl; [easy|].
    intros H. destruct (eqb k k') eqn:E.
    - apply eqb_eq in E; subst; tauto.
    - f_equal. apply IH; tauto.
  Qed.

  Lemma dset_keys_incl k (v : V) d x : In x (keys (dset eqb k v d)) <-> x = k \/ In x (keys d).
  Proof.
    destruct (in_dec (fun a b => match Bool.bool_dec (eqb a b) true with
                                 | left e => left (proj1 (eqb_eq a b) e)
                                 | right n => right (fun e => n (proj2 (eqb_eq a b) e)) end) k (keys d)) as [H|H].
    - rewrite dset_keys_mem by easy. split; [tauto|]. intros [->|]; easy.
    - rewrite dset_notin by easy. unfold keys in *. rewrite map_app, in_app_iff. simpl.
      split; [intros [|[|[]]]; auto|intros [|]; auto].
  Qed.

  Lemma dset_nodup k (v : V) d : NoDup (keys d) -> NoDup (keys (dset eqb k v d)).
  Proof.
    intros Hn.
    destruct (dmem eqb k d) eqn:E.
    - apply dmem_true in E. rewrite dset_keys_mem; easy.
    - apply dmem_false in E. rewrite dset_notin by easy. unfold keys in *.
      rewrite map_app. simpl. apply Permutation_NoDup with (l := k :: map fst d).
      + apply Permutation_cons_append.
      + constructor; easy.
  Qed.

  Lemma dget_dset_same k (v : V) d : dget eqb k (dset eqb k v d) = Some v.
  Proof.
    induction d as [|[k' v'] d IH]; simpl.
    - rewrite (proj2 (eqb_eq k k)); easy.
    - destruct (eqb k k') eqn:E; simpl; rewrite E; easy.
  Qed.

  Lemma dget_dset_other k k' (v : V) d : k <> k' -> dget eqb k (dset eqb k' v d) = dget eqb k d.
  Proof.
    intros Hne. induction d as [|[k2 v2] d IH]; simpl.
    - destruct (eqb k k') eqn:E; [apply eqb_eq in E; easy|easy].
    - destruct (eqb k' k2) eqn:E; simpl.
      + apply eqb_eq in E; subst. destruct (eqb k k2) eqn:E2; [apply eqb_eq in E2; easy|easy].
      + destruct (eqb k k2); easy.
  Qed.

  (** Weighted sum over a dictionary after an assignment. *)
  Lemma lsum_dset_mem (f : K * V -> R) k v old d :
    dget eqb k d = Some old ->
    lsum f (dset eqb k v d) = lsum f d - f (k, old) + f (k, v).
  Proof.
    induction d as [|[k' v'] d IH]; simpl; [easy|].
    destruct (eqb k k') eqn:E; intros H.
    - apply eqb_eq in E; subst. injection H; intros; subst. simpl. lra.
    - simpl. rewrite IH by easy. lra.
  Qed.

  Lemma lsum_dset_new (f : K * V -> R) k v d :
    ~ In k (keys d) -> lsum f (dset eqb k v d) = lsum f d + f (k, v).
  Proof.
    intros H. rewrite dset_notin by easy. rewrite lsum_app. simpl. lra.
  Qed.
End DictFacts.
