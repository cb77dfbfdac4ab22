From Coq Require Import List Arith Bool Reals Lia Lra Psatz.
From Verif Require Import Prelude PreludeFacts Spec BuilderSpec MethodModel MethodSpec GraphFacts.
Import ListNotations.
Local Open Scope R_scope.

Lemma nbrs_cons (a : nat) l (g : graph) u : nbrs ((a, l) :: g) u = if Nat.eqb u a then l else nbrs g u.
Proof. unfold nbrs. simpl. destruct (Nat.eqb u a); easy. Qed.
Lemma edges_from_in (g : graph) : forall seen u v, NoDup (keys g) -> In (u, v) (edges_from seen g) -> In u (keys g) /\ In v (nbrs g u).
Proof.
  induction g as [|[a l] g IH]; intros seen u v Hn H; [easy|]. simpl in Hn. inversion Hn as [|? ? Ha Hg]; subst.
  simpl in H. apply in_app_iff in H. rewrite nbrs_cons. destruct H as [H|H].
  - apply in_map_iff in H. destruct H as (w & E & H). injection E; intros; subst. rewrite Nat.eqb_refl. apply filter_In in H. split; [left; easy|easy].
  - apply IH in H; [|easy]. destruct H as [H1 H2]. split; [right; easy|]. destruct (Nat.eqb u a) eqn:E; [|easy].
    apply Nat.eqb_eq in E. subst. easy.
Qed.
Lemma edges_from_cover (g : graph) : forall seen u v, In u (keys g) -> In v (keys g) -> ~ In u seen -> ~ In v seen ->
  In v (nbrs g u) -> In u (nbrs g v) -> In (u, v) (edges_from seen g) \/ In (v, u) (edges_from seen g).
Proof.
  induction g as [|[a l] g IH]; intros seen u v Hu Hv Su Sv N1 N2; [easy|]. rewrite nbrs_cons in N1, N2.
  simpl edges_from. destruct (Nat.eqb u a) eqn:E.
  - apply Nat.eqb_eq in E. subst. left. apply in_app_iff. left. apply in_map_iff. exists v. split; [easy|]. apply filter_In. split; [easy|].
    apply mem_false in Sv. rewrite Sv. easy.
  - destruct (Nat.eqb v a) eqn:E2.
    + apply Nat.eqb_eq in E2. subst. right. apply in_app_iff. left. apply in_map_iff. exists u. split; [easy|]. apply filter_In. split; [easy|].
      apply mem_false in Su. rewrite Su. easy.
    + apply Nat.eqb_neq in E, E2. simpl in Hu, Hv. destruct (IH (a :: seen) u v) as [H|H]; auto; try tauto.
      * destruct Hu; [congruence|easy].
      * destruct Hv; [congruence|easy].
      * simpl. intros [K|K]; [congruence|easy].
      * simpl. intros [K|K]; [congruence|easy].
      * left. apply in_app_iff. tauto.
      * right. apply in_app_iff. tauto.
Qed.
Lemma has_keys (g : graph) u : has g u <-> In u (keys g).
Proof.
  unfold has, dmem. destruct (dget Nat.eqb u g) eqn:E.
  - split; [|easy]. intros _. destruct (in_dec Nat.eq_dec u (keys g)) as [H|H]; [easy|]. apply (dget_none Nat.eqb Nat.eqb_eq) in H. congruence.
  - split; [easy|]. intros H. apply (dget_none Nat.eqb Nat.eqb_eq) in E. easy.
Qed.
Lemma edges_sound nodes es u v : In (u, v) (edges (mk_graph nodes es)) -> In (u, v) es \/ In (v, u) es.
Proof. intros H. apply edges_from_in in H; [|apply nodup_keys_mk]. apply nbrs_mk with nodes. easy. Qed.
Lemma edges_complete nodes es u v : In (u, v) es -> In (u, v) (edges (mk_graph nodes es)) \/ In (v, u) (edges (mk_graph nodes es)).
Proof.
  intros H. apply edges_from_cover; try easy.
  - apply has_keys, has_mk. right. exists v. tauto.
  - apply has_keys, has_mk. right. exists u. tauto.
  - apply nbrs_mk. tauto.
  - apply nbrs_mk. tauto.
Qed.

Lemma weight_sym g i j : weight g i j = weight g j i.
Proof. unfold weight. rewrite Nat.max_comm. easy. Qed.
Definition hits (i j : nat) (e : nat * nat) : bool :=
  (Nat.eqb (fst e) (S i) && Nat.eqb (snd e) (S j)) || (Nat.eqb (fst e) (S j) && Nat.eqb (snd e) (S i)).
Definition put (g : graph) (n : nat) (r : res (nat -> nat -> R)) (e : nat * nat) : res (nat -> nat -> R) :=
  let? W := r in
      if Nat.leb (fst e) n && Nat.leb (snd e) n
      then Ok (upd2 (upd2 W (pred (fst e)) (pred (snd e)) (weight g (fst e) (snd e)))
                 (pred (snd e)) (pred (fst e)) (weight g (snd e) (fst e)))
      else Err IndexError.
Lemma put_err g n l x : fold_left (put g n) l (Err x) = Err x.
Proof. induction l; simpl; easy. Qed.
Lemma edge_fold g n l : (forall e, In e l -> (1 <= fst e <= n)%nat /\ (1 <= snd e <= n)%nat) ->
  forall W0, exists W, fold_left (put g n) l (Ok W0) = Ok W /\ forall i j, W i j = if existsb (hits i j) l then weight g (S i) (S j) else W0 i j.
Proof.
  induction l as [|[u v] l IH]; intros H W0.
  - exists W0. split; easy.
  - destruct (H (u, v) (or_introl eq_refl)) as [Hu Hv]. simpl in Hu, Hv.
    cbn [fold_left]. unfold put at 2. cbn [bindr fst snd]. rewrite (proj2 (Nat.leb_le u n)), (proj2 (Nat.leb_le v n)) by lia. cbn [andb].
    edestruct IH as (W & E & HW); [intros e He; apply H; right; easy|]. exists W. split; [exact E|].
    intros i j. rewrite HW. cbn [existsb]. destruct (existsb (hits i j) l); [rewrite orb_true_r; easy|]. rewrite orb_false_r.
    unfold hits, upd2. cbn [fst snd].
    destruct (Nat.eqb u (S i)) eqn:E1, (Nat.eqb v (S j)) eqn:E2, (Nat.eqb u (S j)) eqn:E3, (Nat.eqb v (S i)) eqn:E4; cbn [andb orb];
      repeat match goal with K : Nat.eqb _ _ = true |- _ => apply Nat.eqb_eq in K | K : Nat.eqb _ _ = false |- _ => apply Nat.eqb_neq in K end;
      repeat match goal with |- context [Nat.eqb ?a ?b] => destruct (Nat.eqb a b) eqn:? end; cbn [andb];
      repeat match goal with K : Nat.eqb _ _ = true |- _ => apply Nat.eqb_eq in K | K : Nat.eqb _ _ = false |- _ => apply Nat.eqb_neq in K end;
      subst; try lia; try easy; try (apply weight_sym).
Qed.
Lemma edge_fold_err g n l : (exists e, In e l /\ ((n < fst e)%nat \/ (n < snd e)%nat)) -> forall W0, fold_left (put g n) l (Ok W0) = Err IndexError.
Proof.
  induction l as [|e l IH]; intros (e' & Hin & He) W0; [easy|]. cbn [fold_left]. unfold put at 2. cbn [bindr].
  destruct (Nat.leb (fst e) n && Nat.leb (snd e) n) eqn:B.
  - apply IH. destruct Hin as [Hin|Hin].
    + subst. apply andb_true_iff in B. rewrite !Nat.leb_le in B. lia.
    + exists e'. easy.
  - apply put_err.
Qed.
Lemma diag_fold n W0 m : (m <= n)%nat ->
  forall i j, fold_left (fun W i => upd2 W i i (1 - rsum n (W i))) (seq 0 m) W0 i j = if Nat.eqb i j && Nat.ltb i m then 1 - rsum n (W0 i) else W0 i j.
Proof.
  induction m as [|m IH]; intros Hm i j.
  - simpl. rewrite andb_false_r. easy.
  - rewrite seq_S, fold_left_app. cbn [fold_left]. rewrite Nat.add_0_l. unfold upd2 at 1.
    destruct (Nat.eqb i m) eqn:E1; cbn [andb].
    + apply Nat.eqb_eq in E1. subst. destruct (Nat.eqb j m) eqn:E2; cbn [andb].
      * apply Nat.eqb_eq in E2. subst. rewrite Nat.eqb_refl, (proj2 (Nat.ltb_lt m (S m))) by lia. cbn [andb]. f_equal. apply rsum_ext. intros k Hk.
        rewrite IH by lia. rewrite (proj2 (Nat.ltb_ge m m)), andb_false_r by lia. easy.
      * rewrite IH by lia. rewrite Nat.eqb_sym, E2. easy.
    + apply Nat.eqb_neq in E1. rewrite IH by lia. replace (Nat.ltb i (S m)) with (Nat.ltb i m); [easy|].
      destruct (Nat.ltb i m) eqn:E; symmetry; [apply Nat.ltb_lt in E; apply Nat.ltb_lt; lia|apply Nat.ltb_ge in E; apply Nat.ltb_ge; lia].
Qed.

Section Metropolis.
  Variables (n : nat) (es : list (nat * nat)) (g : graph).
  Hypothesis net : network n es g.

  Lemma edges_range e : In e (edges g) -> (1 <= fst e <= n)%nat /\ (1 <= snd e <= n)%nat.
  Proof.
    destruct e as [u v]. intros H. destruct net as (nodes & Eg & Hn & _). rewrite Eg in H. apply edges_sound in H. simpl.
    split; apply Hn; right; eexists; [|rewrite or_comm]; exact H.
  Qed.
  Lemma hits_linked i j : existsb (hits i j) (edges g) = true <-> linked es i j.
  Proof.
    destruct net as (nodes & Eg & _ & _). rewrite existsb_exists. split.
    - intros ([u v] & Hin & H). rewrite Eg in Hin. apply edges_sound in Hin. unfold hits in H. simpl in H.
      rewrite orb_true_iff, !andb_true_iff, !Nat.eqb_eq in H. unfold linked. destruct H as [[-> ->]|[-> ->]]; tauto.
    - assert (K : forall u v, hits i j (u, v) = true <-> (u = S i /\ v = S j) \/ (u = S j /\ v = S i)).
      { intros u v. unfold hits. simpl. rewrite orb_true_iff, !andb_true_iff, !Nat.eqb_eq. tauto. }
      intros [H|H]; apply (edges_complete nodes) in H; rewrite <- Eg in H; destruct H as [H|H]; (eexists; split; [exact H|]); apply K; tauto.
  Qed.
  Lemma metropolis_ok : exists W, metropolis g n = Ok W /\
    forall i j, (i < n)%nat -> (j < n)%nat ->
      W i j = if Nat.eqb i j then 1 - rsum n (fun k => A g i k * weight g (S i) (S k)) else A g i j * weight g (S i) (S j).
  Proof.
    destruct (edge_fold g n (edges g) edges_range (fun _ _ => 0)) as (W0 & E & HW).
    exists (diag_loop n W0). split.
    - unfold metropolis, edge_loop. change (fold_left _ (edges g) _) with (fold_left (put g n) (edges g) (Ok (fun _ _ : nat => 0))). rewrite E. easy.
    - assert (HA : forall i j, W0 i j = A g i j * weight g (S i) (S j)).
      { intros i j. rewrite HW. destruct (linked_dec n es g net i j) as [K|K].
        - rewrite (proj2 (hits_linked i j) K), (A_link n es g net i j K). ring.
        - rewrite (A_not n es g net i j K). destruct (existsb (hits i j) (edges g)) eqn:X; [|ring]. apply hits_linked in X. easy. }
      intros i j Hi Hj. unfold diag_loop. rewrite diag_fold by lia. destruct (Nat.eqb i j); cbn [andb]; [|apply HA].
      rewrite (proj2 (Nat.ltb_lt i n)) by easy. f_equal. apply rsum_ext. intros. apply HA.
  Qed.
  Lemma weight_pos u v : 0 < weight g u v.
  Proof. unfold weight. apply Rdiv_lt_0_compat; [lra|]. pose proof (pos_INR (Nat.max (degree g u) (degree g v))). lra. Qed.
  Lemma weight_le i v : weight g (S i) v <= 1 / (INR (deg_of g i) + 1).
  Proof.
    unfold weight, deg_of. apply Rmult_le_compat_l; [lra|]. apply Rinv_le_contravar.
    - pose proof (pos_INR (degree g (S i))). lra.
    - apply Rplus_le_compat_r, le_INR. lia.
  Qed.
  Theorem metropolis_matrix : exists W, metropolis g n = Ok W /\ symmetric n W /\ row_stochastic n W /\ nonneg_entries n W /\ supported n es W /\
    forall i, (i < n)%nat -> 1 / (INR (deg_of g i) + 1) <= W i i.
  Proof.
    destruct metropolis_ok as (W & E & HW).
    assert (D : forall i, (i < n)%nat -> 1 / (INR (deg_of g i) + 1) <= W i i).
    { intros i Hi. rewrite HW by easy. rewrite Nat.eqb_refl.
      assert (S : rsum n (fun k => A g i k * weight g (S i) (S k)) <= rsum n (fun k => A g i k * (1 / (INR (deg_of g i) + 1)))).
      { apply rsum_le. intros k Hk. apply Rmult_le_compat_l; [|apply weight_le].
        destruct (A_01 g i k) as [->| ->]; lra. }
      rewrite rsum_scal_r, <- (deg_sum n es g net i) in S. pose proof (pos_INR (deg_of g i)).
      replace (1 / (INR (deg_of g i) + 1)) with (1 - INR (deg_of g i) * (1 / (INR (deg_of g i) + 1))) by (field; lra). lra. }
    exists W. split; [exact E|]. split; [|split; [|split; [|split; [|exact D]]]].
    - intros i j Hi Hj. rewrite !HW by easy. rewrite (Nat.eqb_sym j i). destruct (Nat.eqb i j) eqn:X.
      + apply Nat.eqb_eq in X. subst. easy.
      + rewrite (A_sym n es g net), weight_sym. easy.
    - intros i Hi. rewrite (rsum_ext n (W i) (fun j => (if Nat.eqb j i then 1 else 0) * (1 - rsum n (fun k => A g i k * weight g (S i) (S k))) + A g i j * weight g (S i) (S j))).
      + rewrite rsum_plus.
        rewrite (rsum_ext n (fun j => (if Nat.eqb j i then 1 else 0) * _) (fun j => if Nat.eqb j i then 1 - rsum n (fun k => A g i k * weight g (S i) (S k)) else 0))
          by (intros; destruct (Nat.eqb _ i); ring).
        rewrite rsum_single by easy. ring.
      + intros j Hj. rewrite HW, (Nat.eqb_sym i j) by easy. destruct (Nat.eqb j i) eqn:X; [|ring]. apply Nat.eqb_eq in X. subst.
        rewrite (A_not n es g net _ _ (linked_irrefl n es g net _)). ring.
    - intros i j Hi Hj. destruct (Nat.eqb i j) eqn:X.
      + apply Nat.eqb_eq in X. subst. eapply Rle_trans; [|apply D; easy]. pose proof (pos_INR (deg_of g j)). apply Rlt_le, Rdiv_lt_0_compat; lra.
      + rewrite HW by easy. rewrite X. apply Rmult_le_pos; [|apply Rlt_le, weight_pos]. destruct (A_01 g i j) as [->| ->]; lra.
    - intros i j Hi Hj N. rewrite HW by easy. rewrite (proj2 (Nat.eqb_neq i j)) by easy. split; intros K.
      + rewrite (A_link n es g net i j K), Rmult_1_l. apply weight_pos.
      + rewrite (A_not n es g net i j K). ring.
  Qed.
End Metropolis.
Theorem metropolis_out_of_range nodes es n u v : In (u, v) es -> (n < u)%nat \/ (n < v)%nat -> metropolis (mk_graph nodes es) n = Err IndexError.
Proof.
  intros H Hn. unfold metropolis, edge_loop. change (fold_left _ (edges ?g) _) with (fold_left (put g n) (edges g) (Ok (fun _ _ : nat => 0))).
  rewrite edge_fold_err; [easy|]. destruct (edges_complete nodes es u v H) as [K|K]; eexists; (split; [exact K|]); simpl; tauto.
Qed.
