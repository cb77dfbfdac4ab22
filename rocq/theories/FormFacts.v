(** Quadratic forms of matrices acting on rows of vectors, and positive definite systems. *)
From Coq Require Import List Arith Bool Reals Lia Lra Psatz FunctionalExtensionality.
From Verif Require Import Prelude PreludeFacts Spec SpecFacts BuilderSpec MethodModel MethodSpec GraphFacts ProxFacts DadmmFacts PgFacts DadmmLimit.
Local Open Scope R_scope.

Section Bil.
  Variables (n d : nat).
  Definition ap (M : nat -> nat -> R) (V : nat -> vec) (i : nat) : vec := fun k => rsum n (fun j => M i j * V j k).
  Definition bil (M : nat -> nat -> R) (U V : nat -> vec) : R := rsum n (fun i => rsum n (fun j => M i j * dot d (U i) (V j))).

  Lemma bil_coord M U V : bil M U V = rsum d (fun k => rsum n (fun i => rsum n (fun j => M i j * (U i k * V j k)))).
  Proof.
    unfold bil, dot.
    rewrite (rsum_ext n _ (fun i => rsum d (fun k => rsum n (fun j => M i j * (U i k * V j k))))).
    - apply rsum_swap.
    - intros i Hi. rewrite rsum_swap. apply rsum_ext. intros j Hj. rewrite <- rsum_scal. easy.
  Qed.
  Lemma dot_ap M U V : rsum n (fun i => dot d (ap M V i) (U i)) = bil M U V.
  Proof.
    unfold bil. apply rsum_ext. intros i Hi. unfold dot, ap.
    rewrite (rsum_ext d _ (fun k => rsum n (fun j => M i j * (U i k * V j k)))).
    - rewrite rsum_swap. apply rsum_ext. intros j Hj. rewrite <- rsum_scal. easy.
    - intros k Hk. rewrite <- rsum_scal_r. apply rsum_ext. intros; ring.
  Qed.
  Lemma bil_add_l M U U' V : bil M (fun i => vadd (U i) (U' i)) V = bil M U V + bil M U' V.
  Proof.
    unfold bil. rewrite <- rsum_plus. apply rsum_ext. intros i Hi. rewrite <- rsum_plus. apply rsum_ext. intros j Hj. rewrite dot_add_l. ring.
  Qed.
  Lemma bil_scal_l M c U V : bil M (fun i => vscal c (U i)) V = c * bil M U V.
  Proof.
    unfold bil. rewrite <- rsum_scal. apply rsum_ext. intros i Hi. rewrite <- rsum_scal. apply rsum_ext. intros j Hj. rewrite dot_scal_l. ring.
  Qed.
  Lemma bil_sub_l M U U' V : bil M (fun i => vsub (U i) (U' i)) V = bil M U V - bil M U' V.
  Proof.
    unfold bil. rewrite <- rsum_minus. apply rsum_ext. intros i Hi. rewrite <- rsum_minus. apply rsum_ext. intros j Hj. rewrite dot_sub_l. ring.
  Qed.
  Lemma bil_ext M U U' V V' : (forall i k, (i < n)%nat -> (k < d)%nat -> U i k = U' i k) -> (forall i k, (i < n)%nat -> (k < d)%nat -> V i k = V' i k) ->
    bil M U V = bil M U' V'.
  Proof.
    intros H K. unfold bil. apply rsum_ext. intros i Hi. apply rsum_ext. intros j Hj. f_equal. apply dot_ext; auto.
  Qed.
  Lemma bil_sym M U V : symmetric n M -> bil M U V = bil M V U.
  Proof.
    intros S. unfold bil. rewrite rsum_swap. apply rsum_ext. intros i Hi. apply rsum_ext. intros j Hj. rewrite (S j i), (dot_comm d (U j)) by easy. easy.
  Qed.
  Lemma bil_add_r M U V V' : bil M U (fun i => vadd (V i) (V' i)) = bil M U V + bil M U V'.
  Proof.
    unfold bil. rewrite <- rsum_plus. apply rsum_ext. intros i Hi. rewrite <- rsum_plus. apply rsum_ext. intros j Hj. rewrite dot_add_r. ring.
  Qed.
  Lemma bil_sub_r M U V V' : bil M U (fun i => vsub (V i) (V' i)) = bil M U V - bil M U V'.
  Proof.
    unfold bil. rewrite <- rsum_minus. apply rsum_ext. intros i Hi. rewrite <- rsum_minus. apply rsum_ext. intros j Hj. rewrite dot_sub_r. ring.
  Qed.
  Lemma bil_scal_r M c U V : bil M U (fun i => vscal c (V i)) = c * bil M U V.
  Proof.
    unfold bil. rewrite <- rsum_scal. apply rsum_ext. intros i Hi. rewrite <- rsum_scal. apply rsum_ext. intros j Hj. rewrite dot_scal_r. ring.
  Qed.
  Lemma bil_lower M c U : (forall t, c * rsum n (fun i => t i * t i) <= quad_form n M t) -> c * rsum n (fun i => nsq d (U i)) <= bil M U U.
  Proof.
    intros H. rewrite bil_coord. unfold nsq, dot. rewrite rsum_swap, <- rsum_scal. apply rsum_le. intros k Hk. apply (H (fun i => U i k)).
  Qed.
  Definition psd_form M := forall t, 0 <= quad_form n M t.
  Lemma bil_nonneg M U : psd_form M -> 0 <= bil M U U.
  Proof.
    intros H. pose proof (bil_lower M 0 U) as L. rewrite Rmult_0_l in L. apply L. intros t. rewrite Rmult_0_l. apply H.
  Qed.
  Lemma bil_young M U V eta : symmetric n M -> psd_form M -> 0 < eta -> Rabs (bil M U V) <= eta * bil M U U + bil M V V / eta.
  Proof.
    intros S H He.
    assert (G : forall c, c * c = 1 -> c * bil M U V <= eta * bil M U U + bil M V V / eta).
    { intros c Hc. pose proof (bil_nonneg M (fun i => vsub (vscal eta (U i)) (vscal c (V i))) H) as P.
      rewrite bil_sub_l, !bil_sub_r in P.
      rewrite !(bil_scal_l M _ U), !(bil_scal_l M _ V), !(bil_scal_r M _ _ U), !(bil_scal_r M _ _ V), (bil_sym M V U S) in P.
      pose proof (bil_nonneg M U H). pose proof (bil_nonneg M V H).
      apply Rmult_le_reg_l with eta; [easy|].
      replace (eta * (eta * bil M U U + bil M V V / eta)) with (eta * eta * bil M U U + bil M V V) by (field; lra).
      assert (0 <= eta * eta * bil M U U) by (apply Rmult_le_pos; [nra|easy]).
      assert (E : eta * (eta * bil M U U) - eta * (c * bil M U V) - (c * (eta * bil M U V) - c * (c * bil M V V)) =
                  eta * eta * bil M U U - 2 * (eta * (c * bil M U V)) + (c * c) * bil M V V) by ring.
      rewrite E, Hc in P. lra. }
    apply Rabs_le. pose proof (G 1 ltac:(lra)). pose proof (G (-1) ltac:(lra)). lra.
  Qed.
  Lemma bil_tri M U V : symmetric n M -> psd_form M -> bil M U U <= 2 * bil M (fun i => vsub (U i) (V i)) (fun i => vsub (U i) (V i)) + 2 * bil M V V.
  Proof.
    intros S H. pose proof (bil_nonneg M (fun i => vsub (U i) (vscal 2 (V i))) H) as P.
    rewrite !bil_sub_l, !bil_sub_r in *. rewrite !(bil_scal_l M _ V), !(bil_scal_r M _ _ V), (bil_sym M V U S) in P.
    rewrite (bil_sym M V U S). lra.
  Qed.
End Bil.

(** positive definite systems have solutions *)
Lemma rsum_first' n f : rsum (S n) f = f 0%nat + rsum n (fun i => f (S i)).
Proof. apply rsum_S_l. Qed.
Lemma quad_split n M t : symmetric (S n) M ->
  quad_form (S n) M t = M 0%nat 0%nat * (t 0%nat * t 0%nat) + 2 * t 0%nat * rsum n (fun j => M 0%nat (S j) * t (S j)) +
    quad_form n (fun i j => M (S i) (S j)) (fun i => t (S i)).
Proof.
  intros S. unfold quad_form. rewrite rsum_first'.
  rewrite (rsum_first' n (fun j => M 0%nat j * (t 0%nat * t j))).
  rewrite (rsum_ext n (fun i => rsum (Datatypes.S n) (fun j => M (Datatypes.S i) j * (t (Datatypes.S i) * t j)))
    (fun i => t 0%nat * (M 0%nat (Datatypes.S i) * t (Datatypes.S i)) + rsum n (fun j => M (Datatypes.S i) (Datatypes.S j) * (t (Datatypes.S i) * t (Datatypes.S j))))).
  - rewrite rsum_plus, rsum_scal.
    rewrite (rsum_ext n (fun i => M 0%nat (Datatypes.S i) * (t 0%nat * t (Datatypes.S i))) (fun i => t 0%nat * (M 0%nat (Datatypes.S i) * t (Datatypes.S i)))) by (intros; ring).
    rewrite rsum_scal. ring.
  - intros i Hi. rewrite rsum_first'. rewrite (S (Datatypes.S i) 0%nat) by lia. ring.
Qed.
Theorem solve_pd n : forall M b, symmetric n M -> (forall t, (exists i, (i < n)%nat /\ t i <> 0) -> 0 < quad_form n M t) ->
  exists x : nat -> R, forall i, (i < n)%nat -> rsum n (fun j => M i j * x j) = b i.
Proof.
  induction n as [|n IH]; intros M b Sy PD; [exists (fun _ => 0); intros; lia|].
  set (a := M 0%nat 0%nat).
  assert (Ha : 0 < a).
  { assert (H : 0 < quad_form (S n) M (fun i => if Nat.eqb i 0 then 1 else 0)).
    { apply PD. exists 0%nat. simpl. split; [lia|lra]. }
    rewrite quad_split in H by easy. cbn [Nat.eqb] in H. rewrite (rsum_zero n) in H by (intros; ring).
    unfold quad_form in H. rewrite (rsum_zero n) in H by (intros; apply rsum_zero; intros; ring). unfold a. lra. }
  set (m := fun j => M 0%nat (S j)).
  set (T := fun i j => M (S i) (S j) - m i * m j / a).
  destruct (IH T (fun i => b (S i) - m i * b 0%nat / a)) as (x & Hx).
  - intros i j Hi Hj. unfold T. rewrite (Sy (S i) (S j)) by lia. unfold Rdiv. ring.
  - intros t (i & Hi & Ht).
    set (t0 := - rsum n (fun j => m j * t j) / a).
    set (t' := fun i => match i with O => t0 | S i => t i end).
    assert (H : 0 < quad_form (S n) M t') by (apply PD; exists (S i); split; [lia|exact Ht]).
    rewrite quad_split in H by easy. cbn [t'] in H.
    change (fun j => M 0%nat (S j) * t j) with (fun j => m j * t j) in H.
    assert (E : quad_form n T t = quad_form n (fun i j => M (S i) (S j)) (fun i => t i) - rsum n (fun j => m j * t j) * rsum n (fun j => m j * t j) / a).
    { unfold quad_form, T.
      rewrite (rsum_ext n _ (fun i => rsum n (fun j => M (S i) (S j) * (t i * t j)) - (m i * t i) * (rsum n (fun j => m j * t j) / a))).
      - rewrite rsum_minus, rsum_scal_r. unfold Rdiv. ring.
      - intros p Hp. unfold Rdiv. rewrite <- rsum_scal_r, <- rsum_scal, <- rsum_minus. apply rsum_ext. intros; ring. }
    rewrite E. set (s := rsum n (fun j => m j * t j)) in *. unfold t0 in H. fold a in H.
    replace (a * (- s / a * (- s / a)) + 2 * (- s / a) * s) with (- (s * s / a)) in H by (field; lra). lra.
  - exists (fun i => match i with O => (b 0%nat - rsum n (fun j => m j * x j)) / a | S i => x i end).
    intros i Hi. rewrite rsum_first'. destruct i as [|i].
    + fold a. change (fun i => M 0%nat (S i) * x i) with (fun j => m j * x j). field. lra.
    + specialize (Hx i ltac:(lia)). cbn beta in Hx. unfold T in Hx.
      rewrite (rsum_ext n (fun j => (M (S i) (S j) - m i * m j / a) * x j) (fun j => M (S i) (S j) * x j - (m i / a) * (m j * x j))) in Hx
        by (intros; field; lra).
      rewrite rsum_minus, rsum_scal in Hx. rewrite (Sy (S i) 0%nat) by lia. fold (m i).
      replace (m i * ((b 0%nat - rsum n (fun j => m j * x j)) / a)) with (m i * b 0%nat / a - m i / a * rsum n (fun j => m j * x j)) by (field; lra).
      lra.
Qed.

(** the Laplacian of a connected mixing matrix *)
Definition Pm (W : nat -> nat -> R) (i j : nat) : R := / 2 * (idm i j - W i j).
Definition Qm (W : nat -> nat -> R) (i j : nat) : R := / 2 * (idm i j + W i j).
Section Lap.
  Variables (n : nat) (W : nat -> nat -> R) (es : list (nat * nat)).
  Hypothesis sym : symmetric n W.
  Hypothesis rows : row_stochastic n W.
  Hypothesis nonneg : nonneg_entries n W.
  Hypothesis conn : connected n es.
  Hypothesis supp : forall i j, (i < n)%nat -> (j < n)%nat -> linked es i j -> 0 < W i j.
  Hypothesis in_range : forall i j, linked es i j -> (i < n)%nat /\ (j < n)%nat.
  Hypothesis npos : (0 < n)%nat.

  Lemma idm_sym i j : idm i j = idm j i.
  Proof. unfold idm. rewrite Nat.eqb_sym. easy. Qed.
  Lemma Pm_sym : symmetric n (Pm W).
  Proof. intros i j Hi Hj. unfold Pm. rewrite idm_sym, (sym i j) by easy. easy. Qed.
  Lemma Qm_sym : symmetric n (Qm W).
  Proof. intros i j Hi Hj. unfold Qm. rewrite idm_sym, (sym i j) by easy. easy. Qed.
  Lemma Pm_row i f : (i < n)%nat -> rsum n (fun j => Pm W i j * f j) = / 2 * rsum n (fun j => W i j * (f i - f j)).
  Proof.
    intros Hi. unfold Pm.
    rewrite (rsum_ext n _ (fun j => / 2 * (idm i j * f j) - / 2 * (W i j * f j))) by (intros; ring).
    rewrite rsum_minus, !rsum_scal, (idm_sum n i f Hi).
    rewrite (rsum_ext n (fun j => W i j * (f i - f j)) (fun j => W i j * f i - W i j * f j)) by (intros; ring).
    rewrite rsum_minus, rsum_scal_r, (rows i Hi). ring.
  Qed.
  Lemma Pm_form t : quad_form n (Pm W) t = / 4 * rsum n (fun j => rsum n (fun l => W j l * ((t j - t l) * (t j - t l)))).
  Proof.
    unfold quad_form. rewrite (rsum_ext n _ (fun i => / 2 * (t i * rsum n (fun j => W i j * (t i - t j))))).
    - rewrite rsum_scal, (lap_form n W sym). field.
    - intros i Hi. rewrite (rsum_ext n _ (fun j => t i * (Pm W i j * t j))) by (intros; ring). rewrite rsum_scal, Pm_row by easy. ring.
  Qed.
  Lemma Pm_psd : psd_form n (Pm W).
  Proof.
    intros t. rewrite Pm_form. apply Rmult_le_pos; [lra|]. apply rsum_nonneg. intros i Hi. apply rsum_nonneg. intros j Hj.
    apply Rmult_le_pos; [apply nonneg; easy|apply Rle_0_sqr].
  Qed.
  Lemma quad_add M N t : quad_form n (fun i j => M i j + N i j) t = quad_form n M t + quad_form n N t.
  Proof. unfold quad_form. rewrite <- rsum_plus. apply rsum_ext. intros i Hi. rewrite <- rsum_plus. apply rsum_ext. intros; ring. Qed.
  Lemma quad_ones c t : quad_form n (fun _ _ => c) t = c * (rsum n t * rsum n t).
  Proof.
    unfold quad_form. rewrite (rsum_ext n _ (fun i => t i * (c * rsum n t))).
    - rewrite rsum_scal_r. ring.
    - intros i Hi. rewrite <- !rsum_scal. apply rsum_ext. intros; ring.
  Qed.
  Lemma quad_id t : quad_form n idm t = rsum n (fun i => t i * t i).
  Proof.
    unfold quad_form. apply rsum_ext. intros i Hi. rewrite (idm_sum n i (fun j => t i * t j)) by easy. easy.
  Qed.
  Lemma PQ t : quad_form n (Pm W) t + quad_form n (Qm W) t = rsum n (fun i => t i * t i).
  Proof.
    rewrite <- quad_id, <- quad_add. unfold quad_form. apply rsum_ext. intros i Hi. apply rsum_ext. intros j Hj. unfold Pm, Qm. field.
  Qed.
  Theorem solve_lap b : rsum n b = 0 -> exists y, forall i, (i < n)%nat -> rsum n (fun j => Pm W i j * y j) = b i.
  Proof.
    intros Hb. destruct (solve_pd n (fun i j => Pm W i j + 1) b) as (y & Hy).
    - intros i j Hi Hj. rewrite (Pm_sym i j) by easy. easy.
    - intros t (i & Hi & Ht). rewrite (quad_add (Pm W) (fun _ _ => 1)), quad_ones.
      pose proof (Pm_psd t) as P. pose proof (Rle_0_sqr (rsum n t)) as Sq. unfold Rsqr in Sq.
      destruct (Rle_lt_dec (quad_form n (Pm W) t + 1 * (rsum n t * rsum n t)) 0) as [L|]; [|easy]. exfalso. apply Ht.
      assert (Z1 : quad_form n (Pm W) t = 0) by lra. assert (Z2 : Rsqr (rsum n t) = 0) by (unfold Rsqr; lra). apply Rsqr_0_uniq in Z2.
      rewrite Pm_form in Z1. assert (Z3 : rsum n (fun j => rsum n (fun l => W j l * ((t j - t l) * (t j - t l)))) = 0) by lra.
      assert (C : forall j, (j < n)%nat -> t j = t i).
      { intros j Hj. apply (reach_const es t); [|apply conn; easy]. intros p q K. destruct (in_range p q K) as [Hp Hq].
        assert (T : W p q * ((t p - t q) * (t p - t q)) <= 0).
        { rewrite <- Z3.
          assert (NN : forall j l, (j < n)%nat -> (l < n)%nat -> 0 <= W j l * ((t j - t l) * (t j - t l))).
          { intros. apply Rmult_le_pos; [apply nonneg; easy|apply Rle_0_sqr]. }
          apply Rle_trans with (rsum n (fun l => W p l * ((t p - t l) * (t p - t l)))).
          - apply (rsum_ge_term n (fun l => W p l * ((t p - t l) * (t p - t l)))); auto.
          - apply (rsum_ge_term n (fun j => rsum n (fun l => W j l * ((t j - t l) * (t j - t l))))); [|easy].
            intros. apply rsum_nonneg. auto. }
        pose proof (supp p q Hp Hq K). assert (Q : (t p - t q) * (t p - t q) <= 0) by (apply Rmult_le_reg_l with (W p q); [easy|lra]).
        assert (Q2 : Rsqr (t p - t q) = 0) by (apply Rle_antisym; [exact Q|apply Rle_0_sqr]). apply Rsqr_0_uniq in Q2. lra. }
      rewrite (rsum_ext n t (fun _ => t i)) in Z2 by easy. rewrite rsum_const in Z2. apply Rmult_integral in Z2.
      destruct Z2 as [Z2|]; [|easy]. exfalso. apply (not_0_INR n); [lia|easy].
    - assert (Sy : rsum n y = 0).
      { assert (E : rsum n (fun i => rsum n (fun j => (Pm W i j + 1) * y j)) = 0) by (rewrite <- Hb; apply rsum_ext; easy).
        rewrite (rsum_ext n _ (fun i => / 2 * rsum n (fun j => W i j * (y i - y j)) + rsum n y)) in E.
        - rewrite rsum_plus, rsum_scal, rsum_const in E.
          assert (L : rsum n (fun i => rsum n (fun j => W i j * (y i - y j))) = 0).
          { rewrite (rsum_ext n _ (fun i => lap n W (fun j _ => y j) i 0%nat)).
            - apply (sum_lap n W sym rows (fun j _ => y j) 0%nat).
            - intros i Hi. rewrite (lap_eq n W rows) by easy. easy. }
          rewrite L in E. assert (E2 : INR n * rsum n y = 0) by lra. apply Rmult_integral in E2. destruct E2 as [E2|]; [|easy].
          exfalso. apply (not_0_INR n); [lia|easy].
        - intros i Hi. rewrite (rsum_ext n _ (fun j => Pm W i j * y j + y j)) by (intros; ring). rewrite rsum_plus, Pm_row by easy. easy. }
      exists y. intros i Hi. rewrite <- (Hy i Hi). rewrite (rsum_ext n (fun j => (Pm W i j + 1) * y j) (fun j => Pm W i j * y j + y j)) by (intros; ring).
      rewrite rsum_plus, Sy. ring.
  Qed.
  (** the smallest diagonal entry bounds I + W from below *)
  Lemma Qm_lower c : (forall i, (i < n)%nat -> c <= W i i) -> forall t, c * rsum n (fun i => t i * t i) <= quad_form n (Qm W) t.
  Proof.
    intros Hc t. (* sum_ij W_ij (t_i + t_j)^2 >= 4 sum_i W_ii t_i^2 *)
    assert (E : quad_form n (Qm W) t = / 4 * rsum n (fun i => rsum n (fun j => W i j * ((t i + t j) * (t i + t j))))).
    { pose proof (PQ t) as H. rewrite Pm_form in H.
      assert (G : rsum n (fun j => rsum n (fun l => W j l * ((t j - t l) * (t j - t l)))) + rsum n (fun i => rsum n (fun j => W i j * ((t i + t j) * (t i + t j))))
        = 4 * rsum n (fun i => t i * t i)); [|lra].
      rewrite <- rsum_plus.
      rewrite (rsum_ext n _ (fun i => 2 * (t i * t i) + 2 * rsum n (fun j => W i j * (t j * t j)))).
      - rewrite rsum_plus, !rsum_scal, rsum_swap.
        rewrite (rsum_ext n (fun j => rsum n (fun i => W i j * (t j * t j))) (fun j => t j * t j)); [ring|].
        intros j Hj. rewrite rsum_scal_r. rewrite (rsum_ext n (fun i => W i j) (W j)) by (intros; apply sym; easy). rewrite (rows j Hj). ring.
      - intros i Hi. rewrite <- rsum_plus.
        rewrite (rsum_ext n _ (fun j => 2 * (W i j * (t i * t i)) + 2 * (W i j * (t j * t j)))) by (intros; ring).
        rewrite rsum_plus, !rsum_scal, rsum_scal_r. change (rsum n (fun k => W i k)) with (rsum n (W i)). rewrite (rows i Hi). ring. }
    rewrite E, <- !rsum_scal. apply rsum_le. intros i Hi.
    apply Rle_trans with (/ 4 * (W i i * ((t i + t i) * (t i + t i)))).
    - specialize (Hc i Hi). pose proof (Rle_0_sqr (t i)) as Sq. unfold Rsqr in Sq.
      replace (/ 4 * (W i i * ((t i + t i) * (t i + t i)))) with (W i i * (t i * t i)) by field. apply Rmult_le_compat_r; easy.
    - apply Rmult_le_compat_l; [lra|].
      apply (rsum_ge_term n (fun j => W i j * ((t i + t j) * (t i + t j)))); [|easy].
      intros j Hj. apply Rmult_le_pos; [apply nonneg; easy|apply Rle_0_sqr].
  Qed.
End Lap.
