(** The Gram representation of expressions. *)
From Coq Require Import List Arith Bool String QArith Reals Qreals Lra Lia.
From Verif Require Import Prelude PreludeFacts Sympy SympyFacts AlgebraModel Denote AlgebraFacts FunctionModel CircuitModel CertSpec.
Import ListNotations.
Local Open Scope R_scope.

(** [sum_k F[k]*f_k + sum_ab G[a,b]*<x_a,x_b>] *)
Definition fg_val (r : env) (dimG dimF : nat) (w : fgw) (Fv : nat -> R) (Gm : nat -> nat -> R) : R :=
  rsum dimF (fun k => ev r (wF w k) * Fv k)
  + rsum dimG (fun a => rsum dimG (fun b => ev r (wG w a b) * Gm a b)).

(** The constant part of an expression. *)
Definition const_part (r : env) (d : edict) : R :=
  lsum (fun kv => match fst kv with KOne => ev r (snd kv) | _ => 0 end) d.

Lemma no_const_part r e : no_const e -> const_part r (ex_dict e) = 0.
Proof.
  intros H. unfold const_part. apply lsum_zero. intros [k w] Hin. simpl.
  destruct k; try easy. apply H; easy.
Qed.

Section Gram.
  Variable SY : sympy.
  Hypothesis OK : sympy_ok SY.
  Variable r : env.

  Lemma norm_weight_ev w w' : norm_weight SY w = Ok w' -> ev r w' = ev r w.
  Proof using Type.
    assert (G : (if closed (simp SY w) then let? q := to_float w in Ok (Num q) else Ok w) = Ok w' -> ev r w' = ev r w).
    { destruct (closed (simp SY w)).
      - destruct (to_float w) as [q|] eqn:E; simpl; intros H; [|easy]. injection H; intros <-.
        simpl. symmetry. apply to_float_ev. easy.
      - intros H; injection H; intros <-; easy. }
    destruct w; simpl norm_weight; try exact G. intros H; injection H; intros <-; easy.
  Qed.

  Lemma upd1_sum n f i w (Fv : nat -> R) : (i < n)%nat ->
    rsum n (fun k => ev r (upd1 f i (sadd (f i) w) k) * Fv k) = rsum n (fun k => ev r (f k) * Fv k) + ev r w * Fv i.
  Proof using Type.
    intros Hi. rewrite <- (rsum_single n i (ev r w * Fv i) Hi), <- rsum_plus.
    apply rsum_ext. intros k Hk. unfold upd1. destruct (Nat.eqb_spec k i) as [->|]; [|lra].
    rewrite sadd_ev. lra.
  Qed.

  Lemma upd2_sum n f i j w (Gm : nat -> nat -> R) : (i < n)%nat -> (j < n)%nat ->
    rsum n (fun a => rsum n (fun b => ev r (upd2 f i j (sadd (f i j) w) a b) * Gm a b)) =
    rsum n (fun a => rsum n (fun b => ev r (f a b) * Gm a b)) + ev r w * Gm i j.
  Proof using Type.
    intros Hi Hj. rewrite <- (rsum_single n i (ev r w * Gm i j) Hi), <- rsum_plus.
    apply rsum_ext. intros a Ha. unfold upd2. destruct (Nat.eqb_spec a i) as [->|]; simpl.
    - rewrite <- (rsum_single n j (ev r w * Gm i j) Hj), <- rsum_plus.
      apply rsum_ext. intros b Hb. destruct (Nat.eqb_spec b j) as [->|]; [|lra]. rewrite sadd_ev; lra.
    - lra.
  Qed.

  Lemma half_ev w : ev r (smul w (Num (1 # 2))) = ev r w / 2.
  Proof using Type. rewrite smul_ev. simpl. unfold Q2R; simpl. lra. Qed.

  Section Val.
    Variable v : valuation.
    Variable X : nat -> vec.
    Variable Fv : nat -> R.
    Hypothesis Henv : v_env v = r.
    Let Gm a b := dot (v_dim v) (X a) (X b).

    Definition leaf_vals_ok (d : edict) : Prop :=
      forall k, In k (keys d) ->
        match k with
        | KF f => v_fv v f = Fv (lctr f)
        | KG x y => v_pt v x = X (lctr x) /\ v_pt v y = X (lctr y)
        | KOne => True
        end.

    Lemma to_matrix_val dimG dimF d acc w :
      to_matrix SY dimG dimF d acc = Ok w -> leaf_vals_ok d ->
      fg_val r dimG dimF w Fv Gm + const_part r d = fg_val r dimG dimF acc Fv Gm + den_ed v d.
    Proof using Henv.
      revert acc. induction d as [|[k w0] d IH]; intros acc H HL.
      - simpl in H. injection H; intros <-. unfold const_part, den_ed; simpl. lra.
      - simpl in H. destruct (norm_weight SY w0) as [w1|] eqn:Ew; simpl in H; [|easy].
        apply norm_weight_ev in Ew.
        assert (HL' : leaf_vals_ok d) by (intros k' Hk'; apply HL; simpl; auto).
        assert (HK := HL k (or_introl eq_refl)).
        assert (Hden : den_ed v ((k, w0) :: d) = ev r w0 * den_key v k + den_ed v d)
          by (unfold den_ed; simpl; rewrite Henv; easy).
        rewrite Hden. clear Hden.
        destruct k as [f|x y|].
        + destruct (Nat.ltb_spec (lctr f) dimF) as [Hlt|]; [|easy].
          apply IH in H; [|easy]. unfold const_part in *. simpl. simpl in HK. rewrite HK.
          unfold fg_val in *. simpl in H. rewrite upd1_sum in H by easy. rewrite Ew in H. lra.
        + destruct (Nat.ltb_spec (lctr x) dimG) as [Hx|]; [|easy].
          destruct (Nat.ltb_spec (lctr y) dimG) as [Hy|]; [|easy]. simpl in H.
          apply IH in H; [|easy]. unfold const_part in *. simpl. simpl in HK. destruct HK as [HK1 HK2].
          rewrite HK1, HK2. unfold fg_val in *. simpl in H.
          rewrite upd2_sum in H by easy. rewrite upd2_sum in H by easy. rewrite half_ev, Ew in H.
          unfold Gm in *. rewrite (dot_comm _ (X (lctr y)) (X (lctr x))) in H. lra.
        + apply IH in H; [|easy]. unfold const_part in *. simpl. lra.
    Qed.

    Lemma fg_val_zero dimG dimF Gm' : fg_val r dimG dimF zero_fg Fv Gm' = 0.
    Proof using Type.
      unfold fg_val, zero_fg; simpl. rewrite !rsum_zero; [lra| |].
      - intros a _. apply rsum_zero. intros; rewrite Q2R_0'; lra.
      - intros; rewrite Q2R_0'; lra.
    Qed.

    Lemma expression_to_matrix_val dimG dimF e w :
      expression_to_matrix SY e dimG dimF = Ok w -> leaf_vals_ok (ex_dict e) ->
      fg_val r dimG dimF w Fv Gm + const_part r (ex_dict e) = den_e v e.
    Proof using Henv.
      intros H HL. apply to_matrix_val in H; [|easy]. rewrite fg_val_zero in H. unfold den_e. lra.
    Qed.
  End Val.

  Lemma to_matrix_sym dimG dimF d acc w :
    to_matrix SY dimG dimF d acc = Ok w ->
    (forall a b, wG acc a b = wG acc b a) -> forall a b, wG w a b = wG w b a.
  Proof using Type.
    revert acc. induction d as [|[k w0] d IH]; intros acc H HS.
    - simpl in H. injection H; intros <-; easy.
    - simpl in H. destruct (norm_weight SY w0) as [w1|] eqn:Ew; simpl in H; [|easy].
      destruct k as [f|x y|].
      + destruct (Nat.ltb (lctr f) dimF); [|easy]. apply (IH _ H); easy.
      + destruct (Nat.ltb (lctr x) dimG); [|easy]. destruct (Nat.ltb (lctr y) dimG); [|easy].
        simpl in H. apply (IH _ H). simpl. intros a b. unfold upd2.
        destruct (Nat.eqb_spec a (lctr x)), (Nat.eqb_spec a (lctr y)), (Nat.eqb_spec b (lctr x)), (Nat.eqb_spec b (lctr y));
          simpl; subst; try congruence; try easy;
          rewrite ?Nat.eqb_refl; simpl;
          repeat match goal with |- context [Nat.eqb ?p ?q] => destruct (Nat.eqb_spec p q); simpl; try congruence end;
          try (f_equal; apply HS); try apply HS.
      + apply (IH _ H); easy.
  Qed.

  Lemma to_matrix_total dimG dimF d acc :
    (forall k w, In (k, w) d -> free (simp SY w) = [] -> free w = []) ->
    (forall k, In k (keys d) ->
       match k with KF f => (lctr f < dimF)%nat | KG x y => (lctr x < dimG)%nat /\ (lctr y < dimG)%nat | KOne => True end) ->
    exists w, to_matrix SY dimG dimF d acc = Ok w.
  Proof using Type.
    revert acc. induction d as [|[k w0] d IH]; intros acc HW HK.
    - simpl. eauto.
    - simpl.
      assert (exists w1, norm_weight SY w0 = Ok w1) as [w1 ->].
      { assert (G : exists w1, (if closed (simp SY w0) then let? q := to_float w0 in Ok (Num q) else Ok w0) = Ok w1).
        { destruct (closed (simp SY w0)) eqn:E; [|eauto].
          apply closed_free, (HW k w0) in E; [|simpl; auto].
          apply closed_free, closed_to_float in E as [q ->]. simpl. eauto. }
        destruct w0; simpl; try exact G. eauto. }
      simpl. assert (HK' := HK k (or_introl eq_refl)).
      assert (HW2 : forall k w, In (k, w) d -> free (simp SY w) = [] -> free w = []) by (intros; eapply HW; simpl; eauto).
      assert (HK2 : forall k, In k (keys d) ->
       match k with KF f => (lctr f < dimF)%nat | KG x y => (lctr x < dimG)%nat /\ (lctr y < dimG)%nat | KOne => True end)
        by (intros; apply HK; simpl; auto).
      destruct k as [f|x y|].
      + rewrite (proj2 (Nat.ltb_lt _ _) HK'). apply IH; easy.
      + destruct HK' as [H1 H2]. rewrite (proj2 (Nat.ltb_lt _ _) H1), (proj2 (Nat.ltb_lt _ _) H2). simpl. apply IH; easy.
      + apply IH; easy.
  Qed.

  Lemma accum_val dimG dimF nm w s Fv Gm :
    fg_val r dimG dimF (accum nm w s) Fv Gm = fg_val r dimG dimF s Fv Gm + r nm * fg_val r dimG dimF w Fv Gm.
  Proof using Type.
    unfold fg_val, accum; simpl.
    rewrite (rsum_ext dimF _ (fun k => ev r (wF s k) * Fv k + r nm * (ev r (wF w k) * Fv k))).
    2:{ intros; rewrite sadd_ev, smul_ev; simpl; lra. }
    rewrite rsum_plus, rsum_scal.
    rewrite (rsum_ext dimG _ (fun a => rsum dimG (fun b => ev r (wG s a b) * Gm a b) + r nm * rsum dimG (fun b => ev r (wG w a b) * Gm a b))).
    2:{ intros a _. rewrite <- rsum_scal, <- rsum_plus. apply rsum_ext. intros; rewrite sadd_ev, smul_ev; simpl; lra. }
    rewrite rsum_plus, rsum_scal. lra.
  Qed.
End Gram.

(** [sum_ab (P P^T)[a,b] <x_a,x_b>] is a sum of squares. *)
Lemma ppt_gram_nonneg d n m (P : nat -> nat -> R) (X : nat -> vec) :
  0 <= rsum n (fun a => rsum n (fun b => rsum m (fun c => P a c * P b c) * dot d (X a) (X b))).
Proof.
  assert (E : rsum n (fun a => rsum n (fun b => rsum m (fun c => P a c * P b c) * dot d (X a) (X b))) =
    rsum m (fun c => nsq d (fun k => rsum n (fun a => P a c * X a k)))).
  { transitivity (rsum n (fun a => rsum n (fun b => rsum m (fun c => rsum d (fun k => P a c * X a k * (P b c * X b k)))))).
    { apply rsum_ext; intros a _. apply rsum_ext; intros b _. rewrite <- rsum_scal_r. apply rsum_ext; intros c _.
      unfold dot. rewrite <- rsum_scal. apply rsum_ext; intros; lra. }
    transitivity (rsum n (fun a => rsum m (fun c => rsum n (fun b => rsum d (fun k => P a c * X a k * (P b c * X b k)))))).
    { apply rsum_ext; intros a _. apply rsum_swap. }
    rewrite rsum_swap. apply rsum_ext; intros c _. unfold nsq, dot.
    transitivity (rsum n (fun a => rsum d (fun k => rsum n (fun b => P a c * X a k * (P b c * X b k))))).
    { apply rsum_ext; intros a _. apply rsum_swap. }
    rewrite rsum_swap. apply rsum_ext; intros k _. rewrite <- rsum_scal_r. apply rsum_ext; intros a _.
    rewrite rsum_scal. easy. }
  rewrite E. apply rsum_nonneg. intros. apply nsq_nonneg.
Qed.
