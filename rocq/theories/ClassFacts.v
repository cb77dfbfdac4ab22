(** The generated class constraints denote the interpolation inequalities. *)
From Coq Require Import List Arith Bool Reals QArith Qreals Lra Lia.
From Verif Require Import Prelude PreludeFacts Spec SpecFacts Sympy SympyFacts AlgebraModel Denote
  AlgebraFacts FunctionModel ClassSpec.
Local Open Scope R_scope.

Lemma qdiv_ok a b c : qdiv a b = Ok c -> Q2R b <> 0 /\ Q2R c = Q2R a / Q2R b.
Proof.
  unfold qdiv. destruct (Qeq_bool b 0) eqn:E; [easy|]. intros H; injection H; intros <-.
  assert (Hb : ~ (b == 0)%Q) by (intros Hb; apply Qeq_bool_iff in Hb; congruence).
  split.
  - intros Hz. apply Hb. apply eqR_Qeq. rewrite Hz, Q2R_0'. easy.
  - rewrite Q2R_red. apply Q2R_div. easy.
Qed.

Lemma Q2R_2 : Q2R 2 = 2. Proof. unfold Q2R; simpl; lra. Qed.

Section Class.
  Variable SY : sympy.
  Hypothesis OK : sympy_ok SY.
  Variable v : valuation.

  Lemma conv_part_den ti tj : wf_t ti -> wf_t tj ->
    den_e v (conv_part SY ti tj) =
    den_e v (t_f tj) - den_e v (t_f ti) + dot (v_dim v) (den_p v (t_g tj)) (vsub (den_p v (t_x ti)) (den_p v (t_x tj))).
  Proof using OK.
    intros (Hxi & Hgi & Hfi) (Hxj & Hgj & Hfj). unfold conv_part.
    rewrite (eadd_den SY OK v) by apply pmul_wf.
    rewrite (esub_den SY OK v) by easy.
    rewrite (pmul_den SY OK v) by (try easy; apply psub_wf; easy).
    rewrite (psub_den SY OK v) by easy. easy.
  Qed.

  Lemma class_constraint_den c ti tj e :
    class_constraint SY c ti tj = Ok e -> wf_t ti -> wf_t tj ->
    den_e v e = interp_value (v_dim v) c (den_p v (t_x ti)) (den_p v (t_g ti)) (den_e v (t_f ti))
                                         (den_p v (t_x tj)) (den_p v (t_g tj)) (den_e v (t_f tj)).
  Proof using OK.
    intros H Hi Hj. assert (Hi' := Hi). assert (Hj' := Hj).
    destruct Hi' as (Hxi & Hgi & Hfi). destruct Hj' as (Hxj & Hgj & Hfj).
    destruct c as [| |mu L|mu]; cbn [class_constraint] in H.
    - easy.
    - injection H; intros <-. apply conv_part_den; easy.
    - destruct (qdiv 1 (Qred (2 * L))) as [c1|] eqn:E1; cbn [bindr] in H; [|easy].
      destruct (qdiv mu L) as [ml|] eqn:E2; cbn [bindr] in H; [|easy].
      destruct (qdiv mu (Qred (2 * (1 - ml)))) as [c2|] eqn:E3; cbn [bindr] in H; [|easy].
      destruct (qdiv 1 L) as [il|] eqn:E4; cbn [bindr] in H; [|easy].
      injection H; intros <-.
      apply qdiv_ok in E1 as [N1 E1]. apply qdiv_ok in E2 as [N2 E2].
      apply qdiv_ok in E3 as [N3 E3]. apply qdiv_ok in E4 as [N4 E4].
      rewrite Q2R_red, Q2R_mult, Q2R_2 in E1. rewrite Q2R_1' in E1, E4.
      rewrite Q2R_red, Q2R_mult, Q2R_2, Q2R_minus, Q2R_1', E2 in E3.
      assert (W1 : wf_p (psub SY (t_g ti) (t_g tj))) by (apply psub_wf; easy).
      assert (W2 : wf_p (pscale SY (Num il) (psub SY (t_g ti) (t_g tj)))) by (apply pscale_wf; easy).
      assert (W3 : wf_p (psub SY (psub SY (t_x ti) (t_x tj)) (pscale SY (Num il) (psub SY (t_g ti) (t_g tj)))))
        by (apply psub_wf, psub_wf; easy).
      unfold psq.
      rewrite (eadd_den SY OK v) by (apply escale_wf, pmul_wf).
      rewrite (eadd_den SY OK v) by (apply escale_wf, pmul_wf).
      rewrite conv_part_den by easy.
      rewrite !(escale_den SY OK v).
      rewrite (pmul_den SY OK v) by easy. rewrite (pmul_den SY OK v) by easy.
      rewrite !(psub_den SY OK v) by easy. rewrite (pscale_den SY OK v).
      rewrite (psub_den SY OK v) by easy.
      cbn [ev interp_value]. rewrite E1, E3, E4. unfold nsq. easy.
    - injection H; intros <-. unfold psq.
      rewrite (eadd_den SY OK v) by (apply escale_wf, pmul_wf).
      rewrite conv_part_den by easy.
      rewrite (escale_den SY OK v).
      rewrite (pmul_den SY OK v) by (apply psub_wf; easy).
      rewrite (psub_den SY OK v) by easy.
      cbn [ev interp_value]. rewrite Q2R_red. unfold nsq, Qdiv.
      rewrite Q2R_mult. replace (Q2R (/ 2)) with (/ 2) by (unfold Q2R; simpl; lra). unfold Rdiv. easy.
  Qed.

  Theorem class_constraint_sound c phi ti tj e :
    class_constraint SY c ti tj = Ok e -> wf_t ti -> wf_t tj ->
    class_params_ok c -> in_class (v_dim v) c phi -> rec_sampled v phi ti -> rec_sampled v phi tj ->
    den_e v e <= 0.
  Proof using OK.
    intros H Hi Hj Hp Hc Hsi Hsj. rewrite (class_constraint_den _ _ _ _ H Hi Hj).
    unfold rec_sampled in *. destruct c as [| |mu L|mu]; simpl in Hc, Hp; cbn [interp_value].
    - easy.
    - eapply (convex_interp _ phi); [exact Hsi|exact Hsj].
    - destruct Hc as [H1 H2]. apply (smooth_sc_interp _ _ _ phi); easy.
    - eapply (strongly_convex_interp _ _ phi); try eassumption.
  Qed.

  (** The constraints can be generated for every admissible class. *)
  Lemma class_constraint_total c ti tj :
    c <> CBase -> class_params_ok c -> exists e, class_constraint SY c ti tj = Ok e.
  Proof using Type.
    intros Hb Hp. destruct c as [| |mu L|mu]; cbn [class_constraint]; simpl in Hp; try congruence; eauto.
    assert (HL : Qeq_bool L 0 = false).
    { destruct (Qeq_bool L 0) eqn:E; [|easy]. apply Qeq_bool_iff in E. apply Qeq_eqR in E. rewrite Q2R_0' in E. lra. }
    assert (H2L : Qeq_bool (Qred (2 * L)) 0 = false).
    { destruct (Qeq_bool (Qred (2 * L)) 0) eqn:E; [|easy]. apply Qeq_bool_iff in E. apply Qeq_eqR in E.
      rewrite Q2R_red, Q2R_mult, Q2R_2, Q2R_0' in E. lra. }
    unfold qdiv at 1. rewrite H2L. cbn [bindr].
    destruct (qdiv mu L) as [ml|] eqn:E2; [|unfold qdiv in E2; rewrite HL in E2; easy]. cbn [bindr].
    apply qdiv_ok in E2 as [_ E2].
    assert (HD : Qeq_bool (Qred (2 * (1 - ml))) 0 = false).
    { destruct (Qeq_bool (Qred (2 * (1 - ml))) 0) eqn:E; [|easy]. apply Qeq_bool_iff in E. apply Qeq_eqR in E.
      rewrite Q2R_red, Q2R_mult, Q2R_2, Q2R_minus, Q2R_1', Q2R_0', E2 in E.
      assert (Q2R mu / Q2R L < 1) by (apply Rmult_lt_reg_r with (Q2R L); [lra|]; unfold Rdiv; rewrite Rmult_assoc, Rinv_l by lra; lra).
      lra. }
    unfold qdiv at 1. rewrite HD. cbn [bindr]. unfold qdiv. rewrite HL. cbn [bindr]. eauto.
  Qed.

  Lemma class_constraint_wf c ti tj e : class_constraint SY c ti tj = Ok e -> wf_t tj -> wf_e e.
  Proof using Type.
    intros H (_ & _ & Hf).
    assert (Hc : wf_e (conv_part SY ti tj)) by (unfold conv_part; apply eadd_wf, esub_wf; easy).
    destruct c as [| |mu L|mu]; cbn [class_constraint] in H; [easy| | |].
    - injection H; intros <-; easy.
    - destruct (qdiv 1 (Qred (2 * L))) as [c1|]; cbn [bindr] in H; [|easy].
      destruct (qdiv mu L) as [ml|]; cbn [bindr] in H; [|easy].
      destruct (qdiv mu (Qred (2 * (1 - ml)))) as [c2|]; cbn [bindr] in H; [|easy].
      destruct (qdiv 1 L) as [il|]; cbn [bindr] in H; [|easy].
      injection H; intros <-. apply eadd_wf, eadd_wf; easy.
    - injection H; intros <-. apply eadd_wf; easy.
  Qed.
End Class.
