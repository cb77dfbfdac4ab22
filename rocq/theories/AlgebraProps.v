(** Assembled statements for C01-C06. *)
From Coq Require Import List Arith Bool String QArith Reals Qreals Lra Lia.
From Verif Require Import Prelude PreludeFacts Sympy SympyFacts AlgebraModel Denote AlgebraFacts
  FunctionModel CircuitModel SymSpec CertSpec GramFacts SymFacts StateSpec SessionModel StateFacts CertFacts.
Import ListNotations.
Local Open Scope R_scope.

Section P.
  Variable SY : sympy.

  Lemma recip_num x : recip (Num x) = if Qeq_bool x 0 then Err ZeroDivisionError else Ok (Num (Qred (/ x))).
  Proof. unfold recip. destruct (Qeq_bool x 0); easy. Qed.

  Theorem point_arithmetic : sympy_ok SY ->
  forall v p q c, wf_p p -> wf_p q ->
    den_p v (padd SY p q) = vadd (den_p v p) (den_p v q) /\
    den_p v (psub SY p q) = vsub (den_p v p) (den_p v q) /\
    den_p v (pneg SY p) = vopp (den_p v p) /\
    den_p v (pscale SY c p) = vscal (ev (v_env v) c) (den_p v p) /\
    (forall x, Qeq_bool x 0 = false ->
       exists p', pdiv SY p (Num x) = Ok p' /\ den_p v p' = vscal (/ Q2R x) (den_p v p)) /\
    (forall x, Qeq_bool x 0 = true -> pdiv SY p (Num x) = Err ZeroDivisionError) /\
    wf_p (padd SY p q) /\ wf_p (psub SY p q) /\ wf_p (pneg SY p) /\ wf_p (pscale SY c p).
  Proof.
    intros OK v p q c Hp Hq. repeat split.
    - apply (padd_den SY OK v); easy.
    - apply (psub_den SY OK v); easy.
    - apply (pneg_den SY OK v); easy.
    - apply (pscale_den SY OK v); easy.
    - intros x Hx. destruct (pdiv SY p (Num x)) as [p'|] eqn:E.
      + exists p'. split; [easy|]. apply (pdiv_den SY OK v p (Num x) p' E).
      + unfold pdiv in E. rewrite recip_num, Hx in E. easy.
    - intros x Hx. unfold pdiv. rewrite recip_num, Hx. easy.
    - apply padd_wf; easy.
    - apply psub_wf; easy.
    - apply pscale_wf; easy.
    - apply pscale_wf; easy.
  Qed.

  Theorem inner_products : sympy_ok SY ->
  forall v p q, wf_p p -> wf_p q ->
    den_e v (pmul SY p q) = dot (v_dim v) (den_p v p) (den_p v q) /\
    den_e v (pmul SY q p) = den_e v (pmul SY p q) /\
    (exists e, ppow SY p 2 = Ok e /\ den_e v e = nsq (v_dim v) (den_p v p) /\ 0 <= den_e v e).
  Proof.
    intros OK v p q Hp Hq. rewrite !(pmul_den SY OK v) by easy. repeat split.
    - apply dot_comm.
    - exists (psq SY p). split; [easy|]. unfold psq. rewrite (pmul_den SY OK v) by easy.
      split; [easy|]. apply nsq_nonneg.
  Qed.

  Theorem expression_arithmetic : sympy_ok SY ->
  forall v a b c k, wf_e a -> wf_e b ->
    den_e v (eadd SY a b) = den_e v a + den_e v b /\
    den_e v (esub SY a b) = den_e v a - den_e v b /\
    den_e v (eneg SY a) = - den_e v a /\
    den_e v (escale SY c a) = ev (v_env v) c * den_e v a /\
    den_e v (eaddc SY a k) = den_e v a + Q2R k /\
    den_e v (esubc SY a k) = den_e v a - Q2R k /\
    den_e v (ersubc SY k a) = Q2R k - den_e v a /\
    (forall x, Qeq_bool x 0 = false ->
       exists e, ediv SY a (Num x) = Ok e /\ den_e v e = den_e v a / Q2R x) /\
    wf_e (eadd SY a b) /\ wf_e (esub SY a b) /\ wf_e (eneg SY a) /\ wf_e (escale SY c a) /\
    wf_e (eaddc SY a k) /\ wf_e (esubc SY a k) /\ wf_e (ersubc SY k a).
  Proof.
    intros OK v a b c k Ha Hb. repeat split.
    - apply (eadd_den SY OK v); easy.
    - apply (esub_den SY OK v); easy.
    - apply (eneg_den SY OK v); easy.
    - apply (escale_den SY OK v); easy.
    - apply (eaddc_den SY OK v); easy.
    - apply (esubc_den SY OK v); easy.
    - apply (ersubc_den SY OK v); easy.
    - intros x Hx. destruct (ediv SY a (Num x)) as [p'|] eqn:E.
      + exists p'. split; [easy|]. apply (ediv_den SY OK v a (Num x) p' E).
      + unfold ediv in E. rewrite recip_num, Hx in E. easy.
    - apply eadd_wf; easy.
    - apply esub_wf; easy.
    - apply escale_wf; easy.
    - apply escale_wf; easy.
    - apply eaddc_wf; easy.
    - apply eaddc_wf; easy.
    - apply escale_wf, eaddc_wf; easy.
  Qed.

  Theorem gram_representation : sympy_ok SY ->
  forall l e, let se := run SY session0 l in let s := se_st se in
    In e (se_exps se) -> no_const e -> plain SY e ->
    exists w, expression_to_matrix SY e (st_pctr s) (st_ectr s) = Ok w /\
      (forall a b, wG w a b = wG w b a) /\
      forall v, den_e v e =
        rsum (st_ectr s) (fun k => ev (v_env v) (wF w k) * v_fv v (nth k (st_elist s) dleaf)) +
        rsum (st_pctr s) (fun a => rsum (st_pctr s) (fun b => ev (v_env v) (wG w a b) *
          dot (v_dim v) (v_pt v (nth a (st_plist s) dleaf)) (v_pt v (nth b (st_plist s) dleaf)))).
  Proof.
    intros OK l e se s He Hc Hp. assert (SI := reachable_inv SY l). fold se in SI.
    assert (I := si_inv se SI). fold s in I.
    assert (Ho : own_e s e) by (assert (H := si_exps se SI); rewrite Forall_forall in H; apply H; easy).
    destruct (own_convertible SY s e I Ho Hp) as [w Hw]. exists w. split; [easy|]. split.
    - eapply to_matrix_sym; [exact Hw|easy].
    - intros v.
      rewrite <- (expression_to_matrix_val SY (v_env v) v _ _ eq_refl (st_pctr s) (st_ectr s) e w Hw (own_leaf_vals s v e I Ho)).
      rewrite (no_const_part (v_env v) e Hc). unfold fg_val. lra.
  Qed.

  Lemma to_matrix_app_one dimG dimF d q : forall acc,
    to_matrix SY dimG dimF (d ++ [(KOne, Num q)]) acc = to_matrix SY dimG dimF d acc.
  Proof.
    induction d as [|[k w] d IH]; intros acc; simpl; [easy|].
    destruct (norm_weight SY w); simpl; [|easy]. destruct k; [| |apply IH].
    - destruct (Nat.ltb _ _); [apply IH|easy].
    - destruct (_ && _); [apply IH|easy].
  Qed.

  Theorem constants_lost : sympy_ok SY ->
  forall e k dimG dimF, ~ In KOne (keys (ex_dict e)) ->
    expression_to_matrix SY (eaddc SY e k) dimG dimF = expression_to_matrix SY e dimG dimF /\
    forall v, den_e v (eaddc SY e k) = den_e v e + Q2R k.
  Proof.
    intros OK e k dimG dimF Hc. split; [|intros v; apply (eaddc_den SY OK v)].
    unfold expression_to_matrix, eaddc. simpl ex_dict. unfold merge_dict. simpl.
    assert (Hm : dmem ekey_eqb KOne (ex_dict e) = false) by (apply (dmem_false ekey_eqb ekey_eqb_eq); easy).
    rewrite Hm, (dset_notin ekey_eqb ekey_eqb_eq) by easy. apply to_matrix_app_one.
  Qed.

  Theorem leaf_numbering :
  forall l, let s := se_st (run SY session0 l) in
    (forall i, (i < List.length (st_plist s))%nat -> lctr (nth i (st_plist s) dleaf) = i) /\
    st_pctr s = List.length (st_plist s) /\ NoDup (st_plist s) /\ NoDup (map lid (st_plist s)) /\
    (forall i, (i < List.length (st_elist s))%nat -> lctr (nth i (st_elist s) dleaf) = i) /\
    st_ectr s = List.length (st_elist s) /\ NoDup (st_elist s) /\ NoDup (map lid (st_elist s)) /\
    (exists x, fst (new_point s) = Ok (leaf_point x) /\ lctr x = List.length (st_plist s) /\
       ~ In (lid x) (map lid (st_plist s))) /\
    (exists x, fst (new_expr s) = Ok (leaf_expr x) /\ lctr x = List.length (st_elist s) /\
       ~ In (lid x) (map lid (st_elist s))) /\
    (forall p x, In p (se_pts (run SY session0 l)) -> In x (keys (pt_dict p)) -> In x (st_plist s)).
  Proof.
    intros l s. assert (SI := reachable_inv SY l). assert (I := si_inv _ SI). fold s in I.
    assert (G : forall L n, map lctr L = seq 0 n ->
      (forall i, (i < List.length L)%nat -> lctr (nth i L dleaf) = i) /\ n = List.length L).
    { intros L n H. assert (Hl : n = List.length L) by (rewrite <- (map_length lctr), H, seq_length; easy).
      split; [|easy]. intros i Hi. rewrite <- (map_nth lctr), H, seq_nth by lia. easy. }
    destruct (G _ _ (inv_pctr s I)) as [A1 A2]. destruct (G _ _ (inv_ectr s I)) as [B1 B2].
    repeat split; try easy.
    - eapply NoDup_map_inv. apply (inv_pnd s I).
    - apply (inv_pnd s I).
    - eapply NoDup_map_inv. apply (inv_end s I).
    - apply (inv_end s I).
    - eexists. split; [reflexivity|]. split; [easy|]. apply lid_fresh, (inv_pid s I).
    - eexists. split; [reflexivity|]. split; [easy|]. apply lid_fresh, (inv_eid s I).
    - intros p x Hp Hx. assert (H := si_pts _ SI). rewrite Forall_forall in H. apply (H p Hp). easy.
  Qed.
End P.

(** The constraint x^2 - 1 <= 0 and the metric x^2. *)
Definition const_prog : list op :=
  [ONewProblem; OInitial; OPPow 0 2; OESubC 0 1; OConstraint 1 "inequality"; OMetric 0].

Definition const_env : env := fun _ => 1.
Definition const_val : valuation := mkVal 1 (fun _ _ => 1) (fun _ => 0) const_env.

Theorem constants_survive_refuted :
  exists l sr s' wm r P v, let se := run sympy0 session0 l in
    symbolic sympy0 (se_pb se) (se_st se) = (Ok sr, s') /\ In (SObj, wm) (sr_exp sr) /\
    certificate r sr wm (st_pctr (se_st se)) (st_ectr (se_st se)) 1 P /\
    v_env v = r /\ constraints_hold v (se_pb se) /\ consistent v (fun _ => Spec.mkFun (fun _ => True) (fun _ => 0)) (se_st se) /\
    exists m, pr_metric (se_pb se) = Some m /\ den_e v m > 0.
Proof.
  exists const_prog. do 3 eexists. exists const_env, (fun _ _ => 0), const_val.
  cbv zeta.
  split; [vm_compute; reflexivity|].
  split; [right; left; reflexivity|].
  split.
  { constructor.
    - intros. unfold const_env. lra.
    - intros k Hk. vm_compute in Hk. lia.
    - intros a b Ha Hb. vm_compute in Ha, Hb.
      assert (a = 0%nat) by lia. assert (b = 0%nat) by lia. subst. simpl.
      unfold const_env, Q2R; simpl. lra. }
  split; [reflexivity|]. split.
  { intros c Hc. vm_compute in Hc. destruct Hc as [<-|[]]. unfold den_e, den_ed; simpl; unfold const_env, dot, Q2R; simpl. lra. }
  split.
  { intros f fn Hf. vm_compute in Hf. easy. }
  eexists. split; [vm_compute; reflexivity|]. unfold den_e, den_ed; simpl; unfold const_env, dot, Q2R; simpl. lra.
Qed.
