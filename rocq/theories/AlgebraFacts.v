(** Denotation lemmas for points and expressions. *)
From Coq Require Import List Arith Bool String QArith Reals Qreals Lra Lia FunctionalExtensionality.
From Verif Require Import Prelude PreludeFacts Sympy SympyFacts AlgebraModel Denote.
Import ListNotations.
Local Open Scope R_scope.

Lemma leaf_eqb_eq a b : leaf_eqb a b = true <-> a = b.
Proof.
  unfold leaf_eqb. rewrite andb_true_iff, !Nat.eqb_eq. destruct a, b; simpl.
  split; [intros [-> ->]; easy|intros H; injection H; auto].
Qed.

Lemma ekey_eqb_eq a b : ekey_eqb a b = true <-> a = b.
Proof.
  destruct a, b; simpl; try easy.
  - rewrite leaf_eqb_eq. split; [intros ->; easy|intros H; injection H; auto].
  - rewrite andb_true_iff, !leaf_eqb_eq. split; [intros [-> ->]; easy|intros H; injection H; auto].
Qed.

Section GenericWf.
  Variable S : sympy.
  Context {K : Type}.
  Variable eqb : K -> K -> bool.
  Hypothesis eqb_eq : forall a b, eqb a b = true <-> a = b.

  Lemma merge_wf d1 d2 : NoDup (keys d1) -> NoDup (keys (merge_dict S eqb d1 d2)).
  Proof using eqb_eq.
    unfold merge_dict. intros H.
    assert (G : forall m, NoDup (keys m) -> NoDup (keys (fold_left (fun merged kv => let '(k, v) := kv in
        if dmem eqb k d1 then
          match dget eqb k merged with
          | Some old => dset eqb k (simp S (sadd old v)) merged
          | None => merged
          end
        else dset eqb k v merged) d2 m))); [|auto].
    induction d2 as [|[k v] l IH]; intros m Hm; simpl; [easy|].
    apply IH. destruct (dmem eqb k d1).
    - destruct (dget eqb k m); [|easy]. apply (dset_nodup eqb eqb_eq); easy.
    - apply (dset_nodup eqb eqb_eq); easy.
  Qed.

  Lemma prune_wf (d : list (K * sexpr)) : NoDup (keys d) -> NoDup (keys (prune_dict d)).
  Proof using Type.
    unfold prune_dict, keys. induction d as [|[k v] d IH]; simpl; intros H; [constructor|].
    inversion H as [|? ? Hk Hn]; subst. destruct (is_num 0 v); simpl; [auto|].
    constructor; [|auto]. intros Hin. apply Hk. apply in_map_iff in Hin as [u [E Hu]].
    apply filter_In in Hu. rewrite <- E. apply in_map. tauto.
  Qed.

  Lemma scale_keys c (d : list (K * sexpr)) : keys (scale_dict S c d) = keys d.
  Proof using Type. unfold scale_dict, keys. rewrite map_map. simpl. easy. Qed.
End GenericWf.

Section Generic.
  Variable S : sympy.
  Hypothesis OK : sympy_ok S.
  Context {K : Type}.
  Variable eqb : K -> K -> bool.
  Hypothesis eqb_eq : forall a b, eqb a b = true <-> a = b.
  Variable r : env.
  Variable val : K -> R.
  Let den (d : list (K * sexpr)) := lsum (fun kv => ev r (snd kv) * val (fst kv)) d.

  Lemma merge_den d1 d2 : NoDup (keys d2) -> den (merge_dict S eqb d1 d2) = den d1 + den d2.
  Proof using OK eqb_eq.
    unfold merge_dict.
    assert (G : forall l m, NoDup (keys l) ->
      (forall k, In k (keys d1) -> In k (keys m)) ->
      (forall k, In k (keys l) -> ~ In k (keys d1) -> ~ In k (keys m)) ->
      den (fold_left (fun merged kv => let '(k, v) := kv in
        if dmem eqb k d1 then
          match dget eqb k merged with
          | Some old => dset eqb k (simp S (sadd old v)) merged
          | None => merged
          end
        else dset eqb k v merged) l m) = den m + den l).
    { induction l as [|[k v] l IH]; intros m Hn H1 H2; simpl fold_left.
      - unfold den at 3. simpl. lra.
      - inversion Hn as [|? ? Hk Hn']; subst.
        assert (Hl : den ((k, v) :: l) = ev r v * val k + den l) by easy.
        rewrite Hl. destruct (dmem eqb k d1) eqn:E.
        + apply (dmem_true eqb eqb_eq) in E.
          destruct (dget eqb k m) as [old|] eqn:Em.
          2:{ apply (dget_none eqb eqb_eq) in Em. exfalso; auto. }
          rewrite IH; [|easy| |].
          * unfold den at 1. rewrite (lsum_dset_mem eqb eqb_eq _ _ _ old) by easy. simpl.
            rewrite (simp_ev S OK), sadd_ev. unfold den. lra.
          * intros k' Hk'. apply (dset_keys_incl eqb eqb_eq). auto.
          * intros k' Hk' Hn1 Hin. apply (dset_keys_incl eqb eqb_eq) in Hin as [->|Hin]; [easy|].
            revert Hin. apply H2; simpl; auto.
        + apply (dmem_false eqb eqb_eq) in E.
          assert (~ In k (keys m)) by (apply H2; simpl; auto).
          rewrite IH; [|easy| |].
          * unfold den at 1. rewrite (lsum_dset_new eqb eqb_eq) by easy. simpl. unfold den. lra.
          * intros k' Hk'. apply (dset_keys_incl eqb eqb_eq). auto.
          * intros k' Hk' Hn1 Hin. apply (dset_keys_incl eqb eqb_eq) in Hin as [->|Hin]; [easy|].
            revert Hin. apply H2; simpl; auto. }
    intros Hn. apply G; auto.
  Qed.

  Lemma prune_den d : den (prune_dict d) = den d.
  Proof using Type.
    unfold prune_dict, den. induction d as [|[k v] d IH]; simpl; [easy|].
    destruct (is_num 0 v) eqn:E; simpl.
    - rewrite IH, (is_num_ev r _ _ E), Q2R_0'. lra.
    - rewrite IH. easy.
  Qed.

  Lemma scale_den c d : den (scale_dict S c d) = ev r c * den d.
  Proof using OK.
    unfold scale_dict, den. rewrite lsum_map. simpl. rewrite <- lsum_scal.
    apply lsum_ext. intros. rewrite (simp_ev S OK), smul_ev. lra.
  Qed.

  Lemma dict_eqb_den d1 d2 : NoDup (keys d1) -> NoDup (keys d2) ->
    dict_eqb eqb d1 d2 = true -> den d1 = den d2.
  Proof using eqb_eq.
    intros H1 H2 H. unfold dict_eqb in H. apply andb_true_iff in H as [HL HF].
    apply Nat.eqb_eq in HL. rewrite forallb_forall in HF.
    revert d2 H2 HL HF. induction d1 as [|[k v] d1 IH]; intros d2 H2 HL HF.
    - destruct d2; [easy|simpl in HL; lia].
    - inversion H1 as [|? ? Hk H1']; subst.
      assert (E := HF (k, v) (or_introl eq_refl)). simpl in E.
      destruct (dget eqb k d2) as [w|] eqn:Ed; [|easy].
      assert (Hin := dget_in eqb eqb_eq _ _ _ Ed).
      apply in_split in Hin as [l1 [l2 ->]].
      unfold den. rewrite lsum_app. simpl. rewrite (sexpr_eqb_ev r _ _ E).
      assert (Hn : NoDup (keys (l1 ++ l2)) /\ ~ In k (keys (l1 ++ l2))).
      { unfold keys in *. rewrite map_app in *. simpl in H2.
        apply NoDup_remove in H2. easy. }
      destruct Hn as [Hn Hkn].
      assert (G : den d1 = den (l1 ++ l2)).
      { apply IH; [easy|easy| |].
        - rewrite app_length in *. simpl in HL. lia.
        - intros [k' v'] Hx. specialize (HF (k', v') (or_intror Hx)). simpl in *.
          assert (Hkk : k' <> k).
          { intros ->. apply Hk. apply in_map_iff. exists (k, v'); easy. }
          destruct (dget eqb k' (l1 ++ (k, w) :: l2)) as [z|] eqn:Ez; [|easy].
          apply (dget_in eqb eqb_eq) in Ez.
          assert (In (k', z) (l1 ++ l2)).
          { apply in_app_iff in Ez. apply in_app_iff. simpl in Ez. destruct Ez as [|[Ez|]]; auto.
            injection Ez; intros; subst; easy. }
          rewrite (dget_nodup eqb eqb_eq _ z); easy. }
      unfold den in G. rewrite G, lsum_app. lra.
  Qed.

End Generic.

Section Den.
  Variable S : sympy.
  Hypothesis OK : sympy_ok S.
  Variable v : valuation.

  Lemma padd_den p q : wf_p q -> den_p v (padd S p q) = vadd (den_p v p) (den_p v q).
  Proof using OK v.
    intros H. apply functional_extensionality. intros k. unfold den_p, den_pd, padd, vadd. simpl.
    rewrite (prune_den (v_env v) (fun l => v_pt v l k)).
    rewrite (merge_den S OK leaf_eqb leaf_eqb_eq (v_env v) (fun l => v_pt v l k)) by easy. easy.
  Qed.

  Lemma pscale_den c p : den_p v (pscale S c p) = vscal (ev (v_env v) c) (den_p v p).
  Proof using OK v.
    apply functional_extensionality. intros k. unfold den_p, den_pd, pscale, vscal. simpl.
    rewrite (scale_den S OK (v_env v) (fun l => v_pt v l k)). easy.
  Qed.

  Lemma pscale_wf c p : wf_p p -> wf_p (pscale S c p).
  Proof using Type. unfold wf_p, pscale. simpl. rewrite scale_keys. easy. Qed.

  Lemma padd_wf p q : wf_p p -> wf_p (padd S p q).
  Proof using Type. intros H. unfold wf_p, padd. simpl. apply prune_wf. apply (merge_wf S leaf_eqb leaf_eqb_eq). exact H. Qed.

  Lemma psub_wf p q : wf_p p -> wf_p (psub S p q).
  Proof using Type. intros H. apply padd_wf; easy. Qed.

  Lemma pneg_den p : den_p v (pneg S p) = vopp (den_p v p).
  Proof using OK v.
    unfold pneg. rewrite pscale_den. apply functional_extensionality. intros k.
    unfold vscal, vopp. simpl. unfold Q2R; simpl. lra.
  Qed.

  Lemma psub_den p q : wf_p q -> den_p v (psub S p q) = vsub (den_p v p) (den_p v q).
  Proof using OK v.
    intros H. unfold psub. rewrite padd_den by (apply pscale_wf; easy). rewrite pneg_den.
    apply functional_extensionality. intros k. unfold vadd, vopp, vsub. lra.
  Qed.

  Lemma recip_ev c r' : recip c = Ok r' -> ev (v_env v) c <> 0 /\ ev (v_env v) r' = / ev (v_env v) c.
  Proof using v.
    destruct c; simpl; try easy. destruct (Qeq_bool q 0) eqn:E; [easy|].
    intros H; injection H; intros <-. simpl.
    assert (~ (q == 0)%Q) by (apply Qeq_bool_neq; easy).
    split.
    - intros H1. apply H0. apply eqR_Qeq. rewrite H1, Q2R_0'. easy.
    - rewrite Q2R_red, Q2R_inv; easy.
  Qed.

  Lemma pdiv_den p c p' : pdiv S p c = Ok p' ->
    ev (v_env v) c <> 0 /\ den_p v p' = vscal (/ ev (v_env v) c) (den_p v p).
  Proof using OK v.
    unfold pdiv. destruct (recip c) as [r'|] eqn:E; simpl; [|easy].
    intros H; injection H; intros <-. apply recip_ev in E as [E1 E2]. split; [easy|].
    rewrite pscale_den, E2. easy.
  Qed.

  Lemma pdiv_wf p c p' : pdiv S p c = Ok p' -> wf_p p -> wf_p p'.
  Proof using Type.
    unfold pdiv. destruct (recip c); simpl; [|easy]. intros H; injection H; intros <-. apply pscale_wf.
  Qed.

  Lemma multiply_den d1 d2 : NoDup (keys d1) -> NoDup (keys d2) ->
    den_ed v (multiply_dicts S d1 d2) = dot (v_dim v) (den_pd v d1) (den_pd v d2).
  Proof using OK v.
    intros H1 H2.
    assert (RHS : dot (v_dim v) (den_pd v d1) (den_pd v d2) =
       lsum (fun a => lsum (fun b => ev (v_env v) (snd a) * ev (v_env v) (snd b) *
                 dot (v_dim v) (v_pt v (fst a)) (v_pt v (fst b))) d2) d1).
    { unfold dot, den_pd.
      transitivity (rsum (v_dim v) (fun k => lsum (fun a => lsum (fun b =>
         ev (v_env v) (snd a) * v_pt v (fst a) k * (ev (v_env v) (snd b) * v_pt v (fst b) k)) d2) d1)).
      { apply rsum_ext. intros k _. rewrite <- lsum_scal_r. apply lsum_ext. intros a _.
        rewrite lsum_scal. easy. }
      rewrite <- lsum_rsum. apply lsum_ext. intros a _. rewrite <- lsum_rsum. apply lsum_ext. intros b _.
      rewrite <- rsum_scal. apply rsum_ext. intros; lra. }
    rewrite RHS. clear RHS. unfold multiply_dicts.
    assert (INNER : forall a l acc, 
      den_ed v (fold_left (fun acc' kv2 =>
        match dget ekey_eqb (KG (fst a) (fst kv2)) acc' with
        | Some old => dset ekey_eqb (KG (fst a) (fst kv2)) (sadd old (simp S (smul (snd a) (snd kv2)))) acc'
        | None => dset ekey_eqb (KG (fst a) (fst kv2)) (simp S (smul (snd a) (snd kv2))) acc'
        end) l acc) = den_ed v acc + lsum (fun b => ev (v_env v) (snd a) * ev (v_env v) (snd b) *
                 dot (v_dim v) (v_pt v (fst a)) (v_pt v (fst b))) l).
    { intros a l. induction l as [|b l IH]; intros acc; simpl; [lra|].
      rewrite IH. clear IH. destruct (dget ekey_eqb (KG (fst a) (fst b)) acc) as [old|] eqn:E.
      - unfold den_ed at 1. rewrite (lsum_dset_mem ekey_eqb ekey_eqb_eq _ _ _ old) by easy. simpl.
        rewrite sadd_ev, (simp_ev S OK), smul_ev. fold (den_ed v acc). lra.
      - apply (dget_none ekey_eqb ekey_eqb_eq) in E.
        unfold den_ed at 1. rewrite (lsum_dset_new ekey_eqb ekey_eqb_eq) by easy. simpl.
        rewrite (simp_ev S OK), smul_ev. fold (den_ed v acc). lra. }
    assert (OUTER : forall l acc,
      den_ed v (fold_left (fun acc kv1 =>
       fold_left (fun acc' kv2 =>
        match dget ekey_eqb (KG (fst kv1) (fst kv2)) acc' with
        | Some old => dset ekey_eqb (KG (fst kv1) (fst kv2)) (sadd old (simp S (smul (snd kv1) (snd kv2)))) acc'
        | None => dset ekey_eqb (KG (fst kv1) (fst kv2)) (simp S (smul (snd kv1) (snd kv2))) acc'
        end) d2 acc) l acc) = den_ed v acc + lsum (fun a => lsum (fun b => ev (v_env v) (snd a) * ev (v_env v) (snd b) *
                 dot (v_dim v) (v_pt v (fst a)) (v_pt v (fst b))) d2) l).
    { induction l as [|a l IH]; intros acc; simpl; [lra|]. rewrite IH, INNER. lra. }
    rewrite OUTER. unfold den_ed; simpl. lra.
  Qed.

  Lemma multiply_wf d1 d2 : NoDup (keys (multiply_dicts S d1 d2)).
  Proof using Type.
    unfold multiply_dicts.
    assert (G : forall l acc, NoDup (keys acc) -> NoDup (keys (fold_left (fun acc kv1 =>
       fold_left (fun acc' kv2 =>
        match dget ekey_eqb (KG (fst kv1) (fst kv2)) acc' with
        | Some old => dset ekey_eqb (KG (fst kv1) (fst kv2)) (sadd old (simp S (smul (snd kv1) (snd kv2)))) acc'
        | None => dset ekey_eqb (KG (fst kv1) (fst kv2)) (simp S (smul (snd kv1) (snd kv2))) acc'
        end) d2 acc) l acc))).
    { induction l as [|a l IH]; intros acc H; simpl; [easy|]. apply IH. clear IH.
      revert acc H. induction d2 as [|b d2' IH]; intros acc H; simpl; [easy|]. apply IH.
      destruct (dget ekey_eqb (KG (fst a) (fst b)) acc); apply (dset_nodup ekey_eqb ekey_eqb_eq); easy. }
    apply G. constructor.
  Qed.

  Lemma pmul_den p q : wf_p p -> wf_p q -> den_e v (pmul S p q) = dot (v_dim v) (den_p v p) (den_p v q).
  Proof using OK v. intros H1 H2. apply multiply_den; easy. Qed.

  Lemma pmul_wf p q : wf_e (pmul S p q).
  Proof using Type. apply multiply_wf. Qed.

  Lemma eadd_den a b : wf_e b -> den_e v (eadd S a b) = den_e v a + den_e v b.
  Proof using OK v. intros H. apply (merge_den S OK ekey_eqb ekey_eqb_eq (v_env v) (den_key v)); easy. Qed.
  Lemma eadd_wf a b : wf_e a -> wf_e (eadd S a b).
  Proof using Type. apply (merge_wf S ekey_eqb ekey_eqb_eq). Qed.
  Lemma eaddc_den a q : den_e v (eaddc S a q) = den_e v a + Q2R q.
  Proof using OK v.
    unfold eaddc, den_e, den_ed. simpl.
    rewrite (merge_den S OK ekey_eqb ekey_eqb_eq (v_env v) (den_key v)).
    - simpl. lra.
    - repeat constructor. easy.
  Qed.
  Lemma eaddc_wf a q : wf_e a -> wf_e (eaddc S a q).
  Proof using Type. apply (merge_wf S ekey_eqb ekey_eqb_eq). Qed.
  Lemma escale_den c a : den_e v (escale S c a) = ev (v_env v) c * den_e v a.
  Proof using OK v. apply (scale_den S OK (v_env v) (den_key v)). Qed.
  Lemma escale_wf c a : wf_e a -> wf_e (escale S c a).
  Proof using Type. unfold wf_e, escale; simpl. rewrite scale_keys. easy. Qed.
  Lemma eneg_den a : den_e v (eneg S a) = - den_e v a.
  Proof using OK v. unfold eneg. rewrite escale_den. simpl. unfold Q2R; simpl. lra. Qed.
  Lemma esub_den a b : wf_e b -> den_e v (esub S a b) = den_e v a - den_e v b.
  Proof using OK v. intros H. unfold esub. rewrite eadd_den by (apply escale_wf; easy). rewrite eneg_den. lra. Qed.
  Lemma esub_wf a b : wf_e a -> wf_e (esub S a b).
  Proof using Type. apply eadd_wf. Qed.
  Lemma esubc_den a q : den_e v (esubc S a q) = den_e v a - Q2R q.
  Proof using OK v. unfold esubc. rewrite eaddc_den, Q2R_red, Q2R_opp. lra. Qed.
  Lemma ersubc_den a q : den_e v (ersubc S q a) = Q2R q - den_e v a.
  Proof using OK v. unfold ersubc. rewrite eneg_den, esubc_den. lra. Qed.
  Lemma ediv_den a c a' : ediv S a c = Ok a' ->
    ev (v_env v) c <> 0 /\ den_e v a' = den_e v a / ev (v_env v) c.
  Proof using OK v.
    unfold ediv. destruct (recip c) as [r'|] eqn:E; simpl; [|easy].
    intros H; injection H; intros <-. apply recip_ev in E as [E1 E2]. split; [easy|].
    rewrite escale_den, E2. unfold Rdiv. lra.
  Qed.
  Lemma ediv_wf a c a' : ediv S a c = Ok a' -> wf_e a -> wf_e a'.
  Proof using Type.
    unfold ediv. destruct (recip c); simpl; [|easy]. intros H; injection H; intros <-. apply escale_wf.
  Qed.

  Lemma leaf_point_den l : den_p v (leaf_point l) = v_pt v l.
  Proof using v.
    apply functional_extensionality. intros k. unfold den_p, den_pd, leaf_point. simpl.
    rewrite Q2R_1'. lra.
  Qed.
  Lemma leaf_expr_den l : den_e v (leaf_expr l) = v_fv v l.
  Proof using v. unfold den_e, den_ed, leaf_expr. simpl. rewrite Q2R_1'. lra. Qed.
  Lemma zero_point_den : den_p v zero_point = vzero.
  Proof using v. easy. Qed.
  Lemma zero_expr_den : den_e v zero_expr = 0.
  Proof using v. easy. Qed.
  Lemma leaf_point_wf l : wf_p (leaf_point l).
  Proof using Type. unfold wf_p; simpl. repeat constructor; easy. Qed.
  Lemma leaf_expr_wf l : wf_e (leaf_expr l).
  Proof using Type. unfold wf_e; simpl. repeat constructor; easy. Qed.
  Lemma zero_point_wf : wf_p zero_point. Proof using Type. constructor. Qed.
  Lemma zero_expr_wf : wf_e zero_expr. Proof using Type. constructor. Qed.
End Den.
