(** Records added by hand, stationary points, proximal steps; regular
    programs keep the record invariants. *)
From Coq Require Import List Arith Bool QArith Reals Qreals Lra Lia FunctionalExtensionality Permutation.
From Verif Require Import Prelude PreludeFacts Sympy SympyFacts AlgebraModel Denote AlgebraFacts
  FunctionModel CircuitModel StateSpec StateFacts SessionModel FunctionSpec FunctionFacts.
Import ListNotations.
Open Scope nat_scope.

Section Methods.
  Variable SY : sympy.
  Hypothesis OK : sympy_ok SY.

  Record add_post (s s' : state) (F : nat) (fn : func) (x g : point) (e : expr) : Prop := mkAP {
    ap_inv : Inv s'; ap_ext : ext s s'; ap_good : Good s'; ap_flist : st_flist s' = st_flist s;
    ap_dec : dec_at s' (fn_dict fn) x g e;
    ap_fn : exists fn' t, dget Nat.eqb F (st_funs s') = Some fn' /\ fn_reuse fn' = fn_reuse fn /\ fn_dict fn' = fn_dict fn /\
      fn_pts fn' = fn_pts fn ++ [t] /\ t_x t = x /\ t_g t = prune_p g /\ t_f t = prune_e e
  }.

  Lemma add_spec F fn x g e s : Inv s -> Good s -> In F (st_flist s) -> dget Nat.eqb F (st_funs s) = Some fn ->
    own_p s x -> own_p s g -> own_e s e -> pruned x -> unevaluated s F x ->
    exists s', add_triplet SY F x g e s = (Ok tt, s') /\ add_post s s' F fn x g e.
  Proof using OK.
    intros I G HF Hg Ox Og Oe Hp Hun. destruct (Hun fn Hg) as [Hu1 Hu2].
    assert (OKm := ok_add_triplet SY F x g e s I HF Ox Og Oe).
    unfold add_triplet in *. revert OKm. rewrite bind_fresh. set (s1 := tick s). intros OKm.
    unfold okM in OKm. rewrite bind_fresh in OKm. fold s1 in OKm.
    destruct (ok_fresh s I) as (I1 & X1 & _). change (snd (fresh_id s)) with s1 in I1, X1.
    assert (K1 : keepf s s1) by easy.
    assert (G1 : Good s1) by (eapply Good_keepf; eauto).
    set (t0 := mkTrip (st_next s) x g e) in *.
    assert (Hpx : prune_p x = x) by (apply prune_p_id; easy).
    unfold add_point in *. cbn [methods m_add bodies] in *.
    destruct (fn_leaf fn) eqn:El.
    - destruct (leaf_add SY (methods SY 1) F t0 s1 fn Hg El) as (s' & E & A & _).
      exists s'. cbn [methods] in E. split; [exact E|].
      change (m_add (methods SY 2) F t0 s1) with (add_body SY (methods SY 1) F t0 s1) in OKm.
      cbn [methods] in OKm. rewrite E in OKm. destruct OKm as (I' & X' & _). simpl in I', X'.
      assert (A' : appended s s' F (prune_t t0)) by (eapply keepf_appended; eauto).
      assert (L' : LG s').
      { eapply (LG_append s s' F fn (prune_t t0)); try easy; unfold t0; simpl; rewrite ?Hpx; try easy; [apply (proj1 G)|apply Ox|].
        intros ge Hge. rewrite Hu1 in Hge. easy. }
      assert (G' : Good s') by (apply (Good_leaf_append s s' F fn (prune_t t0)); try assumption).
      assert (Rt := appended_recorded _ _ _ _ A').
      destruct A' as (F1 & F2 & f0 & fn' & B1 & B2 & B3 & B4 & B5 & B6). rewrite Hg in B1; injection B1; intros <-.
      constructor; try easy.
      + assert (HF' : In F (st_flist s')) by (rewrite F1; easy).
        assert (Hd' := leaf_dict s' F fn' I' HF' B2 ltac:(congruence)).
        assert (D := leaf_self_dec s' F fn' (prune_t t0) I' HF' B2 Hd' Rt). rewrite B5 in D. unfold t0 in D; simpl in D. rewrite Hpx in D.
        destruct D as (ts & T1 & T2). exists ts. split; [easy|]. intros v. rewrite <- prune_p_den, <- prune_e_den. apply T2.
      + exists fn', (prune_t t0). unfold t0; simpl. rewrite Hpx. repeat (split; [easy|]). easy.
    - assert (HF1 : In F (st_flist s1)) by exact HF.
      assert (C1 := proj2 G1 F fn HF1 Hg El). destruct C1 as (D1 & [D2 D2'] & D3 & D4).
      destruct (inv_funs s I F HF) as (fnx & Hgx & Hok). rewrite Hg in Hgx; injection Hgx; intros <-.
      destruct (fdict_keys s F fn HF Hg Hok) as [Knd Kleaf].
      destruct (fn_dict fn) as [|fw0 dd] eqn:Ed; [easy|].
      assert (Hun0 : ev_at s1 x (fst fw0) = None).
      { destruct (Kleaf (fst fw0) (or_introl eq_refl)) as [_ (fg & Q & _)]. unfold ev_at. simpl. rewrite Q.
        apply (Hu2 (fst fw0) fg); [|easy]. simpl; auto. }
      assert (Hnew : ~ In (t_id t0) (map t_id (fn_pts fn))).
      { unfold t0; simpl. intros Hi. apply in_map_iff in Hi as (t & Et & Ht). destruct Hok as (_ & _ & _ & Hid & _).
        rewrite Forall_forall in Hid. specialize (Hid t Ht). simpl in Hid. lia. }
      assert (Ot : own_t s1 t0).
      { unfold t0. split; [|split]; simpl; [eapply own_p_ext; [exact X1|exact Ox]|eapply own_p_ext; [exact X1|exact Og]|].
        eapply own_e_ext; [exact X1|exact Oe]. }
      assert (Hall : all_ev s1 (t_x t0) (fn_dict fn) -> cached_sum s1 (t_x t0) (fn_dict fn) (t_f t0)).
      { intros H. exfalso. rewrite Ed in H. apply (H fw0); [simpl; auto|]. exact Hun0. }
      assert (Hca : Forall (cls_a s1 (t_x t0)) (fn_dict fn) -> dec_at s1 (fn_dict fn) (t_x t0) (t_g t0) (t_f t0)).
      { intros H. exfalso. rewrite Ed in H. inversion H as [|? ? (f1 & r & A & B & _) _]; subst.
        unfold ev_at in Hun0. rewrite A in Hun0. unfold t0 in B; simpl in B. congruence. }
      assert (Hid : t_id t0 < st_next s1) by (unfold t0; simpl; lia).
      destruct (comp_add SY OK no_meths (no_meths_ok) F fn t0 s1 I1 G1 HF1 Hg El) as
        (s' & E & I' & X' & G' & Fl & Oc & fn' & Hg' & Hl' & Hr' & Hd' & Hp'); try assumption.
      { rewrite <- Ed in D1, D2', D4. split; [exact D1|]. split; [split; [rewrite Ed; easy|exact D2']|]. split; [exact D3|exact D4]. }
      { intros _. exact Hu1. }
      exists s'. split; [exact E|].
      assert (HF' : In F (st_flist s')) by (rewrite Fl; easy).
      constructor; try easy.
      + eapply ext_trans; eauto.
      + destruct (proj2 G' F fn' HF' Hg' Hl') as (_ & _ & _ & D). specialize (D (prune_t t0)). rewrite Hd' in D.
        unfold t0 in D; simpl in D. rewrite Hpx in D. destruct D as (ts & T1 & T2).
        { rewrite Hp'. apply in_or_app; simpl; unfold t0, prune_t; simpl. rewrite Hpx. auto. }
        exists ts. split; [easy|]. intros v. rewrite <- prune_p_den, <- prune_e_den. apply T2.
      + exists fn', (prune_t t0). split; [easy|]. split; [easy|]. split; [congruence|]. split; [easy|]. unfold t0; simpl. rewrite Hpx. easy.
  Qed.

  Lemma fresh_unevaluated s s1 F p x : Inv s -> keepf s s1 -> In F (st_flist s) -> wf_p p -> In x (keys (pt_dict p)) ->
    ~ In x (st_plist s) -> unevaluated s1 F p.
  Proof using Type.
    intros I [K1 K2] HF Wp Hx Hn fn Hg. rewrite K1 in Hg.
    assert (N : forall h fh, In h (st_flist s) -> dget Nat.eqb h (st_funs s) = Some fh -> evaluated_at (fn_pts fh) p = None).
    { intros h fh Hh Hgh. destruct (evaluated_at (fn_pts fh) p) as [ge|] eqn:E; [|easy].
      destruct (evaluated_in _ _ _ E) as (t & H1 & H2 & _). destruct (own_all s h fh I Hh Hgh t H1) as ((W & Ow) & _).
      rewrite (same_point_fresh (t_x t) p x) in H2; try easy. intros H. apply Hn. auto. }
    split; [apply (N F); easy|]. intros h fh Hh Hgh. rewrite K1 in Hgh. apply (N h); [|easy].
    destruct (inv_funs s I F HF) as (fnx & Hgx & Hok). rewrite Hg in Hgx; injection Hgx; intros <-.
    apply (dict_in_flist s F fn); easy.
  Qed.

  (** ** stationary_point, proximal_step, subgrad_conjugate *)
  Lemma two_new s : Inv s -> exists x y s1 s2, new_point s = (Ok (leaf_point x), s1) /\ new_expr s1 = (Ok (leaf_expr y), s2) /\
    Inv s2 /\ ext s s2 /\ keepf s s2 /\ own_p s2 (leaf_point x) /\ own_e s2 (leaf_expr y) /\ ~ In x (st_plist s) /\ ~ In y (st_elist s).
  Proof using Type.
    intros I. destruct (new_point_run s) as (x & s1 & E1 & K1 & F1 & P1 & X1).
    destruct (ok_new_point s I) as (I1 & Xx1 & Q1). rewrite E1 in I1, Xx1, Q1. simpl in I1, Xx1, Q1. destruct (Q1 _ eq_refl) as [O1 _].
    destruct (new_expr_run s1) as (y & s2 & E2 & K2 & F2 & P2).
    destruct (ok_new_expr s1 I1) as (I2 & Xx2 & Q2). rewrite E2 in I2, Xx2, Q2. simpl in I2, Xx2, Q2. destruct (Q2 _ eq_refl) as [O2 _].
    exists x, y, s1, s2. split; [easy|]. split; [easy|]. split; [easy|]. split; [eapply ext_trans; eauto|].
    split; [eapply keepf_trans; eauto|]. split; [eapply own_p_ext; eauto|]. split; [easy|]. split; [auto|].
    rewrite <- X1. auto.
  Qed.

  Lemma stationary_spec F fn s : Inv s -> Good s -> In F (st_flist s) -> dget Nat.eqb F (st_funs s) = Some fn ->
    exists x y s2 s', stationary_point SY F s = (Ok (leaf_point x, zero_point, leaf_expr y), s') /\
      ~ In x (st_plist s) /\ ~ In y (st_elist s) /\ ext s s2 /\ keepf s s2 /\ Inv s2 /\
      add_post s2 s' F fn (leaf_point x) zero_point (leaf_expr y).
  Proof using OK.
    intros I G HF Hg. unfold stationary_point.
    destruct (two_new s I) as (x & y & s1 & s2 & E1 & E2 & I2 & X2 & K2 & Ox & Oy & Nx & Ny).
    rewrite (bind_ok _ _ _ _ _ E1), (bind_ok _ _ _ _ _ E2).
    destruct (add_spec F fn (leaf_point x) zero_point (leaf_expr y) s2) as (s' & E & P); try easy.
    - eapply Good_keepf; eauto.
    - destruct K2 as [_ K2]; rewrite K2; easy.
    - destruct K2 as [K2 _]; rewrite K2; easy.
    - apply own_zero_p.
    - eapply (fresh_unevaluated s); eauto; [apply leaf_point_wf|simpl; auto].
    - exists x, y, s2, s'. split; [rewrite (bind_ok _ _ _ _ _ E); easy|]. easy.
  Qed.

  Lemma prox_point_keys x0 gx gamma r : ~ In gx (keys (pt_dict x0)) -> ev r gamma <> 0%R ->
    In gx (keys (pt_dict (psub SY x0 (pscale SY gamma (leaf_point gx))))).
  Proof using OK.
    intros Hn Hr. unfold psub, padd, pneg, pscale, scale_dict, merge_dict. simpl.
    rewrite (proj2 (dmem_false leaf_eqb leaf_eqb_eq _ _) Hn).
    rewrite (dset_notin leaf_eqb leaf_eqb_eq) by easy.
    unfold prune_dict. rewrite filter_app. unfold keys. rewrite map_app. apply in_or_app. right. simpl.
    destruct (is_num 0 _) eqn:E; [|simpl; auto]. exfalso. apply (is_num_ev r) in E.
    rewrite (simp_ev SY OK), smul_ev, (simp_ev SY OK), smul_ev in E. simpl in E. rewrite Q2R_0', Q2R_1' in E.
    assert (Hm : Q2R (-1) = (-1)%R) by (unfold Q2R; simpl; lra). rewrite Hm in E. apply Hr. lra.
  Qed.
  Lemma psub_pruned a b : pruned (psub SY a b).
  Proof using Type. unfold pruned, psub, padd; simpl. apply prune_prune. Qed.

  Lemma proximal_spec F fn x0 gamma r s : Inv s -> Good s -> In F (st_flist s) -> dget Nat.eqb F (st_funs s) = Some fn ->
    own_p s x0 -> ev r gamma <> 0%R ->
    exists gx y s2 s', let x := psub SY x0 (pscale SY gamma (leaf_point gx)) in
      proximal_step SY x0 F gamma s = (Ok (x, leaf_point gx, leaf_expr y), s') /\
      ~ In gx (st_plist s) /\ ~ In y (st_elist s) /\ ext s s2 /\ keepf s s2 /\ Inv s2 /\
      add_post s2 s' F fn x (leaf_point gx) (leaf_expr y).
  Proof using OK.
    intros I G HF Hg Ox0 Hr. unfold proximal_step.
    destruct (two_new s I) as (gx & y & s1 & s2 & E1 & E2 & I2 & X2 & K2 & Ox & Oy & Nx & Ny).
    rewrite (bind_ok _ _ _ _ _ E1), (bind_ok _ _ _ _ _ E2).
    set (x := psub SY x0 (pscale SY gamma (leaf_point gx))).
    assert (Hox : own_p s2 x).
    { apply own_psub; [eapply own_p_ext; eauto|]. apply own_pscale; easy. }
    destruct (add_spec F fn x (leaf_point gx) (leaf_expr y) s2) as (s' & E & P); try easy.
    - eapply Good_keepf; eauto.
    - destruct K2 as [_ K2]; rewrite K2; easy.
    - destruct K2 as [K2 _]; rewrite K2; easy.
    - apply psub_pruned.
    - eapply (fresh_unevaluated s s2 F x gx); eauto; [apply Hox|].
      apply (prox_point_keys x0 gx gamma r); [|easy]. intros Hin. apply Nx. apply Ox0. easy.
    - exists gx, y, s2, s'. split; [|easy]. rewrite (bind_ok _ _ _ _ _ E). rewrite (prune_p_id x (psub_pruned _ _)). easy.
  Qed.

  Lemma conj_spec F fn gx s : Inv s -> Good s -> In F (st_flist s) -> dget Nat.eqb F (st_funs s) = Some fn -> own_p s gx ->
    exists x y s2 s', subgrad_conjugate SY gx F s = (Ok (leaf_point x), s') /\
      ~ In x (st_plist s) /\ ~ In y (st_elist s) /\ ext s s2 /\ keepf s s2 /\ Inv s2 /\
      add_post s2 s' F fn (leaf_point x) gx (leaf_expr y).
  Proof using OK.
    intros I G HF Hg Og. unfold subgrad_conjugate.
    destruct (two_new s I) as (x & y & s1 & s2 & E1 & E2 & I2 & X2 & K2 & Ox & Oy & Nx & Ny).
    rewrite (bind_ok _ _ _ _ _ E1), (bind_ok _ _ _ _ _ E2).
    destruct (add_spec F fn (leaf_point x) gx (leaf_expr y) s2) as (s' & E & P); try easy.
    - eapply Good_keepf; eauto.
    - destruct K2 as [_ K2]; rewrite K2; easy.
    - destruct K2 as [K2 _]; rewrite K2; easy.
    - eapply own_p_ext; eauto.
    - eapply (fresh_unevaluated s); eauto; [apply leaf_point_wf|simpl; auto].
    - exists x, y, s2, s'. split; [rewrite (bind_ok _ _ _ _ _ E); easy|]. easy.
  Qed.

  Lemma value_spec F fn p s : Inv s -> Good s -> In F (st_flist s) -> dget Nat.eqb F (st_funs s) = Some fn -> own_p s p -> pruned p ->
    (forall ge, evaluated_at (fn_pts fn) p = Some ge -> value SY F p s = (Ok (snd ge), s)) /\
    (evaluated_at (fn_pts fn) p = None -> exists g e s', value SY F p s = (Ok e, s') /\ oracle SY F p s = (Ok (g, e), s') /\ oracle_post s s' F fn p g e).
  Proof using OK.
    intros I G HF Hg Op Hp.
    assert (E : value SY F p s = (match evaluated_at (fn_pts fn) p with
      | Some gf => ret (snd gf)
      | None => do gf <- oracle SY F p; ret (snd gf) end) s).
    { unfold value, oracle. cbn [methods bodies m_value m_oracle]. unfold value_body.
      rewrite (bind_ok _ _ _ _ _ (get_fun_ok _ _ _ Hg)). easy. }
    split.
    - intros ge Hge. rewrite E, Hge. easy.
    - intros Hn. rewrite E, Hn. destruct (oracle_spec SY OK F fn p s I G HF Hg Op Hp) as (g & e & s' & E' & P).
      exists g, e, s'. rewrite (bind_ok _ _ _ _ _ E'). easy.
  Qed.
  Lemma gradient_spec F fn p s : Inv s -> Good s -> In F (st_flist s) -> dget Nat.eqb F (st_funs s) = Some fn -> own_p s p -> pruned p ->
    exists g e s', gradient SY F p s = (Ok g, s') /\ oracle SY F p s = (Ok (g, e), s') /\ oracle_post s s' F fn p g e.
  Proof using OK.
    intros I G HF Hg Op Hp. destruct (oracle_spec SY OK F fn p s I G HF Hg Op Hp) as (g & e & s' & E' & P).
    exists g, e, s'. split; [|easy]. unfold gradient. cbn [methods bodies m_grad]. unfold grad_body.
    unfold oracle in E'. cbn [methods bodies m_oracle] in E'. rewrite (bind_ok _ _ _ _ _ E'). easy.
  Qed.

  (** ** Function arithmetic *)
  Lemma fn_props s f fn : Inv s -> Good s -> In f (st_flist s) -> dget Nat.eqb f (st_funs s) = Some fn ->
    fn_dict fn <> [] /\ Forall (fun fw => nonzero (snd fw)) (fn_dict fn) /\ (fn_reuse fn = true <-> all_reuse s (fn_dict fn)).
  Proof using Type.
    intros I G Hf Hg. destruct (fn_leaf fn) eqn:El.
    - rewrite (leaf_dict s f fn I Hf Hg El). split; [easy|]. split.
      + constructor; [|constructor]. exists 1%Q. easy.
      + split.
        * intros Hr h fh [<-|[]] Hgh. simpl in Hgh. congruence.
        * intros H. apply (H f fn); simpl; auto.
    - destruct (proj2 G f fn Hf Hg El) as (A & [B C] & _). easy.
  Qed.

  Lemma Good_new_comp s d b : Inv s -> Good s -> NoDup (keys d) ->
    (forall g, In g (keys d) -> In g (st_flist s) /\ exists fg, dget Nat.eqb g (st_funs s) = Some fg /\ fn_leaf fg = true) ->
    d <> [] -> Forall (fun fw => nonzero (snd fw)) d -> (b = true <-> all_reuse s d) -> Good (snd (new_comp_fun d b s)).
  Proof using Type.
    intros I G Nd Hd Hne Hw Hb. destruct (ok_new_comp_fun s d b I Nd Hd) as (I' & X' & _).
    eapply Good_step; [exact I|exact G|exact X'|].
    intros f fn' Hf Hg. simpl in Hf, Hg. rewrite dget_app in Hg. apply in_app_or in Hf as [Hf|[<-|[]]].
    - left. split; [easy|]. destruct (inv_funs s I f Hf) as (fn0 & Hg0 & _). rewrite Hg0 in *. easy.
    - right; right. rewrite (dget_fresh s I), Nat.eqb_refl in Hg. injection Hg; intros <-. split; [easy|].
      split; [|split; [easy|split]]; simpl.
      + rewrite <- (all_reuse_ext s); [easy|exact X'|]. intros h Hh. destruct (Hd h Hh) as [_ (fg & Q & _)]. eauto.
      + intros _ t1 t2 [].
      + intros t [].
  Qed.

  Lemma Good_new_leaf s c b : Inv s -> Good s -> c <> CBase -> Good (snd (new_leaf_fun c b s)).
  Proof using Type.
    intros I G Hc. destruct (ok_new_leaf_fun s c b I Hc) as (I' & X' & _).
    eapply Good_step; [exact I|exact G|exact X'|].
    intros f fn' Hf Hg. simpl in Hf, Hg. rewrite dget_app in Hg. apply in_app_or in Hf as [Hf|[<-|[]]].
    - left. split; [easy|]. destruct (inv_funs s I f Hf) as (fn0 & Hg0 & _). rewrite Hg0 in *. easy.
    - right; left. rewrite (dget_fresh s I), Nat.eqb_refl in Hg. injection Hg; intros <-. split; [easy|].
      split; [intros _ t1 t2 []|intros t1 t2 []].
  Qed.

  Lemma merge_keys_all d1 d2 k : In k (keys d1) \/ In k (keys d2) -> In k (keys (merge_dict SY Nat.eqb d1 d2)).
  Proof using Type.
    unfold merge_dict.
    assert (G : forall l acc, In k (keys acc) \/ In k (keys l) -> (forall x, In x (keys d1) -> In x (keys acc)) -> In k (keys (fold_left (fun merged kv =>
        let '(k, v) := kv in
        if dmem Nat.eqb k d1 then match dget Nat.eqb k merged with Some old => dset Nat.eqb k (simp SY (sadd old v)) merged | None => merged end
        else dset Nat.eqb k v merged) l acc))).
    { induction l as [|[k' v'] l IH]; intros acc H Hs; simpl in *; [tauto|].
      assert (Key : forall v, In k' (keys (dset Nat.eqb k' v acc)) /\ forall x, In x (keys acc) -> In x (keys (dset Nat.eqb k' v acc))).
      { intros v. split; [apply (dset_keys_incl Nat.eqb Nat.eqb_eq); auto|]. intros x Hx. apply (dset_keys_incl Nat.eqb Nat.eqb_eq); auto. }
      destruct (dmem Nat.eqb k' d1) eqn:Em.
      - apply (dmem_true Nat.eqb Nat.eqb_eq) in Em. apply Hs in Em.
        destruct (dget_some_keys Nat.eqb Nat.eqb_eq _ _ Em) as [old ->]. destruct (Key (simp SY (sadd old v'))) as [K1 K2].
        apply IH; [|auto]. destruct H as [H|[<-|H]]; auto.
      - destruct (Key v') as [K1 K2]. apply IH; [|auto]. destruct H as [H|[<-|H]]; auto. }
    intros H. apply G; auto.
  Qed.

  Lemma fn_add_run s a b fa fb : dget Nat.eqb a (st_funs s) = Some fa -> dget Nat.eqb b (st_funs s) = Some fb ->
    fn_add SY a b s = new_comp_fun (merge_dict SY Nat.eqb (fn_dict fa) (fn_dict fb)) (fn_reuse fa && fn_reuse fb) s.
  Proof using Type.
    intros Ha Hb. unfold fn_add. rewrite (bind_ok _ _ _ _ _ (get_fun_ok _ _ _ Ha)), (bind_ok _ _ _ _ _ (get_fun_ok _ _ _ Hb)). easy.
  Qed.

  Lemma Good_fn_add s a b : Inv s -> Good s -> In a (st_flist s) -> In b (st_flist s) ->
    (forall f s', fn_add SY a b s = (Ok f, s') -> proper s' f) -> Good (snd (fn_add SY a b s)).
  Proof using Type.
    intros I G Ha Hb Hp. destruct (inv_funs s I a Ha) as (fa & Ga & Oa). destruct (inv_funs s I b Hb) as (fb & Gb & Ob).
    rewrite (fn_add_run s a b fa fb Ga Gb) in *.
    destruct (fdict_keys s a fa Ha Ga Oa) as [A1 A2]. destruct (fdict_keys s b fb Hb Gb Ob) as [B1 B2].
    destruct (fn_props s a fa I G Ha Ga) as (P1 & P2 & P3). destruct (fn_props s b fb I G Hb Gb) as (Q1 & Q2 & Q3).
    apply Good_new_comp; try easy.
    - apply (merge_wf SY Nat.eqb Nat.eqb_eq); easy.
    - intros g Hin. apply (merge_keys_incl SY Nat.eqb Nat.eqb_eq) in Hin as [Hin|Hin]; auto.
    - intros E. destruct (fn_dict fa) as [|[k w] d]; [easy|].
      assert (H : In k (keys (merge_dict SY Nat.eqb ((k, w) :: d) (fn_dict fb)))) by (apply merge_keys_all; simpl; auto).
      rewrite E in H. easy.
    - specialize (Hp _ _ eq_refl). unfold proper in Hp. simpl in Hp.
      rewrite dget_app, (dget_fresh s I), Nat.eqb_refl in Hp. apply (Hp _ eq_refl).
    - rewrite andb_true_iff, P3, Q3. unfold all_reuse. split.
      + intros [H1 H2] h fh Hh. apply (merge_keys_incl SY Nat.eqb Nat.eqb_eq) in Hh as [Hh|Hh]; [apply H1|apply H2]; easy.
      + intros H. split; intros h fh Hh; apply H; apply merge_keys_all; auto.
  Qed.

  Lemma nonzero_smul w c : nonzero w -> nonzero c -> nonzero (smul w c).
  Proof using Type.
    intros [q [-> Hq]] [k [-> Hk]]. exists (Qred (q * k)). split; [easy|].
    destruct (Qeq_bool (Qred (q * k)) 0) eqn:E; [|easy]. apply Qeq_bool_iff in E. rewrite Qred_correct in E.
    apply Qmult_integral in E as [E|E]; apply Qeq_bool_iff in E; congruence.
  Qed.

  Lemma Good_fn_scale s a c : Inv s -> Good s -> In a (st_flist s) -> nonzero c -> Good (snd (fn_scale c a s)).
  Proof using Type.
    intros I G Ha Hc. destruct (inv_funs s I a Ha) as (fa & Ga & Oa).
    unfold fn_scale. rewrite (bind_ok _ _ _ _ _ (get_fun_ok _ _ _ Ga)).
    destruct (fdict_keys s a fa Ha Ga Oa) as [A1 A2]. destruct (fn_props s a fa I G Ha Ga) as (P1 & P2 & P3).
    assert (K : keys (map (fun kv => (fst kv, smul (snd kv) c)) (fn_dict fa)) = keys (fn_dict fa)).
    { unfold keys. rewrite map_map. apply map_ext. easy. }
    apply Good_new_comp; rewrite ?K; try easy.
    - destruct (fn_dict fa); easy.
    - rewrite Forall_forall in *. intros fw Hfw. apply in_map_iff in Hfw as (fw' & <- & Hfw'). simpl. apply nonzero_smul; auto.
    - rewrite P3. unfold all_reuse. rewrite K. easy.
  Qed.

  (** ** Programs *)
  Lemma snd_bind_ret {A B} (m : M A) (h : A -> B) s : snd ((do a <- m; ret (h a)) s) = snd (m s).
  Proof using Type. unfold bind. destruct (m s) as [[a|e] s']; easy. Qed.

  Lemma Good_nil s : st_flist s = [] -> Good s.
  Proof using Type. intros E. split; intros f fn; rewrite E; intros []. Qed.

  Lemma call_good se o : SInv se -> Good (se_st se) -> regular_call SY se o -> Good (snd (call SY se o (se_st se))).
  Proof using OK.
    intros HI G Hr. destruct HI as [I HP HE HF HB]. set (s := se_st se) in *.
    assert (AtP : forall i (k : point -> M out), (forall p, nth_error (se_pts se) i = Some p -> own_p s p -> Good (snd (k p s))) ->
      Good (snd (bind (at_ (se_pts se) i) k s))).
    { intros i k Hk. unfold bind, at_. destruct (nth_error (se_pts se) i) as [p|] eqn:E; [|exact G]. simpl. apply Hk; [easy|].
      rewrite Forall_forall in HP. apply HP. eapply nth_error_In; eauto. }
    assert (AtE : forall i (k : expr -> M out), (forall p, nth_error (se_exps se) i = Some p -> own_e s p -> Good (snd (k p s))) ->
      Good (snd (bind (at_ (se_exps se) i) k s))).
    { intros i k Hk. unfold bind, at_. destruct (nth_error (se_exps se) i) as [p|] eqn:E; [|exact G]. simpl. apply Hk; [easy|].
      rewrite Forall_forall in HE. apply HE. eapply nth_error_In; eauto. }
    assert (AtF : forall i (k : nat -> M out), (forall f, nth_error (se_fns se) i = Some f -> In f (st_flist s) -> Good (snd (k f s))) ->
      Good (snd (bind (at_ (se_fns se) i) k s))).
    { intros i k Hk. unfold bind, at_. destruct (nth_error (se_fns se) i) as [p|] eqn:E; [|exact G]. simpl. apply Hk; [easy|].
      rewrite Forall_forall in HF. apply HF. eapply nth_error_In; eauto. }
    assert (NP : Good (snd (new_point s))) by (apply (Good_keepf s); easy).
    assert (NE : Good (snd (new_expr s))) by (apply (Good_keepf s); easy).
    assert (NL : forall c b, c <> CBase -> Good (snd (new_leaf_fun c b s))) by (intros; apply Good_new_leaf; easy).
    assert (NS : forall mu L, Good (snd (new_smooth_sc mu L s))).
    { intros mu [l|]; simpl; [apply (NL (CSmoothSC mu l) true); easy|]. apply (NL (CSmoothSC mu 1) true); easy. }
    destruct o; cbn [call]; cbn [regular_call] in Hr; try exact G;
      repeat (first [apply AtP; intros ? ? ? | apply AtE; intros ? ? ? | apply AtF; intros ? ? ?]); rewrite ?snd_bind_ret; try exact G; try assumption.
    - apply (NL CConvex false); easy.
    - apply NS.
    - apply (NL (CStrongly mu) false); easy.
    - apply NS.
    - unfold def_function. destruct L; destruct (negb (Qeq_bool mu 0)); try apply NS; apply NL; easy.
    - apply Good_fn_add; try easy. apply Hr; easy.
    - specialize (Hr f f0 ltac:(assumption) ltac:(assumption)). fold s in Hr. revert Hr. unfold fn_sub.
      assert (Gn : Good (snd (fn_neg f0 s))).
      { apply Good_fn_scale; try easy. exists (-1)%Q; easy. }
      assert (On := ok_fn_scale (Num (-1)) f0 s I ltac:(assumption)). unfold okM in On. fold (fn_neg f0) in On.
      unfold bind. destruct (fn_neg f0 s) as [[gn|e] s1]; [|intros _; exact Gn]. cbn [snd fst] in *. destruct On as (I1 & X1 & Q1). intros Hr.
      apply Good_fn_add; try assumption; [eapply ext_flist; eauto|apply Q1; easy].
    - apply Good_fn_scale; try easy. exists (-1)%Q; easy.
    - apply Good_fn_scale; easy.
    - unfold fn_div. unfold bind, lift. destruct (recip c) as [r|e] eqn:Er; [|exact G].
      apply Good_fn_scale; try easy. unfold recip in Er. destruct c as [q| | |]; try easy.
      destruct (Qeq_bool q 0) eqn:Eq; [easy|]. injection Er; intros <-. exists (Qred (/ q)). split; [easy|].
      destruct (Qeq_bool (Qred (/ q)) 0) eqn:E; [|easy]. apply Qeq_bool_iff in E. rewrite Qred_correct in E.
      assert (Hq : ~ (q == 0)%Q) by (intros Z; apply Qeq_bool_iff in Z; congruence).
      exfalso. assert (H1 : (q * / q == 1)%Q) by (apply Qmult_inv_r; easy). rewrite E, Qmult_0_r in H1. discriminate H1.
    - destruct (inv_funs s I f0 ltac:(assumption)) as (fn & Hg & _).
      destruct (oracle_spec SY OK f0 fn p s) as (g & e & s' & E & P); try easy; [apply Hr; easy|]. rewrite E. apply P.
    - destruct (inv_funs s I f0 ltac:(assumption)) as (fn & Hg & _).
      destruct (value_spec f0 fn p s) as [V1 V2]; try easy; [apply Hr; easy|].
      destruct (evaluated_at (fn_pts fn) p) as [ge|] eqn:Ee.
      + rewrite (V1 ge eq_refl). exact G.
      + destruct (V2 eq_refl) as (g & e & s' & -> & _ & P). apply P.
    - destruct (inv_funs s I f0 ltac:(assumption)) as (fn & Hg & _).
      destruct (gradient_spec f0 fn p s) as (g & e & s' & E & _ & P); try easy; [apply Hr; easy|]. rewrite E. apply P.
    - destruct (inv_funs s I f0 ltac:(assumption)) as (fn & Hg & _).
      destruct (stationary_spec f0 fn s) as (a & b & s2 & s' & E & _ & _ & _ & _ & _ & P); try easy. rewrite E. apply P.
    - destruct (inv_funs s I f0 ltac:(assumption)) as (fn & Hg & _). destruct Hr as [r Hr].
      destruct (proximal_spec f0 fn p gamma r s) as (a & b & s2 & s' & E & _ & _ & _ & _ & _ & P); try easy. rewrite E. apply P.
    - destruct (inv_funs s I f0 ltac:(assumption)) as (fn & Hg & _).
      destruct (conj_spec f0 fn p s) as (a & b & s2 & s' & E & _ & _ & _ & _ & _ & P); try easy. rewrite E. apply P.
    - destruct (inv_funs s I f0 ltac:(assumption)) as (fn & Hg & _).
      destruct (Hr f0 p ltac:(assumption) ltac:(assumption)) as [Hp Hun].
      destruct (add_spec f0 fn p p0 p1 s) as (s' & E & P); try easy. rewrite E. apply P.
  Qed.

  Theorem step_good se o : SInv se -> Good (se_st se) -> regular_call SY se o -> Good (se_st (step SY se o)).
  Proof using OK.
    intros HI G Hr. assert (C := call_good se o HI G Hr).
    assert (D : Good (se_st (match call SY se o (se_st se) with
        | (Ok (ps, es, fs), s') => mkSession s' (se_pts se ++ ps) (se_exps se ++ es) (se_fns se ++ fs) (se_pb se)
        | (Err _, s') => mkSession s' (se_pts se) (se_exps se) (se_fns se) (se_pb se) end))).
    { destruct (call SY se o (se_st se)) as [[[[ps es] fs]|e] s']; exact C. }
    destruct o; try exact D.
    - simpl. apply Good_nil. easy.
    - simpl. destruct (nth_error (se_exps se) e); exact G.
    - simpl. destruct (nth_error (se_exps se) e) as [a|]; [|exact G]. destruct (new_constraint a kind); exact G.
  Qed.

  Theorem run_good l : forall se, SInv se -> Good (se_st se) -> regular SY se l -> Good (se_st (run SY se l)).
  Proof using OK.
    induction l as [|o l IH]; intros se HI G Hr; [easy|]. destruct Hr as [H1 H2].
    apply IH; [apply step_inv; easy|apply step_good; easy|easy].
  Qed.
  Theorem reachable_good l : regular SY session0 l -> Good (se_st (run SY session0 l)).
  Proof using OK. intros H. apply run_good; [apply session0_inv|apply Good_nil; easy|easy]. Qed.
End Methods.
