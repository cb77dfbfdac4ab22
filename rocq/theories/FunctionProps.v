(** Statements about evaluation of functions in regular programs. *)
From Coq Require Import List Arith Bool QArith Reals Qreals Lra Lia FunctionalExtensionality.
From Verif Require Import Prelude PreludeFacts Sympy SympyFacts AlgebraModel Denote AlgebraFacts
  FunctionModel CircuitModel StateSpec StateFacts SessionModel Spec FunctionSpec FunctionFacts FunctionFacts2.
Import ListNotations.
Open Scope nat_scope.

Section Props.
  Variable SY : sympy.
  Hypothesis OK : sympy_ok SY.

  Lemma dec_decomposed s d x g e : Inv s -> (forall f, In f (keys d) -> In f (st_flist s)) -> wf_p x ->
    dec_at s d x g e -> decomposed s d x g e.
  Proof using Type.
    intros I Hd Wx (ts & T1 & T2). exists ts. split; [|easy]. clear T2.
    induction T1 as [|fw t d ts [A B] T IH]; constructor.
    - split; [easy|]. intros v. destruct (rec_own s _ t I (Hd _ (or_introl eq_refl)) A) as ((W & _) & _).
      apply same_point_den; easy.
    - apply IH. intros; apply Hd; right; easy.
  Qed.

  Lemma handle se i F : SInv se -> nth_error (se_fns se) i = Some F -> In F (st_flist (se_st se)).
  Proof using Type. intros H E. assert (A := si_fns se H). rewrite Forall_forall in A. apply A. eapply nth_error_In; eauto. Qed.
  Lemma handle_p se i p : SInv se -> nth_error (se_pts se) i = Some p -> own_p (se_st se) p.
  Proof using Type. intros H E. assert (A := si_pts se H). rewrite Forall_forall in A. apply A. eapply nth_error_In; eauto. Qed.

  Lemma dict_flist s s' F fn : Inv s -> In F (st_flist s) -> dget Nat.eqb F (st_funs s) = Some fn -> st_flist s' = st_flist s ->
    forall f, In f (keys (fn_dict fn)) -> In f (st_flist s').
  Proof using Type.
    intros I HF Hg E f Hf. rewrite E. destruct (inv_funs s I F HF) as (fx & Hx & Hok). rewrite Hg in Hx; injection Hx; intros <-.
    apply (dict_in_flist s F fn); easy.
  Qed.

  (** C09 *)
  Lemma composite_evaluation l i F j p fn : regular SY session0 l ->
    let se := run SY session0 l in
    nth_error (se_fns se) i = Some F -> nth_error (se_pts se) j = Some p -> pruned p ->
    dget Nat.eqb F (st_funs (se_st se)) = Some fn ->
    (exists g e s', oracle SY F p (se_st se) = (Ok (g, e), s') /\ decomposed s' (fn_dict fn) p g e) /\
    (exists g s', gradient SY F p (se_st se) = (Ok g, s') /\ exists e, decomposed s' (fn_dict fn) p g e) /\
    (exists e s', value SY F p (se_st se) = (Ok e, s') /\ exists g, decomposed s' (fn_dict fn) p g e).
  Proof using OK.
    intros Hr se HF Hp Hpr Hg.
    assert (SI : SInv se) by apply reachable_inv. assert (G : Good (se_st se)) by (apply reachable_good; easy).
    assert (I := si_inv se SI). assert (IF := handle _ _ _ SI HF). assert (Op := handle_p _ _ _ SI Hp).
    assert (D : forall s' g e, oracle_post (se_st se) s' F fn p g e -> decomposed s' (fn_dict fn) p g e).
    { intros s' g e P. apply dec_decomposed; [apply P| |apply Op|apply P]. eapply dict_flist; eauto. apply P. }
    split; [|split].
    - destruct (oracle_spec SY OK F fn p _ I G IF Hg Op Hpr) as (g & e & s' & E & P). exists g, e, s'. split; [easy|auto].
    - destruct (gradient_spec SY OK F fn p _ I G IF Hg Op Hpr) as (g & e & s' & E & _ & P). exists g, s'. split; [easy|]. exists e; auto.
    - destruct (value_spec SY OK F fn p _ I G IF Hg Op Hpr) as [V1 V2]. destruct (evaluated_at (fn_pts fn) p) as [ge|] eqn:Ee.
      + exists (snd ge), (se_st se). split; [apply V1; easy|]. exists (fst ge).
        destruct (evaluated_in _ _ _ Ee) as (t & H1 & H2 & ->). simpl.
        apply dec_decomposed; [easy| |apply Op|].
        { eapply dict_flist; eauto. }
        destruct (own_all _ F fn I IF Hg t H1) as ((Wt & _) & _).
        eapply dec_at_point; [exact Wt|apply Op|exact I| |exact H2|].
        { eapply dict_flist; eauto. }
        destruct (fn_leaf fn) eqn:El.
        * eapply leaf_self_dec; eauto; [apply (leaf_dict (se_st se) F fn); easy|exists fn; easy].
        * apply (proj2 G F fn IF Hg El); easy.
      + destruct (V2 eq_refl) as (g & e & s' & E & _ & P). exists e, s'. split; [easy|]. exists g; auto.
  Qed.

  (** the components of a combination *)
  Lemma fn_dict_nodup l F fn : let se := run SY session0 l in In F (se_fns se) -> dget Nat.eqb F (st_funs (se_st se)) = Some fn ->
    NoDup (keys (fn_dict fn)).
  Proof using Type.
    intros se HF Hg. assert (SI : SInv se) by apply reachable_inv. assert (I := si_inv se SI).
    assert (IF : In F (st_flist (se_st se))) by (assert (A := si_fns se SI); rewrite Forall_forall in A; auto).
    destruct (inv_funs _ I F IF) as (fx & Hx & Hok). rewrite Hg in Hx; injection Hx; intros <-.
    apply (fdict_keys _ F fn IF Hg Hok).
  Qed.

  Lemma new_comp_get s d b f s' : Inv s -> new_comp_fun d b s = (Ok f, s') ->
    exists fn, dget Nat.eqb f (st_funs s') = Some fn /\ fn_dict fn = d /\ fn_reuse fn = b /\
    (forall h fh, dget Nat.eqb h (st_funs s) = Some fh -> dget Nat.eqb h (st_funs s') = Some fh) /\ st_flist s' = st_flist s ++ [f].
  Proof using Type.
    intros I E. unfold new_comp_fun in E. injection E; intros <- <-. simpl. eexists. rewrite dget_app, (dget_fresh s I), Nat.eqb_refl.
    split; [easy|]. split; [easy|]. split; [easy|]. split; [|easy]. intros h fh H. rewrite dget_app, H. easy.
  Qed.

  Lemma scale_comb r phi c d : comb r phi (map (fun kv => (fst kv, smul (snd kv) c)) d) = (ev r c * comb r phi d)%R.
  Proof using Type.
    unfold comb. rewrite lsum_map. simpl. rewrite <- lsum_scal. apply lsum_ext. intros [k w] _. simpl. rewrite smul_ev. lra.
  Qed.

  Lemma fn_scale_get s a fa c : Inv s -> dget Nat.eqb a (st_funs s) = Some fa ->
    exists f s' fn, fn_scale c a s = (Ok f, s') /\ dget Nat.eqb f (st_funs s') = Some fn /\
      fn_dict fn = map (fun kv => (fst kv, smul (snd kv) c)) (fn_dict fa) /\ fn_reuse fn = fn_reuse fa /\
      (forall h fh, dget Nat.eqb h (st_funs s) = Some fh -> dget Nat.eqb h (st_funs s') = Some fh).
  Proof using Type.
    intros I Ha. unfold fn_scale. rewrite (bind_ok _ _ _ _ _ (get_fun_ok _ _ _ Ha)).
    eexists _, _. destruct (new_comp_get s (map (fun kv => (fst kv, smul (snd kv) c)) (fn_dict fa)) (fn_reuse fa) _ _ I eq_refl)
      as (fn & A & B & C & D & _). exists fn. split; [reflexivity|]. easy.
  Qed.

  Lemma combination l i j a b fa fb : let se := run SY session0 l in
    nth_error (se_fns se) i = Some a -> nth_error (se_fns se) j = Some b ->
    dget Nat.eqb a (st_funs (se_st se)) = Some fa -> dget Nat.eqb b (st_funs (se_st se)) = Some fb ->
    let is (m : M nat) (reuse : bool) (c : env -> (nat -> R) -> R) := exists f s' fn, m (se_st se) = (Ok f, s') /\
       dget Nat.eqb f (st_funs s') = Some fn /\ fn_reuse fn = reuse /\ forall r phi, comb r phi (fn_dict fn) = c r phi in
    is (fn_add SY a b) (fn_reuse fa && fn_reuse fb) (fun r phi => (comb r phi (fn_dict fa) + comb r phi (fn_dict fb))%R) /\
    is (fn_sub SY a b) (fn_reuse fa && fn_reuse fb) (fun r phi => (comb r phi (fn_dict fa) - comb r phi (fn_dict fb))%R) /\
    is (fn_neg a) (fn_reuse fa) (fun r phi => (- comb r phi (fn_dict fa))%R) /\
    (forall c, is (fn_scale c a) (fn_reuse fa) (fun r phi => (ev r c * comb r phi (fn_dict fa))%R)) /\
    (forall q, Qeq_bool q 0 = false -> is (fn_div a (Num q)) (fn_reuse fa) (fun r phi => (comb r phi (fn_dict fa) / Q2R q)%R)).
  Proof using OK.
    intros se Ha Hb Ga Gb is.
    assert (SI : SInv se) by apply reachable_inv. assert (I := si_inv se SI).
    assert (IA := handle _ _ _ SI Ha). assert (IB := handle _ _ _ SI Hb).
    assert (Nb : NoDup (keys (fn_dict fb))) by (apply (fn_dict_nodup l b); [eapply nth_error_In; eauto|easy]).
    assert (Hm : (Q2R (-1) = -1)%R) by (unfold Q2R; simpl; lra).
    assert (Hadd : forall s x y fx fy, Inv s -> dget Nat.eqb x (st_funs s) = Some fx -> dget Nat.eqb y (st_funs s) = Some fy -> NoDup (keys (fn_dict fy)) ->
      exists f s' fn, fn_add SY x y s = (Ok f, s') /\ dget Nat.eqb f (st_funs s') = Some fn /\ fn_reuse fn = (fn_reuse fx && fn_reuse fy)%bool /\
        forall r phi, comb r phi (fn_dict fn) = (comb r phi (fn_dict fx) + comb r phi (fn_dict fy))%R).
    { intros s x y fx fy Is Hx Hy Ny. rewrite (fn_add_run SY s x y fx fy Hx Hy). eexists _, _.
      destruct (new_comp_get s (merge_dict SY Nat.eqb (fn_dict fx) (fn_dict fy)) (fn_reuse fx && fn_reuse fy) _ _ Is eq_refl) as (fn & A & B & C & _).
      exists fn. split; [reflexivity|]. split; [easy|]. split; [easy|]. intros r phi. rewrite B. unfold comb.
      apply (merge_den SY OK Nat.eqb Nat.eqb_eq r phi); easy. }
    split; [|split; [|split; [|split]]].
    - apply Hadd; easy.
    - unfold is, fn_sub. destruct (fn_scale_get (se_st se) b fb (Num (-1)) I Gb) as (nb & s1 & fnb & E1 & G1 & D1 & R1 & Old).
      assert (I1 : Inv s1).
      { destruct (ok_fn_scale (Num (-1)) b _ I IB) as (Q & _). rewrite E1 in Q. exact Q. }
      fold (fn_neg b) in E1. rewrite (bind_ok _ _ _ _ _ E1).
      destruct (Hadd s1 a nb fa fnb I1 (Old _ _ Ga) G1) as (f & s' & fn & E & G' & R' & Cm).
      { rewrite D1. unfold keys in *. rewrite map_map. exact Nb. }
      exists f, s', fn. split; [easy|]. split; [easy|]. split; [rewrite R', R1; easy|]. intros r phi. rewrite Cm, D1, scale_comb. simpl. rewrite Hm. lra.
    - unfold is, fn_neg. destruct (fn_scale_get (se_st se) a fa (Num (-1)) I Ga) as (f & s' & fn & E & G' & D & R' & _).
      exists f, s', fn. repeat (split; [easy|]). intros r phi. rewrite D, scale_comb. simpl. rewrite Hm. lra.
    - intros c. destruct (fn_scale_get (se_st se) a fa c I Ga) as (f & s' & fn & E & G' & D & R' & _).
      exists f, s', fn. repeat (split; [easy|]). intros r phi. rewrite D, scale_comb. easy.
    - intros q Hq. unfold is, fn_div. simpl. rewrite Hq. unfold bind at 1, lift at 1.
      destruct (fn_scale_get (se_st se) a fa (Num (Qred (/ q))) I Ga) as (f & s' & fn & E & G' & D & R' & _).
      exists f, s', fn. repeat (split; [easy|]). intros r phi. rewrite D, scale_comb. simpl. rewrite Q2R_red, Q2R_inv; [unfold Rdiv; lra|].
      intros H. apply Qeq_bool_iff in H. congruence.
  Qed.

  (** ** C10, C11 *)
  Lemma step_ext se o : SInv se -> o <> ONewProblem -> ext (se_st se) (se_st (step SY se o)).
  Proof using Type.
    intros SI Hn. assert (C := call_ok SY se o SI). destruct C as (_ & X & _).
    assert (D : ext (se_st se) (se_st (match call SY se o (se_st se) with
        | (Ok (ps, es, fs), s') => mkSession s' (se_pts se ++ ps) (se_exps se ++ es) (se_fns se ++ fs) (se_pb se)
        | (Err _, s') => mkSession s' (se_pts se) (se_exps se) (se_fns se) (se_pb se) end))).
    { destruct (call SY se o (se_st se)) as [[[[ps es] fs]|e] s']; exact X. }
    destruct o; try exact D; try easy.
    - simpl. destruct (nth_error (se_exps se) e); apply ext_refl.
    - simpl. destruct (nth_error (se_exps se) e) as [a|]; [|apply ext_refl]. destruct (new_constraint a kind); apply ext_refl.
  Qed.
  Lemma run_ext l : forall se, SInv se -> ~ In ONewProblem l -> ext (se_st se) (se_st (run SY se l)).
  Proof using Type.
    induction l as [|o l IH]; intros se SI Hn; [apply ext_refl|]. simpl.
    eapply ext_trans; [apply (step_ext se o SI)|apply IH].
    - intros ->. apply Hn; simpl; auto.
    - apply step_inv; easy.
    - intros H. apply Hn; simpl; auto.
  Qed.

  Lemma Good_val s F fn : Inv s -> Good s -> In F (st_flist s) -> dget Nat.eqb F (st_funs s) = Some fn -> val_fn fn.
  Proof using Type.
    intros I G HF Hg. destruct (fn_leaf fn) eqn:El; [apply (proj1 G F fn); easy|].
    intros t1 t2 H1 H2 E v. destruct (proj2 G F fn HF Hg El) as (_ & _ & _ & D).
    destruct (inv_funs s I F HF) as (fx & Hx & Hok). rewrite Hg in Hx; injection Hx; intros <-.
    destruct (fdict_keys s F fn HF Hg Hok) as [_ Kl].
    destruct (own_all s F fn I HF Hg t1 H1) as (O1 & _). destruct (own_all s F fn I HF Hg t2 H2) as (O2 & _).
    assert (C1 : cached_sum s (t_x t2) (fn_dict fn) (t_f t1)).
    { eapply dec_cached; [exact I|apply (proj1 G)|exact O2|exact Kl|].
      eapply dec_at_point; [apply O1|apply O2|exact I| |exact E|apply D; easy]. intros f Hf. apply Kl; easy. }
    assert (C2 : cached_sum s (t_x t2) (fn_dict fn) (t_f t2)).
    { eapply dec_cached; [exact I|apply (proj1 G)|exact O2|exact Kl|apply D; easy]. }
    destruct C1 as (v1 & A1 & B1). destruct C2 as (v2 & A2 & B2).
    assert (Evs : v1 = v2).
    { clear - A1 A2. revert v2 A2. induction A1 as [|fw ge d vs H1 H2 IH]; intros v2 A2; inversion A2; subst; [easy|].
      f_equal; [congruence|auto]. }
    rewrite (B1 v), (B2 v), Evs. easy.
  Qed.

  Lemma Good_uniq s F fn : Good s -> In F (st_flist s) -> dget Nat.eqb F (st_funs s) = Some fn -> uniq_fn fn.
  Proof using Type.
    intros G HF Hg. destruct (fn_leaf fn) eqn:El; [apply (proj1 G F fn); easy|]. apply (proj2 G F fn HF Hg El).
  Qed.

  Lemma reuse_unique l F fn t1 t2 : regular SY session0 l ->
    let s := se_st (run SY session0 l) in
    In F (st_flist s) -> dget Nat.eqb F (st_funs s) = Some fn -> fn_reuse fn = true ->
    In t1 (fn_pts fn) -> In t2 (fn_pts fn) -> same_point (t_x t1) (t_x t2) = true -> t1 = t2.
  Proof using OK.
    intros Hr s HF Hg Hre. eapply Good_uniq; eauto. apply reachable_good; easy.
  Qed.

  Lemma reuse_oracle l l' i F j p fn g e s1 : regular SY session0 (l ++ OOracle i j :: l') ->
    let se := run SY session0 l in
    nth_error (se_fns se) i = Some F -> nth_error (se_pts se) j = Some p -> pruned p ->
    dget Nat.eqb F (st_funs (se_st se)) = Some fn -> fn_reuse fn = true ->
    oracle SY F p (se_st se) = (Ok (g, e), s1) -> ~ In ONewProblem l' ->
    let se' := run SY session0 (l ++ OOracle i j :: l') in
    oracle SY F p (se_st se') = (Ok (g, e), se_st se').
  Proof using OK.
    intros Hr se HF Hp Hpr Hg Hre E Hn se'.
    assert (SI : SInv se) by apply reachable_inv.
    assert (Hr1 : regular SY session0 l).
    { clear - Hr. revert Hr. generalize session0. induction l as [|o l IH]; intros s; simpl; [easy|]. intros [A B]. split; [easy|]. apply IH; easy. }
    assert (G : Good (se_st se)) by (apply reachable_good; easy).
    assert (I := si_inv se SI). assert (IF := handle _ _ _ SI HF). assert (Op := handle_p _ _ _ SI Hp).
    destruct (oracle_spec SY OK F fn p _ I G IF Hg Op Hpr) as (g0 & e0 & s0 & E0 & P). rewrite E in E0. injection E0; intros <- <- <-. clear E0.
    set (se1 := step SY se (OOracle i j)).
    assert (Es1 : se_st se1 = s1).
    { unfold se1. cbn [step call]. unfold bind at 1, at_ at 1. rewrite HF. unfold ret at 1. unfold bind at 1, at_ at 1. rewrite Hp. unfold ret at 1.
      unfold bind. rewrite E. easy. }
    assert (Ese' : se' = run SY se1 l').
    { unfold se', se1, se, run. rewrite fold_left_app. easy. }
    assert (SI1 : SInv se1) by (apply step_inv; easy).
    assert (X : ext s1 (se_st se')) by (rewrite Ese', <- Es1; apply run_ext; easy).
    assert (SI' : SInv se') by apply reachable_inv. assert (I' := si_inv se' SI').
    assert (G' : Good (se_st se')) by (apply reachable_good; easy).
    (* the record made by the first call *)
    assert (R : exists t, recorded s1 F t /\ same_point (t_x t) p = true /\ t_g t = g /\ t_f t = e).
    { destruct (evaluated_at (fn_pts fn) p) as [ge|] eqn:Ee.
      - destruct (op_reuse _ _ _ _ _ _ _ P ge Ee Hre) as [-> ->].
        destruct (evaluated_in _ _ _ Ee) as (t & H1 & H2 & H3). injection H3; intros -> ->. exists t. split; [exists fn; easy|easy].
      - destruct (op_new _ _ _ _ _ _ _ P ltac:(easy)) as (fn' & t & A & B & C1 & C2 & C3). exists t. split.
        + exists fn'. split; [easy|]. rewrite B. apply in_or_app; simpl; auto.
        + rewrite C1. split; [apply same_point_refl; apply Op|easy]. }
    destruct R as (t & Rt & St & Tg & Tf).
    apply (ext_rec_mono s1 (se_st se') X) in Rt. destruct Rt as (fn2 & Hg2 & Ht2).
    assert (IF1 : In F (st_flist s1)) by (rewrite (op_flist _ _ _ _ _ _ _ P); easy).
    assert (IF2 : In F (st_flist (se_st se'))) by (eapply ext_flist; eauto).
    assert (Hre2 : fn_reuse fn2 = true).
    { destruct (op_fn _ _ _ _ _ _ _ P) as (fn' & A & _ & B & _). destruct X as (_ & _ & _ & _ & X). destruct (X F fn' A) as (f3 & Q1 & (_ & Q2 & _)). congruence. }
    assert (Op' : own_p (se_st se') p).
    { eapply own_p_ext; [exact X|]. eapply own_p_ext; [apply P|exact Op]. }
    destruct (evaluated_some _ _ _ Ht2 St) as [ge Hge].
    destruct (oracle_spec SY OK F fn2 p _ I' G' IF2 Hg2 Op' Hpr) as (g0 & e0 & s0 & E0 & P0).
    destruct (op_reuse _ _ _ _ _ _ _ P0 ge Hge Hre2) as [-> Ege]. rewrite E0. f_equal.
    destruct (evaluated_in _ _ _ Hge) as (t3 & H1 & H2 & H3).
    assert (t3 = t).
    { eapply Good_uniq; eauto. destruct (own_all _ F fn2 I' IF2 Hg2 t3 H1) as ((W3 & _) & _).
      destruct (own_all _ F fn2 I' IF2 Hg2 t Ht2) as ((Wt & _) & _).
      eapply same_point_trans; [exact W3|apply Op|exact Wt|exact H2|]. apply same_point_sym; [exact Wt|apply Op|exact St]. }
    subst t3. congruence.
  Qed.

  Lemma nonreuse_oracle l i F j p fn : regular SY session0 l ->
    let se := run SY session0 l in
    nth_error (se_fns se) i = Some F -> nth_error (se_pts se) j = Some p -> pruned p ->
    dget Nat.eqb F (st_funs (se_st se)) = Some fn -> fn_reuse fn = false ->
    exists x e s' fn' t, oracle SY F p (se_st se) = (Ok (leaf_point x, e), s') /\
      ~ In x (st_plist (se_st se)) /\
      dget Nat.eqb F (st_funs s') = Some fn' /\ fn_pts fn' = fn_pts fn ++ [t] /\ t_x t = p /\ t_g t = leaf_point x /\ t_f t = e /\
      (forall t0, In t0 (fn_pts fn) -> same_point (t_x t0) p = true -> forall v, den_e v e = den_e v (t_f t0)) /\
      (forall t0, In t0 (fn_pts fn) -> same_point (t_x t0) p = true -> exists e0, value SY F p (se_st se) = (Ok e0, se_st se) /\ forall v, den_e v e0 = den_e v (t_f t0)).
  Proof using OK.
    intros Hr se HF Hp Hpr Hg Hre.
    assert (SI : SInv se) by apply reachable_inv. assert (G : Good (se_st se)) by (apply reachable_good; easy).
    assert (I := si_inv se SI). assert (IF := handle _ _ _ SI HF). assert (Op := handle_p _ _ _ SI Hp).
    destruct (oracle_spec SY OK F fn p _ I G IF Hg Op Hpr) as (g & e & s' & E & P).
    destruct (op_fresh _ _ _ _ _ _ _ P Hre) as (x & -> & Hx).
    destruct (op_new _ _ _ _ _ _ _ P ltac:(congruence)) as (fn' & t & A & B & C1 & C2 & C3).
    assert (V := Good_val _ F fn I G IF Hg).
    assert (Hv : forall t0 ge, In t0 (fn_pts fn) -> same_point (t_x t0) p = true -> evaluated_at (fn_pts fn) p = Some ge -> forall v, den_e v (snd ge) = den_e v (t_f t0)).
    { intros t0 ge H0 S0 Hge v. destruct (evaluated_in _ _ _ Hge) as (t1 & H1 & S1 & ->). simpl. apply V; try easy.
      destruct (own_all _ F fn I IF Hg t0 H0) as ((W0 & _) & _). destruct (own_all _ F fn I IF Hg t1 H1) as ((W1 & _) & _).
      eapply same_point_trans; [exact W1|apply Op|exact W0|exact S1|]. apply same_point_sym; [exact W0|apply Op|exact S0]. }
    exists x, e, s', fn', t. repeat (split; [easy|]). split.
    - intros t0 H0 S0 v. destruct (evaluated_some _ _ _ H0 S0) as [ge Hge].
      rewrite (op_val _ _ _ _ _ _ _ P ge Hge v). apply Hv; easy.
    - intros t0 H0 S0. destruct (evaluated_some _ _ _ H0 S0) as [ge Hge]. exists (snd ge).
      destruct (value_spec SY OK F fn p _ I G IF Hg Op Hpr) as [V1 _]. split; [apply V1; easy|]. apply Hv; easy.
  Qed.

  (** ** C12, C13 *)
  Lemma add_post_facts s s2 s' F fn x g e : Inv s -> In F (st_flist s) -> dget Nat.eqb F (st_funs s) = Some fn ->
    keepf s s2 -> wf_p x -> add_post s2 s' F fn x g e ->
    decomposed s' (fn_dict fn) x g e /\
    exists t, recorded s' F t /\ t_x t = x /\ t_g t = prune_p g /\ t_f t = prune_e e.
  Proof using Type.
    intros I HF Hg [K1 K2] Wx P. split.
    - apply dec_decomposed; [apply P| |easy|apply P].
      intros f Hf. rewrite (ap_flist _ _ _ _ _ _ _ P), K2. eapply (dict_flist s s); eauto.
    - destruct (ap_fn _ _ _ _ _ _ _ P) as (fn' & t & A & _ & _ & B & C). exists t. split; [|easy].
      exists fn'. split; [easy|]. rewrite B. apply in_or_app; simpl; auto.
  Qed.

  Lemma stationary l i F fn : regular SY session0 l ->
    let se := run SY session0 l in
    nth_error (se_fns se) i = Some F -> dget Nat.eqb F (st_funs (se_st se)) = Some fn ->
    exists x y s', stationary_point SY F (se_st se) = (Ok (leaf_point x, zero_point, leaf_expr y), s') /\
      ~ In x (st_plist (se_st se)) /\ ~ In y (st_elist (se_st se)) /\
      (exists t fn', dget Nat.eqb F (st_funs s') = Some fn' /\ In t (fn_pts fn') /\ In t (fn_stat fn') /\
         t_x t = leaf_point x /\ t_g t = zero_point /\ t_f t = leaf_expr y) /\
      decomposed s' (fn_dict fn) (leaf_point x) zero_point (leaf_expr y).
  Proof using OK.
    intros Hr se HF Hg.
    assert (SI : SInv se) by apply reachable_inv. assert (G : Good (se_st se)) by (apply reachable_good; easy).
    assert (I := si_inv se SI). assert (IF := handle _ _ _ SI HF).
    destruct (stationary_spec SY OK F fn _ I G IF Hg) as (x & y & s2 & s' & E & Nx & Ny & X2 & K2 & I2 & P).
    destruct (add_post_facts _ _ _ _ _ _ _ _ I IF Hg K2 (leaf_point_wf x) P) as [D (t & (fn' & G' & Ht) & T1 & T2 & T3)].
    exists x, y, s'. split; [easy|]. split; [easy|]. split; [easy|]. split; [|easy].
    exists t, fn'. split; [easy|]. split; [easy|]. split; [|easy].
    assert (IF' : In F (st_flist s')) by (rewrite (ap_flist _ _ _ _ _ _ _ P); destruct K2 as [_ ->]; easy).
    destruct (inv_funs s' (ap_inv _ _ _ _ _ _ _ P) F IF') as (fx & Hx & (_ & _ & _ & _ & St & _)).
    rewrite G' in Hx; injection Hx; intros <-. rewrite St. apply filter_In. split; [easy|]. unfold zero_grad. rewrite T2. easy.
  Qed.

  Lemma proximal l i F j x0 fn gamma : regular SY session0 l ->
    let se := run SY session0 l in
    nth_error (se_fns se) i = Some F -> nth_error (se_pts se) j = Some x0 -> dget Nat.eqb F (st_funs (se_st se)) = Some fn ->
    (exists r, ev r gamma <> 0%R) ->
    exists x gx y s', proximal_step SY x0 F gamma (se_st se) = (Ok (x, leaf_point gx, leaf_expr y), s') /\
      ~ In gx (st_plist (se_st se)) /\ ~ In y (st_elist (se_st se)) /\
      (forall v k, (den_p v x k + ev (v_env v) gamma * den_p v (leaf_point gx) k)%R = den_p v x0 k) /\
      (exists t, recorded s' F t /\ t_x t = x /\ t_g t = leaf_point gx /\ t_f t = leaf_expr y) /\
      decomposed s' (fn_dict fn) x (leaf_point gx) (leaf_expr y).
  Proof using OK.
    intros Hr se HF Hp Hg [r Hgam].
    assert (SI : SInv se) by apply reachable_inv. assert (G : Good (se_st se)) by (apply reachable_good; easy).
    assert (I := si_inv se SI). assert (IF := handle _ _ _ SI HF). assert (Op := handle_p _ _ _ SI Hp).
    destruct (proximal_spec SY OK F fn x0 gamma r _ I G IF Hg Op Hgam) as (gx & y & s2 & s' & E & Nx & Ny & X2 & K2 & I2 & P).
    set (x := psub SY x0 (pscale SY gamma (leaf_point gx))) in *.
    assert (Wx : wf_p x).
    { apply psub_wf. apply Op. }
    destruct (add_post_facts _ _ _ _ _ _ _ _ I IF Hg K2 Wx P) as [D (t & Rt & T1 & T2 & T3)].
    exists x, gx, y, s'. split; [easy|]. split; [easy|]. split; [easy|]. split; [|split; [exists t; easy|easy]].
    intros v k. unfold x. rewrite (psub_den SY OK) by (apply pscale_wf, leaf_point_wf). rewrite (pscale_den SY OK).
    unfold vsub, vscal. lra.
  Qed.

  Lemma conjugate l i F j gx fn : regular SY session0 l ->
    let se := run SY session0 l in
    nth_error (se_fns se) i = Some F -> nth_error (se_pts se) j = Some gx -> dget Nat.eqb F (st_funs (se_st se)) = Some fn ->
    exists x y s', subgrad_conjugate SY gx F (se_st se) = (Ok (leaf_point x), s') /\
      ~ In x (st_plist (se_st se)) /\
      (exists t, recorded s' F t /\ t_x t = leaf_point x /\ (forall v, den_p v (t_g t) = den_p v gx) /\ t_f t = leaf_expr y) /\
      decomposed s' (fn_dict fn) (leaf_point x) gx (leaf_expr y).
  Proof using OK.
    intros Hr se HF Hp Hg.
    assert (SI : SInv se) by apply reachable_inv. assert (G : Good (se_st se)) by (apply reachable_good; easy).
    assert (I := si_inv se SI). assert (IF := handle _ _ _ SI HF). assert (Op := handle_p _ _ _ SI Hp).
    destruct (conj_spec SY OK F fn gx _ I G IF Hg Op) as (x & y & s2 & s' & E & Nx & Ny & X2 & K2 & I2 & P).
    destruct (add_post_facts _ _ _ _ _ _ _ _ I IF Hg K2 (leaf_point_wf x) P) as [D (t & Rt & T1 & T2 & T3)].
    exists x, y, s'. split; [easy|]. split; [easy|]. split; [|easy]. exists t. split; [easy|]. split; [easy|]. split; [|easy].
    intros v. rewrite T2. apply prune_p_den.
  Qed.
End Props.

(** the meaning of the two triples *)
Lemma prox_is_minimiser d phi x g x0 gamma : (0 < gamma)%R -> subgradient d phi x g ->
  (forall k, (x k + gamma * g k)%R = x0 k) ->
  forall y, dom phi y -> (val phi x + nsq d (vsub x x0) / (2 * gamma) <= val phi y + nsq d (vsub y x0) / (2 * gamma))%R.
Proof.
  intros Hg [Hx Hs] E y Hy. specialize (Hs y Hy).
  assert (E0 : x0 = vadd x (vscal gamma g)) by (apply functional_extensionality; intros k; rewrite <- E; easy).
  subst x0.
  assert (A : nsq d (vsub x (vadd x (vscal gamma g))) = (gamma * gamma * nsq d g)%R).
  { unfold nsq, dot, vsub, vadd, vscal. rewrite <- rsum_scal. apply rsum_ext. intros; lra. }
  assert (B : nsq d (vsub y (vadd x (vscal gamma g))) = (nsq d (vsub y x) - 2 * gamma * dot d g (vsub y x) + gamma * gamma * nsq d g)%R).
  { replace (vsub y (vadd x (vscal gamma g))) with (vsub (vsub y x) (vscal gamma g)).
    - unfold nsq. rewrite (dot_sub_l d (vsub y x) (vscal gamma g)), !(dot_sub_r d _ (vsub y x) (vscal gamma g)), !dot_scal_l, !dot_scal_r, (dot_comm d (vsub y x) g). lra.
    - apply functional_extensionality; intros k. unfold vsub, vadd, vscal. lra. }
  rewrite A, B. assert (N := nsq_nonneg d (vsub y x)).
  assert (C : (0 <= nsq d (vsub y x) / (2 * gamma))%R).
  { apply Rmult_le_pos; [easy|]. apply Rlt_le, Rinv_0_lt_compat. lra. }
  replace ((nsq d (vsub y x) - 2 * gamma * dot d g (vsub y x) + gamma * gamma * nsq d g) / (2 * gamma))%R
    with (nsq d (vsub y x) / (2 * gamma) - dot d g (vsub y x) + gamma * gamma * nsq d g / (2 * gamma))%R by (field; lra).
  lra.
Qed.

(** x is a subgradient of the conjugate at g: x maximises <g, y> - phi(y) *)
Lemma conj_is_maximiser d phi x g : subgradient d phi x g ->
  forall y, dom phi y -> (dot d g y - val phi y <= dot d g x - val phi x)%R.
Proof. intros [Hx Hs] y Hy. specialize (Hs y Hy). rewrite dot_sub_r in Hs. lra. Qed.
