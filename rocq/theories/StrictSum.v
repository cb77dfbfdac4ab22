(** Strictly feasible data, continued: sums of functions, gradients that are
    already recorded, and constraints that hold identically. *)
From Coq Require Import List Arith Bool String QArith Reals Qreals Lia Lra FunctionalExtensionality.
From Verif Require Import Prelude PreludeFacts Sympy SympyFacts AlgebraModel Denote AlgebraFacts FunctionModel CircuitModel SymSpec
  Spec SpecFacts ClassSpec CertSpec StateSpec StateFacts CertFacts FunctionSpec FunctionFacts FunctionFacts2
  SymbolFacts SolverSpec BuilderModel BuilderSpec BuildsSpec BuilderLogic BuilderT BuilderRun BuilderProof Examples BuilderExamples
  DualitySpec StrictSpec StrictProps.
Import ListNotations.
Local Open Scope R_scope.

Lemma find_app {A} (q : A -> bool) l m : find q (l ++ m) = match find q l with Some a => Some a | None => find q m end.
Proof. induction l as [|a l IH]; [reflexivity|]. simpl. destruct (q a); [reflexivity|exact IH]. Qed.
Lemma evaluated_last l t p : evaluated_at l p = None -> same_point (t_x t) p = true -> evaluated_at (l ++ [t]) p = Some (t_g t, t_f t).
Proof.
  unfold evaluated_at. rewrite find_app. destruct (find _ l) as [u|]; [discriminate|]. intros _ H. simpl. rewrite H. reflexivity.
Qed.

Lemma nth_error_same {A} : forall l l' : list A, (forall n, nth_error l n = nth_error l' n) -> l = l'.
Proof.
  induction l as [|a l IH]; intros [|b l'] H; [reflexivity|specialize (H 0%nat); discriminate|specialize (H 0%nat); discriminate|].
  assert (H0 := H 0%nat). injection H0 as ->. f_equal. apply IH. intros n. exact (H (S n)).
Qed.
Lemma nth_error_upd {A} (g : A -> A) : forall l i j, nth_error (upd i g l) j = if Nat.eqb i j then option_map g (nth_error l j) else nth_error l j.
Proof.
  induction l as [|a l IH]; intros [|i] [|j]; try reflexivity; simpl.
  - destruct (Nat.eqb i j); reflexivity.
  - apply IH.
Qed.
Definition upds {A} (is : list nat) (g : A -> A) (l : list A) : list A := fold_left (fun l i => upd i g l) is l.
Lemma nth_error_upds {A} (g : A -> A) : forall is l j, NoDup is ->
  nth_error (upds is g l) j = if existsb (Nat.eqb j) is then option_map g (nth_error l j) else nth_error l j.
Proof.
  induction is as [|i is IH]; intros l j N; [reflexivity|]. inversion_clear N as [|? ? N1 N2]. simpl. change (fold_left (fun l i => upd i g l) is (upd i g l)) with (upds is g (upd i g l)).
  rewrite (IH _ _ N2), nth_error_upd. rewrite (Nat.eqb_sym j i). destruct (Nat.eqb i j) eqn:E; simpl; [|reflexivity].
  apply Nat.eqb_eq in E. subst j. destruct (existsb (Nat.eqb i) is) eqn:X; [|reflexivity]. apply existsb_exists in X as (k & Hk & X). apply Nat.eqb_eq in X. subst k. contradiction.
Qed.

Section Sum.
  Context {SY : sympy} (OK : sympy_ok SY).
  Variable P : list string.

  (** the gradient and value recorded for a function at a point *)
  Definition recorded (s : state) (f : nat) (p g : point) : Prop :=
    exists fn e, dget Nat.eqb f (st_funs s) = Some fn /\ evaluated_at (fn_pts fn) p = Some (g, e).

  Lemma appended_recs s s' f t p : appended s s' f t -> t_x t = p -> wf_p p ->
    (forall fn, dget Nat.eqb f (st_funs s) = Some fn -> evaluated_at (fn_pts fn) p = None) ->
    recorded s' f p (t_g t) /\ (forall h v, h <> f -> xrecs v s' h = xrecs v s h) /\ (forall v, xrecs v s' f = xrecs v s f ++ [den_p v p]).
  Proof.
    intros (A1 & A2 & fn1 & fn' & A3 & A4 & A5 & A6 & A7 & A8) Tx Wp Hn. split; [|split].
    - exists fn', (t_f t). split; [exact A4|]. rewrite A8. apply evaluated_last; [apply Hn; exact A3|]. rewrite Tx. apply same_point_refl. exact Wp.
    - intros h v Hh. unfold xrecs. rewrite A2 by exact Hh. reflexivity.
    - intros v. unfold xrecs. rewrite A3, A4, A8, map_app. simpl. rewrite Tx. reflexivity.
  Qed.

  Lemma distribute_recs : forall fs s p g e s', St P s -> Forall (isf s) fs -> NoDup fs -> fs <> [] -> okp P s p -> okp P s g -> oke P s e -> pruned p -> prune_p p = p ->
    (forall f fn, In f fs -> dget Nat.eqb f (st_funs s) = Some fn -> evaluated_at (fn_pts fn) p = None) ->
    distribute SY (methods SY 1) (ones fs) (List.length fs - 1) p g e s = (Ok tt, s') ->
    (exists gs, Forall2 (fun f g' => recorded s' f p g') fs gs /\ forall v, vsum (map (den_p v) gs) = den_p v g) /\
    (forall h, ~ In h fs -> dget Nat.eqb h (st_funs s') = dget Nat.eqb h (st_funs s)) /\
    (forall h v, In h fs -> xrecs v s' h = xrecs v s h ++ [den_p v p]).
  Proof using OK.
    induction fs as [|f fs IH]; intros s p g e s' HS Hfs Hnd Hne Op Og Oe Hp Hpp Hfr R; [destruct (Hne eq_refl)|].
    inversion_clear Hfs as [|? ? Hf Hfs']. inversion_clear Hnd as [|? ? Nf Nd].
    assert (Hf' := Hf). destruct Hf' as [Hin (fn & Hg & Hl)].
    destruct fs as [|f2 fs].
    - simpl in R. set (g' := pscale SY (Num (Qred (/ 1))) g) in *. set (e' := escale SY (Num (Qred (/ 1))) e) in *.
      rewrite (bind_ok _ _ s g' s eq_refl), (bind_ok _ _ s e' s eq_refl), bind_fresh in R.
      destruct (leaf_add SY (methods SY 0) f (mkTrip (st_next s) p g' e') (tick s) fn Hg Hl) as (s0 & R0 & Ap & _).
      assert (R0' : add_body SY (methods SY 0) f (mkTrip (st_next s) p g' e') (tick s) = (Ok tt, s')).
      { destruct (add_body SY (methods SY 0) f (mkTrip (st_next s) p g' e') (tick s)) as [[[]|er] s1] eqn:Er; [|discriminate R0].
        rewrite (bind_ok _ _ _ _ _ Er) in R. exact (eq_trans eq_refl R). }
      rewrite R0 in R0'. injection R0' as <-.
      destruct (appended_recs (tick s) s0 f _ p Ap) as (B1 & B2 & B3).
      { exact Hpp. } { apply (okp_wf P s p Op). } { intros fn0 Hg0. apply (Hfr f fn0); [left; reflexivity|exact Hg0]. }
      split; [|split].
      + eexists. split; [constructor; [exact B1|constructor]|]. intros v. simpl. rewrite prune_p_den. unfold g'. rewrite (pscale_den SY OK).
        apply functional_extensionality; intros k. unfold vadd, vzero, vscal. simpl.
        replace (Q2R (Qred (/ 1))) with 1 by (rewrite Q2R_red; unfold Q2R; simpl; lra). lra.
      + intros h Hh. destruct Ap as (_ & Ap & _). rewrite Ap; [reflexivity|]. intros ->. apply Hh. left. reflexivity.
      + intros h v [<-|[]]. exact (B3 v).
    - remember (f2 :: fs) as fs' eqn:Efs.
      replace (List.length (f :: fs') - 1)%nat with (S (List.length fs' - 1)) in R by (rewrite Efs; simpl; lia).
      destruct (rule_oracle_body OK P (methods SY 0) (methods_ok SY 0) s f p HS Hf Op Hp) as (gi & ei & s1 & R1 & S1 & E1 & F1 & _ & Ogi & Oei & _ & _).
      change (ones (f :: fs')) with ((f, Num 1) :: ones fs') in R. cbn [distribute] in R.
      change (m_oracle (methods SY 1) f p) with (oracle_body SY (methods SY 0) f p) in R.
      rewrite (bind_ok _ _ _ _ _ R1) in R. cbn [fst snd] in R.
      assert (Hd := leaf_dict s f fn (proj1 HS) Hin Hg Hl).
      destruct (leaf_oracle SY (methods SY 0) f fn p s (proj1 HS) Hg Hl Hd Hp) as (gi' & ei' & s1' & R1' & Hout).
      rewrite R1 in R1'. injection R1' as <- <- <-.
      destruct Hout as [(_ & _ & Hev)|(t & Ap & Tx & Tg & _)].
      { rewrite (Hfr f fn (or_introl eq_refl) Hg) in Hev. discriminate Hev. }
      destruct (appended_recs s s1 f t p Ap Tx (proj1 (proj1 Op))) as (B1 & B2 & B3).
      { intros fn0 Hg0. apply (Hfr f fn0); [left; reflexivity|exact Hg0]. }
      destruct Ap as (_ & Ap & _).
      set (g' := psub SY g (pscale SY (Num 1) gi)) in *. set (e' := esub SY e (escale SY (Num 1) ei)) in *.
      assert (Hs1 : symok P (Num 1)) by (intros x []).
      assert (Dg : forall v, den_p v g' = vsub (den_p v g) (den_p v gi)).
      { intros v. unfold g'. rewrite (psub_den SY OK), (pscale_den SY OK) by (apply pscale_wf; apply Ogi).
        apply functional_extensionality; intros k. unfold vscal, vsub. simpl. rewrite Q2R_1'. lra. }
      assert (Og1 := okp_ext P s s1 g E1 Og). assert (Oe1 := oke_ext P s s1 e E1 Oe).
      assert (Og' : okp P s1 g').
      { split; [apply own_psub; [apply Og1|apply own_pscale, Ogi]|apply (psub_all OK); [apply Og1|apply (pscale_all OK); [exact Hs1|apply Ogi]]]. }
      assert (Oe' : oke P s1 e').
      { split; [apply own_esub; [apply Oe1|apply own_escale, Oei]|]. split.
        - apply (esub_all OK); [apply Oe1|apply (escale_all OK); [exact Hs1|apply Oei]].
        - apply (no_const_eadd SY OK); [apply Oe1|]. apply (no_const_escale SY OK), (no_const_escale SY OK), Oei. }
      destruct (IH s1 p g' e' s' S1) as ((gs & G1 & G2) & C2 & C3).
      { eapply Forall_impl; [|exact Hfs']. intros a. apply isf_ext. exact E1. } { exact Nd. } { rewrite Efs; discriminate. }
      { eapply okp_ext; eauto. } { exact Og'. } { exact Oe'. } { exact Hp. } { exact Hpp. }
      { intros h fh Hh Hgh. apply (Hfr h fh); [right; exact Hh|]. rewrite <- Ap; [exact Hgh|]. intros ->. exact (Nf Hh). }
      { exact R. }
      split; [|split].
      + exists (gi :: gs). split; [constructor; [|exact G1]|].
        * destruct B1 as (fn1 & e1 & X1 & X2). exists fn1, e1. rewrite C2 by exact Nf. rewrite <- Tg. split; assumption.
        * intros v. simpl. change (fun i => vadd (den_p v gi) (vsum (map (den_p v) gs)) i) with (vadd (den_p v gi) (vsum (map (den_p v) gs))) || idtac.
          rewrite G2, Dg. apply functional_extensionality; intros k. unfold vadd, vsub. lra.
      + intros h Hh. rewrite C2 by (intros X; apply Hh; right; exact X). apply Ap. intros ->. apply Hh. left. reflexivity.
      + intros h v [<-|Hh].
        * transitivity (xrecs v s1 f); [|apply B3]. unfold xrecs. rewrite C2 by exact Nf. reflexivity.
        * rewrite C3 by exact Hh. rewrite B2; [reflexivity|]. intros ->. exact (Nf Hh).
  Qed.

  Lemma stationary_sum_recs s F fs x y e s' : St P s -> is_sum s F fs -> Forall (isf s) fs -> NoDup fs -> fs <> [] ->
    stationary_point SY F s = (Ok (x, y, e), s') ->
    (exists gs, Forall2 (fun f g => recorded s' f x g) fs gs /\ forall v, vsum (map (den_p v) gs) = vzero) /\
    (forall h v, isf s h -> ~ In h fs -> xrecs v s' h = xrecs v s h) /\
    (forall h v, In h fs -> xrecs v s' h = xrecs v s h ++ [den_p v x]).
  Proof using OK.
    intros HS [HF (fn & Hg & Hl & Hd)] Hfs Hnd Hne R. assert (I : Inv s) by apply HS.
    destruct (two_new_ok P s HS) as (x0 & y0 & s1 & s2 & R1 & R2 & S2 & E2 & K2 & Ox & Oy & Nx & Ny).
    assert (I2 : Inv s2) by apply S2. assert (K2' := K2). destruct K2' as [Ka Kb].
    set (t0 := mkTrip (st_next s2) (leaf_point x0) zero_point (leaf_expr y0)).
    set (fn' := mkFunc false (fn_reuse fn) (fn_class fn) (ones fs) (fn_ctr fn) (fn_stat fn ++ [t0]) (fn_pts fn ++ [t0]) (fn_cons fn)).
    assert (Hg2 : dget Nat.eqb F (st_funs (tick s2)) = Some fn) by (simpl; rewrite Ka; exact Hg).
    assert (HF2 : In F (st_flist (tick s2))) by (simpl; rewrite Kb; exact HF).
    destruct (ok_fresh s2 I2) as (I3 & E3 & _). change (snd (fresh_id s2)) with (tick s2) in I3, E3.
    destruct (inv_funs _ I3 F HF2) as (fnx & Hgx & Hok). rewrite Hg2 in Hgx. injection Hgx; intros <-. clear Hgx.
    assert (X : ext_fn fn fn').
    { unfold ext_fn, fn'; simpl. rewrite Hl, Hd. repeat split; try easy; eauto. }
    assert (Hok' : fun_ok (tick s2) F fn').
    { assert (Hok2 := Hok). destruct Hok2 as (K1 & K3 & K4 & K5 & K6 & K7). rewrite Hl, Hd in K1.
      assert (Hold : Forall (fun t => t_id t < st_next s2)%nat (fn_pts fn)).
      { destruct (inv_funs s2 I2 F) as (fny & Hgy & Hoky); [exact HF2|]. assert (fny = fn) by (simpl in Hg2; congruence). subst fny.
        destruct Hoky as (_ & _ & _ & Y & _). easy. }
      unfold fun_ok, fn'; simpl. split; [easy|]. split; [|split; [|split; [|split]]].
      - apply Forall_app; split; [easy|]. constructor; [|constructor]. split; [|split]; simpl; [apply Ox|apply own_zero_p|apply Oy].
      - rewrite map_app. simpl. apply NoDup_rev in K4. rewrite <- (rev_involutive (_ ++ _)). apply NoDup_rev. rewrite rev_app_distr. simpl.
        constructor; [|easy]. rewrite <- in_rev. intros H. apply in_map_iff in H as (t & Et & Ht). rewrite Forall_forall in Hold.
        specialize (Hold t Ht). lia.
      - apply Forall_app; split; [easy|]. constructor; [simpl; lia|constructor].
      - rewrite prune_zero_filter, <- K6. easy.
      - easy. }
    destruct (ok_set_fun (tick s2) F fn fn' I3 HF2 Hg2 X Hok') as (I4 & E4 & _).
    set (s4 := snd (set_fun F fn' (tick s2))) in *.
    assert (Hg4 : dget Nat.eqb F (st_funs s4) = Some fn') by (apply (dget_dset_same Nat.eqb Nat.eqb_eq)).
    assert (Ho4 : forall h, h <> F -> dget Nat.eqb h (st_funs s4) = dget Nat.eqb h (st_funs s)).
    { intros h Hh. unfold s4. simpl. rewrite (dget_dset_other Nat.eqb Nat.eqb_eq) by exact Hh. rewrite Ka. reflexivity. }
    assert (Hf4 : st_flist s4 = st_flist s) by exact Kb.
    assert (Es4 : ext s s4) by (eapply ext_trans; [exact E2|]; eapply ext_trans; eauto).
    assert (S4 : St P s4).
    { split; [exact I4|]. intros h fh Hh Hgh Hlh. destruct (Nat.eq_dec h F) as [->|Hn].
      - rewrite Hg4 in Hgh. injection Hgh; intros <-. discriminate Hlh.
      - rewrite Ho4 in Hgh by exact Hn. rewrite Hf4 in Hh. destruct HS as [_ HS]. apply (HS h fh); assumption. }
    assert (Ox4 : okp P s4 (leaf_point x0)) by (eapply okp_ext; [|exact Ox]; eapply ext_trans; eauto).
    assert (Oy4 : oke P s4 (leaf_expr y0)) by (eapply oke_ext; [|exact Oy]; eapply ext_trans; eauto).
    assert (Hfs4 : Forall (isf s4) fs) by (eapply Forall_impl; [|exact Hfs]; intros a; apply isf_ext; exact Es4).
    assert (HnF : forall h, isf s h -> h <> F). { intros h [_ (fh & Hgh & Hlh)] ->. congruence. }
    assert (Hfr : forall f fh, In f fs -> dget Nat.eqb f (st_funs s4) = Some fh -> evaluated_at (fn_pts fh) (leaf_point x0) = None).
    { intros f fh Hf Hgh. rewrite Forall_forall in Hfs. rewrite Ho4 in Hgh by (apply HnF, Hfs, Hf). destruct (Hfs f Hf) as [Hin _].
      destruct (evaluated_at (fn_pts fh) (leaf_point x0)) as [ge|] eqn:Ev; [|reflexivity].
      destruct (evaluated_in _ _ _ Ev) as (t & H1 & H2 & _). destruct (own_all s f fh I Hin Hgh t H1) as ((W & Ow) & _).
      rewrite (same_point_fresh (t_x t) (leaf_point x0) x0) in H2; [discriminate H2|exact W|apply leaf_point_wf|simpl; auto|].
      intros H. apply Nx. auto. }
    destruct (rule_distribute OK P fs s4 (leaf_point x0) zero_point (leaf_expr y0) S4 Hfs4 Hne Ox4 (okp_zero P s4) Oy4 (leaf_point_pruned x0))
      as (s5 & R5 & _).
    assert (Hsep : separate (ones fs) (leaf_point x0) s4 = (Ok ([], [], ones fs), s4)).
    { apply separate_fresh. rewrite keys_ones. intros f Hf. rewrite Forall_forall in Hfs4. destruct (Hfs4 f Hf) as [Hin (fh & Hgh & Hlh)].
      exists fh. split; [exact Hgh|]. exact (Hfr f fh Hf Hgh). }
    assert (Rr : stationary_point SY F s = (Ok (leaf_point x0, zero_point, leaf_expr y0), s5)).
    { unfold stationary_point. rewrite (bind_ok _ _ _ _ _ R1), (bind_ok _ _ _ _ _ R2).
      assert (R3 : add_triplet SY F (leaf_point x0) zero_point (leaf_expr y0) s2 = (Ok tt, s5)); [|rewrite (bind_ok _ _ _ _ _ R3); reflexivity].
      unfold add_triplet. rewrite bind_fresh. change (add_body SY (methods SY 1) F t0 (tick s2) = (Ok tt, s5)).
      unfold add_body. change (prune_t t0) with t0. rewrite (bind_ok _ _ _ _ _ (get_fun_ok _ _ _ Hg2)). rewrite Hl, Hd, prune_ones.
      cbn [t_g t0 pt_dict zero_point]. fold fn'.
      rewrite (bind_ok _ _ (tick s2) tt s4 eq_refl). cbn [t_x t_f t0]. rewrite (bind_ok _ _ _ _ _ Hsep). cbn [app].
      replace (List.length (ones fs)) with (List.length fs) by (unfold ones; rewrite map_length; reflexivity). destruct fs as [|f0 fs0]; [destruct (Hne eq_refl)|]. exact R5. }
    rewrite Rr in R. injection R as <- <- <- <-.
    destruct (distribute_recs fs s4 (leaf_point x0) zero_point (leaf_expr y0) s5 S4 Hfs4 Hnd Hne Ox4 (okp_zero P s4) Oy4 (leaf_point_pruned x0) eq_refl Hfr R5) as ((gs & G1 & G2) & C2 & C3).
    split; [|split].
    - exists gs. split; [exact G1|]. intros v. rewrite G2. apply zero_point_den.
    - intros h v Hh Nh. unfold xrecs. rewrite C2 by exact Nh. rewrite Ho4 by (apply HnF; exact Hh). reflexivity.
    - intros h v Hh. rewrite C3 by exact Hh. f_equal. unfold xrecs. rewrite Ho4; [reflexivity|]. apply HnF. rewrite Forall_forall in Hfs. apply Hfs. exact Hh.
  Qed.

  Lemma fn_add_state s F fs f G s' : Inv s -> sums s F fs -> isf s f -> fn_add SY F f s = (Ok G, s') ->
    st_flist s' = st_flist s ++ [G] /\ forall h, h <> G -> dget Nat.eqb h (st_funs s') = dget Nat.eqb h (st_funs s).
  Proof using Type.
    intros I HF [_ (fb & Hb & _)] R.
    assert (exists fa, dget Nat.eqb F (st_funs s) = Some fa) as (fa & Ha).
    { destruct HF as [[[H1 (fa & H2 & H3)] _]|[H1 (fa & H2 & H3 & H4)]]; eauto. }
    rewrite (fn_add_run SY s F f fa fb Ha Hb) in R. unfold new_comp_fun in R. injection R as <- <-. split; [reflexivity|].
    intros h Hh. simpl. rewrite dget_app. destruct (dget Nat.eqb h (st_funs s)); [reflexivity|]. simpl. apply Nat.eqb_neq in Hh. rewrite Hh. reflexivity.
  Qed.

  Lemma U_fn_add bs F f (is : list nat) j (k : nat -> M problem) s c A' :
    nth_error (cf c) j = Some f ->
    (exists i, nth_error (cf c) i = Some F /\ is = [i]) \/ (exists n, nth_error (cs c) n = Some (F, is)) ->
    ~ In j is ->
    (forall G s', U P bs (k G) s' (adds G (is ++ [j]) c) A') ->
    U P bs (bind (fn_add SY F f) k) s c A'.
  Proof using Type.
    intros Hj HF Hn H HS Hc Hv Hb. destruct (nth_err _ _ _ Hj) as [Hj1 Hj2].
    assert (Hf : isf s f). { destruct Hc as (A & _). rewrite Forall_forall in A. apply A. eapply nth_error_In; eauto. }
    assert (HF' : sums s F (map (fun i => nth i (cf c) 0%nat) is) /\ Forall (fun i => (i < List.length (cf c))%nat) is /\ NoDup is).
    { destruct HF as [(i & Hi & ->)|(n & Hi)].
      - destruct (nth_err _ _ _ Hi) as [Hi1 Hi2]. split; [|split; [constructor; [exact Hi2|constructor]|constructor; [intros []|constructor]]].
        left. simpl. rewrite Hi1. split; [|reflexivity]. destruct Hc as (A & _). rewrite Forall_forall in A. apply A. eapply nth_error_In; eauto.
      - destruct Hc as (_ & _ & _ & _ & _ & _ & C). rewrite Forall_forall in C. apply (C (F, is)). eapply nth_error_In; eauto. }
    destruct HF' as (F1 & F2 & F3). destruct (idx_sums P s c is Hc F2 F3) as [G1 G2].
    destruct (rule_fn_add (SY:=SY) P s F _ f HS F1 G1 Hf G2) as (G & s' & R & S' & E & HG & NG & C).
    { intros Hin. apply in_map_iff in Hin as (i & Ei & Hi). apply Hn. replace j with i; [exact Hi|].
      rewrite Forall_forall in F2. destruct Hc as (_ & B & _). apply (proj1 (NoDup_nth (cf c) 0%nat) B); [apply F2; exact Hi|exact Hj2|congruence]. }
    destruct (fn_add_state s F _ f G s' (proj1 HS) F1 Hf R) as [Fl Oth].
    assert (Leaf : forall h fh, In h (st_flist s') -> dget Nat.eqb h (st_funs s') = Some fh -> fn_leaf fh = true -> In h (st_flist s) /\ dget Nat.eqb h (st_funs s) = Some fh).
    { intros h fh Hh Hgh Hlh. assert (h <> G). { intros ->. destruct HG as [_ (fg & Hgg & Hlg & _)]. congruence. }
      rewrite Oth in Hgh by assumption. rewrite Fl in Hh. apply in_app_or in Hh as [Hh|[Hh|[]]]; [|congruence]. split; assumption. }
    assert (Hx : forall h v, In h (cf c) -> xrecs v s' h = xrecs v s h).
    { intros h v Hh. unfold xrecs. rewrite Oth; [reflexivity|]. intros ->. apply NG. destruct Hc as (A & _). rewrite Forall_forall in A. apply (A G Hh). }
    destruct (H G s') as (p & sf & K1 & K2 & K3 & K4).
    { exact S'. }
    { assert (Hc' : okc P s' c) by (eapply okc_ext; eauto). destruct Hc' as (A1 & A2 & A3 & A4 & A5 & A6 & A7).
      repeat (split; [assumption|]). simpl. constructor; [|exact A7]. simpl. split; [right|split].
      + rewrite map_app. simpl. rewrite Hj1. exact HG.
      + apply Forall_app. split; [exact F2|]. constructor; [exact Hj2|constructor].
      + apply NoDup_rev in F3. rewrite <- (rev_involutive (_ ++ _)). apply NoDup_rev. rewrite rev_app_distr. simpl.
        constructor; [rewrite <- in_rev; exact Hn|exact F3]. }
    { intros h fh Hh Hgh Hlh. destruct (Leaf h fh Hh Hgh Hlh) as [X1 X2]. exact (Hv h fh X1 X2 Hlh). }
    { exact (eq_trans (bits_ext P s s' c Hc E) Hb). }
    exists p, sf. split; [rewrite (bind_ok _ _ _ _ _ R); exact K1|]. split; [exact K2|]. split; [exact K3|].
    intros r v phi en Sv Cs Cu Vs HA. apply (K4 r v phi en Sv).
    - apply C. exact Cs.
    - intros h fh Hh Hgh Hlh. destruct (Leaf h fh Hh Hgh Hlh) as [X1 X2]. exact (Cu h fh X1 X2 Hlh).
    - exact Vs.
    - simpl cf. replace (map (xrecs v s') (cf c)) with (map (xrecs v s) (cf c)); [exact HA|]. apply map_ext_in. intros h Hh. symmetry. apply Hx. exact Hh.
  Qed.

  Lemma recorded_wf s f p g : Inv s -> In f (st_flist s) -> recorded s f p g -> wf_p g.
  Proof using Type.
    intros I Hf (fn & e & Hg & He). destruct (evaluated_in _ _ _ He) as (t & Ht & _ & E). injection E as -> _.
    destruct (own_all s f fn I Hf Hg t Ht) as (_ & [W _] & _). exact W.
  Qed.

  Lemma U_stat_sum bs F is n (k : point * point * expr -> M problem) s c A' :
    nth_error (cs c) n = Some (F, is) -> (1 <= List.length is)%nat -> (isf s F -> 2 <= List.length is)%nat ->
    (forall x e s' gs, pruned x -> Forall2 (fun i g => recorded s' (nth i (cf c) 0%nat) x g /\ wf_p g) is gs -> (forall v, vsum (map (den_p v) gs) = vzero) ->
       U P bs (k (x, zero_point, e)) s' (adde e (addx x c)) A') ->
    U P bs (bind (stationary_point SY F) k) s c (fun r en rho =>
      exists x z, optimal 1 (map (fun i => nth i (vf en) rfun0) is) x z /\ A' r (pushe z (pushx x en)) (upds is (fun l => l ++ [x]) rho)).
  Proof using OK.
    intros Hi H1 H2 H HS Hc Hv Hb.
    assert (HF' : sums s F (map (fun i => nth i (cf c) 0%nat) is) /\ Forall (fun i => (i < List.length (cf c))%nat) is /\ NoDup is).
    { destruct Hc as (_ & _ & _ & _ & _ & _ & C). rewrite Forall_forall in C. apply (C (F, is)). eapply nth_error_In; eauto. }
    destruct HF' as (F1 & F2 & F3). destruct (idx_sums P s c is Hc F2 F3) as [G1 G2].
    destruct F1 as [[F0 F1]|F1]. { apply (f_equal (@List.length nat)) in F1. rewrite map_length in F1. simpl in F1. specialize (H2 F0). lia. }
    set (fs := map (fun i => nth i (cf c) 0%nat) is) in *.
    assert (Hne : fs <> []) by (unfold fs; destruct is; simpl in *; [lia|discriminate]).
    destruct (rule_stationary_sum OK P s F fs HS F1 G1 Hne) as (x & e & s' & R & S' & E & F0 & Og & Oe & B & W).
    destruct (stationary_sum_recs s F fs _ _ e s' HS F1 G1 G2 Hne R) as ((gs & Y0 & Ys) & Y1 & Y2).
    destruct (H (leaf_point x) e s' gs (leaf_point_pruned x)) as (p0 & sf & K1 & K2 & K3 & K4).
    { clear - Y0 S' G1 E. unfold fs in *. clear fs. revert gs Y0 G1. induction is as [|i is IH]; intros gs Y0 G1; simpl in Y0; inversion Y0 as [|? g ? gs' Z1 Z2]; subst; constructor.
      - split; [exact Z1|]. simpl in G1. inversion_clear G1 as [|? ? X1 X2]. apply (recorded_wf s' (nth i (cf c) 0%nat) (leaf_point x) g (proj1 S')); [|exact Z1]. apply (isf_ext s s' _ E X1).
      - apply IH; [exact Z2|]. simpl in G1. inversion_clear G1 as [|? ? X1 X2]. exact X2. }
    { exact Ys. }
    { exact S'. } { apply okc_adde; [apply okc_addx; [eapply okc_ext; eauto|exact Og]|exact Oe]. } { apply (stay s s' _ (fun _ => rfun0) (proj1 HS) E F0). exact Hv. } { exact (eq_trans (bits_ext P s s' c Hc E) Hb). }
    exists p0, sf. split; [rewrite (bind_ok _ _ _ _ _ R); exact K1|]. split; [exact K2|]. split; [exact K3|].
    intros r v phi en Sv Cs Cu Vs (X & Z & HQ & HA).
    rewrite <- (vals_fs v phi c en is Vs F2) in HQ.
    destruct (W 1%nat r v phi X Z Sv Cs HQ) as (v' & Sv' & Ha & Cs' & HG & HZ).
    apply (K4 r v' phi (pushe Z (pushx X en)) Sv' Cs').
    - apply (stay s s' c phi (proj1 HS) E F0). exact Cu.
    - apply vals_adde; [apply vals_addx; [eapply vals_agree; eauto|exact HG]|exact HZ].
    - simpl cf. replace (map (xrecs v' s') (cf c)) with (upds is (fun l => l ++ [X]) (map (xrecs v s) (cf c))); [exact HA|].
      apply nth_error_same. intros j. rewrite nth_error_upds by exact F3. rewrite !nth_error_map.
      destruct (nth_error (cf c) j) as [h|] eqn:Ej; [|destruct (existsb _ _); reflexivity]. simpl.
      assert (Hh : isf s h). { destruct Hc as (A & _). rewrite Forall_forall in A. apply A. eapply nth_error_In; eauto. }
      assert (Ag : xrecs v' s h = xrecs v s h) by (apply xrecs_agree; [apply HS|apply Hh|exact Ha]).
      destruct (nth_err _ _ _ Ej) as [Ej1 Ej2].
      destruct (existsb (Nat.eqb j) is) eqn:Ex.
      + apply existsb_exists in Ex as (i & Hi' & Ex). apply Nat.eqb_eq in Ex. subst i. f_equal. rewrite Y2, Ag, HG; [reflexivity|].
        unfold fs. apply in_map_iff. exists j. split; [exact Ej1|exact Hi'].
      + f_equal. rewrite Y1, Ag; [reflexivity|exact Hh|]. intros Hin. unfold fs in Hin. apply in_map_iff in Hin as (i & Ei & Hi').
        assert (i = j). { rewrite Forall_forall in F2. destruct Hc as (_ & ND & _). apply (proj1 (NoDup_nth (cf c) 0%nat) ND); [apply F2; exact Hi'|exact Ej2|congruence]. }
        subst i. assert (Y : existsb (Nat.eqb j) is = true) by (apply existsb_exists; exists j; split; [exact Hi'|apply Nat.eqb_refl]). congruence.
  Qed.

  (** the gradient at a point where it is already recorded *)
  Lemma U_oracle_known bs i f p g X (k : point * expr -> M problem) s c A' :
    nth_error (cf c) i = Some f -> nth_error bs i = Some true -> derp P c p X -> recorded s f p g ->
    (forall e, U P bs (k (g, e)) s (adde e (addx g c)) A') ->
    U P bs (bind (oracle SY f p) k) s c (fun r en rho => exists y z, query 1 (nth i (vf en) rfun0) (X r en) y z /\ A' r (pushe z (pushx y en)) rho).
  Proof using OK.
    intros Hi Hbi HX Hr H HS Hc Hv Hb. destruct Hr as (fn & e & Hg & He).
    assert (Hf : isf s f). { destruct Hc as (A & _). rewrite Forall_forall in A. apply A. eapply nth_error_In; eauto. }
    destruct (HX s Hc) as [Op Dp]. assert (I := proj1 HS). destruct (evaluated_in _ _ _ He) as (t & Ht & Hsame & Et). injection Et as Eg Ee.
    assert (Hre : fn_reuse fn = true).
    { rewrite <- Hb in Hbi. unfold bits in Hbi. rewrite nth_error_map, Hi in Hbi. simpl in Hbi. unfold reuses in Hbi. rewrite Hg in Hbi. congruence. }
    assert (R : oracle SY f p s = (Ok (g, e), s)).
    { change (oracle SY f p s) with (oracle_body SY (methods SY 1) f p s). unfold oracle_body. rewrite (bind_ok _ _ _ _ _ (get_fun_ok _ _ _ Hg)). rewrite He, Hre. reflexivity. }
    assert (Ow := own_all s f fn I (proj1 Hf) Hg t Ht). destruct Hf as [Hin (fn0 & Hg0 & Hl)]. rewrite Hg in Hg0. injection Hg0 as <-.
    assert (Ot : okp P s (t_g t) /\ oke P s (t_f t)).
    { destruct HS as [_ HS]. destruct (HS f fn Hin Hg Hl) as [HS1 _]. destruct (HS1 t Ht) as [(T1 & T2 & T3) T4].
      destruct Ow as (_ & Ow2 & Ow3). split; [split; assumption|split; [exact Ow3|split; assumption]]. }
    destruct Ot as [Ot1 Ot2].
    destruct (H e HS) as (p0 & sf & K1 & K2 & K3 & K4).
    { apply okc_adde; [apply okc_addx; [exact Hc|rewrite Eg; exact Ot1]|rewrite Ee; exact Ot2]. } { exact Hv. } { exact Hb. }
    exists p0, sf. split; [rewrite (bind_ok _ _ _ _ _ R); exact K1|]. split; [exact K2|]. split; [exact K3|].
    intros r v phi en Sv Cs Cu Vs (Y & Z & HQ & HA).
    rewrite (vals_f v phi c en i f Vs Hi) in HQ.
    assert (EX : X r en = den_p v p) by (rewrite (Dp v phi en Vs), (proj1 (proj2 Sv)); reflexivity). rewrite EX in *.
    destruct (Cu f fn Hin Hg Hl) as (mu & L & q & Gc & _ & Iq & Eq). assert (Hq : 0 <= q) by (destruct Gc, Iq; lra).
    destruct (Cs f fn Hin Hg Hl) as (_ & _ & C3). rewrite Forall_forall in C3. specialize (C3 t Ht). unfold rec_sampled in C3.
    rewrite Eq in HQ, C3. rewrite (proj1 Sv) in C3.
    assert (Dx : den_p v (t_x t) = den_p v p) by (apply same_point_den; [apply Ow|apply Op|exact Hsame]).
    assert (Dr : in_Rd 1 (den_p v p)) by (eapply space_p; eauto).
    rewrite Dx in C3. assert (Q1 : query 1 (qf q) (den_p v p) (den_p v (t_g t)) (den_e v (t_f t))) by (split; [eapply space_p; eassumption|exact C3]).
    apply (qf_unique q _ _ _ Hq Dr) in Q1 as [U1 U2]. apply (qf_unique q _ _ _ Hq Dr) in HQ as [V1 V2].
    apply (K4 r v phi (pushe Z (pushx Y en)) Sv Cs Cu); [|exact HA].
    apply vals_adde; [apply vals_addx; [exact Vs|]|]; [rewrite Eg|rewrite Ee]; congruence.
  Qed.

  (** a constraint that holds identically *)
  Lemma U_equality bs (k : problem -> M problem) p X s c pb A' : derp P c p X -> (forall v, wf_p p -> den_p v p = vzero) ->
    ((forall v, den_e v (psq SY p) = 0) -> U P bs (k (add_constraint pb (mkConstr (psq SY p) Equality))) s c A') ->
    U P bs (bind (add_equality pb (psq SY p)) k) s c A'.
  Proof using OK.
    intros HX Hz H HS Hc. destruct (HX s Hc) as [Op _]. assert (Wp := okp_wf P s p Op).
    assert (Hn : forall v, den_e v (psq SY p) = 0).
    { intros v. unfold psq. rewrite (pmul_den SY OK) by exact Wp. rewrite (Hz v Wp). apply dot_zero_l. }
    exact (H Hn HS Hc).
  Qed.
End Sum.
