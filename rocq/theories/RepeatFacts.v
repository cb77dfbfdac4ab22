(** Solving twice (C19) and class selection (C20). *)
From Coq Require Import List Arith Bool String QArith Reals Qreals Lra Lia.
From Verif Require Import Prelude PreludeFacts Sympy SympyFacts AlgebraModel Denote AlgebraFacts
  FunctionModel CircuitModel SymSpec GramFacts SymFacts Spec SpecFacts ClassSpec ClassFacts CertSpec
  StateSpec SessionModel StateFacts CertFacts ClassProps.
Import ListNotations.

Section P.
  Variable SY : sympy.
  Variables dimG dimF : nat.

  Lemma class_loop_prefix F x : forall l es ss r,
    class_loop SY dimG dimF F l es ss = Ok r -> class_loop SY dimG dimF F l (es ++ x) ss = Ok r.
  Proof.
    induction l as [|[i j] l IH]; intros es ss r H; simpl in *; [easy|].
    destruct es as [|e es]; [easy|]. simpl. destruct (expression_to_matrix SY e dimG dimF); simpl in *; [|easy]. apply IH; easy.
  Qed.

  Definition set_cons (fn : func) (l : list expr) : func :=
    mkFunc (fn_leaf fn) (fn_reuse fn) (fn_class fn) (fn_dict fn) (fn_ctr fn) (fn_stat fn) (fn_pts fn) l.

  Lemma add_class_run f s u s' : add_class_constraints SY f s = (Ok u, s') ->
    exists fn es, dget Nat.eqb f (st_funs s) = Some fn /\ fn_class fn <> CBase /\
      rows SY (fn_class fn) (fn_pts fn) (fn_pts fn) = Ok es /\
      s' = mkState (st_next s) (st_pctr s) (st_ectr s) (st_fctr s) (dset Nat.eqb f (set_cons fn (fn_cons fn ++ es)) (st_funs s))
             (st_flist s) (st_plist s) (st_elist s).
  Proof.
    intros H. unfold add_class_constraints in H. apply bind_ok in H as [fn [s1 [H1 H]]]. apply get_fun_ok in H1 as [H1 ->].
    exists fn. destruct (fn_class fn) eqn:Ec; [unfold raise in H; easy| | |];
    (apply bind_ok in H as [es [s2 [H2 H]]]; apply lift_ok in H2 as [H2 ->]; exists es;
     unfold set_fun in H; injection H; intros <- _; unfold set_cons; rewrite Ec; easy).
  Qed.

  Lemma add_class_again f s fn es : dget Nat.eqb f (st_funs s) = Some fn -> fn_class fn <> CBase ->
    rows SY (fn_class fn) (fn_pts fn) (fn_pts fn) = Ok es ->
    add_class_constraints SY f s = (Ok tt, mkState (st_next s) (st_pctr s) (st_ectr s) (st_fctr s)
       (dset Nat.eqb f (set_cons fn (fn_cons fn ++ es)) (st_funs s)) (st_flist s) (st_plist s) (st_elist s)).
  Proof.
    intros E Hb Hr. unfold add_class_constraints, bind, get_fun. rewrite E.
    destruct (fn_class fn) eqn:Ec; [easy| | |]; rewrite Hr; simpl; unfold set_fun, set_cons; rewrite Ec; easy.
  Qed.

  (** State after the loop over the functions. *)
  Lemma fun_loop_state shift : forall l idx ss s ss' s', NoDup l ->
    fun_loop SY dimG dimF shift idx l ss s = (Ok ss', s') ->
    st_pctr s' = st_pctr s /\ st_ectr s' = st_ectr s /\ st_flist s' = st_flist s /\
    (forall f, ~ In f l -> dget Nat.eqb f (st_funs s') = dget Nat.eqb f (st_funs s)) /\
    (forall f, In f l -> exists fn es, dget Nat.eqb f (st_funs s) = Some fn /\ fn_class fn <> CBase /\
       rows SY (fn_class fn) (fn_pts fn) (fn_pts fn) = Ok es /\
       dget Nat.eqb f (st_funs s') = Some (set_cons fn (fn_cons fn ++ es)) /\
       List.length (fn_cons fn ++ es) = (List.length (fn_pts fn) * (List.length (fn_pts fn) - 1))%nat).
  Proof.
    induction l as [|f l IH]; intros idx ss s ss' s' Hn H; simpl in H.
    - unfold ret in H. injection H; intros <- <-. repeat split; easy.
    - inversion Hn as [|? ? Hf Hn']; subst. apply bind_ok in H as [u [s1 [H1 H]]].
      apply add_class_run in H1 as (fn & es & E & Hb & Hr & ->).
      apply bind_ok in H as [fn1 [s2 [H2 H]]]. apply get_fun_ok in H2 as [H2 ->]. simpl in H2.
      rewrite (dget_dset_same Nat.eqb nat_eqb_iff) in H2. injection H2; intros <-; clear H2.
      apply bind_ok in H as [ss1 [s3 [H3 H]]]. apply lift_ok in H3 as [H3 ->].
      apply bind_ok in H as [[] [s4 [H4 H]]]. apply assertM_ok in H4 as [H4 ->]. apply Nat.eqb_eq in H4. simpl in H4.
      destruct (IH _ _ _ _ _ Hn' H) as (A1 & A2 & A3 & A4 & A5). simpl in *.
      split; [easy|]. split; [easy|]. split; [easy|]. split.
      + intros g Hg. rewrite A4 by tauto. apply (dget_dset_other Nat.eqb nat_eqb_iff). intros ->. tauto.
      + intros g [<-|Hg].
        * exists fn, es. split; [easy|]. split; [easy|]. split; [easy|]. split; [|easy].
          rewrite A4 by easy. apply (dget_dset_same Nat.eqb nat_eqb_iff).
        * destruct (A5 g Hg) as (fg & eg & E1 & E2 & E3 & E4 & E5). exists fg, eg.
          rewrite (dget_dset_other Nat.eqb nat_eqb_iff) in E1 by (intros ->; easy). easy.
  Qed.

  (** The second pass over the same functions. *)
  Lemma second_pass shift : forall l idx ss s ss' s' t, NoDup l ->
    fun_loop SY dimG dimF shift idx l ss s = (Ok ss', s') ->
    (forall f, In f l -> exists fn, dget Nat.eqb f (st_funs s) = Some fn /\ fn_cons fn = []) ->
    (forall f, In f l -> dget Nat.eqb f (st_funs t) = dget Nat.eqb f (st_funs s')) ->
    (exists f fn, In f l /\ dget Nat.eqb f (st_funs s) = Some fn /\ (2 <= List.length (fn_pts fn))%nat /\
       exists t', fun_loop SY dimG dimF shift idx l ss t = (Err AssertionError, t')) \/
    ((forall f fn, In f l -> dget Nat.eqb f (st_funs s) = Some fn -> (List.length (fn_pts fn) <= 1)%nat) /\
     exists t', fun_loop SY dimG dimF shift idx l ss t = (Ok ss', t') /\ st_pctr t' = st_pctr t /\ st_ectr t' = st_ectr t).
  Proof.
    induction l as [|f l IH]; intros idx ss s ss' s' t Hn H Hc Ht.
    - right. split; [easy|]. simpl in *. unfold ret in *. injection H; intros <- <-. eauto.
    - assert (HS := fun_loop_state shift (f :: l) idx ss s ss' s' Hn H).
      destruct HS as (_ & _ & _ & _ & HS). destruct (HS f (or_introl eq_refl)) as (fn & es & E & Hb & Hr & E' & Hlen). clear HS.
      destruct (Hc f (or_introl eq_refl)) as [fn0 [E0 Hc0]]. rewrite E in E0; injection E0; intros <-; clear E0.
      rewrite Hc0 in *. simpl app in *.
      inversion Hn as [|? ? Hf Hn']; subst. simpl in H. apply bind_ok in H as [u [s1 [H1 H]]].
      apply add_class_run in H1 as (fn1 & es1 & E1 & _ & Hr1 & ->). rewrite E in E1; injection E1; intros <-; clear E1.
      rewrite Hr in Hr1; injection Hr1; intros <-; clear Hr1.
      apply bind_ok in H as [fn1 [s2 [H2 H]]]. apply get_fun_ok in H2 as [H2 ->]. simpl in H2.
      rewrite (dget_dset_same Nat.eqb nat_eqb_iff) in H2. injection H2; intros <-; clear H2.
      rewrite Hc0 in H. simpl fn_cons in H. simpl fn_pts in H. simpl app in H.
      apply bind_ok in H as [ss1 [s3 [H3 H]]]. apply lift_ok in H3 as [H3 ->].
      apply bind_ok in H as [[] [s4 [H4 H]]]. apply assertM_ok in H4 as [H4 ->].
      assert (Et : dget Nat.eqb f (st_funs t) = Some (set_cons fn es)) by (rewrite Ht; simpl; auto).
      assert (R : fun_loop SY dimG dimF shift idx (f :: l) ss t =
         (if Nat.eqb (List.length (es ++ es)) (List.length (fn_pts fn) * (List.length (fn_pts fn) - 1))
          then fun_loop SY dimG dimF shift (S idx) l ss1 (mkState (st_next t) (st_pctr t) (st_ectr t) (st_fctr t)
             (dset Nat.eqb f (set_cons fn (es ++ es)) (st_funs t)) (st_flist t) (st_plist t) (st_elist t))
          else (Err AssertionError, mkState (st_next t) (st_pctr t) (st_ectr t) (st_fctr t)
             (dset Nat.eqb f (set_cons fn (es ++ es)) (st_funs t)) (st_flist t) (st_plist t) (st_elist t)))).
      { simpl. unfold bind at 1. rewrite (add_class_again f t (set_cons fn es) es Et Hb Hr). simpl.
        unfold bind at 1, get_fun. simpl. rewrite (dget_dset_same Nat.eqb nat_eqb_iff). simpl.
        unfold bind at 1, lift. rewrite (class_loop_prefix _ es _ _ _ _ H3).
        unfold bind, assertM. destruct (Nat.eqb (List.length (es ++ es)) _); reflexivity. }
      destruct (Nat.leb_spec 2 (List.length (fn_pts fn))) as [H2|H2].
      + left. exists f, fn. split; [simpl; auto|]. split; [easy|]. split; [easy|].
        eexists. rewrite R. destruct (Nat.eqb_spec (List.length (es ++ es)) (List.length (fn_pts fn) * (List.length (fn_pts fn) - 1))) as [Eq|_]; [|reflexivity].
        exfalso. rewrite app_length, Hlen in Eq. destruct (List.length (fn_pts fn)) as [|[|n]]; simpl in *; lia.
      + assert (Hes : es = []).
        { destruct es; [easy|]. simpl in Hlen. destruct (List.length (fn_pts fn)) as [|[|n]]; simpl in *; lia. }
        subst es. simpl app in *. rewrite Hlen in R. rewrite (proj2 (Nat.eqb_eq _ _) Hlen) in H4.
        rewrite (proj2 (Nat.eqb_eq _ _) eq_refl) in R.
        set (t1 := mkState (st_next t) (st_pctr t) (st_ectr t) (st_fctr t)
             (dset Nat.eqb f (set_cons fn []) (st_funs t)) (st_flist t) (st_plist t) (st_elist t)) in *.
        assert (C1 : forall g, In g l -> exists fg, dget Nat.eqb g (dset Nat.eqb f (set_cons fn []) (st_funs s)) = Some fg /\ fn_cons fg = []).
        { intros g Hg. rewrite (dget_dset_other Nat.eqb nat_eqb_iff) by (intros ->; easy). apply Hc. simpl; auto. }
        assert (C2 : forall g, In g l -> dget Nat.eqb g (st_funs t1) = dget Nat.eqb g (st_funs s')).
        { intros g Hg. unfold t1; simpl. rewrite (dget_dset_other Nat.eqb nat_eqb_iff) by (intros ->; easy). apply Ht. simpl; auto. }
        destruct (IH _ _ _ _ _ t1 Hn' H C1 C2) as [(g & fg & Hg & Eg & Hlg & t' & R2)|[Hall (t' & R2 & P1 & P2)]].
        * left. exists g, fg. simpl in Eg. rewrite (dget_dset_other Nat.eqb nat_eqb_iff) in Eg by (intros ->; easy).
          split; [simpl; auto|]. split; [easy|]. split; [easy|]. exists t'. rewrite R. exact R2.
        * right. split.
          -- intros g fg [<-|Hg] Eg; [rewrite E in Eg; injection Eg; intros <-; lia|].
             apply (Hall g fg Hg). simpl. rewrite (dget_dset_other Nat.eqb nat_eqb_iff) by (intros ->; easy). easy.
          -- exists t'. rewrite R. easy.
  Qed.

  Lemma leaf_funs_same : forall l s s',
    (forall f, match dget Nat.eqb f (st_funs s), dget Nat.eqb f (st_funs s') with
       | Some a, Some b => fn_leaf a = fn_leaf b | None, None => True | _, _ => False end) ->
    leaf_funs l s' = leaf_funs l s.
  Proof.
    induction l as [|f l IH]; intros s s' H; simpl; [easy|]. specialize (IH s s' H). specialize (H f).
    destruct (dget Nat.eqb f (st_funs s)), (dget Nat.eqb f (st_funs s')); try easy. rewrite <- H, IH. easy.
  Qed.
End P.

Section Q.
  Variable SY : sympy.

  Theorem solve_twice :
    forall l sr s', let se := run SY session0 l in let s := se_st se in
      symbolic SY (se_pb se) s = (Ok sr, s') ->
      ((exists f fn, In f (st_flist s) /\ dget Nat.eqb f (st_funs s) = Some fn /\ fn_leaf fn = true /\
                     (2 <= List.length (fn_pts fn))%nat) ->
       exists s'', symbolic SY (se_pb se) s' = (Err AssertionError, s'')) /\
      ((forall f fn, In f (st_flist s) -> dget Nat.eqb f (st_funs s) = Some fn -> fn_leaf fn = true ->
                     (List.length (fn_pts fn) <= 1)%nat) ->
       exists s'', symbolic SY (se_pb se) s' = (Ok sr, s'')).
  Proof.
    intros l sr s' se s H. assert (SI := reachable_inv SY l). fold se in SI.
    assert (I := si_inv _ SI). fold s in I.
    unfold symbolic in H. set (funs := leaf_funs (st_flist s) s) in *.
    assert (Hn : NoDup funs) by (apply leaf_funs_nodup, (inv_flist s I)).
    unfold circuit_symbolic_matrices in H.
    apply bind_ok in H as [[s1 iq] [st1 [H1 H]]]. apply lift_ok in H1 as [H1 ->].
    apply bind_ok in H as [s2 [st2 [H2 H]]].
    apply bind_ok in H as [u [st3 [H3 H]]]. apply assertM_ok in H3 as [H3 ->].
    destruct (pr_metric (se_pb se)) as [m|] eqn:Em; [|unfold raise in H; easy].
    apply bind_ok in H as [wm [st4 [H4 H]]]. apply lift_ok in H4 as [H4 ->].
    unfold ret in H. injection H; intros <- <-. clear H.
    destruct (fun_loop_state SY _ _ _ _ _ _ _ _ _ Hn H2) as (P1 & P2 & P3 & P4 & P5).
    assert (Ef : leaf_funs (st_flist st2) st2 = funs).
    { rewrite P3. apply leaf_funs_same. intros f. destruct (in_dec Nat.eq_dec f funs) as [Hf|Hf].
      - destruct (P5 f Hf) as (fn & es & E1 & _ & _ & E2 & _). rewrite E1, E2. easy.
      - rewrite (P4 f Hf). destruct (dget Nat.eqb f (st_funs s)); easy. }
    assert (C1 : forall f, In f funs -> exists fn, dget Nat.eqb f (st_funs s) = Some fn /\ fn_cons fn = []).
    { intros f Hf. apply leaf_funs_in in Hf as [Hf _]. destruct (inv_funs s I f Hf) as [fn [E Hok]]. exists fn. split; [easy|]. apply Hok. }
    destruct (second_pass SY _ _ _ _ _ _ _ _ _ st2 Hn H2 C1 (fun _ _ => eq_refl)) as [(f & fn & Hf & E & Hlen & t' & R)|[Hall (t' & R & Q1 & Q2)]].
    - split.
      + intros _. exists t'. unfold symbolic. rewrite Ef, P1, P2. unfold circuit_symbolic_matrices.
        unfold bind at 1, lift. rewrite H1. unfold bind. rewrite R. easy.
      + intros Hle. apply leaf_funs_in in Hf as [Hf [fn' [E' El]]]. rewrite E in E'; injection E'; intros <-.
        specialize (Hle f fn Hf E El). lia.
    - split.
      + intros (f & fn & Hf & E & El & Hlen). assert (Hin : In f funs) by (apply leaf_funs_in; split; [easy|eauto]).
        specialize (Hall f fn Hin E). lia.
      + intros _. exists t'. unfold symbolic. rewrite Ef, P1, P2. unfold circuit_symbolic_matrices.
        unfold bind at 1, lift. rewrite H1. unfold bind at 1. rewrite R. unfold bind at 1, assertM. rewrite H3.
        unfold ret at 1. rewrite Em. unfold bind. rewrite H4. easy.
  Qed.

  (** C20 *)
  Definition expected_class (mu : Q) (L : extq) : fclass :=
    match L with
    | Inf => if Qeq_bool mu 0 then CConvex else CStrongly mu
    | Fin l => CSmoothSC (if Qeq_bool mu 0 then 0 else mu) l
    end.

  Theorem class_selection : forall mu L s, exists f s' fn,
    def_function mu L s = (Ok f, s') /\ st_flist s' = st_flist s ++ [f] /\
    st_funs s' = st_funs s ++ [(f, fn)] /\
    fn_leaf fn = true /\ fn_class fn = expected_class mu L /\ fn_pts fn = [] /\
    fn_reuse fn = match L with Fin _ => true | Inf => false end.
  Proof.
    intros mu L s. unfold def_function, expected_class, new_smooth, new_smooth_sc, new_strongly, new_convex.
    destruct L; destruct (Qeq_bool mu 0); simpl; do 3 eexists; repeat split.
  Qed.

  Theorem equal_constants_fail :
    forall l f fn mu L, let s := se_st (run SY session0 l) in
      In f (st_flist s) -> dget Nat.eqb f (st_funs s) = Some fn -> fn_class fn = CSmoothSC mu L ->
      Qeq_bool mu L = true -> (2 <= List.length (fn_pts fn))%nat ->
      exists s', add_class_constraints SY f s = (Err ZeroDivisionError, s').
  Proof.
    intros l f fn mu L s Hf E Ec Heq Hlen. assert (I := si_inv _ (reachable_inv SY l)). fold s in I.
    destruct (inv_funs s I f Hf) as [fn0 [E0 Hok]]. rewrite E in E0; injection E0; intros <-; clear E0.
    destruct Hok as (_ & _ & Hn & _).
    assert (Hcc : forall ti tj, class_constraint SY (CSmoothSC mu L) ti tj = Err ZeroDivisionError).
    { intros ti tj. cbn [class_constraint]. apply Qeq_bool_iff in Heq. unfold qdiv at 1.
      destruct (Qeq_bool (Qred (2 * L)) 0) eqn:E1; [easy|]. cbn [bindr]. unfold qdiv at 1.
      destruct (Qeq_bool L 0) eqn:E2; [easy|]. cbn [bindr]. unfold qdiv at 1.
      replace (Qeq_bool (Qred (2 * (1 - Qred (mu / L)))) 0) with true; [easy|]. symmetry. apply Qeq_bool_iff.
      rewrite !Qred_correct, Heq. apply Qeq_bool_neq in E2. field. easy. }
    exists s. unfold add_class_constraints, bind, get_fun. rewrite E, Ec.
    destruct (fn_pts fn) as [|t0 [|t1 pts]]; simpl in Hlen; try lia. simpl.
    rewrite Nat.eqb_refl. simpl in Hn. inversion Hn as [|? ? H0 _]; subst.
    destruct (Nat.eqb_spec (t_id t0) (t_id t1)) as [Ei|_]; [rewrite Ei in H0; simpl in H0; tauto|].
    cbn [class_constraint] in Hcc. cbn [class_constraint]. rewrite Hcc. easy.
  Qed.
End Q.
