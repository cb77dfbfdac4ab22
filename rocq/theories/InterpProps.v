(** The constraints of a class characterise its members (C17). *)
From Coq Require Import List Arith Bool String QArith Reals Qreals Lra Lia.
From Verif Require Import Prelude PreludeFacts Sympy SympyFacts AlgebraModel Denote AlgebraFacts
  FunctionModel CircuitModel SymSpec GramFacts SymFacts Spec SpecFacts ClassSpec ClassFacts CertSpec
  StateSpec SessionModel StateFacts CertFacts ClassProps InterpFacts InterpSmooth.
Import ListNotations.
Local Open Scope R_scope.

Lemma nsq_self d x : nsq d (vsub x x) = 0.
Proof. unfold nsq, dot. apply rsum_zero. intros. unfold vsub. ring. Qed.
Lemma dot_self_diff d g x : dot d g (vsub x x) = 0.
Proof. unfold dot. apply rsum_zero. intros. unfold vsub. ring. Qed.

(** Finite data satisfying the inequalities is sampled from a member of the class. *)
Lemma class_interp d c N (x g : nat -> vec) (f : nat -> R) : c <> CBase -> class_params_ok c ->
  (forall i j, (i <= N)%nat -> (j <= N)%nat -> i <> j -> interp_value d c (x i) (g i) (f i) (x j) (g j) (f j) <= 0) ->
  exists phi, in_class d c phi /\ forall i, (i <= N)%nat -> sampled d phi (x i) (g i) (f i).
Proof.
  intros Hb Hp H. destruct c as [| |mu L|mu]; [easy| | |]; simpl in Hp.
  - exists (envelope d N 0 x g f). destruct (strong_interp d N 0 x g f) as [A B].
    + intros i j Hi Hj. destruct (Nat.eq_dec i j) as [->|Hne].
      * rewrite nsq_self, dot_self_diff. lra.
      * specialize (H i j Hi Hj Hne). cbn [interp_value] in H. replace (0 / 2 * nsq d (vsub (x i) (x j))) with 0 by field. lra.
    + lra.
    + split; [|exact B]. simpl. apply (convex_strongly0 d). exact A.
  - exists (sinterp d N (Q2R mu) (Q2R L) x g f Hp). destruct (smooth_interp d N (Q2R mu) (Q2R L) x g f Hp) as (A & B & C).
    + intros i j Hi Hj. destruct (Nat.eq_dec i j) as [->|Hne].
      * rewrite dot_self_diff, nsq_self. assert (nsq d (vsub (vsub (x j) (x j)) (vscal (1 / Q2R L) (vsub (g j) (g j)))) = 0) as ->
          by (unfold nsq, dot; apply rsum_zero; intros; unfold vsub, vscal; ring). lra.
      * apply (H i j Hi Hj Hne).
    + split; [split; assumption|exact C].
  - exists (envelope d N (Q2R mu) x g f). destruct (strong_interp d N (Q2R mu) x g f) as [A B]; [|lra|].
    + intros i j Hi Hj. destruct (Nat.eq_dec i j) as [->|Hne].
      * rewrite nsq_self, dot_self_diff. lra.
      * apply (H i j Hi Hj Hne).
    + split; [exact A|exact B].
Qed.

(** the same for a list of records *)
Lemma class_interp_list v c (l : list trip) : c <> CBase -> class_params_ok c ->
  (forall i j, (i < List.length l)%nat -> (j < List.length l)%nat -> i <> j ->
     let ti := nth i l dummy_trip in let tj := nth j l dummy_trip in
     interp_value (v_dim v) c (den_p v (t_x ti)) (den_p v (t_g ti)) (den_e v (t_f ti))
                              (den_p v (t_x tj)) (den_p v (t_g tj)) (den_e v (t_f tj)) <= 0) ->
  exists phi, in_class (v_dim v) c phi /\ forall t, In t l -> rec_sampled v phi t.
Proof.
  intros Hb Hp H. destruct (class_interp (v_dim v) c (List.length l - 1)
    (fun i => den_p v (t_x (nth i l dummy_trip))) (fun i => den_p v (t_g (nth i l dummy_trip))) (fun i => den_e v (t_f (nth i l dummy_trip))) Hb Hp) as [phi [A B]].
  - intros i j Hi Hj Hne. apply H; lia.
  - exists phi. split; [exact A|]. intros t Ht. destruct (In_nth l t dummy_trip Ht) as (i & Hi & <-). apply (B i). lia.
Qed.

Lemma finite_choice {A} (P : nat -> A -> Prop) (a0 : A) l : (forall f, In f l -> exists a, P f a) ->
  exists phi : nat -> A, forall f, In f l -> P f (phi f).
Proof.
  induction l as [|f l IH]; intros H.
  - exists (fun _ => a0). easy.
  - destruct IH as [phi Hphi]; [intros; apply H; simpl; auto|]. destruct (H f (or_introl eq_refl)) as [a Ha].
    exists (fun k => if Nat.eqb k f then a else phi k). intros k [<-|Hk]; [rewrite Nat.eqb_refl; easy|].
    destruct (Nat.eqb_spec k f) as [->|_]; auto.
Qed.

Section P.
  Variable SY : sympy.
  Theorem class_exact : sympy_ok SY ->
    forall l f fn s' fn' v, let s := se_st (run SY session0 l) in
      In f (st_flist s) -> dget Nat.eqb f (st_funs s) = Some fn -> fn_leaf fn = true ->
      class_params_ok (fn_class fn) ->
      add_class_constraints SY f s = (Ok tt, s') -> dget Nat.eqb f (st_funs s') = Some fn' ->
      (forall e, In e (fn_cons fn') -> den_e v e <= 0) <->
      exists phi, in_class (v_dim v) (fn_class fn) phi /\ forall t, In t (fn_pts fn) -> rec_sampled v phi t.
  Proof.
    intros OK l f fn s' fn' v s Hf E El Hp H E'. split.
    - intros HC. assert (I := si_inv _ (reachable_inv SY l)). fold s in I.
      destruct (inv_funs s I f Hf) as [fn0 [E0 Hok]]. rewrite E in E0; injection E0; intros <-; clear E0.
      destruct Hok as (Hb & _). rewrite El in Hb. destruct Hb as [_ Hb].
      destruct (add_class_spec SY s f fn s' tt I Hf E H) as (fn2 & E2 & _ & _ & F).
      rewrite E' in E2; injection E2; intros <-; clear E2.
      apply class_interp_list; [exact Hb|exact Hp|]. intros i j Hi Hj Hne. cbv zeta.
      destruct (Forall2_in_l _ _ _ (i, j) F) as [e [He Hcc]]; [apply pairs_spec; auto|]. simpl in Hcc.
      rewrite <- (class_constraint_den SY OK v _ _ _ _ Hcc) by (eapply rec_wf; eauto; apply nth_In; easy). apply HC, He.
    - intros (phi & A & B). eapply (class_sound SY OK l f fn s' fn' v phi); eauto.
  Qed.

  (** the matrices of the constraints, at the Gram matrix of [v] *)
  Definition matrices_hold (s : state) (v : valuation) (sr : symres) : Prop :=
    forall b F i j w, dget skey_eqb (SK b F i j) (sr_exp sr) = Some w ->
      (b = 0%nat -> paired s v w <= 0) /\ (b = 1%nat -> paired s v w = 0).
  Theorem problem_exact_inv : sympy_ok SY ->
    forall s p sr s' v, Inv s -> own_pb s p ->
      symbolic SY p s = (Ok sr, s') -> constant_free p s ->
      (forall f fn, In f (st_flist s) -> dget Nat.eqb f (st_funs s) = Some fn -> fn_leaf fn = true -> class_params_ok (fn_class fn)) ->
      matrices_hold s v sr <-> constraints_hold v p /\ exists phi, consistent v phi s.
  Proof.
    intros OK s p sr s' v I HB HS (CM & CC & CF) HP. rewrite Forall_forall in CC.
    destruct (stored_inv SY OK s p sr s' I HB HS) as (ND & _ & KS & KI & KE & _ & KF).
    assert (GET : forall k, In k (keys (sr_exp sr)) -> exists w, dget skey_eqb k (sr_exp sr) = Some w).
    { intros k Hk. destruct (dget skey_eqb k (sr_exp sr)) as [w|] eqn:E; [eauto|]. apply (dget_none skey_eqb skey_eqb_eq) in E. easy. }
    assert (IC : forall e, In e (ineqs p) <-> exists c, In c (pr_cons p) /\ c_kind c = Inequality /\ c_expr c = e).
    { intros e. unfold ineqs. rewrite in_map_iff. split.
      - intros (c & Ec & Hc). apply filter_In in Hc as [Hc Hk]. exists c. destruct (c_kind c); simpl in Hk; try discriminate; auto.
      - intros (c & Hc & Hk & Ec). exists c. split; [easy|]. apply filter_In. rewrite Hk. easy. }
    assert (EC : forall e, In e (eqs p) <-> exists c, In c (pr_cons p) /\ c_kind c = Equality /\ c_expr c = e).
    { intros e. unfold eqs. rewrite in_map_iff. split.
      - intros (c & Ec & Hc). apply filter_In in Hc as [Hc Hk]. exists c. destruct (c_kind c); simpl in Hk; try discriminate; auto.
      - intros (c & Hc & Hk & Ec). exists c. split; [easy|]. apply filter_In. rewrite Hk. easy. }
    split.
    - intros MH. split.
      + intros c Hc. destruct (c_kind c) eqn:Ek.
        * assert (Hin : In (c_expr c) (eqs p)) by (apply EC; eauto). destruct (In_nth_error _ _ Hin) as [i Hi].
          assert (Hl : (i < List.length (eqs p))%nat) by (apply nth_error_Some; congruence).
          destruct (GET (SK 1 0 i 0)) as [w Hw]; [apply KS; right; left; auto|]. rewrite <- (KE i (c_expr c) w Hi Hw (CC c Hc) v). apply (MH 1%nat 0%nat i 0%nat w Hw). easy.
        * assert (Hin : In (c_expr c) (ineqs p)) by (apply IC; eauto). destruct (In_nth_error _ _ Hin) as [i Hi].
          assert (Hl : (i < List.length (ineqs p))%nat) by (apply nth_error_Some; congruence).
          destruct (GET (SK 0 0 i 0)) as [w Hw]; [apply KS; left; auto|]. rewrite <- (KI i (c_expr c) w Hi Hw (CC c Hc) v). apply (MH 0%nat 0%nat i 0%nat w Hw). easy.
      + destruct (finite_choice (fun f phi => forall fn, dget Nat.eqb f (st_funs s) = Some fn -> fn_leaf fn = true ->
          in_class (v_dim v) (fn_class fn) phi /\ Forall (rec_sampled v phi) (fn_pts fn)) (mkFun (fun _ => True) (fun _ => 0)) (st_flist s)) as [phi Hphi].
        * intros f Hf. destruct (inv_funs s I f Hf) as [fn [E Hok]]. destruct (fn_leaf fn) eqn:El.
          2:{ exists (mkFun (fun _ => True) (fun _ => 0)). intros fn2 E2. rewrite E in E2. injection E2; intros <-. congruence. }
          destruct Hok as (Hb & _). rewrite El in Hb. destruct Hb as [_ Hb].
          destruct (class_interp_list v (fn_class fn) (fn_pts fn) Hb (HP f fn Hf E El)) as [phi [A B]].
          -- intros i j Hi Hj Hne. assert (Hlf : In f (leaf_funs (st_flist s) s)) by (apply leaf_funs_in; eauto).
             destruct (In_nth_error _ _ Hlf) as [k Hk]. destruct (GET (SK 0 (k + shift_of p) i j)) as [w Hw].
             { apply KS. right. right. split; [reflexivity|]. exists k, f, fn. split; [reflexivity|]. split; [exact Hk|]. split; [exact E|]. auto. }
             cbv zeta. rewrite <- (KF k f fn i j w Hk E Hi Hj Hne Hw (CF f fn Hf E El) v). apply (MH _ _ _ _ _ Hw). easy.
          -- exists phi. intros fn2 E2 _. rewrite E in E2. injection E2; intros <-. split; [easy|]. apply Forall_forall, B.
        * exists phi. intros f fn Hf E El. split; [apply (HP f fn Hf E El)|]. apply (Hphi f Hf fn E El).
    - intros (HH & phi & HC) b F i j w Hw. assert (Hk : In (SK b F i j) (keys (sr_exp sr))).
      { apply dget_in in Hw; [|apply skey_eqb_eq]. apply (in_map fst) in Hw. exact Hw. }
      apply KS in Hk. destruct Hk as [(-> & -> & -> & Hi)|[(-> & -> & -> & Hi)|(-> & k & f & fn & -> & Hk & E & Hi & Hj & Hne)]].
      + split; [|easy]. intros _. apply nth_error_Some in Hi. destruct (nth_error (ineqs p) i) as [e|] eqn:Ee; [|easy].
        apply nth_error_In in Ee as Hin. apply IC in Hin as (c & Hc & Ek & <-). rewrite (KI i _ w Ee Hw (CC c Hc) v). specialize (HH c Hc). rewrite Ek in HH. exact HH.
      + split; [easy|]. intros _. apply nth_error_Some in Hi. destruct (nth_error (eqs p) i) as [e|] eqn:Ee; [|easy].
        apply nth_error_In in Ee as Hin. apply EC in Hin as (c & Hc & Ek & <-). rewrite (KE i _ w Ee Hw (CC c Hc) v). specialize (HH c Hc). rewrite Ek in HH. exact HH.
      + split; [|easy]. intros _. apply nth_error_In in Hk as Hlf. apply leaf_funs_in in Hlf as (Hf & fn2 & E2 & El). rewrite E in E2. injection E2; intros <-.
        pose proof (KF k f fn i j w Hk E Hi Hj Hne Hw (CF f fn Hf E El) v) as KV. cbv zeta in KV. rewrite KV.
        destruct (HC f fn Hf E El) as (A & B & C). rewrite Forall_forall in C.
        set (ti := nth i (fn_pts fn) dummy_trip) in *. set (tj := nth j (fn_pts fn) dummy_trip) in *.
        assert (Ti : In ti (fn_pts fn)) by (apply nth_In; easy). assert (Tj : In tj (fn_pts fn)) by (apply nth_In; easy).
        destruct (inv_funs s I f Hf) as [fn0 [E0 Hok]]. rewrite E in E0; injection E0; intros <-; clear E0.
        destruct Hok as (Hb & _). rewrite El in Hb. destruct Hb as [_ Hb].
        destruct (class_constraint_total SY (fn_class fn) ti tj Hb A) as [e He].
        rewrite <- (class_constraint_den SY OK v _ _ _ _ He) by (eapply rec_wf; eauto).
        eapply (class_constraint_sound SY OK v (fn_class fn) (phi f)); eauto using rec_wf.
  Qed.
  Theorem problem_exact : sympy_ok SY ->
    forall l sr s' v, let se := run SY session0 l in let s := se_st se in
      symbolic SY (se_pb se) s = (Ok sr, s') -> constant_free (se_pb se) s ->
      (forall f fn, In f (st_flist s) -> dget Nat.eqb f (st_funs s) = Some fn -> fn_leaf fn = true -> class_params_ok (fn_class fn)) ->
      matrices_hold s v sr <-> constraints_hold v (se_pb se) /\ exists phi, consistent v phi s.
  Proof.
    intros OK l sr s' v se s. assert (SI := reachable_inv SY l). fold se in SI.
    exact (problem_exact_inv OK s (se_pb se) sr s' v (si_inv _ SI) (si_pb _ SI)).
  Qed.
End P.

Section B.
  Variable SY : sympy.
  Theorem bound_exact : sympy_ok SY ->
    forall l sr s' m wm B, let se := run SY session0 l in let s := se_st se in
      symbolic SY (se_pb se) s = (Ok sr, s') -> constant_free (se_pb se) s ->
      (forall f fn, In f (st_flist s) -> dget Nat.eqb f (st_funs s) = Some fn -> fn_leaf fn = true -> class_params_ok (fn_class fn)) ->
      pr_metric (se_pb se) = Some m -> dget skey_eqb SObj (sr_exp sr) = Some wm ->
      (forall v, matrices_hold s v sr -> paired s v wm <= B) <->
      (forall v phi, consistent v phi s -> constraints_hold v (se_pb se) -> den_e v m <= B).
  Proof.
    intros OK l sr s' m wm B se s HS CF HP Hm Hw. destruct (stored_under_key SY OK l sr s' HS) as (_ & _ & _ & _ & _ & KM & _). fold se in KM. fold s in KM.
    assert (V : forall v, paired s v wm = den_e v m) by (intros v; apply (KM m wm Hm Hw); apply CF, Hm). split.
    - intros H v phi HC HH. rewrite <- V. apply H. apply (problem_exact SY OK l sr s' v HS CF HP). split; [exact HH|]. exists phi. exact HC.
    - intros H v HM. rewrite V. apply (problem_exact SY OK l sr s' v HS CF HP) in HM as [HH [phi HC]]. apply (H v phi HC HH).
  Qed.
End B.
