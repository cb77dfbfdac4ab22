(** Strictly feasible data for the builders with [n_func] functions. *)
From Coq Require Import List Arith Bool String QArith Reals Qreals Lia Lra FunctionalExtensionality.
From Verif Require Import Prelude PreludeFacts Sympy SympyFacts AlgebraModel Denote AlgebraFacts FunctionModel CircuitModel SymSpec
  Spec SpecFacts ClassSpec CertSpec StateSpec StateFacts CertFacts FunctionSpec FunctionFacts FunctionFacts2
  SymbolFacts SolverSpec BuilderModel BuilderSpec BuildsSpec BuilderLogic BuilderT BuilderRun BuilderList BuilderProof BuilderListProof Examples BuilderExamples
  DualitySpec DualityProps DualityExamples StrictSpec StrictProps StrictSum StrictBuild StrictMulti StrictNet.
Import ListNotations.
Local Open Scope R_scope.

Lemma upds_repeat {A} (g : A -> A) a n : upds (seq 0 n) g (repeat a n) = repeat (g a) n.
Proof.
  apply nth_error_same. intros j. rewrite nth_error_upds by apply seq_NoDup. destruct (Nat.lt_ge_cases j n) as [H|H].
  - replace (existsb (Nat.eqb j) (seq 0 n)) with true.
    + rewrite !nth_error_repeat by exact H. reflexivity.
    + symmetry. apply existsb_exists. exists j. split; [apply in_seq; lia|apply Nat.eqb_refl].
  - rewrite !(proj2 (nth_error_None _ _)) by (rewrite repeat_length; exact H). destruct (existsb _ _); reflexivity.
Qed.
Lemma nth_upd_other {A} (g : A -> A) d : forall l i j, i <> j -> nth j (upd i g l) d = nth j l d.
Proof. induction l as [|a l IH]; intros [|i] [|j] H; try reflexivity; [contradiction (H eq_refl)|]. simpl. apply IH. congruence. Qed.

Section L.
  Context {SY : sympy} (OK : sympy_ok SY).
  Variable P : list string.
  Notation U := (U P).

  Lemma U_eq bs (k k' : M problem) s c A : (forall s, k s = k' s) -> U bs k s c A -> U bs k' s c A.
  Proof using Type. intros E H HS Hc Hv Hb. rewrite <- E. exact (H HS Hc Hv Hb). Qed.
  Lemma U_assoc {A B} (m : M A) (f : A -> M B) (g : B -> M problem) bs s c R :
    U bs (bind m (fun a => bind (f a) g)) s c R -> U bs (bind (bind m f) g) s c R.
  Proof using Type. apply U_eq. intros s0. apply bind_assoc. Qed.
  Lemma U_imp bs k s c (A A' : env -> senv -> list (list vec) -> Prop) : (forall r en rho, A' r en rho -> A r en rho) -> U bs k s c A -> U bs k s c A'.
  Proof using Type.
    intros H HU HS Hc Hv Hb. destruct (HU HS Hc Hv Hb) as (p & sf & K1 & K2 & K3 & K4). exists p, sf. repeat (split; [assumption|]).
    intros r v phi en Sv Cs Cu Vs HA. exact (K4 r v phi en Sv Cs Cu Vs (H _ _ _ HA)).
  Qed.
  Lemma U_with bs k s c A : (St P s -> okc P s c -> U bs k s c A) -> U bs k s c A.
  Proof using Type. intros H HS Hc. exact (H HS Hc HS Hc). Qed.
  Lemma U_drop bs k s c c' (m : senv -> senv) A' : cf c' = cf c ->
    (forall s, okc P s c -> okc P s c') -> (forall v phi en, vals v phi c en -> vals v phi c' (m en)) ->
    U bs k s c' A' -> U bs k s c (fun r en rho => A' r (m en) rho).
  Proof using Type.
    intros Ef Ho Hm HU HS Hc Hv Hb. destruct (HU HS (Ho s Hc)) as (p & sf & K1 & K2 & K3 & K4).
    { unfold covers in *. rewrite Ef. exact Hv. } { unfold bits in *. rewrite Ef. exact Hb. }
    exists p, sf. repeat (split; [assumption|]). intros r v phi en Sv Cs Cu Vs HA. apply (K4 r v phi (m en) Sv Cs Cu (Hm _ _ _ Vs)). rewrite Ef. exact HA.
  Qed.

  Lemma U_define_gen mu L q n : good_class mu L -> inside mu L q -> forall bs (k : list nat * option nat -> M problem) s c F A', (1 <= List.length (cf c))%nat ->
    In (F, seq 0 (List.length (cf c))) (cs c) \/ cf c = [F] ->
    (forall fs G s', List.length fs = n -> U (bs ++ repeat (reuse_of L) n) (k (cf c ++ fs, Some G)) s' (addfs fs G c) A') ->
    U bs (bind (define_loop SY mu L n (cf c) (Some F)) k) s c (fun r en rho => A' r (pushfs (repeat (qf q) n) en) (rho ++ repeat [] n)).
  Proof using Type.
    intros HC Hq. induction n as [|n IH]; intros bs k s c F A' H1 HF Hk.
    - simpl. apply (U_imp _ _ _ _ (fun r en rho => A' r (pushfs [] en) rho)); [intros r en rho; rewrite app_nil_r; exact (fun H => H)|].
      refine (U_drop bs _ s c (addfs [] F c) (pushfs []) A' _ _ _ _).
      + simpl. apply app_nil_r.
      + intros s0 (B1 & B2 & B3 & B4 & B5 & B6 & B7). unfold addfs, BuilderT.okc; simpl. rewrite app_nil_r. repeat (split; [easy|]).
        constructor; [|constructor]. destruct HF as [HF|HF]; [rewrite Forall_forall in B7; apply B7; easy|]. simpl. rewrite HF in *. simpl.
        split; [|split; [repeat constructor|repeat constructor; intros []]]. left. split; [inversion B1; easy|easy].
      + intros v phi en (V1 & V2). split; [simpl; rewrite !app_nil_r; easy|easy].
      + specialize (Hk [] F s eq_refl). simpl in Hk. rewrite !app_nil_r in Hk. exact Hk.
    - cbn [define_loop]. apply U_assoc.
      refine (U_imp _ _ _ _ _ _ _ (U_def P bs mu L _ s c (fun r en rho => A' r (pushfs (repeat (qf q) n) en) (rho ++ repeat [] n)) HC _)).
      + intros r en rho HA. exists q. split; [exact Hq|]. unfold pushfs, pushf in *. simpl in *. rewrite <- !app_assoc. exact HA.
      + intros fi s1. apply U_assoc. apply (U_fn_add P _ F fi (seq 0 (List.length (cf c))) (List.length (cf c))).
        * unfold addf. cbn [cf]. rewrite nth_error_app2, Nat.sub_diag by lia. reflexivity.
        * destruct HF as [HF|HF].
          -- right. apply In_nth_error in HF as [j Hj]. exists j. exact Hj.
          -- left. exists O. simpl. rewrite HF. split; reflexivity.
        * rewrite in_seq. lia.
        * intros G s2.
          refine (IH _ k s2 (adds G _ (addf fi c)) G A' _ _ _).
          -- simpl. rewrite app_length. simpl. lia.
          -- left. simpl. left. f_equal. rewrite app_length. simpl. rewrite Nat.add_1_r, seq_S. reflexivity.
          -- intros fs G' s' Hl. specialize (Hk (fi :: fs) G' s'). unfold addfs in *. simpl in *. rewrite <- !app_assoc. simpl. apply Hk. lia.
  Qed.
  Lemma U_define mu L q n (k : list nat * option nat -> M problem) s A' : good_class mu L -> inside mu L q -> (1 <= n)%nat ->
    (forall fs G s', List.length fs = n -> U (repeat (reuse_of L) n) (k (fs, Some G)) s' (ctxn n fs G) A') ->
    U [] (bind (define_loop SY mu L n [] None) k) s ctx0 (fun r en rho => en = senv0 /\ rho = [] /\ A' r (mkSE (repeat (qf q) n) [] [] [] []) (repeat [] n)).
  Proof using Type.
    intros HC Hq Hn Hk. destruct n as [|n]; [lia|]. cbn [define_loop]. apply U_assoc.
    refine (U_imp _ _ _ _ _ _ _ (U_def P [] mu L _ s ctx0 (fun r en rho => A' r (pushfs (repeat (qf q) n) en) (rho ++ repeat [] n)) HC _)).
    - intros r en rho (-> & -> & HA). exists q. split; [exact Hq|]. exact HA.
    - intros fi s1. apply U_assoc. eapply U_eq; [intros s2; symmetry; exact (eq_refl (bind (ret fi) _ s2))|].
      refine (U_eq _ (bind (define_loop SY mu L n [fi] (Some fi)) k) _ _ _ _ _ _); [reflexivity|].
      refine (U_define_gen mu L q n HC Hq _ k s1 (addf fi ctx0) fi A' _ _ _); [simpl; lia|right; reflexivity|].
      intros fs F s' Hl. specialize (Hk (fi :: fs) F s'). unfold addfs, ctxn in *. simpl in *. rewrite Hl. apply Hk. lia.
  Qed.

  Lemma U_stat_of F is n bs (k : point * point * expr -> M problem) s c A' :
    nth_error (cs c) n = Some (F, is) -> (1 <= List.length is)%nat ->
    (forall x e s' gs, pruned x -> (2 <= List.length is -> Forall2 (fun i g => recorded s' (nth i (cf c) 0%nat) x g /\ wf_p g) is gs)%nat ->
       ((2 <= List.length is)%nat -> forall v, vsum (map (den_p v) gs) = vzero) ->
       U bs (k (x, zero_point, e)) s' (adde e (addx x c)) A') ->
    U bs (bind (stationary_of SY (Some F)) k) s c (fun r en rho =>
      exists x z, optimal 1 (funs_at en is) x z /\ A' r (pushe z (pushx x en)) (upds is (fun l => l ++ [x]) rho)).
  Proof using OK.
    intros Hn Hl Hk. apply U_with. intros HS Hc.
    assert (HF' : sums s F (map (fun i => nth i (cf c) 0%nat) is) /\ Forall (fun i => (i < List.length (cf c))%nat) is /\ NoDup is).
    { destruct Hc as (_ & _ & _ & _ & _ & _ & C). rewrite Forall_forall in C. apply (C (F, is)). eapply nth_error_In; eauto. }
    destruct HF' as (F1 & F2 & _). destruct F1 as [[F1 E1]|F1].
    - destruct is as [|i [|]]; [simpl in Hl; lia| |discriminate E1]. simpl in E1. injection E1 as E1. inversion_clear F2 as [|? ? F3 _].
      refine (U_imp _ _ _ _ _ _ _ (U_stat OK P bs i F k s c A' _ _)).
      + intros r en rho (x & z & (Hx & gs & zs & HQ & Hs & ->) & HA). exists x, (rsuml zs). split; [exact Hx|].
        clear Hk. unfold funs_at in HQ. simpl in HQ. inversion HQ as [|phi g z phis gs' zs' HQ1 HQ2]; subst. inversion HQ2; subst.
        assert (g = vzero). { rewrite <- Hs. apply functional_extensionality; intros j. unfold vsum, vadd, vzero. simpl. unfold vadd. ring. }
        subst g. replace (rsuml [z]) with z in * by (unfold rsuml; simpl; ring). split; [exact HQ1|exact HA].
      + rewrite <- E1. apply nth_error_nth'. exact F3.
      + intros x e s' Hp. apply (Hk x e s' [] Hp); simpl; lia.
    - refine (U_imp _ _ _ _ _ _ _ (U_stat_sum OK P bs F is n k s c A' Hn Hl _ _)).
      + intros r en rho H. exact H.
      + intros [_ (fn & Hg & Hlf)]. destruct F1 as [_ (fn' & Hg' & Hlf' & _)]. congruence.
      + intros x e s' gs Hp H1 H2. apply (Hk x e s' gs Hp); auto.
  Qed.

  Lemma U_oracles fs : forall is p X bs (k : list point -> M problem) s c A', at_is c is fs -> NoDup is -> derp P c p X -> pruned p ->
    (forall ys s', List.length ys = List.length fs -> U bs (k ys) s' (addl ys c) A') ->
    U bs (bind (oracle_loop SY fs p) k) s c (fun r en rho =>
      exists gs zs, queries 1 (X r en) (funs_at en is) gs zs /\ Forall (fun i => ~ In (X r en) (nth i rho [])) is /\
        A' r (pushl gs en) (upds is (fun l => l ++ [X r en]) rho)).
  Proof using OK.
    induction fs as [|f fs IH]; intros is p X bs k s c A' Hat Hnd HX Hp Hk; inversion Hat as [|i ? is' ? H1 H3]; subst.
    - simpl. refine (U_imp _ _ _ _ (fun r en rho => A' r (pushl [] en) rho) _ _ (U_drop bs _ s c (addl [] c) (pushl []) A' eq_refl _ _ (Hk [] s eq_refl))).
      + intros r en rho (gs & zs & HQ & _ & HA). inversion HQ; subst. exact HA.
      + intros s0 H0. apply okc_addl; [easy|constructor].
      + intros v phi en Hv. apply vals_addl; easy.
    - cbn [oracle_loop]. apply U_assoc. inversion_clear Hnd as [|? ? N1 N2].
      refine (U_imp _ _ _ _ _ _ _ (U_oracle OK P bs i f p X _ s c (fun r en rho => exists gs zs, queries 1 (X r (mkSE (vf en) (tl (vx en)) (tl (ve en)) (vl en) (vm en))) (funs_at en is') gs zs /\
          Forall (fun i => ~ In (X r (mkSE (vf en) (tl (vx en)) (tl (ve en)) (vl en) (vm en))) (nth i rho [])) is' /\
          A' r (gather_x (pushl gs en)) (upds is' (fun l => l ++ [X r (mkSE (vf en) (tl (vx en)) (tl (ve en)) (vl en) (vm en))]) rho)) H1 HX Hp _)).
      + intros r en rho (gs & zs & HQ & HF & HA). inversion HQ as [|phi g z phis gs' zs' HQ1 HQ2]; subst. inversion_clear HF as [|? ? F1 F2].
        exists g, z. split; [exact HQ1|]. split; [exact F1|]. exists gs', zs'. split; [destruct en; exact HQ2|]. split; [|destruct en; exact HA].
        destruct en as [e1 e2 e3 e4 e5]. cbn in *. rewrite Forall_forall in F2 |- *. intros j Hj. rewrite nth_upd_other by (intros <-; contradiction). exact (F2 j Hj).
      + intros y e s1. apply U_assoc.
        refine (IH is' p (fun r en => X r (mkSE (vf en) (tl (vx en)) (tl (ve en)) (vl en) (vm en))) bs _ s1 (adde e (addx y c)) (fun r en rho => A' r (gather_x en) rho) _ N2 _ Hp _).
        * exact H3.
        * apply (derp_weak P c _ p X (fun en => mkSE (vf en) (tl (vx en)) (tl (ve en)) (vl en) (vm en))); [| |exact HX].
          -- intros s0 H0. eapply okc_split_x, okc_split_e; eauto.
          -- intros v phi en (V1 & V2 & V3 & V4 & V5). simpl in *. unfold vals; simpl. rewrite <- V2, <- V3. easy.
        * intros ys s' Hl. apply (U_drop _ _ _ _ (addl (y :: ys) c) gather_x); [reflexivity| | |].
          -- intros s0 H0. apply okc_addl; [eapply okc_split_x, okc_split_e, okc_split_l; eauto|].
             constructor; [eapply okc_x, okc_split_e, okc_split_l; eauto|eapply okc_l; eauto].
          -- intros v phi en (V1 & V2 & V3 & V4 & V5). simpl in *. unfold vals, gather_x; simpl. rewrite <- V2, <- V3, <- V4. easy.
          -- apply Hk. simpl. congruence.
  Qed.
  (** all functions the same quadratic, evaluated together at the same points *)
  Lemma queries_repeat q a n : 0 <= q -> queries 1 (pt a) (repeat (qf q) n) (repeat (pt (q * a)) n) (repeat (q * (a * a) / 2) n).
  Proof using Type. intros H. induction n as [|n IH]; simpl; constructor; [apply qf_query_pt; exact H|exact IH]. Qed.
  Lemma vsum_repeat n a : vsum (repeat (pt a) n) = pt (INR n * a).
  Proof using Type.
    induction n as [|n IH].
    - apply functional_extensionality; intros [|j]; unfold vsum, vzero, pt; simpl; ring.
    - rewrite S_INR. change (vsum (repeat (pt a) (S n))) with (vadd (pt a) (vsum (repeat (pt a) n))). rewrite IH.
      apply functional_extensionality; intros [|j]; unfold vadd, pt; simpl; ring.
  Qed.
  Lemma optimal_repeat q n : 0 <= q -> optimal 1 (repeat (qf q) n) (pt 0) 0.
  Proof using Type.
    intros H. replace (repeat (qf q) n) with (map qf (repeat q n)) by (induction n; simpl; congruence). apply opt_zero. apply Forall_forall. intros x Hx. apply repeat_spec in Hx. subst x. exact H.
  Qed.
  Lemma fresh_repeat (x : vec) l n : ~ In x l -> Forall (fun i => ~ In x (nth i (repeat l n) [])) (seq 0 n).
  Proof using Type.
    intros H. apply Forall_forall. intros i Hi. apply in_seq in Hi. rewrite (nth_indep _ [] l) by (rewrite repeat_length; lia). rewrite nth_repeat. exact H.
  Qed.
  Lemma forall_repeat {A} (Q : A -> Prop) a n : Q a -> Forall Q (repeat a n).
  Proof using Type. intros H. apply Forall_forall. intros x Hx. apply repeat_spec in Hx. subst x. exact H. Qed.
End L.

Ltac lustep OK q Iq := lazymatch goal with
  | |- U _ _ (bind (define_loop _ _ _ _ _ _) _) _ _ _ => eapply (U_define _ _ _ q); [assumption|exact Iq|lia|intros ? ? ? ?; after]
  | |- U _ _ (bind (stationary_of _ _) _) _ _ _ => eapply (U_stat_of OK _ _ _ 0); [reflexivity|rewrite seq_length; lia|intros ? ? ? ? ? _ _; after]
  | |- U _ _ (bind (oracle_loop _ _ _) _) _ _ _ => eapply (U_oracles OK); [at_n|apply seq_NoDup|derp' OK|prune|intros ? ? ?; after]
  | |- U _ _ (bind set_initial_point _) _ _ _ => eapply U_point; intros ? ? ?; after
  | |- U ?P ?bs (let x : point := ?e in @?k x) ?s ?c ?A => change (U P bs (k e) s c A); eapply (U_let P bs k e); [derp' OK|intros ? ?; after]
  | |- U ?P ?bs (let x : expr := ?e in @?k x) ?s ?c ?A => change (U P bs (k e) s c A); eapply (U_lete P bs k e); [dere' OK|intros ?; after]
  | |- U _ _ (ret (set_performance_metric _ _)) _ _ _ => eapply U_ret; try reflexivity; intros ? []
  end.

Section B.
  Context {SY : sympy} (OK : sympy_ok SY).
  Lemma primal_decomposition_strict s0 n mu L C : good_class mu L -> Q2R C <> 0 -> (1 <= n)%nat -> Inv s0 ->
    forall p s r q x1, primal_decomposition SY None n mu L C s0 = (Ok p, s) ->
    inside mu L q -> NoDup (primal_points n (Q2R C) (r "h"%string) (r "alpha"%string) q x1) ->
    exists v, v_env v = r /\ strictly_feasible v p s.
  Proof.
    intros HC NC Hn HI p s r q x1 E Iq Nd. revert E. cbv delta [primal_decomposition]; cbv beta. intros E.
    refine (U_start default_params None _ _ s0 _ I HI _ p s r E _).
    - repeat lustep OK q Iq.
    - clear E. unfold funs_at, pushl, pushx, pushe, senv0. cbn [vf vx ve vl vm nth]. apply nodup_pt in Nd. unfold primal_points in Nd. cbn [map] in Nd.
      assert (Hq : 0 <= q) by (destruct HC, Iq; lra). set (x15 := x1 - r "alpha"%string * r "h"%string / Q2R C * (INR n * (q * x1))) in *.
      assert (N1 : NoDup [pt 0; pt x1]) by exact (nodup_prefix [pt 0; pt x1] _ Nd).
      assert (Ef := funs_n n (repeat (qf q) n) (repeat_length _ _)). rewrite !Ef.
      split; [reflexivity|]. split; [reflexivity|]. exists (pt 0), 0. split; [apply optimal_repeat; exact Hq|].
      exists (pt x1). split; [apply in_R1_pt|]. rewrite !upds_repeat. cbn [app]. eexists _, _. split; [rewrite ?Ef; apply queries_repeat; exact Hq|].
      split; [apply fresh_repeat; exact (nodup_last [pt 0] _ N1)|]. rewrite !upds_repeat, !vsum_repeat. cbn [app].
      match goal with |- context [queries 1 ?e] => assert (E1 : e = pt x15) by (unfold x15; pteq); rewrite !E1; clear E1 end.
      eexists _, _. split; [rewrite ?Ef; apply queries_repeat; exact Hq|]. split; [apply fresh_repeat; exact (nodup_last [pt 0; pt x1] _ Nd)|].
      rewrite ?upds_repeat. cbn [app]. apply forall_repeat. exact Nd.
  Qed.
End B.

(** * When primal decomposition moves *)
Lemma primal_moves n mu L C h alpha : good_class mu L -> (1 <= n)%nat -> C <> 0 -> h <> 0 -> alpha <> 0 ->
  exists q, inside mu L q /\ NoDup (primal_points n C h alpha q 1).
Proof.
  intros G Hn HC Hh Ha. destruct (good_interval mu L G) as (lo & hi & H1 & H2 & H3).
  assert (Nn : INR n <> 0) by (apply not_0_INR; lia).
  destruct (avoid [C / (alpha * h * INR n); 0] lo hi H1) as (q & Hq & Nq). exists q. split; [auto|].
  assert (Nq0 : q <> 0) by (intros ->; apply Nq; right; left; reflexivity).
  unfold primal_points.
  assert (K : alpha * h / C * (INR n * (q * 1)) <> 0).
  { replace (alpha * h / C * (INR n * (q * 1))) with (alpha * h * INR n * q * / C) by (field; exact HC).
    repeat (apply Rmult_integral_contrapositive_currified; [|first [exact Nn|exact Nq0|apply Rinv_neq_0_compat; exact HC|exact Hh]]). exact Ha. }
  assert (K' : alpha * h / C * (INR n * (q * 1)) <> 1).
  { intros X. apply Nq. left. replace C with (C * (alpha * h / C * (INR n * (q * 1)))) by (rewrite X; ring). field. repeat split; assumption. }
  repeat constructor; simpl; intros J; decompose [or] J; try lra; contradiction.
Qed.
