From Coq Require Import List Arith Bool Reals Lia Lra Psatz FunctionalExtensionality.
From Verif Require Import Prelude PreludeFacts Spec SpecFacts BuilderSpec MethodModel MethodSpec GraphFacts ProxFacts DadmmFacts.
Import ListNotations.
Local Open Scope R_scope.

Section Conv.
  Variables (n d : nat) (es : list (nat * nat)) (g : graph) (a : dalg) (step : R) (prox : nat -> vec -> R -> vec)
            (phi : nat -> rfun).
  Hypothesis net : network n es g.
  Hypothesis conn : connected n es.
  Hypothesis n2 : (2 <= n)%nat.
  Hypothesis cvx : forall j, (j < n)%nat -> convex (phi j).
  Hypothesis pf : prox_family d n phi prox.
  Hypothesis Rpos : 0 < d_R a.
  Notation A := (A g).
  Notation next := (dadmm_step a step g prox).
  Notation esum := (esum n g).

  Lemma dpos j : (j < n)%nat -> 0 < INR (deg_of g j).
  Proof. intros H. apply lt_0_INR. apply (degree_pos n es g net conn n2 j H). Qed.
  Lemma rho_pos j : (j < n)%nat -> 0 < d_R a / INR (deg_of g j).
  Proof. intros H. apply Rdiv_lt_0_compat; [easy|apply dpos, H]. Qed.
  Lemma prox_Rd_fam j z : (j < n)%nat -> in_Rd d z -> in_Rd d (prox j z (d_R a / INR (deg_of g j))).
  Proof. intros H Hz. apply (prox_family_Rd d n phi); auto using rho_pos. Qed.

  Definition slope (s : dstate) (j l : nat) : vec :=
    fun k => current g s j l k + / d_R a * (potential g s j l k - st_x (next s) j k).
  Definition gof (s : dstate) (j : nat) : vec := vscal (/ (d_R a / INR (deg_of g j))) (vsub (zof g a s j) (st_x (next s) j)).
  Lemma gof_eq s j k : (j < n)%nat -> gof s j k = rsum n (fun l => A j l * slope s j l k).
  Proof.
    intros Hj. pose proof (dpos j Hj) as D. unfold gof, vscal, vsub. rewrite (zof_eq n es g a net).
    unfold slope. set (x := st_x (next s) j k).
    rewrite (rsum_ext n (fun l => A j l * (current g s j l k + / d_R a * (potential g s j l k - x)))
      (fun l => / d_R a * (A j l * (d_R a * current g s j l k + potential g s j l k)) - / d_R a * x * A j l))
      by (intros; field; lra).
    rewrite rsum_minus, !rsum_scal, <- (deg_sum n es g net). field. lra.
  Qed.
  Lemma gof_sub s j : consistent d es g a s -> (j < n)%nat -> subgradient d (restr d (phi j)) (st_x (next s) j) (gof s j).
  Proof.
    intros Hs Hj. unfold gof. apply prox_sub; [apply rho_pos, Hj|apply cvx, Hj|].
    rewrite next_x. apply pf; [easy|apply (zof_Rd n d es g a net s j Hs)|apply rho_pos, Hj].
  Qed.
  Lemma x_Rd s j : consistent d es g a s -> (j < n)%nat -> in_Rd d (st_x (next s) j).
  Proof. intros Hs Hj. destruct (gof_sub s j Hs Hj) as [[H _] _]. exact H. Qed.
  Lemma next_cons s : consistent d es g a s -> consistent d es g a (next s).
  Proof. intros H. apply (next_consistent n); auto using prox_Rd_fam. Qed.

  Lemma dot_rows (G : nat -> vec) (h : nat -> nat -> vec) (v : nat -> vec) :
    (forall j k, (j < n)%nat -> (k < d)%nat -> G j k = rsum n (fun l => A j l * h j l k)) ->
    rsum n (fun j => dot d (G j) (v j)) = esum (fun j l => dot d (h j l) (v j)).
  Proof.
    intros H. unfold GraphFacts.esum. apply rsum_ext. intros j Hj. unfold dot.
    rewrite (rsum_ext d _ (fun k => rsum n (fun l => A j l * (h j l k * v j k)))).
    - rewrite rsum_swap. apply rsum_ext. intros l Hl. rewrite <- rsum_scal. easy.
    - intros k Hk. rewrite H by easy. rewrite <- rsum_scal_r. apply rsum_ext. intros; ring.
  Qed.

  (** fixed points *)
  Theorem fixed_optimal s : step <> 0 ->
    (forall j l, cap_edge a j l = true -> cap_step a <> 0) ->
    consistent d es g a s -> fixed_point n d g a step prox s ->
    exists x, (forall j, (j < n)%nat -> st_x (next s) j = x) /\ minimiser (sum_fun d n phi) x.
  Proof.
    intros Hst Hcap Hs [Fi Fe].
    assert (FI : forall j l k, linked es j l -> (k < d)%nat -> current g (next s) j l k = current g s j l k).
    { intros j l k K Hk. apply Fi; [eapply linked_lt; eassumption|apply (slot_lt n es g net); easy|easy]. }
    assert (FE : forall j l k, linked es j l -> (k < d)%nat -> potential g (next s) j l k = potential g s j l k).
    { intros j l k K Hk. apply Fe; [eapply linked_lt; eassumption|apply (slot_lt n es g net); easy|easy]. }
    assert (EX : forall j l k, linked es j l -> (k < d)%nat -> potential g s j l k = st_x (next s) j k).
    { intros j l k K Hk. pose proof (FI j l k K Hk) as E. rewrite (next_i es g a step prox) in E by easy.
      rewrite FE in E by easy. assert (step * (potential g s j l k - st_x (next s) j k) = 0) as M by lra.
      apply Rmult_integral in M. lra. }
    assert (XX : forall j l, linked es j l -> st_x (next s) j = st_x (next s) l).
    { intros j l K. apply (in_Rd_eq d).
      - apply x_Rd; [easy|]. eapply linked_lt; eassumption.
      - apply x_Rd; [easy|]. eapply linked_lt; [eassumption|apply linked_sym; eassumption].
      - intros k Hk. rewrite <- (EX j l), <- (EX l j) by auto using linked_sym. apply Hs. easy. }
    assert (II : forall j l k, linked es j l -> (k < d)%nat -> current g s j l k + current g s l j k = 0).
    { intros j l k K Hk. destruct (cap_edge a j l) eqn:C; [|apply Hs; easy].
      pose proof (FE j l k K Hk) as E. rewrite (next_e n es g a step prox net) in E by easy. rewrite C in E.
      rewrite (XX j l K) in E. rewrite (EX j l), (XX j l) in E by easy.
      assert (M : cap_step a * (current g s j l k + current g s l j k) = 0).
      { replace (2 * st_x (next s) l k - st_x (next s) l k - st_x (next s) l k) with 0 in E by ring. lra. }
      apply Rmult_integral in M. destruct M as [M|M]; [exfalso; apply (Hcap j l C M)|easy]. }
    assert (H0 : (0 < n)%nat) by lia.
    exists (st_x (next s) 0%nat).
    assert (X0 : forall j, (j < n)%nat -> st_x (next s) j = st_x (next s) 0%nat).
    { intros j Hj. apply (reach_const es (st_x (next s)) XX). apply conn; lia. }
    split; [easy|]. set (x := st_x (next s) 0%nat) in *. split.
    - split; [apply x_Rd; easy|]. intros j Hj. rewrite <- (X0 j Hj). destruct (gof_sub s j Hs Hj) as [[_ D] _]. exact D.
    - intros y [Hy Dy]. simpl.
      assert (Z : rsum n (fun j => dot d (gof s j) (vsub y x)) = 0).
      { rewrite (dot_rows (gof s) (slope s) (fun _ => vsub y x)) by (intros; apply gof_eq; easy).
        apply (esum_antisym n es g net). intros j l K. rewrite <- dot_opp_l. apply dot_ext; [|easy]. intros k Hk.
        unfold slope, vopp. rewrite (EX j l), (EX l j) by auto using linked_sym.
        pose proof (II j l k K Hk). replace (st_x (next s) j k - st_x (next s) j k) with 0 by ring.
        replace (st_x (next s) l k - st_x (next s) l k) with 0 by ring. lra. }
      assert (L : rsum n (fun j => val (phi j) x + dot d (gof s j) (vsub y x)) <= rsum n (fun j => val (phi j) y)).
      { apply rsum_le. intros j Hj. destruct (gof_sub s j Hs Hj) as [_ S]. rewrite (X0 j Hj) in S.
        specialize (S y). simpl in S. specialize (S (conj Hy (Dy j Hj))). lra. }
      rewrite rsum_plus, Z in L. lra.
  Qed.

  (** every optimum is a fixed point *)
  Theorem optimal_fixed x gr : balanced_optimum d n phi x gr ->
    exists s, consistent d es g a s /\ fixed_point n d g a step prox s /\ forall j, (j < n)%nat -> st_x (next s) j = x.
  Proof.
    intros (Hx & Hg & Hz).
    destruct (flow_exists n es g net d gr conn (fun j Hj => proj1 (Hg j Hj)) Hz) as (F & FR & FA & FD).
    set (s := mkD (fun _ => x) (fun j b => F j (nth b (adj_of g j) 0%nat)) (fun _ _ => x)).
    assert (CU : forall j l, linked es j l -> current g s j l = F j l).
    { intros j l K. unfold current, s. cbn [st_i]. f_equal. apply nth_error_nth. apply (slot_nth n es g net). easy. }
    assert (PO : forall j l, potential g s j l = x) by easy.
    assert (Hs : consistent d es g a s).
    { intros j l K. rewrite !CU, !PO by auto using linked_sym. repeat split; auto. }
    assert (NX : forall j, (j < n)%nat -> st_x (next s) j = x).
    { intros j Hj. rewrite next_x. pose proof (dpos j Hj) as D. pose proof (rho_pos j Hj) as Rp.
      apply (prox_unique d (phi j) (d_R a / INR (deg_of g j)) (zof g a s j)); [easy|apply cvx, Hj| |].
      - apply pf; [easy|apply (zof_Rd n d es g a net s j Hs)|easy].
      - apply sub_prox; [easy|].
        assert (E : vscal (/ (d_R a / INR (deg_of g j))) (vsub (zof g a s j) x) = gr j).
        { apply functional_extensionality. intros k. unfold vscal, vsub. rewrite (zof_eq n es g a net).
          rewrite (rsum_ext n _ (fun l => d_R a * (A j l * F j l k) + x k * A j l)).
          - rewrite rsum_plus, !rsum_scal, FD, <- (deg_sum n es g net) by easy. field. lra.
          - intros l Hl. rewrite PO. destruct (linked_dec n es g net j l) as [K|K].
            + rewrite CU by easy. ring.
            + rewrite (A_not n es g net) by easy. ring. }
        rewrite E. apply sub_restr; [easy|]. apply Hg, Hj. }
    assert (FE : forall j l k, linked es j l -> potential g (next s) j l k = x k).
    { intros j l k K. rewrite (next_e n es g a step prox net) by easy. rewrite !PO.
      rewrite !NX by (eauto using linked_lt, linked_sym). destruct (cap_edge a j l); [|lra].
      rewrite !CU by auto using linked_sym. rewrite FA. replace (2 * x k - x k - x k) with 0 by ring. ring. }
    exists s. split; [exact Hs|]. split; [split|exact NX].
    - intros j b k Hj Hb Hk. destruct (slot_of n es g net j b Hb) as (l & K & <-).
      change (current g (next s) j l k = current g s j l k). rewrite (next_i es g a step prox) by easy.
      rewrite FE, NX by easy. ring.
    - intros j b k Hj Hb Hk. destruct (slot_of n es g net j b Hb) as (l & K & <-).
      change (potential g (next s) j l k = potential g s j l k). rewrite FE by easy. easy.
  Qed.

  (** Lyapunov function *)
  Hypothesis nocap : forall j l, cap_edge a j l = false.
  Hypothesis spos : 0 < step.
  Variables (xs : vec) (gs : nat -> vec) (Is : nat -> nat -> vec) (mu : nat -> R).
  Hypothesis mu_pos : forall j, (j < n)%nat -> 0 <= mu j.
  Hypothesis scvx : forall j, (j < n)%nat -> strongly_convex d (mu j) (phi j).
  Hypothesis opt : balanced_optimum d n phi xs gs.
  Hypothesis IsA : forall j l k, Is j l k + Is l j k = 0.
  Hypothesis IsD : forall j k, (j < n)%nat -> rsum n (fun l => A j l * Is j l k) = gs j k.

  Definition dI (s : dstate) (j l : nat) : vec := vsub (current g (next s) j l) (current g s j l).
  Definition dE (s : dstate) (j l : nat) : vec := vsub (potential g (next s) j l) (potential g s j l).
  Definition energy (s : dstate) : R :=
    / step * esum (fun j l => nsq d (vsub (current g s j l) (Is j l))) +
    / d_R a * esum (fun j l => nsq d (vsub (potential g s j l) xs)).
  Definition gap (s : dstate) : R := rsum n (fun j => val (phi j) (st_x (next s) j) - val (phi j) xs).
  Definition spread (s : dstate) : R := rsum n (fun j => mu j / 2 * nsq d (vsub (st_x (next s) j) xs)).

  Section OneStep.
    Variable s : dstate.
    Hypothesis Hs : consistent d es g a s.
    Let p := esum (fun j l => dot d (current g (next s) j l) (dI s j l)).
    Let q := esum (fun j l => dot d (Is j l) (dI s j l)).
    Let r := esum (fun j l => nsq d (dI s j l)).
    Let u := esum (fun j l => dot d (dE s j l) (vsub (potential g (next s) j l) xs)).
    Let w := esum (fun j l => nsq d (dE s j l)).

    Lemma x_of j l k : linked es j l -> st_x (next s) j k = potential g (next s) j l k - / step * dI s j l k.
    Proof. intros K. unfold dI, vsub. rewrite (next_i es g a step prox s) by easy. field. lra. Qed.
    Lemma dI_anti j l k : linked es j l -> dI s j l k = - dI s l j k.
    Proof.
      intros K. pose proof (next_cons s Hs j l K) as (_ & _ & _ & H1). pose proof (Hs j l K) as (_ & _ & _ & H2).
      specialize (H1 (nocap j l) k). specialize (H2 (nocap j l) k). unfold dI, vsub. lra.
    Qed.
    Lemma cur_anti j l k : linked es j l -> current g (next s) j l k = - current g (next s) l j k.
    Proof. intros K. pose proof (next_cons s Hs j l K) as (_ & _ & _ & H1). specialize (H1 (nocap j l) k). lra. Qed.
    Lemma pot_sym j l k : linked es j l -> potential g (next s) j l k = potential g (next s) l j k.
    Proof. intros K. apply (next_cons s Hs j l K). Qed.
    Lemma dE_sym j l k : linked es j l -> dE s j l k = dE s l j k.
    Proof.
      intros K. unfold dE, vsub. rewrite (pot_sym j l k K). destruct (Hs j l K) as (_ & _ & H & _). rewrite H. easy.
    Qed.
    (** antisymmetric against symmetric *)
    Lemma cross (U V : nat -> nat -> vec) : (forall j l k, linked es j l -> U j l k = - U l j k) ->
      (forall j l k, linked es j l -> V j l k = V l j k) -> esum (fun j l => dot d (U j l) (V j l)) = 0.
    Proof.
      intros HU HV. apply (esum_antisym n es g net). intros j l K. rewrite <- dot_opp_l. apply dot_ext; intros k _.
      - unfold vopp. apply HU, K.
      - apply HV, K.
    Qed.
    Definition Ex (j l : nat) : vec := vsub (potential g (next s) j l) xs.
    Lemma Ex_sym j l k : linked es j l -> Ex j l k = Ex l j k.
    Proof. intros K. unfold Ex, vsub. rewrite (pot_sym j l k K). easy. Qed.

    Lemma gap_upper : gap s <= - / step * p - / step * (/ (step * d_R a) - 1) * r - / d_R a * u.
    Proof.
      apply Rle_trans with (rsum n (fun j => dot d (gof s j) (vsub (st_x (next s) j) xs))).
      - unfold gap. apply rsum_le. intros j Hj. destruct (gof_sub s j Hs Hj) as [_ S].
        destruct opt as (Hx & Hg & _). specialize (S xs). unfold restr in S. cbn [dom val] in S.
        specialize (S (conj Hx (proj1 (proj2 (Hg j Hj))))).
        rewrite dot_sub_r in S |- *. lra.
      - rewrite (dot_rows (gof s) (slope s) (fun j => vsub (st_x (next s) j) xs)) by (intros; apply gof_eq; easy).
        apply Req_le. set (t := step * d_R a). assert (Ht : 0 < t) by (apply Rmult_lt_0_compat; easy).
        rewrite (esum_ext n es g net _ (fun j l =>
          ((dot d (current g (next s) j l) (Ex j l) + (/ t - 1) * dot d (dI s j l) (Ex j l)) +
          (- / d_R a * dot d (dE s j l) (Ex j l) + / step * / d_R a * dot d (dI s j l) (dE s j l))) +
          (- / step * dot d (current g (next s) j l) (dI s j l) + - (/ step * (/ t - 1)) * nsq d (dI s j l)))).
        + rewrite !(esum_plus n g), !(esum_scal n g).
          rewrite (cross (current g (next s)) Ex), (cross (dI s) Ex), (cross (dI s) (dE s))
            by auto using cur_anti, dI_anti, dE_sym, Ex_sym.
          fold p r. change (esum (fun j l => dot d (dE s j l) (Ex j l))) with u. ring.
        + intros j l K.
          rewrite (dot_ext d (slope s j l) (vadd (vadd (current g (next s) j l) (vscal (/ t - 1) (dI s j l))) (vscal (- / d_R a) (dE s j l)))
            (vsub (st_x (next s) j) xs) (vsub (Ex j l) (vscal (/ step) (dI s j l)))).
          * unfold nsq. rewrite !dot_add_l, !dot_scal_l, !dot_sub_r, !dot_scal_r, (dot_comm d (dE s j l) (dI s j l)). ring.
          * intros k Hk. unfold slope. rewrite (x_of j l k K). unfold t, vadd, vscal, dE, dI, vsub. field. lra.
          * intros k Hk. unfold vsub at 1. rewrite (x_of j l k K). unfold Ex, vscal, vsub. ring.
    Qed.
    Lemma gap_lower : gap s >= - / step * q + spread s.
    Proof.
      assert (E : rsum n (fun j => dot d (gs j) (vsub (st_x (next s) j) xs)) = - / step * q).
      { rewrite (dot_rows gs Is (fun j => vsub (st_x (next s) j) xs)) by (intros; rewrite IsD by easy; easy).
        rewrite (esum_ext n es g net _ (fun j l => dot d (Is j l) (Ex j l) + - / step * dot d (Is j l) (dI s j l))).
        - rewrite (esum_plus n g), (esum_scal n g), (cross Is Ex).
          + fold q. ring.
          + intros j l k _. pose proof (IsA j l k). lra.
          + auto using Ex_sym.
        - intros j l K. rewrite (dot_ext d (Is j l) (Is j l) (vsub (st_x (next s) j) xs) (vadd (Ex j l) (vscal (- / step) (dI s j l)))).
          + rewrite dot_add_r, dot_scal_r. easy.
          + easy.
          + intros k Hk. unfold vsub at 1. rewrite (x_of j l k K). unfold Ex, vscal, vadd, vsub. ring. }
      rewrite <- E. unfold gap, spread. rewrite <- rsum_plus. apply Rle_ge, rsum_le. intros j Hj.
      destruct opt as (Hx & Hg & _). destruct (Hg j Hj) as [_ Sg]. destruct (gof_sub s j Hs Hj) as [[_ D] _].
      pose proof (strongly_convex_lower d (mu j) (phi j) xs (gs j) (st_x (next s) j) (mu_pos j Hj) (scvx j Hj) Sg D) as L.
      lra.
    Qed.
    Lemma energy_step : energy (next s) = energy s + / step * (2 * p - 2 * q - r) + / d_R a * (2 * u - w).
    Proof.
      unfold energy.
      rewrite (esum_ext n es g net (fun j l => nsq d (vsub (current g (next s) j l) (Is j l)))
        (fun j l => (nsq d (vsub (current g s j l) (Is j l)) + 2 * dot d (current g (next s) j l) (dI s j l)) +
                    ((-2) * dot d (Is j l) (dI s j l) + (-1) * nsq d (dI s j l)))).
      2:{ intros j l K. unfold dI, nsq. rewrite !dot_sub_l, !dot_sub_r.
          rewrite (dot_comm d (current g s j l) (current g (next s) j l)), (dot_comm d (Is j l) (current g (next s) j l)),
            (dot_comm d (Is j l) (current g s j l)). ring. }
      rewrite (esum_ext n es g net (fun j l => nsq d (vsub (potential g (next s) j l) xs))
        (fun j l => (nsq d (vsub (potential g s j l) xs) + 2 * dot d (dE s j l) (vsub (potential g (next s) j l) xs)) +
                    (-1) * nsq d (dE s j l))).
      2:{ intros j l K. unfold dE, nsq. rewrite !dot_sub_l, !dot_sub_r.
          rewrite (dot_comm d (potential g s j l) (potential g (next s) j l)), (dot_comm d xs (potential g (next s) j l)),
            (dot_comm d xs (potential g s j l)). ring. }
      rewrite !(esum_plus n g), !(esum_scal n g). fold p q r u w. ring.
    Qed.
    Theorem energy_decrease : energy (next s) <= energy s - / step * (2 / (step * d_R a) - 1) * r - / d_R a * w - 2 * spread s.
    Proof.
      pose proof gap_upper as H1. pose proof gap_lower as H2. rewrite energy_step.
      set (m := spread s) in *. set (E := energy s). unfold Rdiv.
      assert (/ step * p + / d_R a * u <= / step * q - / step * (/ (step * d_R a) - 1) * r - m) by lra.
      nra.
    Qed.
    Lemma disagreement j l : linked es j l -> nsq d (vsub (st_x (next s) j) (st_x (next s) l)) = 4 * (/ step * / step) * nsq d (dI s j l).
    Proof.
      intros K. unfold nsq.
      rewrite (dot_ext d _ (vscal (-2 * / step) (dI s j l)) _ (vscal (-2 * / step) (dI s j l))).
      - rewrite dot_scal_l, dot_scal_r. ring.
      - intros k _. unfold vsub, vscal. rewrite (x_of j l k K), (x_of l j k (linked_sym es j l K)), (pot_sym j l k K), (dI_anti l j k (linked_sym es j l K)). ring.
      - intros k _. unfold vsub, vscal. rewrite (x_of j l k K), (x_of l j k (linked_sym es j l K)), (pot_sym j l k K), (dI_anti l j k (linked_sym es j l K)). ring.
    Qed.
  End OneStep.
End Conv.
