(** Concrete data that meets the hypotheses of the theorems of Props_Methods. *)
From Coq Require Import List Arith Bool Reals Lia Lra Psatz FunctionalExtensionality.
From Verif Require Import Prelude PreludeFacts Spec SpecFacts BuilderSpec MethodModel MethodSpec MethodRunSpec ProxSpec
  GraphFacts ProxFacts DadmmFacts DadmmConv PgFacts DadmmLimit FormFacts PgConv MetropolisFacts ProxForms MethodRuns MethodApps MethodUse.
Import ListNotations.
Local Open Scope R_scope.

(** the six-node graph of the repository *)
Definition es6 : list (nat * nat) := [(1, 2); (1, 3); (2, 3); (2, 4); (3, 4); (4, 5); (4, 6)]%nat.
Lemma net6 : network 6 es6 graph6.
Proof.
  exists [1; 6]%nat. split; [reflexivity|]. split.
  - intros u. split.
    + intros H. assert (u = 1 \/ u = 2 \/ u = 3 \/ u = 4 \/ u = 5 \/ u = 6)%nat as K by lia.
      destruct K as [K|[K|[K|[K|[K|K]]]]]; subst; simpl; [left; tauto| | | | |left; tauto]; right.
      * exists 1%nat. tauto.
      * exists 1%nat. tauto.
      * exists 2%nat. tauto.
      * exists 4%nat. tauto.
    + intros [H|(v & [H|H])]; simpl in H; repeat (destruct H as [H|H]; [try (injection H; intros); lia|]); easy.
  - intros u v H. simpl in H. repeat (destruct H as [H|H]; [injection H; intros; lia|]). easy.
Qed.
Lemma reach_trans es j l m : reach es j l -> reach es l m -> reach es j m.
Proof. induction 1; [easy|]. intros. econstructor; eauto. Qed.
Lemma reach_sym es j l : reach es j l -> reach es l j.
Proof.
  induction 1 as [j|j l m H _ IH]; [constructor|]. apply (reach_trans es m l j IH). econstructor; [|constructor]. unfold linked in *. tauto.
Qed.
Lemma reach_one es j l : linked es j l -> reach es j l. Proof. intros. econstructor; [eassumption|constructor]. Qed.
Lemma conn_from n es r : (forall j, (j < n)%nat -> reach es j r) -> connected n es.
Proof. intros H j l Hj Hl. apply (reach_trans es j r l); [auto|]. apply reach_sym. auto. Qed.
Lemma conn6 : connected 6 es6.
Proof.
  apply (conn_from 6 es6 3). intros j Hj. assert (j = 0 \/ j = 1 \/ j = 2 \/ j = 3 \/ j = 4 \/ j = 5)%nat as K by lia.
  destruct K as [K|[K|[K|[K|[K|K]]]]]; subst.
  - apply (reach_step es6 0 1 3); [left; simpl; tauto|]. apply reach_one. left; simpl; tauto.
  - apply reach_one. left; simpl; tauto.
  - apply reach_one. left; simpl; tauto.
  - constructor.
  - apply reach_one. right; simpl; tauto.
  - apply reach_one. right; simpl; tauto.
Qed.
Lemma deg6 j : (j < 6)%nat -> (deg_of graph6 j <= 4)%nat.
Proof.
  intros Hj. assert (j = 0 \/ j = 1 \/ j = 2 \/ j = 3 \/ j = 4 \/ j = 5)%nat as K by lia.
  destruct K as [K|[K|[K|[K|[K|K]]]]]; subst; vm_compute; lia.
Qed.
Lemma mix6 : exists W, metropolis graph6 6 = Ok W /\ mixing 6 es6 W (1 / 5).
Proof.
  destruct (metropolis_mixing 6 es6 graph6 4 net6 conn6 ltac:(lia) deg6) as (W & E & M). exists W. split; [easy|].
  replace (1 / 5) with (1 / (INR 4 + 1)) by (simpl; field). easy.
Qed.

(** (x - c)^2 / 2 on the line *)
Definition sq (c : R) : rfun := mkFun (fun _ => True) (fun x => (x 0%nat - c) * (x 0%nat - c) / 2).
Definition pt (c : R) : vec := fun k => if Nat.eqb k 0 then c else 0.
Lemma pt_Rd c : in_Rd 1 (pt c). Proof. intros k Hk. unfold pt. destruct k; [lia|easy]. Qed.
Lemma dot1' u v : dot 1 u v = u 0%nat * v 0%nat. Proof. unfold dot. simpl. ring. Qed.
Lemma sq_strong c : strongly_convex 1 1 (sq c).
Proof. intros x y t _ _ Ht. split; [exact I|]. simpl. unfold nsq, segment. rewrite dot1'. unfold vsub, vadd, vscal. nra. Qed.
Lemma sq_sub c x : subgradient 1 (sq c) x (pt (x 0%nat - c)).
Proof.
  split; [exact I|]. intros y _. simpl. rewrite dot1'. unfold vsub, pt. simpl. pose proof (Rle_0_sqr (y 0%nat - x 0%nat)) as H. unfold Rsqr in H. lra.
Qed.
Lemma sq_convex_smooth c : convex (sq c) /\ smooth 1 1 (sq c).
Proof.
  assert (H : convex (sq c) /\ smooth 1 1 (sq c) /\ forall x, subgradient 1 (sq c) x (pt (x 0%nat - c))); [|tauto].
  apply (expand_smooth 1 1 (sq c) (fun x => pt (x 0%nat - c)) (fun v => v 0%nat * v 0%nat)).
  - intros; exact I.
  - intros x y. simpl. rewrite dot1'. unfold vsub, pt. simpl. field.
  - intros. apply Rle_0_sqr.
  - intros. unfold vscal. ring.
  - intros x y. unfold nsq. rewrite !dot1'. unfold vsub, pt. simpl. apply Req_le. ring.
Qed.
Definition sq_prox (c : R) (z : vec) (rho : R) : vec := pt ((z 0%nat + rho * c) / (1 + rho)).
Lemma sq_prox_ok c z rho : 0 < rho -> is_prox 1 (sq c) rho z (sq_prox c z rho).
Proof.
  intros Hr. apply sub_prox; [easy|]. apply sub_restr; [apply pt_Rd|].
  replace (vscal (/ rho) (vsub z (sq_prox c z rho))) with (fun k => vscal (/ rho) (vsub z (sq_prox c z rho)) k) by easy.
  destruct (sq_sub c (sq_prox c z rho)) as [D S]. split; [easy|]. intros y Hy. specialize (S y Hy).
  rewrite dot1' in *. unfold vscal, vsub, pt, sq_prox in *. simpl in *. unfold pt in *. simpl in *.
  replace (/ rho * (z 0%nat - (z 0%nat + rho * c) / (1 + rho))) with ((z 0%nat + rho * c) / (1 + rho) - c) by (field; lra). easy.
Qed.
(** six observations 0, ..., 5 *)
Definition obs (j : nat) : rfun := sq (INR j).
Definition obs_prox (j : nat) : vec -> R -> vec := sq_prox (INR j).
Lemma obs_pf : prox_family 1 6 obs obs_prox.
Proof. intros j z rho _ _ Hr. apply sq_prox_ok, Hr. Qed.
Lemma rsum6 f : rsum 6 f = f 0%nat + f 1%nat + f 2%nat + f 3%nat + f 4%nat + f 5%nat. Proof. simpl. ring. Qed.
Definition obs_g (j : nat) : vec := pt (5 / 2 - INR j).
Lemma obs_opt : balanced_optimum 1 6 obs (pt (5 / 2)) obs_g.
Proof.
  split; [apply pt_Rd|]. split.
  - intros j Hj. split; [apply pt_Rd|]. apply (sq_sub (INR j) (pt (5 / 2))).
  - intros k. rewrite rsum6. unfold obs_g, pt. destruct (Nat.eqb k 0); simpl; lra.
Qed.
Lemma obs_value : value_at 6 obs (pt (5 / 2)) = 35 / 4.
Proof. unfold value_at. rewrite rsum6. unfold obs, sq, pt. simpl. lra. Qed.
Lemma good_example : good_steps (Dadmm 3) /\ good_steps (CirDadmm 3 1 2).
Proof. simpl. lra. Qed.

(** the same functions, halved: prox of one half and gradient of the other *)
Definition obs_grad (j : nat) (x : vec) : vec := pt (x 0%nat - INR j).
Lemma obs_gf : grad_family 1 6 obs obs_grad.
Proof. intros j x _ _. split; [apply pt_Rd|apply sq_sub]. Qed.
Lemma obs_copt : composite_optimum 1 6 obs obs_grad (pt (5 / 2)) obs_g.
Proof.
  destruct obs_opt as (H1 & H2 & H3). split; [easy|]. split; [easy|]. intros k. rewrite rsum6. unfold obs_g, obs_grad, pt. destruct (Nat.eqb k 0); simpl; lra.
Qed.
Lemma obs_cvalue : value_at 6 (fun j => add_fun (obs j) (obs j)) (pt (5 / 2)) <> 0.
Proof. unfold value_at. rewrite rsum6. unfold add_fun, obs, sq, pt. simpl. lra. Qed.

(** sensing: one sensor per node, every measurement 3, weight 1 *)
Definition senA (_ _ : nat) : vec := pt 1.
Definition senb (_ : nat) : vec := pt 3.
Lemma sen_opt : composite_optimum 1 6 (fun _ => l1 1 1) (fun j => grad_lsq 1 1 (senA j) (senb j)) (pt 2) (fun _ => pt 1).
Proof.
  split; [apply pt_Rd|]. split.
  - intros j Hj. split; [apply pt_Rd|]. split; [exact I|]. intros y _. cbn [val l1]. rewrite dot1'. unfold vsub, pt. simpl.
    rewrite (Rabs_right 2) by lra. pose proof (Rle_abs (y 0%nat)). lra.
  - intros k. rewrite rsum6. unfold grad_lsq, senA, senb. simpl. rewrite dot1'. unfold pt. destruct (Nat.eqb k 0); simpl; lra.
Qed.
Lemma sen_value : value_at 6 (fun j => add_fun (l1 1 1) (least_squares 1 1 (senA j) (senb j))) (pt 2) <> 0.
Proof.
  unfold value_at. rewrite rsum6. cbn [val add_fun l1 least_squares]. simpl. unfold senA, senb. rewrite !dot1'. unfold pt. simpl. rewrite (Rabs_right 2) by lra. lra.
Qed.
Lemma sen_bound : rsum 1 (fun i => nsq 1 (senA 0%nat i)) <= 1.
Proof. simpl. unfold nsq, senA. rewrite dot1'. unfold pt. simpl. lra. Qed.

(** quadratic programme: minimise x^2/2 - x at every node subject to x <= 1/2 *)
Definition qpQ (_ i : nat) : vec := if Nat.eqb i 0 then pt 1 else vzero.
Definition qpp (_ : nat) : vec := pt (-1).
Definition qpa (_ : nat) : vec := pt 1.
Definition qpb (_ : nat) : R := / 2.
Lemma qp_opt : composite_optimum 1 6 (fun j => halfspace 1 (qpa j) (qpb j)) (fun j => grad_quadratic 1 (qpQ j) (qpp j)) (pt (/ 2)) (fun _ => pt (/ 2)).
Proof.
  split; [apply pt_Rd|]. split.
  - intros j Hj. split; [apply pt_Rd|]. split.
    + simpl. rewrite dot1'. unfold qpa, qpb, pt. simpl. lra.
    + intros y Hy. simpl in *. rewrite dot1' in *. unfold qpa, qpb, vsub, pt in *. simpl in *. lra.
  - intros k. rewrite rsum6. unfold grad_quadratic, qpQ, qpp, pt. rewrite dot1'. destruct (Nat.eqb k 0); cbn [Nat.eqb]; unfold vzero; lra.
Qed.
Lemma qp_value : value_at 6 (fun j => add_fun (halfspace 1 (qpa j) (qpb j)) (quadratic 1 (qpQ j) (qpp j))) (pt (/ 2)) <> 0.
Proof. unfold value_at. rewrite rsum6. cbn [val add_fun halfspace quadratic]. simpl. unfold qpQ, qpp, pt. cbn [Nat.eqb]. rewrite !dot1'. cbn [Nat.eqb]. lra. Qed.
Lemma qp_psd j : psd_matrix 1 (qpQ j).
Proof.
  split.
  - intros i k Hi Hk. replace i with 0%nat by lia. replace k with 0%nat by lia. easy.
  - intros v. simpl. rewrite dot1'. unfold qpQ, pt. cbn [Nat.eqb]. pose proof (Rle_0_sqr (v 0%nat)) as H. unfold Rsqr in H. lra.
Qed.
Lemma qp_bound j : rsum 1 (fun i => nsq 1 (qpQ j i)) <= 1 * 1.
Proof. simpl. unfold nsq, qpQ. cbn [Nat.eqb]. rewrite dot1'. unfold pt. cbn [Nat.eqb]. lra. Qed.
Lemma qp_rows j k : (1 <= k)%nat -> in_Rd 1 (qpQ j k) /\ forall i, qpQ j k i = 0.
Proof. intros Hk. unfold qpQ. destruct k; [lia|]. split; [intros i _|intros i]; easy. Qed.
Lemma qp_a j : in_Rd 1 (qpa j) /\ 0 < nsq 1 (qpa j).
Proof. split; [apply pt_Rd|]. unfold nsq, qpa. rewrite dot1'. unfold pt. cbn [Nat.eqb]. lra. Qed.
Lemma qp_prox : exists prox : nat -> vec -> R -> vec, forall j z r, (j < 6)%nat -> prox_halfspace 1 z r (qpa j) (qpb j) = Some (prox j z r).
Proof.
  exists (fun j z r => match prox_halfspace 1 z r (qpa j) (qpb j) with Some v => v | None => vzero end). intros j z r _.
  destruct (prox_halfspace_defined 1 z r (qpa j) (qpb j) (proj2 (qp_a j))) as (x & ->). easy.
Qed.

(** the geometric median of -1 and 1 on two nodes never divides 0 by 0 *)
Definition es2 : list (nat * nat) := [(1, 2)]%nat.
Definition graph2 : graph := mk_graph [] es2.
Lemma net2 : network 2 es2 graph2.
Proof.
  exists []. split; [reflexivity|]. split.
  - intros u. split.
    + intros H. assert (u = 1 \/ u = 2)%nat as [->| ->] by lia; right; [exists 2%nat|exists 1%nat]; simpl; tauto.
    + intros [H|(v & [H|H])]; simpl in H; [easy| |]; destruct H as [H|H]; [injection H; intros; lia|easy|injection H; intros; lia|easy].
  - intros u v [H|H]; [injection H; intros; lia|easy].
Qed.
Lemma conn2 : connected 2 es2.
Proof.
  apply (conn_from 2 es2 0). intros j Hj. assert (j = 0 \/ j = 1)%nat as [->| ->] by lia; [constructor|]. apply reach_one. right; simpl; tauto.
Qed.
Lemma mix2 : exists W, metropolis graph2 2 = Ok W /\ mixing 2 es2 W (1 / 2) /\ forall i j, (i < 2)%nat -> (j < 2)%nat -> W i j = 1 / 2.
Proof.
  destruct (metropolis_mixing 2 es2 graph2 1 net2 conn2 ltac:(lia)) as (W & E & M).
  { intros j Hj. assert (j = 0 \/ j = 1)%nat as [->| ->] by lia; vm_compute; lia. }
  exists W. split; [easy|]. split; [replace (1 / 2) with (1 / (INR 1 + 1)) by (simpl; field); easy|].
  destruct (metropolis_ok 2 es2 graph2 net2) as (W' & E' & H). rewrite E in E'. injection E' as <-.
  intros i j Hi Hj. rewrite H by easy. assert (i = 0 \/ i = 1)%nat as [->| ->] by lia; assert (j = 0 \/ j = 1)%nat as [->| ->] by lia;
    cbn [Nat.eqb rsum]; unfold A, weight; cbn -[INR]; simpl; lra.
Qed.
Definition med_b (j : nat) : vec := pt (if Nat.eqb j 0 then -1 else 1).
Lemma norm1 v : norm 1 v = Rabs (v 0%nat).
Proof. unfold norm, nsq. rewrite dot1'. change (v 0%nat * v 0%nat) with (Rsqr (v 0%nat)). apply sqrt_Rsqr_abs. Qed.
Lemma prox_norm1 z rho b : 0 < rho <= Rabs (b 0%nat - z 0%nat) ->
  exists v, prox_norm 1 z rho b = Some v /\ v 0%nat = b 0%nat - (Rabs (b 0%nat - z 0%nat) - rho) * (/ Rabs (b 0%nat - z 0%nat) * (b 0%nat - z 0%nat)).
Proof.
  intros H. unfold prox_norm. rewrite norm1. change (vsub b z 0%nat) with (b 0%nat - z 0%nat). destruct (Req_EM_T (Rabs (b 0%nat - z 0%nat)) 0); [lra|].
  eexists. split; [reflexivity|]. unfold vsub, vscal. rewrite Rmax_left by lra. easy.
Qed.
Section TwoNodes.
  Variable W : nat -> nat -> R.
  Hypothesis WE : forall i j, (i < 2)%nat -> (j < 2)%nat -> W i j = 1 / 2.
  (** with u = x_0 and e = w_0 + 1/2 the iteration is u' = -e, e' = e + u/2 *)
  Lemma med_run k : exists s u e, p_iter 2 (1 / 2) W (median_prox 1 med_b med_b 0) med_b k = Some s /\
    p_x s 0%nat 0%nat = u /\ p_x s 1%nat 0%nat = - u /\ p_w s 0%nat 0%nat = e - 1 / 2 /\ p_w s 1%nat 0%nat = 1 / 2 - e /\
    (u + e) * (u + e) + e * e <= 1 / 2.
  Proof.
    induction k as [|k (s & u & e & E & X0 & X1 & W0 & W1 & B)].
    - exists (mkP med_b (fun _ => vzero)), (-1), (1 / 2). unfold med_b, pt, vzero. simpl. repeat split; lra.
    - assert (He : -1 < e < 1) by (pose proof (Rle_0_sqr (u + e)) as Q; unfold Rsqr in Q; split; nra).
      assert (M0 : mix 2 W (p_x s) 0%nat 0%nat = 0) by (unfold mix, vsumn, vscal; simpl; rewrite !WE, X0, X1 by lia; lra).
      assert (M1 : mix 2 W (p_x s) 1%nat 0%nat = 0) by (unfold mix, vsumn, vscal; simpl; rewrite !WE, X0, X1 by lia; lra).
      assert (L0 : lap 2 W (p_x s) 0%nat 0%nat = u) by (unfold lap, vsumn, vscal; simpl; rewrite !WE, X0, X1 by lia; lra).
      assert (L1 : lap 2 W (p_x s) 1%nat 0%nat = - u) by (unfold lap, vsumn, vscal; simpl; rewrite !WE, X0, X1 by lia; lra).
      assert (P0 : exists v, prox_norm 1 (vsub (mix 2 W (p_x s) 0) (p_w s 0%nat)) (1 / 2) (med_b 0) = Some v /\ v 0%nat = - e).
      { destruct (prox_norm1 (vsub (mix 2 W (p_x s) 0) (p_w s 0%nat)) (1 / 2) (med_b 0)) as (v & E1 & E2).
        - unfold vsub, med_b, pt. cbn [Nat.eqb]. rewrite M0, W0, Rabs_left; lra.
        - exists v. split; [easy|]. rewrite E2. unfold vsub, med_b, pt. cbn [Nat.eqb]. rewrite M0, W0, Rabs_left by lra. field. lra. }
      assert (P1 : exists v, prox_norm 1 (vsub (mix 2 W (p_x s) 1) (p_w s 1%nat)) (1 / 2) (med_b 1) = Some v /\ v 0%nat = e).
      { destruct (prox_norm1 (vsub (mix 2 W (p_x s) 1) (p_w s 1%nat)) (1 / 2) (med_b 1)) as (v & E1 & E2).
        - unfold vsub, med_b, pt. cbn [Nat.eqb]. rewrite M1, W1, Rabs_right; lra.
        - exists v. split; [easy|]. rewrite E2. unfold vsub, med_b, pt. cbn [Nat.eqb]. rewrite M1, W1, Rabs_right by lra. field. lra. }
      destruct P0 as (v0 & E0 & V0). destruct P1 as (v1 & E1 & V1).
      cbn [p_iter]. rewrite E. unfold p_step, all_some. cbn [seq forallb]. unfold median_prox. cbn [sc_node Nat.eqb orb]. rewrite E0, E1. cbn [andb].
      eexists; exists (- e), (e + u / 2). split; [reflexivity|]. cbn [p_x p_w sc_node Nat.eqb orb]. rewrite E0, E1, V0, V1.
      unfold vadd, vscal. rewrite L0, L1, W0, W1. repeat split; nra.
  Qed.
  Lemma med_no_nan k : p_iter 2 (1 / 2) W (median_prox 1 med_b med_b 0) med_b k <> None.
  Proof. destruct (med_run k) as (s & u & e & E & _). rewrite E. easy. Qed.
End TwoNodes.
Lemma med_opt : balanced_optimum 1 2 (median_fun 1 med_b med_b 0) (pt 0) (fun j => pt (if Nat.eqb j 0 then 1 else -1)).
Proof.
  split; [apply pt_Rd|]. split.
  - intros j Hj. split; [apply pt_Rd|]. unfold median_fun. rewrite (proj2 (Nat.eqb_neq j 3)), (proj2 (Nat.eqb_neq j 4)) by lia. cbn [orb].
    split; [exact I|]. intros y _. cbn [val distance]. change (sqrt (nsq 1 (vsub y (med_b j)))) with (norm 1 (vsub y (med_b j))).
    change (sqrt (nsq 1 (vsub (pt 0) (med_b j)))) with (norm 1 (vsub (pt 0) (med_b j))). rewrite !norm1, dot1'. unfold vsub, med_b, pt. cbn [Nat.eqb].
    destruct (Nat.eqb j 0).
    + rewrite (Rabs_right (0 - -1)) by lra. pose proof (Rle_abs (y 0%nat - -1)). lra.
    + rewrite (Rabs_left (0 - 1)) by lra. pose proof (Rle_abs (- (y 0%nat - 1))) as K. rewrite Rabs_Ropp in K. lra.
  - intros k. simpl. unfold pt. destruct (Nat.eqb k 0); lra.
Qed.
Lemma med_value : value_at 2 (median_fun 1 med_b med_b 0) (pt 0) <> 0.
Proof.
  unfold value_at. simpl. change (sqrt (nsq 1 (vsub (pt 0) (med_b ?j)))) with (norm 1 (vsub (pt 0) (med_b j))). rewrite !norm1. unfold vsub, med_b, pt. cbn [Nat.eqb].
  rewrite (Rabs_right (0 - -1)), (Rabs_left (0 - 1)) by lra. lra.
Qed.
(** six observations of a median: -1 at nodes 0, 2, 3 and 1 at nodes 1, 4, 5 *)
Definition sgn6 (j : nat) : R := if Nat.eqb j 0 || Nat.eqb j 2 || Nat.eqb j 3 then -1 else 1.
Definition med6 (j : nat) : vec := pt (sgn6 j).
Definition med6_g (j : nat) : vec := pt (- sgn6 j).
Lemma dist_sub c : Rabs c = 1 -> forall y, Rabs (y - c) >= Rabs (0 - c) + - c * (y - 0).
Proof.
  intros H y. replace (0 - c) with (- c) by ring. rewrite Rabs_Ropp, H.
  unfold Rabs in *. destruct (Rcase_abs c); destruct (Rcase_abs (y - c)); nra.
Qed.
Lemma sgn6_abs j : Rabs (sgn6 j) = 1. Proof. unfold sgn6. destruct (_ || _); [rewrite Rabs_left by lra; lra|apply Rabs_R1]. Qed.
Lemma dist_pt c y : sqrt (nsq 1 (vsub y (pt c))) = Rabs (y 0%nat - c).
Proof. change (sqrt (nsq 1 (vsub y (pt c)))) with (norm 1 (vsub y (pt c))). rewrite norm1. easy. Qed.
Lemma med6_opt : balanced_optimum 1 6 (median_fun 1 med6 (fun _ => pt 0) 1) (pt 0) med6_g.
Proof.
  split; [apply pt_Rd|]. split.
  - intros j Hj. split; [apply pt_Rd|]. unfold median_fun. pose proof (dist_sub (sgn6 j) (sgn6_abs j)) as D. destruct (_ || _).
    + split; [exact I|]. intros y _. cbn [val distance_sc]. unfold med6, med6_g. rewrite !dist_pt. unfold nsq. rewrite !dot1'. unfold vsub, pt. cbn [Nat.eqb].
      specialize (D (y 0%nat)). pose proof (Rle_0_sqr (y 0%nat - 0)) as Q. unfold Rsqr in Q. lra.
    + split; [exact I|]. intros y _. cbn [val distance]. unfold med6, med6_g. rewrite !dist_pt. rewrite !dot1'. unfold vsub, pt. cbn [Nat.eqb]. specialize (D (y 0%nat)). lra.
  - intros k. rewrite rsum6. unfold med6_g, sgn6, pt. destruct (Nat.eqb k 0); simpl; lra.
Qed.
Lemma med6_value : value_at 6 (median_fun 1 med6 (fun _ => pt 0) 1) (pt 0) <> 0.
Proof.
  unfold value_at. rewrite rsum6. unfold median_fun. cbn [Nat.eqb orb val distance distance_sc]. unfold med6. rewrite !dist_pt.
  assert (E : forall j, Rabs (pt 0 0%nat - sgn6 j) = 1) by (intros j; unfold pt; cbn [Nat.eqb]; replace (0 - sgn6 j) with (- sgn6 j) by ring; rewrite Rabs_Ropp; apply sgn6_abs).
  rewrite !E. pose proof (nsq_nonneg 1 (vsub (pt 0) (pt 0))). lra.
Qed.
(** the same with quadratics centred at 0 at the nodes 3 and 4 *)
Definition ano6 (j : nat) : vec := pt (if Nat.eqb j 3 || Nat.eqb j 4 then 0 else sgn6 j).
Definition ano6_g (j : nat) : vec := pt (if Nat.eqb j 3 || Nat.eqb j 4 then 0 else - sgn6 j).
Lemma ano6_opt : balanced_optimum 1 6 (anorm_fun 1 ano6 qpQ) (pt 0) ano6_g.
Proof.
  split; [apply pt_Rd|]. split.
  - intros j Hj. split; [apply pt_Rd|]. unfold anorm_fun, ano6, ano6_g. pose proof (dist_sub (sgn6 j) (sgn6_abs j)) as D. destruct (_ || _).
    + split; [exact I|]. intros y _. cbn [val quad_at rsum]. rewrite !dot1'. unfold vsub, pt, qpQ. cbn [Nat.eqb]. unfold pt. cbn [Nat.eqb].
      pose proof (Rle_0_sqr (y 0%nat - 0)) as Q. unfold Rsqr in Q. lra.
    + split; [exact I|]. intros y _. cbn [val distance]. rewrite !dist_pt. rewrite !dot1'. unfold vsub, pt. cbn [Nat.eqb]. specialize (D (y 0%nat)). lra.
  - intros k. rewrite rsum6. unfold ano6_g, sgn6, pt. destruct (Nat.eqb k 0); simpl; lra.
Qed.
Lemma ano6_value : value_at 6 (anorm_fun 1 ano6 qpQ) (pt 0) <> 0.
Proof.
  unfold value_at. rewrite rsum6. unfold anorm_fun, ano6. cbn [Nat.eqb orb val distance quad_at]. rewrite !dist_pt.
  assert (E : forall j, Rabs (pt 0 0%nat - sgn6 j) = 1) by (intros j; unfold pt; cbn [Nat.eqb]; replace (0 - sgn6 j) with (- sgn6 j) by ring; rewrite Rabs_Ropp; apply sgn6_abs).
  rewrite !E. cbn [rsum]. unfold pt. cbn [Nat.eqb]. lra.
Qed.
