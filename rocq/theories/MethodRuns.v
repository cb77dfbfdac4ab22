From Coq Require Import List Arith Bool Reals Lia Lra Psatz FunctionalExtensionality.
From Verif Require Import Prelude PreludeFacts Spec SpecFacts BuilderSpec MethodModel MethodSpec MethodRunSpec ProxSpec
  GraphFacts ProxFacts DadmmFacts DadmmConv PgFacts DadmmLimit FormFacts PgConv MetropolisFacts ProxForms.
Import ListNotations.
Local Open Scope R_scope.

Lemma cv_sqrt u : (forall k, 0 <= u k) -> Un_cv u 0 -> Un_cv (fun k => sqrt (u k)) 0.
Proof.
  intros Hp H eps He. destruct (H (eps * eps)) as (N & HN); [nra|]. exists N. intros k Hk. specialize (HN k Hk).
  unfold R_dist in *. rewrite Rminus_0_r in *. rewrite Rabs_right in HN by (apply Rle_ge; auto).
  rewrite Rabs_right by (apply Rle_ge, sqrt_pos). rewrite <- (sqrt_Rsqr eps) by lra. apply sqrt_lt_1; [apply Hp|apply Rle_0_sqr|exact HN].
Qed.
Lemma cv_abs u : Un_cv u 0 -> Un_cv (fun k => Rabs (u k)) 0.
Proof.
  intros H eps He. destruct (H eps He) as (N & HN). exists N. intros k Hk. specialize (HN k Hk). unfold R_dist in *. rewrite Rminus_0_r in *.
  rewrite Rabs_Rabsolu. easy.
Qed.
Lemma cv_frob n d (x : nat -> nat -> vec) xs : (forall j, (j < n)%nat -> Un_cv (fun k => nsq d (vsub (x k j) xs)) 0) ->
  Un_cv (fun k => frobenius n d (x k) (fun _ => xs)) 0.
Proof.
  intros H. unfold frobenius. apply cv_sqrt; [intros; apply rsum_nonneg; intros; apply nsq_nonneg|].
  apply (cv_rsum n (fun j k => nsq d (vsub (x k j) xs))). easy.
Qed.

(** dadmm *)
Section Dadmm.
  Variables (n d : nat) (es : list (nat * nat)) (g : graph) (a : dalg) (prox : nat -> vec -> R -> vec) (phi : nat -> rfun).
  Hypothesis net : network n es g.
  Hypothesis conn : connected n es.
  Hypothesis n2 : (2 <= n)%nat.
  Hypothesis pf : prox_family d n phi prox.
  Hypothesis good : good_steps a.
  Variables (xs : vec) (gs : nat -> vec) (mu : nat -> R).
  Hypothesis mu_pos : forall j, (j < n)%nat -> 0 <= mu j.
  Hypothesis scvx : forall j, (j < n)%nat -> strongly_convex d (mu j) (phi j).
  Hypothesis opt : balanced_optimum d n phi xs gs.

  Lemma good_step : 0 < d_R a /\ (forall j l, cap_edge a j l = false) /\ exists step, step_size a = Ok step /\ 0 < step /\ step * d_R a < 2.
  Proof.
    destruct a as [Rs|Rs h Ind|Rs h Ind C]; simpl in *; [| |easy].
    - split; [easy|split; [easy|]]. unfold div_num. destruct (Req_EM_T Rs 0); [lra|]. exists (1 / Rs). repeat split.
      + apply Rdiv_lt_0_compat; lra.
      + unfold Rdiv. rewrite Rmult_assoc, Rinv_l; lra.
    - destruct good as (H1 & H2 & H3 & H4). split; [easy|split; [easy|]]. unfold div_num. destruct (Req_EM_T Ind 0); [lra|]. exists (h / Ind). repeat split.
      + apply Rdiv_lt_0_compat; lra.
      + apply Rmult_lt_reg_r with Ind; [easy|]. replace (h / Ind * Rs * Ind) with (h * Rs) by (field; lra). easy.
  Qed.
  Lemma no_raise : dadmm_raises a n g = false.
  Proof.
    unfold dadmm_raises. apply orb_false_iff. split.
    - destruct (existsb _ (seq 0 n)) eqn:E; [|easy]. apply existsb_exists in E. destruct E as (j & Hj & H). apply in_seq in Hj.
      apply Nat.eqb_eq in H. pose proof (degree_pos n es g net conn n2 j ltac:(lia)) as D. lia.
    - destruct a; simpl in good; easy.
  Qed.
  Lemma dadmm_ok xstar fstar fi : exists step, step_size a = Ok step /\ 0 < step /\ step * d_R a < 2 /\
    forall itr, dadmm a n d itr g xstar fstar prox fi =
      Ok (map (fun k => dadmm_report n d xstar fstar fi (st_x (dadmm_iter a step g prox (S k)))) (seq 0 itr)).
  Proof.
    destruct good_step as (_ & _ & step & E & H1 & H2). exists step. split; [easy|]. split; [easy|]. split; [easy|]. intros itr.
    unfold dadmm. rewrite E. cbn [bindr]. rewrite no_raise. destruct itr; easy.
  Qed.
  Theorem dadmm_values : value_at n phi xs <> 0 ->
    settles (fun itr => dadmm a n d itr g (fun _ => xs) (value_at n phi xs) prox (fun j => val (phi j))) rp_f.
  Proof.
    intros Hf. destruct good_step as (HR & Hc & _). destruct (dadmm_ok (fun _ => xs) (value_at n phi xs) (fun j => val (phi j))) as (step & E & H1 & H2 & Ho).
    eexists. split; [exact Ho|]. cbn [rp_f dadmm_report].
    pose proof (values_converge n d es g a step prox phi net conn n2 pf HR Hc H1 H2 xs gs mu mu_pos scvx opt) as V.
    change (rsum n (fun j => val (phi j) xs)) with (value_at n phi xs) in V. apply cv_minus in V.
    apply cv_ext with (fun k => / value_at n phi xs * Rabs (rsum n (fun j => val (phi j) (st_x (dadmm_iter a step g prox (S k)) j)) - value_at n phi xs)).
    - intros k. rewrite Rabs_minus_sym. unfold Rdiv. apply Rmult_comm.
    - apply cv_scal, cv_abs, V.
  Qed.
  Theorem dadmm_iterates j0 : (j0 < n)%nat -> 0 < mu j0 -> forall fstar fi,
    settles (fun itr => dadmm a n d itr g (fun _ => xs) fstar prox fi) rp_err.
  Proof.
    intros Hj Hm fstar fi. destruct good_step as (HR & Hc & _). destruct (dadmm_ok (fun _ => xs) fstar fi) as (step & E & H1 & H2 & Ho).
    eexists. split; [exact Ho|]. cbn [rp_err dadmm_report]. apply (cv_frob n d (fun k => st_x (dadmm_iter a step g prox (S k)))).
    intros j Hj'. apply (iterates_converge n d es g a step prox phi net conn n2 pf HR Hc H1 H2 xs gs mu mu_pos scvx opt j0); easy.
  Qed.
End Dadmm.

(** pg_extra *)
Section PgExtra.
  Variables (n d : nat) (es : list (nat * nat)) (g : graph) (rho L c : R) (W : nat -> nat -> R) (prox : nat -> vec -> R -> vec) (gradh : nat -> vec -> vec).
  Variables (f h : nat -> rfun) (mu : nat -> R).
  Hypothesis rho_pos : 0 < rho.
  Hypothesis Lpos : 0 < L.
  Hypothesis mw : mixing n es W c.
  Hypothesis mu_pos : forall j, (j < n)%nat -> 0 <= mu j.
  Hypothesis scvx : forall j, (j < n)%nat -> strongly_convex d (mu j) (f j).
  Hypothesis pf : prox_family d n f prox.
  Hypothesis gf : grad_family d n h gradh.
  Hypothesis hcvx : forall j, (j < n)%nat -> convex (h j).
  Hypothesis hsm : forall j, (j < n)%nat -> smooth d L (h j).
  Hypothesis stable : rho * L < 2 * c.
  Variables (xs : vec) (gs : nat -> vec).
  Hypothesis opt : composite_optimum d n f gradh xs gs.
  Variable x0 : nat -> vec.
  Hypothesis x0_Rd : forall j, (j < n)%nat -> in_Rd d (x0 j).
  Notation s0 := (mkP x0 (fun _ => vzero)).
  Notation fh := (fun j => add_fun (f j) (h j)).

  Lemma pg_values' : Un_cv (fun k => rsum n (fun j => val (fh j) (p_x (pg_iter n rho W prox gradh s0 (S k)) j)) - value_at n fh xs) 0.
  Proof.
    destruct mw as (Hn & conn & rng & sym & rows & nn & sup & dg).
    apply (proj1 (cv_minus (fun k => rsum n (fun j => val (fh j) (p_x (pg_iter n rho W prox gradh s0 (S k)) j))) (value_at n fh xs))).
    apply (pg_values n d rho L c W prox gradh f h es mu rho_pos Lpos sym rows nn conn) with (gs := gs); try assumption.
    - intros i j Hi Hj K. apply (sup i j Hi Hj); [apply rng in K; tauto|easy].
    - intros i j K. apply rng in K. tauto.
    - apply (Qm_lower n W); assumption.
    - easy.
  Qed.
  Lemma pg_iterates' j0 : (j0 < n)%nat -> 0 < mu j0 -> forall j, (j < n)%nat -> Un_cv (fun k => nsq d (vsub (p_x (pg_iter n rho W prox gradh s0 (S k)) j) xs)) 0.
  Proof.
    intros H0 Hm j Hj. destruct mw as (Hn & conn & rng & sym & rows & nn & sup & dg).
    apply (pg_iterates n d rho L c W prox gradh f h es mu rho_pos Lpos sym rows nn conn) with (gs := gs) (j0 := j0); try assumption.
    - intros i j' Hi Hj' K. apply (sup i j' Hi Hj'); [apply rng in K; tauto|easy].
    - intros i j' K. apply rng in K. tauto.
    - apply (Qm_lower n W); assumption.
    - easy.
  Qed.
  Lemma pg_consensus' i j : (i < n)%nat -> (j < n)%nat ->
    Un_cv (fun k => nsq d (vsub (p_x (pg_iter n rho W prox gradh s0 (S k)) i) (p_x (pg_iter n rho W prox gradh s0 (S k)) j))) 0.
  Proof.
    intros Hi Hj. destruct mw as (Hn & conn & rng & sym & rows & nn & sup & dg).
    apply (pg_consensus n d rho L c W prox gradh f h es mu rho_pos Lpos sym rows nn conn) with (xs := xs) (gs := gs); try assumption.
    - intros i' j' Hi' Hj' K. apply (sup i' j' Hi' Hj'); [apply rng in K; tauto|easy].
    - intros i' j' K. apply rng in K. tauto.
    - apply (Qm_lower n W); assumption.
    - easy.
  Qed.
  Lemma pg_steps' : Un_cv (fun k => rsum n (fun j => nsq d (vsub (p_x (pg_iter n rho W prox gradh s0 (S k)) j) (p_x (pg_iter n rho W prox gradh s0 k) j)))) 0.
  Proof.
    destruct mw as (Hn & conn & rng & sym & rows & nn & sup & dg).
    apply (pg_steps n d rho L c W prox gradh f h es mu rho_pos Lpos sym rows nn conn) with (xs := xs) (gs := gs); try assumption.
    - intros i' j' Hi' Hj' K. apply (sup i' j' Hi' Hj'); [apply rng in K; tauto|easy].
    - intros i' j' K. apply rng in K. tauto.
    - apply (Qm_lower n W); assumption.
    - easy.
  Qed.
End PgExtra.

Section PgReports.
  Variables (n d : nat) (es : list (nat * nat)) (g : graph) (rho L c : R) (W : nat -> nat -> R) (prox : nat -> vec -> R -> vec) (gradh : nat -> vec -> vec).
  Variables (f h : nat -> rfun) (mu : nat -> R).
  Hypothesis rho_pos : 0 < rho.
  Hypothesis Lpos : 0 < L.
  Hypothesis mw : mixing n es W c.
  Hypothesis mu_pos : forall j, (j < n)%nat -> 0 <= mu j.
  Hypothesis scvx : forall j, (j < n)%nat -> strongly_convex d (mu j) (f j).
  Hypothesis pf : prox_family d n f prox.
  Hypothesis gf : grad_family d n h gradh.
  Hypothesis hcvx : forall j, (j < n)%nat -> convex (h j).
  Hypothesis hsm : forall j, (j < n)%nat -> smooth d L (h j).
  Hypothesis stable : rho * L < 2 * c.
  Variables (xs : vec) (gs : nat -> vec).
  Hypothesis opt : composite_optimum d n f gradh xs gs.
  Notation fh := (fun j => add_fun (f j) (h j)).
  Lemma vzero_Rd' j : (j < n)%nat -> in_Rd d vzero. Proof. intros _ k _. easy. Qed.
  Theorem pg_extra_values : value_at n fh xs <> 0 ->
    settles (fun itr => pg_extra PgExtra n d itr rho W g (fun _ => xs) (value_at n fh xs) prox gradh (fun j => val (fh j))) pr_f.
  Proof.
    intros Hf. eexists. split; [intros itr; reflexivity|]. cbn [pr_f pg_report].
    pose proof (pg_values' n d es rho L c W prox gradh f h mu rho_pos Lpos mw mu_pos scvx pf gf hcvx hsm stable xs gs opt (fun _ => vzero) vzero_Rd') as V.
    apply cv_abs. apply (cv_scal (/ value_at n fh xs)) in V. eapply cv_ext; [|exact V]. intros k. cbv beta. unfold Rdiv. apply Rmult_comm.
  Qed.
  Theorem pg_extra_iterates j0 : (j0 < n)%nat -> 0 < mu j0 -> forall fstar fi,
    settles (fun itr => pg_extra PgExtra n d itr rho W g (fun _ => xs) fstar prox gradh fi) pr_err.
  Proof.
    intros Hj Hm fstar fi. eexists. split; [intros itr; reflexivity|]. cbn [pr_err pg_report].
    apply (cv_frob n d (fun k => p_x (pg_iter n rho W prox gradh pinit (S k)))). intros j Hj'.
    apply (pg_iterates' n d es rho L c W prox gradh f h mu rho_pos Lpos mw mu_pos scvx pf gf hcvx hsm stable xs gs opt (fun _ => vzero) vzero_Rd' j0); easy.
  Qed.
  Theorem pg_extra_steps : forall xstar fstar fi,
    settles (fun itr => pg_extra PgExtra n d itr rho W g xstar fstar prox gradh fi) pr_op.
  Proof.
    intros xstar fstar fi. eexists. split; [intros itr; reflexivity|]. cbn [pr_op pg_report].
    apply (pg_steps' n d es rho L c W prox gradh f h mu rho_pos Lpos mw mu_pos scvx pf gf hcvx hsm stable xs gs opt (fun _ => vzero) vzero_Rd').
  Qed.
End PgReports.

(** the generated mixing matrices qualify *)
Theorem metropolis_mixing n es g D : network n es g -> connected n es -> (0 < n)%nat -> (forall j, (j < n)%nat -> (deg_of g j <= D)%nat) ->
  exists W, metropolis g n = Ok W /\ mixing n es W (1 / (INR D + 1)).
Proof.
  intros net conn Hn HD. destruct (metropolis_matrix n es g net) as (W & E & sym & rows & nn & sup & dg). exists W. split; [easy|].
  split; [easy|]. split; [easy|]. split; [|split; [easy|split; [easy|split; [easy|split; [easy|]]]]].
  - intros i j K. split; [apply (linked_lt n es g net i j K)|]. split; [apply (linked_lt n es g net j i), linked_sym, K|].
    intros ->. apply (linked_irrefl n es g net j K).
  - intros i Hi. eapply Rle_trans; [|apply dg; easy]. apply Rmult_le_compat_l; [lra|]. apply Rinv_le_contravar.
    + pose proof (pos_INR (deg_of g i)). lra.
    + apply Rplus_le_compat_r, le_INR, HD, Hi.
Qed.
