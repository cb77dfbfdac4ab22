From Coq Require Import List Arith Bool Reals Lia Lra Psatz FunctionalExtensionality.
From Verif Require Import Prelude PreludeFacts Spec SpecFacts BuilderSpec MethodModel MethodSpec MethodRunSpec ProxSpec
  GraphFacts ProxFacts DadmmFacts DadmmConv PgFacts DadmmLimit FormFacts PgConv MetropolisFacts ProxForms MethodRuns MethodApps.
Import ListNotations.
Local Open Scope R_scope.

Lemma prox_distance_self d rho b z : 0 < rho -> in_Rd d b -> (forall k, (k < d)%nat -> z k = b k) -> is_prox d (distance d b) rho z b.
Proof.
  intros Hr Hb Hz. apply prox_intro; [easy|easy|exact I|]. intros y Hy _. cbn [val distance].
  assert (nsq d (vsub b b) = 0) as -> by (unfold nsq, dot; apply rsum_zero; intros; unfold vsub; ring).
  assert (nsq d (vsub b z) = 0) as -> by (unfold nsq, dot; apply rsum_zero; intros; unfold vsub; rewrite Hz by easy; ring).
  rewrite sqrt_0. pose proof (nsq_nonneg d (vsub y z)). pose proof (sqrt_pos (nsq d (vsub y b))). nra.
Qed.
Lemma prox_distance_sc_self d rho b c theta z : 0 < rho -> 0 <= theta -> in_Rd d b ->
  (forall k, (k < d)%nat -> 1 / (1 + 2 * rho * theta) * (z k + 2 * rho * theta * c k) = b k) -> is_prox d (distance_sc d b c theta) rho z b.
Proof.
  intros Hr Ht Hb Hz. assert (Hp : 0 <= 2 * rho * theta) by (apply Rmult_le_pos; lra). set (m := 1 + 2 * rho * theta) in *. assert (Hm : 0 < m) by (unfold m; lra).
  apply prox_intro; [easy|easy|exact I|]. intros y Hy _. cbn [val distance_sc].
  assert (nsq d (vsub b b) = 0) as -> by (unfold nsq, dot; apply rsum_zero; intros; unfold vsub; ring). rewrite sqrt_0.
  assert (E : 2 * rho * theta * nsq d (vsub y c) + nsq d (vsub y z) = 2 * rho * theta * nsq d (vsub b c) + nsq d (vsub b z) + m * nsq d (vsub y b)).
  { unfold nsq, dot. rewrite <- !rsum_scal, <- !rsum_plus. apply rsum_ext. intros k Hk. pose proof (Hz k Hk) as K. unfold vsub.
    assert (Kz : z k = m * b k - 2 * rho * theta * c k) by (rewrite <- K; field; lra). rewrite Kz. unfold m. ring. }
  pose proof (nsq_nonneg d (vsub y b)) as N. pose proof (sqrt_pos (nsq d (vsub y b))) as S.
  assert (0 <= m * nsq d (vsub y b)) by (apply Rmult_le_pos; lra). assert (0 <= 2 * rho * sqrt (nsq d (vsub y b))) by (apply Rmult_le_pos; lra). lra.
Qed.

Section Median.
  Variables (n d : nat) (b c : nat -> vec) (theta : R).
  Hypothesis theta_pos : 0 <= theta.
  Hypothesis b_Rd : forall j, (j < n)%nat -> in_Rd d (b j).
  Hypothesis c_Rd : forall j, (j < n)%nat -> in_Rd d (c j).
  Notation median_fun := (median_fun d b c theta).
  Definition median_total (j : nat) (z : vec) (rho : R) : vec := match median_prox d b c theta j z rho with Some v => v | None => b j end.
  Definition median_mu (j : nat) : R := if sc_node j then 2 * theta else 0.
  Lemma median_pf : prox_family d n median_fun median_total.
  Proof.
    intros j z rho Hj Hz Hr. unfold ProxSpec.median_fun, median_total, median_prox. fold (sc_node j); destruct (sc_node j).
    - destruct (prox_norm_sc d z rho (b j) (c j) theta) as [v|] eqn:E.
      + apply prox_norm_sc_correct; auto.
      + unfold prox_norm_sc in E. pose proof (proj1 (prox_norm_defined d _ _ _) E) as E2. apply prox_distance_sc_self; auto.
    - destruct (prox_norm d z rho (b j)) as [v|] eqn:E.
      + apply prox_norm_correct; auto.
      + pose proof (proj1 (prox_norm_defined d _ _ _) E) as E2. apply prox_distance_self; auto.
  Qed.
  Lemma median_sc j : (j < n)%nat -> strongly_convex d (median_mu j) (median_fun j).
  Proof. intros _. unfold median_mu, ProxSpec.median_fun. fold (sc_node j); destruct (sc_node j); [apply distance_sc_strong|apply convex_strongly0, distance_convex]. Qed.
  Lemma median_mu_pos j : (j < n)%nat -> 0 <= median_mu j.
  Proof. intros _. unfold median_mu. fold (sc_node j); destruct (sc_node j); lra. Qed.
  Lemma median_val j x : (j < n)%nat -> median_f d b c theta j x = val (median_fun j) x.
  Proof. intros _. unfold median_f, ProxSpec.median_fun. fold (sc_node j); destruct (sc_node j); [|easy]. rewrite norm_sq. easy. Qed.
  Variables (es : list (nat * nat)) (rho cw : R) (W : nat -> nat -> R).
  Hypothesis rho_pos : 0 < rho.
  Hypothesis mw : mixing n es W cw.
  Hypothesis cw_pos : 0 < cw.
  Variables (xs : vec) (gs : nat -> vec).
  Hypothesis opt : balanced_optimum d n median_fun xs gs.
  Hypothesis no_nan : forall k, p_iter n rho W (median_prox d b c theta) b k <> None.
  Lemma median_agree j z v : (j < n)%nat -> median_prox d b c theta j z rho = Some v -> median_total j z rho = v.
  Proof. intros _ H. unfold median_total. rewrite H. easy. Qed.
  Theorem median_values xstar : value_at n median_fun xs <> 0 ->
    exists rep, (forall itr, p_extra n d itr rho W b xstar (value_at n median_fun xs) (median_prox d b c theta) (median_f d b c theta) = map (fun k => Some (rep k)) (seq 0 itr)) /\
      Un_cv (fun k => rp_f (rep k)) 0.
  Proof.
    apply (p_extra_values n d rho W (median_prox d b c theta) median_total b median_agree es cw median_fun (median_f d b c theta) median_mu rho_pos mw cw_pos median_mu_pos median_sc median_pf median_val b_Rd no_nan xs gs opt).
  Qed.
  Theorem median_iterates fstar : 0 < theta -> (3 < n)%nat ->
    exists rep, (forall itr, p_extra n d itr rho W b (fun _ => xs) fstar (median_prox d b c theta) (median_f d b c theta) = map (fun k => Some (rep k)) (seq 0 itr)) /\
      Un_cv (fun k => rp_err (rep k)) 0.
  Proof.
    intros Ht H3.
    apply (p_extra_iterates n d rho W (median_prox d b c theta) median_total b median_agree es cw median_fun (median_f d b c theta) median_mu rho_pos mw cw_pos median_mu_pos median_sc median_pf b_Rd no_nan xs gs opt fstar 3%nat H3).
    unfold median_mu. simpl. lra.
  Qed.
End Median.

Section Anorm.
  Variables (n d : nat) (b : nat -> vec) (P : nat -> nat -> vec) (solve : (nat -> vec) -> vec -> vec).
  Hypothesis b_Rd : forall j, (j < n)%nat -> in_Rd d (b j).
  Hypothesis P_psd : forall j, (j < n)%nat -> psd_matrix d (P j).
  Hypothesis solver : forall j z rho, (j < n)%nat -> in_Rd d z -> 0 < rho ->
    solves d solve (fun i k => P j i k + (if Nat.eqb i k then 1 / rho else 0)) (vscal (1 / rho) (vsub z (b j))).
  Notation anorm_fun := (anorm_fun d b P).
  Definition anorm_total (j : nat) (z : vec) (rho : R) : vec := match anorm_prox solve d b P j z rho with Some v => v | None => b j end.
  Lemma anorm_pf : prox_family d n anorm_fun anorm_total.
  Proof.
    intros j z rho Hj Hz Hr. unfold ProxSpec.anorm_fun, anorm_total, anorm_prox. fold (sc_node j); destruct (sc_node j).
    - apply prox_quadratic_correct; auto.
    - destruct (prox_norm d z rho (b j)) as [v|] eqn:E.
      + apply prox_norm_correct; auto.
      + pose proof (proj1 (prox_norm_defined d _ _ _) E) as E2. apply prox_distance_self; auto.
  Qed.
  Variables (es : list (nat * nat)) (rho cw : R) (W : nat -> nat -> R).
  Hypothesis rho_pos : 0 < rho.
  Hypothesis mw : mixing n es W cw.
  Hypothesis cw_pos : 0 < cw.
  Variables (xs : vec) (gs : nat -> vec).
  Hypothesis opt : balanced_optimum d n anorm_fun xs gs.
  Hypothesis no_nan : forall k, p_iter n rho W (anorm_prox solve d b P) b k <> None.
  Theorem anorm_values xstar : value_at n anorm_fun xs <> 0 ->
    exists rep, (forall itr, p_extra n d itr rho W b xstar (value_at n anorm_fun xs) (anorm_prox solve d b P) (anorm_f d b P) = map (fun k => Some (rep k)) (seq 0 itr)) /\
      Un_cv (fun k => rp_f (rep k)) 0.
  Proof.
    apply (p_extra_values n d rho W (anorm_prox solve d b P) anorm_total b) with (es := es) (c := cw) (mu := fun _ => 0) (gs := gs); try assumption.
    - intros j z v _ H. unfold anorm_total. rewrite H. easy.
    - intros; lra.
    - intros j Hj. apply convex_strongly0. unfold ProxSpec.anorm_fun. fold (sc_node j); destruct (sc_node j); [apply quad_at_convex; auto|apply distance_convex].
    - apply anorm_pf.
    - intros j x _. unfold anorm_f, ProxSpec.anorm_fun. fold (sc_node j); destruct (sc_node j); [|easy]. cbn [val quad_at]. lra.
  Qed.
End Anorm.

(** identical data: the first iteration divides 0 by 0 *)
Lemma mix_const n W x j : row_stochastic n W -> (j < n)%nat -> (forall l, (l < n)%nat -> x l = x j) -> mix n W x j = x j.
Proof.
  intros Hr Hj Hx. apply functional_extensionality. intros k. unfold mix, vsumn, vscal. rewrite (rsum_ext n _ (fun l => W j l * x j k)) by (intros; rewrite Hx by easy; easy).
  rewrite rsum_scal_r, Hr by easy. ring.
Qed.
Theorem median_nan n d rho W b c theta : row_stochastic n W -> (0 < n)%nat -> (forall j l, (j < n)%nat -> (l < n)%nat -> b j = b l) ->
  forall itr xstar fstar, p_extra n d itr rho W b xstar fstar (median_prox d b c theta) (median_f d b c theta) = repeat None itr.
Proof.
  intros Hr Hn Hb itr xstar fstar.
  assert (N1 : p_iter n rho W (median_prox d b c theta) b 1 = None).
  { cbn [p_iter]. unfold p_step. cbn [p_x p_w]. rewrite (all_none n _ 0%nat Hn); [easy|]. unfold median_prox. cbn [sc_node Nat.eqb orb].
    apply prox_norm_defined. intros k Hk. rewrite (mix_const n W b 0%nat Hr Hn) by auto. unfold vsub, vzero. ring. }
  assert (Nk : forall k, p_iter n rho W (median_prox d b c theta) b (S k) = None).
  { induction k as [|k IH]; [exact N1|]. cbn [p_iter] in *. rewrite IH. easy. }
  unfold p_extra. rewrite (map_ext_in _ (fun _ => None)) by (intros; rewrite Nk; easy).
  generalize 0%nat. induction itr as [|itr IH]; intros s; simpl; [easy|]. rewrite IH. easy.
Qed.

(** what the reported numbers mean *)
Lemma frob_zero n d a b : frobenius n d a b = 0 <-> same_rows n d a b.
Proof.
  unfold frobenius. assert (P : 0 <= rsum n (fun j => nsq d (vsub (a j) (b j)))) by (apply rsum_nonneg; intros; apply nsq_nonneg). split.
  - intros H j k Hj Hk. apply sqrt_eq_0 in H; [|easy].
    assert (Z : nsq d (vsub (a j) (b j)) = 0).
    { apply Rle_antisym; [|apply nsq_nonneg]. rewrite <- H. apply (rsum_ge_term n (fun j => nsq d (vsub (a j) (b j)))); [|easy]. intros. apply nsq_nonneg. }
    pose proof (nsq_zero d _ Z k Hk) as K. unfold vsub in K. lra.
  - intros H. rewrite rsum_zero; [apply sqrt_0|]. intros j Hj. unfold nsq, dot. apply rsum_zero. intros k Hk. unfold vsub. rewrite H by easy. ring.
Qed.
Lemma frob_nonneg n d a b : 0 <= frobenius n d a b. Proof. apply sqrt_pos. Qed.
Theorem dadmm_reports a n d itr g xstar fstar prox fi l : dadmm a n d itr g xstar fstar prox fi = Ok l ->
  length l = itr /\ exists step, step_size a = Ok step /\
  forall k r, nth_error l k = Some r ->
    let x := st_x (dadmm_iter a step g prox (S k)) in
    (rp_err r = 0 <-> same_rows n d x xstar) /\ 0 <= rp_err r /\
    (0 < fstar -> 0 <= rp_f r /\ (rp_f r = 0 <-> rsum n (fun j => fi j (x j)) = fstar)) /\
    (fstar < 0 -> rp_f r <= 0).
Proof.
  unfold dadmm. destruct (step_size a) as [step|] eqn:E; cbn [bindr]; [|easy]. intros H.
  assert (Hl : l = map (fun k => dadmm_report n d xstar fstar fi (st_x (dadmm_iter a step g prox (S k)))) (seq 0 itr)).
  { destruct (Nat.eqb itr 0) eqn:Z; [apply Nat.eqb_eq in Z; subst; injection H as <-; easy|]. destruct (dadmm_raises a n g); [easy|]. injection H as <-. easy. }
  subst l. rewrite map_length, seq_length. split; [easy|]. exists step. split; [easy|]. intros k r Hk. cbv zeta.
  rewrite nth_error_map in Hk. destruct (nth_error (seq 0 itr) k) as [k'|] eqn:S; [|easy]. simpl in Hk. injection Hk as <-.
  assert (k' = k) as ->.
  { assert (L : (k < length (seq 0 itr))%nat) by (apply nth_error_Some; rewrite S; easy). apply nth_error_nth with (d := 0%nat) in S.
    rewrite seq_length in L. rewrite seq_nth in S by easy. lia. }
  cbn [dadmm_report rp_err rp_f]. split; [apply frob_zero|]. split; [apply frob_nonneg|].
  set (v := rsum n _). pose proof (Rabs_pos (fstar - v)) as A. split; intros Hf.
  - split; [apply Rmult_le_pos; [easy|apply Rlt_le, Rinv_0_lt_compat, Hf]|]. split; intros K.
    + apply Rmult_integral in K. destruct K as [K|K]; [|pose proof (Rinv_0_lt_compat _ Hf); lra]. destruct (Req_dec (fstar - v) 0) as [Q|Q]; [lra|]. apply Rabs_no_R0 in Q. easy.
    + rewrite K. unfold Rminus. rewrite Rplus_opp_r, Rabs_R0. unfold Rdiv. ring.
  - unfold Rdiv. pose proof (Rinv_lt_0_compat _ Hf). nra.
Qed.
Theorem pg_reports n d itr rho W g xstar fstar prox gradh fh l : pg_extra PgExtra n d itr rho W g xstar fstar prox gradh fh = Ok l ->
  length l = itr /\ forall k r, nth_error l k = Some r ->
    let x := p_x (pg_iter n rho W prox gradh pinit (S k)) in let xp := p_x (pg_iter n rho W prox gradh pinit k) in
    (pr_op r = 0 <-> same_rows n d x xp) /\ 0 <= pr_op r /\ (pr_err r = 0 <-> same_rows n d x xstar) /\ 0 <= pr_err r /\ 0 <= pr_f r /\
    (fstar <> 0 -> (pr_f r = 0 <-> rsum n (fun j => fh j (x j)) = fstar)).
Proof.
  intros H. unfold pg_extra in H. cbn [bindr] in H. injection H as <-. rewrite map_length, seq_length. split; [easy|]. intros k r Hk. cbv zeta.
  rewrite nth_error_map in Hk. destruct (nth_error (seq 0 itr) k) as [k'|] eqn:S; [|easy]. simpl in Hk. injection Hk as <-.
  assert (k' = k) as ->.
  { assert (L : (k < length (seq 0 itr))%nat) by (apply nth_error_Some; rewrite S; easy). apply nth_error_nth with (d := 0%nat) in S.
    rewrite seq_length in L. rewrite seq_nth in S by easy. lia. }
  cbn [pg_report pr_op pr_err pr_f]. split; [|split; [|split; [apply frob_zero|split; [apply frob_nonneg|split; [apply Rabs_pos|]]]]].
  - rewrite <- frob_zero. unfold frobenius.
    change (p_x (pg_step n rho W prox gradh (pg_iter n rho W prox gradh pinit k))) with (p_x (pg_iter n rho W prox gradh pinit (Datatypes.S k))).
    set (q := rsum n _). assert (0 <= q) by (apply rsum_nonneg; intros; apply nsq_nonneg). split; intros K; [rewrite K; apply sqrt_0|apply sqrt_eq_0; easy].
  - apply rsum_nonneg. intros. apply nsq_nonneg.
  - intros Hf. set (v := rsum n _). split; intros K.
    + destruct (Req_dec ((v - fstar) / fstar) 0) as [Q|Q]; [|apply Rabs_no_R0 in Q; easy]. apply Rmult_integral in Q. destruct Q as [Q|Q]; [lra|].
      apply Rinv_neq_0_compat in Hf. easy.
    + rewrite K. unfold Rdiv, Rminus. rewrite Rplus_opp_r, Rmult_0_l, Rabs_R0. easy.
Qed.
Theorem cir_dadmm_equal Rs h Ind n d itr g xstar fstar prox fi : Rs <> 0 -> Ind <> 0 -> h / Ind = 1 / Rs ->
  dadmm (CirDadmm Rs h Ind) n d itr g xstar fstar prox fi = dadmm (Dadmm Rs) n d itr g xstar fstar prox fi.
Proof.
  intros HR HI E. unfold dadmm, step_size, div_num. destruct (Req_EM_T Ind 0); [easy|]. destruct (Req_EM_T Rs 0); [easy|]. cbn [bindr].
  destruct (Nat.eqb itr 0); [easy|]. unfold dadmm_raises. rewrite !orb_false_r. destruct (existsb _ (seq 0 n)); [easy|]. f_equal. apply map_ext. intros k. f_equal.
  assert (S : forall k, dadmm_iter (CirDadmm Rs h Ind) (h / Ind) g prox k = dadmm_iter (Dadmm Rs) (1 / Rs) g prox k).
  { induction k0 as [|k0 IH]; [easy|]. cbn [dadmm_iter]. rewrite IH, E. easy. }
  rewrite S. easy.
Qed.
(** an isolated node or R = 0 *)
Theorem dadmm_isolated a n d itr g xstar fstar prox fi j step : step_size a = Ok step -> (0 < itr)%nat -> (j < n)%nat -> nbrs g (S j) = [] ->
  dadmm a n d itr g xstar fstar prox fi = Err ZeroDivisionError.
Proof.
  intros E Hi Hj Hg. unfold dadmm. rewrite E. cbn [bindr]. destruct itr; [lia|]. cbn [Nat.eqb]. unfold dadmm_raises.
  assert (existsb (fun j => Nat.eqb (deg_of g j) 0) (seq 0 n) = true) as ->; [|easy]. apply existsb_exists. exists j. split; [apply in_seq; lia|].
  unfold deg_of, degree. rewrite Hg. easy.
Qed.

(** without the assumption that no prox is evaluated at its own centre *)
Lemma p_cases n d rho W oprox b xstar fstar f (m : report -> R) :
  ((forall k, p_iter n rho W oprox b k <> None) ->
   exists rep, (forall itr, p_extra n d itr rho W b xstar fstar oprox f = map (fun k => Some (rep k)) (seq 0 itr)) /\ Un_cv (fun k => m (rep k)) 0) ->
  settles_or_nan (fun itr => p_extra n d itr rho W b xstar fstar oprox f) m.
Proof.
  intros H.
  exists (fun k => match p_iter n rho W oprox b (S k) with None => None | Some s => Some (p_report n d b xstar fstar f (p_x s)) end).
  split; [easy|]. destruct (Classical_Prop.classic (exists k, p_iter n rho W oprox b k = None)) as [(N & E)|N].
  - left. exists N. intros k Hk. assert (p_iter n rho W oprox b (S k) = None) as ->; [|easy].
    induction Hk as [|k Hk IH]; cbn [p_iter]; [rewrite E; easy|]. cbn [p_iter] in IH. rewrite IH. easy.
  - right. destruct H as (rep & Hr & C); [intros k E; apply N; exists k; easy|]. exists rep. split; [|easy]. intros k.
    specialize (Hr (S k)). unfold p_extra in Hr. apply (f_equal (fun l => nth_error l k)) in Hr. rewrite !nth_error_map in Hr.
    rewrite (nth_error_nth' _ 0%nat) in Hr by (rewrite seq_length; lia). rewrite seq_nth in Hr by lia. simpl option_map in Hr. simpl plus in Hr. injection Hr. easy.
Qed.
Theorem median_settles n d b c theta : 0 <= theta -> (forall j, (j < n)%nat -> in_Rd d (b j)) -> (forall j, (j < n)%nat -> in_Rd d (c j)) ->
  forall es rho cw W, 0 < rho -> mixing n es W cw -> 0 < cw -> forall xs gs, balanced_optimum d n (median_fun d b c theta) xs gs ->
  (forall xstar, value_at n (median_fun d b c theta) xs <> 0 ->
    settles_or_nan (fun itr => p_extra n d itr rho W b xstar (value_at n (median_fun d b c theta) xs) (median_prox d b c theta) (median_f d b c theta)) rp_f) /\
  (forall fstar, 0 < theta -> (3 < n)%nat ->
    settles_or_nan (fun itr => p_extra n d itr rho W b (fun _ => xs) fstar (median_prox d b c theta) (median_f d b c theta)) rp_err).
Proof.
  intros Ht Hb Hc es rho cw W Hr M Hw xs gs O. split.
  - intros xstar Hv. apply p_cases. intros N. apply (median_values n d b c theta Ht Hb Hc es rho cw W Hr M Hw xs gs O N xstar Hv).
  - intros fstar Ht' H3. apply p_cases. intros N. apply (median_iterates n d b c theta Ht Hb Hc es rho cw W Hr M Hw xs gs O N fstar Ht' H3).
Qed.
Theorem anorm_settles n d b P solve : (forall j, (j < n)%nat -> in_Rd d (b j)) -> (forall j, (j < n)%nat -> psd_matrix d (P j)) ->
  (forall j z rho, (j < n)%nat -> in_Rd d z -> 0 < rho -> solves d solve (fun i k => P j i k + (if Nat.eqb i k then 1 / rho else 0)) (vscal (1 / rho) (vsub z (b j)))) ->
  forall es rho cw W, 0 < rho -> mixing n es W cw -> 0 < cw -> forall xs gs, balanced_optimum d n (anorm_fun d b P) xs gs ->
  forall xstar, value_at n (anorm_fun d b P) xs <> 0 ->
  settles_or_nan (fun itr => p_extra n d itr rho W b xstar (value_at n (anorm_fun d b P) xs) (anorm_prox solve d b P) (anorm_f d b P)) rp_f.
Proof.
  intros Hb HP Hs es rho cw W Hr M Hw xs gs O xstar Hv. apply p_cases. intros N.
  apply (anorm_values n d b P solve Hb HP Hs es rho cw W Hr M Hw xs gs O N xstar Hv).
Qed.
