From Coq Require Import List Arith Bool Reals Lia Lra Psatz FunctionalExtensionality.
From Verif Require Import Prelude PreludeFacts Spec SpecFacts BuilderSpec MethodModel MethodSpec GraphFacts ProxFacts DadmmFacts.
Import ListNotations.
Local Open Scope R_scope.

Definition idm (i j : nat) : R := if Nat.eqb i j then 1 else 0.
Lemma idm_sum n i f : (i < n)%nat -> rsum n (fun j => idm i j * f j) = f i.
Proof.
  intros H. rewrite <- (rsum_delta_r n i f H). apply rsum_ext. intros k _. unfold idm, delta. rewrite (Nat.eqb_sym i k). ring.
Qed.
Lemma vlist_lsum {X} (f : X -> vec) l k : vlist (map f l) k = lsum (fun x => f x k) l.
Proof.
  unfold vlist. assert (G : forall v, fold_left vadd (map f l) v k = v k + lsum (fun x => f x k) l).
  { induction l as [|x l IH]; intros v; simpl; [ring|]. rewrite IH. unfold vadd. ring. }
  rewrite G. unfold vzero. ring.
Qed.

Section Mixing.
  Variables (n : nat) (W : nat -> nat -> R).
  Hypothesis sym : symmetric n W.
  Hypothesis rows : row_stochastic n W.

  Lemma lap_eq x j k : (j < n)%nat -> lap n W x j k = rsum n (fun l => W j l * (x j k - x l k)).
  Proof.
    intros Hj. unfold lap, vsumn, vscal. fold (idm j).
    rewrite (rsum_ext n _ (fun l => idm j l * x l k - W j l * x l k)) by (intros; unfold idm; ring).
    rewrite rsum_minus, (idm_sum n j (fun l => x l k)) by easy.
    rewrite (rsum_ext n (fun l => W j l * (x j k - x l k)) (fun l => W j l * x j k - W j l * x l k)) by (intros; ring).
    rewrite rsum_minus, rsum_scal_r, (rows j Hj). ring.
  Qed.
  Lemma mix_lap x j k : (j < n)%nat -> mix n W x j k = x j k - lap n W x j k.
  Proof.
    intros Hj. rewrite lap_eq by easy. unfold mix, vsumn, vscal.
    rewrite (rsum_ext n (fun l => W j l * (x j k - x l k)) (fun l => W j l * x j k - W j l * x l k)) by (intros; ring).
    rewrite rsum_minus, rsum_scal_r, (rows j Hj). ring.
  Qed.
  Lemma sum_lap x k : rsum n (fun j => lap n W x j k) = 0.
  Proof.
    assert (E : rsum n (fun j => lap n W x j k) = - rsum n (fun j => lap n W x j k)); [|lra].
    rewrite (rsum_ext n _ (fun j => rsum n (fun l => W j l * (x j k - x l k)))) at 1 by (intros; apply lap_eq; easy).
    rewrite rsum_swap.
    rewrite (rsum_ext n _ (fun j => (-1) * lap n W x j k)).
    - rewrite rsum_scal. ring.
    - intros l Hl. rewrite lap_eq by easy. rewrite <- rsum_scal. apply rsum_ext. intros j Hj. rewrite (sym j l) by easy. ring.
  Qed.
  (** x^T (I - W) x *)
  Lemma lap_form t : rsum n (fun j => t j * rsum n (fun l => W j l * (t j - t l))) = / 2 * rsum n (fun j => rsum n (fun l => W j l * ((t j - t l) * (t j - t l)))).
  Proof.
    set (S := rsum n (fun j => t j * rsum n (fun l => W j l * (t j - t l)))).
    assert (E1 : S = rsum n (fun j => rsum n (fun l => W j l * (t j * (t j - t l))))).
    { unfold S. apply rsum_ext. intros j Hj. rewrite <- rsum_scal. apply rsum_ext. intros; ring. }
    assert (E2 : S = rsum n (fun j => rsum n (fun l => W j l * (- t l * (t j - t l))))).
    { rewrite E1, rsum_swap. apply rsum_ext. intros j Hj. apply rsum_ext. intros l Hl. rewrite (sym l j) by easy. ring. }
    assert (E3 : S + S = rsum n (fun j => rsum n (fun l => W j l * ((t j - t l) * (t j - t l))))); [|lra].
    rewrite E1 at 1. rewrite E2, <- rsum_plus. apply rsum_ext. intros j Hj. rewrite <- rsum_plus. apply rsum_ext. intros; ring.
  Qed.

  Hypothesis nonneg : nonneg_entries n W.
  Lemma lap_zero_edge t i m : (forall j, (j < n)%nat -> rsum n (fun l => W j l * (t j - t l)) = 0) ->
    (i < n)%nat -> (m < n)%nat -> 0 < W i m -> t i = t m.
  Proof.
    intros H Hi Hm Hw. assert (Z : rsum n (fun j => rsum n (fun l => W j l * ((t j - t l) * (t j - t l)))) = 0).
    { pose proof (lap_form t) as F. rewrite (rsum_zero n (fun j => t j * _)) in F; [lra|]. intros j Hj. rewrite H by easy. ring. }
    assert (P : forall j l, (j < n)%nat -> (l < n)%nat -> 0 <= W j l * ((t j - t l) * (t j - t l))).
    { intros j l Hj Hl. apply Rmult_le_pos; [apply nonneg; easy|apply Rle_0_sqr]. }
    assert (T : W i m * ((t i - t m) * (t i - t m)) <= 0).
    { rewrite <- Z. apply Rle_trans with (rsum n (fun l => W i l * ((t i - t l) * (t i - t l)))).
      - apply (rsum_ge_term n (fun l => W i l * ((t i - t l) * (t i - t l)))); auto.
      - apply (rsum_ge_term n (fun j => rsum n (fun l => W j l * ((t j - t l) * (t j - t l))))); [|easy].
        intros j Hj. apply rsum_nonneg. auto. }
    assert (Q : (t i - t m) * (t i - t m) <= 0) by (apply Rmult_le_reg_l with (W i m); [easy|lra]).
    assert (Q2 : Rsqr (t i - t m) = 0) by (apply Rle_antisym; [exact Q|apply Rle_0_sqr]). apply Rsqr_0_uniq in Q2. lra.
  Qed.

  Variables (es : list (nat * nat)).
  Hypothesis conn : connected n es.
  Hypothesis supp : forall i j, (i < n)%nat -> (j < n)%nat -> linked es i j -> 0 < W i j.
  Hypothesis in_range : forall i j, linked es i j -> (i < n)%nat /\ (j < n)%nat.
  Lemma lap_zero_const t : (forall j, (j < n)%nat -> rsum n (fun l => W j l * (t j - t l)) = 0) ->
    forall i m, (i < n)%nat -> (m < n)%nat -> t i = t m.
  Proof.
    intros H i m Hi Hm. apply (reach_const es t); [|apply conn; easy].
    intros j l K. destruct (in_range j l K). apply lap_zero_edge; auto.
  Qed.
End Mixing.

Section Pg.
  Variables (n d : nat) (rho : R) (W : nat -> nat -> R) (prox : nat -> vec -> R -> vec) (gradh : nat -> vec -> vec).
  Variables (f h : nat -> rfun) (es : list (nat * nat)).
  Hypothesis rho_pos : 0 < rho.
  Hypothesis sym : symmetric n W.
  Hypothesis rows : row_stochastic n W.
  Notation next := (pg_step n rho W prox gradh).

  (** the sum of the w_j *)
  Theorem w_zero s0 k c : rsum n (fun j => p_w s0 j c) = 0 -> rsum n (fun j => p_w (pg_iter n rho W prox gradh s0 k) j c) = 0.
  Proof.
    intros H0. induction k as [|k IH]; [easy|]. cbn [pg_iter pg_step p_w].
    unfold vadd, vscal. rewrite rsum_plus, IH, rsum_scal, sum_lap by easy. ring.
  Qed.

  Hypothesis cvx : forall j, (j < n)%nat -> convex (f j).
  Hypothesis pf : prox_family d n f prox.
  Hypothesis gf : grad_family d n h gradh.

  Definition zpg (s : pstate) (j : nat) : vec := vsub (vsub (mix n W (p_x s) j) (p_w s j)) (vscal rho (gradh j (p_x s j))).
  Lemma zpg_Rd s j : zero_sum n d s -> (j < n)%nat -> in_Rd d (zpg s j).
  Proof.
    intros [Hs _] Hj k Hk. unfold zpg, vsub, vscal. destruct (Hs j Hj) as [Hx Hw].
    rewrite (Hw k Hk), (proj1 (gf j _ Hj Hx) k Hk). unfold mix, vsumn, vscal. rewrite rsum_zero; [ring|].
    intros l Hl. rewrite (proj1 (Hs l Hl) k Hk). ring.
  Qed.
  Lemma next_zero s : zero_sum n d s -> zero_sum n d (next s).
  Proof.
    intros Hs. split.
    - intros j Hj. split.
      + cbn [pg_step p_x]. apply (prox_family_Rd d n f); auto. apply (zpg_Rd s j Hs Hj).
      + intros k Hk. cbn [pg_step p_w]. unfold vadd, vscal. rewrite lap_eq by easy. destruct Hs as [Hs _].
        rewrite (proj2 (Hs j Hj) k Hk), rsum_zero; [ring|]. intros l Hl. rewrite (proj1 (Hs j Hj) k Hk), (proj1 (Hs l Hl) k Hk). ring.
    - intros k. cbn [pg_step p_w]. unfold vadd, vscal. rewrite rsum_plus, rsum_scal, sum_lap by easy. rewrite (proj2 Hs). ring.
  Qed.
  Lemma init_zero : zero_sum n d pinit.
  Proof. split; [easy|]. intros k. apply rsum_zero. easy. Qed.
  Theorem iter_zero s0 k : zero_sum n d s0 -> zero_sum n d (pg_iter n rho W prox gradh s0 k).
  Proof. intros H. induction k as [|k IH]; [easy|]. apply next_zero, IH. Qed.

  Definition gpg (s : pstate) (j : nat) : vec := vscal (/ rho) (vsub (zpg s j) (p_x (next s) j)).
  Lemma gpg_sub s j : zero_sum n d s -> (j < n)%nat -> subgradient d (restr d (f j)) (p_x (next s) j) (gpg s j).
  Proof. intros Hs Hj. unfold gpg. apply prox_sub; auto. apply pf; auto. apply (zpg_Rd s j Hs Hj). Qed.

  Hypothesis nonneg : nonneg_entries n W.
  Hypothesis conn : connected n es.
  Hypothesis supp : forall i j, (i < n)%nat -> (j < n)%nat -> linked es i j -> 0 < W i j.
  Hypothesis in_range : forall i j, linked es i j -> (i < n)%nat /\ (j < n)%nat.
  Hypothesis npos : (0 < n)%nat.

  Lemma consensus (x : nat -> vec) : (forall j, (j < n)%nat -> in_Rd d (x j)) ->
    (forall j k, (j < n)%nat -> (k < d)%nat -> lap n W x j k = 0) -> forall i m, (i < n)%nat -> (m < n)%nat -> x i = x m.
  Proof.
    intros Hx H i m Hi Hm. apply (in_Rd_eq d); auto. intros k Hk.
    apply (lap_zero_const n W sym nonneg es conn supp in_range (fun j => x j k)); auto.
    intros j Hj. rewrite <- (H j k Hj Hk), lap_eq by easy. easy.
  Qed.

  Theorem pg_fixed_optimal s : zero_sum n d s -> pg_fixed n d rho W prox gradh s ->
    exists x, (forall j, (j < n)%nat -> p_x s j = x) /\ minimiser (sum_fun d n (fun j => add_fun (f j) (h j))) x.
  Proof.
    intros Hs [Fx Fw].
    assert (L : forall j k, (j < n)%nat -> (k < d)%nat -> lap n W (p_x s) j k = 0).
    { intros j k Hj Hk. pose proof (Fw j k Hj Hk) as E. cbn [pg_step p_w] in E. unfold vadd, vscal in E. lra. }
    pose proof (consensus (p_x s) (fun j Hj => proj1 (proj1 Hs j Hj)) L) as C.
    exists (p_x s 0%nat). assert (X0 : forall j, (j < n)%nat -> p_x s j = p_x s 0%nat) by (intros; apply C; easy).
    split; [easy|]. set (x := p_x s 0%nat) in *.
    assert (Hx : in_Rd d x) by (apply (proj1 Hs); easy).
    assert (NX : forall j, (j < n)%nat -> p_x (next s) j = x).
    { intros j Hj. apply (in_Rd_eq d); [apply (proj1 (next_zero s Hs)); easy|easy|]. intros k Hk. rewrite (Fx j k Hj Hk), X0 by easy. easy. }
    assert (G : forall j k, (j < n)%nat -> (k < d)%nat -> gpg s j k = - / rho * p_w s j k - gradh j x k).
    { intros j k Hj Hk. unfold gpg, zpg, vscal, vsub. rewrite NX, mix_lap, L, X0 by easy. field. lra. }
    split.
    - split; [easy|]. intros j Hj. destruct (gpg_sub s j Hs Hj) as [[_ D] _]. rewrite NX in D by easy.
      destruct (gf j x Hj Hx) as [_ [D' _]]. easy.
    - intros y [Hy Dy]. simpl.
      apply Rle_trans with (rsum n (fun j => (val (f j) x + val (h j) x) + (dot d (gpg s j) (vsub y x) + dot d (gradh j x) (vsub y x)))).
      + assert (Z : rsum n (fun j => dot d (gpg s j) (vsub y x) + dot d (gradh j x) (vsub y x)) = 0);
          [|rewrite (rsum_plus n (fun j => val (f j) x + val (h j) x)), Z; lra].
        rewrite (rsum_ext n _ (fun j => rsum d (fun k => (- / rho * (y k - x k)) * p_w s j k))).
        * rewrite rsum_swap. apply rsum_zero. intros k Hk. rewrite rsum_scal, (proj2 Hs k). ring.
        * intros j Hj. rewrite <- dot_add_l. unfold dot. apply rsum_ext. intros k Hk. unfold vadd, vsub. rewrite G by easy. ring.
      + apply rsum_le. intros j Hj. destruct (Dy j Hj) as [D1 D2]. destruct (gpg_sub s j Hs Hj) as [_ S]. rewrite NX in S by easy.
        specialize (S y). unfold restr in S. cbn [dom val] in S. specialize (S (conj Hy D1)). destruct (gf j x Hj Hx) as [_ [_ S2]]. specialize (S2 y D2). lra.
  Qed.
  Theorem pg_optimal_fixed x g : composite_optimum d n f gradh x g ->
    exists s, zero_sum n d s /\ pg_fixed n d rho W prox gradh s /\ forall j, (j < n)%nat -> p_x s j = x.
  Proof.
    intros (Hx & Hg & Hz). set (s := mkP (fun _ => x) (fun j => vscal (- rho) (vadd (g j) (gradh j x)))).
    assert (Hs : zero_sum n d s).
    { split.
      - intros j Hj. split; [easy|]. intros k Hk. simpl. unfold vscal, vadd.
        rewrite (proj1 (Hg j Hj) k Hk), (proj1 (gf j x Hj Hx) k Hk). ring.
      - intros k. simpl. unfold vscal, vadd. rewrite rsum_scal, Hz. ring. }
    assert (L : forall j k, (j < n)%nat -> lap n W (p_x s) j k = 0).
    { intros j k Hj. rewrite lap_eq by easy. apply rsum_zero. intros. simpl. ring. }
    assert (NX : forall j, (j < n)%nat -> p_x (next s) j = x).
    { intros j Hj. cbn [pg_step p_x]. apply (prox_unique d (f j) rho (zpg s j)); auto.
      - apply pf; auto. apply (zpg_Rd s j Hs Hj).
      - apply sub_prox; [easy|]. replace (vscal (/ rho) (vsub (zpg s j) x)) with (g j).
        + apply sub_restr; [easy|]. apply Hg, Hj.
        + apply functional_extensionality. intros k. unfold zpg, vscal, vsub. rewrite mix_lap, L by easy. simpl. unfold vscal, vadd. field. lra. }
    exists s. split; [easy|]. split; [split|easy].
    - intros j k Hj Hk. rewrite NX by easy. easy.
    - intros j k Hj Hk. cbn [pg_step p_w]. unfold vadd, vscal at 1. rewrite L by easy. ring.
  Qed.
End Pg.

(** pg_extra_par_c *)
Section Par.
  Variables (n : nat) (es : list (nat * nat)) (g : graph) (W : nat -> nat -> R) (prox : nat -> vec -> R -> vec) (gradh : nat -> vec -> vec).
  Hypothesis net : network n es g.

  Theorem par_antisym Rs h C : symmetric n W -> forall k j l, (j < n)%nat -> (l < n)%nat ->
    (forall c, c_iL (par_iter n Rs h C W g prox gradh k) j l c + c_iL (par_iter n Rs h C W g prox gradh k) l j c = 0) /\
    (forall c, c_iC (par_iter n Rs h C W g prox gradh k) j l c + c_iC (par_iter n Rs h C W g prox gradh k) l j c = 0).
  Proof.
    intros sym k. induction k as [|k IH]; intros j l Hj Hl; [split; intros; simpl; unfold vzero; ring|].
    destruct (IH j l Hj Hl) as [HL HC].
    assert (M : mem l (adj_of g j) = mem j (adj_of g l)).
    { destruct (mem l (adj_of g j)) eqn:E1, (mem j (adj_of g l)) eqn:E2; try easy.
      - apply mem_in, (in_adj n es g net), linked_sym, (in_adj n es g net), mem_in in E1. congruence.
      - apply mem_in, (in_adj n es g net), linked_sym, (in_adj n es g net), mem_in in E2. congruence. }
    split; intros c; cbn [par_iter par_step c_iL c_iC c_x]; rewrite M; destruct (mem j (adj_of g l)); auto;
      unfold vadd, vscal, vsub; rewrite (sym l j) by easy.
    - specialize (HL c). lra.
    - specialize (HC c). lra.
  Qed.

  Hypothesis rows : row_stochastic n W.
  Hypothesis zero_off : forall i j, (i < n)%nat -> (j < n)%nat -> i <> j -> ~ linked es i j -> W i j = 0.
  Lemma par_pg rho : rho <> 0 -> forall k,
    (forall j, (j < n)%nat -> c_x (par_iter n rho (1 / 2) 0 W g prox gradh k) j = p_x (pg_iter n rho W prox gradh pinit k) j) /\
    (forall j c, (j < n)%nat -> p_w (pg_iter n rho W prox gradh pinit k) j c = rho * lsum (fun l => c_iL (par_iter n rho (1 / 2) 0 W g prox gradh k) j l c) (adj_of g j)) /\
    (forall j l c, c_iC (par_iter n rho (1 / 2) 0 W g prox gradh k) j l c = 0).
  Proof.
    intros Hr k. induction k as [|k (HX & HW & HC)].
    - split; [easy|]. split; [|easy]. intros j c Hj. simpl. rewrite lsum_zero by easy. unfold vzero. ring.
    - set (s := par_iter n rho (1 / 2) 0 W g prox gradh k) in *. set (t := pg_iter n rho W prox gradh pinit k) in *.
      assert (MX : forall j, mix n W (c_x s) j = mix n W (p_x t) j).
      { intros j. apply functional_extensionality. intros c. unfold mix, vsumn, vscal. apply rsum_ext. intros l Hl. rewrite HX by easy. easy. }
      split; [|split].
      + intros j Hj. cbn [par_iter pg_iter par_step pg_step c_x p_x]. fold s t. f_equal. rewrite MX, HX by easy. f_equal. f_equal.
        apply functional_extensionality. intros c. rewrite HW by easy. unfold vscal. rewrite vlist_lsum. f_equal.
        apply lsum_ext. intros l _. unfold vadd. rewrite HC. ring.
      + intros j c Hj. cbn [par_iter pg_iter par_step pg_step c_iL p_w]. fold s t. unfold vadd, vscal at 1.
        rewrite (lsum_ext _ (fun l => c_iL s j l c + 1 / 2 * / rho * (W j l * (p_x t j c - p_x t l c)))).
        * rewrite HW by easy. rewrite lsum_plus, lsum_scal, (lsum_adj n es g net j (fun l => W j l * (p_x t j c - p_x t l c))).
          rewrite (lap_eq n W rows) by easy.
          rewrite (rsum_ext n (fun l => A g j l * _) (fun l => W j l * (p_x t j c - p_x t l c))); [field; easy|].
          intros l Hl. destruct (linked_dec n es g net j l) as [K|K]; [rewrite (A_link n es g net) by easy; ring|].
          destruct (Nat.eq_dec j l) as [->|Hne]; [ring|]. rewrite zero_off by easy. ring.
        * intros l Hin. rewrite (proj2 (mem_in l (adj_of g j)) Hin). unfold vadd, vscal, vsub.
          rewrite !HX by (try easy; apply (adj_lt n es g net j l Hin)). field. easy.
      + intros j l c. cbn [par_iter par_step c_iC]. fold s. destruct (mem l (adj_of g j)); [|apply HC].
        unfold vadd. rewrite HC. unfold vscal, vsub. unfold Rdiv. ring.
  Qed.
  Theorem par_pg_output d itr rho xstar fstar fh : rho <> 0 ->
    pg_extra (PgExtraParC rho (1 / 2) 0) n d itr rho W g xstar fstar prox gradh fh =
    pg_extra PgExtra n d itr rho W g xstar fstar prox gradh fh.
  Proof.
    intros Hr. unfold pg_extra, div_num, bindr. destruct (Req_EM_T (1 / 2) 0); [lra|]. destruct (Req_EM_T rho 0); [easy|].
    f_equal. apply map_ext. intros k. destruct (par_pg rho Hr k) as (H1 & _). destruct (par_pg rho Hr (S k)) as (H2 & _).
    unfold pg_report, frobenius. f_equal.
    - apply rsum_ext. intros j Hj. rewrite H1, H2 by easy. easy.
    - f_equal. apply rsum_ext. intros j Hj. rewrite H2 by easy. easy.
    - f_equal. f_equal. apply rsum_ext. intros j Hj. rewrite H2 by easy. easy.
    - f_equal. f_equal. f_equal. apply rsum_ext. intros j Hj. rewrite H2 by easy. easy.
  Qed.
End Par.
