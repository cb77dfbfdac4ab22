(** Proofs about the miscellaneous helpers. *)
From Coq Require Import List Arith Bool String Ascii QArith ZArith Reals Qreals Lra Lia Permutation.
From Verif Require Import Prelude PreludeFacts Sympy SympyFacts AlgebraModel Denote FunctionModel CircuitModel
  ParsingModel ParsingSpec ParsingFacts CoeffFacts SolverSpec MatFacts MiscModel MiscSpec.
Import ListNotations.
Local Open Scope nat_scope.

(** * evaluation *)
Lemma eval_pd_none d acc : d <> [] -> eval_point_dict no_values d acc = Err ValueError.
Proof. destruct d as [|[x w] d]; [easy|]. intros _. reflexivity. Qed.
Definition leaf_key (k : ekey) : bool := match k with KOne => false | _ => true end.
Lemma eval_ed_none n d : forall acc, existsb leaf_key (keys d) = true -> eval_expr_dict no_values n d acc = Err ValueError.
Proof.
  induction d as [|[k w] d IH]; intros acc H; [easy|]. destruct k; simpl in *; try reflexivity. apply IH, H.
Qed.
Lemma eval_ed_const n d r : forall acc, existsb leaf_key (keys d) = false ->
  exists v, eval_expr_dict no_values n d acc = Ok v /\ ev r v = (ev r acc + lsum (fun kv => ev r (snd kv)) d)%R.
Proof.
  induction d as [|[k w] d IH]; intros acc H.
  - exists acc. split; [reflexivity|]. simpl. lra.
  - destruct k; simpl in *; try discriminate. destruct (IH (sadd acc w) H) as (v & E & Hv). exists v. split; [exact E|]. rewrite Hv, sadd_ev. lra.
Qed.

(** values found in the slots are the values of the valuation *)
Definition slots_match (s : slots) (v : valuation) : Prop :=
  (forall x, match sl_pt s x with Some u => forall k, v_pt v x k = Q2R (u k) | None => False end) /\
  (forall f, match sl_ex s f with Some q => v_fv v f = Q2R q | None => False end).
Lemma qdot_R n u v : Q2R (qdot n u v) = rsum n (fun k => (Q2R (u k) * Q2R (v k))%R).
Proof. induction n; simpl; [apply Q2R_0'|]. rewrite Q2R_plus, Q2R_mult, IHn. reflexivity. Qed.
Lemma eval_ed_value s v : slots_match s v -> forall d acc, exists x, eval_expr_dict s (v_dim v) d acc = Ok x /\
  ev (v_env v) x = (ev (v_env v) acc + den_ed v d)%R.
Proof.
  intros [Hp Hf]. induction d as [|[k w] d IH]; intros acc.
  - exists acc. split; [reflexivity|]. unfold den_ed. simpl. lra.
  - destruct k as [f|x y|]; simpl.
    + unfold eval_leaf_expr. specialize (Hf f). destruct (sl_ex s f) as [q|]; [|easy]. simpl.
      destruct (IH (sadd acc (smul w (Num q)))) as (z & E & Hz). exists z. split; [exact E|]. rewrite Hz, sadd_ev, smul_ev. unfold den_ed. simpl. rewrite Hf. lra.
    + unfold eval_leaf_point. pose proof (Hp x) as Hx. pose proof (Hp y) as Hy. destruct (sl_pt s x) as [u|]; [|easy]. destruct (sl_pt s y) as [u'|]; [|easy]. simpl.
      destruct (IH (sadd acc (smul w (Num (qdot (v_dim v) u u'))))) as (z & E & Hz). exists z. split; [exact E|].
      rewrite Hz, sadd_ev, smul_ev. unfold den_ed. simpl. rewrite qdot_R. unfold dot.
      rewrite (rsum_ext _ (fun k => (v_pt v x k * v_pt v y k)%R) (fun k => (Q2R (u k) * Q2R (u' k))%R)); [lra|]. intros k _. rewrite Hx, Hy. reflexivity.
    + destruct (IH (sadd acc w)) as (z & E & Hz). exists z. split; [exact E|]. rewrite Hz, sadd_ev. unfold den_ed. simpl. lra.
Qed.

(** * degree *)
Lemma rpow_pow x n : rpow x n = (x ^ n)%R.
Proof. induction n; simpl; [reflexivity|]. rewrite IHn. reflexivity. Qed.
Lemma mono_scale t r gens : forall ex, List.length ex = List.length gens ->
  mono_val (fun s => (t * r s)%R) gens ex = (t ^ fold_right plus 0%nat ex * mono_val r gens ex)%R.
Proof.
  induction gens as [|g gens IH]; intros [|n ex] H; simpl in *; try lia; [lra|].
  rewrite IH by lia. rewrite (rpow_pow (t * r g)), (rpow_pow (r g)), Rpow_mult_distr. rewrite (pow_add t n). ring.
Qed.
Lemma poly_fun_sum d (l : list (list nat * Q)) (deg : list nat * Q -> nat) (c : list nat * Q -> R) :
  (forall t, In t l -> deg t <= d) -> poly_fun d (fun x => lsum (fun t => (c t * x ^ deg t)%R) l).
Proof.
  intros H. exists (fun k => lsum (fun t => if Nat.eqb k (deg t) then c t else 0%R) l). intros x.
  rewrite (rsum_ext _ _ (fun k => lsum (fun t => ((if Nat.eqb k (deg t) then c t else 0) * x ^ k)%R) l)).
  - rewrite <- lsum_rsum. apply lsum_ext. intros t Ht.
    rewrite (rsum_ext _ _ (fun k => if Nat.eqb k (deg t) then (c t * x ^ deg t)%R else 0%R)).
    + rewrite rsum_single; [reflexivity|]. specialize (H t Ht). lia.
    + intros k _. destruct (Nat.eqb_spec k (deg t)) as [->|]; lra.
  - intros k _. rewrite lsum_scal_r. reflexivity.
Qed.
Lemma check_degree_sound SY e d : sympy_ok SY -> check_degree SY e d = true ->
  forall r, poly_fun d (fun t => ev (fun s => (t * r s)%R) e).
Proof.
  intros OK H r. unfold check_degree in H. rewrite forallb_forall in H.
  destruct (poly_fun_sum d (p_terms (poly SY (simp SY e))) (fun t => fold_right plus 0%nat (fst t))
    (fun t => (Q2R (snd t) * mono_val r (p_gens (poly SY (simp SY e))) (fst t))%R)) as [c Hc].
  { intros t Ht. apply Nat.leb_le, H, Ht. }
  exists c. intros x. rewrite <- Hc, <- (simp_ev SY OK), <- (poly_ev SY OK). unfold poly_val. apply lsum_ext. intros t Ht.
  rewrite mono_scale by (apply (poly_len SY OK), Ht). lra.
Qed.

(** * one-hot helpers *)
Local Open Scope R_scope.
Lemma rsum_pick n i (f : nat -> R) : (i < n)%nat -> rsum n (fun k => f k * (if Nat.eqb k i then 1 else 0)) = f i.
Proof.
  intros H. rewrite <- (rsum_single n i (f i) H). apply rsum_ext. intros k _. destruct (Nat.eqb_spec k i) as [->|]; lra.
Qed.
Lemma symm_prod_form a b : rm_cols a = rm_cols b -> rm_rows a = rm_rows b -> exists M, symm_prod a b = Ok M /\
  rm_rows M = rm_rows a /\ rm_cols M = rm_rows a /\ (forall r c, rm_at M r c = rm_at M c r) /\
  forall v, bilinear (rm_rows a) (rm_at M) v v =
    rsum (rm_cols a) (fun k => rsum (rm_rows a) (fun r => v r * rm_at a r k) * rsum (rm_rows a) (fun r => v r * rm_at b r k)).
Proof.
  intros Hc Hr. unfold symm_prod, mul_t, rm_add. rewrite Hc, Hr, !Nat.eqb_refl. cbn. rewrite ?Nat.eqb_refl. cbn. rewrite ?Nat.eqb_refl. cbn. rewrite <- Hr.
  eexists. split; [reflexivity|]. simpl. split; [reflexivity|]. split; [reflexivity|]. split.
  - intros r c. f_equal. rewrite Rplus_comm. f_equal; apply rsum_ext; intros; ring.
  - intros v. unfold bilinear. set (n := rm_rows a). set (m := rm_cols b).
    transitivity (/2 * (rsum m (fun k => rsum n (fun r => v r * rm_at a r k) * rsum n (fun r => v r * rm_at b r k)) +
                        rsum m (fun k => rsum n (fun r => v r * rm_at b r k) * rsum n (fun r => v r * rm_at a r k)))).
    + assert (G : forall A B : nat -> nat -> R, rsum n (fun r => rsum n (fun c => v r * rsum m (fun k => A r k * B c k) * v c)) =
         rsum m (fun k => rsum n (fun r => v r * A r k) * rsum n (fun r => v r * B r k))).
      { intros A B. rewrite (rsum_ext n _ (fun r => rsum m (fun k => (v r * A r k) * rsum n (fun c => v c * B c k)))).
        - rewrite rsum_swap. apply rsum_ext. intros k _. rewrite <- rsum_scal_r. reflexivity.
        - intros r _. rewrite (rsum_ext n _ (fun c => rsum m (fun k => (v r * A r k) * (v c * B c k)))).
          + rewrite rsum_swap. apply rsum_ext. intros k _. rewrite rsum_scal. reflexivity.
          + intros c _. rewrite <- rsum_scal, <- rsum_scal_r. apply rsum_ext. intros; ring. }
      rewrite <- (G (rm_at a) (rm_at b)), <- (G (rm_at b) (rm_at a)), <- rsum_plus, <- rsum_scal. apply rsum_ext. intros r _.
      rewrite <- rsum_plus, <- rsum_scal. apply rsum_ext. intros c _. ring.
    + rewrite (rsum_ext m (fun k => rsum n (fun r => v r * rm_at b r k) * rsum n (fun r => v r * rm_at a r k))
        (fun k => rsum n (fun r => v r * rm_at a r k) * rsum n (fun r => v r * rm_at b r k))) by (intros; ring). fold m. lra.
Qed.
Lemma symm_one_hot n i j : (i < n)%nat -> (j < n)%nat -> exists M, symm_prod_one_hot n i j = Ok M /\
  rm_rows M = n /\ rm_cols M = n /\ (forall r c, rm_at M r c = rm_at M c r) /\ forall v, bilinear n (rm_at M) v v = v i * v j.
Proof.
  intros Hi Hj. unfold symm_prod_one_hot. apply Nat.ltb_lt in Hi as Ei. apply Nat.ltb_lt in Hj as Ej.
  destruct (symm_prod_form (one_hot n i) (one_hot n j)) as (M & E & H1 & H2 & H3 & H4); simpl; [rewrite Ei, Ej; reflexivity|reflexivity|].
  exists M. split; [exact E|]. split; [exact H1|]. split; [exact H2|]. split; [exact H3|]. intros v. simpl in H4. rewrite H4, Ei. simpl.
  rewrite !Nat.add_0_r, !rsum_pick by assumption. ring.
Qed.

Lemma stack_from_at rows mx : forall l i acc T, stack_from i rows mx l acc = Ok T ->
  (forall a v, nth_error l a = Some v -> rm_rows v = rows /\ (rm_cols v <= mx)%nat /\
     forall r c, T (i + a)%nat r c = if Nat.ltb c (rm_cols v) then rm_at v r c else acc (i + a)%nat r c) /\
  (forall a r c, (a < i)%nat -> T a r c = acc a r c).
Proof.
  induction l as [|w l IH]; intros i acc T H; simpl in H.
  - injection H as <-. split; [intros [|a]; easy|reflexivity].
  - destruct (Nat.eqb (rm_rows w) rows && Nat.leb (rm_cols w) mx) eqn:E; [|easy]. apply andb_prop in E as [E1 E2]. apply Nat.eqb_eq in E1. apply Nat.leb_le in E2.
    destruct (IH _ _ _ H) as [H1 H2]. split.
    + intros [|a] v Hv; simpl in Hv.
      * injection Hv as <-. split; [exact E1|]. split; [exact E2|]. intros r c. rewrite Nat.add_0_r, H2 by lia. rewrite Nat.eqb_refl. reflexivity.
      * destruct (H1 a v Hv) as (A1 & A2 & A3). split; [exact A1|]. split; [exact A2|]. intros r c. replace (i + S a)%nat with (S i + a)%nat by lia. rewrite A3.
        destruct (Nat.eqb_spec (S i + a) i); [lia|]. reflexivity.
    + intros a r c Ha. rewrite H2 by lia. destruct (Nat.eqb_spec a i); [lia|]. reflexivity.
Qed.
Lemma stack_from_total rows mx : forall l i acc, (forall v, In v l -> rm_rows v = rows /\ (rm_cols v <= mx)%nat) -> exists T, stack_from i rows mx l acc = Ok T.
Proof.
  induction l as [|w l IH]; intros i acc H; simpl; [eauto|]. destruct (H w) as [E1 E2]; [simpl; auto|]. rewrite E1, Nat.eqb_refl. apply Nat.leb_le in E2. rewrite E2. simpl. apply IH. intros; apply H; simpl; auto.
Qed.
Lemma rsum_pad n m f g : (n <= m)%nat -> (forall k, (k < n)%nat -> g k = f k) -> (forall k, (n <= k)%nat -> g k = 0) -> rsum m g = rsum n f.
Proof.
  intros H1 H2 H3. replace m with (n + (m - n))%nat by lia. rewrite rsum_split. rewrite (rsum_ext n g f H2).
  rewrite (rsum_zero (m - n)); [lra|]. intros k _. apply H3. lia.
Qed.

(** * splitting *)
Lemma rsum_reindex n idx f : Permutation (map idx (seq 0 n)) (seq 0 n) -> rsum n (fun k => f (idx k)) = rsum n f.
Proof. intros H. rewrite <- !lsum_seq, <- lsum_map with (h := idx). apply lsum_perm, H. Qed.
Lemma first_positive_some m : forall i lam p, first_positive m i lam = Some p -> (i <= p < i + m)%nat /\ 0 < lam p /\ forall k, (i <= k < p)%nat -> lam k <= 0.
Proof.
  induction m as [|m IH]; intros i lam p; simpl; [easy|]. destruct (Rlt_dec 0 (lam i)) as [H|H].
  - intros [= <-]. split; [lia|]. split; [exact H|]. intros; lia.
  - intros E. destruct (IH _ _ _ E) as (A1 & A2 & A3). split; [lia|]. split; [exact A2|]. intros k Hk. destruct (Nat.eq_dec k i) as [->|]; [lra|apply A3; lia].
Qed.
Lemma first_positive_none m : forall i lam, first_positive m i lam = None -> forall k, (i <= k < i + m)%nat -> lam k <= 0.
Proof.
  induction m as [|m IH]; intros i lam; simpl; [intros; lia|]. destruct (Rlt_dec 0 (lam i)) as [H|H]; [easy|].
  intros E k Hk. destruct (Nat.eq_dec k i) as [->|]; [lra|apply (IH (S i)); [exact E|lia]].
Qed.
Lemma weighted_psd n m (w : nat -> R) (U : nat -> nat -> R) : (forall k, (k < m)%nat -> 0 <= w k) ->
  psd n (fun r c => rsum m (fun k => w k * U r k * U c k)).
Proof.
  intros H. destruct (ppt_psd n m (fun r k => sqrt (w k) * U r k)) as [P1 P2].
  assert (E : forall r c, rsum m (fun k => w k * U r k * U c k) = rsum m (fun k => sqrt (w k) * U r k * (sqrt (w k) * U c k))).
  { intros r c. apply rsum_ext. intros k Hk. rewrite <- (sqrt_sqrt (w k)) at 1 by auto. ring. }
  split.
  - intros i j Hi Hj. rewrite !E. apply P1; assumption.
  - intros x. specialize (P2 x). erewrite rsum_ext; [exact P2|]. intros i _. apply rsum_ext. intros j _. simpl. rewrite E. reflexivity.
Qed.
Lemma psd_ext n A B : (forall i j, (i < n)%nat -> (j < n)%nat -> A i j = B i j) -> psd n A -> psd n B.
Proof.
  intros H [P1 P2]. split; [intros; rewrite <- !H by assumption; auto|]. intros x. specialize (P2 x). erewrite rsum_ext; [exact P2|].
  intros i Hi. apply rsum_ext. intros j Hj. simpl. rewrite H by assumption. reflexivity.
Qed.

Lemma rsum_opp n f : - rsum n f = rsum n (fun k => - f k).
Proof. induction n; simpl; lra. Qed.

Section Split.
  Context (eigh : (nat -> nat -> R) -> (nat -> R) * (nat -> nat -> R)) (argsort : nat -> (nat -> R) -> nat -> nat).
  Context (n : nat) (A : nat -> nat -> R).
  Context (HE : eigendecomposition n A (fst (eigh A)) (snd (eigh A))) (HS : sorts n (fst (eigh A)) (argsort n (fst (eigh A)))).

  Lemma split_ok : let AP := fst (matrix_to_diff_psd eigh argsort n A) in let AM := snd (matrix_to_diff_psd eigh argsort n A) in
    (forall i j, (i < n)%nat -> (j < n)%nat -> AP i j - AM i j = A i j) /\ psd n AP /\ psd n AM /\
    (forall i j, (i < n)%nat -> (j < n)%nat -> rsum n (fun k => AP i k * AM k j) = 0).
  Proof using HE HS.
    unfold matrix_to_diff_psd. destruct (eigh A) as [lam0 V0]. simpl in HE, HS. destruct HE as (D & O & _). destruct HS as [Pm Sm].
    set (idx := argsort n lam0) in *. set (lam := fun k => lam0 (idx k)). set (V := fun r k => V0 r (idx k)).
    assert (D' : forall r c, (r < n)%nat -> (c < n)%nat -> A r c = rsum n (fun k => lam k * V r k * V c k)).
    { intros r c Hr Hc. rewrite D by assumption. symmetry. unfold lam, V. apply (rsum_reindex n idx (fun k => lam0 k * V0 r k * V0 c k) Pm). }
    assert (Ib : forall k, (k < n)%nat -> (idx k < n)%nat).
    { intros k Hk. assert (In (idx k) (seq 0 n)) by (apply (Permutation_in _ Pm), in_map, in_seq; lia). apply in_seq in H. lia. }
    assert (Ij : forall k l, (k < n)%nat -> (l < n)%nat -> idx k = idx l -> k = l).
    { intros k l Hk Hl E. assert (Nd : NoDup (map idx (seq 0 n))) by (apply (Permutation_NoDup (Permutation_sym Pm)), seq_NoDup).
      apply (proj1 (NoDup_nth _ 0%nat) Nd); rewrite ?map_length, ?seq_length; try assumption.
      rewrite (nth_indep _ 0%nat (idx 0%nat)), (nth_indep _ 0%nat (idx 0%nat)) by (rewrite map_length, seq_length; assumption).
      rewrite !map_nth, !seq_nth by assumption. exact E. }
    assert (O' : forall k l, (k < n)%nat -> (l < n)%nat -> k <> l -> rsum n (fun r => V r k * V r l) = 0).
    { intros k l Hk Hl Hne. unfold V. rewrite O by auto. destruct (Nat.eqb_spec (idx k) (idx l)) as [E|]; [|reflexivity]. apply Ij in E; easy. }
    destruct (first_positive n 0 lam) as [p|] eqn:Ep.
    - destruct (first_positive_some _ _ _ _ Ep) as (Bp & Pp & Np).
      assert (Pos : forall k, (k < n - p)%nat -> 0 <= lam (p + k)%nat).
      { intros k Hk. apply Rle_trans with (lam p); [lra|]. apply Sm; lia. }
      destruct (Nat.leb 1 p) eqn:E1; simpl.
      + split; [|split; [|split]].
        * intros i j Hi Hj. rewrite D' by assumption. replace (rsum n (fun k => lam k * V i k * V j k)) with (rsum (p + (n - p)) (fun k => lam k * V i k * V j k)) by (f_equal; lia). rewrite rsum_split. unfold lam, V. lra.
        * apply (weighted_psd n (n - p) (fun k => lam (p + k)%nat) (fun r k => V r (p + k)%nat)). exact Pos.
        * eapply psd_ext; [|apply (weighted_psd n p (fun k => - lam k) V)].
          -- intros i j _ _. simpl. rewrite rsum_opp. apply rsum_ext. intros; unfold lam, V; ring.
          -- intros k Hk. simpl. specialize (Np k). assert (lam k <= 0) by (apply Np; lia). lra.
        * intros i j _ _. rewrite (rsum_ext n _ (fun k => rsum (n - p) (fun a => rsum p (fun b => - (lam (p + a)%nat * V i (p + a)%nat * lam b * V j b) * (V k (p + a)%nat * V k b))))).
          -- rewrite rsum_swap. apply rsum_zero. intros a Ha. rewrite rsum_swap. apply rsum_zero. intros b Hb. rewrite rsum_scal, O' by lia. ring.
          -- intros k _. rewrite <- rsum_scal_r. apply rsum_ext. intros a _. rewrite rsum_opp, <- rsum_scal. apply rsum_ext. intros; unfold lam, V; ring.
      + apply Nat.leb_gt in E1. assert (p = 0)%nat by lia. subst p. split; [intros; lra|]. split; [|split].
        * eapply psd_ext; [|apply (weighted_psd n n lam V)]; [intros; symmetry; apply D'; assumption|]. intros k Hk. apply Pos. lia.
        * split; [reflexivity|]. intros x. apply Req_le. symmetry. apply rsum_zero. intros. apply rsum_zero. intros. ring.
        * intros. apply rsum_zero. intros. ring.
    - pose proof (first_positive_none _ _ _ Ep) as Np. simpl. split; [intros; lra|]. split; [|split].
      + split; [reflexivity|]. intros x. apply Req_le. symmetry. apply rsum_zero. intros. apply rsum_zero. intros. ring.
      + eapply psd_ext; [|apply (weighted_psd n n (fun k => - lam k) V)].
        * intros i j Hi Hj. simpl. rewrite D' by assumption. rewrite rsum_opp. apply rsum_ext. intros; unfold lam, V; ring.
        * intros k Hk. simpl. specialize (Np k). assert (lam k <= 0) by (apply Np; lia). lra.
      + intros. apply rsum_zero. intros. ring.
  Qed.

  Lemma clip_ok eps : 0 <= eps -> psd n (clip_eigenvalues eigh n eps A) /\
    (forall x, eps * rsum n (fun i => x i * x i) <= bilinear n (clip_eigenvalues eigh n eps A) x x) /\
    ((forall k, (k < n)%nat -> eps <= fst (eigh A) k) -> forall i j, (i < n)%nat -> (j < n)%nat -> clip_eigenvalues eigh n eps A i j = A i j).
  Proof using HE.
    clear HS. intros He. unfold clip_eigenvalues. destruct (eigh A) as [lam V]. simpl in *. destruct HE as (D & _ & O). split; [|split].
    - apply weighted_psd. intros k _. apply Rle_trans with eps; [exact He|apply Rmax_r].
    - intros x. unfold bilinear.
      assert (W : psd n (fun r c => rsum n (fun k => (Rmax (lam k) eps - eps) * V r k * V c k))).
      { apply weighted_psd. intros k _. pose proof (Rmax_r (lam k) eps). lra. }
      destruct W as [_ W]. specialize (W x).
      assert (E : rsum n (fun i => rsum n (fun j => x i * x j * rsum n (fun k => (Rmax (lam k) eps - eps) * V i k * V j k))) =
        rsum n (fun r => rsum n (fun c => x r * rsum n (fun k => Rmax (lam k) eps * V r k * V c k) * x c)) - eps * rsum n (fun i => x i * x i)).
      { rewrite <- rsum_scal, <- rsum_minus. apply rsum_ext. intros i Hi.
        transitivity (rsum n (fun c => x i * rsum n (fun k => Rmax (lam k) eps * V i k * V c k) * x c) - eps * x i * rsum n (fun c => x c * (if Nat.eqb c i then 1 else 0))).
        - rewrite <- rsum_scal, <- rsum_minus. apply rsum_ext. intros j Hj. rewrite Nat.eqb_sym, <- O by assumption.
          rewrite (rsum_ext n _ (fun k => Rmax (lam k) eps * V i k * V j k - eps * (V i k * V j k))) by (intros; ring). rewrite rsum_minus, rsum_scal. ring.
        - rewrite rsum_pick by exact Hi. ring. }
      rewrite E in W. lra.
    - intros H i j Hi Hj. rewrite D by assumption. apply rsum_ext. intros k Hk. rewrite Rmax_left by auto. reflexivity.
  Qed.
End Split.

(** * grid search *)
Lemma fold_plus_lsum l : forall acc, fold_left Rplus l acc = acc + lsum (fun x => x) l.
Proof. induction l as [|x l IH]; intros acc; simpl; [lra|]. rewrite IH. lra. Qed.
Lemma lsum_nth_firstn m : forall l, lsum (fun x => x) (firstn m l) = rsum m (fun k => nth k l 0).
Proof.
  induction m as [|m IH]; intros [|x l]; simpl.
  - reflexivity.
  - reflexivity.
  - symmetry. change (rsum (S m) (fun k => nth k [] 0) = 0). apply rsum_zero. intros k _. destruct k; reflexivity.
  - rewrite IH. symmetry. change (rsum (S m) (fun k => nth k (x :: l) 0) = x + rsum m (fun k => nth k l 0)). rewrite rsum_S_l. reflexivity.
Qed.
Lemma nth_skipn (l : list R) : forall s k, nth k (skipn s l) 0 = nth (s + k) l 0.
Proof. induction l as [|x l IH]; intros [|s] k; simpl; auto. destruct k; reflexivity. Qed.
Lemma window_val start stop l : fold_left Rplus (slice start stop l) 0 / IZR (Z.of_nat stop - Z.of_nat start) = window_mean start stop l.
Proof.
  unfold window_mean, slice. rewrite fold_plus_lsum, lsum_nth_firstn, minus_IZR, <- !INR_IZR_INZ, Rplus_0_l. f_equal. apply rsum_ext. intros k _. apply nth_skipn.
Qed.
Lemma grid_loop_spec {P} (f : P -> list R) start stop : start <> stop -> forall l done best, 
  (match best with
   | None => done = []
   | Some (b, p) => exists l1 l2, done = l1 ++ p :: l2 /\ b = window_mean start stop (f p) /\
       (forall q, In q l1 -> window_mean start stop (f p) < window_mean start stop (f q)) /\
       (forall q, In q l2 -> window_mean start stop (f p) <= window_mean start stop (f q))
   end) ->
  exists best', grid_loop f start stop l best = Ok best' /\
  (match best' with
   | None => done ++ l = []
   | Some (b, p) => exists l1 l2, done ++ l = l1 ++ p :: l2 /\ b = window_mean start stop (f p) /\
       (forall q, In q l1 -> window_mean start stop (f p) < window_mean start stop (f q)) /\
       (forall q, In q l2 -> window_mean start stop (f p) <= window_mean start stop (f q))
   end).
Proof.
  intros Hne. assert (Eb : Nat.eqb stop start = false) by (apply Nat.eqb_neq; auto).
  induction l as [|p l IH]; intros done best H.
  - exists best. split; [reflexivity|]. destruct best as [[b q]|]; rewrite app_nil_r; exact H.
  - cbn [grid_loop]. rewrite Eb, window_val. change (p :: l) with ([p] ++ l). rewrite app_assoc. apply IH. destruct best as [[b q]|].
    + destruct H as (l1 & l2 & E & Hb & H1 & H2). destruct (Rlt_dec (window_mean start stop (f p)) b) as [Hl|Hl].
      * exists done, []. split; [reflexivity|]. split; [reflexivity|]. split; [|intros ? []]. intros x Hx. rewrite E in Hx. apply in_app_iff in Hx as [Hx|[<-|Hx]].
        -- specialize (H1 x Hx). lra.
        -- lra.
        -- specialize (H2 x Hx). lra.
      * exists l1, (l2 ++ [p]). split; [rewrite E, <- app_assoc; reflexivity|]. split; [exact Hb|]. split; [exact H1|].
        intros x Hx. apply in_app_iff in Hx as [Hx|[<-|[]]]; [auto|lra].
    + subst done. exists [], []. split; [reflexivity|]. split; [reflexivity|]. split; intros ? [].
Qed.
