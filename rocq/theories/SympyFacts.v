(** Lemmas about scalars; [sympy0] satisfies [sympy_ok]. *)
From Coq Require Import List Arith Bool String Ascii QArith Reals Qreals Lra Lia Permutation Sorting.Sorted.
From Verif Require Import Prelude PreludeFacts Sympy.
Import ListNotations.
Local Open Scope R_scope.

Lemma Q2R_red q : Q2R (Qred q) = Q2R q.
Proof. apply Qeq_eqR, Qred_correct. Qed.

Lemma is_num_ev r v e : is_num v e = true -> ev r e = Q2R v.
Proof.
  unfold is_num; destruct e; try easy. intros H. apply Qeq_eqR. apply Qeq_bool_eq; easy.
Qed.

Lemma Q2R_0' : Q2R 0 = 0. Proof. unfold Q2R; simpl; lra. Qed.
Lemma Q2R_1' : Q2R 1 = 1. Proof. unfold Q2R; simpl; lra. Qed.

Lemma sadd_ev r a b : ev r (sadd a b) = ev r a + ev r b.
Proof.
  assert (G : ev r (if is_num 0 a then b else if is_num 0 b then a else Add a b) = ev r a + ev r b).
  { destruct (is_num 0 a) eqn:Ea.
    - rewrite (is_num_ev r _ _ Ea), Q2R_0'. lra.
    - destruct (is_num 0 b) eqn:Eb; [|easy].
      rewrite (is_num_ev r _ _ Eb), Q2R_0'. lra. }
  destruct a, b; try exact G. unfold sadd, smul; cbn [ev]. rewrite Q2R_red, Q2R_plus. easy.
Qed.

Lemma smul_ev r a b : ev r (smul a b) = ev r a * ev r b.
Proof.
  assert (G : ev r (if is_num 0 a || is_num 0 b then Num 0
            else if is_num 1 a then b else if is_num 1 b then a else Mul a b) = ev r a * ev r b).
  { destruct (is_num 0 a) eqn:Ea; simpl orb; cbv iota.
    { rewrite (is_num_ev r _ _ Ea). simpl. rewrite Q2R_0'. lra. }
    destruct (is_num 0 b) eqn:Eb.
    { rewrite (is_num_ev r _ _ Eb). simpl. rewrite Q2R_0'. lra. }
    destruct (is_num 1 a) eqn:Ea1.
    { rewrite (is_num_ev r _ _ Ea1), Q2R_1'. lra. }
    destruct (is_num 1 b) eqn:Eb1; [|easy].
    rewrite (is_num_ev r _ _ Eb1), Q2R_1'. lra. }
  destruct a, b; try exact G. unfold sadd, smul; cbn [ev]. rewrite Q2R_red, Q2R_mult. easy.
Qed.

Lemma sneg_ev r a : ev r (sneg a) = - ev r a.
Proof. unfold sneg. rewrite smul_ev. simpl. unfold Q2R; simpl. lra. Qed.

Lemma ssub_ev r a b : ev r (ssub a b) = ev r a - ev r b.
Proof. unfold ssub. rewrite sadd_ev, sneg_ev. lra. Qed.

Lemma sadd_free a b s : In s (free (sadd a b)) -> In s (free a) \/ In s (free b).
Proof.
  unfold sadd. destruct a, b; simpl;
    repeat match goal with |- context [if ?c then _ else _] => destruct c end;
    simpl; rewrite ?in_app_iff; simpl; tauto.
Qed.

Lemma smul_free a b s : In s (free (smul a b)) -> In s (free a) \/ In s (free b).
Proof.
  unfold smul. destruct a, b; simpl;
    repeat match goal with |- context [if ?c then _ else _] => destruct c end;
    simpl; rewrite ?in_app_iff; simpl; tauto.
Qed.

Lemma sexpr_eqb_ev r a b : sexpr_eqb a b = true -> ev r a = ev r b.
Proof.
  revert b; induction a as [q|s|a1 IH1 a2 IH2|a1 IH1 a2 IH2]; destruct b; simpl; try easy.
  - intros H. apply Qeq_eqR. apply Qeq_bool_eq; easy.
  - intros H. apply String.eqb_eq in H. subst; easy.
  - rewrite andb_true_iff. intros [H1 H2]. rewrite (IH1 _ H1), (IH2 _ H2). easy.
  - rewrite andb_true_iff. intros [H1 H2]. rewrite (IH1 _ H1), (IH2 _ H2). easy.
Qed.

Lemma Qeq_bool_refl' q : Qeq_bool q q = true.
Proof. apply Qeq_bool_iff. reflexivity. Qed.

Lemma sexpr_eqb_refl a : sexpr_eqb a a = true.
Proof.
  induction a; simpl.
  - apply Qeq_bool_refl'.
  - apply String.eqb_refl.
  - rewrite IHa1, IHa2; easy.
  - rewrite IHa1, IHa2; easy.
Qed.

Lemma sexpr_eqb_sym a b : sexpr_eqb a b = true -> sexpr_eqb b a = true.
Proof.
  revert b; induction a as [q|s|a1 IH1 a2 IH2|a1 IH1 a2 IH2]; destruct b; simpl; try easy.
  - rewrite !Qeq_bool_iff. intros H; symmetry; easy.
  - rewrite !String.eqb_eq. auto.
  - rewrite !andb_true_iff. intros [H1 H2]; auto.
  - rewrite !andb_true_iff. intros [H1 H2]; auto.
Qed.

Lemma sexpr_eqb_trans a b c : sexpr_eqb a b = true -> sexpr_eqb b c = true -> sexpr_eqb a c = true.
Proof.
  revert b c; induction a as [q|s|a1 IH1 a2 IH2|a1 IH1 a2 IH2]; destruct b, c; simpl; try easy.
  - rewrite !Qeq_bool_iff. intros H H'; rewrite H; easy.
  - rewrite !String.eqb_eq. congruence.
  - rewrite !andb_true_iff. intros [H1 H2] [H3 H4]; split; eauto.
  - rewrite !andb_true_iff. intros [H1 H2] [H3 H4]; split; eauto.
Qed.

Lemma to_float_ev r e q : to_float e = Ok q -> ev r e = Q2R q.
Proof.
  revert q; induction e as [p|s|a IHa b IHb|a IHa b IHb]; simpl; intros q H; try easy.
  - injection H; intros; subst; easy.
  - destruct (to_float a) as [x|] eqn:Ea; simpl in H; [|easy].
    destruct (to_float b) as [y|] eqn:Eb; simpl in H; [|easy].
    injection H; intros; subst. rewrite Q2R_red, Q2R_plus, (IHa x), (IHb y); easy.
  - destruct (to_float a) as [x|] eqn:Ea; simpl in H; [|easy].
    destruct (to_float b) as [y|] eqn:Eb; simpl in H; [|easy].
    injection H; intros; subst. rewrite Q2R_red, Q2R_mult, (IHa x), (IHb y); easy.
Qed.

Lemma closed_free e : closed e = true <-> free e = [].
Proof. unfold closed. destruct (free e); split; easy. Qed.

Lemma closed_to_float e : closed e = true -> exists q, to_float e = Ok q.
Proof.
  rewrite closed_free.
  induction e as [p|s|a IHa b IHb|a IHa b IHb]; simpl; intros H.
  - eauto.
  - easy.
  - apply app_eq_nil in H as [Ha Hb]. destruct (IHa Ha) as [x ->], (IHb Hb) as [y ->]. simpl. eauto.
  - apply app_eq_nil in H as [Ha Hb]. destruct (IHa Ha) as [x ->], (IHb Hb) as [y ->]. simpl. eauto.
Qed.

Lemma to_float_closed e q : to_float e = Ok q -> free e = [].
Proof.
  revert q; induction e as [p|s|a IHa b IHb|a IHa b IHb]; simpl; intros q H; try easy.
  - destruct (to_float a) as [x|] eqn:Ea; simpl in H; [|easy].
    destruct (to_float b) as [y|] eqn:Eb; simpl in H; [|easy].
    rewrite (IHa x), (IHb y); easy.
  - destruct (to_float a) as [x|] eqn:Ea; simpl in H; [|easy].
    destruct (to_float b) as [y|] eqn:Eb; simpl in H; [|easy].
    rewrite (IHa x), (IHb y); easy.
Qed.

(** The value of an expression depends only on its free symbols. *)
Lemma ev_free_ext r1 r2 e : (forall s, In s (free e) -> r1 s = r2 s) -> ev r1 e = ev r2 e.
Proof.
  induction e as [p|s|a IHa b IHb|a IHa b IHb]; simpl; intros H; [easy|auto| |].
  - rewrite IHa, IHb; [easy| |]; intros; apply H, in_app_iff; auto.
  - rewrite IHa, IHb; [easy| |]; intros; apply H, in_app_iff; auto.
Qed.

(** * Sorting *)
Lemma sinsert_perm s l : Permutation (s :: l) (sinsert s l).
Proof.
  induction l as [|t l IH]; simpl; [easy|].
  destruct (sleb s t); [easy|].
  rewrite perm_swap. constructor. easy.
Qed.

Lemma ssort_perm l : Permutation l (ssort l).
Proof.
  induction l as [|s l IH]; simpl; [easy|].
  rewrite <- sinsert_perm. constructor. easy.
Qed.

Lemma sleb_refl a : sleb a a = true.
Proof. induction a; simpl; [easy|]. rewrite Ascii.eqb_refl. easy. Qed.

Lemma sleb_total a b : sleb a b = false -> sleb b a = true.
Proof.
  revert b; induction a as [|c a IH]; destruct b as [|c' b]; simpl; try easy.
  rewrite (Ascii.eqb_sym c' c). destruct (Ascii.eqb_spec c c') as [->|Hne]; [auto|].
  intros H. apply Nat.ltb_ge in H. apply Nat.ltb_lt.
  assert (nat_of_ascii c <> nat_of_ascii c').
  { intros E. apply Hne. rewrite <- (ascii_nat_embedding c), <- (ascii_nat_embedding c'), E. easy. }
  lia.
Qed.

Lemma sleb_antisym a b : sleb a b = true -> sleb b a = true -> a = b.
Proof.
  revert b; induction a as [|c a IH]; destruct b as [|c' b]; simpl; try easy.
  rewrite (Ascii.eqb_sym c' c). destruct (Ascii.eqb_spec c c') as [->|Hne].
  - intros H1 H2. f_equal; auto.
  - intros H1 H2. apply Nat.ltb_lt in H1, H2. lia.
Qed.

Lemma sleb_trans a b c : sleb a b = true -> sleb b c = true -> sleb a c = true.
Proof.
  revert b c; induction a as [|x a IH]; destruct b as [|y b], c as [|z c]; simpl; try easy.
  destruct (Ascii.eqb_spec x y) as [->|Hxy].
  - destruct (Ascii.eqb_spec y z) as [->|Hyz]; [eauto|easy].
  - destruct (Ascii.eqb_spec y z) as [->|Hyz].
    + destruct (Ascii.eqb_spec x z) as [->|]; easy.
    + intros H1 H2. apply Nat.ltb_lt in H1, H2.
      destruct (Ascii.eqb_spec x z) as [->|Hxz]; [lia|]. apply Nat.ltb_lt; lia.
Qed.

Definition sle a b := sleb a b = true.

Lemma sinsert_sorted s l : StronglySorted sle l -> StronglySorted sle (sinsert s l).
Proof.
  induction l as [|t l IH]; simpl; intros H.
  - constructor; constructor.
  - inversion H as [|? ? Hl Ht]; subst. destruct (sleb s t) eqn:E.
    + constructor; [easy|]. constructor; [easy|].
      rewrite Forall_forall in *. intros x Hx. unfold sle in *. eapply sleb_trans; eauto.
    + constructor; [auto|].
      rewrite Forall_forall in *. intros x Hx.
      apply (Permutation_in _ (Permutation_sym (sinsert_perm s l))) in Hx.
      destruct Hx as [<-|Hx]; [apply sleb_total; easy|auto].
Qed.

Lemma ssort_sorted l : StronglySorted sle (ssort l).
Proof. induction l; simpl; [constructor|apply sinsert_sorted; easy]. Qed.

Lemma sorted_perm_eq l1 l2 : StronglySorted sle l1 -> StronglySorted sle l2 ->
  Permutation l1 l2 -> l1 = l2.
Proof.
  revert l2; induction l1 as [|a l1 IH]; intros l2 H1 H2 P.
  - apply Permutation_nil in P. easy.
  - destruct l2 as [|b l2]; [apply Permutation_sym, Permutation_nil in P; easy|].
    inversion H1 as [|? ? S1 F1]; subst. inversion H2 as [|? ? S2 F2]; subst.
    rewrite Forall_forall in F1, F2.
    assert (a = b).
    { assert (Ia : In a (b :: l2)) by (apply (Permutation_in _ P); simpl; auto).
      assert (Ib : In b (a :: l1)) by (apply (Permutation_in _ (Permutation_sym P)); simpl; auto).
      destruct Ia as [->|Ia]; [easy|]. destruct Ib as [->|Ib]; [easy|].
      apply sleb_antisym; [apply F1|apply F2]; easy. }
    subst. f_equal. apply IH; try easy. apply Permutation_cons_inv in P. easy.
Qed.

Lemma ssort_perm_eq l1 l2 : Permutation l1 l2 -> ssort l1 = ssort l2.
Proof.
  intros P. apply sorted_perm_eq; try apply ssort_sorted.
  rewrite <- !ssort_perm. easy.
Qed.

Lemma ssort_idem l : StronglySorted sle l -> ssort l = l.
Proof.
  intros H. apply sorted_perm_eq; [apply ssort_sorted|easy|].
  rewrite <- ssort_perm. easy.
Qed.

(** * The concrete instance *)
Definition mval (r : env) (m : list string) : R := fold_right (fun s p => r s * p) 1 m.

Lemma mval_app r a b : mval r (a ++ b) = mval r a * mval r b.
Proof. induction a as [|s a IH]; simpl; [lra|]. unfold mval in *. simpl. rewrite IH. lra. Qed.

Lemma mval_perm r a b : Permutation a b -> mval r a = mval r b.
Proof. unfold mval. induction 1; simpl; [easy|rewrite IHPermutation; easy|ring|congruence]. Qed.

Definition nf_val (r : env) (p : nf) : R := lsum (fun t => Q2R (snd t) * mval r (fst t)) p.

Global Arguments nf_val : simpl never.
Lemma nf_val_nil r : nf_val r [] = 0. Proof. easy. Qed.
Lemma nf_val_cons r m q p : nf_val r ((m, q) :: p) = Q2R q * mval r m + nf_val r p.
Proof. easy. Qed.

Lemma strs_eqb_eq a b : strs_eqb a b = true <-> a = b.
Proof.
  revert b; induction a as [|x a IH]; destruct b as [|y b]; simpl; try easy.
  rewrite andb_true_iff, String.eqb_eq, IH. split; [intros [-> ->]; easy|intros H; injection H; auto].
Qed.

Lemma nf_add1_val r m q p : nf_val r (nf_add1 m q p) = Q2R q * mval r m + nf_val r p.
Proof.
  unfold nf_val. induction p as [|[m' q'] p IH]; simpl.
  - rewrite Q2R_red. lra.
  - destruct (strs_eqb m m') eqn:E; simpl.
    + apply strs_eqb_eq in E; subst. rewrite Q2R_red, Q2R_plus. lra.
    + rewrite IH. lra.
Qed.

Lemma nf_add_val r a b : nf_val r (nf_add a b) = nf_val r a + nf_val r b.
Proof.
  unfold nf_add. induction b as [|[m q] b IH]; simpl.
  - rewrite nf_val_nil. lra.
  - rewrite nf_add1_val, IH, nf_val_cons. lra.
Qed.

Lemma nf_mul_val r a b : nf_val r (nf_mul a b) = nf_val r a * nf_val r b.
Proof.
  unfold nf_mul. induction a as [|[m q] a IH]; simpl.
  - rewrite nf_val_nil. lra.
  - assert (G : forall b0 acc, nf_val r (fold_right (fun u acc' => nf_add1 (ssort (m ++ fst u)) (q * snd u) acc') acc b0)
              = Q2R q * mval r m * nf_val r b0 + nf_val r acc).
    { intros b0 acc. induction b0 as [|[m2 q2] b0 IHb]; simpl.
      - rewrite nf_val_nil. lra.
      - rewrite nf_add1_val, IHb. rewrite <- (mval_perm r _ _ (ssort_perm (m ++ m2))), mval_app, Q2R_mult.
        rewrite nf_val_cons. lra. }
    rewrite G, IH, nf_val_cons. lra.
Qed.

Lemma to_nf_val r e : nf_val r (to_nf e) = ev r e.
Proof.
  induction e as [q|s|a IHa b IHb|a IHa b IHb]; simpl.
  - unfold nf_val. simpl. rewrite Q2R_red. lra.
  - unfold nf_val, mval. simpl. rewrite Q2R_1'. lra.
  - rewrite nf_add_val, IHa, IHb. easy.
  - rewrite nf_mul_val, IHa, IHb. easy.
Qed.

Lemma nf_clean_val r p : nf_val r (nf_clean p) = nf_val r p.
Proof.
  unfold nf_val, nf_clean. induction p as [|[m q] p IH]; simpl; [easy|].
  destruct (Qeq_bool q 0) eqn:E; simpl.
  - rewrite IH. apply Qeq_bool_eq in E. rewrite (Qeq_eqR _ _ E), Q2R_0'. lra.
  - rewrite IH. easy.
Qed.

Lemma mono_sexpr_ev r m : ev r (mono_sexpr m) = mval r m.
Proof.
  induction m as [|s m IH]; simpl mono_sexpr.
  - unfold mval; simpl. rewrite Q2R_1'. easy.
  - rewrite smul_ev, IH. unfold mval. simpl. easy.
Qed.

Lemma nf_sexpr_ev r p : ev r (nf_sexpr p) = nf_val r p.
Proof.
  induction p as [|[m q] p IH]; simpl nf_sexpr.
  - unfold nf_val; simpl. apply Q2R_0'.
  - rewrite sadd_ev, smul_ev, mono_sexpr_ev. fold (nf_sexpr p). rewrite IH. easy.
Qed.

Lemma simp0_ev r e : ev r (simp0 e) = ev r e.
Proof. unfold simp0. rewrite nf_sexpr_ev, nf_clean_val, to_nf_val. easy. Qed.

(** free symbols of normal forms *)
Definition nf_syms (p : nf) : list string := flat_map fst p.

Lemma nf_add1_syms m q p s : In s (nf_syms (nf_add1 m q p)) -> In s m \/ In s (nf_syms p).
Proof.
  unfold nf_syms. induction p as [|[m' q'] p IH]; simpl.
  - rewrite app_nil_r. auto.
  - destruct (strs_eqb m m'); simpl; rewrite !in_app_iff; tauto.
Qed.

Lemma nf_add_syms a b s : In s (nf_syms (nf_add a b)) -> In s (nf_syms a) \/ In s (nf_syms b).
Proof.
  unfold nf_add. induction b as [|[m q] b IH]; simpl; [tauto|].
  intros H. apply nf_add1_syms in H. unfold nf_syms in *. simpl in *.
  rewrite in_app_iff. tauto.
Qed.

Lemma nf_mul_syms a b s : In s (nf_syms (nf_mul a b)) -> In s (nf_syms a) \/ In s (nf_syms b).
Proof.
  unfold nf_mul. induction a as [|[m q] a IH]; simpl; [tauto|].
  assert (G : forall b0 acc, In s (nf_syms (fold_right (fun u acc' => nf_add1 (ssort (m ++ fst u)) (q * snd u) acc') acc b0)) ->
            In s m \/ In s (nf_syms b0) \/ In s (nf_syms acc)).
  { intros b0 acc. induction b0 as [|[m2 q2] b0 IHb]; simpl; [auto|].
    intros H. apply nf_add1_syms in H as [H|H].
    - apply (Permutation_in _ (Permutation_sym (ssort_perm _))) in H.
      simpl in H. apply in_app_iff in H. unfold nf_syms; simpl. rewrite in_app_iff. tauto.
    - apply IHb in H. unfold nf_syms in *; simpl. rewrite in_app_iff. tauto. }
  intros H. apply G in H. unfold nf_syms in *; simpl. rewrite in_app_iff. tauto.
Qed.

Lemma to_nf_syms e s : In s (nf_syms (to_nf e)) -> In s (free e).
Proof.
  induction e as [q|t|a IHa b IHb|a IHa b IHb]; simpl.
  - easy.
  - easy.
  - intros H. apply nf_add_syms in H. rewrite in_app_iff. tauto.
  - intros H. apply nf_mul_syms in H. rewrite in_app_iff. tauto.
Qed.

Lemma nf_clean_syms p s : In s (nf_syms (nf_clean p)) -> In s (nf_syms p).
Proof.
  unfold nf_syms, nf_clean. rewrite !in_flat_map. intros [t [H1 H2]].
  apply filter_In in H1. exists t; tauto.
Qed.

Lemma mono_sexpr_free m s : In s (free (mono_sexpr m)) -> In s m.
Proof.
  induction m as [|t m IH]; simpl mono_sexpr; [easy|].
  intros H. apply smul_free in H. simpl in *. tauto.
Qed.

Lemma nf_sexpr_free p s : In s (free (nf_sexpr p)) -> In s (nf_syms p).
Proof.
  induction p as [|[m q] p IH]; simpl nf_sexpr; [easy|].
  intros H. apply sadd_free in H. unfold nf_syms; simpl. rewrite in_app_iff.
  destruct H as [H|H].
  - apply smul_free in H as [H|H]; [easy|]. left. apply mono_sexpr_free; easy.
  - right. apply IH. easy.
Qed.

Lemma simp0_free e s : In s (free (simp0 e)) -> In s (free e).
Proof.
  unfold simp0. intros H. apply nf_sexpr_free, nf_clean_syms, to_nf_syms in H. easy.
Qed.

(** generators *)
Lemma nub_in l s : In s (nub l) <-> In s l.
Proof.
  induction l as [|t l IH]; simpl; [easy|].
  destruct (existsb (String.eqb t) l) eqn:E; simpl; rewrite IH.
  - apply existsb_exists in E as [u [Hu Eu]]. apply String.eqb_eq in Eu; subst u.
    split; [auto|]. intros [<-|H]; easy.
  - easy.
Qed.

Lemma nub_nodup l : NoDup (nub l).
Proof.
  induction l as [|t l IH]; simpl; [constructor|].
  destruct (existsb (String.eqb t) l) eqn:E; [easy|].
  constructor; [|easy]. rewrite nub_in. intros H.
  assert (existsb (String.eqb t) l = true); [|congruence].
  apply existsb_exists. exists t. split; [easy|apply String.eqb_refl].
Qed.

Lemma mono_val_notin r gens g m :
  ~ In g gens -> mono_val r gens (map (fun x => count x (g :: m)) gens) = mono_val r gens (map (fun x => count x m) gens).
Proof.
  intros H. f_equal. apply map_ext_in. intros x Hx. unfold count. simpl.
  destruct (String.eqb_spec x g); [subst; tauto|easy].
Qed.

Lemma mono_val_count r gens m :
  NoDup gens -> (forall s, In s m -> In s gens) ->
  mono_val r gens (map (fun x => count x m) gens) = mval r m.
Proof.
  intros Hn. induction m as [|s m IH]; intros Hin.
  - unfold mval; simpl. unfold count; simpl.
    clear Hin Hn. induction gens as [|g gens IH]; simpl; [easy|]. rewrite IH. lra.
  - unfold mval in *. simpl. rewrite <- IH by (intros; apply Hin; simpl; auto).
    assert (Hs : In s gens) by (apply Hin; simpl; auto).
    clear IH Hin. induction gens as [|g gens IHg]; [easy|].
    inversion Hn as [|? ? Hg Hn']; subst.
    destruct Hs as [->|Hs].
    + simpl. rewrite mono_val_notin by easy.
      unfold count at 1. simpl. rewrite String.eqb_refl. simpl. fold (count s m). lra.
    + simpl. rewrite (IHg Hn' Hs). unfold count at 1. simpl.
      destruct (String.eqb_spec g s); [subst; tauto|]. fold (count g m). lra.
Qed.

Lemma count_perm l1 l2 : (forall s, count s l1 = count s l2) -> Permutation l1 l2.
Proof.
  intros H. apply (Permutation_count_occ string_dec). intros s.
  assert (G : forall l, count_occ string_dec l s = count s l).
  { induction l as [|t l IH]; [easy|]. unfold count in *. simpl.
    destruct (string_dec t s) as [->|Hne].
    - rewrite String.eqb_refl. simpl. rewrite IH. easy.
    - destruct (String.eqb_spec s t); [congruence|]. easy. }
  rewrite !G. easy.
Qed.

Definition nf_ok (p : nf) : Prop :=
  NoDup (map fst p) /\ forall t, In t p -> StronglySorted sle (fst t).

Lemma nf_add1_fst m q p x : In x (map fst (nf_add1 m q p)) -> x = m \/ In x (map fst p).
Proof.
  induction p as [|[m' q'] p IH]; simpl.
  - intros [<-|[]]; auto.
  - destruct (strs_eqb m m') eqn:E; simpl; [tauto|].
    intros [<-|H]; [auto|]. apply IH in H. tauto.
Qed.

Lemma nf_add1_ok m q p : StronglySorted sle m -> nf_ok p -> nf_ok (nf_add1 m q p).
Proof.
  intros Hm [Hn Hs]. split.
  - clear Hs. induction p as [|[m' q'] p IH]; simpl.
    + constructor; [easy|constructor].
    + inversion Hn as [|? ? Hx Hn']; subst. destruct (strs_eqb m m') eqn:E; simpl.
      * constructor; easy.
      * constructor; [|auto]. intros H. apply nf_add1_fst in H as [->|H]; [|easy].
        rewrite (proj2 (strs_eqb_eq m m)) in E; easy.
  - intros t Ht. assert (In (fst t) (map fst (nf_add1 m q p))) by (apply in_map; easy).
    apply nf_add1_fst in H as [->|H]; [easy|].
    apply in_map_iff in H as [u [Eu Hu]]. rewrite <- Eu. auto.
Qed.

Lemma nf_add_ok a b : nf_ok a -> nf_ok b -> nf_ok (nf_add a b).
Proof.
  intros Ha [_ Hb]. unfold nf_add. induction b as [|t b IH]; simpl; [easy|].
  apply nf_add1_ok; [apply Hb; simpl; auto|]. apply IH. intros; apply Hb; simpl; auto.
Qed.

Lemma nf_mul_ok a b : nf_ok (nf_mul a b).
Proof.
  unfold nf_mul. induction a as [|t a IH]; simpl.
  - split; [constructor|easy].
  - generalize (fold_right (fun t0 acc => fold_right (fun u acc' =>
      nf_add1 (ssort (fst t0 ++ fst u)) (snd t0 * snd u) acc') acc b) [] a), IH.
    intros acc Hacc. clear IH. induction b as [|u b IHb]; simpl; [easy|].
    apply nf_add1_ok; [apply ssort_sorted|easy].
Qed.

Lemma to_nf_ok e : nf_ok (to_nf e).
Proof.
  induction e as [q|s|a IHa b IHb|a IHa b IHb]; simpl.
  - split; [repeat constructor; easy|]. intros t [<-|[]]. constructor.
  - split; [repeat constructor; easy|]. intros t [<-|[]]. repeat constructor.
  - apply nf_add_ok; easy.
  - apply nf_mul_ok.
Qed.

Lemma nf_clean_ok p : nf_ok p -> nf_ok (nf_clean p).
Proof.
  intros [Hn Hs]. split.
  - unfold nf_clean. clear Hs. induction p as [|t p IH]; simpl; [constructor|].
    inversion Hn as [|? ? Hx Hn']; subst. destruct (negb (Qeq_bool (snd t) 0)); simpl; [|auto].
    constructor; [|auto]. intros H. apply Hx. apply in_map_iff in H as [u [Eu Hu]].
    apply filter_In in Hu. rewrite <- Eu. apply in_map. tauto.
  - intros t Ht. apply filter_In in Ht. apply Hs; tauto.
Qed.

Lemma sympy0_ok : sympy_ok sympy0.
Proof.
  split; simpl.
  - apply simp0_ev.
  - apply simp0_free.
  - intros r e. unfold poly_val, poly0, nf_poly; simpl. rewrite lsum_map; simpl.
    rewrite <- (to_nf_val r e), <- (nf_clean_val r (to_nf e)). unfold nf_val.
    apply lsum_ext. intros t Ht. f_equal. apply mono_val_count.
    + apply (Permutation_NoDup (ssort_perm _)), nub_nodup.
    + intros s Hs. apply (Permutation_in _ (ssort_perm _)), nub_in, in_flat_map. eauto.
  - intros e. apply (Permutation_NoDup (ssort_perm _)), nub_nodup.
  - intros e s Hs. apply (Permutation_in _ (Permutation_sym (ssort_perm _))) in Hs. rewrite nub_in in Hs.
    apply to_nf_syms, nf_clean_syms. easy.
  - intros e t Ht. unfold poly0, nf_poly in Ht; simpl in Ht.
    apply in_map_iff in Ht as [u [<- Hu]]. simpl. apply map_length.
  - intros e. unfold poly0, nf_poly; simpl. rewrite map_map. simpl.
    set (p := nf_clean (to_nf e)). set (gens := ssort (nub (flat_map fst p))).
    destruct (nf_clean_ok _ (to_nf_ok e)) as [Hn Hs]. fold p in Hn, Hs.
    assert (Hg : forall t, In t p -> forall s, In s (fst t) -> In s gens).
    { intros t Ht s Hst. apply (Permutation_in _ (ssort_perm _)), nub_in, in_flat_map. eauto. }
    clearbody gens. clearbody p. clear e.
    induction p as [|t p IH]; simpl; [constructor|].
    inversion Hn as [|? ? Hx Hn']; subst. constructor.
    + intros H. apply in_map_iff in H as [u [Eu Hu]]. apply Hx.
      assert (fst t = fst u); [|rewrite H; apply in_map; easy].
      apply sorted_perm_eq; [apply Hs; simpl; auto|apply Hs; simpl; auto|].
      apply count_perm. intros s. destruct (in_dec string_dec s gens) as [Hs'|Hs'].
      * assert (forall (f h : string -> nat), map f gens = map h gens -> f s = h s).
        { clear -Hs'. induction gens as [|g gens IH]; intros f h E; [easy|].
          simpl in E. injection E; intros. destruct Hs' as [->|]; auto. }
        symmetry. exact (H (fun g => count g (fst u)) (fun g => count g (fst t)) Eu).
      * assert (Z : forall v, In v (t :: p) -> count s (fst v) = 0%nat).
        { intros v Hv. unfold count. destruct (filter (String.eqb s) (fst v)) as [|x l] eqn:E; [easy|].
          assert (In x (filter (String.eqb s) (fst v))) by (rewrite E; simpl; auto).
          apply filter_In in H as [H1 H2]. apply String.eqb_eq in H2; subst x.
          exfalso. apply Hs'. eauto. }
        rewrite !Z; simpl; auto.
    + apply IH; [easy| |]; intros; [apply Hs|eapply Hg]; simpl; eauto.
Qed.
