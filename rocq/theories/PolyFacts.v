(** A polynomial that vanishes everywhere has only zero coefficients. *)
From Coq Require Import List Arith Bool String QArith Qabs Reals Qreals Lra Lia Permutation.
From Verif Require Import Prelude PreludeFacts Sympy SympyFacts ParsingModel ParsingSpec ParsingFacts MiscSpec MiscModel MiscFacts.
Import ListNotations.
Local Open Scope R_scope.

Lemma rsum_abs n f : Rabs (rsum n f) <= rsum n (fun k => Rabs (f k)).
Proof. induction n; simpl; [rewrite Rabs_R0; lra|]. eapply Rle_trans; [apply Rabs_triang|]. lra. Qed.
Lemma small_zero a M : 0 <= M -> (forall x, 0 < x <= 1 -> Rabs a <= x * M) -> a = 0.
Proof.
  intros HM H. destruct (Req_dec a 0) as [|Hne]; [assumption|exfalso]. pose proof (Rabs_pos_lt a Hne) as Ha.
  pose proof (Rmin_l 1 (Rabs a / (2 * (M + 1)))) as L1. pose proof (Rmin_r 1 (Rabs a / (2 * (M + 1)))) as L2.
  assert (P : 0 < Rabs a / (2 * (M + 1))) by (apply Rdiv_lt_0_compat; lra).
  assert (P' : 0 < Rmin 1 (Rabs a / (2 * (M + 1)))) by (apply Rmin_pos; lra).
  specialize (H (Rmin 1 (Rabs a / (2 * (M + 1)))) (conj P' L1)).
  assert (B : Rmin 1 (Rabs a / (2 * (M + 1))) * M <= Rabs a / (2 * (M + 1)) * (M + 1)).
  { apply Rmult_le_compat; lra. }
  replace (Rabs a / (2 * (M + 1)) * (M + 1)) with (Rabs a / 2) in B by (field; lra). lra.
Qed.
Lemma poly1_zero n : forall c : nat -> R, (forall x, 0 < x <= 1 -> rsum n (fun k => c k * x ^ k) = 0) -> forall k, (k < n)%nat -> c k = 0.
Proof.
  induction n as [|n IH]; intros c H k Hk; [lia|].
  assert (H' : forall x, 0 < x <= 1 -> c 0%nat + x * rsum n (fun k => c (S k) * x ^ k) = 0).
  { intros x Hx. rewrite <- (H x Hx), rsum_S_l. simpl. rewrite <- rsum_scal. rewrite Rmult_1_r. f_equal. apply rsum_ext. intros; simpl; ring. }
  assert (C0 : c 0%nat = 0).
  { apply (small_zero _ (rsum n (fun k => Rabs (c (S k))))); [apply rsum_nonneg; intros; apply Rabs_pos|].
    intros x Hx. replace (c 0%nat) with (- (x * rsum n (fun k => c (S k) * x ^ k))) by (specialize (H' x Hx); lra).
    rewrite Rabs_Ropp, Rabs_mult, (Rabs_right x) by lra. apply Rmult_le_compat_l; [lra|]. eapply Rle_trans; [apply rsum_abs|]. apply rsum_le. intros j _.
    rewrite Rabs_mult. rewrite <- (Rmult_1_r (Rabs (c (S j)))) at 2. apply Rmult_le_compat_l; [apply Rabs_pos|]. rewrite Rabs_right by (apply Rle_ge, pow_le; lra).
    rewrite <- (pow1 j). apply pow_incr. lra. }
  destruct k as [|k]; [exact C0|]. apply (IH (fun k => c (S k))); [|lia]. intros x Hx. specialize (H' x Hx). rewrite C0 in H'.
  assert (x * rsum n (fun k => c (S k) * x ^ k) = 0) by lra. apply Rmult_integral in H0 as [|]; lra.
Qed.

Definition head (t : list nat * Q) : nat := match fst t with [] => 0%nat | n :: _ => n end.
Definition shift (t : list nat * Q) : list nat * Q := (tl (fst t), snd t).
Lemma max_head (l : list (list nat * Q)) : exists N, forall t, In t l -> (head t < N)%nat.
Proof.
  induction l as [|t l [N H]]; [exists 0%nat; intros ? []|]. exists (S (head t + N)). intros u [<-|Hu]; [lia|]. specialize (H u Hu). lia.
Qed.
Lemma lsum_filter {A} (b : A -> bool) (f : A -> R) l : lsum f (filter b l) = lsum (fun a => if b a then f a else 0) l.
Proof. induction l as [|a l IH]; simpl; [reflexivity|]. destruct (b a); simpl; rewrite IH; lra. Qed.
Lemma poly_zero : forall gens (l : list (list nat * Q)), NoDup gens -> NoDup (map fst l) -> (forall t, In t l -> List.length (fst t) = List.length gens) ->
  (forall r, lsum (fun t => Q2R (snd t) * mono_val r gens (fst t)) l = 0) -> forall t, In t l -> Q2R (snd t) = 0.
Proof.
  induction gens as [|g gens IH]; intros l Ng Nd Hl H t Ht.
  - destruct l as [|t1 [|t2 l]]; [easy| |].
    + destruct Ht as [->|[]]. specialize (H (fun _ => 0)). simpl in H. destruct (fst t); simpl in H; lra.
    + exfalso. inversion Nd as [|? ? Hn _]; subst. apply Hn. simpl. left. pose proof (Hl t1 ltac:(simpl; auto)) as L1. pose proof (Hl t2 ltac:(simpl; auto)) as L2.
      destruct (fst t1), (fst t2); simpl in *; try lia. reflexivity.
  - inversion Ng as [|? ? Hg Ng']; subst. destruct (max_head l) as [N HN].
    set (sub := map shift (filter (fun u => Nat.eqb (head u) (head t)) l)).
    assert (Hu : forall u, In u l -> fst u = head u :: tl (fst u)).
    { intros u Hu'. specialize (Hl u Hu'). unfold head. destruct (fst u); [simpl in Hl; lia|reflexivity]. }
    assert (In (shift t) sub) as Hin.
    { apply in_map, filter_In. split; [exact Ht|apply Nat.eqb_refl]. }
    change (Q2R (snd (shift t)) = 0). apply (IH sub Ng').
    + unfold sub. rewrite map_map. simpl. clear - Nd Hu. induction l as [|u l IHl]; simpl; [constructor|]. inversion Nd as [|? ? Hn Nd']; subst.
      assert (IHl' := IHl Nd' (fun v Hv => Hu v (or_intror Hv))). destruct (Nat.eqb_spec (head u) (head t)) as [E|]; [|exact IHl'].
      simpl. constructor; [|exact IHl']. rewrite in_map_iff. intros (v & Ev & Hv). apply filter_In in Hv as [Hv Eh]. apply Nat.eqb_eq in Eh.
      apply Hn. apply in_map_iff. exists v. split; [|exact Hv]. rewrite (Hu v), (Hu u); simpl; auto. congruence.
    + intros u Hsu. unfold sub in Hsu. apply in_map_iff in Hsu as (w & <- & Hw). apply filter_In in Hw as [Hw _]. specialize (Hl w Hw). rewrite (Hu w Hw) in Hl. simpl in *. lia.
    + intros r. assert (K := poly1_zero N (fun k => lsum (fun u => if Nat.eqb (head u) k then Q2R (snd u) * mono_val r gens (tl (fst u)) else 0) l)).
      assert (K' : forall x, 0 < x <= 1 -> rsum N (fun k => lsum (fun u => if Nat.eqb (head u) k then Q2R (snd u) * mono_val r gens (tl (fst u)) else 0) l * x ^ k) = 0).
      { intros x _. refine (eq_trans _ (H (fun s => if String.eqb s g then x else r s))).
        rewrite (rsum_ext N _ (fun k => lsum (fun u => if Nat.eqb (head u) k then Q2R (snd u) * mono_val r gens (tl (fst u)) * x ^ k else 0) l)).
        - rewrite <- lsum_rsum. apply lsum_ext. intros u Hul. rewrite (rsum_ext N _ (fun k => if Nat.eqb k (head u) then Q2R (snd u) * mono_val r gens (tl (fst u)) * x ^ head u else 0)).
          + rewrite rsum_single by (apply HN, Hul). replace (mono_val (fun s => if String.eqb s g then x else r s) (g :: gens) (fst u)) with (mono_val (fun s => if String.eqb s g then x else r s) (g :: gens) (head u :: tl (fst u))) by (apply (f_equal (mono_val _ _)); symmetry; apply Hu, Hul). cbn [mono_val]. rewrite String.eqb_refl. change (rpow x (head u)) with (x ^ head u).
            rewrite (mono_val_ext (fun s => if String.eqb s g then x else r s) r); [ring|]. intros h Hh. destruct (String.eqb_spec h g) as [->|]; [contradiction|reflexivity].
          + intros k _. rewrite Nat.eqb_sym. destruct (Nat.eqb_spec k (head u)) as [->|]; reflexivity.
        - intros k _. rewrite <- lsum_scal_r. apply lsum_ext. intros u _. cbn beta. destruct (Nat.eqb (head u) k); [reflexivity|apply Rmult_0_l]. }
      specialize (K K' (head t) (HN t Ht)). unfold sub. rewrite lsum_map, lsum_filter. exact K.
    + exact Hin.
Qed.

(** the coefficients of a polynomial function are determined *)
Lemma poly_fun_unique d e (c : nat -> R) (f : R -> R) : (forall t, f t = rsum e (fun k => c k * t ^ k)) -> poly_fun d f -> forall k, (d < k < e)%nat -> c k = 0.
Proof.
  intros H [a Ha] k Hk.
  assert (K := poly1_zero e (fun k => c k - (if Nat.leb k d then a k else 0))).
  assert (c k - (if Nat.leb k d then a k else 0) = 0).
  { apply K; [|lia]. intros x _. rewrite (rsum_ext e _ (fun k => c k * x ^ k - (if Nat.leb k d then a k else 0) * x ^ k)) by (intros; ring).
    rewrite rsum_minus, <- H, Ha. rewrite (rsum_pad (S d) e (fun k => a k * x ^ k)); [lra|lia| |].
    - intros j Hj. destruct (Nat.leb_spec j d); [reflexivity|lia].
    - intros j Hj. destruct (Nat.leb_spec j d); [lia|ring]. }
  destruct (Nat.leb_spec k d); [lia|lra].
Qed.

Definition total_deg (t : list nat * Q) : nat := fold_right plus 0%nat (fst t).
Lemma max_deg (l : list (list nat * Q)) : exists N, forall t, In t l -> (total_deg t < N)%nat.
Proof.
  induction l as [|t l [N H]]; [exists 0%nat; intros ? []|]. exists (S (total_deg t + N)). intros u [<-|Hu]; [lia|]. specialize (H u Hu). lia.
Qed.
(** A monomial above the degree with a nonzero coefficient shows. *)
Lemma degree_complete SY e d : sympy_ok SY -> (forall t, In t (p_terms (poly SY (simp SY e))) -> Q2R (snd t) <> 0) ->
  (forall r, poly_fun d (fun t => ev (fun s => t * r s) e)) -> check_degree SY e d = true.
Proof.
  intros OK Hnz H. unfold check_degree. apply forallb_forall. intros t Ht. apply Nat.leb_le. fold (total_deg t).
  destruct (le_lt_dec (total_deg t) d) as [|Hd]; [assumption|exfalso]. apply (Hnz t Ht).
  set (P := poly SY (simp SY e)) in *. destruct (max_deg (p_terms P)) as [N HN].
  assert (Z : forall r, lsum (fun u => Q2R (snd u) * mono_val r (p_gens P) (fst u)) (filter (fun u => Nat.eqb (total_deg u) (total_deg t)) (p_terms P)) = 0).
  { intros r. rewrite lsum_filter.
    apply (poly_fun_unique d N (fun k => lsum (fun u => if Nat.eqb (total_deg u) k then Q2R (snd u) * mono_val r (p_gens P) (fst u) else 0) (p_terms P))
      (fun x => ev (fun s => x * r s) e)); [|apply H|split; [exact Hd|apply HN, Ht]].
    intros x. rewrite <- (simp_ev SY OK), <- (poly_ev SY OK). fold P. unfold poly_val.
    rewrite (rsum_ext N _ (fun k => lsum (fun u => if Nat.eqb (total_deg u) k then Q2R (snd u) * mono_val r (p_gens P) (fst u) * x ^ k else 0) (p_terms P))).
    - rewrite <- lsum_rsum. apply lsum_ext. intros u Hu. rewrite mono_scale by (apply (poly_len SY OK), Hu).
      rewrite (rsum_ext N _ (fun k => if Nat.eqb k (total_deg u) then Q2R (snd u) * mono_val r (p_gens P) (fst u) * x ^ total_deg u else 0)).
      + rewrite rsum_single by (apply HN, Hu). unfold total_deg. ring.
      + intros k _. rewrite Nat.eqb_sym. destruct (Nat.eqb_spec k (total_deg u)) as [->|]; reflexivity.
    - intros k _. rewrite <- lsum_scal_r. apply lsum_ext. intros u _. cbn beta. destruct (Nat.eqb (total_deg u) k); [reflexivity|apply Rmult_0_l]. }
  apply (poly_zero (p_gens P) (filter (fun u => Nat.eqb (total_deg u) (total_deg t)) (p_terms P))).
  - apply (poly_gens_nodup SY OK).
  - pose proof (poly_mono_nodup SY OK (simp SY e)) as Nd. fold P in Nd. clear - Nd. induction (p_terms P) as [|u l IHl]; simpl in *; [constructor|].
    inversion Nd as [|? ? Hn Nd']; subst. destruct (Nat.eqb (total_deg u) (total_deg t)); [|auto]. simpl. constructor; [|auto].
    intros Hi. apply Hn. apply in_map_iff in Hi as (v & Ev & Hv). apply filter_In in Hv as [Hv _]. apply in_map_iff. eauto.
  - intros u Hu. apply filter_In in Hu as [Hu _]. apply (poly_len SY OK), Hu.
  - exact Z.
  - apply filter_In. split; [exact Ht|apply Nat.eqb_refl].
Qed.

(** * comparison *)
Lemma allclose_self a : allclose a a = true.
Proof.
  unfold allclose. apply Qle_bool_iff. apply Qle_trans with 0%Q.
  - setoid_replace (a - a)%Q with 0%Q by ring. apply Qle_refl.
  - pose proof (Qabs_nonneg a) as H. apply (Qplus_le_compat 0 _ 0 _); [discriminate|]. apply (Qmult_le_0_compat); [discriminate|exact H].
Qed.
Lemma allclose_ext a a' b b' : (a == a')%Q -> (b == b')%Q -> allclose a b = allclose a' b'.
Proof. intros E1 E2. unfold allclose. apply eq_true_iff_eq. rewrite !Qle_bool_iff, E1, E2. reflexivity. Qed.
Lemma Q2R_abs q : Q2R (Qabs q) = Rabs (Q2R q).
Proof.
  apply Qabs_case; intros H; apply Qle_Rle in H; rewrite Q2R_0' in H.
  - rewrite Rabs_right by lra. reflexivity.
  - rewrite Rabs_left1 by lra. apply Q2R_opp.
Qed.
Lemma allclose_R a b : allclose a b = true -> Rabs (Q2R a - Q2R b) <= / 100000000 + / 100000 * Rabs (Q2R b).
Proof.
  unfold allclose. intros H. apply Qle_bool_iff, Qle_Rle in H. rewrite Q2R_abs, Q2R_minus, Q2R_plus, Q2R_mult, Q2R_abs in H.
  unfold Q2R in H at 3 4. simpl in H. lra.
Qed.
Lemma allclose_R0 a : allclose a 0 = true -> Rabs (Q2R a) <= / 100000000.
Proof. intros H. apply allclose_R in H. rewrite Q2R_0', Rabs_R0, Rminus_0_r in H. lra. Qed.
Lemma Q2R_zero_eq q : Q2R q = 0 -> (q == 0)%Q.
Proof. intros H. apply eqR_Qeq. rewrite H, Q2R_0'. reflexivity. Qed.

Section Compare.
  Context {SY : sympy} (OK : sympy_ok SY).
  Lemma is_zero_total e : exists b, is_zero_expr SY e = Ok b.
  Proof using OK. unfold is_zero_expr. destruct (numeric SY e) eqn:E; [|eauto]. destruct (numeric_float OK e E) as (q & -> & _). simpl. eauto. Qed.
  Lemma is_zero_complete e : (forall r, ev r e = 0) -> is_zero_expr SY e = Ok true.
  Proof using OK.
    intros H. unfold is_zero_expr. destruct (numeric SY e) eqn:E.
    - destruct (numeric_float OK e E) as (q & -> & Hq). simpl. rewrite (allclose_ext q 0 0 0); [reflexivity| |reflexivity]. apply Q2R_zero_eq. rewrite <- (Hq (fun _ => 0)). apply H.
    - f_equal. apply forallb_forall. intros t Ht. rewrite (allclose_ext (snd t) 0 0 0); [reflexivity| |reflexivity]. apply Q2R_zero_eq.
      apply (poly_zero (p_gens (poly SY (simp SY e))) (p_terms (poly SY (simp SY e)))); [apply (poly_gens_nodup SY OK)|apply (poly_mono_nodup SY OK)|apply (poly_len SY OK)| |exact Ht].
      intros r. change (poly_val r (poly SY (simp SY e)) = 0). rewrite (poly_ev SY OK), (simp_ev SY OK). apply H.
  Qed.
  Lemma is_zero_sound e : is_zero_expr SY e = Ok true -> exists P, NoDup (p_gens P) /\ NoDup (map fst (p_terms P)) /\
    (forall t, In t (p_terms P) -> List.length (fst t) = List.length (p_gens P) /\ Rabs (Q2R (snd t)) <= / 100000000) /\
    forall r, poly_val r P = ev r e.
  Proof using OK.
    unfold is_zero_expr. destruct (numeric SY e) eqn:E.
    - destruct (numeric_float OK e E) as (q & -> & Hq). simpl. intros [= H]. exists (mkPoly [] [([], q)]). simpl. split; [constructor|]. split; [repeat constructor; easy|]. split.
      + intros t [<-|[]]. split; [reflexivity|]. apply allclose_R0, H.
      + intros r. unfold poly_val. simpl. rewrite (Hq r). lra.
    - intros [= H]. exists (poly SY (simp SY e)). split; [apply (poly_gens_nodup SY OK)|]. split; [apply (poly_mono_nodup SY OK)|]. split.
      + intros t Ht. split; [apply (poly_len SY OK), Ht|]. rewrite forallb_forall in H. apply allclose_R0, H, Ht.
      + intros r. rewrite (poly_ev SY OK). apply (simp_ev SY OK).
  Qed.
  Lemma equal_complete e1 e2 : (forall r, ev (long r) e1 = ev (long r) e2) -> equal_expression SY e1 e2 = Ok true.
  Proof using OK.
    intros H. unfold equal_expression. destruct (collapse_total OK e1) as [x1 E1]. destruct (collapse_total OK e2) as [x2 E2]. rewrite E1, E2. cbn [bindr].
    rewrite is_zero_complete; [reflexivity|]. intros r. unfold ssub, sneg. rewrite sadd_ev, smul_ev. rewrite (collapse_ev OK r _ _ E1), (collapse_ev OK r _ _ E2), H. cbn [ev]. replace (Q2R (-1)) with (-1) by (unfold Q2R; simpl; lra). lra.
  Qed.
  Lemma equal_sound e1 e2 : equal_expression SY e1 e2 = Ok true ->
    (exists P, NoDup (p_gens P) /\ NoDup (map fst (p_terms P)) /\
      (forall t, In t (p_terms P) -> List.length (fst t) = List.length (p_gens P) /\ Rabs (Q2R (snd t)) <= / 100000000) /\
      forall r, poly_val r P = ev (long r) e1 - ev (long r) e2) \/
    (exists a b, Rabs (a - b) <= / 100000000 + / 100000 * Rabs b /\ forall r, ev (long r) e1 = a /\ ev (long r) e2 = b).
  Proof using OK.
    unfold equal_expression. destruct (collapse_total OK e1) as [x1 E1]. destruct (collapse_total OK e2) as [x2 E2]. rewrite E1, E2. cbn [bindr].
    assert (V : forall r, ev r (ssub x1 x2) = ev (long r) e1 - ev (long r) e2).
    { intros r. unfold ssub, sneg. rewrite sadd_ev, smul_ev. rewrite (collapse_ev OK r _ _ E1), (collapse_ev OK r _ _ E2). cbn [ev]. replace (Q2R (-1)) with (-1) by (unfold Q2R; simpl; lra). lra. }
    destruct (is_zero_total (ssub x1 x2)) as [[|] Ez]; rewrite Ez; cbn [bindr].
    - intros _. left. destruct (is_zero_sound _ Ez) as (P & P1 & P2 & P3 & P4). exists P. split; [exact P1|]. split; [exact P2|]. split; [exact P3|]. intros r. rewrite P4. apply V.
    - assert (W : forall x, numeric SY x = true -> exists q, float_simp SY x = Ok q /\ forall r, ev r x = Q2R q) by (intros; apply numeric_float; assumption).
      assert (Nn : forall e x, collapse_expression SY e = Ok x -> numeric SY e = true -> exists q, x = Num q).
      { intros e x Ec Hn. unfold collapse_expression in Ec. rewrite Hn in Ec. destruct (float_simp SY e); [|discriminate]. injection Ec as <-. eauto. }
      assert (Nx : forall q, exists q', float_simp SY (Num q) = Ok q' /\ forall r, ev r (Num q) = Q2R q').
      { intros q. apply W. unfold numeric. apply closed_free. pose proof (simp_free SY OK (Num q)) as Hf. destruct (free (simp SY (Num q))) as [|s l]; [reflexivity|]. destruct (Hf s); simpl; auto. }
      destruct (numeric SY e1) eqn:N1, (numeric SY e2) eqn:N2; try discriminate; intros H; right.
      + destruct (Nn _ _ E1 N1) as [q ->]. destruct (Nx q) as (a & Ea & Va). rewrite Ea in H. destruct (numeric SY x2) eqn:M; [|discriminate].
        destruct (W _ M) as (b & Eb & Vb). rewrite Eb in H. injection H as H. exists (Q2R a), (Q2R b). split; [apply allclose_R, H|].
        intros r. rewrite <- (collapse_ev OK r _ _ E1), <- (collapse_ev OK r _ _ E2). auto.
      + destruct (Nn _ _ E2 N2) as [q ->]. destruct (Nx q) as (b & Eb & Vb). destruct (numeric SY x1) eqn:M; [|discriminate].
        destruct (W _ M) as (a & Ea & Va). rewrite Ea, Eb in H. injection H as H. exists (Q2R a), (Q2R b). split; [apply allclose_R, H|].
        intros r. rewrite <- (collapse_ev OK r _ _ E1), <- (collapse_ev OK r _ _ E2). auto.
  Qed.
End Compare.
