From Coq Require Import List Arith Bool Reals Lia Lra Psatz FunctionalExtensionality.
From Verif Require Import Prelude PreludeFacts Spec SpecFacts BuilderSpec MethodModel MethodSpec GraphFacts ProxFacts.
Import ListNotations.
Local Open Scope R_scope.

Lemma cap_sym a j l : cap_edge a j l = cap_edge a l j.
Proof.
  destruct a; simpl; try easy.
  destruct (Nat.eqb j 3), (Nat.eqb j 4), (Nat.eqb l 3), (Nat.eqb l 4); easy.
Qed.

Section Step.
  Variables (n d : nat) (es : list (nat * nat)) (g : graph) (a : dalg) (step : R) (prox : nat -> vec -> R -> vec).
  Hypothesis net : network n es g.
  Notation A := (A g).
  Notation next := (dadmm_step a step g prox).

  Definition zof (s : dstate) (j : nat) : vec :=
    vscal (1 / INR (deg_of g j)) (vsumn (deg_of g j) (fun l => vadd (vscal (d_R a) (st_i s j l)) (st_e s j l))).
  Lemma zof_eq s j k : zof s j k = / INR (deg_of g j) * rsum n (fun l => A j l * (d_R a * current g s j l k + potential g s j l k)).
  Proof.
    unfold zof, vscal, vsumn, vadd. unfold Rdiv. rewrite Rmult_1_l. f_equal.
    rewrite (sum_slots n es g net). reflexivity.
  Qed.
  Lemma next_x s j : st_x (next s) j = prox j (zof s j) (d_R a / INR (deg_of g j)).
  Proof. reflexivity. Qed.
  Lemma next_e s j l k : linked es j l ->
    potential g (next s) j l k =
      if cap_edge a j l
      then potential g s j l k - cap_step a * (current g s j l k + current g s l j k +
             1 / d_R a * (2 * potential g s j l k - st_x (next s) j k - st_x (next s) l k))
      else 1 / 2 * (st_x (next s) j k + st_x (next s) l k).
  Proof.
    intros H. unfold potential at 1. unfold dadmm_step at 1. cbn [st_e].
    rewrite (slot_nth n es g net) by easy. destruct (cap_edge a j l); reflexivity.
  Qed.
  Lemma next_i s j l k : linked es j l ->
    current g (next s) j l k = current g s j l k + step * (potential g (next s) j l k - st_x (next s) j k).
  Proof. reflexivity. Qed.

  (** C47 *)
  Hypothesis prox_Rd : forall j z, (j < n)%nat -> in_Rd d z -> in_Rd d (prox j z (d_R a / INR (deg_of g j))).

  Lemma zof_Rd s j : consistent d es g a s -> in_Rd d (zof s j).
  Proof.
    intros H k Hk. rewrite zof_eq. rewrite rsum_zero; [ring|]. intros l _.
    destruct (linked_dec n es g net j l) as [K|K]; [|rewrite (A_not n es g net) by easy; ring].
    destruct (H j l K) as (H1 & H2 & _). rewrite H1, H2 by easy. ring.
  Qed.
  Lemma next_x_Rd s j : consistent d es g a s -> (j < n)%nat -> in_Rd d (st_x (next s) j).
  Proof. intros H Hj. rewrite next_x. apply prox_Rd; [easy|]. apply zof_Rd, H. Qed.

  Lemma next_consistent s : consistent d es g a s -> consistent d es g a (next s).
  Proof.
    intros H j l K. pose proof (linked_sym es j l K) as K'.
    pose proof (linked_lt n es g net _ _ K) as Hj. pose proof (linked_lt n es g net _ _ K') as Hl.
    destruct (H j l K) as (H1 & H2 & H3 & H4). destruct (H l j K') as (H1' & _).
    pose proof (next_x_Rd s j H Hj) as Xj. pose proof (next_x_Rd s l H Hl) as Xl.
    assert (P : in_Rd d (potential g (next s) j l)).
    { intros k Hk. rewrite next_e by easy. destruct (cap_edge a j l); rewrite Xj, Xl, ?H1, ?H1', ?H2 by easy; ring. }
    repeat split.
    - intros k Hk. rewrite next_i by easy. rewrite P, H1, Xj by easy. ring.
    - easy.
    - intros k. rewrite !next_e by easy. rewrite (cap_sym a l j). rewrite H3. destruct (cap_edge a j l); ring.
    - intros C k. rewrite !next_i, !next_e by easy. rewrite (cap_sym a l j), C. specialize (H4 C k). lra.
  Qed.
  Lemma init_consistent : consistent d es g a dinit.
  Proof. intros j l K. repeat split; try easy. intros _ k. unfold current; simpl. unfold vzero. ring. Qed.
  Theorem iter_consistent k : consistent d es g a (dadmm_iter a step g prox k).
  Proof. induction k as [|k IH]; [apply init_consistent|]. simpl. apply next_consistent, IH. Qed.
End Step.

Lemma prox_family_Rd d n phi prox j z rho : prox_family d n phi prox -> (j < n)%nat -> in_Rd d z -> 0 < rho -> in_Rd d (prox j z rho).
Proof. intros H Hj Hz Hr. apply (prox_in _ _ _ _ _ (H j z rho Hj Hz Hr)). Qed.

(** unit flows along a path *)
Definition arc (j l : nat) : nat -> nat -> R := fun p q =>
  (if Nat.eqb p j && Nat.eqb q l then 1 else 0) - (if Nat.eqb p l && Nat.eqb q j then 1 else 0).
Definition delta (i j : nat) : R := if Nat.eqb i j then 1 else 0.
Lemma arc_delta j l p q : arc j l p q = delta p j * delta q l - delta p l * delta q j.
Proof. unfold arc, delta. destruct (Nat.eqb p j), (Nat.eqb q l), (Nat.eqb p l), (Nat.eqb q j); simpl; ring. Qed.
Lemma rsum_delta_r n j f : (j < n)%nat -> rsum n (fun q => f q * delta q j) = f j.
Proof.
  intros H. rewrite <- (rsum_single n j (f j)) by easy. apply rsum_ext. intros k Hk. unfold delta.
  destruct (Nat.eqb k j) eqn:E; [apply Nat.eqb_eq in E; subst; ring|ring].
Qed.

Section Flow.
  Variables (n : nat) (es : list (nat * nat)) (g : graph).
  Hypothesis net : network n es g.
  Notation A := (A g).
  Lemma unit_flow j m : reach es j m -> exists u : nat -> nat -> R,
    (forall p q, u p q = - u q p) /\
    (forall p, (p < n)%nat -> rsum n (fun q => A p q * u p q) = delta p j - delta p m).
  Proof.
    induction 1 as [j|j l m K _ IH].
    - exists (fun _ _ => 0). split; [intros; lra|]. intros p Hp. rewrite rsum_zero by (intros; ring). ring.
    - destruct IH as (u & Ha & Hd). exists (fun p q => arc j l p q + u p q). split.
      + intros p q. rewrite (Ha p q), !arc_delta. ring.
      + intros p Hp. rewrite (rsum_ext n _ (fun q => (A p q * delta p j) * delta q l + ((- (A p q * delta p l)) * delta q j + A p q * u p q)))
          by (intros; rewrite arc_delta; ring).
        rewrite !rsum_plus, Hd by easy.
        rewrite (rsum_delta_r n l (fun q => A p q * delta p j)), (rsum_delta_r n j (fun q => - (A p q * delta p l)))
          by (eauto using linked_lt, linked_sym).
        assert (E1 : A p l * delta p j = delta p j).
        { unfold delta. destruct (Nat.eqb p j) eqn:E; [|ring]. apply Nat.eqb_eq in E. subst. rewrite (A_link n es g net) by easy. ring. }
        assert (E2 : A p j * delta p l = delta p l).
        { unfold delta. destruct (Nat.eqb p l) eqn:E; [|ring]. apply Nat.eqb_eq in E. subst.
          rewrite (A_link n es g net) by (apply linked_sym; easy). ring. }
        rewrite E1, E2. ring.
  Qed.
  Theorem flow_exists (d : nat) (gr : nat -> vec) : connected n es -> (forall j, (j < n)%nat -> in_Rd d (gr j)) ->
    (forall k, rsum n (fun j => gr j k) = 0) ->
    exists F : nat -> nat -> vec, (forall p q, in_Rd d (F p q)) /\ (forall p q k, F p q k + F q p k = 0) /\
      forall p k, (p < n)%nat -> rsum n (fun q => A p q * F p q k) = gr p k.
  Proof.
    intros Hc Hg Hs. destruct (Nat.eq_dec n 0) as [->|Hn].
    { exists (fun _ _ => vzero). repeat split; try easy; intros; try lia; unfold vzero; ring. }
    assert (exists u : nat -> nat -> nat -> R, forall j, (j < n)%nat -> (forall p q, u j p q = - u j q p) /\
      (forall p, (p < n)%nat -> rsum n (fun q => A p q * u j p q) = delta p j - delta p 0)) as (u & Hu).
    { assert (forall m, (m <= n)%nat -> exists u : nat -> nat -> nat -> R, forall j, (j < m)%nat -> (forall p q, u j p q = - u j q p) /\
        (forall p, (p < n)%nat -> rsum n (fun q => A p q * u j p q) = delta p j - delta p 0)) as Hm; [|apply Hm; lia].
      induction m as [|m IH]; intros Hm; [exists (fun _ _ _ => 0); intros; lia|].
      destruct IH as (u & Hu); [lia|]. destruct (unit_flow m 0) as (v & Hv); [apply Hc; lia|].
      exists (fun j => if Nat.eqb j m then v else u j). intros j Hj. destruct (Nat.eqb j m) eqn:E.
      - apply Nat.eqb_eq in E. subst. exact Hv.
      - apply Nat.eqb_neq in E. apply Hu. lia. }
    exists (fun p q k => rsum n (fun j => gr j k * u j p q)). repeat split.
    - intros p q k Hk. apply rsum_zero. intros j Hj. rewrite (Hg j Hj k Hk). ring.
    - intros p q k. rewrite <- rsum_plus. apply rsum_zero. intros j Hj. destruct (Hu j Hj) as [Ha _]. rewrite (Ha p q). ring.
    - intros p k Hp. rewrite (rsum_ext n _ (fun q => rsum n (fun j => A p q * (gr j k * u j p q))))
        by (intros; rewrite rsum_scal; easy).
      rewrite rsum_swap. rewrite (rsum_ext n _ (fun j => gr j k * delta j p - delta p 0 * gr j k)).
      + rewrite rsum_minus, rsum_scal, Hs. rewrite (rsum_delta_r n p (fun j => gr j k)) by easy. ring.
      + intros j Hj. destruct (Hu j Hj) as [_ Hd]. specialize (Hd p Hp).
        rewrite (rsum_ext n _ (fun q => gr j k * (A p q * u j p q))) by (intros; ring). rewrite rsum_scal, Hd.
        unfold delta. rewrite (Nat.eqb_sym p j). ring.
  Qed.
End Flow.
