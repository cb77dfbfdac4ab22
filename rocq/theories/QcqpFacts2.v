(** The constraints emitted by the two QCQP builders, step by step. *)
From Coq Require Import List Arith Bool String Ascii QArith Reals Qreals Lra Lia Permutation.
From Verif Require Import Prelude PreludeFacts Sympy SympyFacts AlgebraModel FunctionModel CircuitModel ParsingModel
  ParsingSpec SolverModel ParsingFacts CoeffFacts SolverSpec SolverFacts IpoptFacts IpoptTail SolverProps QcqpModel QcqpSpec QcqpFacts.
Import ListNotations.
Local Open Scope nat_scope.

(** * sums with selections *)
Definition ind (a b : nat) : R := if Nat.eqb a b then 1%R else 0%R.
Lemma rsum_ind n i f : i < n -> rsum n (fun k => (ind k i * f k)%R) = f i.
Proof.
  intros H. rewrite <- (rsum_single n i (f i) H). apply rsum_ext. intros k Hk. unfold ind.
  destruct (Nat.eqb_spec k i) as [->|]; lra.
Qed.
Lemma rsum_ind' n i f : i < n -> rsum n (fun k => (ind i k * f k)%R) = f i.
Proof. intros H. rewrite <- (rsum_ind n i f H). apply rsum_ext. intros k Hk. unfold ind. rewrite Nat.eqb_sym. easy. Qed.
Lemma rsum_ind_r n i f : i < n -> rsum n (fun k => (f k * ind k i)%R) = f i.
Proof. intros H. rewrite <- (rsum_ind n i f H). apply rsum_ext. intros; lra. Qed.
(** sum over a window *)
Lemma rsum_window n c r f : c + r <= n -> rsum n (fun i => rsum r (fun m => ind i (c + m) * f m i)%R) = rsum r (fun m => f m (c + m)).
Proof.
  intros H. rewrite rsum_swap. apply rsum_ext. intros m Hm. rewrite (rsum_ind n (c + m) (fun i => f m i)) by lia. easy.
Qed.

(** * packed triangles *)
Lemma start_S k : start_idx (S k) = start_idx k + S k.
Proof.
  unfold start_idx. replace (S k * (S k + 1)) with (k * (k + 1) + (S k) * 2) by lia. rewrite Nat.div_add by lia. easy.
Qed.
Lemma start_le j k : j <= k -> start_idx j <= start_idx k.
Proof. induction 1; [lia|]. rewrite start_S. lia. Qed.
Lemma start_lt i n : i < n -> start_idx i + i + 1 <= start_idx n.
Proof. intros H. assert (S i <= n) by lia. apply start_le in H0. rewrite start_S in H0. lia. Qed.
Lemma cumsum_seq n : forall m acc, acc = start_idx (m - 1) -> 1 <= m -> cumsum acc (seq m n) = map start_idx (seq m n).
Proof.
  induction n as [|n IH]; intros m acc E H; simpl; [easy|].
  assert (A : acc + m = start_idx m) by (subst acc; destruct m as [|m]; [lia|]; rewrite start_S; simpl; rewrite Nat.sub_0_r; lia).
  rewrite A. f_equal. apply IH; [|lia]. simpl. rewrite Nat.sub_0_r. easy.
Qed.
Lemma diag_idx_spec dimG i : i < dimG -> nth i (diag_idx dimG) 0 = start_idx i + i.
Proof.
  intros H. unfold diag_idx. cbn [seq cumsum tl]. rewrite cumsum_seq by (reflexivity || lia).
  rewrite map_map, (nth_indep _ 0 ((fun x => start_idx x - 1) 0)) by (rewrite map_length, seq_length; lia).
  rewrite (map_nth (fun x => start_idx x - 1)), seq_nth by lia. replace (1 + i) with (S i) by lia. rewrite start_S. lia.
Qed.
Lemma diag_value dimG : cis (diag_selector dimG) dimG (start_idx dimG) (fun i j => ind j (start_idx i + i)).
Proof.
  split; [easy|]. split; [easy|]. intros i j Hi Hj. cbn [diag_selector cm_at]. rewrite diag_idx_spec by lia. unfold ind.
  destruct (Nat.eqb j (start_idx i + i)); [apply Q2R_1'|apply Q2R_0'].
Qed.

(** inner product of two rows of the packed triangle *)
Lemma tri_rows (z : nat -> R) n k1 k2 : k1 < n -> k2 < n ->
  rsum (Nat.min k1 k2 + 1) (fun l => z (start_idx k1 + l)%nat * z (start_idx k2 + l)%nat)%R = rsum n (fun c => tri z k1 c * tri z k2 c)%R.
Proof.
  intros H1 H2. set (m := Nat.min k1 k2 + 1). assert (Hm : m <= n) by (unfold m; lia). replace n with (m + (n - m)) by lia.
  rewrite rsum_split. rewrite (rsum_zero (n - m)).
  - rewrite Rplus_0_r. apply rsum_ext. intros l Hl. unfold tri. fold (start_idx k1) (start_idx k2).
    destruct (Nat.leb_spec l k1), (Nat.leb_spec l k2); try easy; unfold m in Hl; lia.
  - intros l Hl. unfold tri. destruct (Nat.leb_spec (m + l) k1), (Nat.leb_spec (m + l) k2); try lra. unfold m in *. lia.
Qed.

(** * the stacked coefficients *)
Definition shaped (rows nv : nat) (A : cmatrix) : Prop := cm_rows A = rows /\ cm_cols A <= nv.
Lemma last_rev {A} (l : list A) d x l' : rev l = x :: l' -> last l d = x /\ removelast l = rev l'.
Proof.
  intros H. assert (E : l = rev l' ++ [x]) by (rewrite <- (rev_involutive l), H; easy). subst l. rewrite last_last, removelast_last. easy.
Qed.
Lemma padded_ok Ms rows nv nd : Forall (shaped rows nv) Ms -> List.length Ms = S nd -> 1 <= nd ->
  exists obj T, padded Ms rows nv nd = Ok (obj, T) /\ cis obj rows nv (coef (last Ms dummy_cm)) /\
    t3_n T = nd /\ t3_rows T = rows /\ t3_cols T = nv /\
    forall k, k < rows -> cis (t3_slice k T) nd nv (fun i j => coef (nth i Ms dummy_cm) k j).
Proof.
  intros Hs Hl Hn. unfold padded. destruct (rev Ms) as [|A l] eqn:Er.
  { apply (f_equal (@List.length _)) in Er. rewrite rev_length in Er. simpl in Er. lia. }
  destruct (last_rev Ms dummy_cm A l Er) as [El Ed].
  assert (EM : Ms = rev l ++ [A]) by (rewrite <- (rev_involutive Ms), Er; easy).
  assert (Ll : List.length (rev l) = nd) by (rewrite EM, app_length in Hl; simpl in Hl; lia).
  assert (HA : shaped rows nv A) by (rewrite Forall_forall in Hs; apply Hs; rewrite EM; apply in_or_app; simpl; auto).
  assert (Hr : Forall (shaped rows nv) (rev l)) by (rewrite EM in Hs; apply Forall_app in Hs; easy).
  unfold cm_pad, cm_widen. destruct HA as [HA1 HA2]. rewrite HA1, Nat.eqb_refl. destruct (Nat.leb_spec (cm_cols A) nv); [|lia]. cbn [bindr].
  rewrite Ed. unfold stack_vectors. destruct (rev l) as [|B l'] eqn:El'; [simpl in Ll; lia|].
  assert (HB : shaped rows nv B) by (inversion Hr; easy).
  replace (forallb _ (B :: l')) with true.
  2:{ symmetry. apply forallb_forall. intros C HC. rewrite Forall_forall in Hr. destruct (Hr C HC) as [C1 C2], HB as [B1 B2].
      rewrite C1, B1, Nat.eqb_refl. apply Nat.leb_le in C2. rewrite C2. easy. }
  cbn [bindr t3_n t3_rows t3_cols]. destruct HB as [B1 B2]. rewrite B1, Ll, !Nat.eqb_refl. cbn [andb].
  eexists. eexists. split; [reflexivity|]. rewrite El. split.
  - split; [easy|]. split; [easy|]. intros i j Hi Hj. cbn [cm_at]. unfold coef. destruct (Nat.ltb j (cm_cols A)); [easy|apply Q2R_0'].
  - cbn [t3_n t3_rows t3_cols]. split; [easy|]. split; [easy|]. split; [easy|]. intros k Hk.
    split; [easy|]. split; [easy|]. intros i j Hi Hj. cbn [t3_slice t3_at cm_at]. rewrite EM, app_nth1 by lia.
    unfold coef. destruct (Nat.ltb j (cm_cols (nth i (B :: l') dummy_cm))); [easy|apply Q2R_0'].
Qed.

Section Steps.
  Variable N : nat.
  Variable nm : names.
  Variables nI nE dimF dimG : nat.
  Notation nv := (List.length (nm_list nm)).
  Notation xsz := (nv + nI + nE + start_idx dimG).
  Hypothesis HN : xsz <= N.
  Hypothesis Hnm : numbered nm.
  Hypothesis Hone : 1 <= nv.
  Definition the_x : xmat := mkXM xsz 1 (fun i _ => CVar i).
  Definition nd_ : nat := nI + nE.

  Lemma xis_x : xis N the_x xsz 1 (fun a i _ => a i).
  Proof using HN Hone Hnm. split; [easy|]. split; [easy|]. split; intros; simpl; [lia|easy]. Qed.
  Lemma xis_part lo hi : hi < xsz -> lo <= hi + 1 -> xis N (get_vec_var the_x (lo, hi)) (hi + 1 - lo) 1 (fun a i _ => a (lo + i)).
  Proof using HN Hone Hnm. intros H1 H2. unfold get_vec_var. cbn [fst snd]. apply (xis_slice N the_x xsz 1 _ lo (hi + 1) xis_x). lia. Qed.
  Lemma xis_v : xis N (get_vec_var the_x (0, nv - 1)) nv 1 (fun a i _ => a i).
  Proof using HN Hone Hnm. replace nv with (nv - 1 + 1 - 0) at 2 by lia. apply (xis_part 0 (nv - 1)); lia. Qed.
  Lemma xis_lam : xis N (get_vec_var the_x (nv, nv + nI + nE - 1)) (nI + nE) 1 (fun a i _ => a (nv + i)).
  Proof using HN Hone Hnm. replace (nI + nE) with (nv + nI + nE - 1 + 1 - nv) by lia. apply xis_part; lia. Qed.
  Lemma xis_la : xis N (get_vec_var the_x (nv, nv + nI - 1)) nI 1 (fun a i _ => a (nv + i)).
  Proof using HN Hone Hnm. replace nI with (nv + nI - 1 + 1 - nv) at 2 by lia. apply xis_part; lia. Qed.
  Lemma xis_P : xis N (get_vec_var the_x (nv + nI + nE, xsz - 1)) (start_idx dimG) 1 (fun a i _ => a (nv + nI + nE + i)).
  Proof using HN Hone Hnm. replace (start_idx dimG) with (xsz - 1 + 1 - (nv + nI + nE)) at 2 by lia. apply xis_part; lia. Qed.

  (** ** the vector program *)
  Lemma emits_F obj T V W k : cis obj dimF nv V -> t3_n T = nI + nE -> t3_cols T = nv ->
    cis (t3_slice k T) (nI + nE) nv W -> k < dimF ->
    emits N (qcqp_F_con obj T (get_vec_var the_x (0, nv - 1)) (get_vec_var the_x (nv, nv + nI + nE - 1)) k)
      (fun a => rsum nv (fun j => V k j * a j) = rsum (nI + nE) (fun i => a (nv + i)%nat * rsum nv (fun j => W i j * a j)))%R.
  Proof using HN Hone Hnm.
    intros Ho T1 T2 HT Hk. unfold qcqp_F_con. pose proof xis_v as Xv. pose proof xis_lam as Xl.
    set (v := get_vec_var the_x (0, nv - 1)) in *. set (lam := get_vec_var the_x (nv, nv + nI + nE - 1)) in *.
    rewrite (proj1 (proj2 Ho)), (proj1 Xv), (proj1 Xl), T1, T2, !Nat.eqb_refl. cbn [andb].
    destruct (xis_mul N _ _ _ _ _ _ _ (xis_num N _ _ _ _ (cis_row k _ _ _ _ Ho Hk)) Xv) as (A & EA & XA).
    destruct (xis_mul N _ _ _ _ _ _ _ (xis_T N _ _ _ _ Xl) (xis_num N _ _ _ _ HT)) as (B & EB & XB).
    destruct (xis_mul N _ _ _ _ _ _ _ XB Xv) as (C & EC & XC).
    destruct (xis_sub N _ _ _ _ _ _ XA XC) as (D & ED & XD).
    eapply emits_lift; [exact EA|]. eapply emits_lift; [exact EB|]. eapply emits_lift; [exact EC|]. eapply emits_lift; [exact ED|].
    eapply emits_ext; [eapply emits_eq; exact XD|]. intros a.
    assert (Hs : rsum nv (fun l => (rsum (nI + nE) (fun l0 => a (nv + l0)%nat * W l0 l) * a l)%R) =
                 rsum (nI + nE) (fun i => (a (nv + i)%nat * rsum nv (fun j => W i j * a j))%R)).
    { rewrite (rsum_ext _ _ (fun l => rsum (nI + nE) (fun i => (a (nv + i)%nat * W i l * a l)%R))) by (intros; rewrite rsum_scal_r; easy).
      rewrite rsum_swap. apply rsum_ext. intros i Hi. rewrite <- rsum_scal. apply rsum_ext. intros; lra. }
    split.
    - intros H. specialize (H 0 0 Nat.lt_0_1 Nat.lt_0_1). cbv beta in H. rewrite Q2R_0' in H. rewrite <- Hs. lra.
    - intros H i j Hi Hj. rewrite Q2R_0', Hs. lra.
  Qed.

  Lemma ppt_value k1 k2 : k1 < dimG -> k2 < dimG -> exists A,
    get_PPt_element (get_vec_var the_x (nv + nI + nE, xsz - 1)) k1 k2 = Ok A /\
    xis N A 1 1 (fun a _ _ => rsum dimG (fun c => tri (fun i => a (nv + nI + nE + i)%nat) k1 c * tri (fun i => a (nv + nI + nE + i)%nat) k2 c)%R).
  Proof using HN Hone Hnm.
    intros H1 H2. unfold get_PPt_element. pose proof xis_P as XP. set (P := get_vec_var the_x _) in *.
    assert (B1 := start_lt k1 dimG H1). assert (B2 := start_lt k2 dimG H2).
    assert (X1 := xis_slice N _ _ _ _ (start_idx k1) (start_idx k1 + Nat.min k1 k2 + 1) XP ltac:(lia)).
    assert (X2 := xis_slice N _ _ _ _ (start_idx k2) (start_idx k2 + Nat.min k1 k2 + 1) XP ltac:(lia)).
    replace (start_idx k1 + Nat.min k1 k2 + 1 - start_idx k1) with (Nat.min k1 k2 + 1) in X1 by lia.
    replace (start_idx k2 + Nat.min k1 k2 + 1 - start_idx k2) with (Nat.min k1 k2 + 1) in X2 by lia.
    destruct (xis_mul N _ _ _ _ _ _ _ (xis_T N _ _ _ _ X1) X2) as (A & EA & XA). exists A. split; [exact EA|].
    eapply xis_ext; [exact XA|]. intros a i j Hi Hj. cbv beta. rewrite <- (tri_rows _ dimG k1 k2 H1 H2). easy.
  Qed.

  Lemma emits_G obj T V W k1 k2 : cis obj (dimG * dimG) nv V -> k1 < dimG -> k2 < dimG ->
    cis (t3_slice (k1 * dimG + k2) T) (nI + nE) nv W ->
    emits N (qcqp_G_con obj T (get_vec_var the_x (0, nv - 1)) (get_vec_var the_x (nv, nv + nI + nE - 1)) (get_vec_var the_x (nv + nI + nE, xsz - 1)) dimG (k1, k2))
      (fun a => let P := tri (fun i => a (nv + nI + nE + i)%nat) in
         rsum nv (fun j => V (k1 * dimG + k2)%nat j * a j) + rsum dimG (fun c => P k1 c * P k2 c) =
         rsum (nI + nE) (fun i => a (nv + i)%nat * rsum nv (fun j => W i j * a j)))%R.
  Proof using HN Hone Hnm.
    intros Ho H1 H2 HT. unfold qcqp_G_con. cbn [fst snd].
    destruct (ppt_value k1 k2 H1 H2) as (PP & EP & XP). pose proof xis_v as Xv. pose proof xis_lam as Xl.
    set (v := get_vec_var the_x (0, nv - 1)) in *. set (lam := get_vec_var the_x (nv, nv + nI + nE - 1)) in *.
    assert (Hk : k1 * dimG + k2 < dimG * dimG) by nia. set (k := k1 * dimG + k2) in *.
    destruct (xis_mul N _ _ _ _ _ _ _ (xis_num N _ _ _ _ (cis_row k _ _ _ _ Ho Hk)) Xv) as (A & EA & XA).
    destruct (xis_add N _ _ _ _ _ _ XA XP) as (A' & EA' & XA').
    destruct (xis_mul N _ _ _ _ _ _ _ (xis_T N _ _ _ _ Xl) (xis_num N _ _ _ _ HT)) as (B & EB & XB).
    destruct (xis_mul N _ _ _ _ _ _ _ XB Xv) as (C & EC & XC).
    destruct (xis_sub N _ _ _ _ _ _ XA' XC) as (D & ED & XD).
    eapply emits_lift; [exact EP|]. eapply emits_lift; [exact EA|]. eapply emits_lift; [exact EA'|]. eapply emits_lift; [exact EB|].
    eapply emits_lift; [exact EC|]. eapply emits_lift; [exact ED|].
    eapply emits_ext; [eapply emits_eq; exact XD|]. intros a. cbv zeta.
    assert (Hs : rsum nv (fun l => (rsum (nI + nE) (fun l0 => a (nv + l0)%nat * W l0 l) * a l)%R) =
                 rsum (nI + nE) (fun i => (a (nv + i)%nat * rsum nv (fun j => W i j * a j))%R)).
    { rewrite (rsum_ext _ _ (fun l => rsum (nI + nE) (fun i => (a (nv + i)%nat * W i l * a l)%R))) by (intros; rewrite rsum_scal_r; easy).
      rewrite rsum_swap. apply rsum_ext. intros i Hi. rewrite <- rsum_scal. apply rsum_ext. intros; lra. }
    split.
    - intros H. specialize (H 0 0 Nat.lt_0_1 Nat.lt_0_1). cbv beta in H. rewrite Q2R_0' in H. rewrite <- Hs. lra.
    - intros H i j Hi Hj. rewrite Q2R_0', Hs. lra.
  Qed.

  (** ** quadratic and linear forms of v *)
  Definition quad_ok (quad : cmatrix -> res xmat) : Prop := forall Qi V, cis Qi nv nv V ->
    exists A, quad Qi = Ok A /\ xis N A 1 1 (fun a _ _ => rsum nv (fun i => rsum nv (fun j => V i j * (a i * a j))))%R.
  Definition lin_ok (lin : cmatrix -> res xmat) : Prop := forall aT V, cis aT 1 nv V ->
    exists A, lin aT = Ok A /\ xis N A 1 1 (fun a _ _ => rsum nv (fun j => V 0%nat j * a j))%R.
  Lemma qcqp_quad_ok : quad_ok (qcqp_quad (get_vec_var the_x (0, nv - 1))).
  Proof using HN Hone Hnm.
    intros Qi V HQ. unfold qcqp_quad. pose proof xis_v as Xv. set (v := get_vec_var the_x (0, nv - 1)) in *.
    destruct (xis_mul N _ _ _ _ _ _ _ (xis_T N _ _ _ _ Xv) (xis_num N _ _ _ _ HQ)) as (A & EA & XA).
    destruct (xis_mul N _ _ _ _ _ _ _ XA Xv) as (B & EB & XB). exists B. rewrite EA. split; [exact EB|].
    eapply xis_ext; [exact XB|]. intros a i j Hi Hj. cbv beta.
    rewrite (rsum_ext nv _ (fun l => rsum nv (fun m => (V m l * (a m * a l))%R))).
    - apply rsum_swap.
    - intros l Hl. rewrite <- rsum_scal_r. apply rsum_ext. intros; lra.
  Qed.
  Lemma qcqp_lin_ok : lin_ok (qcqp_lin (get_vec_var the_x (0, nv - 1))).
  Proof using HN Hone Hnm.
    intros aT V Ha. unfold qcqp_lin. pose proof xis_v as Xv. set (v := get_vec_var the_x (0, nv - 1)) in *.
    destruct (xis_mul N _ _ _ _ _ _ _ (xis_num N _ _ _ _ Ha) Xv) as (A & EA & XA). exists A. split; [exact EA|].
    eapply xis_ext; [exact XA|]. intros a i j Hi Hj. cbv beta. replace i with 0 by lia. easy.
  Qed.

  Lemma name_idx_get s i : name_idx nm s = Ok i -> dget vname_eqb (VStr s) (nm_idx nm) = Some i.
  Proof using HN Hone Hnm. unfold name_idx. destruct (dget vname_eqb (VStr s) (nm_idx nm)); congruence. Qed.
  Lemma get_lt s i : dget vname_eqb (VStr s) (nm_idx nm) = Some i -> i < nv.
  Proof using HN Hone Hnm. intros H. apply (numbered_get _ _ _ Hnm) in H. apply nth_error_Some. congruence. Qed.
  Lemma at_name_get y s i : dget vname_eqb (VStr s) (nm_idx nm) = Some i -> at_name nm y s = y i.
  Proof using HN Hone Hnm. unfold at_name. intros ->. easy. Qed.
  Lemma name_in s : In (VStr s) (nm_list nm) -> exists i, dget vname_eqb (VStr s) (nm_idx nm) = Some i /\ i < nv.
  Proof using HN Hone Hnm. intros H. apply In_nth_error in H as [i Hi]. exists i. split; [apply (numbered_nth _ _ _ Hnm Hi)|]. apply nth_error_Some. congruence. Qed.

  Lemma pair_sum (a : nat -> R) i j : i < nv -> j < nv ->
    rsum nv (fun r => rsum nv (fun c => (/2 * ((if Nat.eqb r i then 1 else 0) * (if Nat.eqb c j then 1 else 0) + (if Nat.eqb r j then 1 else 0) * (if Nat.eqb c i then 1 else 0)) * (a r * a c))%R)) = (a i * a j)%R.
  Proof using HN Hone Hnm.
    intros Hi Hj.
    rewrite (rsum_ext nv _ (fun r => (ind r i * (/2 * a r * a j) + ind r j * (/2 * a r * a i))%R)).
    - rewrite rsum_plus, (rsum_ind nv i (fun r => (/2 * a r * a j)%R)), (rsum_ind nv j (fun r => (/2 * a r * a i)%R)) by assumption. lra.
    - intros r Hr. rewrite (rsum_ext nv _ (fun c => (ind c j * (/2 * ind r i * a r * a c) + ind c i * (/2 * ind r j * a r * a c))%R)).
      + rewrite rsum_plus, (rsum_ind nv j (fun c => (/2 * ind r i * a r * a c)%R)), (rsum_ind nv i (fun c => (/2 * ind r j * a r * a c)%R)) by assumption. lra.
      + intros c Hc. unfold ind. lra.
  Qed.

  Definition mono_eq (y : nat -> R) (n : vname) : Prop :=
    match n with
    | VOne => False
    | VStr s => List.length (split_us s) = 1 \/
        at_name nm y s = (at_name nm y (join_us (removelast (split_us s))) * at_name nm y (last (split_us s) ""%string))%R
    end.
  Lemma emits_mono quad lin s : quad_ok quad -> lin_ok lin ->
    In (VStr s) (nm_list nm) ->
    (List.length (split_us s) <> 1 -> In (VStr (last (split_us s) ""%string)) (nm_list nm) /\ In (VStr (join_us (removelast (split_us s)))) (nm_list nm)) ->
    emits N (monomial_con quad lin nv nm (VStr s)) (fun a => mono_eq a (VStr s)).
  Proof using HN Hone Hnm.
    intros Hq Hl Hs Hp. unfold monomial_con. cbv zeta. destruct (Nat.eqb_spec (List.length (split_us s)) 1) as [E|E].
    { eapply emits_ext; [apply emits_ret|]. intros a. simpl. split; auto. }
    destruct (Hp E) as [P1 P2]. destruct (name_in _ Hs) as (i & Ei & Li). destruct (name_in _ P1) as (iv & Eiv & Liv). destruct (name_in _ P2) as (ip & Eip & Lip).
    assert (Ni : name_idx nm s = Ok i) by (unfold name_idx; rewrite Ei; easy).
    assert (Niv : name_idx nm (last (split_us s) ""%string) = Ok iv) by (unfold name_idx; rewrite Eiv; easy).
    assert (Nip : name_idx nm (join_us (removelast (split_us s))) = Ok ip) by (unfold name_idx; rewrite Eip; easy).
    destruct (symm_prod_value nv iv ip Liv Lip) as (M & EM & CM).
    destruct (Hq M _ CM) as (A & EA & XA).
    assert (Ca := cis_T _ _ _ _ (cis_scale (-1) _ _ _ _ (cis_one_hot nv i Li))).
    destruct (Hl _ _ Ca) as (L & EL & XL). destruct (xis_add N _ _ _ _ _ _ XA XL) as (C & EC & XC).
    eapply emits_lift; [exact Ni|]. eapply emits_lift; [exact Niv|]. eapply emits_lift; [exact Nip|]. eapply emits_lift; [exact EM|].
    eapply emits_lift; [exact EA|]. eapply emits_lift; [exact EL|]. eapply emits_lift; [exact EC|].
    eapply emits_ext; [eapply emits_eq; exact XC|]. intros a. cbn [mono_eq]. rewrite (at_name_get _ _ _ Ei), (at_name_get _ _ _ Eiv), (at_name_get _ _ _ Eip).
    assert (V2 : rsum nv (fun j => (Q2R (-1) * (if Nat.eqb j i then 1 else 0) * a j)%R) = (- a i)%R).
    { rewrite (rsum_ext nv _ (fun j => (ind j i * (- a j))%R)). - rewrite (rsum_ind nv i (fun j => (- a j)%R) Li). easy.
      - intros j Hj. unfold ind. replace (Q2R (-1)) with (-1)%R by (unfold Q2R; simpl; lra). lra. }
    split.
    - intros H. right. specialize (H 0 0 Nat.lt_0_1 Nat.lt_0_1). cbv beta in H. rewrite pair_sum, V2, Q2R_0' in H by assumption. lra.
    - intros [H|H] x y Hx Hy; [congruence|]. cbv beta. rewrite pair_sum, V2, Q2R_0' by assumption. lra.
  Qed.

  Lemma emits_pos s i : dget vname_eqb (VStr s) (nm_idx nm) = Some i ->
    emits N (x_positive the_x nm s) (fun a => (Q2R tiny <= at_name nm a s)%R).
  Proof using HN Hone Hnm.
    intros H. unfold x_positive. assert (Li := get_lt _ _ H). eapply emits_lift.
    - unfold x_entry. rewrite H. cbn [the_x xm_rows]. replace (Nat.ltb i xsz) with true by (symmetry; apply Nat.ltb_lt; lia). reflexivity.
    - eapply emits_ext; [apply emits_to; simpl; split; [lia|exact I]|]. intros a. rewrite (at_name_get _ _ _ H). simpl. split; intros; lra.
  Qed.

  Lemma emits_recip quad v i j : quad_ok quad ->
    dget vname_eqb (VStr v) (nm_idx nm) = Some i -> dget vname_eqb (VStr ("inv" ++ v)%string) (nm_idx nm) = Some j ->
    emits N (reciprocal_con quad the_x nv nm v) (fun a => at_name nm a v * at_name nm a ("inv" ++ v)%string = 1 /\ Q2R tiny <= at_name nm a v)%R.
  Proof using HN Hone Hnm.
    intros Hq Hi Hj. unfold reciprocal_con. assert (Li := get_lt _ _ Hi). assert (Lj := get_lt _ _ Hj).
    destruct (symm_prod_value nv i j Li Lj) as (M & EM & CM). destruct (Hq M _ CM) as (A & EA & XA).
    eapply emits_lift; [unfold name_idx; rewrite Hi; reflexivity|]. eapply emits_lift; [unfold name_idx; rewrite Hj; reflexivity|].
    eapply emits_lift; [exact EM|]. eapply emits_lift; [exact EA|]. apply emits_seq.
    - eapply emits_ext; [eapply emits_eq; exact XA|]. intros a. rewrite (at_name_get _ _ _ Hi), (at_name_get _ _ _ Hj). split.
      + intros H. specialize (H 0 0 Nat.lt_0_1 Nat.lt_0_1). cbv beta in H. rewrite pair_sum in H by assumption. rewrite H, Q2R_1'. easy.
      + intros H x y Hx Hy. rewrite pair_sum by assumption. rewrite H, Q2R_1'. easy.
    - eapply emits_pos. exact Hi.
  Qed.

  Lemma emits_diag : exists D, xm_mul (xm_num (diag_selector dimG)) (get_vec_var the_x (nv + nI + nE, xsz - 1)) = Ok D /\
    emits N (subject_ge D 0) (fun a => forall i, i < dimG -> (0 <= tri (fun i => a (nv + nI + nE + i)%nat) i i)%R).
  Proof using HN Hone Hnm.
    destruct (xis_mul N _ _ _ _ _ _ _ (xis_num N _ _ _ _ (diag_value dimG)) xis_P) as (D & ED & XD). exists D. split; [exact ED|].
    eapply emits_ext; [eapply emits_ge; exact XD|]. intros a.
    assert (E : forall i, i < dimG -> rsum (start_idx dimG) (fun l => (ind l (start_idx i + i) * a (nv + nI + nE + l)%nat)%R) = tri (fun i => a (nv + nI + nE + i)%nat) i i).
    { intros i Hi. rewrite (rsum_ind _ _ (fun l => a (nv + nI + nE + l)%nat)) by (pose proof (start_lt i dimG Hi); lia).
      unfold tri. rewrite Nat.leb_refl. easy. }
    split.
    - intros H i Hi. specialize (H i 0 Hi Nat.lt_0_1). cbv beta in H. rewrite E, Q2R_0' in H by assumption. exact H.
    - intros H i j Hi Hj. rewrite E, Q2R_0' by assumption. apply H, Hi.
  Qed.
  Lemma emits_la : emits N (subject_ge (get_vec_var the_x (nv, nv + nI - 1)) 0) (fun a => forall i, i < nI -> (0 <= a (nv + i)%nat)%R).
  Proof using HN Hone Hnm.
    eapply emits_ext; [eapply emits_ge; exact xis_la|]. intros a. rewrite Q2R_0'. split.
    - intros H i Hi. apply (H i 0 Hi Nat.lt_0_1).
    - intros H i j Hi Hj. apply H, Hi.
  Qed.

  (** ** the matrix program *)
  Definition the_X : xmat := mkXM xsz xsz (fun i j => csumn 1 (fun k => CMul (xm_at the_x i k) (xm_at (xm_T the_x) k j))).
  Lemma X_ok : xm_mul the_x (xm_T the_x) = Ok the_X.
  Proof using HN Hone Hnm. reflexivity. Qed.
  Lemma xis_X : xis N the_X xsz xsz (fun a i j => a i * a j)%R.
  Proof using HN Hone Hnm.
    destruct (xis_mul N _ _ _ _ _ _ _ xis_x (xis_T N _ _ _ _ xis_x)) as (C & EC & XC). rewrite X_ok in EC. injection EC as <-.
    eapply xis_ext; [exact XC|]. intros a i j Hi Hj. simpl. lra.
  Qed.

  (** trace of (A^T M C) X for selections A and C *)
  Lemma sel_trace A C M r1 r2 c1 c2 V : c1 + r1 <= xsz -> c2 + r2 <= xsz ->
    cis A r1 xsz (fun i j => if Nat.eqb j (c1 + i) then 1%R else 0%R) -> cis C r2 xsz (fun i j => if Nat.eqb j (c2 + i) then 1%R else 0%R) ->
    cis M r1 r2 V ->
    exists B0 B1 B2 B, cm_mul (cm_T A) M = Ok B0 /\ cm_mul B0 C = Ok B1 /\ xm_mul (xm_num B1) the_X = Ok B2 /\ xm_trace B2 = Ok B /\
      xis N B 1 1 (fun a _ _ => rsum r1 (fun i => rsum r2 (fun j => V i j * (a (c1 + i)%nat * a (c2 + j)%nat))))%R.
  Proof using HN Hone Hnm.
    intros H1 H2 HA HC HM.
    destruct (cis_mul _ _ _ _ _ _ _ (cis_T _ _ _ _ HA) HM) as (B0 & E0 & C0).
    destruct (cis_mul _ _ _ _ _ _ _ C0 HC) as (B1 & E1 & C1).
    destruct (xis_mul N _ _ _ _ _ _ _ (xis_num N _ _ _ _ C1) xis_X) as (B2 & E2 & X2).
    destruct (xis_trace N _ _ _ X2) as (B & E3 & X3).
    exists B0, B1, B2, B. repeat (split; [assumption|]). eapply xis_ext; [exact X3|]. intros a i0 j0 _ _. cbv beta.
    rewrite (rsum_ext xsz _ (fun i => rsum r1 (fun m1 => (ind i (c1 + m1) * (a i * rsum r2 (fun m2 => V m1 m2 * a (c2 + m2)%nat)))%R))).
    - rewrite rsum_window by assumption. apply rsum_ext. intros m1 Hm1. rewrite <- rsum_scal. apply rsum_ext. intros; lra.
    - intros i Hi.
      rewrite (rsum_ext xsz _ (fun l => rsum r2 (fun m2 => (ind l (c2 + m2) * (rsum r1 (fun m1 => ind i (c1 + m1) * V m1 m2) * (a l * a i)))%R))).
      + rewrite rsum_window by assumption.
        rewrite (rsum_ext r2 _ (fun m2 => rsum r1 (fun m1 => (ind i (c1 + m1) * (a i * (V m1 m2 * a (c2 + m2)%nat)))%R))).
        * rewrite rsum_swap. apply rsum_ext. intros m1 Hm1. rewrite <- rsum_scal, <- rsum_scal. apply rsum_ext. intros; lra.
        * intros m2 Hm2. rewrite <- rsum_scal_r. apply rsum_ext. intros; lra.
      + intros l Hl. rewrite <- rsum_scal_r. apply rsum_ext. intros m2 Hm2. unfold ind.
        destruct (Nat.eqb l (c2 + m2)); lra.
  Qed.

  Definition is_sel (A : cmatrix) (r c : nat) : Prop := cis A r xsz (fun i j => if Nat.eqb j (c + i) then 1%R else 0%R).
  Lemma sel_lin C M r r2 c2 V : c2 + r2 <= xsz -> is_sel C r2 c2 -> cis M r r2 V ->
    exists A0 A, cm_mul M C = Ok A0 /\ xm_mul (xm_num A0) the_x = Ok A /\ xis N A r 1 (fun a i _ => rsum r2 (fun j => V i j * a (c2 + j)%nat))%R.
  Proof using HN Hone Hnm.
    intros H HC HM. destruct (cis_mul _ _ _ _ _ _ _ HM HC) as (A0 & E0 & C0).
    destruct (xis_mul N _ _ _ _ _ _ _ (xis_num N _ _ _ _ C0) xis_x) as (A & EA & XA). exists A0, A. split; [exact E0|]. split; [exact EA|].
    eapply xis_ext; [exact XA|]. intros a i j Hi Hj. cbv beta.
    rewrite (rsum_ext xsz _ (fun l => rsum r2 (fun m => (ind l (c2 + m) * (V i m * a l))%R))).
    - rewrite rsum_window by assumption. easy.
    - intros l Hl. rewrite <- rsum_scal_r. apply rsum_ext. intros m Hm. unfold ind. destruct (Nat.eqb l (c2 + m)); lra.
  Qed.
  Lemma sel_x C r2 c2 : c2 + r2 <= xsz -> is_sel C r2 c2 ->
    exists A, xm_mul (xm_num C) the_x = Ok A /\ xis N A r2 1 (fun a i _ => a (c2 + i)).
  Proof using HN Hone Hnm.
    intros H HC. destruct (xis_mul N _ _ _ _ _ _ _ (xis_num N _ _ _ _ HC) xis_x) as (A & EA & XA). exists A. split; [exact EA|].
    eapply xis_ext; [exact XA|]. intros a i j Hi Hj. cbv beta. apply (rsum_ind xsz (c2 + i) (fun l => a l)). lia.
  Qed.
  Lemma sel_range lo hi : lo <= hi + 1 -> hi < xsz -> exists A, get_vec_matrix the_x (lo, hi) = Ok A /\ is_sel A (hi + 1 - lo) lo.
  Proof using HN Hone Hnm. intros H1 H2. unfold get_vec_matrix. cbn [fst snd the_x xm_rows]. apply selection_value. lia. Qed.
  Lemma sel_pair S1 S2 r c1 c2 : c1 + r <= xsz -> c2 + r <= xsz -> is_sel S1 r c1 -> is_sel S2 r c2 ->
    exists B0 B2 B, cm_mul (cm_T S1) S2 = Ok B0 /\ xm_mul (xm_num B0) the_X = Ok B2 /\ xm_trace B2 = Ok B /\
      xis N B 1 1 (fun a _ _ => rsum r (fun m => a (c1 + m)%nat * a (c2 + m)%nat))%R.
  Proof using HN Hone Hnm.
    intros H1 H2 HS1 HS2.
    destruct (cis_mul _ _ _ _ _ _ _ (cis_T _ _ _ _ HS1) HS2) as (B0 & E0 & C0).
    destruct (xis_mul N _ _ _ _ _ _ _ (xis_num N _ _ _ _ C0) xis_X) as (B2 & E2 & X2).
    destruct (xis_trace N _ _ _ X2) as (B & E3 & X3). exists B0, B2, B. repeat (split; [assumption|]).
    eapply xis_ext; [exact X3|]. intros a i0 j0 _ _. cbv beta.
    rewrite (rsum_ext xsz _ (fun i => rsum r (fun m => (ind i (c1 + m) * (a (c2 + m)%nat * a i))%R))).
    - rewrite rsum_window by assumption. apply rsum_ext. intros; lra.
    - intros i Hi.
      rewrite (rsum_ext xsz _ (fun l => rsum r (fun m => (ind l (c2 + m) * (ind i (c1 + m) * (a l * a i)))%R))).
      + rewrite rsum_window by assumption. easy.
      + intros l Hl. rewrite <- rsum_scal_r. apply rsum_ext. intros m Hm. unfold ind.
        destruct (Nat.eqb l (c2 + m)), (Nat.eqb i (c1 + m)); lra.
  Qed.

  Lemma emits_mF obj T Iv Il V W k : is_sel Iv nv 0 -> is_sel Il (nI + nE) nv ->
    cis obj dimF nv V -> t3_n T = nI + nE -> t3_cols T = nv -> cis (t3_slice k T) (nI + nE) nv W -> k < dimF ->
    emits N (matrix_F_con obj T Iv Il the_x the_X k)
      (fun a => rsum nv (fun j => V k j * a j) = rsum (nI + nE) (fun i => a (nv + i)%nat * rsum nv (fun j => W i j * a j)))%R.
  Proof using HN Hone Hnm.
    intros Hv Hl Ho T1 T2 HT Hk. unfold matrix_F_con. rewrite (proj1 (proj2 Ho)), T1, T2, (proj1 Hv), (proj1 Hl), !Nat.eqb_refl. cbn [andb].
    destruct (sel_lin Iv _ 1 nv 0 _ ltac:(lia) Hv (cis_row k _ _ _ _ Ho Hk)) as (A0 & A & E0 & EA & XA).
    destruct (sel_trace Il Iv _ (nI + nE) nv nv 0 W ltac:(lia) ltac:(lia) Hl Hv HT) as (B0 & B1 & B2 & B & F0 & F1 & F2 & F3 & XB).
    destruct (xis_sub N _ _ _ _ _ _ XA XB) as (D & ED & XD).
    eapply emits_lift; [exact E0|]. eapply emits_lift; [exact EA|]. eapply emits_lift; [exact F0|]. eapply emits_lift; [exact F1|].
    eapply emits_lift; [exact F2|]. eapply emits_lift; [exact F3|]. eapply emits_lift; [exact ED|].
    eapply emits_ext; [eapply emits_eq; exact XD|]. intros a.
    assert (Hs : rsum (nI + nE) (fun i => rsum nv (fun j => (W i j * (a (nv + i)%nat * a (0 + j)%nat))%R)) =
                 rsum (nI + nE) (fun i => (a (nv + i)%nat * rsum nv (fun j => W i j * a j))%R)).
    { apply rsum_ext. intros i Hi. rewrite <- rsum_scal. apply rsum_ext. intros j Hj. simpl. lra. }
    split.
    - intros H. specialize (H 0 0 Nat.lt_0_1 Nat.lt_0_1). cbv beta in H. rewrite Hs, Q2R_0' in H. cbn [Nat.add] in H. lra.
    - intros H i j Hi Hj. rewrite Hs, Q2R_0'. cbn [Nat.add]. lra.
  Qed.

  Lemma emits_mG obj T Iv Il V W k1 k2 : is_sel Iv nv 0 -> is_sel Il (nI + nE) nv ->
    cis obj (dimG * dimG) nv V -> k1 < dimG -> k2 < dimG ->
    cis (t3_slice (k1 * dimG + k2) T) (nI + nE) nv W ->
    emits N (matrix_G_con obj T Iv Il the_x the_X (nv + nI + nE) dimG (k1, k2))
      (fun a => let P := tri (fun i => a (nv + nI + nE + i)%nat) in
         rsum nv (fun j => V (k1 * dimG + k2)%nat j * a j) + rsum dimG (fun c => P k1 c * P k2 c) =
         rsum (nI + nE) (fun i => a (nv + i)%nat * rsum nv (fun j => W i j * a j)))%R.
  Proof using HN Hone Hnm.
    intros Hv Hl Ho H1 H2 HT. unfold matrix_G_con. cbn [fst snd].
    assert (Hk : k1 * dimG + k2 < dimG * dimG) by nia. set (k := k1 * dimG + k2) in *.
    assert (L1 := start_lt k1 dimG H1). assert (L2 := start_lt k2 dimG H2).
    destruct (selection_value (Nat.min k1 k2 + 1) (nv + nI + nE + start_idx k1) xsz ltac:(lia)) as (S1 & ES1 & HS1).
    destruct (selection_value (Nat.min k1 k2 + 1) (nv + nI + nE + start_idx k2) xsz ltac:(lia)) as (S2 & ES2 & HS2).
    destruct (sel_lin Iv _ 1 nv 0 _ ltac:(lia) Hv (cis_row k _ _ _ _ Ho Hk)) as (A0 & A & E0 & EA & XA).
    destruct (sel_pair S1 S2 (Nat.min k1 k2 + 1) (nv + nI + nE + start_idx k1) (nv + nI + nE + start_idx k2) ltac:(lia) ltac:(lia) HS1 HS2) as (P0 & P2 & P & G0 & G2 & G3 & XP).
    destruct (xis_add N _ _ _ _ _ _ XA XP) as (A' & EA' & XA').
    destruct (sel_trace Il Iv _ (nI + nE) nv nv 0 W ltac:(lia) ltac:(lia) Hl Hv HT) as (B0 & B1 & B2 & B & F0 & F1 & F2 & F3 & XB).
    destruct (xis_sub N _ _ _ _ _ _ XA' XB) as (D & ED & XD).
    eapply emits_lift; [unfold get_PPt_matrix; cbn [the_x xm_rows]; rewrite ES1; cbn [bindr]; rewrite ES2; reflexivity|].
    eapply emits_lift; [exact E0|]. eapply emits_lift; [exact EA|]. eapply emits_lift; [exact G0|]. eapply emits_lift; [exact G2|].
    eapply emits_lift; [exact G3|]. eapply emits_lift; [exact EA'|]. eapply emits_lift; [exact F0|]. eapply emits_lift; [exact F1|].
    eapply emits_lift; [exact F2|]. eapply emits_lift; [exact F3|]. eapply emits_lift; [exact ED|].
    eapply emits_ext; [eapply emits_eq; exact XD|]. intros a. cbv zeta.
    assert (Hs : rsum (nI + nE) (fun i => rsum nv (fun j => (W i j * (a (nv + i)%nat * a (0 + j)%nat))%R)) =
                 rsum (nI + nE) (fun i => (a (nv + i)%nat * rsum nv (fun j => W i j * a j))%R)).
    { apply rsum_ext. intros i Hi. rewrite <- rsum_scal. apply rsum_ext. intros j Hj. simpl. lra. }
    assert (Ht : rsum (Nat.min k1 k2 + 1) (fun m => (a (nv + nI + nE + start_idx k1 + m)%nat * a (nv + nI + nE + start_idx k2 + m)%nat)%R) =
       rsum dimG (fun c => (tri (fun i => a (nv + nI + nE + i)%nat) k1 c * tri (fun i => a (nv + nI + nE + i)%nat) k2 c)%R)).
    { rewrite <- (tri_rows (fun i => a (nv + nI + nE + i)%nat) dimG k1 k2 H1 H2). apply rsum_ext. intros m Hm. rewrite !Nat.add_assoc. easy. }
    split.
    - intros H. specialize (H 0 0 Nat.lt_0_1 Nat.lt_0_1). cbv beta in H. rewrite Hs, Ht, Q2R_0' in H. cbn [Nat.add] in H. lra.
    - intros H i j Hi Hj. rewrite Hs, Ht, Q2R_0'. cbn [Nat.add]. lra.
  Qed.

  Lemma matrix_quad_ok Iv : is_sel Iv nv 0 -> quad_ok (matrix_quad Iv the_X).
  Proof using HN Hone Hnm.
    intros Hv Qi V HQ. destruct (sel_trace Iv Iv _ nv nv 0 0 V ltac:(lia) ltac:(lia) Hv Hv HQ) as (B0 & B1 & B2 & B & F0 & F1 & F2 & F3 & XB).
    exists B. unfold matrix_quad. rewrite F0. cbn [bindr]. rewrite F1. cbn [bindr]. rewrite F2. cbn [bindr]. split; [exact F3|]. exact XB.
  Qed.
  Lemma matrix_lin_ok Iv : is_sel Iv nv 0 -> lin_ok (matrix_lin Iv the_x).
  Proof using HN Hone Hnm.
    intros Hv aT V Ha. destruct (sel_lin Iv _ 1 nv 0 _ ltac:(lia) Hv Ha) as (A0 & A & E0 & EA & XA). exists A. unfold matrix_lin. rewrite E0. cbn [bindr].
    split; [exact EA|]. eapply xis_ext; [exact XA|]. intros a i j Hi Hj. cbv beta. replace i with 0 by lia. easy.
  Qed.
  Lemma emits_mla Ila : is_sel Ila nI nv -> exists A, xm_mul (xm_num Ila) the_x = Ok A /\
    emits N (subject_ge A 0) (fun a => forall i, i < nI -> (0 <= a (nv + i)%nat)%R).
  Proof using HN Hone Hnm.
    intros H. destruct (sel_x Ila nI nv ltac:(lia) H) as (A & EA & XA). exists A. split; [exact EA|].
    eapply emits_ext; [eapply emits_ge; exact XA|]. intros a. rewrite Q2R_0'. split.
    - intros Q i Hi. apply (Q i 0 Hi Nat.lt_0_1).
    - intros Q i j Hi Hj. apply Q, Hi.
  Qed.
  Lemma emits_mdiag IP : is_sel IP (start_idx dimG) (nv + nI + nE) -> exists A0 A, cm_mul (diag_selector dimG) IP = Ok A0 /\ xm_mul (xm_num A0) the_x = Ok A /\
    emits N (subject_ge A 0) (fun a => forall i, i < dimG -> (0 <= tri (fun i => a (nv + nI + nE + i)%nat) i i)%R).
  Proof using HN Hone Hnm.
    intros H. destruct (sel_lin IP _ dimG (start_idx dimG) (nv + nI + nE) _ ltac:(lia) H (diag_value dimG)) as (A0 & A & E0 & EA & XA). exists A0, A. split; [exact E0|]. split; [exact EA|].
    eapply emits_ext; [eapply emits_ge; exact XA|]. intros a.
    assert (E : forall i, i < dimG -> rsum (start_idx dimG) (fun l => (ind l (start_idx i + i) * a (nv + nI + nE + l)%nat)%R) = tri (fun i => a (nv + nI + nE + i)%nat) i i).
    { intros i Hi. rewrite (rsum_ind _ _ (fun l => a (nv + nI + nE + l)%nat)) by (pose proof (start_lt i dimG Hi); lia).
      unfold tri. rewrite Nat.leb_refl. easy. }
    split.
    - intros Q i Hi. specialize (Q i 0 Hi Nat.lt_0_1). cbv beta in Q. rewrite E, Q2R_0' in Q by assumption. exact Q.
    - intros Q i j Hi Hj. rewrite E, Q2R_0' by assumption. apply Q, Hi.
  Qed.
End Steps.
