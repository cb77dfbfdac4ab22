(** The constraints emitted by solve_sdp_relax, and the lifting of
    certificates to its feasible points. *)
From Coq Require Import List Arith Bool String Ascii QArith Reals Qreals Lra Lia Permutation.
From Verif Require Import Prelude PreludeFacts Sympy SympyFacts AlgebraModel Denote AlgebraFacts FunctionModel CircuitModel SymSpec
  GramFacts SymFacts Spec ClassSpec CertSpec StateSpec SessionModel StateFacts CertFacts ParsingModel
  ParsingSpec SolverModel ParsingFacts CoeffFacts SolverSpec SolverFacts IpoptFacts IpoptProof IpoptComplete MatFacts SolverProps
  QcqpModel QcqpSpec QcqpFacts QcqpFacts2 QcqpBuild QcqpProof QcqpMain SdpModel SdpSpec SdpFacts.
Import ListNotations.
Local Open Scope nat_scope.

(** * blocks *)
Lemma xis_var N v : cv_base v + cv_rows v * cv_cols v <= N -> xis N (xm_var v) (cv_rows v) (cv_cols v) (fun a i j => a (cv_at v i j)).
Proof. intros H. split; [easy|]. split; [easy|]. split; [|easy]. intros i j Hi Hj. cbn [xm_var xm_at ids_lt]. unfold cv_at. nia. Qed.
Lemma xis_block N A r c V r0 r1 c0 c1 : xis N A r c V -> r1 <= r -> c1 <= c -> xis N (sub_block r0 r1 c0 c1 A) (r1 - r0) (c1 - c0) (fun a i j => V a (r0 + i) (c0 + j)).
Proof. intros (A1 & A2 & A3 & A4) H1 H2. split; [easy|]. split; [easy|]. split; intros; simpl; [apply A3|apply A4]; lia. Qed.
Lemma emits_same N A B r c V W : xis N A r c V -> xis N B r c W -> emits N (same_block A B) (fun a => forall i j, i < r -> j < c -> V a i j = W a i j).
Proof.
  intros HA HB. unfold same_block. destruct (xis_sub N _ _ _ _ _ _ HA HB) as (C & EC & XC). eapply emits_lift; [exact EC|].
  eapply emits_ext; [eapply emits_eq; exact XC|]. intros a. rewrite Q2R_0'. split; intros H i j Hi Hj; specialize (H i j Hi Hj); cbv beta in *; lra.
Qed.
Lemma half_val a e f : ceval a (CMul (CNum (1 # 2)) (CAdd e f)) = ((ceval a f + ceval a e) / 2)%R.
Proof. simpl. replace (Q2R (1 # 2)) with (/2)%R by (unfold Q2R; simpl; lra). lra. Qed.
Lemma emits_implied N A n V : xis N A n n V -> emits N (implied A) (fun a => minor_ineqs n (V a)).
Proof.
  intros (A1 & A2 & A3 & A4). unfold implied. rewrite A1, A2.
  eapply emits_ext.
  { apply emits_seq; [|apply emits_seq].
    - apply (emits_iter N _ (fun i a => (0 <= V a i i)%R)). intros i Hi. apply in_seq in Hi.
      eapply emits_ext; [apply emits_to; simpl; split; [apply A3; lia|exact Logic.I]|]. intros a. cbn [holds ceval]. rewrite (A4 a i i), Q2R_0' by lia. split; intros; lra.
    - apply (emits_iter N _ (fun ij a => (- ((V a (fst ij) (fst ij) + V a (snd ij) (snd ij)) / 2) <= V a (fst ij) (snd ij))%R)). intros [i j] Hij.
      apply grid_in in Hij as [Hi Hj]. cbn [fst snd].
      eapply emits_ext; [apply emits_to; simpl; repeat split; apply A3; lia|]. intros a. cbn [holds]. cbn [ceval]. rewrite Q2R_0'. rewrite !(A4 a) by lia.
      replace (Q2R (1 # 2)) with (/2)%R by (unfold Q2R; simpl; lra). split; intros; lra.
    - apply (emits_iter N _ (fun ij a => (V a (fst ij) (snd ij) <= (V a (fst ij) (fst ij) + V a (snd ij) (snd ij)) / 2)%R)). intros [i j] Hij.
      apply grid_in in Hij as [Hi Hj]. cbn [fst snd].
      eapply emits_ext; [apply emits_to; simpl; repeat split; apply A3; lia|]. intros a. cbn [holds]. cbn [ceval]. rewrite !(A4 a) by lia.
      replace (Q2R (1 # 2)) with (/2)%R by (unfold Q2R; simpl; lra). split; intros; lra. }
  intros a. unfold minor_ineqs. split.
  - intros (H1 & H2 & H3). split; [intros i Hi; apply H1, in_seq; lia|]. intros i j Hi Hj. split; [apply (H2 (i, j))|apply (H3 (i, j))]; apply grid_in; easy.
  - intros (H1 & H2). split; [intros i Hi; apply in_seq in Hi; apply H1; lia|]. split; intros [i j] Hij; apply grid_in in Hij; apply H2; easy.
Qed.

(** * bounds *)
Lemma emits_bound_list N ids ub lb : Forall (ids_lt N) ids ->
  emits N (bound_list ids ub lb) (fun a => forall e, In e ids -> in_bounds (ceval a e) ub lb).
Proof.
  intros H. rewrite Forall_forall in H. unfold bound_list. eapply emits_ext.
  { apply (emits_seq N _ _ (fun a => forall e, In e ids -> match ub with Some q => ceval a e <= Q2R q | None => True end)%R
                           (fun a => forall e, In e ids -> match lb with Some q => Q2R q <= ceval a e | None => True end)%R).
    - destruct ub as [q|]; [|eapply emits_ext; [apply emits_ret|]; intros; split; easy].
      apply (emits_iter N _ (fun e a => (ceval a e <= Q2R q)%R)). intros e He. eapply emits_ext; [apply emits_to; simpl; split; [exact Logic.I|apply H, He]|]. intros a. simpl. split; intros; lra.
    - destruct lb as [q|]; [|eapply emits_ext; [apply emits_ret|]; intros; split; easy].
      apply (emits_iter N _ (fun e a => (Q2R q <= ceval a e)%R)). intros e He. eapply emits_ext; [apply emits_to; simpl; split; [apply H, He|exact Logic.I]|]. intros a. simpl. split; intros; lra. }
  intros a. unfold in_bounds. cbv beta. split; [intros [A B] e He; split; [apply A|apply B]; exact He|]. intros G. split; intros e He; apply G, He.
Qed.
Lemma emits_bound_block N A r c V ub lb : xis N A r c V ->
  emits N (bound_list (xm_entries A) ub lb) (fun a => forall i j, i < r -> j < c -> in_bounds (V a i j) ub lb).
Proof.
  intros (A1 & A2 & A3 & A4). eapply emits_ext; [apply emits_bound_list|].
  - apply Forall_forall. intros e He. apply in_map_iff in He as ([i j] & <- & Hij). rewrite A1, A2 in Hij. apply grid_in in Hij as [Hi Hj]. apply A3; assumption.
  - intros a. split.
    + intros H i j Hi Hj. rewrite <- (A4 a i j Hi Hj). apply H. apply in_map_iff. exists (i, j). split; [easy|]. rewrite A1, A2. apply grid_in. easy.
    + intros H e He. apply in_map_iff in He as ([i j] & <- & Hij). rewrite A1, A2 in Hij. apply grid_in in Hij as [Hi Hj]. cbn [fst snd]. rewrite A4 by assumption. auto.
Qed.

Section Relax.
  Variable nm : names.
  Variables nI nE dimF dimG off : nat.
  Notation nv := (List.length (nm_list nm)).
  Notation nn := (nv + nI + nE).
  Hypothesis Hnm : numbered nm.
  Hypothesis Hhd : exists l, nm_list nm = VOne :: map VStr l.

  Definition rvx : cavar := mkCV nn 1 off.
  Definition rvW : cavar := mkCV (nn + 1) (nn + 1) (off + nn * 1).
  Definition rvX : cavar := mkCV nn nn (off + nn * 1 + (nn + 1) * (nn + 1)).
  Definition rvZ : cavar := mkCV dimG dimG (off + nn * 1 + (nn + 1) * (nn + 1) + nn * nn).
  Definition rN : nat := off + nn * 1 + (nn + 1) * (nn + 1) + nn * nn + dimG * dimG.
  Definition gx (a : nat -> R) (i : nat) : R := a (cv_at rvx i 0).
  Definition gW (a : nat -> R) (i j : nat) : R := a (cv_at rvW i j).
  Definition gX (a : nat -> R) (i j : nat) : R := a (cv_at rvX i j).
  Definition gZ (a : nat -> R) (i j : nat) : R := a (cv_at rvZ i j).

  Lemma rnv : 1 <= nv.
  Proof using Hhd. destruct Hhd as [l ->]. simpl. lia. Qed.
  Lemma Rx : xis rN (xm_var rvx) nn 1 (fun a i _ => gx a i).
  Proof using Type.
    eapply xis_ext; [apply (xis_var rN rvx); unfold rN, rvx; cbn [cv_base cv_rows cv_cols]; lia|]. intros a i j Hi Hj. unfold gx. cbn [rvx cv_cols] in Hj. replace j with 0 by lia. easy.
  Qed.
  Lemma RW : xis rN (xm_var rvW) (nn + 1) (nn + 1) gW.
  Proof using Type. apply (xis_var rN rvW). unfold rN, rvW; cbn [cv_base cv_rows cv_cols]; lia. Qed.
  Lemma RX : xis rN (xm_var rvX) nn nn gX.
  Proof using Type. apply (xis_var rN rvX). unfold rN, rvX; cbn [cv_base cv_rows cv_cols]; lia. Qed.
  Lemma RZ : xis rN (xm_var rvZ) dimG dimG gZ.
  Proof using Type. apply (xis_var rN rvZ). unfold rN, rvZ; cbn [cv_base cv_rows cv_cols]; lia. Qed.

  (** the matrix with two off-diagonal blocks *)
  Lemma cis_off B r c V : cis B r c V -> cis (off_blocks B) (c + r) (c + r) (fun i j =>
    if Nat.ltb i c then (if Nat.ltb j c then 0 else V (j - c)%nat i)%R else if Nat.ltb j c then V (i - c)%nat j else 0%R).
  Proof using Type.
    intros (B1 & B2 & B3). unfold off_blocks. rewrite B1, B2. split; [easy|]. split; [easy|]. intros i j Hi Hj. cbn [cm_at].
    destruct (Nat.ltb_spec i c), (Nat.ltb_spec j c); try apply Q2R_0'; apply B3; lia.
  Qed.
  Lemma off_trace r c (V : nat -> nat -> R) (X : nat -> nat -> R) :
    rsum (c + r) (fun i => rsum (c + r) (fun l => (if Nat.ltb i c then (if Nat.ltb l c then 0 else V (l - c)%nat i) else if Nat.ltb l c then V (i - c)%nat l else 0) * X l i))%R =
    rsum r (fun m => rsum c (fun j => V m j * (X (c + m)%nat j + X j (c + m)%nat)))%R.
  Proof using Type.
    rewrite rsum_split.
    rewrite (rsum_ext c _ (fun i => rsum r (fun m => V m i * X (c + m)%nat i)%R)).
    2:{ intros i Hi. rewrite rsum_split. rewrite rsum_zero.
        - rewrite Rplus_0_l. apply rsum_ext. intros m Hm. destruct (Nat.ltb_spec i c); [|lia]. destruct (Nat.ltb_spec (c + m) c); [lia|]. replace (c + m - c) with m by lia. easy.
        - intros l Hl. destruct (Nat.ltb_spec i c); [|lia]. destruct (Nat.ltb_spec l c); [|lia]. lra. }
    rewrite (rsum_ext r _ (fun m => rsum c (fun j => V m j * X j (c + m)%nat)%R)).
    2:{ intros m Hm. rewrite rsum_split. rewrite (rsum_zero r).
        - rewrite Rplus_0_r. apply rsum_ext. intros j Hj. destruct (Nat.ltb_spec (c + m) c); [lia|]. destruct (Nat.ltb_spec j c); [|lia]. replace (c + m - c) with m by lia. easy.
        - intros l Hl. destruct (Nat.ltb_spec (c + m) c); [lia|]. destruct (Nat.ltb_spec (c + l) c); [lia|]. lra. }
    rewrite rsum_swap, <- rsum_plus. apply rsum_ext. intros m Hm. rewrite <- rsum_plus. apply rsum_ext. intros; lra.
  Qed.

  Definition row_eq (V : nat -> R) (W : nat -> nat -> R) (slack : R) (a : nat -> R) : Prop :=
    (rsum nv (fun j => V j * gx a j) + slack =
     rsum (nI + nE) (fun i => rsum nv (fun j => W i j * ((gX a (nv + i) j + gX a j (nv + i)) / 2))))%R.
  Definition rsel (A : cmatrix) (r c : nat) : Prop := cis A r nn (fun i j => if Nat.eqb j (c + i) then 1%R else 0%R).
  Lemma emits_row obj T Iv V W k slack sl rows : rsel Iv nv 0 -> cis obj rows nv V -> k < rows -> cis (t3_slice k T) (nI + nE) nv W ->
    xis rN slack 1 1 (fun a _ _ => sl a) ->
    emits rN (relax_row obj T Iv (xm_var rvx) (xm_var rvX) slack k) (fun a => row_eq (V k) W (sl a) a).
  Proof using Hhd.
    intros HI Ho Hk HT Hs. unfold relax_row. cbv zeta.
    destruct (cis_mul _ _ _ _ _ _ _ (cis_row k _ _ _ _ Ho Hk) HI) as (q & Eq & Cq).
    destruct (xis_mul rN _ _ _ _ _ _ _ (xis_num rN _ _ _ _ Cq) Rx) as (l & El & Xl).
    destruct (xis_add rN _ _ _ _ _ _ Xl Hs) as (l' & El' & Xl').
    assert (CQ := cis_off _ _ _ _ (cis_scale (1 # 2) _ _ _ _ HT)).
    assert (En : nv + (nI + nE) = nn) by lia. rewrite En in CQ.
    destruct (xis_mul rN _ _ _ _ _ _ _ (xis_num rN _ _ _ _ CQ) RX) as (t0 & Et0 & Xt0).
    destruct (xis_trace rN _ _ _ Xt0) as (t & Et & Xt).
    eapply emits_lift; [exact Eq|]. eapply emits_lift; [exact El|]. eapply emits_lift; [exact El'|]. eapply emits_lift; [exact Et0|]. eapply emits_lift; [exact Et|].
    eapply emits_ext; [eapply emits_same; [exact Xl'|exact Xt]|]. intros a.
    assert (HL : rsum nn (fun l0 => (rsum nv (fun l1 => V k l1 * (if Nat.eqb l0 (0 + l1) then 1 else 0)) * gx a l0)%R) = rsum nv (fun j => (V k j * gx a j)%R)).
    { rewrite (rsum_ext nn _ (fun i => rsum nv (fun m => ind i (0 + m) * (V k m * gx a i))%R)).
      - rewrite (rsum_window nn 0 nv (fun m i => V k m * gx a i)%R) by lia. easy.
      - intros i Hi. rewrite <- rsum_scal_r. apply rsum_ext. intros m Hm. unfold ind. lra. }
    assert (HR := off_trace (nI + nE) nv (fun i j => (Q2R (1 # 2) * W i j)%R) (gX a)). rewrite En in HR.
    unfold row_eq. assert (HR2 : rsum (nI + nE) (fun m => rsum nv (fun j => (Q2R (1 # 2) * W m j * (gX a (nv + m) j + gX a j (nv + m)))%R)) =
       rsum (nI + nE) (fun i => rsum nv (fun j => (W i j * ((gX a (nv + i) j + gX a j (nv + i)) / 2))%R))).
    { apply rsum_ext. intros i Hi. apply rsum_ext. intros j Hj. replace (Q2R (1 # 2)) with (/2)%R by (unfold Q2R; simpl; lra). lra. }
    rewrite <- HR2, <- HR, <- HL. split; [intros H; apply (H 0 0 Nat.lt_0_1 Nat.lt_0_1)|intros H i j _ _; exact H].
  Qed.

  Definition quad_x (quad : cmatrix -> res xmat) : Prop := forall Qi V, cis Qi nn nn V ->
    exists A, quad Qi = Ok A /\ xis rN A 1 1 (fun a _ _ => rsum nn (fun i => rsum nn (fun l => V i l * gX a l i)))%R.
  Lemma relax_quad_ok : quad_x (relax_quad (xm_var rvX)).
  Proof using Type.
    intros Qi V HQ. unfold relax_quad. destruct (xis_mul rN _ _ _ _ _ _ _ (xis_num rN _ _ _ _ HQ) RX) as (C & EC & XC).
    destruct (xis_trace rN _ _ _ XC) as (A & EA & XA). exists A. rewrite EC. split; [exact EA|exact XA].
  Qed.
  Lemma relax_lin_ok aT V : cis aT 1 nn V -> exists A, relax_lin (xm_var rvx) aT = Ok A /\ xis rN A 1 1 (fun a _ _ => rsum nn (fun j => V 0%nat j * gx a j))%R.
  Proof using Type.
    intros H. unfold relax_lin. destruct (xis_mul rN _ _ _ _ _ _ _ (xis_num rN _ _ _ _ H) Rx) as (A & EA & XA). exists A. split; [exact EA|].
    eapply xis_ext; [exact XA|]. intros a i j Hi Hj. cbv beta. replace i with 0 by lia. easy.
  Qed.

  Lemma rget_lt s i : dget vname_eqb (VStr s) (nm_idx nm) = Some i -> i < nv.
  Proof using Hnm. intros H. apply (numbered_get _ _ _ Hnm) in H. apply nth_error_Some. congruence. Qed.
  Lemma rname_in s : In (VStr s) (nm_list nm) -> exists i, dget vname_eqb (VStr s) (nm_idx nm) = Some i /\ i < nv.
  Proof using Hnm. intros H. apply In_nth_error in H as [i Hi]. exists i. split; [apply (numbered_nth _ _ _ Hnm Hi)|]. apply nth_error_Some. congruence. Qed.

  Lemma pair_X (X : nat -> nat -> R) i j : i < nn -> j < nn ->
    rsum nn (fun r => rsum nn (fun c => (/2 * ((if Nat.eqb r i then 1 else 0) * (if Nat.eqb c j then 1 else 0) + (if Nat.eqb r j then 1 else 0) * (if Nat.eqb c i then 1 else 0)) * X c r)%R)) = ((X j i + X i j) / 2)%R.
  Proof using Type.
    intros Hi Hj. rewrite (rsum_ext nn _ (fun r => (ind r i * (/2 * X j r) + ind r j * (/2 * X i r))%R)).
    - rewrite rsum_plus, (rsum_ind nn i (fun r => (/2 * X j r)%R)), (rsum_ind nn j (fun r => (/2 * X i r)%R)) by assumption. lra.
    - intros r Hr. rewrite (rsum_ext nn _ (fun c => (ind c j * (/2 * ind r i * X c r) + ind c i * (/2 * ind r j * X c r))%R)).
      + rewrite rsum_plus, (rsum_ind nn j (fun c => (/2 * ind r i * X c r)%R)), (rsum_ind nn i (fun c => (/2 * ind r j * X c r)%R)) by assumption. lra.
      + intros c Hc. unfold ind. lra.
  Qed.
  Definition rmono_eq (x : nat -> R) (X : nat -> nat -> R) (n : vname) : Prop :=
    match n with
    | VOne => False
    | VStr s => List.length (split_us s) = 1 \/
        at_name nm x s = pair_at nm X (join_us (removelast (split_us s))) (last (split_us s) ""%string)
    end.
  Lemma emits_rmono s :
    In (VStr s) (nm_list nm) ->
    (List.length (split_us s) <> 1 -> In (VStr (last (split_us s) ""%string)) (nm_list nm) /\ In (VStr (join_us (removelast (split_us s)))) (nm_list nm)) ->
    emits rN (monomial_con (relax_quad (xm_var rvX)) (relax_lin (xm_var rvx)) nn nm (VStr s)) (fun a => rmono_eq (gx a) (gX a) (VStr s)).
  Proof using Hnm.
    intros Hs Hp. unfold monomial_con. cbv zeta. destruct (Nat.eqb_spec (List.length (split_us s)) 1) as [E|E].
    { eapply emits_ext; [apply emits_ret|]. intros a. simpl. split; auto. }
    destruct (Hp E) as [P1 P2]. destruct (rname_in _ Hs) as (i & Ei & Li). destruct (rname_in _ P1) as (iv & Eiv & Liv). destruct (rname_in _ P2) as (ip & Eip & Lip).
    assert (Ni : name_idx nm s = Ok i) by (unfold name_idx; rewrite Ei; easy).
    assert (Niv : name_idx nm (last (split_us s) ""%string) = Ok iv) by (unfold name_idx; rewrite Eiv; easy).
    assert (Nip : name_idx nm (join_us (removelast (split_us s))) = Ok ip) by (unfold name_idx; rewrite Eip; easy).
    assert (Li' : i < nn) by lia. assert (Liv' : iv < nn) by lia. assert (Lip' : ip < nn) by lia.
    destruct (symm_prod_value nn iv ip Liv' Lip') as (M & EM & CM).
    destruct (relax_quad_ok M _ CM) as (A & EA & XA).
    assert (Ca := cis_T _ _ _ _ (cis_scale (-1) _ _ _ _ (cis_one_hot nn i Li'))).
    destruct (relax_lin_ok _ _ Ca) as (L & EL & XL). destruct (xis_add rN _ _ _ _ _ _ XA XL) as (C & EC & XC).
    eapply emits_lift; [exact Ni|]. eapply emits_lift; [exact Niv|]. eapply emits_lift; [exact Nip|]. eapply emits_lift; [exact EM|].
    eapply emits_lift; [exact EA|]. eapply emits_lift; [exact EL|]. eapply emits_lift; [exact EC|].
    eapply emits_ext; [eapply emits_eq; exact XC|]. intros a. cbn [rmono_eq]. unfold at_name, pair_at. rewrite Ei, Eiv, Eip.
    assert (V2 : rsum nn (fun j => (Q2R (-1) * (if Nat.eqb j i then 1 else 0) * gx a j)%R) = (- gx a i)%R).
    { rewrite (rsum_ext nn _ (fun j => (ind j i * (- gx a j))%R)). - rewrite (rsum_ind nn i (fun j => (- gx a j)%R) Li'). easy.
      - intros j Hj. unfold ind. replace (Q2R (-1)) with (-1)%R by (unfold Q2R; simpl; lra). lra. }
    assert (V1 := pair_X (gX a) iv ip Liv' Lip'). split.
    - intros H. right. specialize (H 0 0 Nat.lt_0_1 Nat.lt_0_1). cbv beta in H. rewrite V1, V2, Q2R_0' in H. lra.
    - intros [H|H] x y Hx Hy; [congruence|]. cbv beta. rewrite V1, V2, Q2R_0'. lra.
  Qed.
  Lemma rmono_equiv x X : (forall n, In n (tl (nm_list nm)) -> rmono_eq x X n) <->
     (forall s pre t, In (VStr s) (nm_list nm) -> split_us s = (pre ++ [t])%list -> pre <> [] ->
        at_name nm x s = pair_at nm X (join_us pre) t).
  Proof using Hhd.
    clear - Hhd. destruct Hhd as [l El]. rewrite El. cbn [tl]. split.
    - intros H s pre t [Hs|Hs] Es Hp; [discriminate|]. specialize (H (VStr s) Hs). cbn [rmono_eq] in H. rewrite Es, app_length in H. simpl in H.
      destruct pre as [|y pre]; [easy|]. destruct H as [H|H]; [simpl in H; lia|]. rewrite removelast_last, last_last in H. exact H.
    - intros H n Hn. apply in_map_iff in Hn as (s & <- & Hs). cbn [rmono_eq].
      assert (Hne := split_nonnil us s). change (split us s) with (split_us s) in Hne.
      destruct (split_us s) as [|y t] eqn:E; [easy|]. clear Hne. destruct t as [|z t]; [left; easy|]. right.
      assert (Es : split_us s = (removelast (y :: z :: t) ++ [last (y :: z :: t) ""%string])%list) by (rewrite E; apply app_removelast_last; easy).
      apply (H s _ _ (or_intror (in_map VStr _ _ Hs)) Es). simpl. easy.
  Qed.

  (** x_entry *)
  Lemma rx_entry s i : dget vname_eqb (VStr s) (nm_idx nm) = Some i -> x_entry (xm_var rvx) nm s = Ok (CVar (cv_at rvx i 0)).
  Proof using Hnm.
    intros H. unfold x_entry. rewrite H. assert (L := rget_lt _ _ H). cbn [xm_var xm_rows rvx cv_rows]. replace (Nat.ltb i nn) with true by (symmetry; apply Nat.ltb_lt; lia). easy.
  Qed.
  Lemma rx_lt i : i < nv -> cv_at rvx i 0 < rN.
  Proof using Type. intros H. unfold cv_at, rvx, rN. cbn [cv_base cv_cols]. lia. Qed.
  Lemma rat_name a s i : dget vname_eqb (VStr s) (nm_idx nm) = Some i -> at_name nm (gx a) s = a (cv_at rvx i 0).
  Proof using Type. intros H. unfold at_name. rewrite H. easy. Qed.

  (** bounds *)
  Lemma emits_rbounds b Il : rsel Il (nI + nE) nv ->
    emits rN (cvx_add_bounds b [("Z"%string, xm_var rvZ); ("x"%string, xm_var rvx); ("X"%string, xm_var rvX)] nm (xm_var rvx) Il)
      (fun a => relax_bounds b nm (nI + nE) dimG (gx a) (gX a) (gZ a)).
  Proof using Hnm.
    intros HI. destruct b as [b|]; [|eapply emits_ext; [apply emits_ret|]; intros; split; easy]. cbn [cvx_add_bounds].
    eapply emits_ext.
    - apply (emits_iter rN _ (fun nb a => let '(s, (ub, lb)) := nb in
        if String.eqb s "Z" then forall i j, i < dimG -> j < dimG -> in_bounds (gZ a i j) ub lb
        else if String.eqb s "x" then forall i j, i < nn -> j < 1 -> in_bounds (gx a i) ub lb
        else if String.eqb s "X" then forall i j, i < nn -> j < nn -> in_bounds (gX a i j) ub lb
        else match dget vname_eqb (VStr s) (nm_idx nm) with
             | Some i => in_bounds (gx a i) ub lb
             | None => if String.eqb s "lamb" then forall i, i < nI + nE -> in_bounds (gx a (nv + i)) ub lb else True
             end)). intros [s [ub lb]] _. unfold cvx_bound. cbn [dget].
      destruct (String.eqb s "Z"); [apply (emits_bound_block rN _ _ _ _ _ _ RZ)|].
      destruct (String.eqb s "x"); [apply (emits_bound_block rN _ _ _ _ _ _ Rx)|].
      destruct (String.eqb s "X"); [apply (emits_bound_block rN _ _ _ _ _ _ RX)|].
      destruct (dget vname_eqb (VStr s) (nm_idx nm)) as [i|] eqn:Ei.
      + eapply emits_lift; [apply rx_entry; exact Ei|]. eapply emits_ext; [apply emits_bound_list; constructor; [cbn [ids_lt]; apply rx_lt, (rget_lt _ _ Ei)|constructor]|].
        intros a. split; [intros H; apply (H _ (or_introl eq_refl))|intros H e [<-|[]]; exact H].
      + destruct (String.eqb s "lamb"); [|apply emits_ret].
        destruct (xis_mul rN _ _ _ _ _ _ _ (xis_num rN _ _ _ _ HI) Rx) as (A & EA & XA). eapply emits_lift; [exact EA|].
        eapply emits_ext; [apply (emits_bound_block rN _ _ _ _ _ _ XA)|]. intros a.
        assert (E : forall i, i < nI + nE -> rsum nn (fun l => ((if Nat.eqb l (nv + i) then 1 else 0) * gx a l)%R) = gx a (nv + i)).
        { intros i Hi. apply (rsum_ind nn (nv + i) (fun l => gx a l)). lia. }
        split; [intros H i Hi; specialize (H i 0 Hi Nat.lt_0_1); cbv beta in H; rewrite (E i Hi) in H; exact H|intros H i j Hi Hj; cbv beta; rewrite (E i Hi); auto].
    - intros a. unfold relax_bounds. rewrite Nat.add_assoc. split.
      + intros H s ub lb Hin. specialize (H _ Hin). cbv beta iota zeta in *. destruct (String.eqb s "Z"); [exact H|]. destruct (String.eqb s "x"); [intros i Hi; apply (H i 0 Hi Nat.lt_0_1)|]. exact H.
      + intros H [s [ub lb]] Hin. specialize (H _ _ _ Hin). cbv beta iota zeta in *. destruct (String.eqb s "Z"); [exact H|]. destruct (String.eqb s "x"); [intros i j Hi Hj; apply (H i Hi)|]. exact H.
  Qed.

  Lemma rselections : 1 <= nI + nE -> exists Iv Il Ila,
    get_vec_matrix (xm_var rvx) (0, nv - 1) = Ok Iv /\ rsel Iv nv 0 /\
    get_vec_matrix (xm_var rvx) (nv, nv + nI + nE - 1) = Ok Il /\ rsel Il (nI + nE) nv /\
    get_vec_matrix (xm_var rvx) (nv, nv + nI - 1) = Ok Ila /\ rsel Ila nI nv.
  Proof using Hhd.
    intros Hnd. pose proof rnv as Hp.
    destruct (selection_value nv 0 nn ltac:(lia)) as (Iv & E1 & C1).
    destruct (selection_value (nI + nE) nv nn ltac:(lia)) as (Il & E2 & C2).
    destruct (selection_value nI nv nn ltac:(lia)) as (Ila & E3 & C3).
    exists Iv, Il, Ila. unfold get_vec_matrix. cbn [fst snd xm_var xm_rows rvx cv_rows].
    replace (nv - 1 + 1 - 0) with nv by lia. replace (nv + nI + nE - 1 + 1 - nv) with (nI + nE) by lia. replace (nv + nI - 1 + 1 - nv) with nI by lia.
    repeat split; try assumption; try apply C1; try apply C2; try apply C3.
  Qed.
  Lemma rla Ila : rsel Ila nI nv -> exists A, xm_mul (xm_num Ila) (xm_var rvx) = Ok A /\
    emits rN (subject_ge A 0) (fun a => forall i, i < nI -> (0 <= gx a (nv + i))%R).
  Proof using Type.
    intros HI. destruct (xis_mul rN _ _ _ _ _ _ _ (xis_num rN _ _ _ _ HI) Rx) as (A & EA & XA). exists A. split; [exact EA|].
    eapply emits_ext; [eapply emits_ge; exact XA|]. intros a.
    assert (E : forall i, i < nI -> rsum nn (fun l => ((if Nat.eqb l (nv + i) then 1 else 0) * gx a l)%R) = gx a (nv + i)).
    { intros i Hi. apply (rsum_ind nn (nv + i) (fun l => gx a l)). lia. }
    rewrite Q2R_0'. split; [intros H i Hi; specialize (H i 0 Hi Nat.lt_0_1); cbv beta in H; rewrite (E i Hi) in H; exact H|intros H i j Hi Hj; cbv beta; rewrite (E i Hi); auto].
  Qed.

  (** the whole problem, before the objective *)
  Variables Fs Gs : list cmatrix.
  Hypothesis HFs : Forall (shaped dimF nv) Fs.
  Hypothesis HGs : Forall (shaped (dimG * dimG) nv) Gs.
  Hypothesis LF : List.length Fs = S (nI + nE).
  Hypothesis LG : List.length Gs = S (nI + nE).
  Hypothesis Hcl : forall s, In (VStr s) (nm_list nm) -> List.length (split_us s) <> 1 ->
    In (VStr (last (split_us s) ""%string)) (nm_list nm) /\ In (VStr (join_us (removelast (split_us s)))) (nm_list nm).

  (** [needs]: names the builder looks up *)
  Definition needs : list string := ["eta"; "h"; "rho"; "alpha"; "beta"]%string.

  Definition relax_head (b : option bounds) : OM unit :=
    let x := xm_var rvx in let W := xm_var rvW in let X := xm_var rvX in let Z := xm_var rvZ in
    let n := nn in
    ado _ <- same_block (sub_block 0 n 0 (Nat.min 1 n) X) x;
    ado _ <- same_block (sub_block 0 (Nat.min 1 n) 0 n X) (xm_T x);
    ado eta <- olift (x_entry x nm "eta");
    ado _ <- subject_to (CGe eta (CNum micro));
    ado h <- olift (x_entry x nm "h");
    ado _ <- subject_to (CGe h (CNum micro));
    ado rho <- olift (x_entry x nm "rho");
    ado _ <- subject_to (CGe rho (CNum 0));
    ado _ <- same_block (sub_block 0 n 0 n W) X;
    ado _ <- same_block (sub_block n (n + 1) 0 n W) (xm_T x);
    ado _ <- same_block (sub_block 0 n n (n + 1) W) x;
    ado _ <- subject_to (CEq (xm_at W n n) (CNum 1));
    ado _ <- implied W;
    ado _ <- implied X;
    ado alpha <- olift (x_entry x nm "alpha");
    ado _ <- subject_to (CGe alpha (CNum (-1)));
    ado _ <- subject_to (CGe (CNum 1) alpha);
    ado beta <- olift (x_entry x nm "beta");
    ado _ <- subject_to (CGe beta (CNum (-1)));
    ado _ <- subject_to (CGe (CNum 1) beta);
    ado _ <- (if Nat.ltb 0 n then subject_to (CEq (xm_at x 0 0) (CNum 1)) else oraise IndexError);
    ado Iv <- olift (get_vec_matrix x (0, nv - 1));
    ado Il <- olift (get_vec_matrix x (nv, nv + nI + nE - 1));
    ado _ <- cvx_add_bounds b [("Z", Z); ("x", x); ("X", X)]%string nm x Il;
    ado F <- olift (padded Fs dimF nv (cm_rows Il));
    ado _ <- oiter (relax_F_con (fst F) (snd F) Iv Il x X) (seq 0 dimF);
    ado G <- olift (padded Gs (dimG * dimG) nv (cm_rows Il));
    ado _ <- oiter (relax_G_con (fst G) (snd G) Iv x X Z dimG) (grid dimG dimG);
    ado _ <- oiter (monomial_con (relax_quad X) (relax_lin x) n nm) (tl (nm_list nm));
    ado Ila <- olift (get_vec_matrix x (nv, nv + nI - 1));
    ado la <- olift (xm_mul (xm_num Ila) x);
    subject_ge la 0.

  Lemma emits_entry s i f (C : R -> Prop) : dget vname_eqb (VStr s) (nm_idx nm) = Some i ->
    (forall e, ids_lt rN e -> con_lt rN (f e)) -> (forall a e, holds a (f e) <-> C (ceval a e)) ->
    emits rN (subject_to (f (CVar (cv_at rvx i 0)))) (fun a => C (at_name nm (gx a) s)).
  Proof using Hnm.
    intros Hi Hl Hc. eapply emits_ext; [apply emits_to, Hl; cbn [ids_lt]; apply rx_lt, (rget_lt _ _ Hi)|]. intros a. rewrite Hc, (rat_name a s i Hi). easy.
  Qed.

  Theorem relax_head_emits b : 1 <= nI + nE -> (forall s, In s needs -> In (VStr s) (nm_list nm)) ->
    emits rN (relax_head b) (fun a => relax_point nm Fs Gs nI nE dimF dimG (gx a) (gW a) (gX a) (gZ a) /\ relax_bounds b nm (nI + nE) dimG (gx a) (gX a) (gZ a)).
  Proof using Hnm Hhd HFs HGs LF LG Hcl.
    intros Hnd Hneed. pose proof rnv as Hp. unfold relax_head. cbv zeta.
    destruct (rname_in "eta" (Hneed "eta"%string ltac:(simpl; auto))) as (ie & Ee & Le).
    destruct (rname_in "h" (Hneed "h"%string ltac:(simpl; auto))) as (ih & Eh & Lh).
    destruct (rname_in "rho" (Hneed "rho"%string ltac:(simpl; auto))) as (ir & Er & Lr).
    destruct (rname_in "alpha" (Hneed "alpha"%string ltac:(simpl; auto))) as (ia & Ea & La).
    destruct (rname_in "beta" (Hneed "beta"%string ltac:(simpl; tauto))) as (ib & Eb & Lb).
    destruct (rselections Hnd) as (Iv & Il & Ila & G1 & S1 & G2 & S2 & G3 & S3).
    destruct (rla Ila S3) as (LA & ELA & MLA).
    destruct (padded_ok Fs dimF nv (nI + nE) HFs LF Hnd) as (objF & TF & EF & CF & TF1 & TF2 & TF3 & SF).
    destruct (padded_ok Gs (dimG * dimG) nv (nI + nE) HGs LG Hnd) as (objG & TG & EG & CG & TG1 & TG2 & TG3 & SG).
    assert (RI : cm_rows Il = nI + nE) by apply S2. assert (RIv : cm_rows Iv = nv) by apply S1.
    assert (En1 : Nat.min 1 nn = 1) by lia. rewrite En1.
    assert (B1 : xis rN (sub_block 0 nn 0 1 (xm_var rvX)) nn 1 (fun a i j => gX a i j)).
    { assert (Q := xis_block rN _ _ _ _ 0 nn 0 1 RX ltac:(lia) ltac:(lia)). rewrite ?(Nat.sub_0_r nn) in Q. exact Q. }
    assert (B2 : xis rN (sub_block 0 1 0 nn (xm_var rvX)) 1 nn (fun a i j => gX a i j)).
    { assert (Q := xis_block rN _ _ _ _ 0 1 0 nn RX ltac:(lia) ltac:(lia)). rewrite (Nat.sub_0_r nn) in Q. exact Q. }
    assert (B3 : xis rN (sub_block 0 nn 0 nn (xm_var rvW)) nn nn (fun a i j => gW a i j)).
    { assert (Q := xis_block rN _ _ _ _ 0 nn 0 nn RW ltac:(lia) ltac:(lia)). rewrite ?(Nat.sub_0_r nn) in Q. exact Q. }
    assert (B4 : xis rN (sub_block nn (nn + 1) 0 nn (xm_var rvW)) 1 nn (fun a i j => gW a (nn + i) j)).
    { assert (Q := xis_block rN _ _ _ _ nn (nn + 1) 0 nn RW ltac:(lia) ltac:(lia)). rewrite ?(Nat.sub_0_r nn) in Q. replace (nn + 1 - nn) with 1 in Q by lia. exact Q. }
    assert (B5 : xis rN (sub_block 0 nn nn (nn + 1) (xm_var rvW)) nn 1 (fun a i j => gW a i (nn + j))).
    { assert (Q := xis_block rN _ _ _ _ 0 nn nn (nn + 1) RW ltac:(lia) ltac:(lia)). rewrite ?(Nat.sub_0_r nn) in Q. replace (nn + 1 - nn) with 1 in Q by lia. exact Q. }
    assert (EFc : emits rN (oiter (relax_F_con objF TF Iv Il (xm_var rvx) (xm_var rvX)) (seq 0 dimF))
       (fun a => forall k, k < dimF -> row_eq (coef (last Fs dummy_cm) k) (fun i j => coef (nth i Fs dummy_cm) k j) 0%R a)).
    { eapply emits_ext; [apply (emits_iter rN _ (fun k a => row_eq (coef (last Fs dummy_cm) k) (fun i j => coef (nth i Fs dummy_cm) k j) 0%R a))|].
      - intros k Hk. apply in_seq in Hk. unfold relax_F_con. rewrite (proj1 (proj2 CF)), RIv, RI, TF1, TF3, !Nat.eqb_refl. cbn [andb].
        apply (emits_row objF TF Iv (coef (last Fs dummy_cm)) _ k _ (fun _ => 0%R) dimF S1 CF); [lia|apply SF; lia|].
        split; [easy|]. split; [easy|]. split; [easy|]. intros; apply Q2R_0'.
      - intros a. split; intros H k Hk; apply H; [apply in_seq|apply in_seq in Hk]; lia. }
    assert (EGc : emits rN (oiter (relax_G_con objG TG Iv (xm_var rvx) (xm_var rvX) (xm_var rvZ) dimG) (grid dimG dimG))
       (fun a => forall k1 k2, k1 < dimG -> k2 < dimG -> row_eq (coef (last Gs dummy_cm) (k1 * dimG + k2)) (fun i j => coef (nth i Gs dummy_cm) (k1 * dimG + k2) j) (gZ a k1 k2) a)).
    { eapply emits_ext; [apply (emits_iter rN _ (fun ij a => row_eq (coef (last Gs dummy_cm) (fst ij * dimG + snd ij)) (fun i j => coef (nth i Gs dummy_cm) (fst ij * dimG + snd ij) j) (gZ a (fst ij) (snd ij)) a))|].
      - intros [k1 k2] Hk. apply grid_in in Hk as [H1 H2]. unfold relax_G_con. cbn [fst snd].
        apply (emits_row objG TG Iv (coef (last Gs dummy_cm)) _ (k1 * dimG + k2) _ (fun a => gZ a k1 k2) (dimG * dimG) S1 CG); [nia|apply SG; nia|].
        destruct RZ as (Z1 & Z2 & Z3 & Z4). split; [easy|]. split; [easy|]. split; [intros; apply Z3; assumption|intros; apply Z4; assumption].
      - intros a. split; [intros H k1 k2 H1 H2; apply (H (k1, k2)), grid_in; easy|intros H [k1 k2] Hk; apply grid_in in Hk as [H1 H2]; apply H; assumption]. }
    assert (EMc : emits rN (oiter (monomial_con (relax_quad (xm_var rvX)) (relax_lin (xm_var rvx)) nn nm) (tl (nm_list nm)))
       (fun a => forall n, In n (tl (nm_list nm)) -> rmono_eq (gx a) (gX a) n)).
    { apply (emits_iter rN _ (fun n a => rmono_eq (gx a) (gX a) n)). intros n Hn. destruct Hhd as [l El]. rewrite El in Hn. cbn [tl] in Hn.
      apply in_map_iff in Hn as (s & <- & Hs). assert (HI : In (VStr s) (nm_list nm)) by (rewrite El; right; apply in_map, Hs).
      apply emits_rmono; [exact HI|]. apply Hcl, HI. }
    eapply emits_ext.
    { apply emits_seq; [eapply emits_same; [exact B1|exact Rx]|].
      apply emits_seq; [eapply emits_same; [exact B2|exact (xis_T rN _ _ _ _ Rx)]|].
      eapply emits_lift; [exact (rx_entry "eta" ie Ee)|].
      apply emits_seq; [apply (emits_entry "eta" ie (fun e => CGe e (CNum micro)) (fun v => (Q2R micro <= v)%R) Ee); [intros e He; split; [exact He|exact Logic.I]|intros a e; simpl; split; intros; lra]|].
      eapply emits_lift; [exact (rx_entry "h" ih Eh)|].
      apply emits_seq; [apply (emits_entry "h" ih (fun e => CGe e (CNum micro)) (fun v => (Q2R micro <= v)%R) Eh); [intros e He; split; [exact He|exact Logic.I]|intros a e; simpl; split; intros; lra]|].
      eapply emits_lift; [exact (rx_entry "rho" ir Er)|].
      apply emits_seq; [apply (emits_entry "rho" ir (fun e => CGe e (CNum 0)) (fun v => (0 <= v)%R) Er); [intros e He; split; [exact He|exact Logic.I]|intros a e; cbn [holds ceval]; rewrite Q2R_0'; split; intros; lra]|].
      apply emits_seq; [eapply emits_same; [exact B3|exact RX]|].
      apply emits_seq; [eapply emits_same; [exact B4|exact (xis_T rN _ _ _ _ Rx)]|].
      apply emits_seq; [eapply emits_same; [exact B5|exact Rx]|].
      apply emits_seq; [apply emits_to; split; [apply RW; lia|exact Logic.I]|].
      apply emits_seq; [apply emits_implied; exact RW|].
      apply emits_seq; [apply emits_implied; exact RX|].
      eapply emits_lift; [exact (rx_entry "alpha" ia Ea)|].
      apply emits_seq; [apply (emits_entry "alpha" ia (fun e => CGe e (CNum (-1))) (fun v => (-1 <= v)%R) Ea); [intros e He; split; [exact He|exact Logic.I]|intros a e; cbn [holds ceval]; replace (Q2R (-1)) with (-1)%R by (unfold Q2R; simpl; lra); split; intros; lra]|].
      apply emits_seq; [apply (emits_entry "alpha" ia (fun e => CGe (CNum 1) e) (fun v => (v <= 1)%R) Ea); [intros e He; split; [exact Logic.I|exact He]|intros a e; cbn [holds ceval]; rewrite Q2R_1'; split; intros; lra]|].
      eapply emits_lift; [exact (rx_entry "beta" ib Eb)|].
      apply emits_seq; [apply (emits_entry "beta" ib (fun e => CGe e (CNum (-1))) (fun v => (-1 <= v)%R) Eb); [intros e He; split; [exact He|exact Logic.I]|intros a e; cbn [holds ceval]; replace (Q2R (-1)) with (-1)%R by (unfold Q2R; simpl; lra); split; intros; lra]|].
      apply emits_seq; [apply (emits_entry "beta" ib (fun e => CGe (CNum 1) e) (fun v => (v <= 1)%R) Eb); [intros e He; split; [exact Logic.I|exact He]|intros a e; cbn [holds ceval]; rewrite Q2R_1'; split; intros; lra]|].
      apply emits_seq; [destruct (Nat.ltb_spec 0 nn); [|lia]; apply emits_to; split; [apply Rx; lia|exact Logic.I]|].
      eapply emits_lift; [exact G1|]. eapply emits_lift; [exact G2|].
      apply emits_seq; [apply emits_rbounds; exact S2|]. rewrite RI.
      eapply emits_lift; [exact EF|]. cbn [fst snd]. apply emits_seq; [exact EFc|].
      eapply emits_lift; [exact EG|]. cbn [fst snd]. apply emits_seq; [exact EGc|].
      apply emits_seq; [exact EMc|]. eapply emits_lift; [exact G3|]. eapply emits_lift; [exact ELA|]. exact MLA. }
    intros a. cbn [holds].
    assert (EW : ceval a (xm_at (xm_var rvW) nn nn) = gW a nn nn) by (apply RW; lia).
    assert (Ex : ceval a (xm_at (xm_var rvx) 0 0) = gx a 0) by (apply Rx; lia).
    rewrite EW, Ex. cbn [ceval]. rewrite Q2R_1', rmono_equiv. unfold row_eq. split.
    - intros (H1 & H2 & H3 & H4 & H5 & H6 & H7 & H8 & H9 & H10 & H11 & H12 & H13 & H14 & H15 & H16 & H17 & H18 & H19 & H20 & H21).
      split; [|exact H17]. constructor.
      + exact H16.
      + intros i Hi. split; [apply (H1 i 0 Hi Nat.lt_0_1)|apply (H2 0 i Nat.lt_0_1 Hi)].
      + exact H6.
      + split; [|exact H9]. intros i Hi. split; [assert (Q := H7 0 i Nat.lt_0_1 Hi); cbv beta in Q; rewrite Nat.add_0_r in Q; exact Q|assert (Q := H8 i 0 Hi Nat.lt_0_1); cbv beta in Q; rewrite Nat.add_0_r in Q; exact Q].
      + exact H10.
      + exact H11.
      + split; [exact H3|]. split; [exact H4|]. split; [exact H5|]. split; split; assumption.
      + intros k Hk. cbv zeta. rewrite <- (H18 k Hk). lra.
      + exact H19.
      + exact H20.
      + exact H21.
    - intros ([P1 P2 P3 P4 P5 P6 P7 P8 P9 P10 P11] & HB). destruct P7 as (Q1 & Q2 & Q3 & [Q4 Q5] & [Q6 Q7]). destruct P4 as [P4 P4'].
      split; [intros i j Hi Hj; replace j with 0 by lia; apply (P2 i Hi)|].
      split; [intros i j Hi Hj; replace i with 0 by lia; apply (P2 j Hj)|].
      split; [exact Q1|]. split; [exact Q2|]. split; [exact Q3|]. split; [exact P3|].
      split; [intros i j Hi Hj; replace i with 0 by lia; rewrite Nat.add_0_r; apply (P4 j Hj)|].
      split; [intros i j Hi Hj; replace j with 0 by lia; rewrite Nat.add_0_r; apply (P4 i Hi)|].
      split; [exact P4'|]. split; [exact P5|]. split; [exact P6|]. split; [exact Q4|]. split; [exact Q5|]. split; [exact Q6|]. split; [exact Q7|].
      split; [exact P1|]. split; [exact HB|]. split; [intros k Hk; rewrite (P8 k Hk); lra|]. split; [exact P9|]. split; [exact P10|exact P11].
  Qed.
End Relax.

Lemma obind_assoc {A B C} (m : OM A) (f : A -> OM B) (k : B -> OM C) o : obind (obind m f) k o = obind m (fun x => obind (f x) k) o.
Proof. unfold obind. destruct (m o) as [[x o1]|]; easy. Qed.
Lemma obind_cong {A B} (m : OM A) (k k' : A -> OM B) o : (forall x o1, k x o1 = k' x o1) -> obind m k o = obind m k' o.
Proof. intros H. unfold obind. destruct (m o) as [[x o1]|]; [apply H|easy]. Qed.

Section RelaxMain.
  Context {SY : sympy} (OK : sympy_ok SY).

  Definition relax_fin (p : problem) (vb : option string) (nm : names) (v : cavar) (l : list cavar) : OM (cavar * list cavar * cexpr) :=
    match vb with
    | Some _ => oraise KeyError
    | None => match pr_obj p with
              | None => oraise AttributeError
              | Some e => ado c <- sympy_expression_to_cvx SY (xm_var v) nm e; oret (v, l, CSub (CNum 0) c)
              end
    end.
  Definition relax_off (vb : option string) : nat := match vb with None => 0 | Some _ => 0 + 4 * 1 end.
  Lemma relax_build_split p b vb dimF dimG sr Fs Gs nm : last_is_obj sr = true ->
    let off := relax_off vb in let nI := sr_I sr in let nE := sr_E sr in
    relax_build SY p b vb dimF dimG (sr, Fs, Gs, nm) opti0 =
    obind (relax_head nm nI nE dimF dimG off Fs Gs b)
      (fun _ => relax_fin p vb nm (rvx nm nI nE off) [rvW nm nI nE off; rvX nm nI nE off; rvZ nm nI nE dimG off]) (mkOpti (rN nm nI nE dimG off) [] []).
  Proof using Type.
    intros Hl. cbv zeta. unfold relax_build.
    assert (E0 : forall A (k : unit -> OM A), obind match vb with None => oret tt | Some _ => ado _ <- opti_variable 4 1; oret tt end k opti0 = k tt (mkOpti (relax_off vb) [] []))
      by (intros; destruct vb; easy).
    rewrite E0. clear E0. set (off := relax_off vb). unfold obind at 1. cbn [opti_variable]. cbv beta iota zeta.
    unfold obind at 1. unfold obind at 1. unfold obind at 1. cbn [opti_variable op_next op_cons op_vars]. cbv beta iota zeta. unfold opti_variable. cbn [op_next op_cons op_vars].
    fold (rN nm (sr_I sr) (sr_E sr) dimG off). fold (rvx nm (sr_I sr) (sr_E sr) off). fold (rvW nm (sr_I sr) (sr_E sr) off). fold (rvX nm (sr_I sr) (sr_E sr) off). fold (rvZ nm (sr_I sr) (sr_E sr) dimG off).
    generalize (mkOpti (rN nm (sr_I sr) (sr_E sr) dimG off) [] []). intros o. unfold relax_head. cbv zeta.
    do 21 (rewrite obind_assoc; apply obind_cong; intros; clear o; rename o1 into o).
    rewrite Hl.
    repeat (rewrite obind_assoc; apply obind_cong; intros; clear o; rename o1 into o).
    apply obind_cong. intros. unfold relax_fin. easy.
  Qed.

  (** ** the translated objective *)
  Lemma cvx_terms_val x nm gens l : forall acc o c o', casadi_terms (cvx_monomial x nm) gens l acc o = Ok (c, o') -> o' = o /\
    forall a r, (forall n e, x_entry x nm n = Ok e -> ceval a e = long r n) ->
      ceval a c = (ceval a acc + lsum (fun t => Q2R (snd t) * mono_val (long r) gens (fst t))%R l)%R.
  Proof using Type.
    induction l as [|[ex q] l IH]; intros acc o c o' H; simpl in H.
    - injection H as <- <-. split; [easy|]. intros; simpl; lra.
    - apply obind_ok in H as (m & o1 & Hm & H).
      assert (M : o1 = o /\ forall a r, (forall n e, x_entry x nm n = Ok e -> ceval a e = long r n) -> ceval a m = mono_val (long r) gens ex).
      { unfold cvx_monomial in Hm. assert (Nu := mono_vars_nous gens ex). assert (Pr := fun r => mono_vars_prod r split_us gens ex). destruct (mono_vars split_us gens ex) as [|v vs] eqn:E.
        - injection Hm as <- <-. split; [easy|]. intros a r _. simpl. rewrite Q2R_1'. exact (Pr r).
        - apply olift_ok in Hm as [Hm ->]. split; [easy|]. intros a r Hr. rewrite (Hr _ _ Hm). etransitivity; [|exact (Pr r)]. unfold long.
          assert (P := ssort_perm (v :: vs)). rewrite split_join.
          + apply prod_perm. apply Permutation_sym. exact P.
          + intros Q. rewrite Q in P. apply Permutation_sym, Permutation_nil in P. discriminate.
          + unfold nous in *. rewrite Forall_forall in *. intros z Hz. apply Nu. apply (Permutation_in _ (Permutation_sym P) Hz). }
      destruct M as [-> M]. apply IH in H as [-> H]. split; [easy|]. intros a r Hr. rewrite (H a r Hr). cbn [ceval fst snd]. rewrite (M a r Hr). simpl. lra.
  Qed.
  Lemma cvx_expr_val x nm e o c o' : sympy_expression_to_cvx SY x nm e o = Ok (c, o') -> o' = o /\
    forall a r, (forall n t, x_entry x nm n = Ok t -> ceval a t = long r n) -> ceval a c = ev (long r) e.
  Proof using OK.
    unfold sympy_expression_to_cvx, casadi_expr. destruct (numeric SY e) eqn:N.
    - destruct (numeric_float OK _ N) as [q [Hq Hv]]. rewrite Hq. intros [= <- <-]. split; [easy|]. intros a r _. simpl. rewrite Hv. easy.
    - intros H. apply cvx_terms_val in H as [-> H]. split; [easy|]. intros a r Hr. rewrite (H a r Hr). cbn [ceval]. rewrite Q2R_0'.
      fold (poly_val (long r) (poly SY (simp SY e))). rewrite (poly_ev _ OK), (simp_ev _ OK). lra.
  Qed.

  (** ** packing blocks into one assignment *)
  Section Pack.
    Variables (nn dimG off : nat).
    Variables (x : nat -> R) (W X Z : nat -> nat -> R).
    Definition packed (k : nat) : R :=
      if Nat.ltb k (off + nn * 1) then x (k - off) else
      if Nat.ltb k (off + nn * 1 + (nn + 1) * (nn + 1)) then W (Nat.div (k - (off + nn * 1)) (nn + 1)) (Nat.modulo (k - (off + nn * 1)) (nn + 1)) else
      if Nat.ltb k (off + nn * 1 + (nn + 1) * (nn + 1) + nn * nn) then X (Nat.div (k - (off + nn * 1 + (nn + 1) * (nn + 1))) nn) (Nat.modulo (k - (off + nn * 1 + (nn + 1) * (nn + 1))) nn) else
      Z (Nat.div (k - (off + nn * 1 + (nn + 1) * (nn + 1) + nn * nn)) dimG) (Nat.modulo (k - (off + nn * 1 + (nn + 1) * (nn + 1) + nn * nn)) dimG).
    Lemma unflat i j c base : j < c -> Nat.div (base + i * c + j - base) c = i /\ Nat.modulo (base + i * c + j - base) c = j.
    Proof using Type.
      intros H. replace (base + i * c + j - base) with (j + i * c) by lia. rewrite Nat.div_add, Nat.mod_add by lia. rewrite Nat.div_small, Nat.mod_small by exact H. easy.
    Qed.
    Lemma packed_x i : i < nn -> packed (off + i * 1 + 0) = x i.
    Proof using Type. intros H. unfold packed. destruct (Nat.ltb_spec (off + i * 1 + 0) (off + nn * 1)); [|lia]. f_equal. lia. Qed.
    Lemma packed_W i j : i < nn + 1 -> j < nn + 1 -> packed (off + nn * 1 + i * (nn + 1) + j) = W i j.
    Proof using Type.
      intros Hi Hj. unfold packed. destruct (Nat.ltb_spec (off + nn * 1 + i * (nn + 1) + j) (off + nn * 1)); [lia|].
      destruct (Nat.ltb_spec (off + nn * 1 + i * (nn + 1) + j) (off + nn * 1 + (nn + 1) * (nn + 1))); [|nia].
      destruct (unflat i j (nn + 1) (off + nn * 1) Hj) as [-> ->]. easy.
    Qed.
    Lemma packed_X i j : i < nn -> j < nn -> packed (off + nn * 1 + (nn + 1) * (nn + 1) + i * nn + j) = X i j.
    Proof using Type.
      intros Hi Hj. unfold packed. set (B := off + nn * 1 + (nn + 1) * (nn + 1)). destruct (Nat.ltb_spec (B + i * nn + j) (off + nn * 1)); [unfold B in *; lia|].
      destruct (Nat.ltb_spec (B + i * nn + j) B); [lia|]. destruct (Nat.ltb_spec (B + i * nn + j) (B + nn * nn)); [|nia].
      destruct (unflat i j nn B Hj) as [-> ->]. easy.
    Qed.
    Lemma packed_Z i j : i < dimG -> j < dimG -> packed (off + nn * 1 + (nn + 1) * (nn + 1) + nn * nn + i * dimG + j) = Z i j.
    Proof using Type.
      intros Hi Hj. unfold packed. set (B := off + nn * 1 + (nn + 1) * (nn + 1)). destruct (Nat.ltb_spec (B + nn * nn + i * dimG + j) (off + nn * 1)); [unfold B in *; lia|].
      destruct (Nat.ltb_spec (B + nn * nn + i * dimG + j) B); [lia|]. destruct (Nat.ltb_spec (B + nn * nn + i * dimG + j) (B + nn * nn)); [lia|].
      destruct (unflat i j dimG (B + nn * nn) Hj) as [-> ->]. easy.
    Qed.
  End Pack.

  Lemma psd_ext n A B : (forall i j, i < n -> j < n -> A i j = B i j) -> psd n A -> psd n B.
  Proof using Type.
    intros E [H1 H2]. split.
    - intros i j Hi Hj. rewrite <- !E by assumption. apply H1; assumption.
    - intros x. eapply Rle_trans; [apply (H2 x)|]. right. apply rsum_ext. intros i Hi. apply rsum_ext. intros j Hj. rewrite E by assumption. easy.
  Qed.
  Lemma psd_rank1 n (x : nat -> R) : psd n (fun i j => x i * x j)%R.
  Proof using Type. eapply psd_ext; [|apply (ppt_psd n 1 (fun i _ => x i))]. intros i j _ _. simpl. lra. Qed.
  Lemma minor_rank1 n (x : nat -> R) : minor_ineqs n (fun i j => x i * x j)%R.
  Proof using Type.
    split; [intros; apply Rle_0_sqr|]. intros i j _ _. assert (Q1 := Rle_0_sqr (x i - x j)). assert (Q2 := Rle_0_sqr (x i + x j)). unfold Rsqr in *. split; lra.
  Qed.
  Lemma minor_ext n A B : (forall i j, i < n -> j < n -> A i j = B i j) -> minor_ineqs n A -> minor_ineqs n B.
  Proof using Type. intros E [H1 H2]. split; [intros i Hi; rewrite <- E by assumption; auto|]. intros i j Hi Hj. rewrite <- !E by assumption. auto. Qed.

  Section Prog.
    Variables (p : problem) (b : option bounds) (s s' : state).
    Hypothesis I : Inv s.
    Hypothesis Nd : NoDup (pr_params p).
    Hypothesis Hg : Forall good_param (pr_params p).
    Hypothesis Hd : declared p s.

    Lemma needs_nous x : In x needs -> has_char us x = false.
    Proof using Type. simpl. intros H. repeat (destruct H as [<-|H]; [reflexivity|]). destruct H. Qed.
    Lemma head_needs nm nI nE dimF dimG off Fs Gs o o' u : numbered nm -> (exists l, nm_list nm = VOne :: map VStr l) -> List.length Fs = S (nI + nE) ->
      relax_head nm nI nE dimF dimG off Fs Gs b o = Ok (u, o') -> 1 <= nI + nE /\ forall x, In x needs -> In (VStr x) (nm_list nm).
    Proof using Type.
      intros Hnm Hh LF H. unfold relax_head in H. cbv zeta in H.
      apply obind_ok in H as (? & ? & _ & H). apply obind_ok in H as (? & ? & _ & H).
      apply obind_ok in H as (? & ? & E1 & H). apply obind_ok in H as (? & ? & _ & H).
      apply obind_ok in H as (? & ? & E2 & H). apply obind_ok in H as (? & ? & _ & H).
      apply obind_ok in H as (? & ? & E3 & H). do 7 apply obind_ok in H as (? & ? & _ & H).
      apply obind_ok in H as (? & ? & E4 & H). do 2 apply obind_ok in H as (? & ? & _ & H).
      apply obind_ok in H as (? & ? & E5 & H). do 3 apply obind_ok in H as (? & ? & _ & H).
      apply obind_ok in H as (? & ? & _ & H). apply obind_ok in H as (Il & ? & E6 & H). apply obind_ok in H as (? & ? & _ & H).
      apply obind_ok in H as (? & ? & E7 & _).
      apply olift_ok in E1 as [E1 _], E2 as [E2 _], E3 as [E3 _], E4 as [E4 _], E5 as [E5 _], E6 as [E6 _], E7 as [E7 _].
      split.
      - unfold get_vec_matrix in E6. cbn [fst snd xm_var rvx xm_rows cv_rows] in E6. unfold selection_matrix in E6.
        destruct (Nat.leb _ _); [|discriminate]. injection E6 as <-. cbn [cm_rows] in E7.
        assert (Hp := rnv nm Hh). replace (Datatypes.length (nm_list nm) + nI + nE - 1 + 1 - Datatypes.length (nm_list nm)) with (nI + nE) in E7 by lia.
        eapply padded_pos; [exact LF|]. eauto.
      - simpl. intros z Hz. repeat (destruct Hz as [<-|Hz]; [eapply x_entry_in; eassumption|]). destruct Hz.
    Qed.

    Lemma relax_prog vb inp :
      sdp_inputs SY p s = (Ok inp, s') -> let '(sr, Fs, Gs, nm) := inp in
      exists W wm, symbolic SY p s = (Ok sr, s') /\ table_facts p s sr W wm /\ good_coeffs (pr_params p) (st_ectr s) (st_pctr s) (sr_exp sr) Fs Gs nm /\
      (((1 <= sr_I sr + sr_E sr /\ forall x, In x needs -> In x (pr_params p)) /\ exists cs,
        relax_build SY p b vb (st_ectr s) (st_pctr s) inp opti0 =
          relax_fin p vb nm (rvx nm (sr_I sr) (sr_E sr) (relax_off vb)) [rvW nm (sr_I sr) (sr_E sr) (relax_off vb); rvX nm (sr_I sr) (sr_E sr) (relax_off vb); rvZ nm (sr_I sr) (sr_E sr) (st_pctr s) (relax_off vb)]
            (mkOpti (rN nm (sr_I sr) (sr_E sr) (st_pctr s) (relax_off vb)) cs []) /\
        forall a, let o := relax_off vb in let nI := sr_I sr in let nE := sr_E sr in let dG := st_pctr s in
          Forall (holds a) cs <-> relax_point nm Fs Gs nI nE (st_ectr s) dG (gx nm nI nE o a) (gW nm nI nE o a) (gX nm nI nE o a) (gZ nm nI nE dG o a) /\
            relax_bounds b nm (nI + nE) dG (gx nm nI nE o a) (gX nm nI nE o a) (gZ nm nI nE dG o a)) \/
       (~ (1 <= sr_I sr + sr_E sr /\ forall x, In x needs -> In x (pr_params p)) /\ forall r, relax_build SY p b vb (st_ectr s) (st_pctr s) inp opti0 <> Ok r)).
    Proof using OK I Nd Hg Hd.
      destruct inp as [[[sr Fs] Gs] nm]. intros Hi.
      destruct (inputs_facts OK p s s' sr Fs Gs nm I Nd Hg Hd Hi) as (Es & _ & W & wm & T & C). exists W, wm. split; [exact Es|]. split; [exact T|]. split; [exact C|].
      assert (C0 := C). destruct C0 as (HNm & SF & SG & LF & LG & _). rewrite (len_W p s sr W wm T) in LF, LG.
      assert (Ho := obj_last p s sr W wm T). assert (Sm := params_nous p Hg).
      assert (Hone : forall x, has_char us x = false -> In (VStr x) (nm_list nm) -> In x (pr_params p)).
      { intros x Hx Hin. destruct (nf_cases _ _ HNm x Hin) as [Q|(pre & y & E & Hp & _)]; [exact Q|]. rewrite (split_none us x Hx : split_us x = [x]) in E.
        destruct pre as [|? [|? ?]]; try easy. }
      rewrite (relax_build_split p b vb _ _ sr Fs Gs nm Ho). cbv zeta.
      assert (Dec : (1 <= sr_I sr + sr_E sr /\ forall x, In x needs -> In x (pr_params p)) \/ ~ (1 <= sr_I sr + sr_E sr /\ forall x, In x needs -> In x (pr_params p))).
      { destruct (le_dec 1 (sr_I sr + sr_E sr)) as [A|A]; [|right; tauto].
        assert (D : {Forall (fun x => In x (pr_params p)) needs} + {~ Forall (fun x => In x (pr_params p)) needs}) by (apply Forall_dec; intros; apply (in_dec string_dec)).
        destruct D as [D|D]; rewrite Forall_forall in D; tauto. }
      destruct Dec as [D|D]; [left|right]; (split; [exact D|]).
      - destruct D as [D1 D2].
        destruct (relax_head_emits nm (sr_I sr) (sr_E sr) (st_ectr s) (st_pctr s) (relax_off vb) (proj1 HNm) (nf_head _ _ HNm) Fs Gs SF SG LF LG (nf_closed _ _ HNm Sm) b D1
           (fun x Hx => nf_param _ _ HNm x (D2 x Hx)) (mkOpti (rN nm (sr_I sr) (sr_E sr) (st_pctr s) (relax_off vb)) [] [])) as (cs & E & _ & K).
        exists cs. split; [|intros a; apply K]. unfold obind. rewrite E. easy.
      - intros [r0 o0] H. apply obind_ok in H as (u & o1 & H & _). apply D.
        destruct (head_needs nm _ _ _ _ _ Fs Gs _ _ _ (proj1 HNm) (nf_head _ _ HNm) LF H) as [A B]. split; [exact A|]. intros x Hx. apply Hone; [apply needs_nous, Hx|apply B, Hx].
    Qed.

    (** *** with a name to bound *)
    Lemma relax_bound_fails v rl s1 : sdp_relax SY p b (Some v) s <> (Ok rl, s1).
    Proof using Type.
      unfold sdp_relax. destruct (sdp_inputs SY p s) as [[inp|] s2] eqn:Hi; [|discriminate].
      destruct (relax_build SY p b (Some v) (st_ectr s) (st_pctr s) inp opti0) as [[[[vx l] obj] o]|e] eqn:E; [|discriminate].
      exfalso. destruct inp as [[[sr Fs] Gs] nm]. destruct (last_is_obj sr) eqn:Hl.
      - rewrite relax_build_split in E by exact Hl. cbv zeta in E. apply obind_ok in E as (u & o1 & _ & E). discriminate E.
      - unfold relax_build in E. rewrite Hl in E. repeat apply obind_ok in E as (? & ? & _ & E). discriminate E.
    Qed.

    Lemma relax_bound_key v sr s1 : symbolic SY p s = (Ok sr, s1) -> 1 <= sr_I sr + sr_E sr -> (forall x, In x needs -> In x (pr_params p)) ->
      sdp_relax SY p b (Some v) s = (Err KeyError, s1).
    Proof using OK I Nd Hg Hd.
      intros Es H1 H2. destruct (assembled OK p s sr s1 I Es) as (W & wm & T).
      assert (D := declared_lists p s sr W wm T Hg Hd). destruct (coefficients_total OK (pr_params p) _ Nd D) as (Fs & Gs & nm & Ec).
      assert (Hi : sdp_inputs SY p s = (Ok (sr, Fs, Gs, nm), s1)) by (unfold sdp_inputs; rewrite Es, Ec; easy).
      unfold sdp_relax. rewrite Hi. assert (HNm := coeff_setup OK p s sr W wm Fs Gs nm T Nd Hg Hd Ec). assert (C0 := HNm). destruct C0 as (HN & SF & SG & LF & LG & _).
      rewrite (len_W p s sr W wm T) in LF, LG. rewrite (relax_build_split p b (Some v) _ _ sr Fs Gs nm (obj_last p s sr W wm T)). cbv zeta.
      destruct (relax_head_emits nm (sr_I sr) (sr_E sr) (st_ectr s) (st_pctr s) (relax_off (Some v)) (proj1 HN) (nf_head _ _ HN) Fs Gs SF SG LF LG (nf_closed _ _ HN (params_nous p Hg)) b H1
           (fun x Hx => nf_param _ _ HN x (H2 x Hx)) (mkOpti (rN nm (sr_I sr) (sr_E sr) (st_pctr s) (relax_off (Some v))) [] [])) as (cs & E & _ & K).
      unfold obind. rewrite E. easy.
    Qed.

    (** *** without: the feasible points and the objective *)
    Definition xval (rl : relaxation) (a : nat -> R) (i : nat) : R := a (cv_at (rl_x rl) i 0).
    Definition blk (rl : relaxation) (a : nat -> R) (m i j : nat) : R := a (cv_at (nth m (sd_psd (rl_sdp rl)) (mkCV 0 0 0)) i j).

    Lemma relax_ok rl : sdp_relax SY p b None s = (Ok rl, s') ->
      exists sr Fs Gs nm W wm e c, rl_inp rl = (sr, Fs, Gs, nm) /\ sdp_inputs SY p s = (Ok (sr, Fs, Gs, nm), s') /\
        symbolic SY p s = (Ok sr, s') /\ table_facts p s sr W wm /\ good_coeffs (pr_params p) (st_ectr s) (st_pctr s) (sr_exp sr) Fs Gs nm /\
        1 <= sr_I sr + sr_E sr /\ (forall x, In x needs -> In x (pr_params p)) /\
        pr_obj p = Some e /\ sd_obj (rl_sdp rl) = CSub (CNum 0) c /\ (exists o, sympy_expression_to_cvx SY (xm_var (rl_x rl)) nm e o = Ok (c, o)) /\
        rl_x rl = rvx nm (sr_I sr) (sr_E sr) 0 /\ sd_psd (rl_sdp rl) = [rvW nm (sr_I sr) (sr_E sr) 0; rvX nm (sr_I sr) (sr_E sr) 0; rvZ nm (sr_I sr) (sr_E sr) (st_pctr s) 0] /\
        forall a, sdp_feasible (rl_sdp rl) a <->
          relax_point nm Fs Gs (sr_I sr) (sr_E sr) (st_ectr s) (st_pctr s) (xval rl a) (blk rl a 0) (blk rl a 1) (blk rl a 2) /\
          relax_bounds b nm (sr_I sr + sr_E sr) (st_pctr s) (xval rl a) (blk rl a 1) (blk rl a 2) /\
          psd (List.length (nm_list nm) + sr_I sr + sr_E sr + 1) (blk rl a 0) /\ psd (List.length (nm_list nm) + sr_I sr + sr_E sr) (blk rl a 1) /\ psd (st_pctr s) (blk rl a 2).
    Proof using OK I Nd Hg Hd.
      unfold sdp_relax. destruct (sdp_inputs SY p s) as [[inp|] s2] eqn:Hi; [|discriminate].
      destruct (relax_build SY p b None (st_ectr s) (st_pctr s) inp opti0) as [[[[vx l] obj] o]|e0] eqn:E; [|discriminate]. intros [= <- ->].
      assert (Q := relax_prog None inp Hi). destruct inp as [[[sr Fs] Gs] nm]. destruct Q as (W & wm & Es & T & C & [(D & cs & Eb & K)|(_ & Q)]); [|destruct (Q _ E)].
      rewrite Eb in E. clear Eb. unfold relax_fin in E. destruct (pr_obj p) as [e|] eqn:Ho; [|discriminate]. apply obind_ok in E as (c & o1 & Ec & E).
      destruct (cvx_expr_val _ _ _ _ _ _ Ec) as [-> _]. injection E as <- <- <- <-.
      exists sr, Fs, Gs, nm, W, wm, e, c. split; [easy|]. split; [easy|]. split; [exact Es|]. split; [exact T|]. split; [exact C|]. split; [apply D|]. split; [apply D|].
      split; [easy|]. split; [easy|]. split; [eexists; exact Ec|]. split; [easy|]. split; [easy|]. intros a. unfold sdp_feasible. cbn [rl_sdp sd_opti sd_psd]. unfold feasible. cbn [op_cons].
      specialize (K a). cbv zeta in K. cbn [relax_off] in K. unfold xval, blk. cbn [rl_x rl_sdp sd_psd nth]. rewrite K. fold (gx nm (sr_I sr) (sr_E sr) 0 a) (gW nm (sr_I sr) (sr_E sr) 0 a) (gX nm (sr_I sr) (sr_E sr) 0 a) (gZ nm (sr_I sr) (sr_E sr) (st_pctr s) 0 a).
      rewrite !Forall_cons_iff. cbn [relax_off]. unfold gx, gW, gX, gZ. unfold rvW at 3, rvX at 4, rvZ at 3. cbn [cv_rows].
      split; [intros ((P & B) & F1 & F2 & F3 & _); repeat (split; [assumption|]); assumption|intros (P & B & F1 & F2 & F3)].
      repeat (split; [try assumption; split; assumption|]). constructor.
    Qed.

    Theorem relax_lift rl sr w r m P : sdp_relax SY p b None s = (Ok rl, s') -> symbolic SY p s = (Ok sr, s') -> In (SObj, w) (sr_exp sr) ->
      certificate r sr w (st_pctr s) (st_ectr s) m P ->
      (Q2R micro <= r "eta"%string /\ Q2R micro <= r "h"%string /\ 0 <= r "rho"%string /\ -1 <= r "alpha"%string <= 1 /\ -1 <= r "beta"%string <= 1)%R ->
      param_bounds (pr_params p) b -> match b with None => True | Some l => forall x ub lb, In (x, (ub, lb)) l -> in_bounds (r x) ub lb end ->
      exists a, sdp_feasible (rl_sdp rl) a /\ relax_values rl a (pr_params p) = map (fun x => (x, r x)) (pr_params p) /\
        forall e, pr_obj p = Some e -> only_params (pr_params p) (fun x => In x (free e)) -> ceval a (sd_obj (rl_sdp rl)) = (- ev r e)%R.
    Proof using OK I Nd Hg Hd.
      intros Hrl Es Hw Ce Hbox Hpb Hb. destruct (relax_ok rl Hrl) as (sr0 & Fs & Gs & nm & W & wm & e0 & c & Ei & _ & Es0 & T & C & H1 & H2 & Ho & Eobj & (o & Ec) & Ex & Ep & K).
      rewrite Es in Es0. injection Es0 as <-.
      assert (Hwm : w = wm).
      { assert (T0 := T). destruct T0 as (Exp & _ & _ & Kk & _). rewrite Exp in Hw. apply in_app_or in Hw as [Q|[[= <-]|[]]]; [|easy].
        apply (in_map fst) in Q. destruct (Kk _ Q) as (? & ? & ? & ? & [=] & _). }
      subst w. assert (C0 := C). destruct C0 as (HN & _). assert (Sm := params_nous p Hg). assert (Hp := rnv nm (nf_head _ _ HN)).
      set (nv := List.length (nm_list nm)) in *. set (nI := sr_I sr) in *. set (nE := sr_E sr) in *. set (nn := nv + nI + nE) in *. set (dG := st_pctr s) in *.
      set (y := point_of sr W wm nm r P).
      set (y1 := fun i => if Nat.ltb i nn then y i else 1%R).
      set (ZZ := fun i j => rsum m (fun cc => P i cc * P j cc)%R).
      set (a := packed nn dG 0 y (fun i j => y1 i * y1 j)%R (fun i j => y i * y j)%R ZZ). exists a.
      assert (Ax : forall i, i < nn -> xval rl a i = y i).
      { intros i Hi'. unfold xval. rewrite Ex. unfold cv_at, rvx. cbn [cv_base cv_cols]. apply packed_x. exact Hi'. }
      assert (AW : forall i j, i < nn + 1 -> j < nn + 1 -> blk rl a 0 i j = (y1 i * y1 j)%R).
      { intros i j Hi' Hj'. unfold blk. rewrite Ep. cbn [nth]. unfold cv_at, rvW. cbn [cv_base cv_cols]. apply (packed_W nn dG 0); assumption. }
      assert (AX : forall i j, i < nn -> j < nn -> blk rl a 1 i j = (y i * y j)%R).
      { intros i j Hi' Hj'. unfold blk. rewrite Ep. cbn [nth]. unfold cv_at, rvX. cbn [cv_base cv_cols]. apply (packed_X nn dG 0); assumption. }
      assert (AZ : forall i j, i < dG -> j < dG -> blk rl a 2 i j = ZZ i j).
      { intros i j Hi' Hj'. unfold blk. rewrite Ep. cbn [nth]. unfold cv_at, rvZ. cbn [cv_base cv_cols]. apply (packed_Z nn dG 0); assumption. }
      assert (Y0 : y 0 = 1%R) by (unfold y, point_of; destruct (nf_head _ _ HN) as [l El]; rewrite El; simpl; easy).
      assert (Hget : forall z i, dget vname_eqb (VStr z) (nm_idx nm) = Some i -> i < nv /\ nth_error (nm_list nm) i = Some (VStr z)).
      { intros z i H. apply (numbered_get _ _ _ (proj1 HN)) in H. split; [apply nth_error_Some; congruence|exact H]. }
      assert (An : forall z, In (VStr z) (nm_list nm) -> at_name nm (xval rl a) z = long r z).
      { intros z Hz. rewrite <- (point_of_name p s sr W wm Fs Gs nm C r P z Hz). fold y. unfold at_name. destruct (dget vname_eqb (VStr z) (nm_idx nm)) as [i|] eqn:Eq; [|easy].
        apply Ax. destruct (Hget z i Eq). unfold nn. lia. }
      assert (Ap : forall z, In z (pr_params p) -> at_name nm (xval rl a) z = r z).
      { intros z Hz. rewrite An by (apply (nf_param _ _ HN), Hz). unfold long. rewrite (split_param _ Sm z Hz). simpl. lra. }
      destruct (point_equations p s sr W wm Fs Gs nm T C r y) as [PF PG].
      { intros i Hi'. unfold y, point_of. fold nv in Hi' |- *. apply Nat.ltb_lt in Hi'. rewrite Hi'. easy. }
      { intros i kw E. assert (Hi' : i < nI + nE) by (destruct T as (_ & _ & Q & _); fold nI nE in Q; rewrite Q; apply nth_error_Some; congruence).
        unfold y, point_of. fold nv nI nE. destruct (Nat.ltb_spec (nv + i) nv); [lia|]. replace (nv + i - nv) with i by lia. apply Nat.ltb_lt in Hi'. rewrite Hi'.
        rewrite (nth_error_nth _ _ _ E). easy. }
      fold nv nI nE dG in PF, PG. destruct Ce as [CN CF CG].
      assert (Efs : forall Ms k, rsum (nI + nE) (fun i => rsum nv (fun j => coef (nth i Ms dummy_cm) k j * ((blk rl a 1 (nv + i) j + blk rl a 1 j (nv + i)) / 2)))%R =
         rsum (nI + nE) (fun i => y (nv + i)%nat * rsum nv (fun j => coef (nth i Ms dummy_cm) k j * y j))%R).
      { intros Ms k. apply rsum_ext. intros i Hi'. rewrite <- rsum_scal. apply rsum_ext. intros j Hj. rewrite !AX by (unfold nn; lia). lra. }
      assert (Evs : forall A k, rsum nv (fun j => coef A k j * xval rl a j)%R = rsum nv (fun j => coef A k j * y j)%R).
      { intros A k. apply rsum_ext. intros j Hj. rewrite Ax by (unfold nn; lia). easy. }
      assert (Hfe : sdp_feasible (rl_sdp rl) a).
      { apply K. split; [|split; [|split; [|split]]].
        - constructor.
          + rewrite Ax by (unfold nn; lia). exact Y0.
          + intros i Hi'. fold nv nn in Hi'. rewrite !AX, Ax by lia. rewrite Y0. lra.
          + intros i j Hi' Hj. fold nv nn in Hi', Hj. rewrite AW, AX by lia. unfold y1. apply Nat.ltb_lt in Hi', Hj. rewrite Hi', Hj. easy.
          + cbv zeta. fold nv nn. assert (Hn1 : y1 nn = 1%R) by (unfold y1; rewrite Nat.ltb_irrefl; easy). split.
            * intros i Hi'. rewrite !AW, Ax, Hn1 by lia. unfold y1. apply Nat.ltb_lt in Hi'. rewrite Hi'. lra.
            * rewrite AW, Hn1 by lia. lra.
          + fold nv nn. eapply minor_ext; [|apply (minor_rank1 (nn + 1) y1)]. intros; symmetry; apply AW; assumption.
          + fold nv nn. eapply minor_ext; [|apply (minor_rank1 nn y)]. intros; symmetry; apply AX; assumption.
          + rewrite !Ap by (apply H2; simpl; tauto). exact Hbox.
          + intros k Hk. cbv zeta. fold nv. rewrite Evs, Efs. destruct (PF k Hk) as [-> ->]. symmetry. apply CF, Hk.
          + intros k1 k2 Hk1 Hk2. cbv zeta. fold nv. rewrite Evs, Efs, AZ by assumption. destruct (PG k1 k2 Hk1 Hk2) as [-> ->]. unfold ZZ. rewrite <- (CG k1 k2 Hk1 Hk2). lra.
          + intros z pre t Hz Esp Hpre. destruct (nf_cases _ _ HN z Hz) as [Hq|(pre' & t' & E' & Hp' & Ht & Hpp & Hin)].
            { rewrite (split_param _ Sm z Hq) in Esp. destruct pre as [|? [|? ?]]; try easy. }
            rewrite Esp in E'. apply app_inj_tail in E' as [<- <-]. rewrite An by exact Hz. unfold pair_at.
            destruct (In_nth_error _ _ Hin) as [i Hi']. destruct (In_nth_error _ _ (nf_param _ _ HN t Ht)) as [j Hj].
            assert (G1 := numbered_nth _ _ _ (proj1 HN) Hi'). assert (G2 := numbered_nth _ _ _ (proj1 HN) Hj). rewrite G1, G2.
            destruct (Hget _ _ G1) as [L1 _], (Hget _ _ G2) as [L2 _]. rewrite !AX by (unfold nn; lia).
            assert (B1 := An _ Hin). assert (B2 := Ap t Ht). unfold at_name in B1, B2. rewrite G1 in B1. rewrite G2 in B2. rewrite Ax in B1, B2 by (unfold nn; lia). rewrite B1, B2.
            unfold long. rewrite Esp, prod_app. rewrite split_join; [simpl; lra|exact Hpre|]. unfold nous. rewrite Forall_forall in *. auto.
          + intros i Hi'. fold nv. fold nI in Hi'. rewrite Ax by (unfold nn; lia). unfold y, point_of. fold nv nI nE. destruct (Nat.ltb_spec (nv + i) nv); [lia|]. replace (nv + i - nv) with i by lia.
            destruct (Nat.ltb_spec i (nI + nE)) as [Hl|Hl]; [|lia].
            destruct T as (Exp & _ & HL & _ & HI & _). fold nI nE in HL. rewrite HL in Hl. destruct (nth_error W i) as [kw|] eqn:E; [|apply nth_error_None in E; lia].
            rewrite (nth_error_nth _ _ _ E). assert (Ek := map_nth_error fst _ _ E). destruct (proj1 (HI i _ Ek) Hi') as (f & a0 & b0 & EK). rewrite EK.
            apply CN. rewrite <- EK, Exp. unfold keys. rewrite map_app. apply in_or_app. left. apply nth_error_In in Ek. exact Ek.
        - unfold relax_bounds. destruct b as [bl|]; [|easy]. intros z ub lb Hz. cbv zeta. destruct (Hpb z ub lb Hz) as [P1 P2].
          destruct (String.eqb_spec z "Z") as [->|_]; [simpl in P2; tauto|]. destruct (String.eqb_spec z "x") as [->|_]; [simpl in P2; tauto|]. destruct (String.eqb_spec z "X") as [->|_]; [simpl in P2; tauto|].
          destruct (In_nth_error _ _ (nf_param _ _ HN z P1)) as [i Hi']. assert (G1 := numbered_nth _ _ _ (proj1 HN) Hi'). assert (Q := Ap z P1). unfold at_name in Q. rewrite G1 in *. rewrite Q. apply (Hb z ub lb Hz).
        - fold nv nn. eapply psd_ext; [|apply (psd_rank1 (nn + 1) y1)]. intros; symmetry; apply AW; assumption.
        - fold nv nn. eapply psd_ext; [|apply (psd_rank1 nn y)]. intros; symmetry; apply AX; assumption.
        - eapply psd_ext; [|apply (ppt_psd dG m P)]. intros; symmetry; apply AZ; assumption. }
      split; [exact Hfe|]. split.
      - unfold relax_values. rewrite Ei. cbn [snd]. assert (G : forall l, (forall z, In z l -> In z (pr_params p)) ->
          flat_map (fun n => match dget vname_eqb (VStr n) (nm_idx nm) with Some i => [(n, a (cv_at (rl_x rl) i 0))] | None => [] end) l = map (fun z => (z, r z)) l).
        { induction l as [|z l IH]; intros Hl; [easy|]. simpl. rewrite IH by (intros; apply Hl; simpl; auto).
          assert (Hz := Hl z (or_introl eq_refl)). destruct (In_nth_error _ _ (nf_param _ _ HN z Hz)) as [i Hi']. assert (G1 := numbered_nth _ _ _ (proj1 HN) Hi').
          assert (Q := Ap z Hz). unfold at_name in Q. rewrite G1 in *. unfold xval in Q. rewrite Q. easy. }
        apply G. easy.
      - intros e He Hfr. rewrite Ho in He. injection He as ->. rewrite Eobj. cbn [ceval]. rewrite Q2R_0'.
        destruct (cvx_expr_val _ _ _ _ _ _ Ec) as [_ HV]. rewrite (HV a r).
        + rewrite (ev_free_ext (long r) r); [lra|]. intros z Hz. apply Hfr in Hz. apply long_simple. apply simple_has, (param_names p Hg z Hz).
        + intros n t Hn. rewrite <- An by (eapply x_entry_in; [exact (proj1 HN)|exact Hn]). unfold x_entry in Hn. unfold at_name. destruct (dget vname_eqb (VStr n) (nm_idx nm)) as [i|]; [|discriminate].
          destruct (Nat.ltb i (xm_rows (xm_var (rl_x rl)))); [|discriminate]. injection Hn as <-. easy.
    Qed.
  End Prog.
End RelaxMain.
