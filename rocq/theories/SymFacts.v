(** circuit_symbolic_matrices assembles exactly the constraint table. *)
From Coq Require Import List Arith Bool String QArith Reals Lra Lia.
From Verif Require Import Prelude PreludeFacts Sympy SympyFacts AlgebraModel Denote AlgebraFacts
  FunctionModel CircuitModel SymSpec GramFacts.
Import ListNotations.
Local Open Scope R_scope.

Lemma bind_ok {A B} (m : M A) (k : A -> M B) s b s' :
  bind m k s = (Ok b, s') -> exists a s1, m s = (Ok a, s1) /\ k a s1 = (Ok b, s').
Proof. unfold bind. destruct (m s) as [[a|e] s1]; [eauto|easy]. Qed.

Lemma lift_ok {A} (x : res A) s a s' : lift x s = (Ok a, s') -> x = Ok a /\ s' = s.
Proof. unfold lift. intros H; injection H; intros; subst; easy. Qed.

Lemma assertM_ok b s u s' : assertM b s = (Ok u, s') -> b = true /\ s' = s.
Proof. unfold assertM. destruct b; simpl; unfold ret, raise; intros H; [injection H; intros; subst; easy|easy]. Qed.

Lemma get_fun_ok f s fn s' : get_fun f s = (Ok fn, s') -> dget Nat.eqb f (st_funs s) = Some fn /\ s' = s.
Proof. unfold get_fun. destruct (dget Nat.eqb f (st_funs s)); intros H; [injection H; intros; subst; easy|easy]. Qed.

Lemma bindr_ok {A B} (x : res A) (k : A -> res B) b : bindr x k = Ok b -> exists a, x = Ok a /\ k a = Ok b.
Proof. destruct x; simpl; [eauto|easy]. Qed.

Lemma skey_eqb_eq a b : skey_eqb a b = true <-> a = b.
Proof.
  destruct a, b; simpl; try easy. rewrite !andb_true_iff, !Nat.eqb_eq.
  split; [intros [[[-> ->] ->] ->]; easy|intros H; injection H; auto].
Qed.

Lemma nat_eqb_iff a b : Nat.eqb a b = true <-> a = b.
Proof. apply Nat.eqb_eq. Qed.

(** pairs *)
Lemma pairs_spec n i j : In (i, j) (pairs n) <-> (i < n /\ j < n /\ i <> j)%nat.
Proof.
  unfold pairs. rewrite in_flat_map. split.
  - intros [x [Hx Hin]]. apply in_flat_map in Hin as [y [Hy Hin]].
    rewrite in_seq in *. destruct (Nat.eqb_spec x y); [easy|].
    destruct Hin as [E|[]]. injection E; intros; subst. lia.
  - intros (Hi & Hj & Hne). exists i. split; [apply in_seq; lia|].
    apply in_flat_map. exists j. split; [apply in_seq; lia|].
    destruct (Nat.eqb_spec i j); [easy|simpl; auto].
Qed.

Lemma pairs_nodup n : NoDup (pairs n).
Proof.
  unfold pairs.
  assert (G : forall m l, NoDup l ->
     NoDup (flat_map (fun i => flat_map (fun j => if Nat.eqb i j then [] else [(i, j)]) (seq 0 m)) l)).
  { intros m l. induction l as [|i l IH]; intros Hn; [constructor|].
    inversion Hn as [|? ? Hi Hn']; subst. simpl.
    assert (HA : NoDup (flat_map (fun j => if Nat.eqb i j then [] else [(i, j)]) (seq 0 m))).
    { generalize (seq_NoDup m 0). generalize (seq 0 m). induction l0 as [|j l0 IHl]; intros Hs; [constructor|].
      inversion Hs as [|? ? Hj Hs']; subst. simpl. destruct (Nat.eqb i j); simpl; [auto|].
      constructor; [|auto]. intros Hin. apply in_flat_map in Hin as [y [Hy Hin]].
      destruct (Nat.eqb i y); [easy|]. destruct Hin as [E|[]]. injection E; intros; subst; easy. }
    revert HA. generalize (IH Hn').
    assert (HD : forall x, In x (flat_map (fun j => if Nat.eqb i j then [] else [(i, j)]) (seq 0 m)) ->
       ~ In x (flat_map (fun i => flat_map (fun j => if Nat.eqb i j then [] else [(i, j)]) (seq 0 m)) l)).
    { intros x Hx Hx2. apply in_flat_map in Hx as [y [_ Hx]]. destruct (Nat.eqb i y); [easy|].
      destruct Hx as [<-|[]]. apply in_flat_map in Hx2 as [z [Hz Hx2]].
      apply in_flat_map in Hx2 as [u [_ Hx2]]. destruct (Nat.eqb z u); [easy|].
      destruct Hx2 as [E|[]]. injection E; intros; subst; easy. }
    revert HD.
    generalize (flat_map (fun j => if Nat.eqb i j then [] else [(i, j)]) (seq 0 m)) as a.
    generalize (flat_map (fun i => flat_map (fun j => if Nat.eqb i j then [] else [(i, j)]) (seq 0 m)) l) as b.
    intros b a HD Hb Ha. induction a as [|x a IHa]; simpl; [easy|].
    inversion Ha as [|? ? Hx Ha']; subst. constructor.
    - rewrite in_app_iff. intros [|Hb2]; [easy|]. apply (HD x); simpl; auto.
    - apply IHa; [|easy]. intros y Hy. apply HD; simpl; auto. }
  apply G, seq_NoDup.
Qed.

Lemma flat_sel_filter i l :
  flat_map (fun j => if Nat.eqb i j then [] else [(i, j)]) l
  = map (fun j => (i, j)) (filter (fun j => negb (Nat.eqb i j)) l).
Proof. induction l as [|j l IH]; simpl; [easy|]. destruct (Nat.eqb i j); simpl; rewrite IH; easy. Qed.

Lemma pairs_length n : List.length (pairs n) = (n * (n - 1))%nat.
Proof.
  unfold pairs.
  assert (G : forall i, (i < n)%nat -> List.length (filter (fun j => negb (Nat.eqb i j)) (seq 0 n)) = (n - 1)%nat).
  { intros i Hi.
    assert (E : seq 0 n = seq 0 i ++ i :: seq (S i) (n - 1 - i)).
    { replace n with (i + S (n - 1 - i))%nat at 1 by lia. rewrite seq_app. simpl. easy. }
    rewrite E, filter_app, app_length. simpl. rewrite Nat.eqb_refl. simpl.
    assert (H : forall l, (forall x, In x l -> x <> i) -> filter (fun j => negb (Nat.eqb i j)) l = l).
    { induction l as [|x l IH]; intros H; [easy|]. simpl. destruct (Nat.eqb_spec i x).
      - subst. exfalso. apply (H x); simpl; auto.
      - simpl. rewrite IH; [easy|]. intros; apply H; simpl; auto. }
    rewrite !H, !seq_length; [lia| |]; intros x Hx; apply in_seq in Hx; lia. }
  assert (K : forall l, (forall i, In i l -> (i < n)%nat) ->
    List.length (flat_map (fun i => flat_map (fun j => if Nat.eqb i j then [] else [(i, j)]) (seq 0 n)) l) = (List.length l * (n - 1))%nat).
  { induction l as [|i l IH]; intros H; simpl; [easy|].
    rewrite app_length, IH by (intros; apply H; simpl; auto).
    rewrite flat_sel_filter, map_length, G by (apply H; simpl; auto). easy. }
  rewrite K, seq_length; [easy|]. intros i Hi. apply in_seq in Hi. lia.
Qed.

Section Rows.
  Variable SY : sympy.

  Lemma row_spec c ti pts : forall l off r,
    (forall j, (j < List.length l)%nat -> nth j l dummy_trip = nth (off + j) pts dummy_trip) ->
    row SY c ti l = Ok r ->
    Forall2 (fun j e => class_constraint SY c ti (nth j pts dummy_trip) = Ok e)
      (filter (fun j => negb (Nat.eqb (t_id ti) (t_id (nth j pts dummy_trip)))) (seq off (List.length l))) r.
  Proof.
    induction l as [|tj l IH]; intros off r Hl H; simpl in H.
    - injection H; intros <-. constructor.
    - assert (E0 : tj = nth off pts dummy_trip).
      { specialize (Hl 0%nat). simpl in Hl. rewrite Hl by lia. f_equal; lia. }
      assert (Hl' : forall j, (j < List.length l)%nat -> nth j l dummy_trip = nth (S off + j) pts dummy_trip).
      { intros j Hj. specialize (Hl (S j)). simpl in Hl. rewrite Hl by lia. f_equal; lia. }
      simpl. rewrite <- E0. destruct (Nat.eqb (t_id ti) (t_id tj)) eqn:Eid; simpl.
      + apply (IH (S off)); easy.
      + apply bindr_ok in H as [e [He H]]. apply bindr_ok in H as [r' [Hr H]].
        injection H; intros <-. constructor; [rewrite <- E0; easy|]. apply (IH (S off)); easy.
  Qed.

  Lemma rows_spec c pts : NoDup (map t_id pts) -> forall li off r,
    (forall j, (j < List.length li)%nat -> nth j li dummy_trip = nth (off + j) pts dummy_trip) ->
    (off + List.length li <= List.length pts)%nat ->
    rows SY c li pts = Ok r ->
    Forall2 (fun ij e => class_constraint SY c (nth (fst ij) pts dummy_trip) (nth (snd ij) pts dummy_trip) = Ok e)
      (flat_map (fun i => flat_map (fun j => if Nat.eqb i j then [] else [(i, j)]) (seq 0 (List.length pts)))
                (seq off (List.length li))) r.
  Proof.
    intros Hn. induction li as [|ti li IH]; intros off r Hl Hle H; simpl in H.
    - injection H; intros <-. constructor.
    - apply bindr_ok in H as [a [Ha H]]. apply bindr_ok in H as [b [Hb H]]. injection H; intros <-.
      assert (E0 : ti = nth off pts dummy_trip).
      { specialize (Hl 0%nat). simpl in Hl. rewrite Hl by lia. f_equal; lia. }
      assert (Hl' : forall j, (j < List.length li)%nat -> nth j li dummy_trip = nth (S off + j) pts dummy_trip).
      { intros j Hj. specialize (Hl (S j)). simpl in Hl. rewrite Hl by lia. f_equal; lia. }
      simpl. apply Forall2_app; [|apply IH; [easy|simpl in Hle; lia|easy]].
      rewrite flat_sel_filter.
      apply (row_spec c ti pts pts 0%nat) in Ha; [|intros; f_equal; lia].
      assert (EF : filter (fun j => negb (Nat.eqb (t_id ti) (t_id (nth j pts dummy_trip)))) (seq 0 (List.length pts))
                 = filter (fun j => negb (Nat.eqb off j)) (seq 0 (List.length pts))).
      { apply filter_ext_in. intros j Hj. apply in_seq in Hj. f_equal.
        destruct (Nat.eqb_spec off j) as [->|Hne].
        - rewrite <- E0. apply Nat.eqb_refl.
        - apply Nat.eqb_neq. intros E. apply Hne.
          rewrite (NoDup_nth (map t_id pts) (t_id dummy_trip)) in Hn. apply Hn.
          + rewrite map_length. simpl in Hle. lia.
          + rewrite map_length. lia.
          + rewrite !map_nth. rewrite <- E0. easy. }
      rewrite EF in Ha. clear EF. revert Ha.
      generalize (filter (fun j => negb (Nat.eqb off j)) (seq 0 (List.length pts))) as js.
      clear -E0. intros js H. induction H; simpl; constructor; [|easy]. simpl. rewrite <- E0. easy.
  Qed.

  Lemma rows_pairs c pts r : NoDup (map t_id pts) -> rows SY c pts pts = Ok r ->
    Forall2 (fun ij e => class_constraint SY c (nth (fst ij) pts dummy_trip) (nth (snd ij) pts dummy_trip) = Ok e)
      (pairs (List.length pts)) r.
  Proof. intros Hn H. apply (rows_spec c pts Hn pts 0%nat); [easy|lia|easy]. Qed.
End Rows.

(** Entry [kw] of sp_exp stores the matrices of the constraint of [kt]. *)
Definition stores (SY : sympy) (dimG dimF : nat) (kt : skey * res expr) (kw : skey * fgw) : Prop :=
  fst kt = fst kw /\ exists e, snd kt = Ok e /\ expression_to_matrix SY e dimG dimF = Ok (snd kw).

(** [sum' = sum + sum_k lambda_k * w_k] for every assignment and pairing *)
Definition sum_ext (dimG dimF : nat) (s s' : fgw) (W : list (skey * fgw)) : Prop :=
  forall r Fv Gm, fg_val r dimG dimF s' Fv Gm =
    fg_val r dimG dimF s Fv Gm + lsum (fun kw => r (dual_of (fst kw)) * fg_val r dimG dimF (snd kw) Fv Gm) W.

Lemma sum_ext_nil dimG dimF s : sum_ext dimG dimF s s [].
Proof. intros r Fv Gm. simpl. lra. Qed.
Lemma sum_ext_trans dimG dimF s1 s2 s3 W1 W2 :
  sum_ext dimG dimF s1 s2 W1 -> sum_ext dimG dimF s2 s3 W2 -> sum_ext dimG dimF s1 s3 (W1 ++ W2).
Proof. intros H1 H2 r Fv Gm. rewrite H2, H1, lsum_app. lra. Qed.

Lemma nat_str_0 : nat_str 0 = "0"%string. Proof. easy. Qed.

Section Loops.
  Variable SY : sympy.
  Variables dimG dimF : nat.
  Notation stores := (stores SY dimG dimF).
  Notation sum_ext := (sum_ext dimG dimF).

  Lemma extra_loop_spec : forall l iq ie s s' iq',
    extra_loop SY dimG dimF l iq ie s = Ok (s', iq') ->
    (forall k, In k (keys (ss_ineq s)) -> exists i, k = SK 0 0 i 0 /\ (i < iq)%nat) ->
    (forall k, In k (keys (ss_eq s)) -> exists i, k = SK 1 0 i 0 /\ (i < ie)%nat) ->
    exists WI WE,
      ss_ineq s' = ss_ineq s ++ WI /\ ss_eq s' = ss_eq s ++ WE /\
      Forall2 stores (map (fun ie => (SK 0 0 (fst ie) 0, Ok (snd ie)))
         (number iq (map c_expr (filter (fun c => is_ineq_kind (c_kind c)) l)))) WI /\
      Forall2 stores (map (fun ie => (SK 1 0 (fst ie) 0, Ok (snd ie)))
         (number ie (map c_expr (filter (fun c => negb (is_ineq_kind (c_kind c))) l)))) WE /\
      sum_ext (ss_sum s) (ss_sum s') (WI ++ WE) /\
      ss_I s' = (ss_I s + List.length WI)%nat /\ ss_E s' = (ss_E s + List.length WE)%nat /\
      iq' = (iq + List.length WI)%nat.
  Proof.
    induction l as [|c l IH]; intros iq ie s s' iq' H HI HE; simpl in H.
    - injection H; intros <- <-. exists [], []. rewrite !app_nil_r. simpl.
      repeat split; try constructor; try lia. apply sum_ext_nil.
    - apply bindr_ok in H as [w [Hw H]]. simpl filter. destruct (c_kind c) eqn:Ek; simpl.
      + apply IH in H; clear IH.
        * simpl in H. destruct H as (WI & WE & E1 & E2 & F1 & F2 & Hs & HI2 & HE2 & Hq).
          rewrite (dset_notin skey_eqb skey_eqb_eq) in E2.
          2:{ intros Hin. apply HE in Hin as [i [E Hi]]. injection E; intros; lia. }
          exists WI, ((SK 1 0 ie 0, w) :: WE).
          split; [easy|]. split; [rewrite E2, <- app_assoc; easy|]. split; [easy|].
          split.
          { constructor; [|easy]. split; [easy|]. simpl. exists (c_expr c). easy. }
          split.
          { intros r Fv Gm. rewrite (Hs r Fv Gm), accum_val, !lsum_app, lsum_cons. cbn [fst snd].
            change (dual_of (SK 1 0 ie 0)) with (dual_name "nu0" ie 0). lra. }
          simpl. lia.
        * simpl. easy.
        * simpl. intros k Hk. apply (dset_keys_incl skey_eqb skey_eqb_eq) in Hk as [->|Hk].
          -- exists ie. split; [easy|lia].
          -- apply HE in Hk as [i [-> Hi]]. exists i. split; [easy|lia].
      + apply IH in H; clear IH.
        * simpl in H. destruct H as (WI & WE & E1 & E2 & F1 & F2 & Hs & HI2 & HE2 & Hq).
          rewrite (dset_notin skey_eqb skey_eqb_eq) in E1.
          2:{ intros Hin. apply HI in Hin as [i [E Hi]]. injection E; intros; lia. }
          exists ((SK 0 0 iq 0, w) :: WI), WE.
          split; [rewrite E1, <- app_assoc; easy|]. split; [easy|].
          split.
          { constructor; [|easy]. split; [easy|]. simpl. exists (c_expr c). easy. }
          split; [easy|].
          split.
          { intros r Fv Gm. rewrite (Hs r Fv Gm), accum_val, !lsum_app, lsum_cons. cbn [fst snd].
            change (dual_of (SK 0 0 iq 0)) with (dual_name "lamb0" iq 0). lra. }
          simpl. lia.
        * simpl. intros k Hk. apply (dset_keys_incl skey_eqb skey_eqb_eq) in Hk as [->|Hk].
          -- exists iq. split; [easy|lia].
          -- apply HI in Hk as [i [-> Hi]]. exists i. split; [easy|lia].
        * simpl. easy.
  Qed.

  Lemma class_loop_spec F : forall l cons s s',
    class_loop SY dimG dimF F l cons s = Ok s' -> NoDup l ->
    (forall i j, In (i, j) l -> ~ In (SK 0 F i j) (keys (ss_ineq s))) ->
    exists W es rest,
      cons = es ++ rest /\ List.length es = List.length l /\
      ss_ineq s' = ss_ineq s ++ W /\ ss_eq s' = ss_eq s /\
      Forall2 stores (map (fun ije => (SK 0 F (fst (fst ije)) (snd (fst ije)), Ok (snd ije))) (combine l es)) W /\
      sum_ext (ss_sum s) (ss_sum s') W /\
      ss_I s' = (ss_I s + List.length W)%nat /\ ss_E s' = ss_E s.
  Proof.
    induction l as [|[i j] l IH]; intros cons s s' H Hn HK; simpl in H.
    - injection H; intros <-. exists [], [], cons. rewrite app_nil_r. simpl.
      repeat split; try constructor; try lia. apply sum_ext_nil.
    - destruct cons as [|e cons]; [easy|]. apply bindr_ok in H as [w [Hw H]].
      inversion Hn as [|? ? Hij Hn']; subst.
      assert (HK0 : ~ In (SK 0 F i j) (keys (ss_ineq s))) by (apply HK; simpl; auto).
      apply IH in H; [|easy|].
      + simpl in H. destruct H as (W & es & rest & E & El & E1 & E2 & F2 & Hs & HI & HE).
        rewrite (dset_notin skey_eqb skey_eqb_eq) in E1 by easy.
        exists ((SK 0 F i j, w) :: W), (e :: es), rest.
        split; [simpl; rewrite E; easy|]. split; [simpl; lia|].
        split; [rewrite E1, <- app_assoc; easy|]. split; [easy|].
        split.
        { simpl. constructor; [|easy]. split; [easy|]. simpl. exists e; easy. }
        split.
        { intros r Fv Gm. rewrite (Hs r Fv Gm), accum_val, lsum_cons. cbn [fst snd].
          change (dual_of (SK 0 F i j)) with (dual_name (lamb_prefix F) i j). lra. }
        simpl. lia.
      + simpl. intros i' j' Hin Hk. apply (dset_keys_incl skey_eqb skey_eqb_eq) in Hk as [E|Hk].
        * injection E; intros; subst. easy.
        * revert Hk. apply HK; simpl; auto.
  Qed.
End Loops.

(** A state on which the class constraints were not generated yet (first
    solve), with distinct records. *)
Definition fresh_fun (fn : func) : Prop := fn_cons fn = [] /\ NoDup (map t_id (fn_pts fn)).

Section FunLoop.
  Variable SY : sympy.
  Variables dimG dimF : nat.

  Lemma Forall2_combine_map {A B C} (P : A -> B -> Prop) (f : A * B -> C) (g : A -> C) l es :
    Forall2 P l es -> (forall a b, P a b -> f (a, b) = g a) -> map f (combine l es) = map g l.
  Proof. intros H HP. induction H; simpl; [easy|]. rewrite IHForall2, (HP _ _ H). easy. Qed.

  Lemma stores_eq_ok F fn es :
    Forall2 (fun ij e => class_constraint SY (fn_class fn) (nth (fst ij) (fn_pts fn) dummy_trip)
                  (nth (snd ij) (fn_pts fn) dummy_trip) = Ok e) (pairs (List.length (fn_pts fn))) es ->
    map (fun ije : nat * nat * expr => (SK 0 F (fst (fst ije)) (snd (fst ije)), Ok (snd ije)))
        (combine (pairs (List.length (fn_pts fn))) es) = fun_table SY F fn.
  Proof.
    intros H. unfold fun_table. eapply Forall2_combine_map; [exact H|].
    simpl. intros [i j] e E. simpl in *. unfold interp. rewrite E. easy.
  Qed.

  Lemma fun_loop_spec shift s0 : forall l idx ss s ss' s' fns,
    fun_loop SY dimG dimF shift idx l ss s = (Ok ss', s') ->
    NoDup l ->
    Forall2 (fun f fn => dget Nat.eqb f (st_funs s) = Some fn /\ fresh_fun fn) l fns ->
    (forall F i j, In (SK 0 F i j) (keys (ss_ineq ss)) -> (F < idx + shift)%nat) ->
    s0 = s ->
    exists W,
      ss_ineq ss' = ss_ineq ss ++ W /\ ss_eq ss' = ss_eq ss /\
      Forall2 (stores SY dimG dimF) (flat_map (fun kf => fun_table SY (fst kf + shift) (snd kf)) (number idx fns)) W /\
      sum_ext dimG dimF (ss_sum ss) (ss_sum ss') W /\
      ss_I ss' = (ss_I ss + List.length W)%nat /\ ss_E ss' = ss_E ss.
  Proof.
    intros l idx ss s ss' s' fns H Hn HF HK _. clear s0.
    revert idx ss s fns H Hn HF HK.
    induction l as [|f l IH]; intros idx ss s fns H Hn HF HK; simpl in H.
    - unfold ret in H. injection H; intros <- <-. inversion HF; subst. exists []. rewrite app_nil_r. simpl.
      repeat split; try constructor; try lia. apply sum_ext_nil.
    - inversion HF as [|? fn ? fns' [Hf Hfr] HF']; subst.
      inversion Hn as [|? ? Hnf Hn']; subst.
      apply bind_ok in H as [u [s1 [H1 H]]]. apply bind_ok in H as [fn1 [s2 [H2 H]]].
      apply bind_ok in H as [ss1 [s3 [H3 H]]]. apply bind_ok in H as [u2 [s4 [H4 H]]].
      apply get_fun_ok in H2 as [H2 ->]. apply lift_ok in H3 as [H3 ->]. apply assertM_ok in H4 as [H4 ->].
      (* add_class_constraints *)
      unfold add_class_constraints in H1. apply bind_ok in H1 as [fn0 [s5 [H0 H1]]].
      apply get_fun_ok in H0 as [H0 ->]. rewrite Hf in H0. injection H0; intros <-. clear H0.
      assert (Hrows : exists rs, rows SY (fn_class fn) (fn_pts fn) (fn_pts fn) = Ok rs /\
        s1 = mkState (st_next s) (st_pctr s) (st_ectr s) (st_fctr s)
               (dset Nat.eqb f (mkFunc (fn_leaf fn) (fn_reuse fn) (fn_class fn) (fn_dict fn) (fn_ctr fn)
                               (fn_stat fn) (fn_pts fn) (fn_cons fn ++ rs)) (st_funs s)) (st_flist s) (st_plist s) (st_elist s)).
      { destruct (fn_class fn) eqn:Ec; [unfold raise in H1; easy| | |];
          apply bind_ok in H1 as [rs [s6 [H5 H6]]]; apply lift_ok in H5 as [H5 ->]; exists rs;
          (split; [easy|]); unfold set_fun in H6; injection H6; intros; subst; easy. }
      clear H1. destruct Hrows as [rs [Hrs ->]]. simpl in H2.
      rewrite (dget_dset_same Nat.eqb nat_eqb_iff) in H2. injection H2; intros <-. clear H2. simpl in H3, H4.
      destruct Hfr as [Hc Hid]. rewrite Hc in *. simpl in H3, H4, H.
      apply class_loop_spec in H3; [|apply pairs_nodup|].
      2:{ intros i j _ Hin. apply HK in Hin. lia. }
      destruct H3 as (W1 & es & rest & E & El & E1 & E2 & F2 & Hs1 & HI1 & HE1).
      apply Nat.eqb_eq in H4. rewrite <- pairs_length in H4.
      assert (rest = []).
      { rewrite E, app_length in H4. destruct rest; [easy|simpl in H4; lia]. }
      subst rest. rewrite app_nil_r in E. subst es.
      apply rows_pairs in Hrs; [|easy]. rewrite (stores_eq_ok _ fn _ Hrs) in F2.
      apply (IH _ _ _ fns') in H; clear IH.
      + destruct H as (W2 & E3 & E4 & F3 & Hs2 & HI2 & HE2).
        exists (W1 ++ W2). split; [rewrite E3, E1, app_assoc; easy|]. split; [congruence|].
        split; [simpl; apply Forall2_app; easy|].
        split; [eapply sum_ext_trans; eauto|]. rewrite app_length. lia.
      + easy.
      + simpl. clear -HF' Hnf. revert Hnf. induction HF' as [|f' fn' l fns [H1 H2] HF IH]; intros Hnf; constructor.
        * split; [|easy]. rewrite (dget_dset_other Nat.eqb nat_eqb_iff); [easy|].
          intros ->; apply Hnf; simpl; auto.
        * apply IH. intros Hin; apply Hnf; simpl; auto.
      + intros F i j Hin. rewrite E1 in Hin. unfold keys in Hin. rewrite map_app, in_app_iff in Hin.
        destruct Hin as [Hin|Hin]; [apply HK in Hin; lia|].
        assert (HW : forall k, In k (map fst W1) -> exists i j, k = SK 0 (idx + shift) i j).
        { unfold fun_table in F2. clear -F2.
          remember (map (fun ij => (SK 0 (idx + shift) (fst ij) (snd ij), interp SY fn (fst ij) (snd ij)))
                   (pairs (List.length (fn_pts fn)))) as tb.
          assert (Htb : forall kt, In kt tb -> exists i j, fst kt = SK 0 (idx + shift) i j).
          { intros kt Hk. subst tb. apply in_map_iff in Hk as [[i j] [<- _]]. simpl. eauto. }
          clear Heqtb. induction F2 as [|kt kw l l' [H1 _] F IH]; [easy|].
          simpl. intros k [<-|Hk].
          - rewrite <- H1. apply Htb. simpl; auto.
          - apply IH; [|easy]. intros; apply Htb; simpl; auto. }
        apply HW in Hin as [i' [j' E']]. injection E'; intros; lia.
  Qed.

  Lemma number_length {A} i (l : list A) : List.length (number i l) = List.length l.
  Proof. revert i; induction l; intros; simpl; [easy|rewrite IHl; easy]. Qed.

  Lemma Forall2_length' {A B} (P : A -> B -> Prop) l1 l2 : Forall2 P l1 l2 -> List.length l1 = List.length l2.
  Proof. induction 1; simpl; congruence. Qed.

  (** Appending fresh keys one by one. *)
  Lemma update_append (l acc : list (skey * fgw)) :
    NoDup (keys l) -> (forall k, In k (keys l) -> ~ In k (keys acc)) ->
    fold_left (fun a kv => dset skey_eqb (fst kv) (snd kv) a) l acc = acc ++ l.
  Proof.
    revert acc. induction l as [|[k w] l IH]; intros acc Hn Hd; simpl; [rewrite app_nil_r; easy|].
    inversion Hn as [|? ? Hk Hn']; subst.
    rewrite (dset_notin skey_eqb skey_eqb_eq) by (apply Hd; simpl; auto).
    rewrite IH; [rewrite <- app_assoc; easy|easy|].
    intros k' Hk' Hin. unfold keys in Hin. rewrite map_app, in_app_iff in Hin. simpl in Hin.
    destruct Hin as [Hin|[<-|[]]]; [|easy]. revert Hin. apply Hd. simpl; auto.
  Qed.

  Lemma number_keys_nodup {A} (g : nat -> skey) (Hg : forall i j, g i = g j -> i = j) (l : list A) i :
    NoDup (map (fun ie => g (fst ie)) (number i l)).
  Proof.
    revert i. induction l as [|a l IH]; intros i; simpl; constructor; [|apply IH].
    intros Hin. apply in_map_iff in Hin as [[k b] [E Hin]]. simpl in E. apply Hg in E. subst k.
    assert (G : forall l i0 k b, In (k, b) (@number A i0 l) -> (i0 <= k)%nat).
    { clear. induction l as [|a l IH]; intros i0 k b; simpl; [easy|].
      intros [E|H]; [injection E; intros; lia|]. apply IH in H. lia. }
    apply G in Hin. lia.
  Qed.

  Lemma stores_keys T W : Forall2 (stores SY dimG dimF) T W -> map fst W = map fst T.
  Proof. induction 1 as [|kt kw T W [H _] F IH]; simpl; [easy|]. rewrite IH, H. easy. Qed.

  (** The two loops together: what [sp_exp] holds before the metric is added. *)
  Lemma loops_spec p funs fns s s1 iq s2 st2 :
    extra_loop SY dimG dimF (pr_cons p) 0 0 (mkSS [] [] zero_fg 0 0) = Ok (s1, iq) ->
    fun_loop SY dimG dimF (if Nat.leb 1 iq then 1 else 0)%nat 0 funs s1 s = (Ok s2, st2) ->
    NoDup funs ->
    Forall2 (fun f fn => dget Nat.eqb f (st_funs s) = Some fn /\ fresh_fun fn) funs fns ->
    let W := fold_left (fun acc kv => dset skey_eqb (fst kv) (snd kv) acc) (ss_eq s2) (ss_ineq s2) in
      ~ In SObj (keys W) /\
      Forall2 (stores SY dimG dimF) (constraint_table SY p fns) W /\
      sum_ext dimG dimF zero_fg (ss_sum s2) W /\
      ss_E s2 = List.length (eqs p) /\
      (ss_I s2 + ss_E s2 = List.length W)%nat.
  Proof.
    intros H1 H2 Hn HF.
    apply extra_loop_spec in H1; [|easy|easy]. simpl in H1.
    destruct H1 as (WI & WE & E1 & E2 & F1 & F2 & Hs1 & HI1 & HE1 & Hq).
    fold (ineqs p) in F1. fold (eqs p) in F2.
    assert (LI : List.length WI = List.length (ineqs p)).
    { apply Forall2_length' in F1. rewrite map_length, number_length in F1. easy. }
    assert (LE : List.length WE = List.length (eqs p)).
    { apply Forall2_length' in F2. rewrite map_length, number_length in F2. easy. }
    assert (Hshift : (if Nat.leb 1 iq then 1 else 0)%nat = shift_of p).
    { unfold shift_of. subst iq. rewrite LI. destruct (ineqs p); simpl; easy. }
    rewrite Hshift in H2.
    apply (fun_loop_spec (shift_of p) s funs 0%nat s1 s s2 st2 fns) in H2; try easy.
    2:{ intros F i j Hin. rewrite E1 in Hin. fold (keys WI) in Hin.
        unfold keys in Hin. rewrite (stores_keys _ _ F1), map_map in Hin. simpl in Hin.
        apply in_map_iff in Hin as [[k e] [E Hin]]. injection E; intros; subst.
        unfold shift_of. destruct (ineqs p); [easy|lia]. }
    destruct H2 as (W2 & E3 & E4 & F3 & Hs2 & HI2 & HE2).
    rewrite E3, E4, E1, E2 in *. simpl app in *.
    assert (KE : keys WE = map (fun ie => SK 1 0 (fst ie) 0) (number 0 (eqs p))).
    { unfold keys. rewrite (stores_keys _ _ F2), map_map. easy. }
    assert (KI : forall k, In k (keys WI) -> exists i, k = SK 0 0 i 0).
    { unfold keys. rewrite (stores_keys _ _ F1), map_map. intros k Hk.
      apply in_map_iff in Hk as [x [<- _]]. simpl. eauto. }
    assert (KC : forall k, In k (keys W2) -> exists F i j, k = SK 0 F i j).
    { unfold keys. rewrite (stores_keys _ _ F3). intros k Hk.
      apply in_map_iff in Hk as [kt [<- Hk]]. apply in_flat_map in Hk as [kf [_ Hk]].
      unfold fun_table in Hk. apply in_map_iff in Hk as [ij [<- _]]. simpl. eauto. }
    assert (HNE : NoDup (keys WE)).
    { rewrite KE. apply (number_keys_nodup (fun i => SK 1 0 i 0)). intros i j E. injection E; easy. }
    assert (HDE : forall k, In k (keys WE) -> ~ In k (keys (WI ++ W2))).
    { intros k Hk Hin. rewrite KE in Hk. apply in_map_iff in Hk as [x [<- _]].
      unfold keys in Hin. rewrite map_app, in_app_iff in Hin. destruct Hin as [Hin|Hin].
      - apply KI in Hin as [i E]. easy.
      - apply KC in Hin as [F [i [j E]]]. easy. }
    rewrite (update_append WE (WI ++ W2) HNE HDE) in *. cbv zeta.
    split.
    { intros Hin. unfold keys in Hin. rewrite !map_app, !in_app_iff in Hin.
      destruct Hin as [[Hin|Hin]|Hin].
      - apply KI in Hin as [i E]. easy.
      - apply KC in Hin as [F [i [j E]]]. easy.
      - fold (keys WE) in Hin. rewrite KE in Hin. apply in_map_iff in Hin as [x [E _]]. easy. }
    split.
    { unfold constraint_table. rewrite app_assoc. apply Forall2_app; [|easy]. apply Forall2_app; easy. }
    split.
    { intros r Fv Gm. rewrite (Hs2 r Fv Gm), (Hs1 r Fv Gm), !lsum_app. simpl. lra. }
    rewrite !app_length. split; lia.
  Qed.

  Theorem csm_spec p funs fns s sr s' :
    circuit_symbolic_matrices SY p funs dimG dimF s = (Ok sr, s') ->
    NoDup funs ->
    Forall2 (fun f fn => dget Nat.eqb f (st_funs s) = Some fn /\ fresh_fun fn) funs fns ->
    exists W m wm,
      pr_metric p = Some m /\
      expression_to_matrix SY m dimG dimF = Ok wm /\
      sr_exp sr = W ++ [(SObj, wm)] /\
      Forall2 (stores SY dimG dimF) (constraint_table SY p fns) W /\
      sum_ext dimG dimF zero_fg (sr_sum sr) W /\
      sr_E sr = List.length (eqs p) /\
      (sr_I sr + sr_E sr = List.length W)%nat.
  Proof.
    intros H Hn HF. unfold circuit_symbolic_matrices in H.
    apply bind_ok in H as [[s1 iq] [st1 [H1 H]]]. apply lift_ok in H1 as [H1 ->].
    apply bind_ok in H as [s2 [st2 [H2 H]]].
    destruct (loops_spec p funs fns s s1 iq s2 st2 H1 H2 Hn HF) as (L1 & L2 & L3 & L4 & L5).
    apply bind_ok in H as [u [st3 [H3 H]]]. apply assertM_ok in H3 as [H3 ->].
    destruct (pr_metric p) as [m|] eqn:Em; [|unfold raise in H; easy].
    apply bind_ok in H as [wm [st4 [H4 H]]]. apply lift_ok in H4 as [H4 ->].
    unfold ret in H. injection H; intros <- <-. clear H.
    eexists; exists m, wm. split; [easy|]. split; [easy|]. split.
    { simpl. apply (dset_notin skey_eqb skey_eqb_eq). exact L1. }
    simpl. easy.
  Qed.

  (** Totality of the assembly. *)
  Definition convertible (e : expr) : Prop := exists w, expression_to_matrix SY e dimG dimF = Ok w.

  Lemma extra_loop_total : forall l iq ie s, Forall (fun c => convertible (c_expr c)) l ->
    exists r, extra_loop SY dimG dimF l iq ie s = Ok r.
  Proof.
    induction l as [|c l IH]; intros iq ie s H; simpl; [eauto|].
    inversion H as [|? ? [w Hw] H']; subst. rewrite Hw. simpl. destruct (c_kind c); apply IH; easy.
  Qed.

  Lemma class_loop_total F : forall l cons s, List.length l = List.length cons -> Forall convertible cons ->
    exists s', class_loop SY dimG dimF F l cons s = Ok s'.
  Proof.
    induction l as [|[i j] l IH]; intros cons s Hl H; simpl; [eauto|].
    destruct cons as [|e cons]; [easy|]. inversion H as [|? ? [w Hw] H']; subst. rewrite Hw. simpl.
    apply IH; [simpl in Hl; lia|easy].
  Qed.

  Lemma row_total c : c <> CBase -> (forall ti tj, exists e, class_constraint SY c ti tj = Ok e) ->
    forall ti l, exists r, row SY c ti l = Ok r.
  Proof.
    intros Hc Ht ti. induction l as [|tj l [r IH]]; simpl; [eauto|].
    destruct (Nat.eqb (t_id ti) (t_id tj)); [eauto|].
    destruct (Ht ti tj) as [e ->]. simpl. rewrite IH. simpl. eauto.
  Qed.
  Lemma rows_total c : c <> CBase -> (forall ti tj, exists e, class_constraint SY c ti tj = Ok e) ->
    forall li l, exists r, rows SY c li l = Ok r.
  Proof.
    intros Hc Ht. induction li as [|ti li IH]; intros l; simpl; [eauto|].
    destruct (row_total c Hc Ht ti l) as [a ->]. simpl. destruct (IH l) as [b ->]. simpl. eauto.
  Qed.

  Lemma fun_loop_total shift : forall l idx ss s fns,
    NoDup l ->
    Forall2 (fun f fn => dget Nat.eqb f (st_funs s) = Some fn /\ fresh_fun fn /\ fn_class fn <> CBase /\
      (forall ti tj, exists e, class_constraint SY (fn_class fn) ti tj = Ok e) /\
      (forall ti tj e, In ti (fn_pts fn) -> In tj (fn_pts fn) ->
         class_constraint SY (fn_class fn) ti tj = Ok e -> convertible e)) l fns ->
    exists ss' s', fun_loop SY dimG dimF shift idx l ss s = (Ok ss', s').
  Proof.
    induction l as [|f l IH]; intros idx ss s fns Hn HF; simpl; [unfold ret; eauto|].
    inversion HF as [|? fn ? fns' (Hf & [Hfc Hfr] & Hb & Ht & Hcv) HF']; subst.
    inversion Hn as [|? ? Hnf Hn']; subst.
    destruct (rows_total (fn_class fn) Hb Ht (fn_pts fn) (fn_pts fn)) as [rs Hrs].
    set (fn' := mkFunc (fn_leaf fn) (fn_reuse fn) (fn_class fn) (fn_dict fn) (fn_ctr fn)
                               (fn_stat fn) (fn_pts fn) (fn_cons fn ++ rs)).
    set (s1 := mkState (st_next s) (st_pctr s) (st_ectr s) (st_fctr s)
               (dset Nat.eqb f fn' (st_funs s)) (st_flist s) (st_plist s) (st_elist s)).
    assert (HA : add_class_constraints SY f s = (Ok tt, s1)).
    { unfold add_class_constraints, bind, get_fun. rewrite Hf.
      destruct (fn_class fn) eqn:Ec; [easy| | |]; unfold lift; rewrite Hrs; unfold set_fun, s1, fn'; try rewrite Ec; easy. }
    unfold bind at 1. rewrite HA. unfold bind at 1. unfold get_fun. unfold s1 at 1. simpl st_funs.
    rewrite (dget_dset_same Nat.eqb nat_eqb_iff). simpl fn_pts. simpl fn_cons. rewrite Hfc. simpl app.
    assert (HP := rows_pairs SY _ _ _ Hfr Hrs). assert (HL := Forall2_length' _ _ _ HP).
    destruct (class_loop_total (idx + shift) (pairs (List.length (fn_pts fn))) rs ss HL) as [ss1 Hcl].
    { rewrite Forall_forall. intros e He.
      assert (G : forall l rs, Forall2 (fun ij e => class_constraint SY (fn_class fn) (nth (fst ij) (fn_pts fn) dummy_trip)
          (nth (snd ij) (fn_pts fn) dummy_trip) = Ok e) l rs -> In e rs -> exists ij, In ij l /\
          class_constraint SY (fn_class fn) (nth (fst ij) (fn_pts fn) dummy_trip) (nth (snd ij) (fn_pts fn) dummy_trip) = Ok e).
      { intros l0 rs0. induction 1 as [|ij e' l0 rs0 E F IHF]; [easy|]. intros [<-|Hin].
        - exists ij; simpl; auto.
        - destruct (IHF Hin) as [ij' [A B]]. exists ij'; simpl; auto. }
      destruct (G _ _ HP He) as [[i j] [Hin E]]. apply pairs_spec in Hin as (Hi & Hj & _). simpl in E.
      eapply Hcv; [| |exact E]; apply nth_In; easy. }
    unfold bind at 1. unfold lift. rewrite Hcl. unfold bind, assertM.
    rewrite <- HL, pairs_length, Nat.eqb_refl. unfold ret.
    apply (IH _ _ s1 fns'); [easy|].
    clear -HF' Hnf. revert Hnf. induction HF' as [|f' fn2 l fns [H1 H2] HF IH]; intros Hnf; constructor.
    - split; [|easy]. unfold s1; simpl. rewrite (dget_dset_other Nat.eqb nat_eqb_iff); [easy|].
      intros ->; apply Hnf; simpl; auto.
    - apply IH. intros Hin; apply Hnf; simpl; auto.
  Qed.

  Theorem csm_total p funs fns s m :
    NoDup funs -> pr_metric p = Some m -> convertible m ->
    Forall (fun c => convertible (c_expr c)) (pr_cons p) ->
    Forall2 (fun f fn => dget Nat.eqb f (st_funs s) = Some fn /\ fresh_fun fn /\ fn_class fn <> CBase /\
      (forall ti tj, exists e, class_constraint SY (fn_class fn) ti tj = Ok e) /\
      (forall ti tj e, In ti (fn_pts fn) -> In tj (fn_pts fn) ->
         class_constraint SY (fn_class fn) ti tj = Ok e -> convertible e)) funs fns ->
    exists sr s', circuit_symbolic_matrices SY p funs dimG dimF s = (Ok sr, s').
  Proof.
    intros Hn Hm [wm Hwm] Hc HF. unfold circuit_symbolic_matrices.
    destruct (extra_loop_total (pr_cons p) 0 0 (mkSS [] [] zero_fg 0 0) Hc) as [[s1 iq] H1].
    destruct (fun_loop_total (if Nat.leb 1 iq then 1 else 0)%nat funs 0 s1 s fns Hn HF) as [s2 [st2 H2]].
    destruct (loops_spec p funs fns s s1 iq s2 st2 H1 H2 Hn) as (L1 & L2 & L3 & L4 & L5).
    { clear -HF. induction HF as [|? ? ? ? H]; constructor; easy. }
    unfold bind at 1, lift at 1. rewrite H1. unfold bind at 1. rewrite H2.
    unfold bind at 1, assertM. rewrite <- L5, Nat.eqb_refl. unfold ret at 1. rewrite Hm.
    unfold bind, lift. rewrite Hwm. unfold ret. eauto.
  Qed.
End FunLoop.
