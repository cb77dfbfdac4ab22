(** Assembled statements for C14-C16, C18-C21. *)
From Coq Require Import List Arith Bool String QArith Reals Qreals Lra Lia.
From Verif Require Import Prelude PreludeFacts Sympy SympyFacts AlgebraModel Denote AlgebraFacts
  FunctionModel CircuitModel SymSpec GramFacts SymFacts Spec SpecFacts ClassSpec ClassFacts CertSpec
  StateSpec SessionModel StateFacts CertFacts.
Import ListNotations.
Local Open Scope R_scope.

Lemma own_wf_t s t : own_t s t -> wf_t t.
Proof. intros (A & B & C); repeat split; [apply A|apply B|apply C]. Qed.

Lemma Forall2_in_r {A B} (P : A -> B -> Prop) l1 l2 b : Forall2 P l1 l2 -> In b l2 -> exists a, In a l1 /\ P a b.
Proof. induction 1 as [|x y l1 l2 H F IH]; [easy|]. intros [<-|Hin]; [exists x; simpl; auto|]. destruct (IH Hin) as [a [? ?]]. exists a; simpl; auto. Qed.
Lemma Forall2_in_l {A B} (P : A -> B -> Prop) l1 l2 a : Forall2 P l1 l2 -> In a l1 -> exists b, In b l2 /\ P a b.
Proof. induction 1 as [|x y l1 l2 H F IH]; [easy|]. intros [<-|Hin]; [exists y; simpl; auto|]. destruct (IH Hin) as [b [? ?]]. exists b; simpl; auto. Qed.

Lemma lsum_flat_map {A B} (f : B -> R) (g : A -> list B) l : lsum f (flat_map g l) = lsum (fun a => lsum f (g a)) l.
Proof. induction l as [|a l IH]; [easy|]. simpl flat_map. rewrite lsum_app, lsum_cons, IH. easy. Qed.

Lemma number_nth {A} (l : list A) : forall i k a, In (k, a) (number i l) <-> (i <= k)%nat /\ nth_error l (k - i) = Some a.
Proof.
  induction l as [|b l IH]; intros i k a; simpl.
  - split; [easy|]. intros [_ H]. destruct (k - i)%nat; easy.
  - rewrite IH. split.
    + intros [E|[H1 H2]].
      * injection E; intros -> ->. rewrite Nat.sub_diag. easy.
      * split; [lia|]. replace (k - i)%nat with (S (k - S i)) by lia. easy.
    + intros [H1 H2]. destruct (Nat.eq_dec i k) as [->|Hne].
      * rewrite Nat.sub_diag in H2. injection H2; intros ->. auto.
      * right. split; [lia|]. replace (k - i)%nat with (S (k - S i)) in H2 by lia. easy.
Qed.

Section P.
  Variable SY : sympy.

  (** What [add_class_constraints] does on a function of a reachable state. *)
  Lemma add_class_spec s f fn s' u : Inv s -> In f (st_flist s) -> dget Nat.eqb f (st_funs s) = Some fn ->
    add_class_constraints SY f s = (Ok u, s') ->
    exists fn', dget Nat.eqb f (st_funs s') = Some fn' /\ fn_pts fn' = fn_pts fn /\ fn_class fn' = fn_class fn /\
      Forall2 (fun ij e => class_constraint SY (fn_class fn) (nth (fst ij) (fn_pts fn) dummy_trip) (nth (snd ij) (fn_pts fn) dummy_trip) = Ok e)
        (pairs (List.length (fn_pts fn))) (fn_cons fn').
  Proof.
    intros I Hf E H. destruct (inv_funs s I f Hf) as [fn0 [E0 Hok]]. rewrite E in E0; injection E0; intros <-; clear E0.
    destruct Hok as (_ & _ & Hn & _ & _ & Hc).
    unfold add_class_constraints in H. apply bind_ok in H as [fn1 [s1 [H1 H]]].
    apply get_fun_ok in H1 as [H1 ->]. rewrite E in H1; injection H1; intros <-; clear H1.
    assert (G : forall c, c = fn_class fn -> c <> CBase -> 
      (do l <- lift (rows SY c (fn_pts fn) (fn_pts fn));
       set_fun f (mkFunc (fn_leaf fn) (fn_reuse fn) (fn_class fn) (fn_dict fn) (fn_ctr fn)
                               (fn_stat fn) (fn_pts fn) (fn_cons fn ++ l))) s = (Ok u, s') -> 
      exists fn', dget Nat.eqb f (st_funs s') = Some fn' /\ fn_pts fn' = fn_pts fn /\ fn_class fn' = fn_class fn /\
      Forall2 (fun ij e => class_constraint SY (fn_class fn) (nth (fst ij) (fn_pts fn) dummy_trip) (nth (snd ij) (fn_pts fn) dummy_trip) = Ok e)
        (pairs (List.length (fn_pts fn))) (fn_cons fn')).
    { intros c -> _ H2. apply bind_ok in H2 as [l [s2 [H2 H3]]]. apply lift_ok in H2 as [H2 ->].
      unfold set_fun in H3. injection H3; intros <- _. eexists. split; [apply (dget_dset_same Nat.eqb nat_eqb_iff)|]. simpl.
      rewrite Hc. simpl. split; [easy|]. split; [easy|]. apply rows_pairs; easy. }
    destruct (fn_class fn) eqn:Ec; [unfold raise in H; easy| | |]; (eapply G; [reflexivity|discriminate|exact H]).
  Qed.

  Lemma add_class_total s f fn : Inv s -> In f (st_flist s) -> dget Nat.eqb f (st_funs s) = Some fn ->
    fn_leaf fn = true -> class_params_ok (fn_class fn) ->
    exists s', add_class_constraints SY f s = (Ok tt, s').
  Proof.
    intros I Hf E El Hp. destruct (inv_funs s I f Hf) as [fn0 [E0 Hok]]. rewrite E in E0; injection E0; intros <-; clear E0.
    destruct Hok as (Hb & _). rewrite El in Hb. destruct Hb as [_ Hb].
    unfold add_class_constraints, bind, get_fun. rewrite E.
    destruct (rows_total SY (fn_class fn) Hb (fun ti tj => class_constraint_total SY _ ti tj Hb Hp) (fn_pts fn) (fn_pts fn)) as [r Hr].
    destruct (fn_class fn); [easy| | |]; rewrite Hr; simpl; unfold set_fun; eauto.
  Qed.

  Lemma rec_wf s f fn t : Inv s -> In f (st_flist s) -> dget Nat.eqb f (st_funs s) = Some fn -> In t (fn_pts fn) -> wf_t t.
  Proof.
    intros I Hf E Ht. destruct (inv_funs s I f Hf) as [fn0 [E0 Hok]]. rewrite E in E0; injection E0; intros <-; clear E0.
    destruct Hok as (_ & Ho & _). rewrite Forall_forall in Ho. apply (own_wf_t s), Ho, Ht.
  Qed.

  (** C14-C16 *)
  Theorem class_sound : sympy_ok SY ->
    forall l f fn s' fn' v phi, let s := se_st (run SY session0 l) in
      In f (st_flist s) -> dget Nat.eqb f (st_funs s) = Some fn ->
      add_class_constraints SY f s = (Ok tt, s') -> dget Nat.eqb f (st_funs s') = Some fn' ->
      class_params_ok (fn_class fn) -> in_class (v_dim v) (fn_class fn) phi ->
      (forall t, In t (fn_pts fn) -> rec_sampled v phi t) ->
      forall e, In e (fn_cons fn') -> den_e v e <= 0.
  Proof.
    intros OK l f fn s' fn' v phi s Hf E H E' Hp Hc Hs e He.
    assert (I := si_inv _ (reachable_inv SY l)). fold s in I.
    destruct (add_class_spec s f fn s' tt I Hf E H) as (fn2 & E2 & _ & _ & F).
    rewrite E' in E2; injection E2; intros <-; clear E2.
    destruct (Forall2_in_r _ _ _ e F He) as [[i j] [Hij Hcc]]. simpl in Hcc.
    apply pairs_spec in Hij as (Hi & Hj & _).
    assert (Ti := nth_In (fn_pts fn) dummy_trip Hi). assert (Tj := nth_In (fn_pts fn) dummy_trip Hj).
    eapply (class_constraint_sound SY OK v (fn_class fn) phi); eauto using rec_wf.
  Qed.

  (** C18, first part *)
  Theorem enumeration : sympy_ok SY ->
    forall l f fn, let s := se_st (run SY session0 l) in let n := List.length (fn_pts fn) in
      In f (st_flist s) -> dget Nat.eqb f (st_funs s) = Some fn -> fn_leaf fn = true ->
      class_params_ok (fn_class fn) ->
      exists s' fn', add_class_constraints SY f s = (Ok tt, s') /\ dget Nat.eqb f (st_funs s') = Some fn' /\
        List.length (fn_cons fn') = (n * (n - 1))%nat /\
        forall i j, (i < n)%nat -> (j < n)%nat -> i <> j ->
          exists e, nth_error (fn_cons fn') (i * (n - 1) + (if Nat.ltb j i then j else j - 1))%nat = Some e /\
          forall v, let ti := nth i (fn_pts fn) dummy_trip in let tj := nth j (fn_pts fn) dummy_trip in
            den_e v e = interp_value (v_dim v) (fn_class fn)
              (den_p v (t_x ti)) (den_p v (t_g ti)) (den_e v (t_f ti))
              (den_p v (t_x tj)) (den_p v (t_g tj)) (den_e v (t_f tj)).
  Proof.
    intros OK l f fn s n Hf E El Hp. assert (I := si_inv _ (reachable_inv SY l)). fold s in I.
    destruct (add_class_total s f fn I Hf E El Hp) as [s' H]. exists s'.
    destruct (add_class_spec s f fn s' tt I Hf E H) as (fn2 & E2 & _ & _ & F). exists fn2.
    split; [easy|]. split; [easy|]. split.
    { apply Forall2_length' in F. rewrite pairs_length in F. easy. }
    intros i j Hi Hj Hne.
    assert (Hpos : nth_error (pairs n) (i * (n - 1) + (if Nat.ltb j i then j else j - 1)) = Some (i, j)).
    { clear -Hi Hj Hne. unfold pairs.
      assert (R : forall (i : nat) m, (i < m)%nat ->
        flat_map (fun j => if Nat.eqb i j then [] else [(i, j)]) (seq 0 m) =
        map (fun j => (i, j)) (seq 0 i) ++ map (fun j => (i, j)) (seq (S i) (m - 1 - i))).
      { clear. intros i m Hi.
        assert (Es : seq 0 m = seq 0 i ++ i :: seq (S i) (m - 1 - i)).
        { replace m with (i + S (m - 1 - i))%nat at 1 by lia. rewrite seq_app. simpl. easy. }
        rewrite Es, flat_map_app. f_equal.
        - assert (G : forall l, (forall x, In x l -> x <> i) -> flat_map (fun j => if Nat.eqb i j then [] else [(i, j)]) l = map (fun j => (i, j)) l).
          { induction l as [|x l IH]; intros Hx; simpl; [easy|]. destruct (Nat.eqb_spec i x) as [->|_]; [destruct (Hx x); simpl; auto|].
            simpl. rewrite IH; [easy|]. intros; apply Hx; simpl; auto. }
          apply G. intros x Hx. apply in_seq in Hx. lia.
        - simpl. rewrite Nat.eqb_refl. simpl.
          assert (G : forall l, (forall x, In x l -> x <> i) -> flat_map (fun j => if Nat.eqb i j then [] else [(i, j)]) l = map (fun j => (i, j)) l).
          { induction l as [|x l IH]; intros Hx; simpl; [easy|]. destruct (Nat.eqb_spec i x) as [->|_]; [destruct (Hx x); simpl; auto|].
            simpl. rewrite IH; [easy|]. intros; apply Hx; simpl; auto. }
          apply G. intros x Hx. apply in_seq in Hx. lia. }
      assert (Lr : forall i, (i < n)%nat -> List.length (flat_map (fun j => if Nat.eqb i j then [] else [(i, j)]) (seq 0 n)) = (n - 1)%nat).
      { intros k Hk. rewrite R by easy. rewrite app_length, !map_length, !seq_length. lia. }
      assert (Lp : forall k, (k <= n)%nat -> List.length (flat_map (fun i => flat_map (fun j => if Nat.eqb i j then [] else [(i, j)]) (seq 0 n)) (seq 0 k)) = (k * (n - 1))%nat).
      { induction k as [|k IH]; intros Hk; [easy|]. rewrite seq_S, flat_map_app, app_length, IH by lia. simpl. rewrite app_nil_r, Lr by lia. lia. }
      assert (Es : seq 0 n = seq 0 i ++ i :: seq (S i) (n - 1 - i)).
      { replace n with (i + S (n - 1 - i))%nat at 1 by lia. rewrite seq_app. easy. }
      set (g := fun i : nat => flat_map _ _) in *. rewrite Es, flat_map_app. subst g. rewrite nth_error_app2; rewrite Lp by lia; [|lia].
      simpl. rewrite nth_error_app1.
      2:{ rewrite Lr by easy. destruct (Nat.ltb_spec j i); lia. }
      rewrite R by easy.
      destruct (Nat.ltb_spec j i).
      - rewrite nth_error_app1; [|rewrite map_length, seq_length; lia].
        replace (i * (n - 1) + j - i * (n - 1))%nat with j by lia.
        apply map_nth_error. rewrite (nth_error_nth' _ 0%nat) by (rewrite seq_length; lia). rewrite seq_nth by lia. easy.
      - rewrite nth_error_app2; rewrite map_length, seq_length; [|lia].
        apply map_nth_error. rewrite (nth_error_nth' _ 0%nat) by (rewrite seq_length; lia). rewrite seq_nth by lia. f_equal. lia. }
    clear -F Hpos OK I Hf E Hi Hj. fold n in F.
    assert (G : forall (A B : Type) (P : A -> B -> Prop) l1 l2, Forall2 P l1 l2 -> forall k a, nth_error l1 k = Some a -> exists b, nth_error l2 k = Some b /\ P a b).
    { clear. induction 1 as [|x y l1 l2 H F IH]; intros [|k] a Hk; simpl in *; try easy.
      - injection Hk; intros <-. eauto.
      - apply IH; easy. }
    destruct (G _ _ _ _ _ F _ _ Hpos) as [e [He Hcc]]. exists e. split; [easy|]. intros v. simpl in Hcc.
    apply (class_constraint_den SY OK v _ _ _ _ Hcc); eapply rec_wf; eauto; apply nth_In; easy.
  Qed.

  (** The assembly on a reachable state. *)
  Lemma symbolic_spec s p sr s' : Inv s -> symbolic SY p s = (Ok sr, s') ->
    exists W m wm, pr_metric p = Some m /\
      expression_to_matrix SY m (st_pctr s) (st_ectr s) = Ok wm /\
      sr_exp sr = W ++ [(SObj, wm)] /\
      Forall2 (stores SY (st_pctr s) (st_ectr s)) (constraint_table SY p (funs_of s (leaf_funs (st_flist s) s))) W /\
      sum_ext (st_pctr s) (st_ectr s) zero_fg (sr_sum sr) W /\
      sr_E sr = List.length (eqs p) /\ (sr_I sr + sr_E sr = List.length W)%nat.
  Proof.
    intros I HS. unfold symbolic in HS. set (funs := leaf_funs (st_flist s) s) in *.
    assert (Hin : forall f, In f funs -> In f (st_flist s)) by (intros f Hf; apply leaf_funs_in in Hf; easy).
    apply (csm_spec SY) with (fns := funs_of s funs) in HS; [easy|apply leaf_funs_nodup, (inv_flist s I)|].
    assert (G : forall l, (forall f, In f l -> In f (st_flist s)) ->
        Forall2 (fun f fn => dget Nat.eqb f (st_funs s) = Some fn /\ fresh_fun fn) l (funs_of s l)).
    { induction l as [|f l IH]; intros Hl; simpl; [constructor|].
      destruct (inv_funs s I f (Hl f (or_introl eq_refl))) as [fn [E Hok]]. rewrite E. constructor.
      - split; [easy|]. destruct Hok as (_ & _ & A & _ & _ & B). split; easy.
      - apply IH. intros; apply Hl; simpl; auto. }
    apply G, Hin.
  Qed.

  (** Values of the leaves of the current problem, by index. *)
  Definition leaf_x (s : state) (v : valuation) (i : nat) : vec := v_pt v (nth i (st_plist s) dleaf).
  Definition leaf_f (s : state) (v : valuation) (i : nat) : R := v_fv v (nth i (st_elist s) dleaf).
  (** sum_k F_k f_k + sum_ab G_ab <x_a, x_b> *)
  Definition paired (s : state) (v : valuation) (w : fgw) : R :=
    rsum (st_ectr s) (fun k => ev (v_env v) (wF w k) * leaf_f s v k) +
    rsum (st_pctr s) (fun a => rsum (st_pctr s) (fun b => ev (v_env v) (wG w a b) * dot (v_dim v) (leaf_x s v a) (leaf_x s v b))).

  Lemma paired_expr s v e w : Inv s -> own_e s e -> no_const e ->
    expression_to_matrix SY e (st_pctr s) (st_ectr s) = Ok w -> paired s v w = den_e v e.
  Proof.
    intros I Ho Hc Hw.
    rewrite <- (expression_to_matrix_val SY (v_env v) v _ _ eq_refl (st_pctr s) (st_ectr s) e w Hw (own_leaf_vals s v e I Ho)).
    rewrite (no_const_part (v_env v) e Hc). unfold paired, fg_val, leaf_x, leaf_f. lra.
  Qed.

  Lemma funs_of_nth s l k f fn : (forall g, In g l -> exists fg, dget Nat.eqb g (st_funs s) = Some fg) ->
    nth_error l k = Some f -> dget Nat.eqb f (st_funs s) = Some fn -> nth_error (funs_of s l) k = Some fn.
  Proof.
    revert k; induction l as [|g l IH]; intros [|k] Hl Hk E; simpl in *; try easy.
    - injection Hk; intros ->. rewrite E. easy.
    - destruct (Hl g (or_introl eq_refl)) as [fg Eg]. rewrite Eg. simpl. apply IH; auto.
  Qed.

  Lemma funs_of_inv s l k fn : (forall g, In g l -> exists fg, dget Nat.eqb g (st_funs s) = Some fg) ->
    nth_error (funs_of s l) k = Some fn -> exists f, nth_error l k = Some f /\ dget Nat.eqb f (st_funs s) = Some fn.
  Proof.
    revert k; induction l as [|g l IH]; intros k Hl Hk; simpl in *; [destruct k; easy|].
    destruct (Hl g (or_introl eq_refl)) as [fg Eg]. rewrite Eg in Hk. destruct k; simpl in *.
    - injection Hk; intros <-. eauto.
    - apply IH; auto.
  Qed.

  Lemma table_keys_nodup p fns : NoDup (map fst (constraint_table SY p fns)).
  Proof.
    unfold constraint_table. rewrite !map_app.
    assert (N1 : NoDup (map fst (extra_ineq_table p))).
    { unfold extra_ineq_table. rewrite map_map. simpl. apply (number_keys_nodup (fun i => SK 0 0 i 0)). intros i j E; injection E; easy. }
    assert (N3 : NoDup (map fst (eq_table p))).
    { unfold eq_table. rewrite map_map. simpl. apply (number_keys_nodup (fun i => SK 1 0 i 0)). intros i j E; injection E; easy. }
    assert (NA : forall (A : Type) (l1 l2 : list A), NoDup l1 -> NoDup l2 -> (forall x, In x l1 -> ~ In x l2) -> NoDup (l1 ++ l2)).
    { clear. induction l1 as [|a l1 IH]; simpl; intros l2 H1 H2 Hd; [easy|]. inversion H1; subst. constructor.
      - rewrite in_app_iff. intros [H|H]; [easy|]. apply (Hd a); auto.
      - apply IH; auto. }
    assert (KF : forall F fn k, In k (map fst (fun_table SY F fn)) -> exists i j, k = SK 0 F i j /\ i <> j).
    { intros F fn k Hk. unfold fun_table in Hk. rewrite map_map in Hk. apply in_map_iff in Hk as [[i j] [<- Hk]]. simpl. apply pairs_spec in Hk. exists i, j. easy. }
    assert (NF : forall F fn, NoDup (map fst (fun_table SY F fn))).
    { intros F fn. unfold fun_table. rewrite map_map. simpl.
      generalize (pairs_nodup (List.length (fn_pts fn))). generalize (pairs (List.length (fn_pts fn))). clear.
      induction l as [|[i j] l IH]; simpl; intros H; [constructor|]. inversion H; subst. constructor; [|auto].
      intros Hin. apply in_map_iff in Hin as [[i' j'] [E Hin]]. simpl in E. injection E; intros; subst. easy. }
    assert (N2 : NoDup (map fst (class_table SY p fns))).
    { unfold class_table. generalize 0%nat.
      induction fns as [|fn fns IH]; intros n; simpl; [constructor|]. rewrite map_app. apply NA; [apply NF|apply IH|].
      intros k Hk Hin. apply KF in Hk as (i & j & -> & _). apply in_map_iff in Hin as [kt [E Hin]].
      apply in_flat_map in Hin as [[m g] [Hm Hin]]. apply number_nth in Hm as [Hm _].
      assert (Hk : In (fst kt) (map fst (fun_table SY (m + shift_of p) g))) by (apply in_map; easy).
      apply KF in Hk as (i' & j' & E' & _). rewrite E in E'. injection E'; intros; lia. }
    assert (K1 : forall k, In k (map fst (extra_ineq_table p)) -> exists i, k = SK 0 0 i 0 /\ shift_of p = 1%nat).
    { intros k Hk. unfold extra_ineq_table in Hk. rewrite map_map in Hk. apply in_map_iff in Hk as [[i e] [<- Hk]]. exists i. split; [easy|].
      unfold shift_of. destruct (ineqs p); easy. }
    assert (K2 : forall k, In k (map fst (class_table SY p fns)) -> exists F i j, k = SK 0 F i j /\ (shift_of p <= F)%nat).
    { intros k Hk. apply in_map_iff in Hk as [kt [<- Hk]]. unfold class_table in Hk. apply in_flat_map in Hk as [[m g] [Hm Hk]].
      assert (H : In (fst kt) (map fst (fun_table SY (m + shift_of p) g))) by (apply in_map; easy).
      apply KF in H as (i & j & -> & _). exists (m + shift_of p)%nat, i, j. split; [easy|lia]. }
    assert (K3 : forall k, In k (map fst (eq_table p)) -> exists i, k = SK 1 0 i 0).
    { intros k Hk. unfold eq_table in Hk. rewrite map_map in Hk. apply in_map_iff in Hk as [[i e] [<- Hk]]. exists i; easy. }
    apply NA; [easy|apply NA; [easy|easy|]|].
    - intros k H2 H3. apply K2 in H2 as (F & i & j & -> & _). apply K3 in H3 as [i' E]. easy.
    - intros k H1 H2. apply K1 in H1 as (i & -> & Hs). apply in_app_or in H2 as [H2|H2].
      + apply K2 in H2 as (F & i' & j' & E & HF). injection E; intros; lia.
      + apply K3 in H2 as [i' E]. easy.
  Qed.

  (** C18, second part *)
  Theorem stored_inv : sympy_ok SY ->
    forall s p sr s', Inv s -> own_pb s p ->
      symbolic SY p s = (Ok sr, s') ->
      NoDup (keys (sr_exp sr)) /\
      List.length (sr_exp sr) = S (sr_I sr + sr_E sr) /\
      (forall b F i j, In (SK b F i j) (keys (sr_exp sr)) <->
        (b = 0%nat /\ F = 0%nat /\ j = 0%nat /\ (i < List.length (ineqs p))%nat) \/
        (b = 1%nat /\ F = 0%nat /\ j = 0%nat /\ (i < List.length (eqs p))%nat) \/
        (b = 0%nat /\ exists k f fn, F = (k + shift_of p)%nat /\
           nth_error (leaf_funs (st_flist s) s) k = Some f /\ dget Nat.eqb f (st_funs s) = Some fn /\
           (i < List.length (fn_pts fn))%nat /\ (j < List.length (fn_pts fn))%nat /\ i <> j)) /\
      (forall i e w, nth_error (ineqs p) i = Some e ->
         dget skey_eqb (SK 0 0 i 0) (sr_exp sr) = Some w -> no_const e ->
         forall v, paired s v w = den_e v e) /\
      (forall i e w, nth_error (eqs p) i = Some e ->
         dget skey_eqb (SK 1 0 i 0) (sr_exp sr) = Some w -> no_const e ->
         forall v, paired s v w = den_e v e) /\
      (forall e w, pr_metric p = Some e ->
         dget skey_eqb SObj (sr_exp sr) = Some w -> no_const e ->
         forall v, paired s v w = den_e v e) /\
      (forall k f fn i j w, nth_error (leaf_funs (st_flist s) s) k = Some f ->
         dget Nat.eqb f (st_funs s) = Some fn ->
         (i < List.length (fn_pts fn))%nat -> (j < List.length (fn_pts fn))%nat -> i <> j ->
         dget skey_eqb (SK 0 (k + shift_of p) i j) (sr_exp sr) = Some w ->
         Forall (fun t => no_const (t_f t)) (fn_pts fn) ->
         forall v, let ti := nth i (fn_pts fn) dummy_trip in let tj := nth j (fn_pts fn) dummy_trip in
           paired s v w = interp_value (v_dim v) (fn_class fn)
              (den_p v (t_x ti)) (den_p v (t_g ti)) (den_e v (t_f ti))
              (den_p v (t_x tj)) (den_p v (t_g tj)) (den_e v (t_f tj))).
  Proof.
    intros OK s p sr s' I HB HS.
    destruct (symbolic_spec s p sr s' I HS) as (W & m & wm & Em & Ew & Ex & F2 & _ & HE & HIE).
    set (fns := funs_of s (leaf_funs (st_flist s) s)) in *.
    assert (KW : keys W = map fst (constraint_table SY p fns)) by (apply (stores_keys SY _ _ _ _ F2)).
    assert (NW : NoDup (keys W)) by (rewrite KW; apply table_keys_nodup).
    assert (Hl : forall g, In g (leaf_funs (st_flist s) s) -> exists fg, dget Nat.eqb g (st_funs s) = Some fg).
    { intros g Hg. apply leaf_funs_in in Hg as [_ [fg [H _]]]. eauto. }
    assert (NO : ~ In SObj (keys W)).
    { rewrite KW. intros H. apply in_map_iff in H as [kt [E H]]. unfold constraint_table in H. rewrite !in_app_iff in H. destruct H as [H|[H|H]].
      - apply in_map_iff in H as [x [<- _]]. easy.
      - apply in_flat_map in H as [x [_ H]]. apply in_map_iff in H as [y [<- _]]. easy.
      - apply in_map_iff in H as [x [<- _]]. easy. }
    assert (NX : NoDup (keys (sr_exp sr))).
    { rewrite Ex. unfold keys. rewrite map_app. simpl.
      clear -NW NO. unfold keys in *. induction (map fst W) as [|a L IH]; simpl; [repeat constructor; auto|].
      inversion NW; subst. constructor.
      - rewrite in_app_iff. intros [H|[H|[]]]; [easy|]. apply NO. left. easy.
      - apply IH; [easy|]. intros H; apply NO; right; easy. }
    assert (OE : forall c, In c (pr_cons p) -> own_e s (c_expr c)).
    { destruct HB as [HB _]. rewrite Forall_forall in HB. intros c Hc. apply HB. easy. }
    (* a stored entry *)
    assert (ST : forall k e w, In (k, Ok e) (constraint_table SY p fns) -> dget skey_eqb k (sr_exp sr) = Some w ->
       expression_to_matrix SY e (st_pctr s) (st_ectr s) = Ok w).
    { intros k e w Hk Hd. destruct (Forall2_in_l _ _ _ _ F2 Hk) as [[k' w'] [Hin [E1 [e' [E2 E3]]]]]. simpl in *.
      injection E2; intros <-. subst k'.
      rewrite (dget_nodup skey_eqb skey_eqb_eq k w' (sr_exp sr) NX) in Hd; [injection Hd; intros <-; easy|].
      rewrite Ex. apply in_or_app. auto. }
    split; [easy|]. split.
    { rewrite Ex, app_length. simpl. lia. }
    split; [|split; [|split; [|split]]].
    - intros b F i j. rewrite Ex. unfold keys. rewrite map_app, in_app_iff. fold (keys W). rewrite KW. unfold constraint_table.
      rewrite !map_app, !in_app_iff. split.
      + intros [[H|[H|H]]|[H|[]]]; [| | |easy].
        * left. unfold extra_ineq_table in H. rewrite map_map in H. apply in_map_iff in H as [[i' e] [E H]]. simpl in E. injection E; intros; subst.
          apply number_nth in H as [_ H]. rewrite Nat.sub_0_r in H. repeat split; try easy. apply nth_error_Some. rewrite H. easy.
        * right; right. apply in_map_iff in H as [kt [E H]]. unfold class_table in H. apply in_flat_map in H as [[k fn] [Hk H]].
          unfold fun_table in H. apply in_map_iff in H as [[i' j'] [<- H]]. simpl in E. injection E; intros; subst.
          apply pairs_spec in H as (H1 & H2 & H3). split; [easy|]. apply number_nth in Hk as [_ Hk]. rewrite Nat.sub_0_r in Hk.
          destruct (funs_of_inv s _ k fn Hl Hk) as [f [Hf Ef]]. exists k, f, fn. easy.
        * right; left. unfold eq_table in H. rewrite map_map in H. apply in_map_iff in H as [[i' e] [E H]]. simpl in E. injection E; intros; subst.
          apply number_nth in H as [_ H]. rewrite Nat.sub_0_r in H. repeat split; try easy. apply nth_error_Some. rewrite H. easy.
      + intros [(-> & -> & -> & H)|[(-> & -> & -> & H)|(-> & k & f & fn & -> & Hf & Ef & H1 & H2 & H3)]]; left.
        * left. unfold extra_ineq_table. rewrite map_map. destruct (nth_error (ineqs p) i) as [e|] eqn:E; [|apply nth_error_None in E; lia].
          apply in_map_iff. exists (i, e). split; [easy|]. apply number_nth. rewrite Nat.sub_0_r. split; [lia|easy].
        * right; right. unfold eq_table. rewrite map_map. destruct (nth_error (eqs p) i) as [e|] eqn:E; [|apply nth_error_None in E; lia].
          apply in_map_iff. exists (i, e). split; [easy|]. apply number_nth. rewrite Nat.sub_0_r. split; [lia|easy].
        * right; left. apply in_map_iff. exists (SK 0 (k + shift_of p) i j, interp SY fn i j). split; [easy|].
          unfold class_table. apply in_flat_map. exists (k, fn). split.
          -- apply number_nth. rewrite Nat.sub_0_r. split; [lia|]. eapply funs_of_nth; eauto.
          -- unfold fun_table. apply in_map_iff. exists (i, j). split; [easy|]. apply pairs_spec. auto.
    - intros i e w Hi Hd Hc v. apply (paired_expr s v e w I); [|easy|].
      + apply nth_error_In in Hi. unfold ineqs in Hi. apply in_map_iff in Hi as [c [<- Hi]]. apply filter_In in Hi as [Hi _]. auto.
      + apply (ST (SK 0 0 i 0)); [|easy]. unfold constraint_table. rewrite !in_app_iff. left.
        unfold extra_ineq_table. apply in_map_iff. exists (i, e). split; [easy|]. apply number_nth. rewrite Nat.sub_0_r. split; [lia|easy].
    - intros i e w Hi Hd Hc v. apply (paired_expr s v e w I); [|easy|].
      + apply nth_error_In in Hi. unfold eqs in Hi. apply in_map_iff in Hi as [c [<- Hi]]. apply filter_In in Hi as [Hi _]. auto.
      + apply (ST (SK 1 0 i 0)); [|easy]. unfold constraint_table. rewrite !in_app_iff. right; right.
        unfold eq_table. apply in_map_iff. exists (i, e). split; [easy|]. apply number_nth. rewrite Nat.sub_0_r. split; [lia|easy].
    - intros e w He Hd Hc v. rewrite Em in He; injection He; intros <-. apply (paired_expr s v m w I); [|easy|].
      + destruct HB as [_ HB]. rewrite Em in HB. easy.
      + rewrite (dget_nodup skey_eqb skey_eqb_eq SObj wm (sr_exp sr) NX) in Hd; [injection Hd; intros <-; easy|].
        rewrite Ex. apply in_or_app. simpl. auto.
    - intros k f fn i j w Hf Ef Hi Hj Hne Hd Hc v ti tj.
      assert (Hfl : In f (st_flist s)) by (apply nth_error_In, leaf_funs_in in Hf; easy).
      assert (Hin : In (SK 0 (k + shift_of p) i j, interp SY fn i j) (constraint_table SY p fns)).
      { unfold constraint_table. rewrite !in_app_iff. right; left. unfold class_table. apply in_flat_map. exists (k, fn). split.
        - apply number_nth. rewrite Nat.sub_0_r. split; [lia|]. eapply funs_of_nth; eauto.
        - unfold fun_table. apply in_map_iff. exists (i, j). split; [easy|]. apply pairs_spec. auto. }
      destruct (Forall2_in_l _ _ _ _ F2 Hin) as [_ [_ [_ [e [He _]]]]]. simpl in He.
      rewrite He in Hin. unfold interp in He. fold ti tj in He.
      assert (Ti : In ti (fn_pts fn)) by (apply nth_In; easy). assert (Tj : In tj (fn_pts fn)) by (apply nth_In; easy).
      destruct (inv_funs s I f Hfl) as [fn0 [E0 Hok]]. rewrite Ef in E0; injection E0; intros <-; clear E0.
      destruct Hok as (_ & Ho & _). rewrite Forall_forall in Ho, Hc.
      rewrite (paired_expr s v e w I).
      + apply (class_constraint_den SY OK v _ _ _ _ He); eapply own_wf_t; apply Ho; easy.
      + eapply own_class; [exact He|apply Ho; easy|apply Ho; easy].
      + eapply (no_const_class SY OK); [exact He|apply Hc; easy|apply Hc; easy].
      + eapply ST; eauto.
  Qed.

  Theorem stored_under_key : sympy_ok SY ->
    forall l sr s', let se := run SY session0 l in let s := se_st se in
      symbolic SY (se_pb se) s = (Ok sr, s') ->
      NoDup (keys (sr_exp sr)) /\
      List.length (sr_exp sr) = S (sr_I sr + sr_E sr) /\
      (forall b F i j, In (SK b F i j) (keys (sr_exp sr)) <->
        (b = 0%nat /\ F = 0%nat /\ j = 0%nat /\ (i < List.length (ineqs (se_pb se)))%nat) \/
        (b = 1%nat /\ F = 0%nat /\ j = 0%nat /\ (i < List.length (eqs (se_pb se)))%nat) \/
        (b = 0%nat /\ exists k f fn, F = (k + shift_of (se_pb se))%nat /\
           nth_error (leaf_funs (st_flist s) s) k = Some f /\ dget Nat.eqb f (st_funs s) = Some fn /\
           (i < List.length (fn_pts fn))%nat /\ (j < List.length (fn_pts fn))%nat /\ i <> j)) /\
      (forall i e w, nth_error (ineqs (se_pb se)) i = Some e ->
         dget skey_eqb (SK 0 0 i 0) (sr_exp sr) = Some w -> no_const e ->
         forall v, paired s v w = den_e v e) /\
      (forall i e w, nth_error (eqs (se_pb se)) i = Some e ->
         dget skey_eqb (SK 1 0 i 0) (sr_exp sr) = Some w -> no_const e ->
         forall v, paired s v w = den_e v e) /\
      (forall e w, pr_metric (se_pb se) = Some e ->
         dget skey_eqb SObj (sr_exp sr) = Some w -> no_const e ->
         forall v, paired s v w = den_e v e) /\
      (forall k f fn i j w, nth_error (leaf_funs (st_flist s) s) k = Some f ->
         dget Nat.eqb f (st_funs s) = Some fn ->
         (i < List.length (fn_pts fn))%nat -> (j < List.length (fn_pts fn))%nat -> i <> j ->
         dget skey_eqb (SK 0 (k + shift_of (se_pb se)) i j) (sr_exp sr) = Some w ->
         Forall (fun t => no_const (t_f t)) (fn_pts fn) ->
         forall v, let ti := nth i (fn_pts fn) dummy_trip in let tj := nth j (fn_pts fn) dummy_trip in
           paired s v w = interp_value (v_dim v) (fn_class fn)
              (den_p v (t_x ti)) (den_p v (t_g ti)) (den_e v (t_f ti))
              (den_p v (t_x tj)) (den_p v (t_g tj)) (den_e v (t_f tj))).
  Proof.
    intros OK l sr s' se s. assert (SI := reachable_inv SY l). fold se in SI.
    exact (stored_inv OK s (se_pb se) sr s' (si_inv _ SI) (si_pb _ SI)).
  Qed.

  (** C21 *)
  Theorem aggregated : sympy_ok SY ->
    forall l sr s', let se := run SY session0 l in let s := se_st se in
      symbolic SY (se_pb se) s = (Ok sr, s') -> constant_free (se_pb se) s ->
      forall v, paired s v (sr_sum sr) =
        lsum (fun ie => v_env v (dual_name "lamb0" (fst ie) 0) * den_e v (snd ie)) (number 0 (ineqs (se_pb se))) +
        lsum (fun ie => v_env v (dual_name "nu0" (fst ie) 0) * den_e v (snd ie)) (number 0 (eqs (se_pb se))) +
        lsum (fun kf => let fn := snd kf in
                lsum (fun ij => let ti := nth (fst ij) (fn_pts fn) dummy_trip in let tj := nth (snd ij) (fn_pts fn) dummy_trip in
                        v_env v (dual_name (lamb_prefix (fst kf + shift_of (se_pb se))) (fst ij) (snd ij)) *
                        interp_value (v_dim v) (fn_class fn)
                          (den_p v (t_x ti)) (den_p v (t_g ti)) (den_e v (t_f ti))
                          (den_p v (t_x tj)) (den_p v (t_g tj)) (den_e v (t_f tj)))
                     (pairs (List.length (fn_pts fn))))
             (number 0 (funs_of s (leaf_funs (st_flist s) s))).
  Proof.
    intros OK l sr s' se s HS Hcf v. assert (SI := reachable_inv SY l). fold se in SI.
    assert (I := si_inv _ SI). fold s in I.
    assert (HB := si_pb _ SI). fold s in HB.
    destruct (symbolic_spec s (se_pb se) sr s' I HS) as (W & m & wm & Em & Ew & Ex & F2 & Hsum & _ & _).
    set (fns := funs_of s (leaf_funs (st_flist s) s)) in *.
    assert (Hl : forall g, In g (leaf_funs (st_flist s) s) -> exists fg, dget Nat.eqb g (st_funs s) = Some fg).
    { intros g Hg. apply leaf_funs_in in Hg as [_ [fg [H _]]]. eauto. }
    destruct Hcf as (Hc1 & Hc2 & Hc3). rewrite Forall_forall in Hc2.
    (* table entries are owned and constant free *)
    assert (T : forall kt, In kt (constraint_table SY (se_pb se) fns) -> forall e, snd kt = Ok e -> own_e s e /\ no_const e).
    { assert (OE : forall c, In c (pr_cons (se_pb se)) -> own_e s (c_expr c)).
      { destruct HB as [HB _]. rewrite Forall_forall in HB. intros c Hc. apply HB. easy. }
      intros kt Hkt e He. unfold constraint_table in Hkt. rewrite !in_app_iff in Hkt. destruct Hkt as [Hkt|[Hkt|Hkt]].
      - apply in_map_iff in Hkt as [[i e'] [<- Hkt]]. simpl in He. injection He; intros ->. apply number_in in Hkt.
        unfold ineqs in Hkt. apply in_map_iff in Hkt as [c [<- Hi]]. apply filter_In in Hi as [Hi _]. auto.
      - apply in_flat_map in Hkt as [[k fn] [Hk Hkt]]. apply in_map_iff in Hkt as [[i j] [<- Hij]]. simpl in He.
        apply pairs_spec in Hij as (Hi & Hj & _). apply number_nth in Hk as [_ Hk]. rewrite Nat.sub_0_r in Hk.
        destruct (funs_of_inv s _ k fn Hl Hk) as [f [Hf Ef]].
        apply nth_error_In, leaf_funs_in in Hf as [Hfl [fn' [Ef' El]]]. rewrite Ef in Ef'; injection Ef'; intros <-; clear Ef'.
        destruct (inv_funs s I f Hfl) as [fn0 [E0 Hok]]. rewrite Ef in E0; injection E0; intros <-; clear E0.
        destruct Hok as (_ & Ho & _). specialize (Hc3 f fn Hfl Ef El). rewrite Forall_forall in Ho, Hc3.
        assert (Ti := nth_In (fn_pts fn) dummy_trip Hi). assert (Tj := nth_In (fn_pts fn) dummy_trip Hj).
        split; [eapply own_class; [exact He|apply Ho; easy|apply Ho; easy]|eapply (no_const_class SY OK); [exact He|apply Hc3; easy|apply Hc3; easy]].
      - apply in_map_iff in Hkt as [[i e'] [<- Hkt]]. simpl in He. injection He; intros ->. apply number_in in Hkt.
        unfold eqs in Hkt. apply in_map_iff in Hkt as [c [<- Hi]]. apply filter_In in Hi as [Hi _]. auto. }
    assert (Vt : forall (kt : skey * res expr) e, In kt (constraint_table SY (se_pb se) fns) -> snd kt = Ok e -> True) by easy.
    set (tv := fun kt : skey * res expr => v_env v (dual_of (fst kt)) * match snd kt with Ok e => den_e v e | Err _ => 0 end).
    assert (E1 : paired s v (sr_sum sr) = lsum tv (constraint_table SY (se_pb se) fns)).
    { assert (Hp : forall w, paired s v w = fg_val (v_env v) (st_pctr s) (st_ectr s) w (leaf_f s v) (fun a b => dot (v_dim v) (leaf_x s v a) (leaf_x s v b))) by easy.
      rewrite Hp, Hsum, fg_val_zero, Rplus_0_l. clear -F2 T I Hp. revert T.
      induction F2 as [|kt [k w] T0 W0 [A1 [e [A2 A3]]] F IH]; intros T; [easy|].
      rewrite !lsum_cons, IH by (intros; eapply T; simpl; eauto). f_equal. unfold tv. simpl in *. rewrite A2, A1.
      destruct (T kt (or_introl eq_refl) e A2) as [Ho Hc]. rewrite <- Hp. rewrite (paired_expr s v e w I Ho Hc A3). easy. }
    rewrite E1. unfold constraint_table. rewrite !lsum_app.
    unfold extra_ineq_table, eq_table, class_table. rewrite !lsum_map, lsum_flat_map.
    assert (E2 : lsum (fun a : nat * func => lsum tv (fun_table SY (fst a + shift_of (se_pb se)) (snd a))) (number 0 fns) =
      lsum (fun kf => let fn := snd kf in
                lsum (fun ij => let ti := nth (fst ij) (fn_pts fn) dummy_trip in let tj := nth (snd ij) (fn_pts fn) dummy_trip in
                        v_env v (dual_name (lamb_prefix (fst kf + shift_of (se_pb se))) (fst ij) (snd ij)) *
                        interp_value (v_dim v) (fn_class fn)
                          (den_p v (t_x ti)) (den_p v (t_g ti)) (den_e v (t_f ti))
                          (den_p v (t_x tj)) (den_p v (t_g tj)) (den_e v (t_f tj)))
                     (pairs (List.length (fn_pts fn)))) (number 0 fns)).
    { apply lsum_ext. intros [k fn] Hk. cbn [fst snd]. unfold fun_table. rewrite lsum_map. apply lsum_ext. intros [i j] Hij. cbn [fst snd]. unfold tv. cbn [fst snd].
      change (dual_of (SK 0 (k + shift_of (se_pb se)) i j)) with (dual_name (lamb_prefix (k + shift_of (se_pb se))) i j).
      f_equal.
      assert (Hin : In (SK 0 (k + shift_of (se_pb se)) i j, interp SY fn i j) (constraint_table SY (se_pb se) fns)).
      { unfold constraint_table. rewrite !in_app_iff. right; left. unfold class_table. apply in_flat_map. exists (k, fn). split; [easy|].
        unfold fun_table. apply in_map_iff. exists (i, j). easy. }
      destruct (Forall2_in_l _ _ _ _ F2 Hin) as [_ [_ [_ [e [He _]]]]]. simpl in He. rewrite He. unfold interp in He.
      apply pairs_spec in Hij as (Hi & Hj & _). apply number_nth in Hk as [_ Hk]. rewrite Nat.sub_0_r in Hk.
      destruct (funs_of_inv s _ k fn Hl Hk) as [f [Hf Ef]].
      apply nth_error_In, leaf_funs_in in Hf as [Hfl _].
      apply (class_constraint_den SY OK v _ _ _ _ He); eapply rec_wf; eauto; apply nth_In; easy. }
    rewrite E2. unfold tv. cbn [fst snd]. unfold dual_of.
    change (lamb_prefix 0) with "lamb0"%string. change ("nu" ++ nat_str 0)%string with "nu0"%string. lra.
  Qed.
End P.
