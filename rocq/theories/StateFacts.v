(** Every reachable state is well formed. *)
From Coq Require Import List Arith Bool String QArith Lia.
From Verif Require Import Prelude PreludeFacts Sympy SympyFacts AlgebraModel Denote AlgebraFacts
  FunctionModel CircuitModel StateSpec SessionModel.
Import ListNotations.
Open Scope nat_scope.

Lemma prune_prune {K} (d : list (K * sexpr)) : prune_dict (prune_dict d) = prune_dict d.
Proof.
  unfold prune_dict. induction d as [|kv d IH]; simpl; [easy|].
  destruct (negb (is_num 0 (snd kv))) eqn:E; simpl; [rewrite E, IH; easy|easy].
Qed.

Lemma prune_keys_incl {K} (d : list (K * sexpr)) k : In k (keys (prune_dict d)) -> In k (keys d).
Proof.
  unfold keys. rewrite !in_map_iff. intros [kv [E H]]. apply filter_In in H. exists kv; easy.
Qed.

Lemma ext_fn_refl fn : ext_fn fn fn.
Proof. unfold ext_fn. repeat split; try easy. exists []; rewrite app_nil_r; easy. left; easy. Qed.
Lemma ext_fn_trans a b c : ext_fn a b -> ext_fn b c -> ext_fn a c.
Proof.
  intros (A1 & A2 & A3 & A4 & A5 & [l A6] & A7) (B1 & B2 & B3 & B4 & B5 & [m B6] & B7).
  unfold ext_fn. repeat split; try congruence.
  - exists (l ++ m). rewrite B6, A6, app_assoc. easy.
  - destruct A7 as [E|E], B7 as [E'|E']; rewrite E', E; rewrite ?prune_prune; auto.
Qed.
Lemma ext_refl s : ext s s.
Proof.
  unfold ext. repeat split; try (exists []; rewrite app_nil_r; easy); try lia.
  intros f fn H. exists fn. split; [easy|apply ext_fn_refl].
Qed.
Lemma ext_trans a b c : ext a b -> ext b c -> ext a c.
Proof.
  intros (A1 & [l2 A2] & [l3 A3] & [l4 A4] & A5) (B1 & [m2 B2] & [m3 B3] & [m4 B4] & B5).
  unfold ext. split; [lia|]. repeat split.
  - exists (l2 ++ m2). rewrite B2, A2, app_assoc. easy.
  - exists (l3 ++ m3). rewrite B3, A3, app_assoc. easy.
  - exists (l4 ++ m4). rewrite B4, A4, app_assoc. easy.
  - intros f fn H. destruct (A5 f fn H) as [fn1 [H1 E1]]. destruct (B5 f fn1 H1) as [fn2 [H2 E2]].
    exists fn2. split; [easy|eapply ext_fn_trans; eauto].
Qed.

Lemma ext_plist s s' l : ext s s' -> In l (st_plist s) -> In l (st_plist s').
Proof. intros (_ & [m E] & _) H. rewrite E. apply in_or_app; auto. Qed.
Lemma ext_elist s s' l : ext s s' -> In l (st_elist s) -> In l (st_elist s').
Proof. intros (_ & _ & [m E] & _) H. rewrite E. apply in_or_app; auto. Qed.
Lemma ext_flist s s' l : ext s s' -> In l (st_flist s) -> In l (st_flist s').
Proof. intros (_ & _ & _ & [m E] & _) H. rewrite E. apply in_or_app; auto. Qed.
Lemma ext_next s s' : ext s s' -> st_next s <= st_next s'.
Proof. intros H; apply H. Qed.

Lemma own_p_ext s s' p : ext s s' -> own_p s p -> own_p s' p.
Proof. intros E [H1 H2]. split; [easy|]. intros l Hl. eapply ext_plist; eauto. Qed.
Lemma own_key_ext s s' k : ext s s' -> own_key s k -> own_key s' k.
Proof.
  intros E. destruct k; simpl; [eapply ext_elist; eauto| |easy].
  intros [H1 H2]; split; eapply ext_plist; eauto.
Qed.
Lemma own_e_ext s s' e : ext s s' -> own_e s e -> own_e s' e.
Proof. intros E [H1 H2]. split; [easy|]. intros l Hl. eapply own_key_ext; eauto. Qed.
Lemma own_t_ext s s' t : ext s s' -> own_t s t -> own_t s' t.
Proof. intros E (H1 & H2 & H3). repeat split; try (eapply own_p_ext; eauto); eapply own_e_ext; eauto. Qed.

(** Ownership of the results of the algebra. *)
Section Own.
  Variable SY : sympy.

  Lemma dset_keys_in {K V} (eqb : K -> K -> bool) (Heqb : forall a b, eqb a b = true <-> a = b) k (v : V) d x :
    In x (keys (dset eqb k v d)) -> x = k \/ In x (keys d).
  Proof. apply dset_keys_incl; easy. Qed.

  Lemma merge_keys_incl {K} (eqb : K -> K -> bool) (Heqb : forall a b, eqb a b = true <-> a = b) d1 d2 k :
    In k (keys (merge_dict SY eqb d1 d2)) -> In k (keys d1) \/ In k (keys d2).
  Proof.
    unfold merge_dict.
    assert (G : forall l acc, In k (keys (fold_left (fun merged kv => let '(k, v) := kv in
        if dmem eqb k d1 then match dget eqb k merged with Some old => dset eqb k (simp SY (sadd old v)) merged | None => merged end
        else dset eqb k v merged) l acc)) -> In k (keys acc) \/ In k (keys l)).
    { induction l as [|[k' v'] l IH]; intros acc H; simpl in *; [auto|].
      apply IH in H as [H|H]; [|auto].
      destruct (dmem eqb k' d1).
      - destruct (dget eqb k' acc); [|auto]. apply dset_keys_in in H as [->|H]; auto.
      - apply dset_keys_in in H as [->|H]; auto. }
    intros H. apply G in H. easy.
  Qed.

  Lemma multiply_keys d1 d2 k : In k (keys (multiply_dicts SY d1 d2)) ->
    exists x y, k = KG x y /\ In x (keys d1) /\ In y (keys d2).
  Proof.
    unfold multiply_dicts.
    assert (G2 : forall x wx l acc, In k (keys (fold_left (fun acc' kv2 =>
        match dget ekey_eqb (KG x (fst kv2)) acc' with
        | Some old => dset ekey_eqb (KG x (fst kv2)) (sadd old (simp SY (smul wx (snd kv2)))) acc'
        | None => dset ekey_eqb (KG x (fst kv2)) (simp SY (smul wx (snd kv2))) acc' end) l acc)) ->
        In k (keys acc) \/ exists y, k = KG x y /\ In y (keys l)).
    { intros x wx. induction l as [|[y wy] l IH]; intros acc H; [auto|]. cbn [fold_left fst snd] in H.
      apply IH in H as [H|[y' [E H]]]; [|right; exists y'; split; [easy|simpl; auto]].
      destruct (dget ekey_eqb (KG x y) acc); apply (dset_keys_in ekey_eqb ekey_eqb_eq) in H as [->|H]; auto;
        right; exists y; simpl; auto. }
    assert (G : forall l acc, In k (keys (fold_left (fun acc kv1 => fold_left (fun acc' kv2 =>
        match dget ekey_eqb (KG (fst kv1) (fst kv2)) acc' with
        | Some old => dset ekey_eqb (KG (fst kv1) (fst kv2)) (sadd old (simp SY (smul (snd kv1) (snd kv2)))) acc'
        | None => dset ekey_eqb (KG (fst kv1) (fst kv2)) (simp SY (smul (snd kv1) (snd kv2))) acc' end) d2 acc) l acc)) ->
        In k (keys acc) \/ exists x y, k = KG x y /\ In x (keys l) /\ In y (keys d2)).
    { induction l as [|[x wx] l IH]; intros acc H; [auto|]. cbn [fold_left fst snd] in H.
      apply IH in H as [H|(x' & y' & E & H1 & H2)]; [|right; exists x', y'; simpl; auto].
      apply G2 in H as [H|[y [E H]]]; [auto|]. right; exists x, y; simpl; auto. }
    intros H. apply G in H as [[]|H]. easy.
  Qed.

  Variable s : state.
  Lemma own_padd p q : own_p s p -> own_p s q -> own_p s (padd SY p q).
  Proof using Type.
    intros [H1 H2] [H3 H4]. split; [apply padd_wf; easy|]. simpl. intros l Hl.
    apply prune_keys_incl in Hl. apply (merge_keys_incl leaf_eqb leaf_eqb_eq) in Hl as [Hl|Hl]; auto.
  Qed.
  Lemma own_pscale c p : own_p s p -> own_p s (pscale SY c p).
  Proof using Type.
    intros [H1 H2]. split; [apply pscale_wf; easy|]. simpl. intros l. rewrite (scale_keys SY). auto.
  Qed.
  Lemma own_psub p q : own_p s p -> own_p s q -> own_p s (psub SY p q).
  Proof using Type. intros. apply own_padd; [easy|]. apply own_pscale; easy. Qed.
  Lemma own_pdiv p c p' : pdiv SY p c = Ok p' -> own_p s p -> own_p s p'.
  Proof using Type.
    unfold pdiv. destruct (recip c); simpl; [|easy]. intros H; injection H; intros <-. apply own_pscale.
  Qed.
  Lemma own_pmul p q : own_p s p -> own_p s q -> own_e s (pmul SY p q).
  Proof using Type.
    intros [H1 H2] [H3 H4]. split; [apply pmul_wf|]. simpl. intros k Hk.
    apply multiply_keys in Hk as (x & y & -> & Hx & Hy). simpl. auto.
  Qed.
  Lemma own_ppow p n e : ppow SY p n = Ok e -> own_p s p -> own_e s e.
  Proof using Type.
    unfold ppow. destruct (Nat.eqb n 2); [|easy]. intros H; injection H; intros <- Hp. apply own_pmul; easy.
  Qed.
  Lemma own_eadd a b : own_e s a -> own_e s b -> own_e s (eadd SY a b).
  Proof using Type.
    intros [H1 H2] [H3 H4]. split; [apply eadd_wf; easy|]. simpl. intros l Hl.
    apply (merge_keys_incl ekey_eqb ekey_eqb_eq) in Hl as [Hl|Hl]; auto.
  Qed.
  Lemma own_eaddc a q : own_e s a -> own_e s (eaddc SY a q).
  Proof using Type.
    intros [H1 H2]. split; [apply eaddc_wf; easy|]. simpl. intros l Hl.
    apply (merge_keys_incl ekey_eqb ekey_eqb_eq) in Hl as [Hl|[<-|[]]]; auto. simpl. easy.
  Qed.
  Lemma own_escale c a : own_e s a -> own_e s (escale SY c a).
  Proof using Type.
    intros [H1 H2]. split; [apply escale_wf; easy|]. simpl. intros l. rewrite (scale_keys SY). auto.
  Qed.
  Lemma own_esub a b : own_e s a -> own_e s b -> own_e s (esub SY a b).
  Proof using Type. intros. apply own_eadd; [easy|]. apply own_escale; easy. Qed.
  Lemma own_ediv a c a' : ediv SY a c = Ok a' -> own_e s a -> own_e s a'.
  Proof using Type.
    unfold ediv. destruct (recip c); simpl; [|easy]. intros H; injection H; intros <-. apply own_escale.
  Qed.
  Lemma own_zero_p : own_p s zero_point. Proof using Type. split; [apply zero_point_wf|easy]. Qed.
  Lemma own_zero_e : own_e s zero_expr. Proof using Type. split; [apply zero_expr_wf|easy]. Qed.
  Lemma own_prune_p p : own_p s p -> own_p s (prune_p p).
  Proof using Type.
    intros [H1 H2]. split; [apply prune_wf; easy|]. simpl. intros l Hl. apply H2, prune_keys_incl; easy.
  Qed.
  Lemma own_prune_e p : own_e s p -> own_e s (prune_e p).
  Proof using Type.
    intros [H1 H2]. split; [apply prune_wf; easy|]. simpl. intros l Hl. apply H2, prune_keys_incl; easy.
  Qed.
  Lemma own_prune_t t : own_t s t -> own_t s (prune_t t).
  Proof using Type. intros (H1 & H2 & H3). repeat split; try apply own_prune_p; try apply own_prune_e; easy. Qed.
End Own.

(** Hoare-style judgement: the computation keeps the invariant, only adds to
    the state, and its result satisfies [Q]; also when it raises. *)
Definition okM {A} (m : M A) (s : state) (Q : A -> state -> Prop) : Prop :=
  Inv (snd (m s)) /\ ext s (snd (m s)) /\ forall a, fst (m s) = Ok a -> Q a (snd (m s)).

Lemma ok_ret {A} (a : A) s (Q : A -> state -> Prop) : Inv s -> Q a s -> okM (ret a) s Q.
Proof. intros H HQ. split; [easy|]. split; [apply ext_refl|]. simpl. intros b E; injection E; intros <-; easy. Qed.
Lemma ok_raise {A} e s (Q : A -> state -> Prop) : Inv s -> okM (raise e) s Q.
Proof. intros H. split; [easy|]. split; [apply ext_refl|]. simpl. easy. Qed.
Lemma ok_lift {A} (r : res A) s (Q : A -> state -> Prop) : Inv s -> (forall a, r = Ok a -> Q a s) -> okM (lift r) s Q.
Proof. intros H HQ. split; [easy|]. split; [apply ext_refl|]. simpl. easy. Qed.
Lemma ok_bind {A B} (m : M A) (k : A -> M B) s P Q :
  okM m s P ->
  (forall a s', Inv s' -> ext s s' -> P a s' -> okM (k a) s' Q) ->
  okM (bind m k) s Q.
Proof.
  intros (HI & HE & HP) HK. unfold okM, bind in *. destruct (m s) as [[a|e] s1]; simpl in *.
  - destruct (HK a s1 HI HE (HP a eq_refl)) as (I2 & E2 & Q2).
    split; [easy|]. split; [eapply ext_trans; eauto|easy].
  - easy.
Qed.
Lemma ok_weaken {A} (m : M A) s (P Q : A -> state -> Prop) :
  okM m s P -> (forall a s', ext s s' -> Inv s' -> P a s' -> Q a s') -> okM m s Q.
Proof. intros (HI & HE & HP) H. split; [easy|]. split; [easy|]. intros a Ha. apply H; auto. Qed.

Lemma fun_ok_ext s s' f fn : ext s s' -> fun_ok s f fn -> fun_ok s' f fn.
Proof.
  intros E (H1 & H2 & H3 & H4 & H5 & H6). split; [|repeat split; try easy].
  - destruct (fn_leaf fn); [easy|]. destruct H1 as (A & B & C). repeat split; try easy.
    + eapply ext_flist; [eauto|]. apply C; easy.
    + destruct (C g H) as [_ [fg [Hg Hl]]]. destruct E as (_ & _ & _ & _ & E). destruct (E g fg Hg) as [fg' [Hg' X]].
      exists fg'. split; [easy|]. destruct X as [X _]. congruence.
  - rewrite Forall_forall in *. intros t Ht. eapply own_t_ext; eauto.
  - rewrite Forall_forall in *. intros t Ht. specialize (H4 t Ht). apply ext_next in E. simpl in *. lia.
Qed.

(** primitive operations *)
Lemma inv_next s n : Inv s -> st_next s <= n ->
  Inv (mkState n (st_pctr s) (st_ectr s) (st_fctr s) (st_funs s) (st_flist s) (st_plist s) (st_elist s)).
Proof.
  intros I Hn. set (s' := mkState _ _ _ _ _ _ _ _).
  assert (E : ext s s').
  { unfold ext, s'; simpl. repeat split; try (exists []; rewrite app_nil_r; easy); try easy.
    intros f fn H; exists fn; split; [easy|apply ext_fn_refl]. }
  destruct I as [inv_pctr0 inv_ectr0 inv_pid0 inv_eid0 inv_pnd0 inv_end0 inv_fid0 inv_flist0 inv_funs0]. constructor; simpl; try easy.
  - rewrite Forall_forall in *. intros l Hl. specialize (inv_pid0 l Hl). simpl in *. lia.
  - rewrite Forall_forall in *. intros l Hl. specialize (inv_eid0 l Hl). simpl in *. lia.
  - rewrite Forall_forall in *. intros l Hl. specialize (inv_fid0 l Hl). simpl in *. lia.
  - intros f Hf. destruct (inv_funs0 f Hf) as [fn [H1 H2]]. exists fn. split; [easy|].
    eapply fun_ok_ext; eauto.
Qed.

Lemma ok_fresh s : Inv s -> okM fresh_id s (fun i s' => i < st_next s' /\ i = st_next s /\
    s' = mkState (S (st_next s)) (st_pctr s) (st_ectr s) (st_fctr s) (st_funs s) (st_flist s) (st_plist s) (st_elist s)).
Proof.
  intros I. unfold okM, fresh_id; simpl. split; [apply inv_next; [easy|lia]|]. split.
  - unfold ext; simpl. repeat split; try (exists []; rewrite app_nil_r; easy); try lia.
    intros f fn H; exists fn; split; [easy|apply ext_fn_refl].
  - intros a E; injection E; intros <-. repeat split; simpl; lia.
Qed.

Lemma ext_newp s : ext s (mkState (S (st_next s)) (S (st_pctr s)) (st_ectr s) (st_fctr s) (st_funs s) (st_flist s)
     (st_plist s ++ [mkLeaf (st_next s) (st_pctr s)]) (st_elist s)).
Proof.
  unfold ext; simpl. repeat split; try (exists []; rewrite app_nil_r; easy); try lia.
  - eauto.
  - intros f fn H; exists fn; split; [easy|apply ext_fn_refl].
Qed.
Lemma ext_newe s : ext s (mkState (S (st_next s)) (st_pctr s) (S (st_ectr s)) (st_fctr s) (st_funs s) (st_flist s)
     (st_plist s) (st_elist s ++ [mkLeaf (st_next s) (st_ectr s)])).
Proof.
  unfold ext; simpl. repeat split; try (exists []; rewrite app_nil_r; easy); try lia.
  - eauto.
  - intros f fn H; exists fn; split; [easy|apply ext_fn_refl].
Qed.

Lemma nodup_snoc l a : NoDup (map lid l) -> ~ In (lid a) (map lid l) -> NoDup (map lid (l ++ [a])).
Proof.
  intros H1 H2. rewrite map_app. simpl. apply NoDup_rev in H1. rewrite <- (rev_involutive (_ ++ _)). apply NoDup_rev.
  rewrite rev_app_distr. simpl. constructor; [|easy]. rewrite <- in_rev. easy.
Qed.
Lemma lid_fresh l n c : Forall (fun a => lid a < n) l -> ~ In (lid (mkLeaf n c)) (map lid l).
Proof.
  intros H Hin. apply in_map_iff in Hin as [a [E Ha]]. rewrite Forall_forall in H. specialize (H a Ha). simpl in *. lia.
Qed.

Lemma ok_new_point s : Inv s -> okM new_point s (fun p s' => own_p s' p /\ p = leaf_point (mkLeaf (st_next s) (st_pctr s))).
Proof.
  intros I. assert (E := ext_newp s). unfold okM, new_point; simpl.
  split; [|split; [easy|]].
  - destruct I as [inv_pctr0 inv_ectr0 inv_pid0 inv_eid0 inv_pnd0 inv_end0 inv_fid0 inv_flist0 inv_funs0]. constructor; simpl; try easy.
    + rewrite map_app, inv_pctr0. exact (eq_sym (seq_S _ 0)).
    + apply Forall_app; split; [|repeat constructor; simpl; lia].
      rewrite Forall_forall in *. intros l Hl. specialize (inv_pid0 l Hl). simpl in *. lia.
    + rewrite Forall_forall in *. intros l Hl. specialize (inv_eid0 l Hl). simpl in *. lia.
    + apply nodup_snoc; [easy|]. apply lid_fresh; easy.
    + rewrite Forall_forall in *. intros l Hl. specialize (inv_fid0 l Hl). simpl in *. lia.
    + intros f Hf. destruct (inv_funs0 f Hf) as [fn [H1 H2]]. exists fn. split; [easy|].
      eapply fun_ok_ext; eauto.
  - intros a Ea; injection Ea; intros <-. split; [|easy]. split; [apply leaf_point_wf|].
    simpl. intros l [<-|[]]. apply in_or_app; simpl; auto.
Qed.

Lemma ok_new_expr s : Inv s -> okM new_expr s (fun p s' => own_e s' p /\ p = leaf_expr (mkLeaf (st_next s) (st_ectr s))).
Proof.
  intros I. assert (E := ext_newe s). unfold okM, new_expr; simpl.
  split; [|split; [easy|]].
  - destruct I as [inv_pctr0 inv_ectr0 inv_pid0 inv_eid0 inv_pnd0 inv_end0 inv_fid0 inv_flist0 inv_funs0]. constructor; simpl; try easy.
    + rewrite map_app, inv_ectr0. exact (eq_sym (seq_S _ 0)).
    + rewrite Forall_forall in *. intros l Hl. specialize (inv_pid0 l Hl). simpl in *. lia.
    + apply Forall_app; split; [|repeat constructor; simpl; lia].
      rewrite Forall_forall in *. intros l Hl. specialize (inv_eid0 l Hl). simpl in *. lia.
    + apply nodup_snoc; [easy|]. apply lid_fresh; easy.
    + rewrite Forall_forall in *. intros l Hl. specialize (inv_fid0 l Hl). simpl in *. lia.
    + intros f Hf. destruct (inv_funs0 f Hf) as [fn [H1 H2]]. exists fn. split; [easy|].
      eapply fun_ok_ext; eauto.
  - intros a Ea; injection Ea; intros <-. split; [|easy]. split; [apply leaf_expr_wf|].
    simpl. intros l [<-|[]]. simpl. apply in_or_app; simpl; auto.
Qed.

Lemma ok_get_fun s f : Inv s -> In f (st_flist s) ->
  okM (get_fun f) s (fun fn s' => s' = s /\ dget Nat.eqb f (st_funs s) = Some fn /\ fun_ok s f fn).
Proof.
  intros I Hf. destruct (inv_funs s I f Hf) as [fn [H1 H2]]. unfold okM, get_fun. rewrite H1. simpl.
  split; [easy|]. split; [apply ext_refl|]. intros a E; injection E; intros <-. easy.
Qed.

Lemma dget_app_new {V} f (v : V) d k : dget Nat.eqb k d = None \/ k <> f -> 
  dget Nat.eqb k (d ++ [(f, v)]) = match dget Nat.eqb k d with Some x => Some x | None => if Nat.eqb k f then Some v else None end.
Proof.
  intros _. induction d as [|[k' v'] d IH]; simpl; [easy|]. destruct (Nat.eqb k k'); easy.
Qed.

Lemma dget_app {V} f (v : V) d k :
  dget Nat.eqb k (d ++ [(f, v)]) = match dget Nat.eqb k d with Some x => Some x | None => if Nat.eqb k f then Some v else None end.
Proof. induction d as [|[k' v'] d IH]; simpl; [easy|]. destruct (Nat.eqb k k'); easy. Qed.

Lemma dget_fresh s : Inv s -> dget Nat.eqb (st_next s) (st_funs s) = None.
Proof.
  intros I. apply (dget_none Nat.eqb Nat.eqb_eq). intros Hin.
  assert (H := inv_fid s I). rewrite Forall_forall in H. specialize (H _ Hin). simpl in H. lia.
Qed.

Lemma flist_lt s f : Inv s -> In f (st_flist s) -> f < st_next s.
Proof.
  intros I Hf. destruct (inv_funs s I f Hf) as [fn [H _]].
  apply (dget_in Nat.eqb Nat.eqb_eq) in H.
  assert (H2 := inv_fid s I). rewrite Forall_forall in H2. apply H2. apply in_map_iff. exists (f, fn); easy.
Qed.

Lemma ok_new_fun s fn fc :
  Inv s ->
  (if fn_leaf fn then fn_dict fn = [(st_next s, Num 1%Q)] /\ fn_class fn <> CBase
   else fn_class fn = CBase /\ NoDup (keys (fn_dict fn)) /\
        forall g, In g (keys (fn_dict fn)) ->
          In g (st_flist s) /\ exists fg, dget Nat.eqb g (st_funs s) = Some fg /\ fn_leaf fg = true) ->
  fn_stat fn = [] -> fn_pts fn = [] -> fn_cons fn = [] ->
  let s' := mkState (S (st_next s)) (st_pctr s) (st_ectr s) fc
     (st_funs s ++ [(st_next s, fn)]) (st_flist s ++ [st_next s]) (st_plist s) (st_elist s) in
  Inv s' /\ ext s s'.
Proof.
  intros I H1 H2 H3 H4 s'. assert (Hfr := dget_fresh s I).
  assert (Hfl : forall f, In f (st_flist s) -> f < st_next s) by (intros; apply flist_lt; easy).
  assert (E : ext s s').
  { unfold ext, s'; simpl. repeat split; try (exists []; rewrite app_nil_r; easy); try lia; [eauto|].
    intros f fn' H; exists fn'; split; [rewrite dget_app, H; easy|apply ext_fn_refl]. }
  split; [|easy]. destruct I as [inv_pctr0 inv_ectr0 inv_pid0 inv_eid0 inv_pnd0 inv_end0 inv_fid0 inv_flist0 inv_funs0]. constructor; simpl; try easy.
  - rewrite Forall_forall in *. intros l Hl. specialize (inv_pid0 l Hl). simpl in *. lia.
  - rewrite Forall_forall in *. intros l Hl. specialize (inv_eid0 l Hl). simpl in *. lia.
  - unfold keys in *. rewrite map_app. apply Forall_app; split; [|repeat constructor; simpl; lia].
    rewrite Forall_forall in *. intros l Hl. specialize (inv_fid0 l Hl). simpl in *. lia.
  - apply NoDup_rev in inv_flist0. rewrite <- (rev_involutive (st_flist s ++ _)). apply NoDup_rev.
    rewrite rev_app_distr. simpl. constructor; [|easy]. rewrite <- in_rev. intros H. apply Hfl in H. lia.
  - intros f Hf. apply in_app_or in Hf as [Hf|[<-|[]]].
    + destruct (inv_funs0 f Hf) as [fn' [A B]]. exists fn'. split; [rewrite dget_app, A; easy|].
      eapply fun_ok_ext; eauto.
    + exists fn. split; [rewrite dget_app, Hfr, Nat.eqb_refl; easy|].
      unfold fun_ok. rewrite H2, H3, H4. split; [|repeat split; try constructor].
      destruct (fn_leaf fn); [easy|]. destruct H1 as (A & B & C). repeat split; try easy.
      * simpl. apply in_or_app. left. apply C; easy.
      * destruct (C g H) as [_ [fg [Hg Hl]]]. exists fg. split; [|easy]. simpl. rewrite dget_app, Hg. easy.
Qed.

Lemma ok_new_leaf_fun s c b : Inv s -> c <> CBase -> okM (new_leaf_fun c b) s (fun f s' => In f (st_flist s')).
Proof.
  intros I Hc. unfold okM, new_leaf_fun. simpl.
  destruct (ok_new_fun s (mkFunc true b c [(st_next s, Num 1%Q)] (Some (st_fctr s)) [] [] []) (S (st_fctr s)) I) as [A B]; try easy.
  split; [exact A|]. split; [exact B|]. intros f E; injection E; intros <-. apply in_or_app; simpl; auto.
Qed.

Lemma ok_new_comp_fun s d b : Inv s -> NoDup (keys d) ->
  (forall g, In g (keys d) -> In g (st_flist s) /\ exists fg, dget Nat.eqb g (st_funs s) = Some fg /\ fn_leaf fg = true) ->
  okM (new_comp_fun d b) s (fun f s' => In f (st_flist s')).
Proof.
  intros I Hn Hk. unfold okM, new_comp_fun. simpl.
  destruct (ok_new_fun s (mkFunc false b CBase d None [] [] []) (st_fctr s) I) as [A B]; try easy.
  split; [exact A|]. split; [exact B|]. intros f E; injection E; intros <-. apply in_or_app; simpl; auto.
Qed.

(** Replacing a Function object by an extension of it. *)
Lemma ok_set_fun s f fn fn' : Inv s -> In f (st_flist s) -> dget Nat.eqb f (st_funs s) = Some fn ->
  ext_fn fn fn' -> fun_ok s f fn' -> okM (set_fun f fn') s (fun _ s' => dget Nat.eqb f (st_funs s') = Some fn').
Proof.
  intros I Hf Hg Hx Hok. unfold okM, set_fun. simpl. set (s' := mkState _ _ _ _ _ _ _ _).
  assert (E : ext s s').
  { unfold ext, s'; simpl. repeat split; try (exists []; rewrite app_nil_r; easy); try lia.
    intros f0 fn0 H. destruct (Nat.eq_dec f0 f) as [->|Hne].
    - exists fn'. rewrite (dget_dset_same Nat.eqb Nat.eqb_eq). split; [easy|]. congruence.
    - exists fn0. rewrite (dget_dset_other Nat.eqb Nat.eqb_eq) by easy. split; [easy|apply ext_fn_refl]. }
  split; [|split; [easy|]].
  - destruct I as [inv_pctr0 inv_ectr0 inv_pid0 inv_eid0 inv_pnd0 inv_end0 inv_fid0 inv_flist0 inv_funs0]. constructor; simpl; try easy.
    + rewrite Forall_forall in *. intros l Hl. apply (dset_keys_incl Nat.eqb Nat.eqb_eq) in Hl as [->|Hl]; [|auto].
      apply inv_fid0. apply (dget_in Nat.eqb Nat.eqb_eq) in Hg. apply in_map_iff. exists (f, fn); easy.
    + intros f0 Hf0. destruct (Nat.eq_dec f0 f) as [->|Hne].
      * exists fn'. rewrite (dget_dset_same Nat.eqb Nat.eqb_eq). split; [easy|]. eapply fun_ok_ext; eauto.
      * destruct (inv_funs0 f0 Hf0) as [fn0 [A B]]. exists fn0.
        rewrite (dget_dset_other Nat.eqb Nat.eqb_eq) by easy. split; [easy|]. eapply fun_ok_ext; eauto.
  - intros a _. rewrite (dget_dset_same Nat.eqb Nat.eqb_eq). easy.
Qed.

Section Methods.
  Variable SY : sympy.

  Definition leaf_fun (s : state) (f : nat) : Prop :=
    In f (st_flist s) /\ exists fg, dget Nat.eqb f (st_funs s) = Some fg /\ fn_leaf fg = true.
  Lemma leaf_fun_ext s s' f : ext s s' -> leaf_fun s f -> leaf_fun s' f.
  Proof.
    intros E [H1 [fg [H2 H3]]]. split; [eapply ext_flist; eauto|].
    destruct E as (_ & _ & _ & _ & E). destruct (E f fg H2) as [fg' [Hg' X]].
    exists fg'. split; [easy|]. destruct X as [X _]. congruence.
  Qed.

  Record meths_ok (m : meths) : Prop := mkMO {
    mo_add : forall f t s, Inv s -> In f (st_flist s) -> own_t s t -> t_id t < st_next s ->
        (forall fn, dget Nat.eqb f (st_funs s) = Some fn -> ~ In (t_id t) (map t_id (fn_pts fn))) ->
        okM (m_add m f t) s (fun _ _ => True);
    mo_oracle : forall f p s, Inv s -> In f (st_flist s) -> own_p s p ->
        okM (m_oracle m f p) s (fun r s' => own_p s' (fst r) /\ own_e s' (snd r));
    mo_value : forall f p s, Inv s -> In f (st_flist s) -> own_p s p ->
        okM (m_value m f p) s (fun e s' => own_e s' e);
    mo_grad : forall f p s, Inv s -> In f (st_flist s) -> own_p s p ->
        okM (m_grad m f p) s (fun g s' => own_p s' g)
  }.

  Lemma evaluated_own s f fn p g e : fun_ok s f fn -> evaluated_at (fn_pts fn) p = Some (g, e) ->
    own_p s g /\ own_e s e.
  Proof.
    intros (_ & H & _) He. unfold evaluated_at in He.
    destruct (find _ (fn_pts fn)) as [t|] eqn:Ef; [|easy]. apply find_some in Ef as [Hin _].
    injection He; intros <- <-. rewrite Forall_forall in H. destruct (H t Hin) as (_ & A & B). easy.
  Qed.

  Lemma ok_separate d p : forall s, Inv s -> (forall g, In g (keys d) -> In g (st_flist s)) ->
    okM (separate d p) s (fun r s' => s' = s /\ forall fw,
      (In fw (fst (fst r)) \/ In fw (snd (fst r)) \/ In fw (snd r)) -> In fw d).
  Proof.
    induction d as [|[f w] d IH]; intros s I Hk; simpl.
    - apply ok_ret; [easy|]. simpl. intuition.
    - eapply ok_bind; [apply ok_get_fun; [easy|apply Hk; simpl; auto]|].
      intros fn s1 I1 E1 (-> & Hg & Hok).
      eapply ok_bind; [apply IH; [easy|intros; apply Hk; simpl; auto]|].
      intros [[a b] c] s2 I2 E2 (-> & H2). simpl in H2.
      destruct (evaluated_at (fn_pts fn) p); [destruct (fn_reuse fn)|];
        (apply ok_ret; [easy|]; split; [easy|]; simpl; intros fw [H|[H|H]];
         try (destruct H as [<-|H]); auto).
  Qed.

  Section Body.
    Variable sub : meths.
    Hypothesis Hsub : meths_ok sub.

    Lemma ok_distribute : forall l n p g f s, Inv s -> (forall fi, In fi (keys l) -> In fi (st_flist s)) ->
      own_p s p -> own_p s g -> own_e s f ->
      okM (distribute SY sub l n p g f) s (fun _ _ => True).
    Proof using Hsub.
      induction l as [|[fi w] l IH]; intros n p g f s I Hk Hp Hg Hf; simpl.
      - apply ok_ret; easy.
      - destruct n as [|n].
        + eapply ok_bind; [apply (ok_lift _ s (fun g' s' => s' = s /\ own_p s g')); [easy|intros; split; [easy|eapply own_pdiv; eauto]]|].
          intros g' s1 I1 E1 [-> Hg'].
          eapply ok_bind; [apply (ok_lift _ s (fun f' s' => s' = s /\ own_e s f')); [easy|intros; split; [easy|eapply own_ediv; eauto]]|].
          intros f' s2 I2 E2 [-> Hf'].
          eapply ok_bind; [apply ok_fresh; easy|].
          intros i s3 I3 E3 (Hi & Hi2 & Hs3).
          eapply ok_bind.
          { apply (mo_add sub Hsub); try easy.
            - eapply ext_flist; [eauto|]. apply Hk; simpl; auto.
            - repeat split; simpl; try (eapply own_p_ext; eauto); eapply own_e_ext; eauto.
            - simpl. intros fn Hfn Hin. subst s3. simpl in Hfn.
              assert (Hfi : In fi (st_flist s)) by (apply Hk; simpl; auto).
              destruct (inv_funs s I fi Hfi) as [fn' [A (_ & _ & _ & B & _)]]. rewrite A in Hfn.
              injection Hfn; intros <-. apply in_map_iff in Hin as [t [Et Ht]].
              rewrite Forall_forall in B. specialize (B t Ht). simpl in *. lia. }
          intros u s4 I4 E4 _.
          assert (E : ext s s4) by (eapply ext_trans; eauto).
          apply IH; try easy.
          * intros fj Hj. eapply ext_flist; [eauto|]. apply Hk; simpl; auto.
          * eapply own_p_ext; eauto.
          * eapply own_p_ext; eauto.
          * eapply own_e_ext; eauto.
        + eapply ok_bind; [apply (mo_oracle sub Hsub); try easy; apply Hk; simpl; auto|].
          intros [gi vi] s1 I1 E1 [Hgi Hvi]. simpl in *.
          apply IH; try easy.
          * intros fj Hj. eapply ext_flist; [eauto|]. apply Hk; simpl; auto.
          * eapply own_p_ext; eauto.
          * apply own_psub; [eapply own_p_ext; eauto|]. apply own_pscale; easy.
          * apply own_esub; [eapply own_e_ext; eauto|]. apply own_escale; easy.
    Qed.

    Lemma prune_zero_filter t l : filter zero_grad (l ++ [t]) =
      match pt_dict (t_g t) with [] => filter zero_grad l ++ [t] | _ => filter zero_grad l end.
    Proof using Type.
      rewrite filter_app. simpl. unfold zero_grad at 2. destruct (pt_dict (t_g t)); [easy|rewrite app_nil_r; easy].
    Qed.

    Lemma ok_add_body self t0 s : Inv s -> In self (st_flist s) -> own_t s t0 -> t_id t0 < st_next s ->
      (forall fn, dget Nat.eqb self (st_funs s) = Some fn -> ~ In (t_id t0) (map t_id (fn_pts fn))) ->
      okM (add_body SY sub self t0) s (fun _ _ => True).
    Proof using Hsub.
      intros I Hf Ht Hid Hnew. unfold add_body.
      eapply ok_bind; [apply ok_get_fun; easy|]. intros fn s1 I1 E1 (-> & Hg & Hok).
      assert (Hpt := own_prune_t s t0 Ht). set (t := prune_t t0) in *.
      set (dict := if fn_leaf fn then fn_dict fn else prune_dict (fn_dict fn)).
      assert (Hok2 := Hok). destruct Hok2 as (K1 & K2 & K3 & K4 & K5 & K6).
      assert (Kdict : forall g, In g (keys dict) -> In g (st_flist s)).
      { intros g Hin. unfold dict in Hin. destruct (fn_leaf fn).
        - destruct K1 as [K1 _]. rewrite K1 in Hin. destruct Hin as [<-|[]]. easy.
        - apply prune_keys_incl in Hin. apply K1 in Hin. easy. }
      eapply ok_bind.
      { apply (ok_set_fun s self fn); try easy.
        - unfold ext_fn; simpl. repeat split; try easy; [eauto|]. unfold dict. destruct (fn_leaf fn); auto.
        - unfold fun_ok; simpl. split; [|split; [|split; [|split; [|split]]]].
          + unfold dict. destruct (fn_leaf fn); [easy|]. destruct K1 as (A & B & C). split; [easy|].
            split; [apply prune_wf; easy|]. intros g Hin. apply C. apply prune_keys_incl; easy.
          + apply Forall_app; split; [easy|]. constructor; [easy|constructor].
          + rewrite map_app. simpl. specialize (Hnew fn Hg).
            apply NoDup_rev in K3. rewrite <- (rev_involutive (_ ++ _)). apply NoDup_rev. rewrite rev_app_distr. simpl.
            constructor; [|easy]. rewrite <- in_rev. easy.
          + apply Forall_app; split; [easy|]. constructor; [easy|constructor].
          + rewrite prune_zero_filter, <- K5. unfold t; simpl. destruct (prune_dict (pt_dict (t_g t0))); easy.
          + easy. }
      intros u s2 I2 E2 Hg2. destruct (fn_leaf fn) eqn:Elf; [apply ok_ret; easy|].
      eapply ok_bind; [apply ok_separate; [easy|]|].
      { intros g Hin. eapply ext_flist; [exact E2|]. auto. }
      intros [[a b] c] s3 I3 E3 (-> & Hin). simpl in Hin.
      destruct (b ++ c) eqn:Ebc; [apply ok_ret; easy|]. rewrite <- Ebc.
      destruct Hpt as (P1 & P2 & P3).
      apply ok_distribute; try easy.
      - intros fi Hfi. eapply ext_flist; [exact E2|]. apply Kdict.
        unfold keys in *. apply in_map_iff in Hfi as [fw [<- Hfw]]. apply in_map.
        apply Hin. rewrite !in_app_iff in Hfw. easy.
      - eapply own_p_ext; [exact E2|easy].
      - eapply own_p_ext; [exact E2|easy].
      - eapply own_e_ext; [exact E2|easy].
    Qed.

    Lemma ok_sum_values d p : forall acc s, Inv s -> (forall g, In g (keys d) -> In g (st_flist s)) ->
      own_p s p -> own_e s acc -> okM (sum_values SY sub d p acc) s (fun e s' => own_e s' e).
    Proof using Hsub.
      induction d as [|[f w] d IH]; intros acc s I Hk Hp Ha; simpl; [apply ok_ret; easy|].
      eapply ok_bind; [apply (mo_value sub Hsub); try easy; apply Hk; simpl; auto|].
      intros e s1 I1 E1 He. apply IH; try easy.
      - intros g Hg. eapply ext_flist; [eauto|]. apply Hk; simpl; auto.
      - eapply own_p_ext; eauto.
      - apply own_eadd; [eapply own_e_ext; eauto|]. apply own_escale; easy.
    Qed.
    Lemma ok_sum_grads d p : forall acc s, Inv s -> (forall g, In g (keys d) -> In g (st_flist s)) ->
      own_p s p -> own_p s acc -> okM (sum_grads SY sub d p acc) s (fun e s' => own_p s' e).
    Proof using Hsub.
      induction d as [|[f w] d IH]; intros acc s I Hk Hp Ha; simpl; [apply ok_ret; easy|].
      eapply ok_bind; [apply (mo_grad sub Hsub); try easy; apply Hk; simpl; auto|].
      intros e s1 I1 E1 He. apply IH; try easy.
      - intros g Hg. eapply ext_flist; [eauto|]. apply Hk; simpl; auto.
      - eapply own_p_ext; eauto.
      - apply own_padd; [eapply own_p_ext; eauto|]. apply own_pscale; easy.
    Qed.

    Lemma dict_in_flist s f fn : In f (st_flist s) -> fun_ok s f fn -> forall g, In g (keys (fn_dict fn)) -> In g (st_flist s).
    Proof using Type.
      intros Hf (K1 & _) g Hg. destruct (fn_leaf fn).
      - destruct K1 as [K1 _]. rewrite K1 in Hg. destruct Hg as [<-|[]]. easy.
      - apply K1; easy.
    Qed.

    Lemma ok_oracle_body self p s : Inv s -> In self (st_flist s) -> own_p s p ->
      okM (oracle_body SY sub self p) s (fun r s' => own_p s' (fst r) /\ own_e s' (snd r)).
    Proof using Hsub.
      intros I Hf Hp. unfold oracle_body.
      eapply ok_bind; [apply ok_get_fun; easy|]. intros fn s1 I1 E1 (-> & Hg & Hok).
      assert (Hd := dict_in_flist s self fn Hf Hok).
      assert (Hcase : okM
        (do r <- separate (fn_dict fn) p;
          let '(nothing, gonly, both) := r in
          do f <- match evaluated_at (fn_pts fn) p with
                  | Some gf => ret (snd gf)
                  | None => match both with
                            | [] => sum_values SY sub (fn_dict fn) p zero_expr
                            | _ => new_expr
                            end
                  end;
          do g <- match both, gonly with
                  | [], [] => sum_grads SY sub (fn_dict fn) p zero_point
                  | _, _ => new_point
                  end;
          do i <- fresh_id;
          add_body SY sub self (mkTrip i p g f) ;;
          ret (prune_p g, prune_e f)) s (fun r s' => own_p s' (fst r) /\ own_e s' (snd r))).
      { eapply ok_bind; [apply ok_separate; easy|].
        intros [[a b] c] s2 I2 E2 (-> & _).
        eapply ok_bind with (P := fun e s' => own_e s' e).
        { destruct (evaluated_at (fn_pts fn) p) as [[g e]|] eqn:Ee.
          - apply ok_ret; [easy|]. eapply evaluated_own; eauto.
          - destruct c.
            + apply ok_sum_values; try easy. apply own_zero_e.
            + eapply ok_weaken; [apply ok_new_expr; easy|]. simpl. intuition. }
        intros f s3 I3 E3 Hfo.
        assert (Hp3 : own_p s3 p) by (eapply own_p_ext; eauto).
        eapply ok_bind with (P := fun g s' => own_p s' g).
        { assert (N : okM new_point s3 (fun g s' => own_p s' g))
            by (eapply ok_weaken; [apply ok_new_point; easy|]; simpl; intuition).
          destruct c; [destruct b|]; try exact N.
          apply ok_sum_grads; try easy; [|apply own_zero_p].
          intros g Hin. eapply ext_flist; [eauto|]. auto. }
        intros g s4 I4 E4 Hgo.
        eapply ok_bind; [apply ok_fresh; easy|]. intros i s5 I5 E5 (Hi & Hi2 & Hs5).
        assert (E45 : ext s4 s5) by easy.
        eapply ok_bind.
        { apply ok_add_body; try easy.
          - eapply ext_flist; [exact E45|]. eapply ext_flist; [exact E4|]. eapply ext_flist; [exact E3|easy].
          - repeat split; simpl.
            + eapply own_p_ext; [exact E45|]. eapply own_p_ext; [exact E4|easy].
            + eapply own_p_ext; [exact E45|]. eapply own_p_ext; [exact E4|easy].
            + eapply own_p_ext; [exact E45|easy].
            + eapply own_p_ext; [exact E45|easy].
            + eapply own_e_ext; [exact E45|]. eapply own_e_ext; [exact E4|easy].
            + eapply own_e_ext; [exact E45|]. eapply own_e_ext; [exact E4|easy].
          - simpl. intros fn' Hfn' Hin. subst s5. simpl in Hfn'.
            assert (Hf4 : In self (st_flist s4)) by (eapply ext_flist; [exact E4|]; eapply ext_flist; [exact E3|easy]).
            destruct (inv_funs s4 I4 self Hf4) as [fn2 [A (_ & _ & _ & B & _)]]. rewrite A in Hfn'.
            injection Hfn'; intros <-. apply in_map_iff in Hin as [t [Et Ht]].
            rewrite Forall_forall in B. specialize (B t Ht). simpl in *. lia. }
        intros u s6 I6 E6 _. apply ok_ret; [easy|]. simpl. split.
        - apply own_prune_p. eapply own_p_ext; [exact E6|]. eapply own_p_ext; [exact E45|easy].
        - apply own_prune_e. eapply own_e_ext; [exact E6|]. eapply own_e_ext; [exact E45|]. eapply own_e_ext; [exact E4|easy]. }
      destruct (evaluated_at (fn_pts fn) p) as [[g e]|] eqn:Ee; [|exact Hcase].
      destruct (fn_reuse fn); [|exact Hcase].
      apply ok_ret; [easy|]. eapply evaluated_own; eauto.
    Qed.

    Lemma bodies_ok : meths_ok (bodies SY sub).
    Proof using Hsub.
      constructor; simpl; intros.
      - apply ok_add_body; easy.
      - apply ok_oracle_body; easy.
      - unfold value_body. eapply ok_bind; [apply ok_get_fun; easy|]. intros fn s1 I1 E1 (-> & Hg & Hok).
        destruct (evaluated_at (fn_pts fn) p) as [[g e]|] eqn:Ee.
        + apply ok_ret; [easy|]. eapply evaluated_own; eauto.
        + eapply ok_bind; [apply ok_oracle_body; easy|]. intros [g e] s2 I2 E2 [A B]. apply ok_ret; easy.
      - unfold grad_body. eapply ok_bind; [apply ok_oracle_body; easy|]. intros [g e] s2 I2 E2 [A B]. apply ok_ret; easy.
    Qed.
  End Body.

  Lemma no_meths_ok : meths_ok no_meths.
  Proof. constructor; simpl; intros; apply ok_raise; easy. Qed.
  Lemma methods_ok n : meths_ok (methods SY n).
  Proof. induction n; simpl; [apply no_meths_ok|apply bodies_ok; easy]. Qed.

  Lemma ok_oracle f p s : Inv s -> In f (st_flist s) -> own_p s p ->
    okM (oracle SY f p) s (fun r s' => own_p s' (fst r) /\ own_e s' (snd r)).
  Proof. apply (mo_oracle _ (methods_ok 2)). Qed.
  Lemma ok_value f p s : Inv s -> In f (st_flist s) -> own_p s p ->
    okM (value SY f p) s (fun r s' => own_e s' r).
  Proof. apply (mo_value _ (methods_ok 2)). Qed.
  Lemma ok_gradient f p s : Inv s -> In f (st_flist s) -> own_p s p ->
    okM (gradient SY f p) s (fun r s' => own_p s' r).
  Proof. apply (mo_grad _ (methods_ok 2)). Qed.

  Lemma ok_add_triplet f x g e s : Inv s -> In f (st_flist s) -> own_p s x -> own_p s g -> own_e s e ->
    okM (add_triplet SY f x g e) s (fun _ _ => True).
  Proof.
    intros I Hf Hx Hg He. unfold add_triplet.
    eapply ok_bind; [apply ok_fresh; easy|]. intros i s1 I1 E1 (Hi & Hi2 & Hs1).
    apply (mo_add _ (methods_ok 2)); try easy.
    - eapply ext_flist; eauto.
    - repeat split; simpl; try (eapply own_p_ext; eauto); eapply own_e_ext; eauto.
    - simpl. intros fn Hfn Hin. subst s1. simpl in Hfn.
      destruct (inv_funs s I f Hf) as [fn2 [A (_ & _ & _ & B & _)]]. rewrite A in Hfn.
      injection Hfn; intros <-. apply in_map_iff in Hin as [t [Et Ht]].
      rewrite Forall_forall in B. specialize (B t Ht). simpl in *. lia.
  Qed.

  Lemma ok_stationary f s : Inv s -> In f (st_flist s) ->
    okM (stationary_point SY f) s (fun r s' => own_p s' (fst (fst r)) /\ own_p s' (snd (fst r)) /\ own_e s' (snd r)).
  Proof.
    intros I Hf. unfold stationary_point.
    eapply ok_bind; [apply ok_new_point; easy|]. intros x s1 I1 E1 [Hx _].
    eapply ok_bind; [apply ok_new_expr; easy|]. intros e s2 I2 E2 [He _].
    eapply ok_bind.
    { apply ok_add_triplet; try easy.
      - eapply ext_flist; [exact E2|]. eapply ext_flist; [exact E1|easy].
      - eapply own_p_ext; eauto.
      - apply own_zero_p. }
    intros u s3 I3 E3 _. apply ok_ret; [easy|]. simpl. split; [|split].
    - eapply own_p_ext; [exact E3|]. eapply own_p_ext; [exact E2|easy].
    - apply own_zero_p.
    - eapply own_e_ext; eauto.
  Qed.

  Lemma ok_proximal x0 f gamma s : Inv s -> In f (st_flist s) -> own_p s x0 ->
    okM (proximal_step SY x0 f gamma) s (fun r s' => own_p s' (fst (fst r)) /\ own_p s' (snd (fst r)) /\ own_e s' (snd r)).
  Proof.
    intros I Hf Hx0. unfold proximal_step.
    eapply ok_bind; [apply ok_new_point; easy|]. intros g s1 I1 E1 [Hg _].
    eapply ok_bind; [apply ok_new_expr; easy|]. intros e s2 I2 E2 [He _].
    assert (Hx : own_p s2 (psub SY x0 (pscale SY gamma g))).
    { apply own_psub; [eapply own_p_ext; [exact E2|]; eapply own_p_ext; [exact E1|easy]|].
      apply own_pscale. eapply own_p_ext; eauto. }
    assert (Hg2 : own_p s2 g) by (eapply own_p_ext; eauto).
    eapply ok_bind.
    { apply ok_add_triplet; try easy.
      eapply ext_flist; [exact E2|]. eapply ext_flist; [exact E1|easy]. }
    intros u s3 I3 E3 _. apply ok_ret; [easy|]. simpl. split; [|split].
    - apply own_prune_p. eapply own_p_ext; [exact E3|easy].
    - eapply own_p_ext; eauto.
    - eapply own_e_ext; eauto.
  Qed.

  Lemma ok_conj g f s : Inv s -> In f (st_flist s) -> own_p s g ->
    okM (subgrad_conjugate SY g f) s (fun r s' => own_p s' r).
  Proof.
    intros I Hf Hg. unfold subgrad_conjugate.
    eapply ok_bind; [apply ok_new_point; easy|]. intros x s1 I1 E1 [Hx _].
    eapply ok_bind; [apply ok_new_expr; easy|]. intros e s2 I2 E2 [He _].
    assert (Hx2 : own_p s2 x) by (eapply own_p_ext; eauto).
    eapply ok_bind.
    { apply ok_add_triplet; try easy.
      - eapply ext_flist; [exact E2|]. eapply ext_flist; [exact E1|easy].
      - eapply own_p_ext; [exact E2|]. eapply own_p_ext; [exact E1|easy]. }
    intros u s3 I3 E3 _. apply ok_ret; [easy|]. eapply own_p_ext; eauto.
  Qed.

  (** function arithmetic *)
  Lemma fdict_keys s f fn : In f (st_flist s) -> dget Nat.eqb f (st_funs s) = Some fn -> fun_ok s f fn ->
    NoDup (keys (fn_dict fn)) /\
    forall g, In g (keys (fn_dict fn)) -> In g (st_flist s) /\ exists fg, dget Nat.eqb g (st_funs s) = Some fg /\ fn_leaf fg = true.
  Proof.
    intros Hf Hg (K & _). destruct (fn_leaf fn) eqn:El.
    - destruct K as [-> _]. split; [repeat constructor; easy|]. simpl. intros g [<-|[]]. eauto.
    - easy.
  Qed.

  Lemma ok_fn_add a b s : Inv s -> In a (st_flist s) -> In b (st_flist s) ->
    okM (fn_add SY a b) s (fun f s' => In f (st_flist s')).
  Proof.
    intros I Ha Hb. unfold fn_add.
    eapply ok_bind; [apply (ok_get_fun s a); easy|]. intros fa s1 I1 E1 (-> & Ga & Oa).
    eapply ok_bind; [apply (ok_get_fun s b); easy|]. intros fb s2 I2 E2 (-> & Gb & Ob).
    destruct (fdict_keys _ _ _ Ha Ga Oa) as [A1 A2]. destruct (fdict_keys _ _ _ Hb Gb Ob) as [B1 B2].
    apply ok_new_comp_fun; try easy.
    - apply (merge_wf SY Nat.eqb Nat.eqb_eq); easy.
    - intros g Hin. apply (merge_keys_incl SY Nat.eqb Nat.eqb_eq) in Hin as [Hin|Hin]; auto.
  Qed.
  Lemma ok_fn_scale c a s : Inv s -> In a (st_flist s) -> okM (fn_scale c a) s (fun f s' => In f (st_flist s')).
  Proof.
    intros I Ha. unfold fn_scale.
    eapply ok_bind; [apply (ok_get_fun s a); easy|]. intros fa s1 I1 E1 (-> & Ga & Oa).
    destruct (fdict_keys _ _ _ Ha Ga Oa) as [A1 A2].
    assert (K : keys (map (fun kv => (fst kv, smul (snd kv) c)) (fn_dict fa)) = keys (fn_dict fa)).
    { unfold keys. rewrite map_map. apply map_ext. easy. }
    apply ok_new_comp_fun; rewrite ?K; easy.
  Qed.
End Methods.

(** Sessions *)
Definition own_pb (s : state) (p : problem) : Prop :=
  Forall (fun c => own_e s (c_expr c)) (pr_cons p) /\
  match pr_metric p with Some m => own_e s m | None => True end.
Record SInv (se : session) : Prop := mkSInv {
  si_inv : Inv (se_st se);
  si_pts : Forall (own_p (se_st se)) (se_pts se);
  si_exps : Forall (own_e (se_st se)) (se_exps se);
  si_fns : Forall (fun f => In f (st_flist (se_st se))) (se_fns se);
  si_pb : own_pb (se_st se) (se_pb se)
}.

Lemma ok_at {A} (l : list A) i s (P : A -> Prop) : Inv s -> Forall P l -> okM (at_ l i) s (fun a s' => s' = s /\ P a).
Proof.
  intros I H. unfold at_. destruct (nth_error l i) eqn:E; [|apply ok_raise; easy].
  apply ok_ret; [easy|]. split; [easy|]. rewrite Forall_forall in H. apply H. eapply nth_error_In; eauto.
Qed.

Definition out_ok (o : out) (s : state) : Prop :=
  Forall (own_p s) (fst (fst o)) /\ Forall (own_e s) (snd (fst o)) /\ Forall (fun f => In f (st_flist s)) (snd o).

Section SessionFacts.
  Variable SY : sympy.

  Ltac getP H := eapply ok_bind; [apply (ok_at _ _ _ (own_p _) ltac:(eassumption)); apply H|];
     intros ? ? ? ? [-> ?].

  Lemma call_ok se o : SInv se -> okM (call SY se o) (se_st se) out_ok.
  Proof.
    intros [I HP HE HF _]. set (s := se_st se) in *.
    assert (P : forall i (k : point -> M out), (forall p, own_p s p -> okM (k p) s out_ok) ->
      okM (bind (at_ (se_pts se) i) k) s out_ok).
    { intros i k Hk. eapply ok_bind; [apply (ok_at _ _ _ _ I HP)|]. intros a s' _ _ [-> Ha]. auto. }
    assert (E : forall i (k : expr -> M out), (forall p, own_e s p -> okM (k p) s out_ok) ->
      okM (bind (at_ (se_exps se) i) k) s out_ok).
    { intros i k Hk. eapply ok_bind; [apply (ok_at _ _ _ _ I HE)|]. intros a s' _ _ [-> Ha]. auto. }
    assert (F : forall i (k : nat -> M out), (forall p, In p (st_flist s) -> okM (k p) s out_ok) ->
      okM (bind (at_ (se_fns se) i) k) s out_ok).
    { intros i k Hk. eapply ok_bind; [apply (ok_at _ _ _ _ I HF)|]. intros a s' _ _ [-> Ha]. auto. }
    assert (RP : forall p, own_p s p -> okM (ret (outp p)) s out_ok).
    { intros p Hp. apply ok_ret; [easy|]. repeat split; simpl; repeat constructor; apply Hp. }
    assert (RE : forall p, own_e s p -> okM (ret (oute p)) s out_ok).
    { intros p Hp. apply ok_ret; [easy|]. repeat split; simpl; repeat constructor; apply Hp. }
    assert (MP : forall m : M point, okM m s (fun p s' => own_p s' p) -> okM (do p <- m; ret (outp p)) s out_ok).
    { intros m Hm. eapply ok_bind; [exact Hm|]. intros p s1 I1 E1 Hp. apply ok_ret; [easy|].
      repeat split; simpl; repeat constructor; apply Hp. }
    assert (ME : forall m : M expr, okM m s (fun p s' => own_e s' p) -> okM (do p <- m; ret (oute p)) s out_ok).
    { intros m Hm. eapply ok_bind; [exact Hm|]. intros p s1 I1 E1 Hp. apply ok_ret; [easy|].
      repeat split; simpl; repeat constructor; apply Hp. }
    assert (MF : forall m : M nat, okM m s (fun p s' => In p (st_flist s')) -> okM (do p <- m; ret (outf p)) s out_ok).
    { intros m Hm. eapply ok_bind; [exact Hm|]. intros p s1 I1 E1 Hp. apply ok_ret; [easy|].
      repeat split; simpl; repeat constructor; apply Hp. }
    assert (NL : forall c b, c <> CBase -> okM (new_leaf_fun c b) s (fun p s' => In p (st_flist s')))
      by (intros; apply ok_new_leaf_fun; easy).
    assert (NS : forall mu L, okM (new_smooth_sc mu L) s (fun p s' => In p (st_flist s'))).
    { intros mu [l|]; simpl; [apply NL; easy|]. eapply ok_bind; [apply NL; easy|].
      intros; apply ok_raise; easy. }
    destruct o; cbn [call].
    - apply ok_ret; [easy|]. repeat split; constructor.
    - apply MP. eapply ok_weaken; [apply ok_new_point; easy|]. simpl; intuition.
    - apply ME. eapply ok_weaken; [apply ok_new_expr; easy|]. simpl; intuition.
    - apply P; intros p Hp. apply P; intros q Hq. apply RP, own_padd; easy.
    - apply P; intros p Hp. apply P; intros q Hq. apply RP, own_psub; easy.
    - apply P; intros p Hp. apply RP, own_pscale; easy.
    - apply P; intros p Hp. apply RP, own_pscale; easy.
    - apply P; intros p Hp. apply MP, ok_lift; [easy|]. intros a Ha. eapply own_pdiv; eauto.
    - apply P; intros p Hp. apply P; intros q Hq. apply RE, own_pmul; easy.
    - apply P; intros p Hp. apply ME, ok_lift; [easy|]. intros a Ha. eapply own_ppow; eauto.
    - apply E; intros p Hp. apply E; intros q Hq. apply RE, own_eadd; easy.
    - apply E; intros p Hp. apply E; intros q Hq. apply RE, own_esub; easy.
    - apply E; intros p Hp. apply RE, own_escale; easy.
    - apply E; intros p Hp. apply RE, own_escale; easy.
    - apply E; intros p Hp. apply ME, ok_lift; [easy|]. intros a Ha. eapply own_ediv; eauto.
    - apply E; intros p Hp. apply RE, own_eaddc; easy.
    - apply E; intros p Hp. apply RE, own_eaddc; easy.
    - apply E; intros p Hp. apply RE, own_escale, own_eaddc; easy.
    - apply MF, NL; easy.
    - apply MF, NS.
    - apply MF, NL; easy.
    - apply MF, NS.
    - apply MF. unfold def_function. destruct L; destruct (negb (Qeq_bool mu 0)); try apply NS; apply NL; easy.
    - apply F; intros a Ha. apply F; intros b Hb. apply MF, ok_fn_add; easy.
    - apply F; intros a Ha. apply F; intros b Hb. apply MF. unfold fn_sub.
      eapply ok_bind; [apply ok_fn_scale; easy|]. intros g s1 I1 E1 Hg. apply ok_fn_add; try easy.
      eapply ext_flist; eauto.
    - apply F; intros a Ha. apply MF, ok_fn_scale; easy.
    - apply F; intros a Ha. apply MF, ok_fn_scale; easy.
    - apply F; intros a Ha. apply MF. unfold fn_div.
      eapply ok_bind; [apply (ok_lift _ s (fun _ s' => s' = s)); easy|]. intros r s1 I1 E1 ->. apply ok_fn_scale; easy.
    - apply F; intros a Ha. apply P; intros p Hp.
      eapply ok_bind; [apply ok_oracle; easy|]. intros r s1 I1 E1 [H1 H2]. apply ok_ret; [easy|].
      repeat split; simpl; repeat constructor; try apply H1; apply H2.
    - apply F; intros a Ha. apply P; intros p Hp. apply ME, ok_value; easy.
    - apply F; intros a Ha. apply P; intros p Hp. apply MP, ok_gradient; easy.
    - apply F; intros a Ha. eapply ok_bind; [apply ok_stationary; easy|]. intros r s1 I1 E1 (H1 & H2 & H3).
      apply ok_ret; [easy|]. repeat split; simpl; repeat constructor; try apply H1; try apply H2; apply H3.
    - apply F; intros a Ha. apply P; intros p Hp.
      eapply ok_bind; [apply ok_proximal; easy|]. intros r s1 I1 E1 (H1 & H2 & H3).
      apply ok_ret; [easy|]. repeat split; simpl; repeat constructor; try apply H1; try apply H2; apply H3.
    - apply F; intros a Ha. apply P; intros p Hp. apply MP, ok_conj; easy.
    - apply F; intros a Ha. apply P; intros p Hp. apply P; intros q Hq. apply E; intros e0 He0.
      eapply ok_bind; [apply ok_add_triplet; easy|]. intros u s1 I1 E1 _. apply ok_ret; [easy|].
      repeat split; constructor.
    - apply ok_ret; [easy|]. repeat split; constructor.
    - apply ok_ret; [easy|]. repeat split; constructor.
    - apply MP. eapply ok_weaken; [apply ok_new_point; easy|]. simpl; intuition.
  Qed.

  Lemma reset_inv s : Forall (fun f => f < st_next s) (keys (st_funs s)) ->
    Inv (mkState (st_next s) 0 0 0 (st_funs s) [] [] []).
  Proof. intros H. constructor; simpl; try easy; constructor. Qed.

  Lemma own_pb_ext s s' p : ext s s' -> own_pb s p -> own_pb s' p.
  Proof.
    intros E [H1 H2]. split.
    - rewrite Forall_forall in *. intros c Hc. eapply own_e_ext; eauto.
    - destruct (pr_metric p); [eapply own_e_ext; eauto|easy].
  Qed.

  Theorem step_inv se o : SInv se -> SInv (step SY se o).
  Proof.
    intros HI.
    assert (G : SInv (match call SY se o (se_st se) with
        | (Ok (ps, es, fs), s') => mkSession s' (se_pts se ++ ps) (se_exps se ++ es) (se_fns se ++ fs) (se_pb se)
        | (Err _, s') => mkSession s' (se_pts se) (se_exps se) (se_fns se) (se_pb se) end)).
    { assert (H := call_ok se o HI). destruct HI as [I HP HE HF HB].
      unfold okM in H. destruct (call SY se o (se_st se)) as [[[[ps es] fs]|e] s']; simpl in H.
      - destruct H as (I' & E & HQ). destruct (HQ _ eq_refl) as (Q1 & Q2 & Q3). simpl in *.
        constructor; simpl; try easy.
        + apply Forall_app; split; [|easy]. rewrite Forall_forall in *; intros; eapply own_p_ext; eauto.
        + apply Forall_app; split; [|easy]. rewrite Forall_forall in *; intros; eapply own_e_ext; eauto.
        + apply Forall_app; split; [|easy]. rewrite Forall_forall in *; intros; eapply ext_flist; eauto.
        + eapply own_pb_ext; eauto.
      - destruct H as (I' & E & _).
        constructor; simpl; try easy.
        + rewrite Forall_forall in *; intros; eapply own_p_ext; eauto.
        + rewrite Forall_forall in *; intros; eapply own_e_ext; eauto.
        + rewrite Forall_forall in *; intros; eapply ext_flist; eauto.
        + eapply own_pb_ext; eauto. }
    destruct o; try exact G.
    - simpl. destruct HI as [I HP HE HF HB]. constructor; simpl; try apply Forall_nil.
      + apply reset_inv. apply inv_fid; easy.
      + split; simpl; [constructor|easy].
    - simpl. destruct (nth_error (se_exps se) e) eqn:En; [|easy].
      destruct HI as [I HP HE HF HB]. constructor; simpl; try easy. destruct HB as [B1 B2].
      split; [easy|]. simpl. rewrite Forall_forall in HE. apply HE. eapply nth_error_In; eauto.
    - simpl. destruct (nth_error (se_exps se) e) eqn:En; [|easy].
      destruct (new_constraint e0 kind) eqn:Ec; [|easy].
      destruct HI as [I HP HE HF HB]. constructor; simpl; try easy. destruct HB as [B1 B2].
      split; [|easy]. simpl. apply Forall_app; split; [easy|]. constructor; [|constructor].
      unfold new_constraint in Ec. rewrite Forall_forall in HE.
      destruct (String.eqb kind "equality"); [injection Ec; intros <-; simpl; apply HE; eapply nth_error_In; eauto|].
      destruct (String.eqb kind "inequality"); [injection Ec; intros <-; simpl; apply HE; eapply nth_error_In; eauto|easy].
  Qed.

  Lemma session0_inv : SInv session0.
  Proof. constructor; simpl; try constructor; try easy; simpl; try constructor. Qed.

  Theorem run_inv l : forall se, SInv se -> SInv (run SY se l).
  Proof. induction l as [|o l IH]; simpl; intros se H; [easy|]. apply IH, step_inv; easy. Qed.

  Theorem reachable_inv l : SInv (run SY session0 l).
  Proof. apply run_inv, session0_inv. Qed.
End SessionFacts.
