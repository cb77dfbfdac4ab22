(** Evaluation of functions: weighted sums over components, reuse of
    gradients. *)
From Coq Require Import List Arith Bool QArith Reals Qreals Lra Lia FunctionalExtensionality Permutation.
From Verif Require Import Prelude PreludeFacts Sympy SympyFacts AlgebraModel Denote AlgebraFacts
  FunctionModel CircuitModel StateSpec StateFacts SessionModel FunctionSpec.
Import ListNotations.
Open Scope nat_scope.

(** * Equality of dictionaries *)
Section Dict.
  Context {K : Type} (eqb : K -> K -> bool) (eqb_eq : forall a b, eqb a b = true <-> a = b).

  Definition same_dict (d1 d2 : list (K * sexpr)) : Prop :=
    forall k, match dget eqb k d1, dget eqb k d2 with
              | Some a, Some b => sexpr_eqb a b = true
              | None, None => True
              | _, _ => False
              end.

  Lemma dget_some_keys k (d : list (K * sexpr)) : In k (keys d) -> exists a, dget eqb k d = Some a.
  Proof using eqb_eq.
    intros H. destruct (dget eqb k d) eqn:E; [eauto|]. apply (dget_none eqb eqb_eq) in E. easy.
  Qed.

  Lemma dict_eqb_spec d1 d2 : NoDup (keys d1) -> NoDup (keys d2) -> dict_eqb eqb d1 d2 = true <-> same_dict d1 d2.
  Proof using eqb_eq.
    intros N1 N2. unfold dict_eqb. rewrite andb_true_iff, Nat.eqb_eq, forallb_forall. split.
    - intros [HL HF] k.
      assert (Hin : incl (keys d1) (keys d2)).
      { intros x Hx. unfold keys in Hx. apply in_map_iff in Hx as [[x' a] [<- Hx]]. specialize (HF _ Hx). simpl in *.
        destruct (dget eqb x' d2) eqn:E; [|easy]. apply (dget_in eqb eqb_eq) in E. unfold keys. apply in_map_iff.
        exists (x', s); easy. }
      assert (Hrev : incl (keys d2) (keys d1)).
      { apply NoDup_length_incl; [easy| |easy]. unfold keys. rewrite !map_length. lia. }
      destruct (dget eqb k d1) as [a|] eqn:E1.
      + specialize (HF _ (dget_in eqb eqb_eq _ _ _ E1)). simpl in HF. destruct (dget eqb k d2); easy.
      + destruct (dget eqb k d2) eqn:E2; [|easy].
        apply (dget_none eqb eqb_eq) in E1. apply E1, Hrev. apply (dget_in eqb eqb_eq) in E2.
        unfold keys. apply in_map_iff. exists (k, s); easy.
    - intros H.
      assert (A : incl (keys d1) (keys d2)).
      { intros x Hx. destruct (dget_some_keys _ _ Hx) as [a Ha]. specialize (H x). rewrite Ha in H.
        destruct (dget eqb x d2) eqn:E; [|easy]. apply (dget_in eqb eqb_eq) in E. unfold keys. apply in_map_iff.
        exists (x, s); easy. }
      assert (B : incl (keys d2) (keys d1)).
      { intros x Hx. destruct (dget_some_keys _ _ Hx) as [a Ha]. specialize (H x). rewrite Ha in H.
        destruct (dget eqb x d1) eqn:E; [|easy]. apply (dget_in eqb eqb_eq) in E. unfold keys. apply in_map_iff.
        exists (x, s); easy. }
      split.
      + apply NoDup_incl_length in A; [|easy]. apply NoDup_incl_length in B; [|easy].
        unfold keys in *. rewrite !map_length in *. lia.
      + intros [x a] Hx. simpl. specialize (H x). rewrite (dget_nodup eqb eqb_eq x a d1 N1 Hx) in H.
        destruct (dget eqb x d2); easy.
  Qed.

  Lemma same_dict_refl d : same_dict d d.
  Proof using Type. intros k. destruct (dget eqb k d); [apply sexpr_eqb_refl|easy]. Qed.
  Lemma same_dict_sym d e : same_dict d e -> same_dict e d.
  Proof using Type.
    intros H k. specialize (H k). destruct (dget eqb k d), (dget eqb k e); try easy. apply sexpr_eqb_sym; easy.
  Qed.
  Lemma same_dict_trans a b c : same_dict a b -> same_dict b c -> same_dict a c.
  Proof using Type.
    intros H1 H2 k. specialize (H1 k). specialize (H2 k).
    destruct (dget eqb k a), (dget eqb k b), (dget eqb k c); try easy. eapply sexpr_eqb_trans; eauto.
  Qed.
End Dict.

Lemma same_point_refl p : wf_p p -> same_point p p = true.
Proof. intros H. apply (dict_eqb_spec leaf_eqb leaf_eqb_eq); try easy. apply same_dict_refl. Qed.
Lemma same_point_sym p q : wf_p p -> wf_p q -> same_point p q = true -> same_point q p = true.
Proof.
  intros H1 H2 H. apply (dict_eqb_spec leaf_eqb leaf_eqb_eq) in H; try easy.
  apply (dict_eqb_spec leaf_eqb leaf_eqb_eq); try easy. apply same_dict_sym; easy.
Qed.
Lemma same_point_trans p q r : wf_p p -> wf_p q -> wf_p r ->
  same_point p q = true -> same_point q r = true -> same_point p r = true.
Proof.
  intros H1 H2 H3 A B. apply (dict_eqb_spec leaf_eqb leaf_eqb_eq) in A; try easy.
  apply (dict_eqb_spec leaf_eqb leaf_eqb_eq) in B; try easy.
  apply (dict_eqb_spec leaf_eqb leaf_eqb_eq); try easy. eapply same_dict_trans; eauto.
Qed.
Lemma same_point_den v p q : wf_p p -> wf_p q -> same_point p q = true -> den_p v p = den_p v q.
Proof.
  intros H1 H2 H. unfold den_p, den_pd. apply functional_extensionality; intros k.
  apply (dict_eqb_den leaf_eqb leaf_eqb_eq (v_env v) (fun l => v_pt v l k) _ _ H1 H2 H).
Qed.
(** a point using a leaf unknown to [q] is not [q] *)
Lemma same_point_fresh p q x : wf_p p -> wf_p q -> In x (keys (pt_dict q)) -> ~ In x (keys (pt_dict p)) ->
  same_point p q = false.
Proof.
  intros H1 H2 Hq Hp. destruct (same_point p q) eqn:E; [|easy].
  apply (dict_eqb_spec leaf_eqb leaf_eqb_eq) in E; try easy. specialize (E x).
  destruct (dget_some_keys leaf_eqb leaf_eqb_eq _ _ Hq) as [a Ha]. rewrite Ha in E.
  apply (dget_none leaf_eqb leaf_eqb_eq) in Hp. rewrite Hp in E. easy.
Qed.

Lemma prune_p_id p : pruned p -> prune_p p = p.
Proof. destruct p; unfold pruned, prune_p; simpl. intros ->. easy. Qed.
Lemma prune_p_pruned p : pruned (prune_p p).
Proof. unfold pruned, prune_p; simpl. apply prune_prune. Qed.
Lemma leaf_point_pruned l : pruned (leaf_point l).
Proof. easy. Qed.
Lemma zero_point_pruned : pruned zero_point. Proof. easy. Qed.
Lemma prune_p_den v p : den_p v (prune_p p) = den_p v p.
Proof.
  unfold den_p, den_pd, prune_p. apply functional_extensionality; intros k. simpl.
  apply (prune_den (v_env v) (fun l => v_pt v l k)).
Qed.
Lemma prune_e_den v e : den_e v (prune_e e) = den_e v e.
Proof. unfold den_e, den_ed, prune_e. simpl. apply (prune_den (v_env v) (den_key v)). Qed.

Lemma nonzero_not_zero w : nonzero w -> is_num 0 w = false.
Proof. intros [q [-> H]]. easy. Qed.
Lemma nonzero_recip w : nonzero w -> exists r, recip w = Ok r.
Proof. intros [q [-> H]]. simpl. rewrite H. eauto. Qed.
Lemma nonzero_prune {K} (d : list (K * sexpr)) : Forall (fun fw => nonzero (snd fw)) d -> prune_dict d = d.
Proof.
  induction 1 as [|[k w] d H _ IH]; simpl; [easy|]. simpl in H. rewrite (nonzero_not_zero _ H). simpl. f_equal; easy.
Qed.
Lemma nonzero_ev w r : nonzero w -> ev r w <> 0%R.
Proof.
  intros [q [-> H]]. simpl. intros E. rewrite <- Q2R_0' in E. apply eqR_Qeq in E.
  apply Qeq_bool_iff in E. congruence.
Qed.

Lemma Forall2_impl' {A B} (P Q : A -> B -> Prop) l m : (forall a b, P a b -> Q a b) -> Forall2 P l m -> Forall2 Q l m.
Proof. intros H. induction 1; constructor; auto. Qed.

Lemma Forall2_cons_l {A B} (P : A -> B -> Prop) a l m : Forall2 P (a :: l) m -> exists b m', m = b :: m' /\ P a b /\ Forall2 P l m'.
Proof. inversion 1; subst; eauto. Qed.
Lemma Forall2_nil_l {A B} (P : A -> B -> Prop) m : Forall2 P [] m -> m = [].
Proof. inversion 1; easy. Qed.

(** * Results of computations *)
Lemma bind_ok {A B} (m : M A) (k : A -> M B) s a s' : m s = (Ok a, s') -> bind m k s = k a s'.
Proof. unfold bind. intros ->. easy. Qed.
Lemma get_fun_ok s f fn : dget Nat.eqb f (st_funs s) = Some fn -> get_fun f s = (Ok fn, s).
Proof. unfold get_fun. intros ->. easy. Qed.

Definition tick (s : state) : state := mkState (S (st_next s)) (st_pctr s) (st_ectr s) (st_fctr s) (st_funs s) (st_flist s)
  (st_plist s) (st_elist s).
Lemma bind_fresh {B} (k : nat -> M B) s : bind fresh_id k s = k (st_next s) (tick s).
Proof. easy. Qed.
Definition put (s : state) (f : nat) (fn : func) : state := mkState (st_next s) (st_pctr s) (st_ectr s) (st_fctr s)
  (dset Nat.eqb f fn (st_funs s)) (st_flist s) (st_plist s) (st_elist s).
Lemma bind_set {B} (k : unit -> M B) s f fn : bind (set_fun f fn) k s = k tt (put s f fn).
Proof. easy. Qed.

Definition keepf (s s' : state) : Prop := st_funs s' = st_funs s /\ st_flist s' = st_flist s.
(** [s'] is [s] with the triple [t] appended to the records of [f]; other
    Function objects are untouched. *)
Definition appended (s s' : state) (f : nat) (t : trip) : Prop :=
  st_flist s' = st_flist s /\
  (forall h, h <> f -> dget Nat.eqb h (st_funs s') = dget Nat.eqb h (st_funs s)) /\
  exists fn fn', dget Nat.eqb f (st_funs s) = Some fn /\ dget Nat.eqb f (st_funs s') = Some fn' /\
    fn_leaf fn' = fn_leaf fn /\ fn_reuse fn' = fn_reuse fn /\ fn_dict fn' = fn_dict fn /\
    fn_pts fn' = fn_pts fn ++ [t].

Lemma keepf_appended s s1 s' f t : keepf s s1 -> appended s1 s' f t -> appended s s' f t.
Proof. unfold keepf, appended. intros [E1 E2] H. rewrite E1, E2 in H. easy. Qed.
Lemma keepf_trans a b c : keepf a b -> keepf b c -> keepf a c.
Proof. unfold keepf. intuition congruence. Qed.
Lemma keepf_refl s : keepf s s. Proof. easy. Qed.

Definition ev_at (s : state) (p : point) (f : nat) : option (point * expr) :=
  match dget Nat.eqb f (st_funs s) with Some fn => evaluated_at (fn_pts fn) p | None => None end.

Lemma evaluated_in l p r : evaluated_at l p = Some r ->
  exists t, In t l /\ same_point (t_x t) p = true /\ r = (t_g t, t_f t).
Proof.
  unfold evaluated_at. destruct (find _ l) as [t|] eqn:E; [|easy]. apply find_some in E as [H1 H2].
  intros E. injection E; intros <-. eauto.
Qed.
Lemma evaluated_none l p t : evaluated_at l p = None -> In t l -> same_point (t_x t) p = false.
Proof.
  unfold evaluated_at. destruct (find _ l) as [t'|] eqn:E; [easy|]. intros _ H. apply (find_none _ _ E t H).
Qed.
Lemma evaluated_some l p t : In t l -> same_point (t_x t) p = true -> exists r, evaluated_at l p = Some r.
Proof.
  intros H1 H2. destruct (evaluated_at l p) eqn:E; [eauto|]. rewrite (evaluated_none _ _ _ E H1) in H2. easy.
Qed.

Lemma new_point_run s : exists x s1, new_point s = (Ok (leaf_point x), s1) /\ keepf s s1 /\
  (Inv s -> ~ In x (st_plist s)) /\ In x (st_plist s1) /\ st_elist s1 = st_elist s.
Proof.
  eexists _, _. split; [reflexivity|]. split; [easy|]. split; [|split; [|easy]].
  - intros I H. assert (HI := inv_pid s I). rewrite Forall_forall in HI. specialize (HI _ H). simpl in HI. lia.
  - simpl. apply in_or_app. right. simpl; auto.
Qed.
Lemma new_expr_run s : exists x s1, new_expr s = (Ok (leaf_expr x), s1) /\ keepf s s1 /\
  (Inv s -> ~ In x (st_elist s)) /\ st_plist s1 = st_plist s.
Proof.
  eexists _, _. split; [reflexivity|]. split; [easy|]. split; [|easy].
  intros I H. assert (HI := inv_eid s I). rewrite Forall_forall in HI. specialize (HI _ H). simpl in HI. lia.
Qed.

Section Methods.
  Variable SY : sympy.
  Hypothesis OK : sympy_ok SY.

  (** ** Leaves *)
  Lemma leaf_add sub f t0 s fn : dget Nat.eqb f (st_funs s) = Some fn -> fn_leaf fn = true ->
    exists s', add_body SY sub f t0 s = (Ok tt, s') /\ appended s s' f (prune_t t0) /\
      st_plist s' = st_plist s /\ st_elist s' = st_elist s.
  Proof using Type.
    intros Hg Hl. unfold add_body. rewrite (bind_ok _ _ _ _ _ (get_fun_ok _ _ _ Hg)). unfold bind, set_fun. rewrite Hl.
    eexists; split; [reflexivity|]. split; [|easy]. split; [easy|]. split.
    - intros h Hh. simpl. apply (dget_dset_other Nat.eqb Nat.eqb_eq); easy.
    - eexists fn, _. split; [easy|]. simpl. rewrite (dget_dset_same Nat.eqb Nat.eqb_eq). split; [reflexivity|]. easy.
  Qed.

  (** what a leaf's oracle does *)
  Definition leaf_outcome (s s' : state) (f : nat) (fn : func) (p g : point) (e : expr) : Prop :=
    (s' = s /\ fn_reuse fn = true /\ evaluated_at (fn_pts fn) p = Some (g, e)) \/
    (exists t, appended s s' f t /\ t_x t = p /\ t_g t = g /\ t_f t = e /\
       (exists x, g = leaf_point x /\ ~ In x (st_plist s)) /\
       match evaluated_at (fn_pts fn) p with
       | Some gv => fn_reuse fn = false /\ e = prune_e (snd gv)
       | None => exists y, e = leaf_expr y /\ ~ In y (st_elist s)
       end).

  Lemma separate_leaf s f fn p : dget Nat.eqb f (st_funs s) = Some fn ->
    separate [(f, Num 1%Q)] p s =
      (Ok (match evaluated_at (fn_pts fn) p with
           | Some _ => if fn_reuse fn then ([(f, Num 1%Q)], [], []) else ([], [(f, Num 1%Q)], [])
           | None => ([], [], [(f, Num 1%Q)]) end), s).
  Proof using Type.
    intros H. cbn [separate]. rewrite (bind_ok _ _ _ _ _ (get_fun_ok _ _ _ H)). unfold bind, ret.
    destruct (evaluated_at (fn_pts fn) p); [destruct (fn_reuse fn)|]; easy.
  Qed.

  Lemma leaf_oracle sub f fn p s : Inv s -> dget Nat.eqb f (st_funs s) = Some fn -> fn_leaf fn = true ->
    fn_dict fn = [(f, Num 1%Q)] -> pruned p ->
    exists g e s', oracle_body SY sub f p s = (Ok (g, e), s') /\ leaf_outcome s s' f fn p g e.
  Proof using Type.
    intros I Hg Hl Hd Hp. unfold oracle_body. rewrite (bind_ok _ _ _ _ _ (get_fun_ok _ _ _ Hg)). rewrite Hd.
    unfold leaf_outcome. destruct (evaluated_at (fn_pts fn) p) as [[g0 e0]|] eqn:Ee; [destruct (fn_reuse fn) eqn:Er|].
    - exists g0, e0, s. split; [easy|]. left; easy.
    - rewrite (bind_ok _ _ _ _ _ (separate_leaf s f fn p Hg)), Ee, Er.
      rewrite (bind_ok _ _ s e0 s eq_refl).
      destruct (new_point_run s) as (x & s1 & E1 & K1 & F1 & P1 & X1). rewrite (bind_ok _ _ _ _ _ E1).
      rewrite bind_fresh. set (s2' := tick s1).
      assert (K2 : keepf s1 s2') by easy.
      assert (Hg2 : dget Nat.eqb f (st_funs s2') = Some fn) by (destruct K1 as [K1 _]; simpl; rewrite K1; easy).
      destruct (leaf_add sub f (mkTrip (st_next s1) p (leaf_point x) e0) s2' fn Hg2 Hl) as (s3 & E3 & A3 & _).
      rewrite (bind_ok _ _ _ _ _ E3). eexists _, _, s3. split; [reflexivity|]. right.
      eexists. split; [eapply keepf_appended; [eapply keepf_trans; [exact K1|exact K2]|exact A3]|].
      simpl. rewrite (prune_p_id p Hp). repeat split; try easy. exists x. split; [easy|]. auto.
    - rewrite (bind_ok _ _ _ _ _ (separate_leaf s f fn p Hg)), Ee.
      destruct (new_expr_run s) as (y & s0 & E0 & K0 & F0 & P0). rewrite (bind_ok _ _ _ _ _ E0).
      destruct (new_point_run s0) as (x & s1 & E1 & K1 & F1 & P1 & X1). rewrite (bind_ok _ _ _ _ _ E1).
      rewrite bind_fresh. set (s2' := tick s1).
      assert (K2 : keepf s1 s2') by easy.
      assert (Hg2 : dget Nat.eqb f (st_funs s2') = Some fn).
      { destruct K1 as [K1 _]. destruct K0 as [K0 _]. simpl. rewrite K1, K0; easy. }
      destruct (leaf_add sub f (mkTrip (st_next s1) p (leaf_point x) (leaf_expr y)) s2' fn Hg2 Hl) as (s3 & E3 & A3 & _).
      rewrite (bind_ok _ _ _ _ _ E3). eexists _, _, s3. split; [reflexivity|]. right.
      eexists. split.
      { eapply keepf_appended; [eapply keepf_trans; [exact K0|eapply keepf_trans; [exact K1|exact K2]]|exact A3]. }
      simpl. rewrite (prune_p_id p Hp). repeat split; try easy.
      + exists x. split; [easy|]. assert (E0' : new_expr s = (Ok (leaf_expr y), s0)) by exact E0.
        assert (I0 : Inv s0). { destruct (ok_new_expr s I) as [H _]. rewrite E0 in H. exact H. }
        rewrite <- P0. auto.
      + exists y. split; [easy|]. auto.
  Qed.

  (** ** Invariants about records *)
  Definition uniq_fn (fn : func) : Prop := fn_reuse fn = true ->
    forall t1 t2, In t1 (fn_pts fn) -> In t2 (fn_pts fn) -> same_point (t_x t1) (t_x t2) = true -> t1 = t2.
  Definition val_fn (fn : func) : Prop :=
    forall t1 t2, In t1 (fn_pts fn) -> In t2 (fn_pts fn) -> same_point (t_x t1) (t_x t2) = true ->
    forall v, den_e v (t_f t1) = den_e v (t_f t2).
  Definition LG (s : state) : Prop := forall f fn, In f (st_flist s) -> dget Nat.eqb f (st_funs s) = Some fn ->
    fn_leaf fn = true -> uniq_fn fn /\ val_fn fn.

  Definition dec_at (s : state) (d : list (nat * sexpr)) (x g : point) (e : expr) : Prop :=
    exists ts, Forall2 (fun fw t => recorded s (fst fw) t /\ same_point (t_x t) x = true) d ts /\
      forall v, den_p v g = wsum_p v d ts /\ den_e v e = wsum_e v d ts.
  Definition all_reuse (s : state) (d : list (nat * sexpr)) : Prop :=
    forall h fh, In h (keys d) -> dget Nat.eqb h (st_funs s) = Some fh -> fn_reuse fh = true.
  Definition CG1 (s : state) (fn : func) : Prop :=
    (fn_reuse fn = true <-> all_reuse s (fn_dict fn)) /\
    (fn_dict fn <> [] /\ Forall (fun fw => nonzero (snd fw)) (fn_dict fn)) /\
    uniq_fn fn /\
    forall t, In t (fn_pts fn) -> dec_at s (fn_dict fn) (t_x t) (t_g t) (t_f t).
  Definition CG (s : state) : Prop := forall f fn, In f (st_flist s) -> dget Nat.eqb f (st_funs s) = Some fn ->
    fn_leaf fn = false -> CG1 s fn.
  Definition Good (s : state) : Prop := LG s /\ CG s.

  Definition rec_mono (s s' : state) : Prop := forall f t, recorded s f t -> recorded s' f t.
  Lemma dec_at_mono s s' d x g e : rec_mono s s' -> dec_at s d x g e -> dec_at s' d x g e.
  Proof using Type.
    intros M (ts & H & E). exists ts. split; [|easy]. eapply Forall2_impl'; [|exact H]. simpl. intros a b [A B]. auto.
  Qed.
  Lemma ext_rec_mono s s' : ext s s' -> rec_mono s s'.
  Proof using Type.
    intros (_ & _ & _ & _ & E) f t (fn & Hg & Ht). destruct (E f fn Hg) as (fn' & Hg' & (_ & _ & _ & _ & _ & [l Hp] & _)).
    exists fn'. split; [easy|]. rewrite Hp. apply in_or_app; auto.
  Qed.
  Lemma appended_recorded s s' f t : appended s s' f t -> recorded s' f t.
  Proof using Type.
    intros (_ & _ & fn & fn' & A & B & _ & _ & _ & P). exists fn'. split; [easy|]. rewrite P. apply in_or_app; simpl; auto.
  Qed.

  Lemma rec_own s f t : Inv s -> In f (st_flist s) -> recorded s f t -> own_t s t.
  Proof using Type.
    intros I Hf (fn & Hg & Ht). destruct (inv_funs s I f Hf) as (fn' & Hg' & Hok). rewrite Hg in Hg'.
    injection Hg'; intros <-. destruct Hok as (_ & H & _). rewrite Forall_forall in H. auto.
  Qed.

  Lemma uniq_app fn fn' t : uniq_fn fn -> fn_reuse fn' = fn_reuse fn -> fn_pts fn' = fn_pts fn ++ [t] ->
    (fn_reuse fn = true -> forall t1, In t1 (fn_pts fn) -> same_point (t_x t1) (t_x t) = false /\ same_point (t_x t) (t_x t1) = false) ->
    uniq_fn fn'.
  Proof using Type.
    intros U R P N Hr t1 t2 H1 H2 E. rewrite R in Hr. rewrite P in H1, H2. rewrite in_app_iff in H1, H2. simpl in H1, H2.
    destruct H1 as [H1|[<-|[]]], H2 as [H2|[<-|[]]]; try easy.
    - apply U; easy.
    - destruct (N Hr t1 H1) as [A _]. congruence.
    - destruct (N Hr t2 H2) as [_ A]. congruence.
  Qed.
  Lemma val_app fn fn' t : val_fn fn -> fn_pts fn' = fn_pts fn ++ [t] -> wf_p (t_x t) ->
    (forall t1, In t1 (fn_pts fn) -> wf_p (t_x t1)) ->
    (forall t1, In t1 (fn_pts fn) -> same_point (t_x t1) (t_x t) = true -> forall v, den_e v (t_f t1) = den_e v (t_f t)) ->
    val_fn fn'.
  Proof using Type.
    intros U P W WF N t1 t2 H1 H2 E v. rewrite P in H1, H2. rewrite in_app_iff in H1, H2. simpl in H1, H2.
    destruct H1 as [H1|[<-|[]]], H2 as [H2|[<-|[]]]; try easy.
    - apply U; easy.
    - apply N; easy.
    - symmetry. apply N; try easy. apply same_point_sym; auto.
  Qed.

  (** appending to a leaf keeps the leaf invariant *)
  Lemma LG_append s s' f fn t : Inv s -> LG s -> In f (st_flist s) -> dget Nat.eqb f (st_funs s) = Some fn ->
    fn_leaf fn = true -> appended s s' f t -> wf_p (t_x t) ->
    (fn_reuse fn = true -> evaluated_at (fn_pts fn) (t_x t) = None) ->
    (forall ge, evaluated_at (fn_pts fn) (t_x t) = Some ge -> forall v, den_e v (snd ge) = den_e v (t_f t)) ->
    LG s'.
  Proof using Type.
    intros I L Hf Hg Hl (Efl & Eo & fn0 & fn' & A & B & C1 & C2 & C3 & C4) W Hr Hv h fh Hh Hgh Hlh.
    rewrite A in Hg; injection Hg; intros ->. rewrite Efl in Hh.
    destruct (Nat.eq_dec h f) as [->|Hne].
    - rewrite B in Hgh; injection Hgh; intros <-. destruct (L f fn Hf A Hl) as [U V].
      assert (WF : forall t1, In t1 (fn_pts fn) -> wf_p (t_x t1)).
      { intros t1 H1. destruct (rec_own s f t1 I Hf) as ((W1 & _) & _); [exists fn; easy|easy]. }
      split.
      + apply (uniq_app fn fn' t); try easy. intros Hre t1 H1. specialize (Hr Hre).
        assert (N := evaluated_none _ _ _ Hr H1). split; [easy|].
        destruct (same_point (t_x t) (t_x t1)) eqn:E; [|easy].
        apply same_point_sym in E; auto. congruence.
      + apply (val_app fn fn' t); try easy. intros t1 H1 E v.
        destruct (evaluated_some _ _ _ H1 E) as [ge Ege]. rewrite <- (Hv ge Ege v).
        destruct (evaluated_in _ _ _ Ege) as (t2 & H2 & E2 & ->). simpl. apply V; try easy.
        eapply same_point_trans; [| | |exact E|]; auto. apply same_point_sym; auto.
    - rewrite Eo in Hgh by easy. apply (L h fh); easy.
  Qed.

  Lemma leaf_outcome_spec s s' f fn p g e : Inv s -> LG s -> In f (st_flist s) -> own_p s p ->
    dget Nat.eqb f (st_funs s) = Some fn -> fn_leaf fn = true -> leaf_outcome s s' f fn p g e ->
    LG s' /\ st_flist s' = st_flist s /\ (forall h, h <> f -> dget Nat.eqb h (st_funs s') = dget Nat.eqb h (st_funs s)) /\
    (exists fn', dget Nat.eqb f (st_funs s') = Some fn' /\ fn_leaf fn' = true /\ fn_reuse fn' = fn_reuse fn) /\
    (exists t, recorded s' f t /\ same_point (t_x t) p = true /\ t_g t = g /\ t_f t = e) /\
    (forall ge, evaluated_at (fn_pts fn) p = Some ge -> forall v, den_e v (snd ge) = den_e v e).
  Proof using Type.
    intros I L Hf [Wp _] Hg Hl [(-> & Hr & He)|(t & A & <- & <- & <- & _ & Hm)].
    - split; [easy|]. split; [easy|]. split; [easy|]. split; [eauto|]. split.
      + destruct (evaluated_in _ _ _ He) as (t & H1 & H2 & H3). injection H3; intros -> ->.
        exists t. split; [exists fn; easy|]. easy.
      + intros ge. rewrite He. intros E; injection E; intros <-. easy.
    - assert (Hval : forall ge, evaluated_at (fn_pts fn) (t_x t) = Some ge -> forall v, den_e v (snd ge) = den_e v (t_f t)).
      { intros ge He v. rewrite He in Hm. destruct Hm as [_ ->]. rewrite prune_e_den. easy. }
      split.
      { eapply (LG_append s s' f fn t); try easy. intros Hr. destruct (evaluated_at (fn_pts fn) (t_x t)); [|easy].
        destruct Hm as [Hm _]; congruence. }
      assert (A' := A). destruct A as (E1 & E2 & fn0 & fn' & B1 & B2 & B3 & B4 & B5 & B6).
      rewrite Hg in B1; injection B1; intros <-.
      split; [easy|]. split; [easy|]. split; [exists fn'; split; [easy|split; congruence]|]. split; [|easy].
      exists t. split; [eapply appended_recorded; eauto|]. split; [apply same_point_refl; easy|easy].
  Qed.

  (** ** Distribution over components *)
  (** the list of cached values of the components, and their weighted sum *)
  Definition cached_sum (s : state) (p : point) (l : list (nat * sexpr)) (e : expr) : Prop :=
    exists vs, Forall2 (fun fw ge => ev_at s p (fst fw) = Some ge) l vs /\
      forall v, den_e v e = lsum (fun a => (ev (v_env v) (snd (fst a)) * den_e v (snd (snd a)))%R) (combine l vs).

  Definition is_leaf_fun (s : state) (f : nat) : Prop :=
    exists fn, dget Nat.eqb f (st_funs s) = Some fn /\ fn_leaf fn = true.

  Lemma leaf_dict s f fn : Inv s -> In f (st_flist s) -> dget Nat.eqb f (st_funs s) = Some fn -> fn_leaf fn = true ->
    fn_dict fn = [(f, Num 1%Q)].
  Proof using Type.
    intros I Hf Hg Hl. destruct (inv_funs s I f Hf) as (fn' & Hg' & Hok). rewrite Hg in Hg'. injection Hg'; intros <-.
    destruct Hok as (H & _). rewrite Hl in H. apply H.
  Qed.

  Lemma ev_at_same s s' p f : dget Nat.eqb f (st_funs s') = dget Nat.eqb f (st_funs s) -> ev_at s' p f = ev_at s p f.
  Proof using Type. unfold ev_at. intros ->. easy. Qed.

  Lemma distribute_spec sub' (Hsub' : meths_ok sub') : forall l n p g e s,
    Inv s -> LG s -> NoDup (keys l) -> n = List.length l - 1 ->
    (forall f, In f (keys l) -> In f (st_flist s) /\ is_leaf_fun s f) ->
    Forall (fun fw => nonzero (snd fw)) l -> own_p s p -> own_p s g -> own_e s e -> pruned p ->
    l <> [] ->
    (forall l0 fw, l = l0 ++ [fw] -> forall fn, dget Nat.eqb (fst fw) (st_funs s) = Some fn ->
        (fn_reuse fn = true -> evaluated_at (fn_pts fn) p = None) /\
        (forall ge, evaluated_at (fn_pts fn) p = Some ge -> cached_sum s p l e)) ->
    exists s', distribute SY (bodies SY sub') l n p g e s = (Ok tt, s') /\ Inv s' /\ ext s s' /\ LG s' /\
      st_flist s' = st_flist s /\
      (forall h, ~ In h (keys l) -> dget Nat.eqb h (st_funs s') = dget Nat.eqb h (st_funs s)) /\
      exists ts, Forall2 (fun fw t => recorded s' (fst fw) t /\ same_point (t_x t) p = true) l ts /\
        forall v, den_p v g = wsum_p v l ts /\ den_e v e = wsum_e v l ts.
  Proof using OK.
    assert (Hb := bodies_ok SY sub' Hsub').
    induction l as [|[f w] l IH]; intros n p g e s I L Nd Hn Hl Hw Op Og Oe Hp Hne Hlast; [easy|].
    destruct (Hl f (or_introl eq_refl)) as [Hf (fn & Hg & Hlf)].
    inversion Nd as [|? ? Hnotin Nd']; subst. inversion Hw as [|? ? Hw1 Hw']; subst. simpl in Hw1.
    destruct l as [|fw2 l].
    - (* last component *)
      simpl. destruct (nonzero_recip w Hw1) as [r Hr].
      unfold pdiv, ediv. rewrite Hr. simpl.
      rewrite (bind_ok _ _ s (pscale SY r g) s eq_refl), (bind_ok _ _ s (escale SY r e) s eq_refl).
      rewrite bind_fresh. set (s2' := tick s).
      destruct (ok_fresh s I) as (I2 & E2 & _). change (snd (fresh_id s)) with s2' in I2, E2.
      destruct (leaf_add sub' f (mkTrip (st_next s) p (pscale SY r g) (escale SY r e)) s2' fn Hg Hlf) as (s3 & E3 & A3 & _).
      assert (OKa : okM (m_add (bodies SY sub') f (mkTrip (st_next s) p (pscale SY r g) (escale SY r e))) s2' (fun _ _ => True)).
      { apply (mo_add _ Hb).
        - easy.
        - exact Hf.
        - split; [|split]; simpl; [eapply own_p_ext; eauto|eapply own_p_ext; [exact E2|]; apply own_pscale; easy|].
          eapply own_e_ext; [exact E2|]; apply own_escale; easy.
        - simpl. lia.
        - simpl. intros fn0 Hg0 Hin. assert (Hok : fun_ok s f fn).
          { destruct (inv_funs s I f Hf) as (fn1 & Hg1 & Hok1). congruence. }
          rewrite Hg in Hg0; injection Hg0; intros <-. destruct Hok as (_ & _ & _ & Hid & _).
          apply in_map_iff in Hin as (t & Et & Ht). rewrite Forall_forall in Hid. specialize (Hid t Ht). simpl in Hid. lia. }
      destruct OKa as (I3 & X3 & _). simpl in I3, X3. rewrite E3 in I3, X3. simpl in I3, X3.
      simpl. rewrite (bind_ok _ _ _ _ _ E3). exists s3. split; [easy|].
      assert (A3' : appended s s3 f (prune_t (mkTrip (st_next s) p (pscale SY r g) (escale SY r e)))).
      { eapply keepf_appended; [|exact A3]. easy. }
      set (t := prune_t (mkTrip (st_next s) p (pscale SY r g) (escale SY r e))) in *.
      assert (Htx : t_x t = p) by (unfold t; simpl; apply prune_p_id; easy).
      assert (Hrev : forall rr, (ev rr w <> 0 /\ ev rr r = / ev rr w)%R).
      { intros rr. apply (recip_ev (mkVal 0 (fun _ _ => 0%R) (fun _ => 0%R) rr) w r Hr). }
      destruct (Hlast [] (f, w) eq_refl fn Hg) as [Hl1 Hl2].
      split; [easy|]. split; [eapply ext_trans; eauto|]. split.
      { eapply (LG_append s s3 f fn t); try easy; rewrite ?Htx; [apply Op|easy|].
        intros ge Hge v. destruct (Hl2 ge Hge) as (vs & Hvs & Hsum). destruct (Forall2_cons_l _ _ _ _ Hvs) as (v1 & vs' & -> & Hv1 & Hvs'). apply Forall2_nil_l in Hvs' as ->.
        unfold ev_at in Hv1. simpl in Hv1. rewrite Hg, Hge in Hv1. injection Hv1; intros <-.
        unfold t; simpl. rewrite prune_e_den, (escale_den SY OK), (Hsum v). simpl. destruct (Hrev (v_env v)) as [X ->]. field. easy. }
      destruct A3' as (F1 & F2 & F3). split; [easy|]. split.
      { intros h Hh. apply F2. intros ->. apply Hh; simpl; auto. }
      exists [t]. split.
      { constructor; [|constructor]. split; [eapply appended_recorded; split; [exact F1|split; [exact F2|exact F3]]|].
        rewrite Htx. apply same_point_refl. apply Op. }
      intros v. destruct (Hrev (v_env v)) as [X Y]. split.
      + unfold wsum_p. apply functional_extensionality; intros k. simpl. rewrite prune_p_den, (pscale_den SY OK). unfold vscal.
        rewrite Y. field. easy.
      + unfold wsum_e. simpl. rewrite prune_e_den, (escale_den SY OK), Y. field. easy.
    - (* oracle call on a component *)
      simpl List.length. replace (S (S (Datatypes.length l)) - 1) with (S (Datatypes.length l)) by lia.
      cbn [distribute]. cbn [m_oracle bodies].
      assert (Hd := leaf_dict s f fn I Hf Hg Hlf).
      destruct (leaf_oracle sub' f fn p s I Hg Hlf Hd Hp) as (g1 & e1 & s1 & E1 & O1).
      rewrite (bind_ok _ _ _ _ _ E1).
      assert (OKo := mo_oracle _ Hb f p s I Hf Op). unfold okM in OKo. cbn [m_oracle bodies] in OKo. rewrite E1 in OKo.
      simpl in OKo. destruct OKo as (I1 & X1 & Q1). destruct (Q1 _ eq_refl) as [Og1 Oe1]. simpl in Og1, Oe1.
      destruct (leaf_outcome_spec s s1 f fn p g1 e1 I L Hf Op Hg Hlf O1) as (L1 & Fl1 & Oth & (fn' & Hg1 & Hlf1 & Hre1) & (t & Rt & St & Tg & Tf) & Hval).
      cbn [fst snd].
      destruct (IH (Datatypes.length l) p (psub SY g (pscale SY w g1)) (esub SY e (escale SY w e1)) s1) as
        (s' & E' & I' & X' & L' & Fl' & Oth' & ts & Hts & Hsum); try easy.
      + simpl. lia.
      + intros f' Hf'. rewrite Fl1. destruct (Hl f' (or_intror Hf')) as [A (fn0 & B & C)]. split; [easy|].
        exists fn0. split; [|easy]. rewrite Oth; [easy|]. intros ->. apply Hnotin. exact Hf'.
      + eapply own_p_ext; eauto.
      + apply own_psub; [eapply own_p_ext; eauto|]. apply own_pscale; easy.
      + apply own_esub; [eapply own_e_ext; eauto|]. apply own_escale; easy.
      + intros l0 fw El fn0 Hg0.
        assert (Hfw : fst fw <> f).
        { intros Ef. apply Hnotin. rewrite El. unfold keys. rewrite map_app. apply in_or_app. right. simpl. auto. }
        rewrite Oth in Hg0 by easy.
        destruct (Hlast ((f, w) :: l0) fw) with (fn := fn0) as [Z1 Z2]; [simpl; rewrite <- El; easy|easy|].
        split; [easy|]. intros ge Hge. destruct (Z2 ge Hge) as (vs & Hvs & Hs).
        destruct (Forall2_cons_l _ _ _ _ Hvs) as (v1 & vs' & -> & Hv1 & Hvs'). exists vs'. split.
        * rewrite Forall_forall in *. clear - Hvs' Oth Hnotin.
          revert Hvs' Hnotin. generalize (fw2 :: l). intros l' H Hn. induction H as [|[h wh] v l' vs H1 H2 IH]; constructor.
          -- simpl in *. rewrite (ev_at_same s s1); [easy|]. apply Oth. intros ->. apply Hn; simpl; auto.
          -- apply IH. intros Hin. apply Hn. simpl; auto.
        * intros v. rewrite (esub_den SY OK) by (apply escale_wf; apply Oe1). rewrite (Hs v), (escale_den SY OK).
          assert (Hv1' : evaluated_at (fn_pts fn) p = Some v1) by (unfold ev_at in Hv1; simpl in Hv1; rewrite Hg in Hv1; easy).
          simpl combine. rewrite lsum_cons. simpl fst; simpl snd. rewrite (Hval v1 Hv1' v). lra.
      + exists s'. split; [exact E'|]. split; [easy|]. split; [eapply ext_trans; eauto|]. split; [easy|]. split; [congruence|].
        split.
        { intros h Hh. rewrite Oth', Oth; [easy| |].
          - intros ->. apply Hh. simpl; auto.
          - intros Hin. apply Hh. right. exact Hin. }
        exists (t :: ts). split.
        { constructor; [|easy]. simpl. split; [|easy]. apply (ext_rec_mono s1 s' X'). easy. }
        intros v. destruct (Hsum v) as [S1 S2]. split.
        * assert (G1 : den_p v (psub SY g (pscale SY w g1)) = vsub (den_p v g) (vscal (ev (v_env v) w) (den_p v g1))).
          { rewrite (psub_den SY OK), (pscale_den SY OK); [easy|]. apply pscale_wf; apply Og1. }
          rewrite G1 in S1. apply functional_extensionality; intros k. assert (S1k := f_equal (fun z => z k) S1).
          unfold vsub, vscal in S1k. unfold wsum_p in *. simpl combine. rewrite lsum_cons. simpl fst; simpl snd.
          rewrite Tg. simpl combine in S1k. lra.
        * rewrite (esub_den SY OK), (escale_den SY OK) in S2 by (apply escale_wf; apply Oe1).
          unfold wsum_e in *. simpl combine. rewrite lsum_cons. simpl fst; simpl snd. rewrite Tf. simpl combine in S2. lra.
  Qed.

  (** ** Permuted components *)
  Lemma perm_wsum (P : nat * sexpr -> trip -> Prop) l d ts : Permutation l d -> Forall2 P l ts ->
    exists ts', Forall2 P d ts' /\ Permutation (combine l ts) (combine d ts').
  Proof using Type.
    intros H. revert ts. induction H as [|x l d H IH|x y l|a b c H1 IH1 H2 IH2]; intros ts F.
    - inversion F; subst. exists []. split; [constructor|easy].
    - inversion F as [|? t ? ts' F1 F2]; subst. destruct (IH ts' F2) as (ts2 & A & B).
      exists (t :: ts2). split; [constructor; easy|]. simpl. constructor. easy.
    - inversion F as [|? t1 ? ts1 F1 F2]; subst. inversion F2 as [|? t2 ? ts2 F3 F4]; subst.
      exists (t2 :: t1 :: ts2). split; [repeat constructor; easy|]. simpl. apply perm_swap.
    - destruct (IH1 ts F) as (t1 & A1 & B1). destruct (IH2 t1 A1) as (t2 & A2 & B2).
      exists t2. split; [easy|]. eapply Permutation_trans; eauto.
  Qed.

  Lemma dec_perm s l d x g e : Permutation l d -> dec_at s l x g e -> dec_at s d x g e.
  Proof using Type.
    intros H (ts & F & E). destruct (perm_wsum _ l d ts H F) as (ts' & F' & P). exists ts'. split; [easy|].
    intros v. destruct (E v) as [-> ->]. split.
    - unfold wsum_p. apply functional_extensionality; intros k. apply lsum_perm; easy.
    - unfold wsum_e. apply lsum_perm; easy.
  Qed.

  (** classification of the components *)
  Definition cls_a s p (fw : nat * sexpr) : Prop := exists fn r, dget Nat.eqb (fst fw) (st_funs s) = Some fn /\ evaluated_at (fn_pts fn) p = Some r /\ fn_reuse fn = true.
  Definition cls_b s p (fw : nat * sexpr) : Prop := exists fn r, dget Nat.eqb (fst fw) (st_funs s) = Some fn /\ evaluated_at (fn_pts fn) p = Some r /\ fn_reuse fn = false.
  Definition cls_c s p (fw : nat * sexpr) : Prop := exists fn, dget Nat.eqb (fst fw) (st_funs s) = Some fn /\ evaluated_at (fn_pts fn) p = None.
  Lemma separate_spec s p d : (forall f, In f (keys d) -> exists fn, dget Nat.eqb f (st_funs s) = Some fn) ->
    exists a b c, separate d p s = (Ok (a, b, c), s) /\ Permutation (a ++ b ++ c) d /\
      Forall (cls_a s p) a /\ Forall (cls_b s p) b /\ Forall (cls_c s p) c.
  Proof using Type.
    induction d as [|[f w] d IH]; intros H.
    - exists [], [], []. split; [easy|]. repeat split; constructor.
    - destruct (H f (or_introl eq_refl)) as [fn Hg].
      destruct IH as (a & b & c & E & P & A & B & C); [intros; apply H; right; easy|].
      cbn [separate]. rewrite (bind_ok _ _ _ _ _ (get_fun_ok _ _ _ Hg)), (bind_ok _ _ _ _ _ E).
      destruct (evaluated_at (fn_pts fn) p) as [r|] eqn:Ee; [destruct (fn_reuse fn) eqn:Er|].
      + exists ((f, w) :: a), b, c. split; [easy|]. split; [simpl; constructor; easy|]. repeat split; try easy.
        constructor; [|easy]. exists fn, r; easy.
      + exists a, ((f, w) :: b), c. split; [easy|]. split; [|repeat split; try easy; constructor; [exists fn, r; easy|easy]].
        simpl. apply Permutation_sym. eapply Permutation_trans; [constructor; apply Permutation_sym; exact P|]. apply Permutation_middle.
      + exists a, b, ((f, w) :: c). split; [easy|]. split; [|repeat split; try easy; constructor; [exists fn; easy|easy]].
        rewrite app_assoc. apply Permutation_sym. eapply Permutation_trans; [constructor; apply Permutation_sym; exact P|].
        rewrite app_assoc. apply Permutation_middle.
  Qed.

  Lemma cached_sum_perm s p l d e : Permutation l d -> cached_sum s p l e -> cached_sum s p d e.
  Proof using Type.
    intros H (vs & F & E).
    assert (Hp : exists vs', Forall2 (fun fw ge => ev_at s p (fst fw) = Some ge) d vs' /\ Permutation (combine l vs) (combine d vs')).
    { clear E. revert vs F. induction H as [|x l d H IH|x y l|a b c H1 IH1 H2 IH2]; intros ts F.
      - inversion F; subst. exists []. split; [constructor|easy].
      - inversion F as [|? t ? ts' F1 F2]; subst. destruct (IH ts' F2) as (ts2 & A & B).
        exists (t :: ts2). split; [constructor; easy|]. simpl. constructor. easy.
      - inversion F as [|? t1 ? ts1 F1 F2]; subst. inversion F2 as [|? t2 ? ts2 F3 F4]; subst.
        exists (t2 :: t1 :: ts2). split; [repeat constructor; easy|]. simpl. apply perm_swap.
      - destruct (IH1 ts F) as (t1 & A1 & B1). destruct (IH2 t1 A1) as (t2 & A2 & B2).
        exists t2. split; [easy|]. eapply Permutation_trans; eauto. }
    destruct Hp as (vs' & F' & P). exists vs'. split; [easy|]. intros v. rewrite (E v). apply lsum_perm; easy.
  Qed.

  (** ** Adding a record to a composite *)
  Definition all_ev (s : state) (p : point) (d : list (nat * sexpr)) : Prop := forall fw, In fw d -> ev_at s p (fst fw) <> None.

  Lemma comp_add sub' (Hsub' : meths_ok sub') F fn t0 s : Inv s -> Good s -> In F (st_flist s) ->
    dget Nat.eqb F (st_funs s) = Some fn -> fn_leaf fn = false -> CG1 s fn ->
    own_t s t0 -> pruned (t_x t0) -> t_id t0 < st_next s -> ~ In (t_id t0) (map t_id (fn_pts fn)) ->
    (fn_reuse fn = true -> evaluated_at (fn_pts fn) (t_x t0) = None) ->
    (all_ev s (t_x t0) (fn_dict fn) -> cached_sum s (t_x t0) (fn_dict fn) (t_f t0)) ->
    (Forall (cls_a s (t_x t0)) (fn_dict fn) -> dec_at s (fn_dict fn) (t_x t0) (t_g t0) (t_f t0)) ->
    exists s', add_body SY (bodies SY sub') F t0 s = (Ok tt, s') /\ Inv s' /\ ext s s' /\ Good s' /\ st_flist s' = st_flist s /\
      (forall h fh, In h (st_flist s) -> h <> F -> dget Nat.eqb h (st_funs s) = Some fh -> fn_leaf fh = false -> dget Nat.eqb h (st_funs s') = Some fh) /\
      (exists fn', dget Nat.eqb F (st_funs s') = Some fn' /\ fn_leaf fn' = false /\ fn_reuse fn' = fn_reuse fn /\ fn_dict fn' = fn_dict fn /\
         fn_pts fn' = fn_pts fn ++ [prune_t t0]).
  Proof using OK.
    intros I [L C] HF Hg Hl (Creuse & [Cne Cw] & Cu & Cdec) Ot Hp Hid Hnew Hru Hall Hdec.
    assert (OKm := ok_add_body SY (bodies SY sub') (bodies_ok SY sub' Hsub') F t0 s I HF Ot Hid
      ltac:(intros fn0 H0; rewrite Hg in H0; injection H0; intros <-; easy)).
    assert (Hok : fun_ok s F fn). { destruct (inv_funs s I F HF) as (fn1 & Hg1 & Hok1). congruence. }
    destruct (fdict_keys s F fn HF Hg Hok) as [Knd Kleaf].
    assert (Htx : t_x (prune_t t0) = t_x t0) by (simpl; apply prune_p_id; easy).
    revert OKm. unfold add_body. rewrite (bind_ok _ _ _ _ _ (get_fun_ok _ _ _ Hg)). rewrite Hl.
    rewrite (nonzero_prune _ Cw). rewrite bind_set. rewrite Htx.
    match goal with |- context [put s F ?z] => set (fn1 := z) end.
    set (s1 := put s F fn1).
    intros OKm.
    assert (G1 : forall h, dget Nat.eqb h (st_funs s1) = if Nat.eqb h F then Some fn1 else dget Nat.eqb h (st_funs s)).
    { intros h. unfold s1; simpl. destruct (Nat.eqb h F) eqn:E.
      - apply Nat.eqb_eq in E as ->. apply (dget_dset_same Nat.eqb Nat.eqb_eq).
      - apply Nat.eqb_neq in E. apply (dget_dset_other Nat.eqb Nat.eqb_eq); easy. }
    assert (KF : forall f, In f (keys (fn_dict fn)) -> f <> F).
    { intros f Hf ->. destruct (Kleaf F Hf) as [_ (fg & A & B)]. congruence. }
    assert (G2 : forall f, In f (keys (fn_dict fn)) -> dget Nat.eqb f (st_funs s1) = dget Nat.eqb f (st_funs s)).
    { intros f Hf. rewrite G1. apply KF in Hf. apply Nat.eqb_neq in Hf. rewrite Hf. easy. }
    assert (I1 : Inv s1 /\ ext s s1).
    { assert (Hext : ext_fn fn fn1).
      { unfold ext_fn, fn1; simpl. repeat split; try easy; eauto. }
      assert (Hfo : fun_ok s F fn1).
      { destruct Hok as (K1 & K2 & K3 & K4 & K5 & K6). unfold fun_ok, fn1; simpl. rewrite Hl in K1.
        split; [easy|]. split; [apply Forall_app; split; [easy|constructor; [apply own_prune_t; easy|constructor]]|].
        split.
        { rewrite map_app. simpl. apply NoDup_rev in K3. rewrite <- (rev_involutive (_ ++ _)). apply NoDup_rev.
          rewrite rev_app_distr. simpl. constructor; [|easy]. rewrite <- in_rev. easy. }
        split; [apply Forall_app; split; [easy|constructor; [easy|constructor]]|]. split; [|easy].
        rewrite prune_zero_filter, <- K5. simpl. destruct (prune_dict (pt_dict (t_g t0))); easy. }
      destruct (ok_set_fun s F fn fn1 I HF Hg Hext Hfo) as (A & B & _). split; [exact A|exact B]. }
    destruct I1 as [I1 X1].
    assert (L1 : LG s1).
    { intros f fn0 Hf Hg0 Hl0. rewrite G1 in Hg0. destruct (Nat.eqb f F) eqn:E.
      - injection Hg0; intros <-. unfold fn1 in Hl0; simpl in Hl0. congruence.
      - apply (L f fn0); easy. }
    assert (Hkeys1 : forall f, In f (keys (fn_dict fn)) -> exists fn0, dget Nat.eqb f (st_funs s1) = Some fn0).
    { intros f Hf. rewrite G2 by easy. destruct (Kleaf f Hf) as [_ (fg & A & _)]. eauto. }
    destruct (separate_spec s1 (t_x t0) (fn_dict fn) Hkeys1) as (a & b & c & Es & Pm & Ca & Cb & Cc).
    rewrite (bind_ok _ _ _ _ _ Es) in *.
    (* assembling the conclusion from a final state in which the record is decomposed *)
    assert (Fin : forall s', Inv s' -> ext s1 s' -> LG s' -> st_flist s' = st_flist s1 ->
      (forall h, ~ In h (keys (fn_dict fn)) -> dget Nat.eqb h (st_funs s') = dget Nat.eqb h (st_funs s1)) ->
      dec_at s' (fn_dict fn) (t_x t0) (prune_p (t_g t0)) (prune_e (t_f t0)) ->
      Inv s' /\ ext s s' /\ Good s' /\ st_flist s' = st_flist s /\
      (forall h fh, In h (st_flist s) -> h <> F -> dget Nat.eqb h (st_funs s) = Some fh -> fn_leaf fh = false -> dget Nat.eqb h (st_funs s') = Some fh) /\
      (exists fn', dget Nat.eqb F (st_funs s') = Some fn' /\ fn_leaf fn' = false /\ fn_reuse fn' = fn_reuse fn /\ fn_dict fn' = fn_dict fn /\
         fn_pts fn' = fn_pts fn ++ [prune_t t0])).
    { intros s' I' X' L' Fl Oth Dec.
      assert (Xs : ext s s') by (eapply ext_trans; eauto).
      assert (GF : dget Nat.eqb F (st_funs s') = Some fn1).
      { rewrite Oth; [rewrite G1, Nat.eqb_refl; easy|]. intros H. apply KF in H. easy. }
      assert (Oc : forall h fh, In h (st_flist s) -> h <> F -> dget Nat.eqb h (st_funs s) = Some fh -> fn_leaf fh = false -> dget Nat.eqb h (st_funs s') = Some fh).
      { intros h fh Hh Hne Hgh Hlh. rewrite Oth.
        - rewrite G1. apply Nat.eqb_neq in Hne. rewrite Hne. easy.
        - intros Hin. destruct (Kleaf h Hin) as [_ (fg & A & B)]. congruence. }
      assert (Rm : rec_mono s s') by (apply ext_rec_mono; easy).
      assert (ARm : forall d, (forall h, In h (keys d) -> exists fh, dget Nat.eqb h (st_funs s) = Some fh) -> all_reuse s d <-> all_reuse s' d).
      { intros d Hd. split; intros H h fh Hh Hgh.
        - destruct (Hd h Hh) as (f0 & Hf0). destruct Xs as (_ & _ & _ & _ & Xs). destruct (Xs h f0 Hf0) as (f1 & Hf1 & Q).
          destruct Q as (_ & Q & _). rewrite Hgh in Hf1. injection Hf1; intros <-. rewrite Q. apply (H h f0); easy.
        - destruct Xs as (_ & _ & _ & _ & Xs). destruct (Xs h fh Hgh) as (f1 & Hf1 & Q). destruct Q as (_ & Q & _). rewrite <- Q.
          apply (H h f1); easy. }
      split; [easy|]. split; [easy|]. split; [split; [easy|]|split; [exact Fl|split; [exact Oc|]]].
      - intros f fn0 Hf Hg0 Hl0. rewrite Fl in Hf. simpl in Hf.
        destruct (Nat.eq_dec f F) as [->|Hne].
        + rewrite GF in Hg0. injection Hg0; intros <-. split; [|split; [|split]].
          * simpl. rewrite <- ARm; [easy|]. intros h Hh. destruct (Kleaf h Hh) as [_ (fg & A & _)]. eauto.
          * easy.
          * eapply (uniq_app fn fn1 (prune_t t0)); try easy. intros Hre t1 Ht1. rewrite Htx. specialize (Hru Hre).
            assert (N := evaluated_none _ _ _ Hru Ht1). split; [easy|].
            destruct (same_point (t_x t0) (t_x t1)) eqn:E; [|easy]. rewrite same_point_sym in N; [easy| | |easy].
            -- destruct Ot as ((W & _) & _). easy.
            -- destruct (rec_own s F t1 I HF) as ((W1 & _) & _); [exists fn; easy|easy].
          * simpl. intros t Ht. apply in_app_or in Ht as [Ht|[<-|[]]].
            -- eapply dec_at_mono; [exact Rm|]. apply Cdec; easy.
            -- rewrite Htx. exact Dec.
        + destruct (inv_funs s I f Hf) as (fn2 & Hg2 & Hok2).
          assert (Hl2 : fn_leaf fn2 = false).
          { destruct Xs as (_ & _ & _ & _ & Xs). destruct (Xs f fn2 Hg2) as (f1 & Hf1 & Q). destruct Q as (Q & _). congruence. }
          assert (E := Oc f fn2 Hf Hne Hg2 Hl2). rewrite Hg0 in E. injection E; intros ->.
          destruct (C f fn2 Hf Hg2 Hl2) as (D1 & D2 & D3 & D4).
          destruct (fdict_keys s f fn2 Hf Hg2 Hok2) as [_ Kl2].
          split; [|split; [|split]]; try easy.
          * rewrite <- ARm; [easy|]. intros h Hh. destruct (Kl2 h Hh) as [_ (fg & A & _)]. eauto.
          * intros t Ht. eapply dec_at_mono; [exact Rm|]. apply D4; easy.
      - exists fn1. split; [exact GF|]. easy. }
    assert (Hev1 : forall f, In f (keys (fn_dict fn)) -> ev_at s1 (t_x t0) f = ev_at s (t_x t0) f).
    { intros f Hf. apply ev_at_same. apply G2; easy. }
    destruct (b ++ c) as [|fw0 rest] eqn:Ebc.
    - (* everything already known *)
      apply app_eq_nil in Ebc as [-> ->].
      exists s1. split; [easy|]. apply Fin; try easy; [apply ext_refl|].
      assert (D : dec_at s (fn_dict fn) (t_x t0) (t_g t0) (t_f t0)).
      { apply Hdec. rewrite Forall_forall. intros fw Hfw. rewrite app_nil_r in Pm.
        assert (Hin : In fw a) by (eapply Permutation_in; [apply Permutation_sym; exact Pm|easy]).
        rewrite Forall_forall in Ca. destruct (Ca fw Hin) as (fh & r & A & B & D). exists fh, r. split; [|easy].
        rewrite <- A. symmetry. apply G2. unfold keys. apply in_map. easy. }
      apply (dec_at_mono s s1) in D; [|apply ext_rec_mono; easy].
      destruct D as (ts & D1 & D2). exists ts. split; [easy|]. intros v. rewrite prune_p_den, prune_e_den. apply D2.
    - rewrite <- Ebc in *.
      assert (Pk : forall f, In f (keys (a ++ b ++ c)) <-> In f (keys (fn_dict fn))).
      { intros f. unfold keys. split; apply Permutation_in; apply Permutation_map; [easy|apply Permutation_sym; easy]. }
      destruct (distribute_spec sub' Hsub' (a ++ b ++ c) (Datatypes.length (fn_dict fn) - 1) (t_x t0) (t_g (prune_t t0)) (t_f (prune_t t0)) s1)
        as (s' & E' & I' & X' & L' & Fl' & Oth' & D'); try easy.
      + unfold keys. eapply Permutation_NoDup; [apply Permutation_map; apply Permutation_sym; exact Pm|]. exact Knd.
      + f_equal. apply Permutation_length. apply Permutation_sym; easy.
      + intros f Hf. apply Pk in Hf. destruct (Kleaf f Hf) as [A (fg & B & D)]. split; [exact A|].
        exists fg. rewrite G2 by easy. easy.
      + eapply Permutation_Forall; [apply Permutation_sym; exact Pm|easy].
      + eapply own_p_ext; [exact X1|]. apply Ot.
      + eapply own_p_ext; [exact X1|]. apply own_prune_p. apply Ot.
      + eapply own_e_ext; [exact X1|]. apply own_prune_e. apply Ot.
      + rewrite Ebc. intros H. apply app_eq_nil in H as [_ H]. easy.
      + intros l0 fw El fnl Hgl.
        assert (Hnea : In fw (b ++ c)).
        { destruct (exists_last (l := b ++ c)) as (l1 & z & Ez); [rewrite Ebc; easy|]. rewrite Ez, app_assoc in El.
          apply app_inj_tail in El as [_ <-]. rewrite Ez. apply in_or_app; simpl; auto. }
        split.
        * intros Hre. apply in_app_or in Hnea as [Hb|Hc].
          -- rewrite Forall_forall in Cb. destruct (Cb fw Hb) as (f0 & r & A & _ & B). congruence.
          -- rewrite Forall_forall in Cc. destruct (Cc fw Hc) as (f0 & A & B). congruence.
        * intros ge Hge.
          assert (Hc0 : c = []).
          { destruct c as [|c0 c'] using rev_ind; [easy|]. exfalso.
            rewrite !app_assoc in El. apply app_inj_tail in El as [_ <-]. rewrite Forall_app in Cc. destruct Cc as [_ Cc].
            inversion Cc as [|? ? (f0 & A & B) _]; subst. congruence. }
          subst c. rewrite app_nil_r in *.
          eapply cached_sum_perm; [apply Permutation_sym; exact Pm|].
          assert (Hc : cached_sum s (t_x t0) (fn_dict fn) (t_f t0)).
          { apply Hall. intros fw' Hfw'. rewrite <- Hev1 by (unfold keys; apply in_map; easy).
            assert (Hin : In fw' (a ++ b)) by (eapply Permutation_in; [apply Permutation_sym; exact Pm|easy]).
            unfold ev_at. apply in_app_or in Hin as [Hin|Hin].
            - rewrite Forall_forall in Ca. destruct (Ca fw' Hin) as (f0 & r & -> & -> & _). easy.
            - rewrite Forall_forall in Cb. destruct (Cb fw' Hin) as (f0 & r & -> & -> & _). easy. }
          destruct Hc as (vs & V1 & V2). exists vs. split; [|intros v; simpl; rewrite prune_e_den; apply V2].
          assert (Hsub : incl (fn_dict fn) (fn_dict fn)) by apply incl_refl.
          revert V1 Hsub. generalize (fn_dict fn) at 1 2 4. clear - Hev1. intros d V1. induction V1 as [|fw v d vs H1 H2 IH]; intros Hi; constructor.
          -- rewrite Hev1; [easy|]. unfold keys. apply in_map. apply Hi; simpl; auto.
          -- apply IH. intros z Hz. apply Hi; simpl; auto.
      + exists s'. split; [exact E'|]. apply Fin; try easy.
        * intros h Hh. apply Oth'. rewrite Pk. easy.
        * eapply dec_perm; [exact Pm|]. exact D'.
  Qed.

  Lemma all_reuse_ext s s' d : ext s s' -> (forall h, In h (keys d) -> exists fh, dget Nat.eqb h (st_funs s) = Some fh) ->
    all_reuse s d <-> all_reuse s' d.
  Proof using Type.
    intros Xs Hd. destruct Xs as (_ & _ & _ & _ & Xs). split; intros H h fh Hh Hgh.
    - destruct (Hd h Hh) as (f0 & Hf0). destruct (Xs h f0 Hf0) as (f1 & Hf1 & Q).
      destruct Q as (_ & Q & _). rewrite Hgh in Hf1. injection Hf1; intros <-. rewrite Q. apply (H h f0); easy.
    - destruct (Xs h fh Hgh) as (f1 & Hf1 & Q). destruct Q as (_ & Q & _). rewrite <- Q. apply (H h f1); easy.
  Qed.

  Lemma Good_step s s' : Inv s -> Good s -> ext s s' ->
    (forall f fn', In f (st_flist s') -> dget Nat.eqb f (st_funs s') = Some fn' ->
       (In f (st_flist s) /\ dget Nat.eqb f (st_funs s) = Some fn') \/
       (fn_leaf fn' = true /\ uniq_fn fn' /\ val_fn fn') \/
       (fn_leaf fn' = false /\ CG1 s' fn')) ->
    Good s'.
  Proof using Type.
    intros I [L C] X H. split.
    - intros f fn Hf Hg Hl. destruct (H f fn Hf Hg) as [[A B]|[(A & B & D)|(A & B)]]; [|easy|congruence].
      apply (L f fn); easy.
    - intros f fn Hf Hg Hl. destruct (H f fn Hf Hg) as [[A B]|[(A & B & D)|(A & B)]]; [|congruence|easy].
      destruct (C f fn A B Hl) as (C1 & C2 & C3 & C4). split; [|split; [easy|split; [easy|]]].
      + rewrite <- (all_reuse_ext s s'); try easy. destruct (inv_funs s I f A) as (fn2 & Hg2 & Hok2).
        rewrite B in Hg2; injection Hg2; intros <-. destruct (fdict_keys s f fn A B Hok2) as [_ K].
        intros h Hh. destruct (K h Hh) as [_ (fg & Q & _)]. eauto.
      + intros t Ht. eapply dec_at_mono; [apply ext_rec_mono; exact X|]. auto.
  Qed.
  Lemma Good_keepf s s' : keepf s s' -> Good s -> Good s'.
  Proof using Type.
    intros [E1 E2] [L C]. split.
    - intros f fn. rewrite E1, E2. apply L.
    - intros f fn. rewrite E1, E2. intros A B D. destruct (C f fn A B D) as (C1 & C2 & C3 & C4).
      split; [|split; [easy|split; [easy|]]].
      + unfold all_reuse. rewrite E1. exact C1.
      + intros t Ht. destruct (C4 t Ht) as (ts & T1 & T2). exists ts. split; [|easy].
        eapply Forall2_impl'; [|exact T1]. unfold recorded. rewrite E1. easy.
  Qed.

  Lemma own_all s f fn : Inv s -> In f (st_flist s) -> dget Nat.eqb f (st_funs s) = Some fn ->
    forall t, In t (fn_pts fn) -> own_t s t.
  Proof using Type. intros I Hf Hg t Ht. eapply rec_own; eauto. exists fn; easy. Qed.

  (** cached values of the components as records *)
  Lemma ev_ts s p (d : list (nat * sexpr)) vs : Forall2 (fun fw ge => ev_at s p (fst fw) = Some ge) d vs ->
    exists ts, Forall2 (fun fw t => recorded s (fst fw) t /\ same_point (t_x t) p = true) d ts /\
      vs = map (fun t => (t_g t, t_f t)) ts.
  Proof using Type.
    induction 1 as [|fw ge d vs H _ IH]; [exists []; split; [constructor|easy]|].
    destruct IH as (ts & A & ->). unfold ev_at in H. destruct (dget Nat.eqb (fst fw) (st_funs s)) as [fn|] eqn:Eg; [|easy].
    destruct (evaluated_in _ _ _ H) as (t & H1 & H2 & ->). exists (t :: ts). split; [|easy].
    constructor; [|easy]. split; [exists fn; easy|easy].
  Qed.

  Lemma dec_cached s p d g e : Inv s -> LG s -> own_p s p -> (forall f, In f (keys d) -> In f (st_flist s) /\ is_leaf_fun s f) ->
    dec_at s d p g e -> cached_sum s p d e.
  Proof using Type.
    intros I L [Wp _] Hd (ts & H & E).
    assert (G : exists vs, Forall2 (fun fw ge => ev_at s p (fst fw) = Some ge) d vs /\
      forall v, lsum (fun a => (ev (v_env v) (snd (fst a)) * den_e v (t_f (snd a)))%R) (combine d ts) =
        lsum (fun a => (ev (v_env v) (snd (fst a)) * den_e v (snd (snd a)))%R) (combine d vs)).
    { clear E. induction H as [|fw t d ts [Hr Hs] H IH]; [exists []; split; [constructor|easy]|].
      destruct IH as (vs & V1 & V2); [intros f Hf; apply Hd; right; easy|].
      destruct (Hd (fst fw) (or_introl eq_refl)) as [Hf (fn & Hg & Hl)].
      assert (Ow := rec_own s _ t I Hf Hr). destruct Ow as ((Wt & _) & _).
      destruct Hr as (fn' & Hg' & Ht). rewrite Hg in Hg'. injection Hg'; intros <-.
      destruct (evaluated_some _ _ _ Ht Hs) as [ge Hge]. destruct (evaluated_in _ _ _ Hge) as (t' & H1 & H2 & ->).
      exists ((t_g t', t_f t') :: vs). split.
      - constructor; [|easy]. unfold ev_at. rewrite Hg. easy.
      - intros v. simpl combine. rewrite !lsum_cons. simpl. rewrite (V2 v). f_equal. f_equal.
        destruct (L _ _ Hf Hg Hl) as [_ V]. apply V; try easy.
        destruct (own_all s _ _ I Hf Hg t' H1) as ((Wt' & _) & _).
        eapply same_point_trans; [| | |exact Hs|]; auto. apply same_point_sym; auto. }
    destruct G as (vs & V1 & V2). exists vs. split; [easy|]. intros v. destruct (E v) as [_ ->]. apply V2.
  Qed.

  Lemma sum_values_spec sub' p (d : list (nat * sexpr)) : forall acc s, Inv s -> (forall f, In f (keys d) -> In f (st_flist s)) ->
    all_ev s p d -> exists e vs, sum_values SY (bodies SY sub') d p acc s = (Ok e, s) /\
      Forall2 (fun fw ge => ev_at s p (fst fw) = Some ge) d vs /\
      forall v, den_e v e = (den_e v acc + lsum (fun a => (ev (v_env v) (snd (fst a)) * den_e v (snd (snd a)))%R) (combine d vs))%R.
  Proof using OK.
    induction d as [|[f w] d IH]; intros acc s I Hd Ha.
    - exists acc, []. split; [easy|]. split; [constructor|]. intros v. simpl. lra.
    - assert (H := Ha (f, w) (or_introl eq_refl)). simpl in H.
      destruct (ev_at s p f) as [[g1 e1]|] eqn:Ee; [|easy].
      assert (Hf := Hd f (or_introl eq_refl)). destruct (inv_funs s I f Hf) as (fn & Hg & Hok).
      assert (Ee' : evaluated_at (fn_pts fn) p = Some (g1, e1)) by (unfold ev_at in Ee; rewrite Hg in Ee; easy).
      destruct (evaluated_own s f fn p g1 e1 Hok Ee') as [_ Oe].
      assert (Hv : m_value (bodies SY sub') f p s = (Ok e1, s)).
      { simpl. unfold value_body. rewrite (bind_ok _ _ _ _ _ (get_fun_ok _ _ _ Hg)), Ee'. easy. }
      destruct (IH (eadd SY acc (escale SY w e1)) s I) as (e & vs & A & B & C).
      { intros; apply Hd; right; easy. } { intros fw Hfw. apply Ha; right; easy. }
      exists e, ((g1, e1) :: vs). cbn [sum_values]. rewrite (bind_ok _ _ _ _ _ Hv). split; [exact A|]. split; [constructor; easy|].
      intros v. rewrite (C v), (eadd_den SY OK), (escale_den SY OK) by (apply escale_wf; apply Oe).
      simpl combine. rewrite lsum_cons. simpl. lra.
  Qed.

  Lemma sum_grads_spec sub' p (d : list (nat * sexpr)) : forall acc s, Inv s -> (forall f, In f (keys d) -> In f (st_flist s)) ->
    Forall (cls_a s p) d -> exists g vs, sum_grads SY (bodies SY sub') d p acc s = (Ok g, s) /\
      Forall2 (fun fw ge => ev_at s p (fst fw) = Some ge) d vs /\
      forall v k, den_p v g k = (den_p v acc k + lsum (fun a => (ev (v_env v) (snd (fst a)) * den_p v (fst (snd a)) k)%R) (combine d vs))%R.
  Proof using OK.
    induction d as [|[f w] d IH]; intros acc s I Hd Ha.
    - exists acc, []. split; [easy|]. split; [constructor|]. intros v k. simpl. lra.
    - inversion Ha as [|? ? (fn & [g1 e1] & Hg & Ee' & Hr) Ha']; subst. simpl in Hg.
      assert (Hf := Hd f (or_introl eq_refl)). destruct (inv_funs s I f Hf) as (fn0 & Hg0 & Hok).
      rewrite Hg in Hg0; injection Hg0; intros <-.
      destruct (evaluated_own s f fn p g1 e1 Hok Ee') as [Og _].
      assert (Hv : m_grad (bodies SY sub') f p s = (Ok g1, s)).
      { simpl. unfold grad_body, oracle_body. unfold bind at 1. rewrite (bind_ok _ _ _ _ _ (get_fun_ok _ _ _ Hg)), Ee', Hr. easy. }
      destruct (IH (padd SY acc (pscale SY w g1)) s I) as (e & vs & A & B & C); [|easy|].
      { intros; apply Hd; right; easy. }
      exists e, ((g1, e1) :: vs). cbn [sum_grads]. rewrite (bind_ok _ _ _ _ _ Hv). split; [exact A|]. split.
      { constructor; [|easy]. unfold ev_at. simpl. rewrite Hg. easy. }
      intros v k. rewrite (C v k), (padd_den SY OK), (pscale_den SY OK) by (apply pscale_wf; apply Og).
      simpl combine. rewrite lsum_cons. unfold vadd, vscal. simpl. lra.
  Qed.

  Lemma dec_at_point s d x y g e : wf_p x -> wf_p y -> Inv s -> (forall f, In f (keys d) -> In f (st_flist s)) ->
    same_point x y = true -> dec_at s d x g e -> dec_at s d y g e.
  Proof using Type.
    intros Wx Wy I Hd E (ts & T1 & T2). exists ts. split; [|easy].
    clear T2. induction T1 as [|fw t d ts [A B] T IH]; constructor.
    - split; [easy|]. assert (Ow := rec_own s _ t I (Hd (fst fw) (or_introl eq_refl)) A). destruct Ow as ((Wt & _) & _).
      eapply same_point_trans; [| | |exact B|exact E]; easy.
    - apply IH. intros; apply Hd; right; easy.
  Qed.

  (** ** The oracle *)
  Record oracle_post (s s' : state) (F : nat) (fn : func) (p g : point) (e : expr) : Prop := mkOP {
    op_inv : Inv s'; op_ext : ext s s'; op_good : Good s'; op_flist : st_flist s' = st_flist s;
    op_dec : dec_at s' (fn_dict fn) p g e;
    op_fn : exists fn', dget Nat.eqb F (st_funs s') = Some fn' /\ fn_leaf fn' = fn_leaf fn /\ fn_reuse fn' = fn_reuse fn /\ fn_dict fn' = fn_dict fn /\
      (fn_pts fn' = fn_pts fn \/ exists t, fn_pts fn' = fn_pts fn ++ [t] /\ t_x t = p /\ t_g t = g /\ t_f t = e);
    op_reuse : forall ge, evaluated_at (fn_pts fn) p = Some ge -> fn_reuse fn = true -> s' = s /\ ge = (g, e);
    op_new : (fn_reuse fn = true -> evaluated_at (fn_pts fn) p = None) ->
      exists fn' t, dget Nat.eqb F (st_funs s') = Some fn' /\ fn_pts fn' = fn_pts fn ++ [t] /\ t_x t = p /\ t_g t = g /\ t_f t = e;
    op_fresh : fn_reuse fn = false -> exists x, g = leaf_point x /\ ~ In x (st_plist s);
    op_val : forall ge, evaluated_at (fn_pts fn) p = Some ge -> forall v, den_e v e = den_e v (snd ge)
  }.

  Lemma leaf_self_dec s F fn t : Inv s -> In F (st_flist s) -> dget Nat.eqb F (st_funs s) = Some fn -> fn_dict fn = [(F, Num 1%Q)] ->
    recorded s F t -> dec_at s (fn_dict fn) (t_x t) (t_g t) (t_f t).
  Proof using Type.
    intros I HF Hg Hd Hr. assert (Ow := rec_own s F t I HF Hr). destruct Ow as ((Wt & _) & _).
    rewrite Hd. exists [t]. split.
    - constructor; [|constructor]. split; [easy|]. apply same_point_refl; easy.
    - intros v. unfold wsum_p, wsum_e. simpl. split.
      + apply functional_extensionality; intros k. rewrite Q2R_1'. lra.
      + rewrite Q2R_1'. lra.
  Qed.

  Lemma Good_leaf_append s s' f fn t : Inv s -> Good s -> ext s s' -> In f (st_flist s) -> dget Nat.eqb f (st_funs s) = Some fn -> fn_leaf fn = true ->
    appended s s' f t -> LG s' -> Good s'.
  Proof using Type.
    intros I G X Hf Hg Hl (E1 & E2 & fn0 & fn' & A & B & C1 & C2 & C3 & C4) L'. eapply Good_step; eauto.
    intros h fh Hh Hgh. rewrite E1 in Hh. destruct (Nat.eq_dec h f) as [->|Hne].
    - right; left. rewrite B in Hgh; injection Hgh; intros <-. split; [congruence|]. apply (L' f fn'); try easy; [rewrite E1; easy|congruence].
    - left. rewrite E2 in Hgh by easy. easy.
  Qed.

  Lemma leaf_oracle_post sub F fn p s : meths_ok sub -> Inv s -> Good s -> In F (st_flist s) -> dget Nat.eqb F (st_funs s) = Some fn -> fn_leaf fn = true ->
    own_p s p -> pruned p ->
    exists g e s', oracle_body SY sub F p s = (Ok (g, e), s') /\ oracle_post s s' F fn p g e.
  Proof using Type.
    intros Hsub I G HF Hg Hl Op Hp. assert (Hd := leaf_dict s F fn I HF Hg Hl).
    destruct (leaf_oracle sub F fn p s I Hg Hl Hd Hp) as (g & e & s' & E & O). exists g, e, s'. split; [easy|].
    assert (OKo := mo_oracle _ (bodies_ok SY sub Hsub) F p s I HF Op). unfold okM in OKo. cbn [m_oracle bodies] in OKo. rewrite E in OKo.
    destruct OKo as (I' & X' & _). simpl in I', X'.
    destruct (leaf_outcome_spec s s' F fn p g e I (proj1 G) HF Op Hg Hl O) as (L' & Fl & Oth & (fn' & Hg' & Hl' & Hr') & (t & Rt & St & Tg & Tf) & Hval).
    assert (HF' : In F (st_flist s')) by (rewrite Fl; easy).
    assert (Hd' := leaf_dict s' F fn' I' HF' Hg' Hl').
    assert (G' : Good s').
    { destruct O as [(-> & _)|(t0 & A0 & _)]; [exact G|]. apply (Good_leaf_append s s' F fn t0); assumption. }
    assert (Dec : dec_at s' (fn_dict fn) p g e).
    { rewrite Hd, <- Hd'. assert (Ow := rec_own s' F t I' HF' Rt). destruct Ow as ((Wt & _) & _).
      assert (D := leaf_self_dec s' F fn' t I' HF' Hg' Hd' Rt). rewrite Tg, Tf in D.
      eapply dec_at_point; [| | | |exact St|exact D]; try easy; [apply Op|].
      rewrite Hd'. intros f [<-|[]]. easy. }
    constructor; try easy.
    - exists fn'. split; [easy|]. split; [congruence|]. split; [easy|]. split; [congruence|].
      destruct O as [(-> & _)|(t0 & (A1 & A2 & f0 & f1 & B1 & B2 & B3 & B4 & B5 & B6) & T1 & T2 & T3 & _)].
      + left. congruence.
      + right. exists t0. split; [|easy]. congruence.
    - intros ge Hge Hre. destruct O as [(-> & H1 & H2)|(t0 & _ & _ & _ & _ & _ & Hm)].
      + split; [easy|]. congruence.
      + rewrite Hge in Hm. destruct Hm as [Hm _]; congruence.
    - intros Hn. destruct O as [(-> & H1 & H2)|(t0 & (A1 & A2 & f0 & f1 & B1 & B2 & B3 & B4 & B5 & B6) & T1 & T2 & T3 & _)].
      + rewrite (Hn H1) in H2. easy.
      + exists fn', t0. split; [easy|]. split; [congruence|easy].
    - intros Hre. destruct O as [(_ & H1 & _)|(t0 & _ & _ & _ & _ & Hx & _)]; [congruence|easy].
    - intros ge Hge v. symmetry. apply Hval; easy.
  Qed.

  Lemma cls_keepf s s' p d : keepf s s' -> Forall (cls_a s p) d <-> Forall (cls_a s' p) d.
  Proof using Type. intros [E _]. unfold cls_a. rewrite E. easy. Qed.
  Lemma ev_keepf s s' p f : keepf s s' -> ev_at s' p f = ev_at s p f.
  Proof using Type. intros [E _]. unfold ev_at. rewrite E. easy. Qed.

  Lemma comp_oracle sub' (Hsub' : meths_ok sub') F fn p s : Inv s -> Good s -> In F (st_flist s) -> dget Nat.eqb F (st_funs s) = Some fn ->
    fn_leaf fn = false -> own_p s p -> pruned p ->
    exists g e s', oracle_body SY (bodies SY sub') F p s = (Ok (g, e), s') /\ oracle_post s s' F fn p g e.
  Proof using OK.
    intros I G HF Hg Hl Op Hp. destruct (proj2 G F fn HF Hg Hl) as (Creuse & [Cne Cw] & Cu & Cdec).
    destruct (inv_funs s I F HF) as (fnx & Hgx & Hok). rewrite Hg in Hgx; injection Hgx; intros <-.
    destruct (fdict_keys s F fn HF Hg Hok) as [Knd Kleaf].
    assert (Kf : forall f, In f (keys (fn_dict fn)) -> In f (st_flist s)) by (intros f Hf; apply Kleaf; easy).
    assert (Kl : forall f, In f (keys (fn_dict fn)) -> In f (st_flist s) /\ is_leaf_fun s f) by (intros f Hf; apply Kleaf; easy).
    assert (Wrec : forall t, In t (fn_pts fn) -> wf_p (t_x t)).
    { intros t Ht. destruct (own_all s F fn I HF Hg t Ht) as ((W & _) & _). easy. }
    assert (Drec : forall ge, evaluated_at (fn_pts fn) p = Some ge -> dec_at s (fn_dict fn) p (fst ge) (snd ge)).
    { intros ge Hge. destruct (evaluated_in _ _ _ Hge) as (t & H1 & H2 & ->). simpl.
      eapply dec_at_point; [| | | |exact H2|apply Cdec; easy]; auto. apply Op. }
    assert (Main : (fn_reuse fn = true -> evaluated_at (fn_pts fn) p = None) ->
      exists g e s', (do r <- separate (fn_dict fn) p;
          let '(nothing, gonly, both) := r in
          do f <- match evaluated_at (fn_pts fn) p with
                  | Some gf => ret (snd gf)
                  | None => match both with
                            | [] => sum_values SY (bodies SY sub') (fn_dict fn) p zero_expr
                            | _ => new_expr
                            end
                  end;
          do g <- match both, gonly with
                  | [], [] => sum_grads SY (bodies SY sub') (fn_dict fn) p zero_point
                  | _, _ => new_point
                  end;
          do i <- fresh_id;
          add_body SY (bodies SY sub') F (mkTrip i p g f) ;;
          ret (prune_p g, prune_e f)) s = (Ok (g, e), s') /\ oracle_post s s' F fn p g e).
    { intros Hn.
      destruct (separate_spec s p (fn_dict fn)) as (a & b & c & Es & Pm & Ca & Cb & Cc).
      { intros f Hf. destruct (Kleaf f Hf) as [_ (fg & A & _)]. eauto. }
      rewrite (bind_ok _ _ _ _ _ Es).
      assert (Hin : forall fw, In fw (fn_dict fn) -> In fw a \/ In fw b \/ In fw c).
      { intros fw Hfw. apply (Permutation_in _ (Permutation_sym Pm)) in Hfw. rewrite !in_app_iff in Hfw. tauto. }
      assert (Hallc : c = [] -> all_ev s p (fn_dict fn)).
      { intros -> fw Hfw. unfold ev_at. destruct (Hin fw Hfw) as [H|[H|[]]].
        - rewrite Forall_forall in Ca. destruct (Ca fw H) as (f0 & r & -> & -> & _). easy.
        - rewrite Forall_forall in Cb. destruct (Cb fw H) as (f0 & r & -> & -> & _). easy. }
      assert (Hcall : all_ev s p (fn_dict fn) -> c = []).
      { intros H. destruct c as [|fw c]; [easy|]. exfalso. inversion Cc as [|? ? (f0 & A & B) _]; subst.
        apply (H fw); [eapply Permutation_in; [exact Pm|]; rewrite !in_app_iff; simpl; auto|]. unfold ev_at. rewrite A. easy. }
      assert (Hbca : Forall (cls_a s p) (fn_dict fn) -> b = [] /\ c = []).
      { intros H. rewrite Forall_forall in H. split.
        - destruct b as [|fw b]; [easy|]. exfalso. inversion Cb as [|? ? (f0 & r & A & B & D) _]; subst.
          destruct (H fw) as (f1 & r1 & A1 & B1 & D1); [eapply Permutation_in; [exact Pm|]; rewrite !in_app_iff; simpl; auto|]. congruence.
        - apply Hcall. intros fw Hfw. destruct (H fw Hfw) as (f1 & r1 & A1 & B1 & D1). unfold ev_at. rewrite A1, B1. easy. }
      assert (Hbc : b = [] -> c = [] -> Forall (cls_a s p) (fn_dict fn) /\ fn_reuse fn = true).
      { intros -> ->. rewrite !app_nil_r in Pm. assert (Fa : Forall (cls_a s p) (fn_dict fn)) by (eapply Permutation_Forall; [exact Pm|easy]).
        split; [easy|]. apply Creuse. intros h fh Hh Hgh. unfold keys in Hh. apply in_map_iff in Hh as (fw & <- & Hfw).
        rewrite Forall_forall in Fa. destruct (Fa fw Hfw) as (f1 & r1 & A1 & B1 & D1). congruence. }
      (* the value *)
      assert (V : exists e s1, (match evaluated_at (fn_pts fn) p with
                  | Some gf => ret (snd gf)
                  | None => match c with
                            | [] => sum_values SY (bodies SY sub') (fn_dict fn) p zero_expr
                            | _ => new_expr
                            end
                  end) s = (Ok e, s1) /\ Inv s1 /\ ext s s1 /\ own_e s1 e /\ keepf s s1 /\ st_plist s1 = st_plist s /\
                  (c = [] -> cached_sum s p (fn_dict fn) e) /\
                  (forall ge, evaluated_at (fn_pts fn) p = Some ge -> e = snd ge)).
      { destruct (evaluated_at (fn_pts fn) p) as [ge|] eqn:Ege.
        - exists (snd ge), s. split; [easy|]. split; [easy|]. split; [apply ext_refl|]. split.
          { destruct ge as [g0 e0]. apply (evaluated_own s F fn p g0 e0 Hok Ege). }
          split; [easy|]. split; [easy|]. split; [|intros ge' H; injection H; intros <-; easy].
          intros _. eapply dec_cached; eauto. apply (proj1 G).
        - destruct c as [|c0 c'] eqn:Ec.
          + destruct (sum_values_spec sub' p (fn_dict fn) zero_expr s I Kf (Hallc eq_refl)) as (e & vs & A & B & C).
            exists e, s. split; [easy|]. split; [easy|]. split; [apply ext_refl|]. split.
            { destruct (ok_sum_values SY (bodies SY sub') (bodies_ok SY sub' Hsub') (fn_dict fn) p zero_expr s I Kf Op (own_zero_e s)) as (_ & _ & Q).
              rewrite A in Q. apply (Q e eq_refl). }
            split; [easy|]. split; [easy|]. split; [|easy]. intros _. exists vs. split; [easy|]. intros v. rewrite (C v), zero_expr_den. lra.
          + destruct (new_expr_run s) as (y & s1 & E1 & K1 & F1 & P1). exists (leaf_expr y), s1.
            destruct (ok_new_expr s I) as (I1 & X1 & Q1). rewrite E1 in I1, X1, Q1. simpl in I1, X1, Q1.
            destruct (Q1 _ eq_refl) as [O1 _]. repeat (split; [easy|]). easy. }
      destruct V as (e & s1 & Ee & I1 & X1 & Oe1 & K1 & P1 & Vc & Vcached). rewrite (bind_ok _ _ _ _ _ Ee).
      (* the gradient *)
      assert (W : exists g s2, (match c, b with
                  | [], [] => sum_grads SY (bodies SY sub') (fn_dict fn) p zero_point
                  | _, _ => new_point
                  end) s1 = (Ok g, s2) /\ Inv s2 /\ ext s1 s2 /\ own_p s2 g /\ keepf s1 s2 /\
                  ((exists x, g = leaf_point x /\ ~ In x (st_plist s)) \/ (b = [] /\ c = [] /\ exists vs, Forall2 (fun fw ge => ev_at s p (fst fw) = Some ge) (fn_dict fn) vs /\
                    forall v k, den_p v g k = lsum (fun a => (ev (v_env v) (snd (fst a)) * den_p v (fst (snd a)) k)%R) (combine (fn_dict fn) vs)))).
      { assert (N : exists g s2, new_point s1 = (Ok g, s2) /\ Inv s2 /\ ext s1 s2 /\ own_p s2 g /\ keepf s1 s2 /\
          (exists x, g = leaf_point x /\ ~ In x (st_plist s))).
        { destruct (new_point_run s1) as (x & s2 & E2 & K2 & F2 & P2 & X2). exists (leaf_point x), s2.
          destruct (ok_new_point s1 I1) as (I2 & X2' & Q2). rewrite E2 in I2, X2', Q2. simpl in I2, X2', Q2.
          destruct (Q2 _ eq_refl) as [O2 _]. repeat (split; [easy|]). exists x. split; [easy|]. rewrite <- P1. auto. }
        destruct N as (g & s2 & N1 & N2 & N3 & N4 & N5 & N6).
        destruct c as [|c0 c'] eqn:Ec; [destruct b as [|b0 b'] eqn:Eb|].
        - destruct (Hbc eq_refl eq_refl) as [Fa _].
          assert (Kf1 : forall f, In f (keys (fn_dict fn)) -> In f (st_flist s1)).
          { intros f Hf. destruct K1 as [_ K1]. rewrite K1. auto. }
          destruct (sum_grads_spec sub' p (fn_dict fn) zero_point s1 I1 Kf1) as (g' & vs & A & B & C).
          { apply (cls_keepf s s1); easy. }
          exists g', s1. split; [easy|]. split; [easy|]. split; [apply ext_refl|]. split.
          { destruct (ok_sum_grads SY (bodies SY sub') (bodies_ok SY sub' Hsub') (fn_dict fn) p zero_point s1 I1 Kf1 (own_p_ext _ _ _ X1 Op) (own_zero_p s1)) as (_ & _ & Q).
            rewrite A in Q. apply (Q g' eq_refl). }
          split; [easy|]. right. split; [easy|]. split; [easy|]. exists vs. split.
          + eapply Forall2_impl'; [|exact B]. simpl. intros fw ge. rewrite (ev_keepf s s1 _ _ K1). easy.
          + intros v k. rewrite (C v k), zero_point_den. unfold vzero. lra.
        - exists g, s2. repeat (split; [easy|]). auto.
        - exists g, s2. repeat (split; [easy|]). auto. }
      destruct W as (g & s2 & Eg & I2 & X2 & Og2 & K2 & Wg). rewrite (bind_ok _ _ _ _ _ Eg).
      rewrite bind_fresh. set (s3 := tick s2).
      destruct (ok_fresh s2 I2) as (I3 & X3 & _). change (snd (fresh_id s2)) with s3 in I3, X3.
      assert (K3 : keepf s s3) by (eapply keepf_trans; [exact K1|eapply keepf_trans; [exact K2|easy]]).
      assert (X03 : ext s s3) by (eapply ext_trans; [exact X1|eapply ext_trans; eauto]).
      assert (G3 : Good s3) by (eapply Good_keepf; eauto).
      assert (Hg3 : dget Nat.eqb F (st_funs s3) = Some fn) by (destruct K3 as [K3 _]; rewrite K3; easy).
      assert (HF3 : In F (st_flist s3)) by (destruct K3 as [_ K3]; rewrite K3; easy).
      set (t0 := mkTrip (st_next s2) p g e).
      assert (CSum : all_ev s3 p (fn_dict fn) -> cached_sum s3 p (fn_dict fn) e).
      { intros H. assert (Hc : c = []) by (apply Hcall; intros fw Hfw; rewrite <- (ev_keepf s s3 _ _ K3); apply H; easy).
        destruct (Vc Hc) as (vs & A & B). exists vs. split; [|easy]. eapply Forall2_impl'; [|exact A]. simpl.
        intros fw ge. rewrite (ev_keepf s s3 _ _ K3). easy. }
      assert (CDec : Forall (cls_a s3 p) (fn_dict fn) -> dec_at s3 (fn_dict fn) p g e).
      { intros H. apply (cls_keepf s s3) in H; [|easy]. destruct (Hbca H) as [Hb Hc].
        destruct (Vc Hc) as (vs & A & B). destruct Wg as [(x & -> & Hx)|(_ & _ & vs' & A' & B')].
        - exfalso. rewrite Hb, Hc in Eg. 
          destruct (sum_grads_spec sub' p (fn_dict fn) zero_point s1 I1) as (g' & vs' & A' & B' & C').
          { intros f Hf. destruct K1 as [_ K1]. rewrite K1. auto. }
          { apply (cls_keepf s s1); easy. }
          rewrite A' in Eg. injection Eg; intros Es2 Eg2. subst g' s2.
          assert (Own := Og2). destruct Own as [_ Own]. rewrite P1 in Own. apply Hx, Own. simpl; auto.
        - assert (Evs : vs' = vs).
          { clear - A A'. revert vs' A'. induction A as [|fw ge d vs H1 H2 IH]; intros vs' A'; inversion A'; subst; [easy|].
            f_equal; [congruence|auto]. }
          subst vs'. destruct (ev_ts s p (fn_dict fn) vs A) as (ts & T1 & ->). exists ts. split.
          + eapply Forall2_impl'; [|exact T1]. simpl. intros fw t. unfold recorded. destruct K3 as [K3 _]. rewrite K3. easy.
          + intros v. split.
            * apply functional_extensionality; intros k. rewrite B'. unfold wsum_p. clear. revert ts. generalize (fn_dict fn).
              induction l as [|fw l IH]; intros [|t ts]; try easy. simpl map. simpl combine. rewrite !lsum_cons, IH. easy.
            * rewrite (B v). unfold wsum_e. clear. revert ts. generalize (fn_dict fn).
              induction l as [|fw l IH]; intros [|t ts]; try easy. simpl map. simpl combine. rewrite !lsum_cons, IH. easy. }
      destruct (comp_add sub' Hsub' F fn t0 s3 I3 G3 HF3 Hg3 Hl (proj2 G3 F fn HF3 Hg3 Hl)) as (s' & E' & I' & X' & G' & Fl' & Oc & fn' & Hg' & Hl' & Hr' & Hd' & Hp'); try easy.
      { unfold t0. split; [|split]; simpl; [eapply own_p_ext; [exact X03|exact Op]|eapply own_p_ext; [exact X3|exact Og2]|].
        eapply own_e_ext; [exact X3|]. eapply own_e_ext; [exact X2|exact Oe1]. }
      { unfold t0; simpl. lia. }
      { unfold t0; simpl. intros Hi. apply in_map_iff in Hi as (t & Et & Ht). destruct Hok as (_ & _ & _ & Hid & _).
        rewrite Forall_forall in Hid. specialize (Hid t Ht). simpl in Hid.
        assert (st_next s <= st_next s2)%nat by (apply ext_next; eapply ext_trans; [exact X1|exact X2]). lia. }
      rewrite (bind_ok _ _ _ _ _ E'). eexists _, _, s'. split; [reflexivity|].
      assert (Xs' : ext s s') by (eapply ext_trans; eauto).
      assert (HF' : In F (st_flist s')) by (rewrite Fl'; easy).
      assert (Htp : prune_p p = p) by (apply prune_p_id; easy).
      constructor; try easy.
      - destruct K3 as [_ K3]. congruence.
      - destruct (proj2 G' F fn' HF' Hg' Hl') as (_ & _ & _ & D). rewrite <- Hd'. specialize (D (prune_t t0)).
        unfold t0 in D; simpl in D. rewrite Htp in D. apply D. rewrite Hp'. apply in_or_app; simpl; auto.
      - exists fn'. split; [easy|]. split; [congruence|]. split; [easy|]. split; [easy|]. right. exists (prune_t t0). split; [easy|].
        unfold t0; simpl. rewrite Htp. easy.
      - intros ge Hge Hre. rewrite (Hn Hre) in Hge. easy.
      - intros _. exists fn', (prune_t t0). split; [easy|]. split; [easy|]. unfold t0; simpl. rewrite Htp. easy.
      - intros Hre. destruct Wg as [(x & -> & Hx)|(Hb & Hc & _)]; [exists x; easy|]. destruct (Hbc Hb Hc) as [_ H]. congruence.
      - intros ge Hge v. rewrite prune_e_den. rewrite (Vcached ge Hge). easy. }
    unfold oracle_body. rewrite (bind_ok _ _ _ _ _ (get_fun_ok _ _ _ Hg)).
    destruct (evaluated_at (fn_pts fn) p) as [[g0 e0]|] eqn:Ege; [destruct (fn_reuse fn) eqn:Ere|].
    - exists g0, e0, s. split; [easy|]. constructor; try easy; try apply ext_refl.
      + apply (Drec _ eq_refl).
      + exists fn. split; [easy|]. split; [easy|]. split; [easy|]. split; [easy|]. left; easy.
      + intros ge Hge _. split; [easy|]. rewrite Ege in Hge. congruence.
      + intros H. rewrite Ege in H. specialize (H Ere). easy.
      + congruence.
      + intros ge Hge v. rewrite Ege in Hge. injection Hge; intros <-. easy.
    - apply Main. congruence.
    - apply Main. easy.
  Qed.

  Theorem oracle_spec F fn p s : Inv s -> Good s -> In F (st_flist s) -> dget Nat.eqb F (st_funs s) = Some fn -> own_p s p -> pruned p ->
    exists g e s', oracle SY F p s = (Ok (g, e), s') /\ oracle_post s s' F fn p g e.
  Proof using OK.
    intros I G HF Hg Op Hp. unfold oracle. destruct (fn_leaf fn) eqn:El.
    - apply leaf_oracle_post; try easy. apply (methods_ok SY 1).
    - apply comp_oracle; try easy. apply no_meths_ok.
  Qed.
End Methods.
