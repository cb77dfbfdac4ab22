(** Rules for executing the problem builders: each operation, what it does to
    the state, and which runs its records describe. *)
From Coq Require Import List Arith Bool String QArith Reals Qreals Lia Lra FunctionalExtensionality.
From Verif Require Import Prelude PreludeFacts Sympy SympyFacts AlgebraModel Denote AlgebraFacts FunctionModel CircuitModel
  Spec SpecFacts ClassSpec CertSpec StateSpec StateFacts CertFacts FunctionSpec FunctionFacts FunctionFacts2
  SymbolFacts SolverSpec BuilderModel BuilderSpec.
Import ListNotations.
Local Open Scope R_scope.

(** * Vectors *)
Lemma in_Rd_zero d : in_Rd d vzero. Proof. intros k _. easy. Qed.
Lemma in_Rd_add d x y : in_Rd d x -> in_Rd d y -> in_Rd d (vadd x y).
Proof. intros H K k Hk. unfold vadd. rewrite H, K by easy. lra. Qed.
Lemma in_Rd_sub d x y : in_Rd d x -> in_Rd d y -> in_Rd d (vsub x y).
Proof. intros H K k Hk. unfold vsub. rewrite H, K by easy. lra. Qed.
Lemma in_Rd_scal d c x : in_Rd d x -> in_Rd d (vscal c x).
Proof. intros H k Hk. unfold vscal. rewrite H by easy. lra. Qed.
Lemma in_Rd_nsq0 d x : in_Rd d x -> nsq d x = 0 -> x = vzero.
Proof.
  intros H E. apply functional_extensionality; intros k. unfold vzero.
  destruct (Nat.lt_ge_cases k d) as [Hk|Hk]; [|apply H; easy].
  unfold nsq, dot in E. clear H. induction d as [|d IH]; [lia|]. simpl in E.
  assert (P : 0 <= rsum d (fun k => x k * x k)).
  { clear. induction d; simpl; [lra|]. assert (0 <= x d * x d) by nra. lra. }
  assert (Q : 0 <= x d * x d) by nra.
  destruct (Nat.eq_dec k d) as [->|]; [nra|]. apply IH; [|lia]. lra.
Qed.
Lemma in_Rd_dot_ext d g g' : in_Rd d g -> in_Rd d g' -> (forall u, dot d g u = dot d g' u) -> g = g'.
Proof.
  intros H H' E. assert (Z : vsub g g' = vzero).
  { apply (in_Rd_nsq0 d); [apply in_Rd_sub; easy|]. rewrite dot_sub_sub. unfold nsq.
    generalize (E g), (E g'). rewrite (dot_comm d g' g). lra. }
  apply functional_extensionality; intros k. apply (f_equal (fun f => f k)) in Z. unfold vsub, vzero in Z. lra.
Qed.

(** A smooth function has one subgradient at a point. *)
Lemma smooth_unique d L phi x g z g' z' : smooth d L phi -> query d phi x g z -> query d phi x g' z' -> g = g' /\ z = z'.
Proof.
  intros [Hd (grad & H1 & _)] [B [S V]] [B' [S' V']]. split; [|congruence].
  apply (in_Rd_dot_ext d); [easy|easy|]. intros u.
  rewrite (subgradient_is_gradient d phi grad Hd H1 x g u S), (subgradient_is_gradient d phi grad Hd H1 x g' u S'). easy.
Qed.

(** * Valuations *)
Definition space (d : nat) (r : env) (v : valuation) : Prop :=
  v_dim v = d /\ v_env v = r /\ forall l, in_Rd d (v_pt v l).
Definition agree (s : state) (v v' : valuation) : Prop :=
  (forall l, In l (st_plist s) -> v_pt v' l = v_pt v l) /\ (forall l, In l (st_elist s) -> v_fv v' l = v_fv v l) /\
  v_dim v' = v_dim v /\ v_env v' = v_env v.

Lemma agree_refl s v : agree s v v. Proof. repeat split. Qed.
Lemma agree_trans s s' v v' v'' : ext s s' -> agree s v v' -> agree s' v' v'' -> agree s v v''.
Proof.
  intros E (A & B & C & D) (A' & B' & C' & D'). repeat split; try congruence.
  - intros l Hl. rewrite A' by (eapply ext_plist; eauto). apply A; easy.
  - intros l Hl. rewrite B' by (eapply ext_elist; eauto). apply B; easy.
Qed.
Lemma lsum_ext {A} (f g : A -> R) l : (forall a, In a l -> f a = g a) -> lsum f l = lsum g l.
Proof.
  induction l as [|a l IH]; intros H; simpl; [easy|]. rewrite IH by (intros b Hb; apply H; simpl; auto).
  rewrite (H a) by (simpl; auto). easy.
Qed.
Lemma agree_p s v v' p : agree s v v' -> own_p s p -> den_p v' p = den_p v p.
Proof.
  intros (A & B & C & D) [_ H]. unfold den_p, den_pd. apply functional_extensionality; intros k. rewrite D.
  apply lsum_ext. intros [l w] Hl. simpl. rewrite A; [easy|]. apply H. unfold keys. apply in_map_iff. exists (l, w). easy.
Qed.
Lemma agree_e s v v' e : agree s v v' -> own_e s e -> den_e v' e = den_e v e.
Proof.
  intros (A & B & C & D) [_ H]. unfold den_e, den_ed. rewrite D. apply lsum_ext. intros [k w] Hk. simpl. f_equal.
  assert (Hk' : own_key s k) by (apply H; unfold keys; apply in_map_iff; exists (k, w); easy).
  destruct k as [f|x y|]; simpl in *.
  - apply B; easy.
  - rewrite C, !A by easy. easy.
  - easy.
Qed.
Lemma space_p d r v p : space d r v -> in_Rd d (den_p v p).
Proof.
  intros (_ & _ & H) k Hk. unfold den_p, den_pd.
  induction (pt_dict p) as [|[l w] m IH]; simpl; [easy|]. rewrite IH, H by easy. lra.
Qed.

Definition set_pt (v : valuation) (x : leaf) (g : vec) : valuation :=
  mkVal (v_dim v) (fun l => if leaf_eqb l x then g else v_pt v l) (v_fv v) (v_env v).
Definition set_fv (v : valuation) (y : leaf) (z : R) : valuation :=
  mkVal (v_dim v) (v_pt v) (fun l => if leaf_eqb l y then z else v_fv v l) (v_env v).
Lemma leaf_neq a b : a <> b -> leaf_eqb a b = false.
Proof. intros H. destruct (leaf_eqb a b) eqn:E; [|easy]. apply leaf_eqb_eq in E. easy. Qed.
Lemma leaf_refl a : leaf_eqb a a = true. Proof. apply leaf_eqb_eq. easy. Qed.
Lemma set_pt_agree s v x g : ~ In x (st_plist s) -> agree s v (set_pt v x g).
Proof.
  intros H. repeat split. intros l Hl. simpl. rewrite leaf_neq; [easy|]. intros ->. easy.
Qed.
Lemma set_fv_agree s v x g : ~ In x (st_elist s) -> agree s v (set_fv v x g).
Proof.
  intros H. repeat split. intros l Hl. simpl. rewrite leaf_neq; [easy|]. intros ->. easy.
Qed.
Lemma set_pt_space d r v x g : space d r v -> in_Rd d g -> space d r (set_pt v x g).
Proof. intros (A & B & C) H. repeat split; try easy. intros l. simpl. destruct (leaf_eqb l x); easy. Qed.
Lemma set_fv_space d r v x g : space d r v -> space d r (set_fv v x g).
Proof. intros (A & B & C). repeat split; easy. Qed.
Lemma set_pt_get v x g : den_p (set_pt v x g) (leaf_point x) = g.
Proof. rewrite leaf_point_den. simpl. rewrite leaf_refl. easy. Qed.
Lemma set_fv_get v x g : den_e (set_fv v x g) (leaf_expr x) = g.
Proof. rewrite leaf_expr_den. simpl. rewrite leaf_refl. easy. Qed.

(** * Consistency and the growth of the state *)
Lemma consistent_agree s v v' phi : Inv s -> agree s v v' -> consistent v phi s -> consistent v' phi s.
Proof.
  intros I A H f fn Hf Hg Hl. destruct (H f fn Hf Hg Hl) as (C1 & C2 & C3). split; [easy|].
  destruct (inv_funs s I f Hf) as (fn0 & E & Hok). rewrite Hg in E. injection E; intros <-.
  destruct Hok as (_ & Ho & _). split.
  - destruct A as (_ & _ & -> & _). easy.
  - rewrite Forall_forall in *. intros t Ht. unfold rec_sampled. destruct (Ho t Ht) as (O1 & O2 & O3).
    rewrite (agree_p s v v' _ A O1), (agree_p s v v' _ A O2), (agree_e s v v' _ A O3).
    replace (v_dim v') with (v_dim v) by (symmetry; apply A). apply C3; easy.
Qed.
Lemma consistent_ext s s' v phi : Inv s -> ext s s' -> consistent v phi s' -> consistent v phi s.
Proof.
  intros I E H f fn Hf Hg Hl. destruct E as (_ & _ & _ & E4 & E5). destruct (E5 f fn Hg) as (fn' & Hg' & X).
  destruct X as (X1 & X2 & X3 & X4 & X5 & (l & X6) & X7).
  assert (Hf' : In f (st_flist s')) by (destruct E4 as [m ->]; apply in_or_app; auto).
  destruct (H f fn' Hf' Hg') as (C1 & C2 & C3); [congruence|]. rewrite X3 in C1, C2. split; [easy|]. split; [easy|].
  rewrite X6 in C3. apply Forall_app in C3. easy.
Qed.

Lemma consistent_keepf s s' v phi : keepf s s' -> consistent v phi s <-> consistent v phi s'.
Proof. intros [A B]. unfold consistent. rewrite A, B. easy. Qed.

(** Appending one record to a leaf function. *)
Lemma consistent_append s s' f fn t v phi : dget Nat.eqb f (st_funs s) = Some fn -> fn_leaf fn = true -> In f (st_flist s) ->
  ext s s' -> appended s s' f t -> consistent v phi s' <-> consistent v phi s /\ rec_sampled v (phi f) t.
Proof.
  intros Hg Hl Hf E (A1 & A2 & fn1 & fn' & A3 & A4 & A5 & A6 & A7 & A8).
  rewrite Hg in A3. injection A3; intros <-. clear A3.
  assert (Hc : fn_class fn' = fn_class fn).
  { destruct E as (_ & _ & _ & _ & E). destruct (E f fn Hg) as (fn2 & G2 & X). rewrite A4 in G2. injection G2; intros <-. apply X. }
  split.
  - intros H. split.
    + intros h fh Hh Hgh Hlh. destruct (Nat.eq_dec h f) as [->|Hn].
      * rewrite Hg in Hgh. injection Hgh; intros <-. destruct (H f fn') as (C1 & C2 & C3); [rewrite A1; easy|easy|congruence|].
        rewrite Hc in *. rewrite A8 in C3. apply Forall_app in C3. easy.
      * apply H; [rewrite A1; easy|rewrite A2; easy|easy].
    + destruct (H f fn') as (C1 & C2 & C3); [rewrite A1; easy|easy|congruence|]. rewrite A8 in C3. apply Forall_app in C3.
      destruct C3 as [_ C3]. inversion C3; easy.
  - intros [H Ht] h fh Hh Hgh Hlh. rewrite A1 in Hh. destruct (Nat.eq_dec h f) as [->|Hn].
    + rewrite A4 in Hgh. injection Hgh; intros <-. destruct (H f fn Hf Hg Hl) as (C1 & C2 & C3). rewrite Hc, A8. split; [easy|]. split; [easy|].
      apply Forall_app. split; [easy|]. constructor; easy.
    + apply H; [easy|rewrite <- A2; easy|easy].
Qed.

Section Rules.
  Context {SY : sympy} (OK : sympy_ok SY).
  Variable P : list string.

  Definition symok (c : sexpr) : Prop := forall s, In s (free c) -> In s P.
  Definition okp (s : state) (p : point) : Prop := own_p s p /\ pt_all (fun x => In x P) p.
  Definition oke (s : state) (e : expr) : Prop := own_e s e /\ ex_all (fun x => In x P) e /\ no_const e.
  Definition isf (s : state) (f : nat) : Prop :=
    In f (st_flist s) /\ exists fn, dget Nat.eqb f (st_funs s) = Some fn /\ fn_leaf fn = true.
  Definition St (s : state) : Prop :=
    Inv s /\ forall f fn, In f (st_flist s) -> dget Nat.eqb f (st_funs s) = Some fn -> fn_leaf fn = true ->
      (forall t, In t (fn_pts fn) -> trip_all (fun x => In x P) t /\ no_const (t_f t)) /\
      (fn_reuse fn = true -> exists mu l, fn_class fn = CSmoothSC mu l).

  Lemma okp_ext s s' p : ext s s' -> okp s p -> okp s' p.
  Proof using Type. intros E [A B]. split; [eapply own_p_ext; eauto|easy]. Qed.
  Lemma oke_ext s s' p : ext s s' -> oke s p -> oke s' p.
  Proof using Type. intros E [A B]. split; [eapply own_e_ext; eauto|easy]. Qed.
  Lemma isf_ext s s' f : ext s s' -> isf s f -> isf s' f.
  Proof using Type.
    intros E [H1 [fg [H2 H3]]]. split; [eapply ext_flist; eauto|].
    destruct E as (_ & _ & _ & _ & E). destruct (E f fg H2) as [fg' [Hg' X]].
    exists fg'. split; [easy|]. destruct X as [X _]. congruence.
  Qed.
  Lemma okp_leaf s x : In x (st_plist s) -> okp s (leaf_point x).
  Proof using Type.
    intros H. split; [split; [apply leaf_point_wf|]; simpl; intros l [<-|[]]; easy|]. intros kv y [<-|[]] Hy. destruct Hy.
  Qed.
  Lemma oke_leaf s x : In x (st_elist s) -> oke s (leaf_expr x).
  Proof using Type.
    intros H. split; [split; [apply leaf_expr_wf|]; simpl; intros l [<-|[]]; easy|]. split.
    - intros kv y [<-|[]] Hy. destruct Hy.
    - intros w r [[=]|[]].
  Qed.
  Lemma okp_zero s : okp s zero_point.
  Proof using Type. split; [apply own_zero_p|]. intros kv y []. Qed.

  (** new points *)
  Lemma rule_point s : St s -> exists x s', new_point s = (Ok (leaf_point x), s') /\ St s' /\ ext s s' /\
    okp s' (leaf_point x) /\ keepf s s' /\ ~ In x (st_plist s).
  Proof using Type.
    intros [I H]. destruct (ok_new_point s I) as (I' & E & Q). eexists _, _. split; [reflexivity|].
    specialize (Q _ eq_refl). simpl in *. split.
    { split; [easy|]. intros f fn. exact (H f fn). }
    split; [easy|]. split. { split; [apply Q|]. intros kv y [<-|[]] Hy. destruct Hy. }
    split; [easy|]. intros K. apply (in_map lid) in K. revert K. apply lid_fresh. apply I.
  Qed.

  (** One more record of a leaf function. *)
  Lemma St_append s s' f fn t : St s -> Inv s' -> ext s s' -> dget Nat.eqb f (st_funs s) = Some fn -> appended s s' f t ->
    trip_all (fun x => In x P) t -> no_const (t_f t) -> In f (st_flist s) -> St s'.
  Proof using Type.
    intros [I H] I' E Hg (A1 & A2 & fn1 & fn' & A3 & A4 & A5 & A6 & A7 & A8) Ht Hn Hf. split; [easy|].
    rewrite Hg in A3. injection A3; intros <-. clear A3.
    intros h fh Hh Hgh Hlh. rewrite A1 in Hh. destruct (Nat.eq_dec h f) as [->|Hne].
    - rewrite A4 in Hgh. injection Hgh; intros <-.
      assert (Hc : fn_class fn' = fn_class fn).
      { destruct E as (_ & _ & _ & _ & E). destruct (E f fn Hg) as (fn2 & G2 & X). rewrite A4 in G2. injection G2; intros <-. apply X. }
      destruct (H f fn Hf Hg) as [H1 H2]; [congruence|]. rewrite Hc, A6, A8. split; [|easy].
      intros t' Ht'. apply in_app_or in Ht' as [Ht'|[<-|[]]]; [auto|easy].
    - apply (H h fh); [easy|rewrite <- A2; easy|easy].
  Qed.
  Lemma St_keepf s s' : St s -> Inv s' -> keepf s s' -> St s'.
  Proof using Type. intros [I H] I' [K1 K2]. split; [easy|]. rewrite K1, K2. easy. Qed.

  (** [f.oracle(p)] on a leaf function *)
  Lemma rule_oracle_body sub (Hsub : meths_ok sub) s f p : St s -> isf s f -> okp s p -> pruned p ->
    exists g e s', oracle_body SY sub f p s = (Ok (g, e), s') /\ St s' /\ ext s s' /\ st_flist s' = st_flist s /\
      (forall h, h <> f -> dget Nat.eqb h (st_funs s') = dget Nat.eqb h (st_funs s)) /\ okp s' g /\ oke s' e /\
      (forall d r v phi, space d r v -> consistent v phi s' -> query d (phi f) (den_p v p) (den_p v g) (den_e v e)) /\
      (forall d r v phi G Z, space d r v -> consistent v phi s -> query d (phi f) (den_p v p) G Z ->
         exists v', space d r v' /\ agree s v v' /\ consistent v' phi s' /\ den_p v' g = G /\ den_e v' e = Z).
  Proof using OK.
    intros HS [Hf (fn & Hg & Hl)] [Op Ap] Hp. assert (I : Inv s) by apply HS.
    assert (Hd := leaf_dict s f fn I Hf Hg Hl).
    destruct (leaf_oracle SY sub f fn p s I Hg Hl Hd Hp) as (g & e & s' & Hrun & Hout).
    destruct (ok_oracle_body SY sub Hsub f p s I Hf Op) as (I' & E & Q). rewrite Hrun in I', E, Q. simpl in I', E, Q.
    specialize (Q _ eq_refl). simpl in Q. destruct Q as [Og Oe].
    assert (Hrec : forall t, In t (fn_pts fn) -> trip_all (fun x => In x P) t /\ no_const (t_f t)).
    { destruct HS as [_ H]. apply (H f fn Hf Hg Hl). }
    assert (Hown : forall t, In t (fn_pts fn) -> own_t s t) by (intros t Ht; eapply own_all; eauto).
    exists g, e, s'. split; [easy|].
    destruct Hout as [(-> & Hr & Hev)|(t & Happ & Tx & Tg & Tf & (x & -> & Nx) & Hm)].
    - destruct (evaluated_in _ _ _ Hev) as (t & Ht & Hsame & Heq). injection Heq; intros -> ->.
      destruct (Hrec t Ht) as [(B1 & B2 & B3) B4].
      assert (Hx : forall v, den_p v (t_x t) = den_p v p).
      { intros v. apply same_point_den; [apply (Hown t Ht)|apply Op|easy]. }
      split; [easy|]. split; [apply ext_refl|]. split; [easy|]. split; [easy|]. split; [split; easy|]. split; [easy|].
      assert (Hq : forall d r v phi, space d r v -> consistent v phi s ->
        query d (phi f) (den_p v p) (den_p v (t_g t)) (den_e v (t_f t))).
      { intros d r v phi Hv Hc. split; [eapply space_p; eauto|]. destruct (Hc f fn Hf Hg Hl) as (_ & _ & C3).
        rewrite Forall_forall in C3. specialize (C3 t Ht). unfold rec_sampled in C3. rewrite Hx in C3.
        rewrite (proj1 Hv) in C3. easy. }
      split; [exact Hq|].
      intros d r v phi G Z Hv Hc HQ. exists v. split; [easy|]. split; [apply agree_refl|]. split; [easy|].
      destruct HS as [_ HS]. destruct (HS f fn Hf Hg Hl) as [_ Hsm]. destruct (Hsm Hr) as (mu & l & Hcl).
      destruct (Hc f fn Hf Hg Hl) as (_ & C2 & _). rewrite Hcl in C2. destruct C2 as [_ C2].
      destruct Hv as (Hdim & Hv). rewrite Hdim in C2.
      exact (smooth_unique d _ _ _ _ _ _ _ C2 (Hq d r v phi (conj Hdim Hv) Hc) HQ).
    -
      assert (Te : trip_all (fun x => In x P) t /\ no_const (t_f t)).
      { unfold trip_all. rewrite Tx, Tg, Tf. destruct (evaluated_at (fn_pts fn) p) as [gv|] eqn:Hev.
        - destruct Hm as [_ ->]. destruct (evaluated_in _ _ _ Hev) as (t0 & Ht0 & _ & Heq). subst gv. simpl.
          destruct (Hrec t0 Ht0) as [(B1 & B2 & B3) B4]. split; [split; [easy|split]|].
          + intros kv y [<-|[]] Hy. destruct Hy.
          + apply dall_prune. easy.
          + intros w r Hw. apply (B4 w r). unfold prune_e in Hw. simpl in Hw. apply filter_In in Hw. apply Hw.
        - destruct Hm as (y & -> & _). split; [split; [easy|split]|].
          + intros kv z [<-|[]] Hy. destruct Hy.
          + intros kv z [<-|[]] Hy. destruct Hy.
          + intros w r [[=]|[]]. }
      destruct Te as [Te1 Te2]. 
      split; [eapply St_append; eauto|]. split; [easy|]. split; [apply Happ|]. split; [apply Happ|].
      split. { split; [easy|]. rewrite <- Tg. apply Te1. }
      split. { split; [easy|]. rewrite <- Tf. split; [apply Te1|easy]. }
      split.
      + intros d r v phi Hv Hc. split; [eapply space_p; eauto|].
        apply (consistent_append s s' f fn t v phi Hg Hl Hf E Happ) in Hc as [_ Hc]. unfold rec_sampled in Hc.
        rewrite Tx, Tg, Tf, (proj1 Hv) in Hc. easy.
      + intros d r v phi G Z Hv Hc [HG HQ].
        assert (App : forall v', agree s v v' -> v_dim v' = d -> den_p v' (leaf_point x) = G -> den_e v' e = Z -> consistent v' phi s').
        { intros v' Ha Hdim HG' HZ'. apply (consistent_append s s' f fn t v' phi Hg Hl Hf E Happ). split.
          - eapply consistent_agree; eauto.
          - unfold rec_sampled. rewrite Tx, Tg, Tf, HG', HZ', Hdim, (agree_p s v v' p Ha Op). easy. }
        destruct (evaluated_at (fn_pts fn) p) as [gv|] eqn:Hev.
        * destruct Hm as [_ ->]. destruct (evaluated_in _ _ _ Hev) as (t0 & Ht0 & Hsame & Heq). subst gv. simpl in *.
          exists (set_pt v x G). split; [apply set_pt_space; easy|].
          assert (Ha : agree s v (set_pt v x G)) by (apply set_pt_agree; easy). split; [easy|].
          assert (HZ : den_e (set_pt v x G) (prune_e (t_f t0)) = Z).
          { rewrite prune_e_den, (agree_e s v _ _ Ha) by apply (Hown t0 Ht0).
            destruct (Hc f fn Hf Hg Hl) as (_ & _ & C3). rewrite Forall_forall in C3. specialize (C3 t0 Ht0).
            destruct C3 as [_ C3]. rewrite (same_point_den v (t_x t0) p) in C3; [|apply (Hown t0 Ht0)|apply Op|easy].
            rewrite <- C3. apply HQ. }
          split; [|split; [apply set_pt_get|easy]].
          apply App; [easy| |apply set_pt_get|easy]. simpl. apply Hv.
        * destruct Hm as (y & -> & Ny). set (v' := set_fv (set_pt v x G) y Z).
          assert (Ha : agree s v v').
          { eapply agree_trans; [apply ext_refl|apply set_pt_agree; exact Nx|apply set_fv_agree; exact Ny]. }
          assert (HG' : den_p v' (leaf_point x) = G) by (rewrite leaf_point_den; simpl; rewrite leaf_refl; easy).
          assert (HZ' : den_e v' (leaf_expr y) = Z) by apply set_fv_get.
          exists v'. split; [apply set_fv_space, set_pt_space; easy|]. split; [easy|].
          split; [|split; easy]. apply App; [easy| |easy|easy]. simpl. apply Hv.
  Qed.
  Lemma rule_oracle s f p : St s -> isf s f -> okp s p -> pruned p ->
    exists g e s', oracle SY f p s = (Ok (g, e), s') /\ St s' /\ ext s s' /\ st_flist s' = st_flist s /\
      (forall h, h <> f -> dget Nat.eqb h (st_funs s') = dget Nat.eqb h (st_funs s)) /\ okp s' g /\ oke s' e /\
      (forall d r v phi, space d r v -> consistent v phi s' -> query d (phi f) (den_p v p) (den_p v g) (den_e v e)) /\
      (forall d r v phi G Z, space d r v -> consistent v phi s -> query d (phi f) (den_p v p) G Z ->
         exists v', space d r v' /\ agree s v v' /\ consistent v' phi s' /\ den_p v' g = G /\ den_e v' e = Z).
  Proof using OK. exact (rule_oracle_body (methods SY 1) (methods_ok SY 1) s f p). Qed.

  (** [f.add_point((x, g, e))] on a leaf function *)
  Lemma rule_add_body sub (Hsub : meths_ok sub) s f x g e : St s -> isf s f -> okp s x -> okp s g -> oke s e ->
    exists s', add_body SY sub f (mkTrip (st_next s) x g e) (tick s) = (Ok tt, s') /\ St s' /\ ext s s' /\ st_flist s' = st_flist s /\
      (forall h, h <> f -> dget Nat.eqb h (st_funs s') = dget Nat.eqb h (st_funs s)) /\
      (forall v phi, consistent v phi s' <->
         consistent v phi s /\ sampled (v_dim v) (phi f) (den_p v x) (den_p v g) (den_e v e)).
  Proof using OK.
    intros HS [Hf (fn & Hg & Hl)] [Ox Ax] [Og Ag] (Oe & Ae & Ne). assert (I : Inv s) by apply HS.
    destruct (ok_fresh s I) as (I1 & E1 & _). change (snd (fresh_id s)) with (tick s) in I1, E1.
    destruct (ok_add_body SY sub Hsub f (mkTrip (st_next s) x g e) (tick s) I1 Hf) as (I' & E & _).
    { repeat split; simpl; try apply Ox; try apply Og; apply Oe. }
    { simpl. lia. }
    { intros fn0 Hg0 Hin. change (st_funs (tick s)) with (st_funs s) in Hg0. rewrite Hg in Hg0. injection Hg0; intros <-.
      destruct (inv_funs s I f Hf) as (fn1 & Hg1 & Hok). rewrite Hg in Hg1. injection Hg1; intros <-.
      destruct Hok as (_ & _ & _ & Hid & _). apply in_map_iff in Hin as (t & Et & Ht). rewrite Forall_forall in Hid.
      specialize (Hid t Ht). simpl in Et. lia. }
    destruct (leaf_add SY sub f (mkTrip (st_next s) x g e) (tick s) fn Hg Hl) as (s' & Hr & Happ & _).
    rewrite Hr in I', E. simpl in I', E. apply (ext_trans _ _ _ E1) in E. clear E1 I1.
    assert (Happ' : appended s s' f (prune_t (mkTrip (st_next s) x g e))).
    { eapply keepf_appended; [|exact Happ]. easy. }
    exists s'. split; [easy|]. split.
    { eapply St_append; try eassumption.
      - split; [|split]; simpl; apply dall_prune; easy.
      - intros w r Hw. apply (Ne w r). simpl in Hw. apply filter_In in Hw. apply Hw. }
    split; [easy|]. split; [apply Happ'|]. split; [apply Happ'|].
    intros v phi. rewrite (consistent_append s s' f fn _ v phi Hg Hl Hf E Happ'). unfold rec_sampled. simpl.
    rewrite !prune_p_den, prune_e_den. easy.
  Qed.

  Lemma rule_add s f x g e : St s -> isf s f -> okp s x -> okp s g -> oke s e ->
    exists s', add_triplet SY f x g e s = (Ok tt, s') /\ St s' /\ ext s s' /\ st_flist s' = st_flist s /\
      (forall h, h <> f -> dget Nat.eqb h (st_funs s') = dget Nat.eqb h (st_funs s)) /\
      (forall v phi, consistent v phi s' <->
         consistent v phi s /\ sampled (v_dim v) (phi f) (den_p v x) (den_p v g) (den_e v e)).
  Proof using OK. exact (rule_add_body (methods SY 1) (methods_ok SY 1) s f x g e). Qed.

  Lemma two_new_ok s : St s -> exists x y s1 s2, new_point s = (Ok (leaf_point x), s1) /\ new_expr s1 = (Ok (leaf_expr y), s2) /\
    St s2 /\ ext s s2 /\ keepf s s2 /\ okp s2 (leaf_point x) /\ oke s2 (leaf_expr y) /\ ~ In x (st_plist s) /\ ~ In y (st_elist s).
  Proof using Type.
    intros HS. destruct (two_new s (proj1 HS)) as (x & y & s1 & s2 & R1 & R2 & I2 & E & K & Ox & Oy & Nx & Ny).
    exists x, y, s1, s2. split; [easy|]. split; [easy|]. split; [eapply St_keepf; eauto|]. split; [easy|]. split; [easy|].
    split. { apply okp_leaf. apply Ox. simpl. auto. }
    split. { apply oke_leaf. apply (proj2 Oy (KF y)). simpl. auto. }
    easy.
  Qed.

  Lemma two_vals s s2 x y v d r G Z : ext s s2 -> ~ In x (st_plist s) -> ~ In y (st_elist s) -> space d r v -> in_Rd d G ->
    exists v', space d r v' /\ agree s v v' /\ den_p v' (leaf_point x) = G /\ den_e v' (leaf_expr y) = Z.
  Proof using Type.
    intros E Nx Ny Hv HG. exists (set_fv (set_pt v x G) y Z). split; [apply set_fv_space, set_pt_space; easy|].
    split. { eapply agree_trans; [apply ext_refl|apply set_pt_agree; exact Nx|apply set_fv_agree; exact Ny]. }
    split; [rewrite leaf_point_den; simpl; rewrite leaf_refl; easy|apply set_fv_get].
  Qed.

  (** [f.stationary_point()] on a leaf function *)
  Lemma rule_stationary s f : St s -> isf s f ->
    exists x e s', stationary_point SY f s = (Ok (leaf_point x, zero_point, e), s') /\ St s' /\ ext s s' /\ st_flist s' = st_flist s /\
      okp s' (leaf_point x) /\ oke s' e /\ pruned (leaf_point x) /\
      (forall d r v phi, space d r v -> consistent v phi s' ->
         in_Rd d (den_p v (leaf_point x)) /\ query d (phi f) (den_p v (leaf_point x)) vzero (den_e v e)) /\
      (forall d r v phi X Z, space d r v -> consistent v phi s -> in_Rd d X -> query d (phi f) X vzero Z ->
         exists v', space d r v' /\ agree s v v' /\ consistent v' phi s' /\ den_p v' (leaf_point x) = X /\ den_e v' e = Z).
  Proof using OK.
    intros HS Hf. destruct (two_new_ok s HS) as (x & y & s1 & s2 & R1 & R2 & S2 & E2 & K2 & Ox & Oy & Nx & Ny).
    assert (Hf2 := isf_ext s s2 f E2 Hf).
    destruct (rule_add s2 f (leaf_point x) zero_point (leaf_expr y) S2 Hf2 Ox (okp_zero s2) Oy) as (s' & R3 & S' & E' & F' & _ & C').
    exists x, (leaf_expr y), s'. split.
    { unfold stationary_point. rewrite (bind_ok _ _ _ _ _ R1), (bind_ok _ _ _ _ _ R2), (bind_ok _ _ _ _ _ R3). easy. }
    split; [easy|]. split; [eapply ext_trans; eauto|]. split; [rewrite F'; apply K2|].
    split; [eapply okp_ext; eauto|]. split; [eapply oke_ext; eauto|]. split; [apply leaf_point_pruned|]. split.
    - intros d r v phi Hv Hc. split; [eapply space_p; eauto|]. split; [apply in_Rd_zero|].
      apply C' in Hc as [_ Hc]. rewrite zero_point_den, (proj1 Hv) in Hc. easy.
    - intros d r v phi X Z Hv Hc HX [_ HQ]. destruct (two_vals s s2 x y v d r X Z E2 Nx Ny Hv HX) as (v' & Hv' & Ha & Hx & Hy).
      exists v'. split; [easy|]. split; [easy|]. split; [|easy]. apply C'. split.
      + apply (consistent_keepf s s2 v' phi K2). eapply consistent_agree; eauto. apply HS.
      + rewrite zero_point_den, Hx, Hy, (proj1 Hv'). easy.
  Qed.

  (** [proximal_step(p, f, c)] *)
  Lemma rule_prox s f p c : St s -> isf s f -> okp s p -> symok c ->
    exists x g e s', proximal_step SY p f c s = (Ok (x, g, e), s') /\ St s' /\ ext s s' /\ st_flist s' = st_flist s /\
      okp s' x /\ okp s' g /\ oke s' e /\ pruned x /\
      (forall d r v phi, space d r v -> consistent v phi s' ->
         proxed d (phi f) (ev r c) (den_p v p) (den_p v x) (den_p v g) (den_e v e)) /\
      (forall d r v phi X G Z, space d r v -> consistent v phi s -> proxed d (phi f) (ev r c) (den_p v p) X G Z ->
         exists v', space d r v' /\ agree s v v' /\ consistent v' phi s' /\ den_p v' x = X /\ den_p v' g = G /\ den_e v' e = Z).
  Proof using OK.
    intros HS Hf Op Hc. destruct (two_new_ok s HS) as (x & y & s1 & s2 & R1 & R2 & S2 & E2 & K2 & Ox & Oy & Nx & Ny).
    assert (Hf2 := isf_ext s s2 f E2 Hf). assert (Op2 := okp_ext s s2 p E2 Op).
    set (q := psub SY p (pscale SY c (leaf_point x))).
    assert (Oq : okp s2 q).
    { split; [apply own_psub; [apply Op2|apply own_pscale; apply Ox]|].
      apply (psub_all OK); [apply Op2|apply (pscale_all OK); [exact Hc|apply Ox]]. }
    assert (Dq : forall v, den_p v q = vsub (den_p v p) (vscal (ev (v_env v) c) (den_p v (leaf_point x)))).
    { intros v. unfold q. rewrite (psub_den SY OK), (pscale_den SY OK); [easy|apply pscale_wf, leaf_point_wf]. }
    destruct (rule_add s2 f q (leaf_point x) (leaf_expr y) S2 Hf2 Oq Ox Oy) as (s' & R3 & S' & E' & F' & _ & C').
    exists (prune_p q), (leaf_point x), (leaf_expr y), s'. split.
    { unfold proximal_step. rewrite (bind_ok _ _ _ _ _ R1), (bind_ok _ _ _ _ _ R2). fold q. rewrite (bind_ok _ _ _ _ _ R3). easy. }
    split; [easy|]. split; [eapply ext_trans; eauto|]. split; [rewrite F'; apply K2|].
    split. { eapply okp_ext; [exact E'|]. split; [apply own_prune_p, Oq|apply dall_prune, Oq]. }
    split; [eapply okp_ext; eauto|]. split; [eapply oke_ext; eauto|]. split; [apply prune_p_pruned|]. split.
    - intros d r v phi Hv Hcs. unfold proxed. rewrite prune_p_den, Dq. split; [rewrite (proj1 (proj2 Hv)); easy|].
      split; [eapply space_p; eauto|]. apply C' in Hcs as [_ Hcs]. rewrite Dq, (proj1 Hv) in Hcs. easy.
    - intros d r v phi X G Z Hv Hcs [HX [HG HQ]]. destruct (two_vals s s2 x y v d r G Z E2 Nx Ny Hv HG) as (v' & Hv' & Ha & Hx & Hy).
      exists v'. split; [easy|]. split; [easy|].
      assert (Dx : den_p v' q = X).
      { rewrite Dq, Hx, (agree_p s v v' p Ha (proj1 Op)), (proj1 (proj2 Hv')). easy. }
      split; [|rewrite prune_p_den; easy]. apply C'. split.
      + apply (consistent_keepf s s2 v' phi K2). eapply consistent_agree; eauto. apply HS.
      + rewrite Dx, Hx, Hy, (proj1 Hv'). easy.
  Qed.

  (** [subgrad_conjugate(g, f)] *)
  Lemma rule_conj s f g : St s -> isf s f -> okp s g ->
    exists x s', subgrad_conjugate SY g f s = (Ok (leaf_point x), s') /\ St s' /\ ext s s' /\ st_flist s' = st_flist s /\
      okp s' (leaf_point x) /\
      (forall d r v phi, space d r v -> consistent v phi s' -> conjugated d (phi f) (den_p v g) (den_p v (leaf_point x))) /\
      (forall d r v phi X, space d r v -> consistent v phi s -> conjugated d (phi f) (den_p v g) X ->
         exists v', space d r v' /\ agree s v v' /\ consistent v' phi s' /\ den_p v' (leaf_point x) = X).
  Proof using OK.
    intros HS Hf Og. destruct (two_new_ok s HS) as (x & y & s1 & s2 & R1 & R2 & S2 & E2 & K2 & Ox & Oy & Nx & Ny).
    assert (Hf2 := isf_ext s s2 f E2 Hf). assert (Og2 := okp_ext s s2 g E2 Og).
    destruct (rule_add s2 f (leaf_point x) g (leaf_expr y) S2 Hf2 Ox Og2 Oy) as (s' & R3 & S' & E' & F' & _ & C').
    exists x, s'. split.
    { unfold subgrad_conjugate. rewrite (bind_ok _ _ _ _ _ R1), (bind_ok _ _ _ _ _ R2), (bind_ok _ _ _ _ _ R3). easy. }
    split; [easy|]. split; [eapply ext_trans; eauto|]. split; [rewrite F'; apply K2|].
    split; [eapply okp_ext; eauto|]. split.
    - intros d r v phi Hv Hc. split; [eapply space_p; eauto|].
      apply C' in Hc as [_ [Hc _]]. rewrite (proj1 Hv) in Hc. easy.
    - intros d r v phi X Hv Hc [HX HQ].
      destruct (two_vals s s2 x y v d r X (val (phi f) X) E2 Nx Ny Hv HX) as (v' & Hv' & Ha & Hx & Hy).
      exists v'. split; [easy|]. split; [easy|]. split; [|easy]. apply C'. split.
      + apply (consistent_keepf s s2 v' phi K2). eapply consistent_agree; eauto. apply HS.
      + rewrite Hx, Hy, (proj1 Hv'), (agree_p s v v' g Ha (proj1 Og)). easy.
  Qed.

  (** [define_function(problem, mu, L)] *)
  Definition class_of (mu : Q) (L : extq) : fclass :=
    match L with
    | Fin l => if negb (Qeq_bool mu 0) then CSmoothSC mu l else CSmoothSC 0 l
    | Inf => if negb (Qeq_bool mu 0) then CStrongly mu else CConvex
    end.
  Definition reuse_of (L : extq) : bool := match L with Fin _ => true | Inf => false end.
  Lemma def_function_run mu L s : def_function mu L s = new_leaf_fun (class_of mu L) (reuse_of L) s.
  Proof using Type. unfold def_function, class_of. destruct L; destruct (Qeq_bool mu 0); easy. Qed.
  Lemma class_of_in d mu L phi : in_class d (class_of mu L) phi <-> function_class d mu L phi.
  Proof using Type.
    unfold class_of, function_class. destruct (Qeq_bool mu 0) eqn:E.
    - apply Qeq_bool_eq in E. apply Qeq_eqR in E. rewrite Q2R_0' in E. destruct L; simpl; rewrite E, ?Q2R_0'; [easy|].
      rewrite (convex_strongly0 d). easy.
    - destruct L; simpl; easy.
  Qed.
  Lemma class_of_ok mu L : good_class mu L -> class_params_ok (class_of mu L).
  Proof using Type.
    intros [H K]. unfold class_of. destruct (Qeq_bool mu 0) eqn:E.
    - apply Qeq_bool_eq in E. apply Qeq_eqR in E. rewrite Q2R_0' in E. destruct L; simpl; rewrite ?Q2R_0'; [lra|easy].
    - destruct L; simpl; lra.
  Qed.

  Lemma rule_def s mu L : St s -> good_class mu L ->
    exists f s', def_function mu L s = (Ok f, s') /\ St s' /\ ext s s' /\ st_flist s' = st_flist s ++ [f] /\
      (forall h, h <> f -> dget Nat.eqb h (st_funs s') = dget Nat.eqb h (st_funs s)) /\ isf s' f /\ ~ In f (st_flist s) /\
      (forall v phi, consistent v phi s' -> function_class (v_dim v) mu L (phi f)) /\
      (forall v phi F, consistent v phi s -> function_class (v_dim v) mu L F ->
         consistent v (fun h => if Nat.eqb h f then F else phi h) s').
  Proof using Type.
    intros HS HC. assert (I : Inv s) by apply HS. rewrite def_function_run.
    destruct (ok_new_leaf_fun s (class_of mu L) (reuse_of L) I) as (I' & E & Q).
    { unfold class_of. destruct L; destruct (negb _); easy. }
    set (f := st_next s). set (fn := mkFunc true (reuse_of L) (class_of mu L) [(f, Num 1)] (Some (st_fctr s)) [] [] []).
    eexists f, _. split; [reflexivity|].
    assert (Nf : ~ In f (st_flist s)).
    { intros H. apply (flist_lt s f I) in H. unfold f in H. lia. }
    assert (Hget : forall h, dget Nat.eqb h (st_funs (snd (new_leaf_fun (class_of mu L) (reuse_of L) s))) =
       match dget Nat.eqb h (st_funs s) with Some a => Some a | None => if Nat.eqb h f then Some fn else None end).
    { intros h. simpl. apply dget_app. }
    assert (Hf : dget Nat.eqb f (st_funs (snd (new_leaf_fun (class_of mu L) (reuse_of L) s))) = Some fn).
    { rewrite Hget. unfold f. rewrite (dget_fresh s I), Nat.eqb_refl. easy. }
    assert (Hother : forall h, h <> f -> dget Nat.eqb h (st_funs (snd (new_leaf_fun (class_of mu L) (reuse_of L) s))) = dget Nat.eqb h (st_funs s)).
    { intros h Hh. rewrite Hget. destruct (dget Nat.eqb h (st_funs s)); [easy|]. apply Nat.eqb_neq in Hh. rewrite Hh. easy. }
    change (mkState _ _ _ _ _ _ _ _) with (snd (new_leaf_fun (class_of mu L) (reuse_of L) s)).
    assert (Hl : st_flist (snd (new_leaf_fun (class_of mu L) (reuse_of L) s)) = st_flist s ++ [f]) by easy.
    revert I' E Hf Hother Hl. clear Hget Q. generalize (snd (new_leaf_fun (class_of mu L) (reuse_of L) s)). intros s' I' E Hf Hother Hl.
    split.
    { split; [easy|]. intros h fh Hh Hgh Hlh. destruct (Nat.eq_dec h f) as [->|Hn].
      - rewrite Hf in Hgh. injection Hgh; intros <-. split; [intros t []|]. simpl. unfold class_of.
        destruct L; [|easy]. intros _. destruct (negb _); eauto.
      - rewrite Hl in Hh. apply in_app_or in Hh as [Hh|[Hh|[]]]; [|congruence]. rewrite Hother in Hgh by easy.
        destruct HS as [_ HS]. apply (HS h fh Hh Hgh Hlh). }
    split; [easy|]. split; [easy|]. split; [easy|].
    split. { split; [rewrite Hl; apply in_or_app; simpl; auto|]. exists fn. easy. }
    split; [easy|]. split.
    - intros v phi Hc. destruct (Hc f fn) as (_ & H & _); [rewrite Hl; apply in_or_app; simpl; auto|easy|easy|]. apply class_of_in. easy.
    - intros v phi F Hc HF h fh Hh Hgh Hlh. destruct (Nat.eqb h f) eqn:Eh.
      + apply Nat.eqb_eq in Eh. subst h. rewrite Hf in Hgh. injection Hgh; intros <-. simpl.
        split; [apply class_of_ok; easy|]. split; [apply class_of_in; easy|constructor].
      + apply Nat.eqb_neq in Eh. rewrite Hl in Hh. apply in_app_or in Hh as [Hh|[Hh|[]]]; [|congruence].
        rewrite Hother in Hgh by easy. apply Hc; easy.
  Qed.
  (** ** Sums of leaf functions *)
  Definition ones (fs : list nat) : list (nat * sexpr) := map (fun f => (f, Num 1%Q)) fs.
  Definition is_sum (s : state) (F : nat) (fs : list nat) : Prop :=
    In F (st_flist s) /\ exists fn, dget Nat.eqb F (st_funs s) = Some fn /\ fn_leaf fn = false /\ fn_dict fn = ones fs.

  Lemma rule_distribute : forall fs s p g e, St s -> Forall (isf s) fs -> fs <> [] -> okp s p -> okp s g -> oke s e -> pruned p ->
    exists s', distribute SY (methods SY 1) (ones fs) (List.length fs - 1) p g e s = (Ok tt, s') /\ St s' /\ ext s s' /\
      st_flist s' = st_flist s /\
      (forall d r v phi, space d r v -> consistent v phi s' ->
         exists gs zs, queries d (den_p v p) (map phi fs) gs zs /\ vsum gs = den_p v g /\ rsuml zs = den_e v e) /\
      (forall d r v phi gs zs, space d r v -> consistent v phi s -> queries d (den_p v p) (map phi fs) gs zs ->
         vsum gs = den_p v g -> rsuml zs = den_e v e ->
         exists v', space d r v' /\ agree s v v' /\ consistent v' phi s').
  Proof using OK.
    induction fs as [|f fs IH]; intros s p g e HS Hfs Hne Op Og Oe Hp; [easy|]. inversion_clear Hfs as [|? ? Hf Hfs'].
    destruct fs as [|f2 fs].
    - simpl. set (g' := pscale SY (Num (Qred (/ 1))) g). set (e' := escale SY (Num (Qred (/ 1))) e).
      rewrite (bind_ok _ _ s g' s eq_refl), (bind_ok _ _ s e' s eq_refl), bind_fresh.
      assert (Hs1 : symok (Num (Qred (/ 1)))) by (intros x []).
      assert (Og' : okp s g') by (split; [apply own_pscale, Og|apply (pscale_all OK); [easy|apply Og]]).
      assert (Oe' : oke s e').
      { split; [apply own_escale, Oe|]. split; [apply (escale_all OK); [easy|apply Oe]|apply (no_const_escale SY OK), Oe]. }
      assert (Dg : forall v, den_p v g' = den_p v g).
      { intros v. unfold g'. rewrite (pscale_den SY OK). apply functional_extensionality; intros k. unfold vscal. simpl.
        replace (Q2R (Qred (/ 1))) with 1 by (rewrite Q2R_red; unfold Q2R; simpl; lra). lra. }
      assert (De : forall v, den_e v e' = den_e v e).
      { intros v. unfold e'. rewrite (escale_den SY OK). simpl.
        replace (Q2R (Qred (/ 1))) with 1 by (rewrite Q2R_red; unfold Q2R; simpl; lra). lra. }
      destruct (rule_add_body (methods SY 0) (methods_ok SY 0) s f p g' e' HS Hf Op Og' Oe') as (s' & R & S' & E & F & _ & C).
      exists s'. rewrite (bind_ok _ _ _ _ _ R). split; [easy|]. split; [easy|]. split; [easy|]. split; [easy|]. split.
      + intros d r v phi Hv Hc. apply C in Hc as [_ Hc]. rewrite Dg, De, (proj1 Hv) in Hc.
        exists [den_p v g], [den_e v e]. split; [|split].
        * constructor; [|constructor]. split; [eapply space_p; eauto|easy].
        * apply functional_extensionality; intros k. simpl. unfold vadd, vzero. lra.
        * simpl. lra.
      + intros d r v phi gs zs Hv Hc HQ HG HZ. exists v. split; [easy|]. split; [apply agree_refl|]. apply C. split; [easy|].
        inversion HQ as [|? g0 z0 ? gs0 zs0 H1 H2]; subst. inversion H2; subst. rewrite Dg, De, <- HG, <- HZ, (proj1 Hv). destruct H1 as [_ H1].
        replace (vsum [g0]) with g0 by (apply functional_extensionality; intros k; simpl; unfold vadd, vzero; lra).
        replace (rsuml [z0]) with z0 by (simpl; lra). easy.
    - remember (f2 :: fs) as fs' eqn:Efs.
      replace (List.length (f :: fs') - 1)%nat with (S (List.length fs' - 1)) by (rewrite Efs; simpl; lia).
      destruct (rule_oracle_body (methods SY 0) (methods_ok SY 0) s f p HS Hf Op Hp) as (gi & ei & s1 & R1 & S1 & E1 & F1 & _ & Ogi & Oei & B1 & W1).
      set (g' := psub SY g (pscale SY (Num 1) gi)). set (e' := esub SY e (escale SY (Num 1) ei)).
      assert (Hs1 : symok (Num 1)) by (intros x []).
      assert (Dg : forall v, den_p v g' = vsub (den_p v g) (den_p v gi)).
      { intros v. unfold g'. rewrite (psub_den SY OK), (pscale_den SY OK) by (apply pscale_wf; apply Ogi).
        apply functional_extensionality; intros k. unfold vscal, vsub. simpl. rewrite Q2R_1'. lra. }
      assert (De : forall v, den_e v e' = den_e v e - den_e v ei).
      { intros v. unfold e'. rewrite (esub_den SY OK), (escale_den SY OK) by (apply escale_wf; apply Oei). simpl. rewrite Q2R_1'. lra. }
      assert (Og1 := okp_ext s s1 g E1 Og). assert (Oe1 := oke_ext s s1 e E1 Oe).
      assert (Og' : okp s1 g').
      { split; [apply own_psub; [apply Og1|apply own_pscale, Ogi]|apply (psub_all OK); [apply Og1|apply (pscale_all OK); [easy|apply Ogi]]]. }
      assert (Oe' : oke s1 e').
      { split; [apply own_esub; [apply Oe1|apply own_escale, Oei]|]. split.
        - apply (esub_all OK); [apply Oe1|apply (escale_all OK); [easy|apply Oei]].
        - apply (no_const_eadd SY OK); [apply Oe1|]. apply (no_const_escale SY OK), (no_const_escale SY OK), Oei. }
      destruct (IH s1 p g' e' S1) as (s' & R2 & S' & E2 & F2 & B2 & W2); try easy.
      { eapply Forall_impl; [|exact Hfs']. intros a. apply isf_ext; easy. }
      { rewrite Efs; easy. }
      { eapply okp_ext; eauto. }
      exists s'. split.
      { change (ones (f :: fs')) with ((f, Num 1) :: ones fs'). cbn [distribute].
        change (m_oracle (methods SY 1) f p) with (oracle_body SY (methods SY 0) f p).
        rewrite (bind_ok _ _ _ _ _ R1). exact R2. }
      split; [easy|]. split; [eapply ext_trans; eauto|]. split; [congruence|]. split.
      + intros d r v phi Hv Hc. destruct (B2 d r v phi Hv Hc) as (gs & zs & HQ & HG & HZ).
        assert (Hc1 : consistent v phi s1) by (eapply consistent_ext; [apply S1|exact E2|easy]).
        exists (den_p v gi :: gs), (den_e v ei :: zs). split; [|split].
        * constructor; [apply (B1 d r); easy|easy].
        * change (vadd (den_p v gi) (vsum gs) = den_p v g). rewrite HG, Dg. apply functional_extensionality; intros k. unfold vadd, vsub. lra.
        * change (den_e v ei + rsuml zs = den_e v e). rewrite HZ, De. lra.
      + intros d r v phi gs zs Hv Hc HQ HG HZ. inversion HQ as [|? g0 z0 ? gs0 zs0 H1 H2]; subst gs zs.
        destruct (W1 d r v phi g0 z0 Hv Hc H1) as (v1 & Hv1 & A1 & C1 & Hg1 & Hz1).
        destruct (W2 d r v1 phi gs0 zs0 Hv1 C1) as (v2 & Hv2 & A2 & C2).
        * rewrite (agree_p s v v1 p A1 (proj1 Op)). easy.
        * rewrite Dg, Hg1, (agree_p s v v1 g A1 (proj1 Og)), <- HG. apply functional_extensionality; intros k. unfold vsub. simpl. unfold vadd. lra.
        * rewrite De, Hz1, (agree_e s v v1 e A1 (proj1 Oe)), <- HZ. simpl. lra.
        * exists v2. split; [easy|]. split; [|easy]. exact (agree_trans s s1 v v1 v2 E1 A1 A2).
  Qed.
  Lemma separate_fresh s p : forall d, (forall f, In f (keys d) -> exists fn, dget Nat.eqb f (st_funs s) = Some fn /\ evaluated_at (fn_pts fn) p = None) ->
    separate d p s = (Ok ([], [], d), s).
  Proof using Type.
    induction d as [|[f w] d IH]; intros H; [easy|]. destruct (H f (or_introl eq_refl)) as (fn & Hg & He). cbn [separate].
    rewrite (bind_ok _ _ _ _ _ (get_fun_ok _ _ _ Hg)), (bind_ok _ _ _ _ _ (IH (fun g Hg' => H g (or_intror Hg')))), He. easy.
  Qed.
  Lemma keys_ones fs : keys (ones fs) = fs.
  Proof using Type. unfold keys, ones. rewrite map_map. apply map_id. Qed.
  Lemma prune_ones fs : prune_dict (ones fs) = ones fs.
  Proof using Type. induction fs; simpl; [easy|]. f_equal. easy. Qed.

  Lemma leaf_not_sum s f fs F : isf s f -> is_sum s F fs -> f <> F.
  Proof using Type. intros [_ (a & A & B)] [_ (b & C & D & _)] ->. congruence. Qed.
  Lemma is_sum_ext s s' F fs : ext s s' -> Forall (isf s) fs -> is_sum s F fs -> is_sum s' F fs.
  Proof using Type.
    intros E Hfs [H1 (fn & H2 & H3 & H4)]. split; [eapply ext_flist; eauto|].
    destruct E as (_ & _ & _ & _ & E). destruct (E F fn H2) as (fn' & H2' & X). exists fn'. split; [easy|].
    destruct X as (X1 & X2 & X3 & X4 & X5 & X6 & X7). split; [congruence|].
    assert (fn_dict fn' = fn_dict fn \/ fn_dict fn' = prune_dict (fn_dict fn)) as [->| ->] by (destruct X7; auto); rewrite H4; [easy|apply prune_ones].
  Qed.

  (** [f.stationary_point()] on a sum of leaf functions *)
  Lemma rule_stationary_sum s F fs : St s -> is_sum s F fs -> Forall (isf s) fs -> fs <> [] ->
    exists x e s', stationary_point SY F s = (Ok (leaf_point x, zero_point, e), s') /\ St s' /\ ext s s' /\ st_flist s' = st_flist s /\
      okp s' (leaf_point x) /\ oke s' e /\
      (forall d r v phi, space d r v -> consistent v phi s' -> optimal d (map phi fs) (den_p v (leaf_point x)) (den_e v e)) /\
      (forall d r v phi X Z, space d r v -> consistent v phi s -> optimal d (map phi fs) X Z ->
         exists v', space d r v' /\ agree s v v' /\ consistent v' phi s' /\ den_p v' (leaf_point x) = X /\ den_e v' e = Z).
  Proof using OK.
    intros HS [HF (fn & Hg & Hl & Hd)] Hfs Hne. assert (I : Inv s) by apply HS.
    destruct (two_new_ok s HS) as (x & y & s1 & s2 & R1 & R2 & S2 & E2 & K2 & Ox & Oy & Nx & Ny).
    assert (I2 : Inv s2) by apply S2. assert (K2' := K2). destruct K2' as [Ka Kb].
    set (t0 := mkTrip (st_next s2) (leaf_point x) zero_point (leaf_expr y)).
    set (fn' := mkFunc false (fn_reuse fn) (fn_class fn) (ones fs) (fn_ctr fn) (fn_stat fn ++ [t0]) (fn_pts fn ++ [t0]) (fn_cons fn)).
    assert (Hg2 : dget Nat.eqb F (st_funs (tick s2)) = Some fn) by (simpl; rewrite Ka; easy).
    assert (HF2 : In F (st_flist (tick s2))) by (simpl; rewrite Kb; easy).
    destruct (ok_fresh s2 I2) as (I3 & E3 & _). change (snd (fresh_id s2)) with (tick s2) in I3, E3.
    destruct (inv_funs _ I3 F HF2) as (fnx & Hgx & Hok). rewrite Hg2 in Hgx. injection Hgx; intros <-. clear Hgx.
    assert (X : ext_fn fn fn').
    { unfold ext_fn, fn'; simpl. rewrite Hl, Hd. repeat split; try easy; eauto. }
    assert (Hok' : fun_ok (tick s2) F fn').
    { assert (Hok2 := Hok). destruct Hok2 as (K1 & K3 & K4 & K5 & K6 & K7). rewrite Hl, Hd in K1.
      assert (Hold : Forall (fun t => t_id t < st_next s2)%nat (fn_pts fn)).
      { destruct (inv_funs s2 I2 F) as (fny & Hgy & Hoky); [exact HF2|]. assert (fny = fn) by (simpl in Hg2; congruence). subst fny.
        destruct Hoky as (_ & _ & _ & Y & _). easy. }
      unfold fun_ok, fn'; simpl. split; [easy|]. split; [|split; [|split; [|split]]].
      - apply Forall_app; split; [easy|]. constructor; [|constructor]. split; [|split]; simpl; [apply Ox|apply own_zero_p|apply Oy].
      - rewrite map_app. simpl. apply NoDup_rev in K4. rewrite <- (rev_involutive (_ ++ _)). apply NoDup_rev. rewrite rev_app_distr. simpl.
        constructor; [|easy]. rewrite <- in_rev. intros H. apply in_map_iff in H as (t & Et & Ht). rewrite Forall_forall in Hold.
        specialize (Hold t Ht). lia.
      - apply Forall_app; split; [easy|]. constructor; [simpl; lia|constructor].
      - rewrite prune_zero_filter, <- K6. easy.
      - easy. }
    destruct (ok_set_fun (tick s2) F fn fn' I3 HF2 Hg2 X Hok') as (I4 & E4 & _).
    set (s4 := snd (set_fun F fn' (tick s2))) in *.
    assert (Hg4 : dget Nat.eqb F (st_funs s4) = Some fn') by (apply (dget_dset_same Nat.eqb Nat.eqb_eq)).
    assert (Ho4 : forall h, h <> F -> dget Nat.eqb h (st_funs s4) = dget Nat.eqb h (st_funs s)).
    { intros h Hh. unfold s4. simpl. rewrite (dget_dset_other Nat.eqb Nat.eqb_eq) by easy. rewrite Ka. easy. }
    assert (Hf4 : st_flist s4 = st_flist s) by exact Kb.
    assert (Es4 : ext s s4) by (eapply ext_trans; [exact E2|]; eapply ext_trans; eauto).
    assert (S4 : St s4).
    { split; [easy|]. intros h fh Hh Hgh Hlh. destruct (Nat.eq_dec h F) as [->|Hn].
      - rewrite Hg4 in Hgh. injection Hgh; intros <-. easy.
      - rewrite Ho4 in Hgh by easy. rewrite Hf4 in Hh. destruct HS as [_ HS]. apply (HS h fh); easy. }
    assert (C4 : forall v phi, consistent v phi s4 <-> consistent v phi s).
    { intros v phi. split; intros H h fh Hh Hgh Hlh.
      - apply H; [rewrite Hf4; easy| |easy]. rewrite Ho4; [easy|]. intros ->. congruence.
      - rewrite Hf4 in Hh. destruct (Nat.eq_dec h F) as [->|Hn]; [rewrite Hg4 in Hgh; injection Hgh; intros <-; easy|].
        rewrite Ho4 in Hgh by easy. apply H; easy. }
    assert (Ox4 : okp s4 (leaf_point x)) by (eapply okp_ext; [|exact Ox]; eapply ext_trans; eauto).
    assert (Oy4 : oke s4 (leaf_expr y)) by (eapply oke_ext; [|exact Oy]; eapply ext_trans; eauto).
    assert (Hfs4 : Forall (isf s4) fs) by (eapply Forall_impl; [|exact Hfs]; intros a; apply isf_ext; easy).
    destruct (rule_distribute fs s4 (leaf_point x) zero_point (leaf_expr y) S4 Hfs4 Hne Ox4 (okp_zero s4) Oy4 (leaf_point_pruned x))
      as (s' & R5 & S' & E5 & F5 & B5 & W5).
    assert (Hsep : separate (ones fs) (leaf_point x) s4 = (Ok ([], [], ones fs), s4)).
    { apply separate_fresh. rewrite keys_ones. intros f Hf. rewrite Forall_forall in Hfs. destruct (Hfs f Hf) as [Hin (fh & Hgh & Hlh)].
      exists fh. split.
      - rewrite Ho4; [easy|]. intros ->. congruence.
      - destruct (evaluated_at (fn_pts fh) (leaf_point x)) as [ge|] eqn:Ev; [|easy].
        destruct (evaluated_in _ _ _ Ev) as (t & H1 & H2 & _). destruct (own_all s f fh I Hin Hgh t H1) as ((W & Ow) & _).
        rewrite (same_point_fresh (t_x t) (leaf_point x) x) in H2; [easy|easy|apply leaf_point_wf|simpl; auto|].
        intros H. apply Nx. auto. }
    exists x, (leaf_expr y), s'. split.
    { unfold stationary_point. rewrite (bind_ok _ _ _ _ _ R1), (bind_ok _ _ _ _ _ R2).
      assert (R3 : add_triplet SY F (leaf_point x) zero_point (leaf_expr y) s2 = (Ok tt, s')); [|rewrite (bind_ok _ _ _ _ _ R3); easy].
      unfold add_triplet. rewrite bind_fresh. change (add_body SY (methods SY 1) F t0 (tick s2) = (Ok tt, s')).
      unfold add_body. change (prune_t t0) with t0. rewrite (bind_ok _ _ _ _ _ (get_fun_ok _ _ _ Hg2)). rewrite Hl, Hd, prune_ones.
      cbn [t_g t0 pt_dict zero_point]. fold fn'.
      rewrite (bind_ok _ _ (tick s2) tt s4 eq_refl). cbn [t_x t_f t0]. rewrite (bind_ok _ _ _ _ _ Hsep). cbn [app].
      replace (List.length (ones fs)) with (List.length fs) by (unfold ones; rewrite map_length; easy). destruct fs as [|f0 fs0]; [easy|]. exact R5. }
    split; [easy|]. split; [eapply ext_trans; eauto|]. split; [congruence|].
    split; [eapply okp_ext; eauto|]. split; [eapply oke_ext; eauto|]. split.
    - intros d r v phi Hv Hc. split; [eapply space_p; eauto|]. destruct (B5 d r v phi Hv Hc) as (gs & zs & H1 & H2 & H3).
      exists gs, zs. split; [easy|]. rewrite zero_point_den in H2. easy.
    - intros d r v phi A Z Hv Hc [HX (gs & zs & H1 & H2 & H3)].
      destruct (two_vals s s2 x y v d r A Z E2 Nx Ny Hv HX) as (v1 & Hv1 & A1 & Hx & Hy).
      assert (Hc1 : consistent v1 phi s4) by (apply C4; eapply consistent_agree; eauto).
      destruct (W5 d r v1 phi gs zs Hv1 Hc1) as (v2 & Hv2 & A2 & C2).
      + rewrite Hx. easy.
      + rewrite zero_point_den. easy.
      + rewrite Hy. easy.
      + exists v2. split; [easy|]. split; [exact (agree_trans s s4 v v1 v2 Es4 A1 A2)|]. split; [easy|].
        rewrite (agree_p s4 v1 v2 _ A2 (proj1 Ox4)), (agree_e s4 v1 v2 _ A2 (proj1 Oy4)). easy.
  Qed.

  (** [f + g] *)
  Definition sums (s : state) (F : nat) (fs : list nat) : Prop := isf s F /\ fs = [F] \/ is_sum s F fs.
  Lemma sums_ext s s' F fs : ext s s' -> Forall (isf s) fs -> sums s F fs -> sums s' F fs.
  Proof using Type. intros E H [[A B]|A]; [left; split; [eapply isf_ext; eauto|easy]|right; eapply is_sum_ext; eauto]. Qed.

  Lemma rule_fn_add s F fs f : St s -> sums s F fs -> Forall (isf s) fs -> isf s f -> NoDup fs -> ~ In f fs ->
    exists G s', fn_add SY F f s = (Ok G, s') /\ St s' /\ ext s s' /\ is_sum s' G (fs ++ [f]) /\ ~ In G (st_flist s) /\
      (forall v phi, consistent v phi s' <-> consistent v phi s).
  Proof using Type.
    intros HS HF Hfs Hf Hnd Hnin. assert (I : Inv s) by apply HS.
    assert (exists fa, dget Nat.eqb F (st_funs s) = Some fa /\ fn_dict fa = ones fs) as (fa & Ha & Hda).
    { destruct HF as [[[H1 (fa & H2 & H3)] ->]|[H1 (fa & H2 & H3 & H4)]]; [|eauto]. exists fa. split; [easy|].
      apply (leaf_dict s F fa); easy. }
    destruct Hf as [Hf (fb & Hb & Hlb)]. assert (Hdb := leaf_dict s f fb I Hf Hb Hlb).
    rewrite (fn_add_run SY s F f fa fb Ha Hb). set (b := fn_reuse fa && fn_reuse fb).
    assert (Hm : merge_dict SY Nat.eqb (fn_dict fa) (fn_dict fb) = ones (fs ++ [f])).
    { rewrite Hda, Hdb. unfold merge_dict. simpl.
      replace (dmem Nat.eqb f (ones fs)) with false.
      - rewrite (dset_notin Nat.eqb Nat.eqb_eq) by (rewrite keys_ones; easy). unfold ones. rewrite map_app. easy.
      - symmetry. apply (dmem_false Nat.eqb Nat.eqb_eq). rewrite keys_ones. easy. }
    rewrite Hm. set (G := st_next s).
    destruct (ok_new_comp_fun s (ones (fs ++ [f])) b I) as (I' & E & _).
    { rewrite keys_ones. apply NoDup_rev in Hnd. rewrite <- (rev_involutive (_ ++ _)). apply NoDup_rev. rewrite rev_app_distr. simpl.
      constructor; [rewrite <- in_rev; easy|easy]. }
    { rewrite keys_ones. intros h Hh. apply in_app_or in Hh as [Hh|[<-|[]]].
      - rewrite Forall_forall in Hfs. apply Hfs. easy.
      - split; [easy|]. eauto. }
    eexists G, _. split; [reflexivity|].
    set (fn := mkFunc false b CBase (ones (fs ++ [f])) None [] [] []).
    change (mkState _ _ _ _ _ _ _ _) with (snd (new_comp_fun (ones (fs ++ [f])) b s)).
    assert (NG : ~ In G (st_flist s)).
    { intros H. apply (flist_lt s G I) in H. unfold G in H. lia. }
    assert (Hget : forall h, dget Nat.eqb h (st_funs (snd (new_comp_fun (ones (fs ++ [f])) b s))) =
       match dget Nat.eqb h (st_funs s) with Some a => Some a | None => if Nat.eqb h G then Some fn else None end).
    { intros h. simpl. apply dget_app. }
    assert (HG : dget Nat.eqb G (st_funs (snd (new_comp_fun (ones (fs ++ [f])) b s))) = Some fn).
    { rewrite Hget. unfold G. rewrite (dget_fresh s I), Nat.eqb_refl. easy. }
    assert (Ho : forall h, h <> G -> dget Nat.eqb h (st_funs (snd (new_comp_fun (ones (fs ++ [f])) b s))) = dget Nat.eqb h (st_funs s)).
    { intros h Hh. rewrite Hget. destruct (dget Nat.eqb h (st_funs s)); [easy|]. apply Nat.eqb_neq in Hh. rewrite Hh. easy. }
    assert (Hl : st_flist (snd (new_comp_fun (ones (fs ++ [f])) b s)) = st_flist s ++ [G]) by easy.
    revert I' E HG Ho Hl. clear Hget. generalize (snd (new_comp_fun (ones (fs ++ [f])) b s)). intros s' I' E HG Ho Hl.
    split.
    { split; [easy|]. intros h fh Hh Hgh Hlh. destruct (Nat.eq_dec h G) as [->|Hn].
      - rewrite HG in Hgh. injection Hgh; intros <-. easy.
      - rewrite Hl in Hh. apply in_app_or in Hh as [Hh|[Hh|[]]]; [|congruence]. rewrite Ho in Hgh by easy.
        destruct HS as [_ HS]. apply (HS h fh); easy. }
    split; [easy|]. split.
    { split; [rewrite Hl; apply in_or_app; simpl; auto|]. exists fn. easy. }
    split; [easy|]. intros v phi. split; intros H h fh Hh Hgh Hlh.
    - assert (h <> G) by (intros ->; easy). apply H; [rewrite Hl; apply in_or_app; auto|rewrite Ho; easy|easy].
    - destruct (Nat.eq_dec h G) as [->|Hn]; [rewrite HG in Hgh; injection Hgh; intros <-; easy|].
      rewrite Hl in Hh. apply in_app_or in Hh as [Hh|[Hh|[]]]; [|congruence]. rewrite Ho in Hgh by easy. apply H; easy.
  Qed.
End Rules.
