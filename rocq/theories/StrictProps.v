(** Strictly feasible data from a run on quadratics: executing a builder while
    keeping the list of the points recorded for every function. *)
From Coq Require Import List Arith Bool String QArith Reals Qreals Lia Lra FunctionalExtensionality.
From Verif Require Import Prelude PreludeFacts Sympy SympyFacts AlgebraModel Denote AlgebraFacts FunctionModel CircuitModel SymSpec
  Spec SpecFacts ClassSpec CertSpec StateSpec StateFacts CertFacts FunctionSpec FunctionFacts FunctionFacts2
  SymbolFacts SolverSpec BuilderModel BuilderSpec BuildsSpec BuilderLogic BuilderT BuilderRun BuilderProof Examples BuilderExamples
  DualitySpec StrictSpec.
Import ListNotations.
Local Open Scope R_scope.

(** * Quadratics *)
Lemma qf_strongly mu q : mu <= q -> strongly_convex 1 mu (qf q).
Proof.
  intros H x y t _ _ Ht. split; [exact I|]. unfold qf, segment, vadd, vscal, nsq; simpl. rewrite dot1. unfold vsub.
  set (a := x 0%nat). set (b := y 0%nat).
  assert (0 <= (q - mu) / 2 * (t * (1 - t)) * ((a - b) * (a - b))).
  { apply Rmult_le_pos; [apply Rmult_le_pos; [lra|apply Rmult_le_pos; lra]|apply Rle_0_sqr]. }
  nra.
Qed.
Lemma qf_smooth l q : 0 <= q <= l -> smooth 1 l (qf q).
Proof.
  intros H. split; [intros x; exact I|]. exists (fun x => vscal q x). split.
  - intros x u. unfold qf; simpl. rewrite dot1. unfold vadd, vscal. set (a := x 0%nat). set (b := u 0%nat).
    intros eps He. assert (P : 0 < 2 * eps / (1 + Rabs (q * (b * b)))).
    { apply Rdiv_lt_0_compat; [lra|]. assert (A := Rabs_pos (q * (b * b))). lra. }
    exists (mkposreal _ P). intros t Ht Hl. simpl in Hl.
    replace ((q * ((a + (0 + t) * b) * (a + (0 + t) * b)) / 2 - q * ((a + 0 * b) * (a + 0 * b)) / 2) / t - q * a * b) with (q * (b * b) / 2 * t) by (field; exact Ht).
    rewrite Rabs_mult. replace (q * (b * b) / 2) with (q * (b * b) * / 2) by reflexivity. rewrite (Rabs_mult _ (/ 2)), (Rabs_right (/ 2)) by lra.
    assert (A := Rabs_pos (q * (b * b))). assert (A0 := Rabs_pos t).
    apply (Rmult_lt_compat_r (1 + Rabs (q * (b * b)))) in Hl; [|lra].
    replace (2 * eps / (1 + Rabs (q * (b * b))) * (1 + Rabs (q * (b * b)))) with (2 * eps) in Hl by (field; lra). nra.
  - intros x y. unfold nsq. rewrite !dot1. unfold vsub, vscal. set (a := x 0%nat). set (b := y 0%nat).
    assert (0 <= (a - b) * (a - b)) by apply Rle_0_sqr. assert (q * q <= l * l) by nra.
    replace ((q * a - q * b) * (q * a - q * b)) with (q * q * ((a - b) * (a - b))) by ring. nra.
Qed.
Lemma qf_query q x : 0 <= q -> in_Rd 1 x -> query 1 (qf q) x (vscal q x) (q * (x 0%nat * x 0%nat) / 2).
Proof.
  intros H Hx. split; [apply in_Rd_scal; exact Hx|]. split; [|reflexivity]. split; [exact I|]. intros y _. unfold qf; simpl. rewrite dot1. unfold vsub, vscal.
  set (a := x 0%nat). set (b := y 0%nat). assert (0 <= q / 2 * ((b - a) * (b - a))) by (apply Rmult_le_pos; [lra|apply Rle_0_sqr]). nra.
Qed.
Lemma qf_class mu L q : inside mu L q -> 0 <= Q2R mu -> function_class 1 mu L (qf q).
Proof.
  intros [A B] C. split; [apply qf_strongly; lra|]. destruct L as [l|]; [|exact I]. apply qf_smooth. lra.
Qed.
Lemma qf_unique q x g z : 0 <= q -> in_Rd 1 x -> query 1 (qf q) x g z -> g = vscal q x /\ z = q * (x 0%nat * x 0%nat) / 2.
Proof. intros H Hx Q. exact (smooth_unique 1 q (qf q) x g z _ _ (qf_smooth q q ltac:(lra)) Q (qf_query q x H Hx)). Qed.
Lemma in_R1_ext x y : in_Rd 1 x -> in_Rd 1 y -> x 0%nat = y 0%nat -> x = y.
Proof. intros A B E. apply functional_extensionality. intros [|k]; [exact E|]. rewrite A, B by lia. reflexivity. Qed.

(** a quadratic strictly inside the class satisfies the constraints strictly at distinct points *)
Lemma qf_strict mu L q xi gi fi xj gj fj : good_class mu L -> inside mu L q -> in_Rd 1 xi -> in_Rd 1 xj -> xi <> xj ->
  query 1 (qf q) xi gi fi -> query 1 (qf q) xj gj fj -> interp_value 1 (class_of mu L) xi gi fi xj gj fj < 0.
Proof.
  intros [G1 G2] [I1 I2] Hi Hj N Qi Qj. apply qf_unique in Qi as [-> ->]; [|lra|exact Hi]. apply qf_unique in Qj as [-> ->]; [|lra|exact Hj].
  assert (N0 : xi 0%nat <> xj 0%nat) by (intros E; apply N; apply in_R1_ext; assumption).
  assert (M : Q2R (if negb (Qeq_bool mu 0) then mu else 0) = Q2R mu).
  { destruct (Qeq_bool mu 0) eqn:E; [|reflexivity]. apply Qeq_bool_eq, Qeq_eqR in E. simpl. symmetry. exact E. }
  set (a := xi 0%nat) in *. set (b := xj 0%nat) in *. assert (P : 0 < (a - b) * (a - b)) by (apply Rsqr_pos_lt; lra).
  destruct L as [l|].
  - assert (E : interp_value 1 (class_of mu (Fin l)) xi (vscal q xi) (q * (a * a) / 2) xj (vscal q xj) (q * (b * b) / 2) =
      interp_value 1 (CSmoothSC (if negb (Qeq_bool mu 0) then mu else 0) l) xi (vscal q xi) (q * (a * a) / 2) xj (vscal q xj) (q * (b * b) / 2)) by (unfold class_of; destruct (negb _); reflexivity).
    rewrite E. clear E. unfold interp_value, nsq. rewrite !dot1. unfold vsub, vscal. fold a b. rewrite M. simpl in G2, I2.
    set (m := Q2R mu) in *. set (k := Q2R l) in *.
    replace (q * (b * b) / 2 - q * (a * a) / 2 + q * b * (a - b) + 1 / (2 * k) * ((q * a - q * b) * (q * a - q * b)) +
      m / (2 * (1 - m / k)) * ((a - b - 1 / k * (q * a - q * b)) * (a - b - 1 / k * (q * a - q * b))))
      with (- ((q - m) * (k - q) / (2 * (k - m)) * ((a - b) * (a - b)))) by (field; lra).
    assert (0 < (q - m) * (k - q) / (2 * (k - m))) by (apply Rdiv_lt_0_compat; nra). nra.
  - assert (E : interp_value 1 (class_of mu Inf) xi (vscal q xi) (q * (a * a) / 2) xj (vscal q xj) (q * (b * b) / 2) =
      q * (b * b) / 2 - q * (a * a) / 2 + q * b * (a - b) + Q2R mu / 2 * ((a - b) * (a - b))).
    { unfold class_of. destruct (Qeq_bool mu 0) eqn:Em; cbn [negb interp_value]; unfold nsq; rewrite !dot1; unfold vsub, vscal; fold a b; [|ring].
      apply Qeq_bool_eq, Qeq_eqR in Em. rewrite Em, Q2R_0'. field. }
    rewrite E. set (m := Q2R mu) in *. replace (q * (b * b) / 2 - q * (a * a) / 2 + q * b * (a - b) + m / 2 * ((a - b) * (a - b))) with (- ((q - m) / 2 * ((a - b) * (a - b)))) by field.
    nra.
Qed.

(** * Recorded points *)
Definition xrecs (v : valuation) (s : state) (f : nat) : list vec :=
  match dget Nat.eqb f (st_funs s) with Some fn => map (fun t => den_p v (t_x t)) (fn_pts fn) | None => [] end.
Fixpoint upd {A} (i : nat) (g : A -> A) (l : list A) : list A :=
  match l, i with [], _ => [] | a :: l', O => g a :: l' | a :: l', S i' => a :: upd i' g l' end.
Lemma map_upd {A B} (g h : A -> B) (u : B -> B) : forall l i f, NoDup l -> nth_error l i = Some f ->
  h f = u (g f) -> (forall x, In x l -> x <> f -> h x = g x) -> map h l = upd i u (map g l).
Proof.
  induction l as [|a l IH]; intros [|i] f N E Hf Ho; try discriminate E.
  - simpl in *. injection E as ->. inversion_clear N as [|? ? N1 N2]. rewrite Hf. f_equal. apply map_ext_in. intros x Hx. apply Ho; [auto|]. intros ->. auto.
  - simpl in *. inversion_clear N as [|? ? N1 N2]. rewrite (Ho a); [|auto|intros ->; apply N1; eapply nth_error_In; eassumption]. f_equal.
    apply (IH i f); auto.
Qed.
Lemma xrecs_agree s v v' f : Inv s -> In f (st_flist s) -> agree s v v' -> xrecs v' s f = xrecs v s f.
Proof.
  intros I Hf Ha. unfold xrecs. destruct (dget Nat.eqb f (st_funs s)) as [fn|] eqn:E; [|reflexivity]. apply map_ext_in. intros t Ht.
  apply (agree_p s); [exact Ha|]. apply (own_all s f fn I Hf E t Ht).
Qed.

Section U.
  Context {SY : sympy} (OK : sympy_ok SY).
  Variable P : list string.

  (** the records after one more evaluation *)
  Lemma xrecs_oracle s f p y e s' : St P s -> isf s f -> okp P s p -> pruned p -> oracle SY f p s = (Ok (y, e), s') ->
    (forall h v, h <> f -> xrecs v s' h = xrecs v s h) /\
    forall v, ~ In (den_p v p) (xrecs v s f) -> xrecs v s' f = xrecs v s f ++ [den_p v p].
  Proof.
    intros HS [Hf (fn & Hg & Hl)] [Op Ap] Hp R. assert (I := proj1 HS). assert (Hd := leaf_dict s f fn I Hf Hg Hl).
    destruct (leaf_oracle SY (methods SY 1) f fn p s I Hg Hl Hd Hp) as (g & e0 & s0 & Hrun & Hout).
    change (oracle SY f p s) with (oracle_body SY (methods SY 1) f p s) in R. rewrite R in Hrun. injection Hrun as -> -> ->.
    destruct Hout as [(-> & Hr & Hev)|(t & (A1 & A2 & fn1 & fn' & A3 & A4 & A5 & A6 & A7 & A8) & Tx & _)].
    - split; [reflexivity|]. intros v N. exfalso. apply N. destruct (evaluated_in _ _ _ Hev) as (t & Ht & Hsame & _).
      unfold xrecs. rewrite Hg. apply in_map_iff. exists t. split; [|exact Ht]. apply same_point_den; [apply (own_all s f fn I Hf Hg t Ht)|apply Op|exact Hsame].
    - split; [intros h v Hh; unfold xrecs; rewrite A2 by exact Hh; reflexivity|]. intros v _. unfold xrecs. rewrite A3, A4, A8, map_app. simpl. rewrite Tx. reflexivity.
  Qed.
  Lemma xrecs_add s f x g e s' : isf s f -> add_triplet SY f x g e s = (Ok tt, s') ->
    (forall h v, h <> f -> xrecs v s' h = xrecs v s h) /\ forall v, xrecs v s' f = xrecs v s f ++ [den_p v x].
  Proof.
    intros [Hf (fn & Hg & Hl)] R.
    destruct (leaf_add SY (methods SY 1) f (mkTrip (st_next s) x g e) (tick s) fn Hg Hl) as (s0 & R0 & (A1 & A2 & fn1 & fn' & A3 & A4 & A5 & A6 & A7 & A8) & _).
    assert (E : add_triplet SY f x g e s = add_body SY (methods SY 1) f (mkTrip (st_next s) x g e) (tick s)) by reflexivity.
    rewrite E, R0 in R. injection R as <-. change (st_funs (tick s)) with (st_funs s) in A2, A3. split.
    - intros h v Hh. unfold xrecs. rewrite A2 by exact Hh. reflexivity.
    - intros v. unfold xrecs. rewrite A3, A4, A8, map_app. simpl. rewrite prune_p_den. reflexivity.
  Qed.
  Lemma xrecs_keepf s s' f v : keepf s s' -> xrecs v s' f = xrecs v s f.
  Proof. intros [K1 K2]. unfold xrecs. rewrite K1. reflexivity. Qed.
  Lemma xrecs_stationary s f x y e s' : St P s -> isf s f -> stationary_point SY f s = (Ok (x, y, e), s') ->
    (forall h v, h <> f -> xrecs v s' h = xrecs v s h) /\ forall v, xrecs v s' f = xrecs v s f ++ [den_p v x].
  Proof.
    intros HS Hf R. destruct (two_new_ok P s HS) as (x0 & y0 & s1 & s2 & R1 & R2 & S2 & E2 & K2 & Ox & Oy & Nx & Ny).
    assert (Hf2 := isf_ext s s2 f E2 Hf).
    destruct (rule_add OK P s2 f (leaf_point x0) zero_point (leaf_expr y0) S2 Hf2 Ox (okp_zero P s2) Oy) as (s3 & R3 & _).
    unfold stationary_point in R. rewrite (bind_ok _ _ _ _ _ R1), (bind_ok _ _ _ _ _ R2), (bind_ok _ _ _ _ _ R3) in R. injection R as <- <- <- <-.
    destruct (xrecs_add s2 f _ _ _ _ Hf2 R3) as [X1 X2]. split.
    - intros h v Hh. rewrite X1 by exact Hh. apply xrecs_keepf. exact K2.
    - intros v. rewrite X2. rewrite (xrecs_keepf s s2 f v K2). reflexivity.
  Qed.
  Lemma xrecs_prox s f p c x y e s' : St P s -> isf s f -> okp P s p -> symok P c -> proximal_step SY p f c s = (Ok (x, y, e), s') ->
    (forall h v, h <> f -> xrecs v s' h = xrecs v s h) /\ forall v, xrecs v s' f = xrecs v s f ++ [den_p v x].
  Proof.
    intros HS Hf Op Hc R. destruct (two_new_ok P s HS) as (x0 & y0 & s1 & s2 & R1 & R2 & S2 & E2 & K2 & Ox & Oy & Nx & Ny).
    assert (Hf2 := isf_ext s s2 f E2 Hf). assert (Op2 := okp_ext P s s2 p E2 Op).
    set (q := psub SY p (pscale SY c (leaf_point x0))).
    assert (Oq : okp P s2 q).
    { split; [apply own_psub; [apply Op2|apply own_pscale; apply Ox]|].
      apply (psub_all OK); [apply Op2|apply (pscale_all OK); [exact Hc|apply Ox]]. }
    destruct (rule_add OK P s2 f q (leaf_point x0) (leaf_expr y0) S2 Hf2 Oq Ox Oy) as (s3 & R3 & _).
    unfold proximal_step in R. rewrite (bind_ok _ _ _ _ _ R1), (bind_ok _ _ _ _ _ R2) in R. fold q in R. rewrite (bind_ok _ _ _ _ _ R3) in R. injection R as <- <- <- <-.
    destruct (xrecs_add s2 f _ _ _ _ Hf2 R3) as [X1 X2]. split.
    - intros h v Hh. rewrite X1 by exact Hh. apply xrecs_keepf. exact K2.
    - intros v. rewrite X2, (xrecs_keepf s s2 f v K2), prune_p_den. reflexivity.
  Qed.

  (** every leaf function is a quadratic strictly inside its class *)
  Definition curved (phi : nat -> rfun) (s : state) : Prop :=
    forall f fn, In f (st_flist s) -> dget Nat.eqb f (st_funs s) = Some fn -> fn_leaf fn = true ->
      exists mu L q, good_class mu L /\ fn_class fn = class_of mu L /\ inside mu L q /\ phi f = qf q.
  Definition covers (s : state) (c : ctx) : Prop :=
    forall f fn, In f (st_flist s) -> dget Nat.eqb f (st_funs s) = Some fn -> fn_leaf fn = true -> In f (cf c).
  Definition spread (v : valuation) (s : state) : Prop :=
    forall f fn, In f (st_flist s) -> dget Nat.eqb f (st_funs s) = Some fn -> fn_leaf fn = true -> NoDup (xrecs v s f).

  (** which functions return the recorded gradient when asked again *)
  Definition reuses (s : state) (f : nat) : bool := match dget Nat.eqb f (st_funs s) with Some fn => fn_reuse fn | None => false end.
  Definition bits (s : state) (c : ctx) : list bool := map (reuses s) (cf c).
  Lemma bits_ext s s' c : okc P s c -> ext s s' -> bits s' c = bits s c.
  Proof.
    intros (A & _) (_ & _ & _ & _ & E). rewrite Forall_forall in A. apply map_ext_in. intros f Hf. destruct (A f Hf) as [_ (fn & Hg & _)].
    unfold reuses. rewrite Hg. destruct (E f fn Hg) as (fn' & -> & X). destruct X as (_ & X2 & _). congruence.
  Qed.
  (** all constraints of the problem are identically satisfied *)
  Definition nullpb (p : problem) : Prop := forall c, In c (pr_cons p) -> forall v, den_e v (c_expr c) = 0.

  Definition U (bs : list bool) (k : M problem) (s : state) (c : ctx) (A : env -> senv -> list (list vec) -> Prop) : Prop :=
    St P s -> okc P s c -> covers s c -> bits s c = bs ->
    exists p sf, k s = (Ok p, sf) /\ Inv sf /\ nullpb p /\
      forall r v phi en, space 1 r v -> consistent v phi s -> curved phi s -> vals v phi c en -> A r en (map (xrecs v s) (cf c)) ->
        exists v' phi', space 1 r v' /\ consistent v' phi' sf /\ curved phi' sf /\ spread v' sf.

  Lemma U_ret bs e s pb c : nullpb pb -> U bs (ret (set_performance_metric pb e)) s c (fun _ _ rho => Forall (@NoDup vec) rho).
  Proof.
    intros Hp HS Hc Hv Hb. exists (set_performance_metric pb e), s. split; [reflexivity|]. split; [apply HS|]. split; [exact Hp|].
    intros r v phi en Sv Cs Cu Vs HA. exists v, phi. split; [exact Sv|]. split; [exact Cs|]. split; [exact Cu|]. intros f fn Hf Hg Hl.
    rewrite Forall_forall in HA. apply HA. apply in_map. exact (Hv f fn Hf Hg Hl).
  Qed.

  (** the classes and the set of leaf functions stay *)
  Lemma stay s s' c phi : Inv s -> ext s s' -> st_flist s' = st_flist s -> (covers s c -> covers s' c) /\ (curved phi s -> curved phi s').
  Proof.
    intros I E F. destruct E as (_ & _ & _ & _ & E). rewrite <- (rev_involutive (st_flist s)) in F. rewrite rev_involutive in F.
    assert (K : forall f fn', In f (st_flist s') -> dget Nat.eqb f (st_funs s') = Some fn' -> exists fn, In f (st_flist s) /\ dget Nat.eqb f (st_funs s) = Some fn /\ fn_leaf fn' = fn_leaf fn /\ fn_class fn' = fn_class fn).
    { intros f fn' Hf Hg. rewrite F in Hf. destruct (inv_funs s I f Hf) as (fn & G & _). exists fn. split; [exact Hf|]. split; [exact G|].
      destruct (E f fn G) as (fn2 & G2 & X). rewrite Hg in G2. injection G2 as <-. destruct X as (X1 & X2 & X3 & _). split; congruence. }
    split; intros H f fn' Hf Hg Hl; destruct (K f fn' Hf Hg) as (fn & Hf0 & Hg0 & L0 & C0); rewrite L0 in Hl.
    - exact (H f fn Hf0 Hg0 Hl).
    - rewrite C0. exact (H f fn Hf0 Hg0 Hl).
  Qed.
  Lemma xrecs_upd s s' v v' c i f X : Inv s -> okc P s c -> agree s v v' -> nth_error (cf c) i = Some f ->
    (forall h, h <> f -> xrecs v' s' h = xrecs v' s h) -> xrecs v' s' f = xrecs v' s f ++ [X] ->
    map (xrecs v' s') (cf c) = upd i (fun l => l ++ [X]) (map (xrecs v s) (cf c)).
  Proof.
    intros I (A & N & _) Ha Hi H1 H2. rewrite Forall_forall in A. apply (map_upd _ _ _ (cf c) i f N Hi).
    - rewrite H2. rewrite (xrecs_agree s v v' f I); [reflexivity|apply A; eapply nth_error_In; eassumption|exact Ha].
    - intros x Hx Nx. rewrite H1 by exact Nx. apply xrecs_agree; [exact I|apply A; exact Hx|exact Ha].
  Qed.
  Lemma xrecs_nth v s c i f : nth_error (cf c) i = Some f -> nth i (map (xrecs v s) (cf c)) [] = xrecs v s f.
  Proof. intros H. apply nth_error_nth. rewrite nth_error_map, H. reflexivity. Qed.

  Lemma U_def bs mu L (k : nat -> M problem) s c A' : good_class mu L ->
    (forall f s', U (bs ++ [reuse_of L]) (k f) s' (addf f c) A') ->
    U bs (bind (def_function mu L) k) s c (fun r en rho => exists q, inside mu L q /\ A' r (pushf (qf q) en) (rho ++ [[]])).
  Proof.
    intros HC H HS Hc Hv Hb. destruct (rule_def P s mu L HS HC) as (f & s' & R & S' & E & F & Oth & Hf & Nf & B & W).
    assert (Hfn : exists fn, dget Nat.eqb f (st_funs s') = Some fn /\ fn_class fn = class_of mu L /\ fn_reuse fn = reuse_of L /\ fn_pts fn = []).
    { rewrite def_function_run in R.
      assert (f = st_next s) as -> by (unfold new_leaf_fun in R; simpl in R; congruence).
      exists (mkFunc true (reuse_of L) (class_of mu L) [(st_next s, Num 1)] (Some (st_fctr s)) [] [] []). split; [|split; [|split]; reflexivity].
      assert (R' := f_equal snd R). simpl in R'. rewrite <- R'. simpl. rewrite dget_app, (dget_fresh s (proj1 HS)), Nat.eqb_refl. reflexivity. }
    destruct Hfn as (fn & Hg & Hcl & Hre & Hpt).
    destruct (H f s') as (p & sf & K1 & K2 & K3 & K4).
    { exact S'. }
    { apply okc_addf; [eapply okc_ext; eauto|exact Hf|]. intros Hin. apply Nf. destruct Hc as (A & _). rewrite Forall_forall in A. apply (A f Hin). }
    { intros h fh Hh Hgh Hlh. simpl. apply in_or_app. destruct (Nat.eq_dec h f) as [->|N]; [right; simpl; auto|left].
      rewrite F in Hh. apply in_app_or in Hh as [Hh|[Hh|[]]]; [|congruence]. rewrite Oth in Hgh by exact N. exact (Hv h fh Hh Hgh Hlh). }
    { unfold bits. simpl. rewrite map_app. fold (bits s' c). rewrite (bits_ext s s' c Hc E), Hb. simpl. unfold reuses. rewrite Hg, Hre. reflexivity. }
    exists p, sf. split; [rewrite (bind_ok _ _ _ _ _ R); exact K1|]. split; [exact K2|]. split; [exact K3|].
    intros r v phi en Sv Cs Cu Vs (q & Iq & HA).
    apply (K4 r v (fun h => if Nat.eqb h f then qf q else phi h) (pushf (qf q) en) Sv).
    - apply W; [exact Cs|]. rewrite (proj1 Sv). apply qf_class; [exact Iq|apply HC].
    - intros h fh Hh Hgh Hlh. destruct (Nat.eqb h f) eqn:Eh.
      + apply Nat.eqb_eq in Eh. subst h. rewrite Hg in Hgh. injection Hgh as <-. exists mu, L, q. auto.
      + apply Nat.eqb_neq in Eh. rewrite F in Hh. apply in_app_or in Hh as [Hh|[Hh|[]]]; [|congruence]. rewrite Oth in Hgh by exact Eh. exact (Cu h fh Hh Hgh Hlh).
    - apply vals_addf; [|rewrite Nat.eqb_refl; reflexivity]. destruct Vs as (V1 & V2). split; [|exact V2]. rewrite <- V1.
      apply map_ext_in. intros h Hh. destruct (Nat.eqb h f) eqn:Eh; [|reflexivity]. apply Nat.eqb_eq in Eh. subst h. exfalso. apply Nf. destruct Hc as (A & _). rewrite Forall_forall in A. apply (A f Hh).
    - simpl. rewrite map_app. simpl.
      replace (map (xrecs v s') (cf c)) with (map (xrecs v s) (cf c)).
      + unfold xrecs at 2. rewrite Hg, Hpt. exact HA.
      + apply map_ext_in. intros h Hh. unfold xrecs. rewrite Oth; [reflexivity|]. intros ->. apply Nf. destruct Hc as (A & _). rewrite Forall_forall in A. apply (A f Hh).
  Qed.

  Lemma U_point bs (k : point -> M problem) s c A' :
    (forall x s', pruned x -> U bs (k x) s' (addx x c) A') ->
    U bs (bind set_initial_point k) s c (fun r en rho => exists x, in_Rd 1 x /\ A' r (pushx x en) rho).
  Proof.
    intros H HS Hc Hv Hb. destruct (rule_point P s HS) as (x & s' & R & S' & E & Ox & K & Nx).
    assert (F : st_flist s' = st_flist s) by apply K.
    destruct (H (leaf_point x) s' (leaf_point_pruned x)) as (p & sf & K1 & K2 & K3 & K4).
    { exact S'. } { apply okc_addx; [eapply okc_ext; eauto|exact Ox]. } { apply (stay s s' _ (fun _ => rfun0) (proj1 HS) E F). exact Hv. } { exact (eq_trans (bits_ext s s' c Hc E) Hb). }
    exists p, sf. split; [rewrite (bind_ok _ _ _ _ _ R); exact K1|]. split; [exact K2|]. split; [exact K3|].
    intros r v phi en Sv Cs Cu Vs (X & HX & HA). set (v' := set_pt v x X). assert (Ha := set_pt_agree s v x X Nx). fold v' in Ha.
    apply (K4 r v' phi (pushx X en)).
    - apply set_pt_space; assumption.
    - apply (consistent_keepf s s' v' phi K). eapply consistent_agree; eauto. apply HS.
    - apply (stay s s' c phi (proj1 HS) E F). exact Cu.
    - apply vals_addx; [eapply vals_agree; eauto|apply set_pt_get].
    - replace (map (xrecs v' s') (cf (addx (leaf_point x) c))) with (map (xrecs v s) (cf c)); [exact HA|]. simpl. apply map_ext_in. intros h Hh.
      rewrite (xrecs_keepf s s' h v' K). symmetry. apply xrecs_agree; [apply HS| |exact Ha]. destruct Hc as (A & _). rewrite Forall_forall in A. apply (A h Hh).
  Qed.

  Lemma U_oracle bs i f p X (k : point * expr -> M problem) s c A' :
    nth_error (cf c) i = Some f -> derp P c p X -> pruned p ->
    (forall y e s', U bs (k (y, e)) s' (adde e (addx y c)) A') ->
    U bs (bind (oracle SY f p) k) s c (fun r en rho => exists g z, query 1 (nth i (vf en) rfun0) (X r en) g z /\ ~ In (X r en) (nth i rho []) /\
                                                    A' r (pushe z (pushx g en)) (upd i (fun l => l ++ [X r en]) rho)).
  Proof.
    intros Hi HX Hp H HS Hc Hv Hb.
    assert (Hf : isf s f). { destruct Hc as (A & _). rewrite Forall_forall in A. apply A. eapply nth_error_In; eauto. }
    destruct (HX s Hc) as [Op Dp].
    destruct (rule_oracle OK P s f p HS Hf Op Hp) as (g & e & s' & R & S' & E & F & _ & Og & Oe & B & W).
    destruct (xrecs_oracle s f p g e s' HS Hf Op Hp R) as [Y1 Y2].
    destruct (H g e s') as (p0 & sf & K1 & K2 & K3 & K4).
    { exact S'. } { apply okc_adde; [apply okc_addx; [eapply okc_ext; eauto|exact Og]|exact Oe]. } { apply (stay s s' _ (fun _ => rfun0) (proj1 HS) E F). exact Hv. } { exact (eq_trans (bits_ext s s' c Hc E) Hb). }
    exists p0, sf. split; [rewrite (bind_ok _ _ _ _ _ R); exact K1|]. split; [exact K2|]. split; [exact K3|].
    intros r v phi en Sv Cs Cu Vs (G & Z & HQ & HN & HA).
    rewrite (vals_f v phi c en i f Vs Hi) in HQ. rewrite (xrecs_nth v s c i f Hi) in HN.
    assert (EX : X r en = den_p v p) by (rewrite (Dp v phi en Vs), (proj1 (proj2 Sv)); reflexivity). rewrite EX in *.
    destruct (W 1%nat r v phi G Z Sv Cs HQ) as (v' & Sv' & Ha & Cs' & HG & HZ).
    apply (K4 r v' phi (pushe Z (pushx G en)) Sv' Cs').
    - apply (stay s s' c phi (proj1 HS) E F). exact Cu.
    - apply vals_adde; [apply vals_addx; [eapply vals_agree; eauto|exact HG]|exact HZ].
    - simpl cf. rewrite (xrecs_upd s s' v v' c i f (den_p v p) (proj1 HS) Hc Ha Hi); [exact HA|intros h Hh; apply Y1; exact Hh|].
      rewrite <- (agree_p s v v' p Ha (proj1 Op)). apply Y2. rewrite (agree_p s v v' p Ha (proj1 Op)), (xrecs_agree s v v' f (proj1 HS) (proj1 Hf) Ha). exact HN.
  Qed.

  Lemma U_stat bs i f (k : point * point * expr -> M problem) s c A' :
    nth_error (cf c) i = Some f ->
    (forall x e s', pruned x -> U bs (k (x, zero_point, e)) s' (adde e (addx x c)) A') ->
    U bs (bind (stationary_point SY f) k) s c (fun r en rho => exists x z, in_Rd 1 x /\ query 1 (nth i (vf en) rfun0) x vzero z /\
                                                    A' r (pushe z (pushx x en)) (upd i (fun l => l ++ [x]) rho)).
  Proof.
    intros Hi H HS Hc Hv Hb.
    assert (Hf : isf s f). { destruct Hc as (A & _). rewrite Forall_forall in A. apply A. eapply nth_error_In; eauto. }
    destruct (rule_stationary OK P s f HS Hf) as (x & e & s' & R & S' & E & F & Og & Oe & _ & B & W).
    destruct (xrecs_stationary s f _ _ e s' HS Hf R) as [Y1 Y2].
    destruct (H (leaf_point x) e s' (leaf_point_pruned x)) as (p0 & sf & K1 & K2 & K3 & K4).
    { exact S'. } { apply okc_adde; [apply okc_addx; [eapply okc_ext; eauto|exact Og]|exact Oe]. } { apply (stay s s' _ (fun _ => rfun0) (proj1 HS) E F). exact Hv. } { exact (eq_trans (bits_ext s s' c Hc E) Hb). }
    exists p0, sf. split; [rewrite (bind_ok _ _ _ _ _ R); exact K1|]. split; [exact K2|]. split; [exact K3|].
    intros r v phi en Sv Cs Cu Vs (X & Z & HX & HQ & HA).
    rewrite (vals_f v phi c en i f Vs Hi) in HQ.
    destruct (W 1%nat r v phi X Z Sv Cs HX HQ) as (v' & Sv' & Ha & Cs' & HG & HZ).
    apply (K4 r v' phi (pushe Z (pushx X en)) Sv' Cs').
    - apply (stay s s' c phi (proj1 HS) E F). exact Cu.
    - apply vals_adde; [apply vals_addx; [eapply vals_agree; eauto|exact HG]|exact HZ].
    - simpl cf. rewrite (xrecs_upd s s' v v' c i f X (proj1 HS) Hc Ha Hi); [exact HA|intros h Hh; apply Y1; exact Hh|].
      rewrite Y2, HG. reflexivity.
  Qed.

  Lemma U_prox bs i f p a X (k : point * point * expr -> M problem) s c A' :
    nth_error (cf c) i = Some f -> derp P c p X -> symok P a ->
    (forall x g e s', pruned x -> U bs (k (x, g, e)) s' (adde e (addx g (addx x c))) A') ->
    U bs (bind (proximal_step SY p f a) k) s c (fun r en rho =>
      exists x g z, proxed 1 (nth i (vf en) rfun0) (ev r a) (X r en) x g z /\
        A' r (pushe z (pushx g (pushx x en))) (upd i (fun l => l ++ [x]) rho)).
  Proof.
    intros Hi HX Ha0 H HS Hc Hv Hb.
    assert (Hf : isf s f). { destruct Hc as (A & _). rewrite Forall_forall in A. apply A. eapply nth_error_In; eauto. }
    destruct (HX s Hc) as [Op Dp].
    destruct (rule_prox OK P s f p a HS Hf Op Ha0) as (x & g & e & s' & R & S' & E & F & Ox & Og & Oe & Px & B & W).
    destruct (xrecs_prox s f p a _ _ e s' HS Hf Op Ha0 R) as [Y1 Y2].
    destruct (H x g e s' Px) as (p0 & sf & K1 & K2 & K3 & K4).
    { exact S'. } { apply okc_adde; [apply okc_addx; [apply okc_addx; [eapply okc_ext; eauto|exact Ox]|exact Og]|exact Oe]. } { apply (stay s s' _ (fun _ => rfun0) (proj1 HS) E F). exact Hv. } { exact (eq_trans (bits_ext s s' c Hc E) Hb). }
    exists p0, sf. split; [rewrite (bind_ok _ _ _ _ _ R); exact K1|]. split; [exact K2|]. split; [exact K3|].
    intros r v phi en Sv Cs Cu Vs (Y & G & Z & HQ & HA).
    rewrite (vals_f v phi c en i f Vs Hi) in HQ. rewrite <- (proj1 (proj2 Sv)) in HQ at 2. rewrite <- (Dp v phi en Vs) in HQ.
    destruct (W 1%nat r v phi Y G Z Sv Cs HQ) as (v' & Sv' & Ha & Cs' & HY & HG & HZ).
    apply (K4 r v' phi (pushe Z (pushx G (pushx Y en))) Sv' Cs').
    - apply (stay s s' c phi (proj1 HS) E F). exact Cu.
    - apply vals_adde; [apply vals_addx; [apply vals_addx; [eapply vals_agree; eauto|exact HY]|exact HG]|exact HZ].
    - simpl cf. rewrite (xrecs_upd s s' v v' c i f Y (proj1 HS) Hc Ha Hi); [exact HA|intros h Hh; apply Y1; exact Hh|].
      rewrite Y2, HY. reflexivity.
  Qed.

  Lemma U_let bs (k : point -> M problem) e X s c A' : derp P c e X ->
    (forall x, x = e -> U bs (k x) s (addx x c) A') ->
    U bs (k e) s c (fun r en rho => A' r (pushx (X r en) en) rho).
  Proof.
    intros HX H HS Hc Hv Hb. destruct (HX s Hc) as [Op Dp]. destruct (H e eq_refl HS) as (p0 & sf & K1 & K2 & K3 & K4).
    { apply okc_addx; assumption. } { exact Hv. } { exact Hb. }
    exists p0, sf. split; [exact K1|]. split; [exact K2|]. split; [exact K3|].
    intros r v phi en Sv Cs Cu Vs HA. apply (K4 r v phi (pushx (X r en) en) Sv Cs Cu); [|exact HA].
    apply vals_addx; [exact Vs|]. rewrite (Dp v phi en Vs), (proj1 (proj2 Sv)). reflexivity.
  Qed.
  Lemma U_lete bs (k : expr -> M problem) e X s c A' : dere P c e X ->
    (forall x, U bs (k x) s (adde x c) A') ->
    U bs (k e) s c (fun r en rho => A' r (pushe (X 1%nat r en) en) rho).
  Proof.
    intros HX H HS Hc Hv Hb. destruct (HX s Hc) as [Op Dp]. destruct (H e HS) as (p0 & sf & K1 & K2 & K3 & K4).
    { apply okc_adde; assumption. } { exact Hv. } { exact Hb. }
    exists p0, sf. split; [exact K1|]. split; [exact K2|]. split; [exact K3|].
    intros r v phi en Sv Cs Cu Vs HA. apply (K4 r v phi (pushe (X 1%nat r en) en) Sv Cs Cu); [|exact HA].
    apply vals_adde; [exact Vs|]. rewrite (Dp v phi en Vs), (proj1 (proj2 Sv)), (proj1 Sv). reflexivity.
  Qed.

  (** from the judgement to strict feasibility *)
  Lemma U_start params names (k : problem -> M problem) s0 A : has_keys params names -> Inv s0 ->
    U [] (k pb0) (reset_state s0) ctx0 A -> forall p s r, bind (start params names) k s0 = (Ok p, s) -> A r senv0 [] ->
    exists v, v_env v = r /\ strictly_feasible v p s.
  Proof.
    intros HK I HU p s r E HA. unfold bind in E. rewrite start_ok in E by exact HK.
    assert (I' : Inv (reset_state s0)) by (apply reset_inv; apply inv_fid; exact I).
    destruct (HU) as (p1 & sf & K1 & K2 & K3 & K4).
    { split; [exact I'|]. intros f fn []. } { repeat split; constructor. } { intros f fn []. } { reflexivity. }
    rewrite K1 in E. injection E as -> ->.
    destruct (K4 r (mkVal 1 (fun _ => vzero) (fun _ => 0) r) (fun _ => rfun0) senv0) as (v & phi & (Sv1 & Sv2 & Sv3) & Cs & Cu & Sp).
    { split; [reflexivity|]. split; [reflexivity|]. intros l. apply in_Rd_zero. } { intros f fn []. } { intros f fn []. } { repeat split. } { exact HA. }
    exists v. split; [exact Sv2|]. split; [intros c0 Hc0; right; intros v' _; exact (K3 c0 Hc0 v')|]. intros f fn Hf Hg Hl.
    destruct (Cs f fn Hf Hg Hl) as (C1 & C2 & C3). split; [exact C1|]. intros i j Hi Hj Hij. cbv zeta.
    destruct (Cu f fn Hf Hg Hl) as (mu & L & q & Gc & Ecl & Iq & Eq). rewrite Sv1, Ecl. rewrite Forall_forall in C3.
    assert (Ti := nth_In (fn_pts fn) dummy_trip Hi). assert (Tj := nth_In (fn_pts fn) dummy_trip Hj).
    assert (Sp0 : space 1 r v) by (split; [exact Sv1|split; [exact Sv2|exact Sv3]]).
    assert (Qk : forall t, In t (fn_pts fn) -> query 1 (qf q) (den_p v (t_x t)) (den_p v (t_g t)) (den_e v (t_f t))).
    { intros t Ht. specialize (C3 t Ht). unfold rec_sampled in C3. rewrite Eq, Sv1 in C3. split; [eapply space_p; eassumption|exact C3]. }
    apply (qf_strict mu L q); auto; try (eapply space_p; eassumption).
    intros Ex. apply Hij. specialize (Sp f fn Hf Hg Hl). unfold xrecs in Sp. rewrite Hg in Sp.
    apply (proj1 (NoDup_nth _ (den_p v (t_x dummy_trip))) Sp); rewrite ?map_length; try assumption.
    rewrite !(map_nth (fun t => den_p v (t_x t))). exact Ex.
  Qed.
End U.
