(** Strong duality for the worst-case problems: if the metric is non-positive
    on all data that satisfies the matrix inequalities, and one datum satisfies
    them strictly, then multipliers proving it exist. *)
From Coq Require Import List Arith Bool String QArith Reals Qreals Lra Lia.
From Verif Require Import Prelude PreludeFacts Sympy SympyFacts AlgebraModel Denote AlgebraFacts FunctionModel CircuitModel SymSpec
  GramFacts SymFacts Spec ClassSpec CertSpec StateSpec SessionModel StateFacts CertFacts SymbolFacts ParsingModel
  ParsingSpec SolverModel SolverSpec MatFacts IpoptFacts IpoptTail IpoptProof IpoptComplete ClassProps InterpProps SolverProps QcqpProof BuilderSpec DualitySpec.
Import ListNotations.
Local Open Scope R_scope.

(** * multipliers for linear inequalities on a convex cone *)
Section Cone.
  Context {X : Type} (add : X -> X -> X) (sc : R -> X -> X).
  Definition linear (f : X -> R) : Prop := (forall x y, f (add x y) = f x + f y) /\ (forall c x, f (sc c x) = c * f x).
  Definition cone (K : X -> Prop) : Prop := (forall x y, K x -> K y -> K (add x y)) /\ (forall c x, 0 <= c -> K x -> K (sc c x)).

  Lemma multiplier K l phi x0 : cone K -> linear l -> linear phi -> K x0 -> l x0 < 0 ->
    (forall x, K x -> l x <= 0 -> phi x <= 0) -> exists lam, 0 <= lam /\ forall x, K x -> phi x <= lam * l x.
  Proof.
    intros [Ka Ks] [La Ls] [Pa Ps] K0 L0 H.
    assert (UB : forall x y, K x -> 0 < l x -> K y -> l y < 0 -> phi x / l x <= phi y / l y).
    { intros x y Kx Lx Ky Ly.
      assert (A : phi (add (sc (- l y) x) (sc (l x) y)) <= 0).
      { apply H; [apply Ka; apply Ks; lra||assumption|]. rewrite La, !Ls. lra. }
      rewrite Pa, !Ps in A. apply (Rmult_le_reg_r (l x * - l y)); [nra|].
      replace (phi x / l x * (l x * - l y)) with (phi x * - l y) by (field; lra).
      replace (phi y / l y * (l x * - l y)) with (- (phi y * l x)) by (field; lra). lra. }
    assert (NN : forall y, K y -> l y < 0 -> 0 <= phi y / l y).
    { intros y Ky Ly. assert (phi y <= 0) by (apply H; [exact Ky|lra]). unfold Rdiv.
      replace (phi y * / l y) with ((- phi y) * / (- l y)) by (field; lra).
      apply Rmult_le_pos; [lra|]. apply Rlt_le, Rinv_0_lt_compat. lra. }
    set (E := fun t => t = 0 \/ exists x, K x /\ 0 < l x /\ t = phi x / l x).
    assert (EU : forall y, K y -> l y < 0 -> is_upper_bound E (phi y / l y)).
    { intros y Ky Ly t [->|(x & Kx & Lx & ->)]; [apply NN; assumption|apply UB; assumption]. }
    destruct (completeness E) as [lam [U1 U2]].
    - exists (phi x0 / l x0). apply EU; assumption.
    - exists 0. left. reflexivity.
    - exists lam. split; [apply U1; left; reflexivity|]. intros x Kx.
      destruct (Rtotal_order (l x) 0) as [Lx|[Lx|Lx]].
      + assert (A := U2 _ (EU x Kx Lx)). replace (phi x) with (phi x / l x * l x) by (field; lra). nra.
      + rewrite Lx, Rmult_0_r. apply H; [exact Kx|lra].
      + assert (A : phi x / l x <= lam) by (apply U1; right; exists x; auto).
        replace (phi x) with (phi x / l x * l x) by (field; lra). apply Rmult_le_compat_r; lra.
  Qed.

  Context {A : Type} (name : A -> string) (l : A -> X -> R).
  Lemma multipliers (W : list A) : NoDup (map name W) -> (forall a, In a W -> linear (l a)) ->
    forall K phi x0, cone K -> linear phi -> K x0 -> (forall a, In a W -> l a x0 < 0 \/ forall x, K x -> l a x = 0) ->
    (forall x, K x -> (forall a, In a W -> l a x <= 0) -> phi x <= 0) ->
    exists mu : string -> R, (forall a, In a W -> 0 <= mu (name a)) /\
      forall x, K x -> phi x <= lsum (fun a => mu (name a) * l a x) W.
  Proof.
    induction W as [|a W IH]; intros ND HL K phi x0 HK Hphi K0 S0 H.
    - exists (fun _ => 0). split; [intros a []|]. intros x Kx. simpl. apply H; [exact Kx|intros a []].
    - inversion ND as [|? ? Na ND']; subst. assert (La := HL a (or_introl eq_refl)).
      destruct (IH ND' (fun b Hb => HL b (or_intror Hb)) (fun x => K x /\ l a x <= 0) phi x0) as (mu & M1 & M2).
      + destruct HK as [Ka Ks], La as [La Ls]. split.
        * intros x y [Kx Lx] [Ky Ly]. split; [apply Ka; assumption|]. rewrite La. lra.
        * intros c x Hc [Kx Lx]. split; [apply Ks; assumption|]. rewrite Ls. nra.
      + exact Hphi.
      + split; [exact K0|]. destruct (S0 a (or_introl eq_refl)) as [S|S]; [lra|rewrite (S x0 K0); lra].
      + intros b Hb. destruct (S0 b (or_intror Hb)) as [S|S]; [left; exact S|right; intros x [Kx _]; exact (S x Kx)].
      + intros x [Kx Lx] Hx. apply H; [exact Kx|]. intros b [<-|Hb]; [exact Lx|apply Hx, Hb].
      + assert (Ne : forall b, In b W -> String.eqb (name b) (name a) = false).
        { intros b Hb. apply String.eqb_neq. intros E. apply Na. rewrite <- E. apply in_map, Hb. }
        destruct (S0 a (or_introl eq_refl)) as [Sa|Sa].
        2: { exists (fun n => if String.eqb n (name a) then 0 else mu n). split.
          - intros b [<-|Hb]; [rewrite String.eqb_refl; lra|rewrite (Ne b Hb); apply M1, Hb].
          - intros x Kx. rewrite lsum_cons, String.eqb_refl. assert (Lx := Sa x Kx). assert (Lx' : l a x <= 0) by lra.
            rewrite (lsum_ext _ (fun b => mu (name b) * l b x)) by (intros b Hb; rewrite (Ne b Hb); reflexivity).
            specialize (M2 x (conj Kx Lx')). lra. }
        destruct (multiplier K (l a) (fun x => phi x - lsum (fun b => mu (name b) * l b x) W) x0) as (lam & P1 & P2).
        * exact HK.
        * exact La.
        * assert (HL' : forall b, In b W -> linear (l b)) by (intros b Hb; apply HL; right; exact Hb).
          destruct Hphi as [Pa Ps]. split.
          -- intros x y. rewrite Pa. assert (lsum (fun b => mu (name b) * l b (add x y)) W = lsum (fun b => mu (name b) * l b x) W + lsum (fun b => mu (name b) * l b y) W); [|lra].
             clear -HL'. induction W as [|b W IHW]; [simpl; lra|]. rewrite !lsum_cons, IHW by (intros; apply HL'; right; assumption). rewrite (proj1 (HL' b (or_introl eq_refl))). lra.
          -- intros c x. rewrite Ps. assert (lsum (fun b => mu (name b) * l b (sc c x)) W = c * lsum (fun b => mu (name b) * l b x) W); [|lra].
             clear -HL'. induction W as [|b W IHW]; [simpl; lra|]. rewrite !lsum_cons, IHW by (intros; apply HL'; right; assumption). rewrite (proj2 (HL' b (or_introl eq_refl))). lra.
        * exact K0.
        * exact Sa.
        * intros x Kx Lx. specialize (M2 x (conj Kx Lx)). lra.
        * exists (fun n => if String.eqb n (name a) then lam else mu n).
          split.
          -- intros b [<-|Hb]; [rewrite String.eqb_refl; exact P1|rewrite (Ne b Hb); apply M1, Hb].
          -- intros x Kx. rewrite lsum_cons, String.eqb_refl. specialize (P2 x Kx).
             rewrite (lsum_ext _ (fun b => mu (name b) * l b x)) by (intros b Hb; rewrite (Ne b Hb); reflexivity). lra.
  Qed.
End Cone.

(** * the space of Gram data *)
Definition fgx : Type := (nat -> R) * (nat -> nat -> R).
Definition fgx_add (x y : fgx) : fgx := (fun k => fst x k + fst y k, fun a b => snd x a b + snd y a b).
Definition fgx_sc (c : R) (x : fgx) : fgx := (fun k => c * fst x k, fun a b => c * snd x a b).

Lemma fg_val_linear r dimG dimF w : linear fgx_add fgx_sc (fun x => fg_val r dimG dimF w (fst x) (snd x)).
Proof.
  split.
  - intros x y. unfold fg_val, fgx_add. cbn [fst snd].
    rewrite (rsum_ext dimF _ (fun k => ev r (wF w k) * fst x k + ev r (wF w k) * fst y k)) by (intros; ring). rewrite rsum_plus.
    rewrite (rsum_ext dimG _ (fun a => rsum dimG (fun b => ev r (wG w a b) * snd x a b) + rsum dimG (fun b => ev r (wG w a b) * snd y a b))).
    + rewrite rsum_plus. ring.
    + intros a _. rewrite <- rsum_plus. apply rsum_ext. intros; ring.
  - intros c x. unfold fg_val, fgx_sc. cbn [fst snd]. rewrite Rmult_plus_distr_l, <- !rsum_scal. f_equal.
    + apply rsum_ext; intros; ring.
    + apply rsum_ext. intros a _. rewrite <- rsum_scal. apply rsum_ext; intros; ring.
Qed.

Lemma psd_cone n : cone fgx_add fgx_sc (fun x => psd n (snd x)).
Proof.
  split.
  - intros x y [Sx Hx] [Sy Hy]. split; cbn [fgx_add snd].
    + intros i j Hi Hj. rewrite (Sx i j Hi Hj), (Sy i j Hi Hj). reflexivity.
    + intros z. specialize (Hx z). specialize (Hy z).
      rewrite (rsum_ext n _ (fun i => rsum n (fun j => z i * z j * snd x i j) + rsum n (fun j => z i * z j * snd y i j))).
      * rewrite rsum_plus. lra.
      * intros i _. rewrite <- rsum_plus. apply rsum_ext; intros; ring.
  - intros c x Hc [Sx Hx]. split; cbn [fgx_sc snd].
    + intros i j Hi Hj. rewrite (Sx i j Hi Hj). reflexivity.
    + intros z. specialize (Hx z). rewrite (rsum_ext n _ (fun i => c * rsum n (fun j => z i * z j * snd x i j))).
      * rewrite rsum_scal. nra.
      * intros i _. rewrite <- rsum_scal. apply rsum_ext; intros; ring.
Qed.

(** * data with a prescribed Gram matrix *)
Definition realise (r : env) (d : nat) (Fv : nat -> R) (L : nat -> nat -> R) : valuation :=
  mkVal d (fun lf k => if Nat.ltb k d then L (lctr lf) k else 0) (fun lf => Fv (lctr lf)) r.

Lemma ctr_nth (l : list leaf) n i d : map lctr l = seq 0 n -> (i < n)%nat -> lctr (nth i l d) = i.
Proof.
  intros H Hi. assert (Hl : List.length l = n) by (rewrite <- (map_length lctr), H, seq_length; easy).
  rewrite (nth_indep l d (nth 0 l d)) by lia.
  rewrite <- (map_nth lctr), H, seq_nth by easy. easy.
Qed.

Lemma paired_realise s r Fv L Gm w : Inv s ->
  (forall i j, (i < st_pctr s)%nat -> (j < st_pctr s)%nat -> Gm i j = rsum (st_pctr s) (fun c => L i c * L j c)) ->
  paired s (realise r (st_pctr s) Fv L) w = fg_val r (st_pctr s) (st_ectr s) w Fv Gm.
Proof.
  intros I H. unfold paired, fg_val, realise. cbn [v_env v_dim]. f_equal.
  - apply rsum_ext. intros k Hk. unfold leaf_f. cbn [v_fv]. rewrite (ctr_nth _ _ _ _ (inv_ectr s I) Hk). reflexivity.
  - apply rsum_ext. intros a Ha. apply rsum_ext. intros b Hb. unfold leaf_x, dot. cbn [v_pt].
    rewrite (ctr_nth _ _ _ _ (inv_pctr s I) Ha), (ctr_nth _ _ _ _ (inv_pctr s I) Hb), (H a b Ha Hb). f_equal.
    apply rsum_ext. intros k Hk. apply Nat.ltb_lt in Hk. rewrite Hk. reflexivity.
Qed.

Lemma paired_fg s v w : paired s v w =
  fg_val (v_env v) (st_pctr s) (st_ectr s) w (leaf_f s v) (fun a b => dot (v_dim v) (leaf_x s v a) (leaf_x s v b)).
Proof. reflexivity. Qed.

(** * strong duality *)
Section Dual.
  Variable SY : sympy.

  Theorem certificate_exists : sympy_ok SY ->
    forall s p sr s' m wm v0, Inv s -> own_pb s p ->
      symbolic SY p s = (Ok sr, s') -> constant_free p s ->
      Forall good_param (pr_params p) -> declared p s ->
      pr_metric p = Some m -> dget skey_eqb SObj (sr_exp sr) = Some wm ->
      strictly_feasible v0 p s ->
      (forall v phi, v_env v = v_env v0 -> (forall l, in_Rd (v_dim v) (v_pt v l)) -> consistent v phi s -> constraints_hold v p -> den_e v m <= 0) ->
      exists r P, (forall x, is_dual x = false -> r x = v_env v0 x) /\
        certificate r sr wm (st_pctr s) (st_ectr s) (st_pctr s) P.
  Proof.
    intros OK s p sr s' m wm v0 I HB HS Hcf Hgp Hd Em Ew [HS1 HS2] Hm.
    assert (HP : forall f fn, In f (st_flist s) -> dget Nat.eqb f (st_funs s) = Some fn -> fn_leaf fn = true -> class_params_ok (fn_class fn))
      by (intros f fn Hf Ef El; exact (proj1 (HS2 f fn Hf Ef El))).
    destruct (symbolic_spec SY s p sr s' I HS) as (W & m' & wm' & Em' & Ew' & Ex & F2 & Hsum & HE & HIE).
    rewrite Em in Em'. injection Em' as <-.
    destruct (stored_inv SY OK s p sr s' I HB HS) as (ND & _ & KS & KI & KE & KM & KF).
    assert (wm = wm').
    { assert (A : In (SObj, wm') (sr_exp sr)) by (rewrite Ex, in_app_iff; right; left; reflexivity).
      apply (dget_nodup skey_eqb skey_eqb_eq) in A; [|exact ND]. rewrite Ew in A. injection A; auto. }
    subst wm'.
    set (r := v_env v0) in *. set (dG := st_pctr s) in *. set (dF := st_ectr s) in *.
    assert (GET : forall kw, In kw W -> dget skey_eqb (fst kw) (sr_exp sr) = Some (snd kw)).
    { intros [k w] Hk. apply (dget_nodup skey_eqb skey_eqb_eq); [exact ND|]. rewrite Ex, in_app_iff. left. exact Hk. }
    destruct (assembled_keys SY s p sr s' I HS) as (T & ET & _ & KT).
    destruct (multiplier_names SY s p sr s' I HS) as (T' & ET2 & NT).
    assert (ET' : T = keys W /\ T' = keys W).
    { rewrite Ex in ET, ET2. unfold keys in ET, ET2. rewrite map_app in ET, ET2. simpl in ET, ET2.
      apply app_inj_tail in ET as [ET _]. apply app_inj_tail in ET2 as [ET2 _]. unfold keys. auto. }
    destruct ET' as [-> ->]. clear ET ET2.
    assert (Kin : forall kw, In kw W -> exists b F i j, fst kw = SK b F i j /\ (b <= 1)%nat).
    { intros kw Hk. destruct (KT (fst kw)) as (b & F & i & j & E & Hb); [apply in_map; exact Hk|].
      exists b, F, i, j. split; [exact E|]. assert (A : In (SK b F i j) (keys (sr_exp sr))).
      { rewrite <- E. rewrite Ex. unfold keys. rewrite map_app, in_app_iff. left. apply in_map. exact Hk. }
      apply KS in A as [(-> & _)|[(-> & _)|(-> & _)]]; lia. }
    (* each inequality is strict at v0, or trivial; equalities are trivial *)
    assert (Strict : forall kw, In kw W -> (exists F i j, fst kw = SK 0 F i j) /\ paired s v0 (snd kw) < 0 \/ (forall v, v_env v = r -> paired s v (snd kw) = 0)).
    { intros kw Hk. destruct (Kin kw Hk) as (b & F & i & j & E & _). assert (G := GET kw Hk). rewrite E in G.
      assert (A : In (SK b F i j) (keys (sr_exp sr))) by (apply (dget_in skey_eqb skey_eqb_eq) in G; apply (in_map fst _ _ G)).
      destruct Hcf as (_ & CC & CF). rewrite Forall_forall in CC.
      apply KS in A as [(-> & -> & -> & Hi)|[(-> & -> & -> & Hi)|(-> & k & f & fn & -> & Hk' & Ef & Hi & Hj & Hij)]].
      - destruct (nth_error (ineqs p) i) as [e|] eqn:Ee; [|apply nth_error_None in Ee; lia].
        assert (Hin := nth_error_In _ _ Ee). unfold ineqs in Hin. apply in_map_iff in Hin as (c & Ec & Hc). apply filter_In in Hc as [Hc _].
        destruct (HS1 c Hc) as [[_ Sc]|Nc]; [left|right].
        + split; [eauto|]. rewrite (KI i e _ Ee G); [|rewrite <- Ec; apply CC; exact Hc]. rewrite <- Ec. exact Sc.
        + intros v Hv. rewrite (KI i e _ Ee G); [|rewrite <- Ec; apply CC; exact Hc]. rewrite <- Ec. exact (Nc v Hv).
      - destruct (nth_error (eqs p) i) as [e|] eqn:Ee; [|apply nth_error_None in Ee; lia].
        assert (Hin := nth_error_In _ _ Ee). unfold eqs in Hin. apply in_map_iff in Hin as (c & Ec & Hc). apply filter_In in Hc as [Hc Hkc].
        destruct (HS1 c Hc) as [[Kc _]|Nc]; [rewrite Kc in Hkc; discriminate Hkc|right].
        intros v Hv. rewrite (KE i e _ Ee G); [|rewrite <- Ec; apply CC; exact Hc]. rewrite <- Ec. exact (Nc v Hv).
      - left. split; [eauto|].
        assert (Hf := nth_error_In _ _ Hk'). apply leaf_funs_in in Hf as (Hf & fn' & Ef' & El). rewrite Ef in Ef'. injection Ef' as <-.
        rewrite (KF k f fn i j _ Hk' Ef Hi Hj Hij G (CF f fn Hf Ef El)). apply (proj2 (HS2 f fn Hf Ef El) i j); assumption. }
    assert (Psyms : forall kw, In kw W -> fg_all (fun x => In x (pr_params p)) (snd kw)).
    { assert (Tt : forall kt, In kt (constraint_table SY p (funs_of s (leaf_funs (st_flist s) s))) -> forall e, snd kt = Ok e -> ex_all (fun x => In x (pr_params p)) e).
      { intros kt Hkt e He. eapply table_syms; eauto. }
      clear -F2 Tt. induction F2 as [|kt kw T0 W0 [E1 [e [E2 E3]]] F IH]; intros x Hx; [destruct Hx|]. destruct Hx as [<-|Hx].
      - eapply expression_to_matrix_all; [exact E3|]. apply (Tt kt); simpl; auto.
      - apply IH; [intros kt' Hkt'; apply Tt; simpl; auto|exact Hx]. }
    assert (Msyms : fg_all (fun x => In x (pr_params p)) wm).
    { eapply expression_to_matrix_all; [exact Ew'|]. eapply ex_all_params; [apply (proj1 Hd); exact Em|]. rewrite Forall_forall; easy. }
    assert (Wsym : forall kw a b, In kw W -> wG (snd kw) a b = wG (snd kw) b a).
    { clear -F2. intros kw a b. induction F2 as [|kt kw' T0 W0 [E1 [e [E2 E3]]] F IH]; intros Hk; [destruct Hk|]. destruct Hk as [<-|Hk]; [|apply IH, Hk].
      apply (to_matrix_sym SY _ _ _ _ _ E3). reflexivity. }
    assert (Msym : forall a b, wG wm a b = wG wm b a) by (apply (to_matrix_sym SY _ _ _ _ _ Ew'); reflexivity).
    (* the metric is non-positive on the cone *)
    assert (Cone : forall x : fgx, psd dG (snd x) ->
        (forall kw, In kw W -> fg_val r dG dF (snd kw) (fst x) (snd x) <= 0) -> fg_val r dG dF wm (fst x) (snd x) <= 0).
    { intros [Fv Gm] Hps Hx. cbn [fst snd] in *. destruct (cholesky dG Gm Hps) as (L & _ & _ & HL).
      set (v := realise r dG Fv L).
      assert (PV : forall w, paired s v w = fg_val r dG dF w Fv Gm) by (intros w; apply paired_realise; assumption).
      assert (MH : matrices_hold s v sr).
      { intros b F i j w Hw. assert (B : In (SK b F i j, w) W).
        { apply (dget_in skey_eqb skey_eqb_eq) in Hw. rewrite Ex, in_app_iff in Hw. destruct Hw as [Hw|[Hw|[]]]; [exact Hw|discriminate Hw]. }
        split; [intros _; rewrite PV; apply (Hx _ B)|]. intros ->. destruct (Strict _ B) as [[(F' & i' & j' & E) _]|N]; [discriminate E|].
        apply (N v). reflexivity. }
      apply (problem_exact_inv SY OK s p sr s' v I HB HS Hcf HP) in MH as [MC [phi Mphi]].
      assert (Sp : forall l k, (dG <= k)%nat -> v_pt v l k = 0).
      { intros l k Hk. unfold v, realise. cbn [v_pt]. replace (Nat.ltb k dG) with false by (symmetry; apply Nat.ltb_ge; exact Hk). reflexivity. }
      assert (D := Hm v phi eq_refl Sp Mphi MC). rewrite <- (KM m wm Em Ew (proj1 Hcf m Em) v), PV in D. exact D. }
    assert (Null : forall w, (forall v, v_env v = r -> paired s v w = 0) -> forall x : fgx, psd dG (snd x) -> fg_val r dG dF w (fst x) (snd x) = 0).
    { intros w Hw [Fv Gm] Hps. cbn [fst snd] in *. destruct (cholesky dG Gm Hps) as (L & _ & _ & HL).
      assert (PV : paired s (realise r dG Fv L) w = fg_val r dG dF w Fv Gm) by (apply paired_realise; assumption). rewrite <- PV. apply Hw. reflexivity. }
    (* multipliers *)
    destruct (multipliers fgx_add fgx_sc (fun kw : skey * fgw => dual_of (fst kw)) (fun kw x => fg_val r dG dF (snd kw) (fst x) (snd x)) W)
      with (K := fun x : fgx => psd dG (snd x)) (phi := fun x : fgx => fg_val r dG dF wm (fst x) (snd x))
           (x0 := (leaf_f s v0, fun a b => dot (v_dim v0) (leaf_x s v0 a) (leaf_x s v0 b)) : fgx) as (mu & M1 & M2).
    - unfold keys in NT. rewrite map_map in NT. exact NT.
    - intros kw _. apply fg_val_linear.
    - apply psd_cone.
    - apply fg_val_linear.
    - cbn [snd]. apply (ppt_psd dG (v_dim v0) (leaf_x s v0)).
    - intros kw Hk. cbn [fst snd]. destruct (Strict kw Hk) as [[_ S]|N]; [left; exact S|right; exact (Null _ N)].
    - exact Cone.
    - set (r' := fun n => if is_dual n then mu n else r n).
      assert (Rp : forall x, In x (pr_params p) -> r' x = r x).
      { intros x Hx. rewrite Forall_forall in Hgp. destruct (Hgp x Hx) as (_ & D & _). unfold r'. rewrite D. reflexivity. }
      assert (Rd : forall kw, In kw W -> r' (dual_of (fst kw)) = mu (dual_of (fst kw))).
      { intros kw Hk. destruct (Kin kw Hk) as (b & F & i & j & E & Hb). rewrite E. unfold r'. rewrite dual_of_dual by exact Hb. reflexivity. }
      assert (RW : forall kw Fv Gm, In kw W -> fg_val r' dG dF (snd kw) Fv Gm = fg_val r dG dF (snd kw) Fv Gm).
      { intros kw Fv Gm Hk. apply (fg_val_ext (fun x => In x (pr_params p))); [apply Psyms, Hk|exact Rp]. }
      assert (RM : forall Fv Gm, fg_val r' dG dF wm Fv Gm = fg_val r dG dF wm Fv Gm).
      { intros Fv Gm. apply (fg_val_ext (fun x => In x (pr_params p))); [exact Msyms|exact Rp]. }
      assert (RS : forall Fv Gm, fg_val r' dG dF (sr_sum sr) Fv Gm = lsum (fun kw => mu (dual_of (fst kw)) * fg_val r dG dF (snd kw) Fv Gm) W).
      { intros Fv Gm. rewrite (Hsum r' Fv Gm), fg_val_zero, Rplus_0_l. apply lsum_ext. intros kw Hk. rewrite (Rd kw Hk), (RW kw Fv Gm Hk). reflexivity. }
      assert (LE : forall Fv Gm, psd dG Gm -> fg_val r' dG dF wm Fv Gm <= fg_val r' dG dF (sr_sum sr) Fv Gm).
      { intros Fv Gm Hps. rewrite RM, RS. apply (M2 (Fv, Gm) Hps). }
      set (Z := fun a b => ev r' (wG (sr_sum sr) a b) - ev r' (wG wm a b)).
      assert (Zp : psd dG Z).
      { split.
        - intros i j Hi Hj. unfold Z. rewrite (Msym i j). f_equal.
          rewrite <- !(fg_val_G r' dG dF (sr_sum sr)) by assumption. rewrite !RS. apply lsum_ext. intros kw Hk.
          rewrite !fg_val_G by assumption. rewrite (Wsym kw i j Hk). reflexivity.
        - intros x. assert (A := LE (fun _ => 0) (fun a b => x a * x b)).
          assert (Q : psd dG (fun a b => x a * x b)).
          { split; [intros; ring|]. intros y. rewrite (rsum_ext dG _ (fun i => rsum dG (fun j => y j * x j) * (y i * x i))).
            - rewrite rsum_scal. apply Rle_0_sqr.
            - intros i _. rewrite <- rsum_scal_r. apply rsum_ext; intros; ring. }
          specialize (A Q). unfold fg_val in A. rewrite !(rsum_zero dF) in A by (intros; ring). rewrite !Rplus_0_l in A.
          rewrite (rsum_ext dG _ (fun a => rsum dG (fun b => ev r' (wG (sr_sum sr) a b) * (x a * x b)) - rsum dG (fun b => ev r' (wG wm a b) * (x a * x b)))).
          + rewrite rsum_minus. lra.
          + intros a _. rewrite <- rsum_minus. apply rsum_ext. intros b _. unfold Z. ring. }
      destruct (cholesky dG Z Zp) as (P & _ & _ & HPz).
      exists r', P. split; [intros x Dx; unfold r'; rewrite Dx; reflexivity|]. constructor.
      + intros F i j Hk.
        assert (B : In (SK 0 F i j) (keys W)).
        { rewrite Ex in Hk. unfold keys in *. rewrite map_app, in_app_iff in Hk. destruct Hk as [Hk|[Hk|[]]]; [exact Hk|discriminate Hk]. }
        apply in_map_iff in B as (kw & E & Hkw). change (dual_name (lamb_prefix F) i j) with (dual_of (SK 0 F i j)).
        rewrite <- E, (Rd kw Hkw). apply (M1 kw Hkw).
      + intros k Hk.
        assert (P0 : psd dG (fun _ _ => 0)).
        { split; [reflexivity|]. intros x. rewrite rsum_zero; [lra|]. intros i _. apply rsum_zero. intros; ring. }
        assert (A := LE (fun i => if Nat.eqb i k then 1 else 0) _ P0). rewrite !fg_val_F in A by exact Hk.
        assert (B := LE (fun i => -1 * (if Nat.eqb i k then 1 else 0)) (fun _ _ => -1 * 0)).
        assert (C : forall w, fg_val r' dG dF w (fun i => -1 * (if Nat.eqb i k then 1 else 0)) (fun _ _ => -1 * 0) = -1 * ev r' (wF w k)).
        { intros w. rewrite <- (fg_val_F r' dG dF w k Hk).
          exact (proj2 (fg_val_linear r' dG dF w) (-1) ((fun i => if Nat.eqb i k then 1 else 0), (fun _ _ => 0))). }
        rewrite !C in B. apply Rle_antisym; [|lra].
        assert (P1 : psd dG (fun _ _ => -1 * 0)).
        { split; [reflexivity|]. intros x. rewrite rsum_zero; [lra|]. intros i _. apply rsum_zero. intros; ring. }
        specialize (B P1). lra.
      + intros a b Ha Hb. apply (HPz a b Ha Hb).
  Qed.
End Dual.
