(** Facts about solve_fix_discr_sdp and solve_bisection_eta. *)
From Coq Require Import List Arith Bool String Ascii QArith Reals Qreals Lra Lia Permutation.
From Verif Require Import Prelude PreludeFacts Sympy SympyFacts AlgebraModel Denote AlgebraFacts FunctionModel CircuitModel SymSpec
  GramFacts SymFacts Spec ClassSpec CertSpec StateSpec SessionModel StateFacts CertFacts ParsingModel
  ParsingSpec SolverModel ParsingFacts CoeffFacts SolverSpec SolverFacts IpoptFacts IpoptProof IpoptComplete MatFacts SolverProps
  QcqpModel QcqpSpec QcqpFacts QcqpFacts2 QcqpBuild QcqpProof QcqpMain SdpModel SdpSpec.
Import ListNotations.
Local Open Scope nat_scope.

(** * monomials from a dictionary *)
Lemma eval_parts_val params l : forall acc q, eval_parts l params acc = Ok q ->
  Q2R q = (Q2R acc * prod_of (dict_env params) l)%R /\ Forall (fun x => In x (map fst params)) l.
Proof.
  induction l as [|x l IH]; intros acc q H; simpl in H.
  - injection H as ->. simpl. split; [lra|constructor].
  - destruct (dget String.eqb x params) as [w|] eqn:E; [|discriminate]. apply IH in H as [H1 H2]. split.
    + rewrite H1, (Qeq_eqR _ _ (Qred_correct _)), Qreals.Q2R_mult. simpl. unfold dict_env at 2. rewrite E. lra.
    + constructor; [|exact H2]. clear -E. induction params as [|[y v] ps IHp]; [easy|]. simpl in *.
      destruct (String.eqb_spec x y); [auto|]. right. apply IHp, E.
Qed.
Lemma vector_val params l : forall v, vars_to_vector l params = Ok v ->
  List.length v = List.length l /\ forall i, i < List.length l -> Q2R (nth i v 0%Q) = vname_val (dict_env params) (nth i l VOne).
Proof.
  induction l as [|x l IH]; intros v H; simpl in H.
  - injection H as <-. split; [easy|]. intros i Hi. simpl in Hi. lia.
  - destruct (evaluate_monomial x params) as [q|] eqn:E; [|discriminate]. cbn [bindr] in H.
    destruct (vars_to_vector l params) as [r|]; [|discriminate]. cbn [bindr] in H. injection H as <-.
    destruct (IH r eq_refl) as [L Hi]. split; [simpl; rewrite L; easy|]. intros [|i] Hlt; simpl.
    + destruct x as [|s]; simpl in E; [injection E as <-; apply Q2R_1'|]. apply eval_parts_val in E as [-> _].
      rewrite Q2R_1'. simpl. unfold long. lra.
    + apply Hi. simpl in Hlt. lia.
Qed.
Lemma vector_total params l : (forall s, In (VStr s) l -> Forall (fun x => In x (map fst params)) (split_us s)) -> exists v, vars_to_vector l params = Ok v.
Proof.
  induction l as [|x l IH]; intros H; simpl; [eauto|].
  assert (E : exists q, evaluate_monomial x params = Ok q).
  { destruct x as [|s]; simpl; [eauto|]. specialize (H s (or_introl eq_refl)). clear IH. revert H. generalize 1%Q. induction (split_us s) as [|y ys IHy]; intros acc H; simpl; [eauto|].
    inversion H as [|? ? Hy Hys]; subst. destruct (dget String.eqb y params) as [w|] eqn:Ew; [apply IHy, Hys|].
    exfalso. clear -Hy Ew. induction params as [|[z v] ps IHp]; [easy|]. simpl in *. destruct (String.eqb_spec y z); [discriminate|]. destruct Hy as [->|Hy]; [easy|]. auto. }
  destruct E as [q ->]. cbn [bindr]. destruct IH as [v ->]; [intros; apply H; simpl; auto|]. cbn [bindr]. eauto.
Qed.

Lemma row_value_val A r c V v k : cis A r c V -> k < r -> Q2R (row_value A v k) = rsum c (fun j => V k j * Q2R (nth j v 0%Q))%R.
Proof.
  intros (A1 & A2 & A3) Hk. unfold row_value. rewrite qsum_R, A2. apply rsum_ext. intros j Hj. rewrite Qreals.Q2R_mult, A3 by assumption. easy.
Qed.

(** Every name is a product of parameters. *)
Lemma names_parts params nm s : names_facts params nm -> Forall (fun x => has_char us x = false) params ->
  In (VStr s) (nm_list nm) -> Forall (fun x => In x params) (split_us s).
Proof.
  intros HN Hs H. destruct (nf_cases _ _ HN s H) as [Q|(pre & x & E & _ & Hx & Hp & _)].
  - rewrite (split_param params Hs s Q). constructor; [exact Q|constructor].
  - rewrite E. apply Forall_app. split; [exact Hp|]. constructor; [exact Hx|constructor].
Qed.
Lemma vname_agree params nm r r' v : names_facts params nm -> Forall (fun x => has_char us x = false) params ->
  In v (nm_list nm) -> (forall x, In x params -> r x = r' x) -> vname_val r v = vname_val r' v.
Proof.
  intros HN Hs H E. destruct v as [|s]; [easy|]. simpl. unfold long. apply prod_ext. intros x Hx. apply E.
  assert (Q := names_parts params nm s HN Hs H). rewrite Forall_forall in Q. auto.
Qed.

(** * the program of solve_fix_discr_sdp *)
Section Fix.
  Context {SY : sympy} (OK : sympy_ok SY).
  Variables (p : problem) (s s' : state) (sr : symres) (Fs Gs : list cmatrix) (nm : names).
  Hypothesis I : Inv s.
  Hypothesis Nd : NoDup (pr_params p).
  Hypothesis Hg : Forall good_param (pr_params p).
  Hypothesis Hd : declared p s.
  Hypothesis HS : sdp_inputs SY p s = (Ok (sr, Fs, Gs, nm), s').
  Notation nv := (List.length (nm_list nm)).
  Notation nI := (sr_I sr).
  Notation nE := (sr_E sr).
  Notation dimF := (st_ectr s).
  Notation dimG := (st_pctr s).

  Lemma inputs_facts : symbolic SY p s = (Ok sr, s') /\
    sp_v_coeff_matrix SY (fg_lists sr dimF dimG) (pr_params p) = Ok (Fs, Gs, nm) /\
    exists W wm, table_facts p s sr W wm /\ good_coeffs (pr_params p) dimF dimG (sr_exp sr) Fs Gs nm.
  Proof using OK I Nd Hg Hd HS.
    unfold sdp_inputs in HS. destruct (symbolic SY p s) as [[sr0|] s1] eqn:Es; [|discriminate].
    destruct (sp_v_coeff_matrix SY (fg_lists sr0 dimF dimG) (pr_params p)) as [[[Fs0 Gs0] nm0]|] eqn:Ec; [|discriminate].
    injection HS as -> -> -> -> ->. split; [easy|]. split; [exact Ec|].
    destruct (assembled OK p s sr s' I Es) as (W & wm & T). exists W, wm. split; [exact T|]. exact (coeff_setup OK p s sr W wm Fs Gs nm T Nd Hg Hd Ec).
  Qed.

  (** What the program says about (lambda, nu) = [lam] and Z. *)
  Definition fix_point (params : list (string * Q)) (lam : nat -> R) (Z : nat -> nat -> R) : Prop :=
    let v j := vname_val (dict_env params) (nth j (nm_list nm) VOne) in
    (forall i, i < nI -> (0 <= lam i)%R) /\
    (forall k, k < dimF -> rsum nv (fun j => coef (last Fs dummy_cm) k j * v j)%R =
       rsum (nI + nE) (fun i => lam i * rsum nv (fun j => coef (nth i Fs dummy_cm) k j * v j))%R) /\
    (forall a b, a < dimG -> b < dimG -> (rsum nv (fun j => coef (last Gs dummy_cm) (a * dimG + b) j * v j) + Z a b =
       rsum (nI + nE) (fun i => lam i * rsum nv (fun j => coef (nth i Gs dummy_cm) (a * dimG + b) j * v j)))%R).

  Lemma fix_row_emits N obj T rows (v : list Q) V lam base nd slack sl k : cis obj rows nv V -> t3_n T = nd ->
    cis (t3_slice k T) nd nv (fun i j => coef (nth i lam dummy_cm) k j) -> k < rows -> base + nd <= N -> ids_lt N slack -> (forall a, ceval a slack = sl a) ->
    emits N (fix_row obj T (mkCV nd 1 base) v slack k)
      (fun a => (rsum nv (fun j => V k j * Q2R (nth j v 0%Q)) + sl a =
        rsum nd (fun i => a (base + i)%nat * rsum nv (fun j => coef (nth i lam dummy_cm) k j * Q2R (nth j v 0%Q))))%R).
  Proof using Type.
    intros Ho Hn Hs Hk HN Hsl Hv. unfold fix_row. eapply emits_ext.
    - apply emits_to. simpl. split; [split; [exact Logic.I|exact Hsl]|]. apply csumn_lt. intros i Hi. rewrite Hn in Hi. unfold cv_at. simpl. split; [lia|exact Logic.I].
    - intros a. cbn [holds ceval]. rewrite csumn_val, Hn, Hv, (row_value_val _ _ _ _ _ _ Ho Hk).
      rewrite (rsum_ext nd _ (fun i => a (base + i)%nat * rsum nv (fun j => coef (nth i lam dummy_cm) k j * Q2R (nth j v 0%Q)))%R); [easy|].
      intros i Hi. cbn [ceval]. rewrite (row_value_val _ _ _ _ _ _ Hs Hi). unfold cv_at. cbn [cv_base cv_cols]. replace (base + i * 1 + 0) with (base + i) by lia. easy.
  Qed.

  Lemma fix_build_eq params : exists W wm, table_facts p s sr W wm /\ good_coeffs (pr_params p) dimF dimG (sr_exp sr) Fs Gs nm /\
    (nI + nE = 0 -> forall d, fix_sdp dimF dimG (sr, Fs, Gs, nm) params <> Ok d) /\
    (nI + nE = 1 -> forall v, vars_to_vector (nm_list nm) params = Ok v -> fix_sdp dimF dimG (sr, Fs, Gs, nm) params = Err ValueError) /\
    (2 <= nI + nE -> forall v, vars_to_vector (nm_list nm) params = Ok v ->
      exists d, fix_sdp dimF dimG (sr, Fs, Gs, nm) params = Ok d /\ sd_obj d = CNum 0 /\
      forall a, sdp_feasible d a <->
        fix_point params a (fun i j => a (nI + nE + i * dimG + j)) /\ psd dimG (fun i j => a (nI + nE + i * dimG + j))) /\
    (forall e, vars_to_vector (nm_list nm) params = Err e -> fix_sdp dimF dimG (sr, Fs, Gs, nm) params = Err e).
  Proof using OK I Nd Hg Hd HS.
    destruct inputs_facts as (_ & _ & W & wm & T & C). exists W, wm. split; [exact T|]. split; [exact C|].
    assert (C0 := C). destruct C0 as (HNm & SF & SG & LF & LG & _). rewrite (len_W p s sr W wm T) in LF, LG.
    assert (Ho := obj_last p s sr W wm T). unfold fix_sdp, fix_build.
    split; [|split; [|split]].
    - intros E0 d. rewrite E0. unfold obind. destruct (olift (vars_to_vector (nm_list nm) params) opti0) as [[v o1]|]; [|discriminate].
      cbn [opti_variable]. destruct (oiter _ (seq 0 nI) _) as [[u o2]|]; [|discriminate]. rewrite Ho.
      assert (Ep : padded Fs dimF nv 0 = Err IndexError \/ exists e, padded Fs dimF nv 0 = Err e).
      { right. unfold padded. destruct (rev Fs) as [|A l] eqn:Er; [eauto|]. rewrite E0 in LF. destruct Fs as [|B [|? ?]]; try discriminate LF.
        destruct (cm_pad dimF nv A); cbn [bindr]; [|eauto]. simpl. eauto. }
      destruct Ep as [->|[e ->]]; discriminate.
    - intros E1 v Hv. rewrite Hv, E1. unfold obind at 1. cbn [olift opti_variable]. unfold obind at 1 2 3. cbn [opti_variable].
      assert (S1 : emits 1 (oiter (fun i => subject_to (CGe (CVar (cv_at (mkCV 1 1 (op_next opti0)) i 0)) (CNum 0))) (seq 0 nI)) (fun a => forall i, In i (seq 0 nI) -> (0 <= a i)%R)).
      { apply (emits_iter 1 _ (fun i a => (0 <= a i)%R)). intros i Hi. apply in_seq in Hi. eapply emits_ext; [apply emits_to; simpl; unfold cv_at; simpl; split; [lia|exact Logic.I]|].
        intros a. simpl. unfold cv_at. simpl. rewrite Q2R_0'. replace (i * 1 + 0) with i by lia. split; lra. }
      match goal with |- context [oiter ?f ?l ?o] => destruct (S1 o) as (cs & -> & _) end. rewrite Ho.
      rewrite E1 in LF. destruct (padded_ok Fs dimF nv 1 SF LF (le_n _)) as (obj & TT & -> & _ & T1 & _).
      rewrite (step_lift _ _ _ _ eq_refl). cbn [snd fst]. unfold squeeze_ok at 1. rewrite T1. easy.
    - intros E2 v Hv. rewrite (step_lift _ _ _ _ Hv). set (nd := nI + nE) in *. set (N := nd + dimG * dimG).
      unfold obind at 1 2. cbn [opti_variable op_next opti0]. replace (0 + nd * 1) with nd by lia.
      set (o1 := mkOpti (nd + dimG * dimG) (op_cons opti0) (op_vars opti0)).
      destruct (vector_val params _ _ Hv) as [Lv Vv].
      assert (S1 : emits N (oiter (fun i => subject_to (CGe (CVar (cv_at (mkCV nd 1 0) i 0)) (CNum 0))) (seq 0 nI)) (fun a => forall i, i < nI -> (0 <= a i)%R)).
      { eapply emits_ext; [apply (emits_iter N _ (fun i a => (0 <= a i)%R))|].
        - intros i Hi. apply in_seq in Hi. eapply emits_ext; [apply emits_to; simpl; unfold cv_at; simpl; split; [unfold N, nd; lia|exact Logic.I]|].
          intros a. simpl. unfold cv_at. simpl. rewrite Q2R_0'. replace (i * 1 + 0) with i by lia. split; lra.
        - intros a. split; intros H i Hi; apply H; [apply in_seq|apply in_seq in Hi]; lia. }
      destruct (padded_ok Fs dimF nv nd SF LF ltac:(lia)) as (objF & TF & EF & CF & TF1 & TF2 & TF3 & SLF).
      destruct (padded_ok Gs (dimG * dimG) nv nd SG LG ltac:(lia)) as (objG & TG & EG & CG & TG1 & TG2 & TG3 & SLG).
      match goal with |- context [obind (oiter ?f (seq 0 nI)) ?k ?o] => destruct (step_emits N _ _ k o S1) as (c1 & -> & F1 & K1) end.
      rewrite Ho, EF, (step_lift _ _ _ _ eq_refl). cbn [fst snd].
      assert (Sq : forall TT (k : unit -> OM cavar) o, t3_n TT = nd -> obind (squeeze_ok TT) k o = k tt o).
      { intros TT k o H. unfold squeeze_ok. rewrite H. destruct (Nat.eqb_spec nd 1); [lia|easy]. }
      rewrite Sq by exact TF1.
      pose (vv := fun j => vname_val (dict_env params) (nth j (nm_list nm) VOne)).
      assert (EV : forall A k, rsum nv (fun j => coef A k j * Q2R (nth j v 0%Q))%R = rsum nv (fun j => coef A k j * vv j)%R).
      { intros A k. apply rsum_ext. intros j Hj. rewrite (Vv j Hj). easy. }
      assert (S2 : emits N (oiter (fix_row objF TF (mkCV nd 1 0) v (CNum 0)) (seq 0 dimF))
        (fun a => forall k, k < dimF -> rsum nv (fun j => coef (last Fs dummy_cm) k j * vv j)%R = rsum nd (fun i => a i * rsum nv (fun j => coef (nth i Fs dummy_cm) k j * vv j))%R)).
      { eapply emits_ext; [apply (emits_iter N _ (fun k a => rsum nv (fun j => coef (last Fs dummy_cm) k j * vv j)%R = rsum nd (fun i => a i * rsum nv (fun j => coef (nth i Fs dummy_cm) k j * vv j))%R))|].
        - intros k Hk. apply in_seq in Hk. eapply emits_ext; [apply (fix_row_emits N objF TF dimF v _ Fs 0 nd (CNum 0) (fun _ => 0%R) k CF TF1 (SLF k ltac:(lia)) ltac:(lia)); [unfold N; lia|exact Logic.I|intros; apply Q2R_0']|].
          intros a. cbn beta. rewrite EV, Rplus_0_r. rewrite (rsum_ext nd _ (fun i => a i * rsum nv (fun j => coef (nth i Fs dummy_cm) k j * vv j))%R); [easy|].
          intros i Hi. rewrite EV. easy.
        - intros a. split; intros H k Hk; apply H; [apply in_seq|apply in_seq in Hk]; lia. }
      match goal with |- context [obind (oiter (fix_row _ _ _ _ _) _) ?k ?o] => destruct (step_emits N _ _ k o S2) as (c2 & -> & F2 & K2) end.
      rewrite EG, (step_lift _ _ _ _ eq_refl). cbn [fst snd]. rewrite Sq by exact TG1.
      assert (S3 : emits N (oiter (fun ij => fix_row objG TG (mkCV nd 1 0) v (CVar (cv_at (mkCV dimG dimG nd) (fst ij) (snd ij))) (fst ij * dimG + snd ij)) (grid dimG dimG))
        (fun a => forall i j, i < dimG -> j < dimG -> (rsum nv (fun l => coef (last Gs dummy_cm) (i * dimG + j) l * vv l) + a (nd + i * dimG + j)%nat =
           rsum nd (fun m => a m * rsum nv (fun l => coef (nth m Gs dummy_cm) (i * dimG + j) l * vv l)))%R)).
      { eapply emits_ext; [apply (emits_iter N _ (fun ij a => (rsum nv (fun l => coef (last Gs dummy_cm) (fst ij * dimG + snd ij) l * vv l) + a (nd + fst ij * dimG + snd ij)%nat =
           rsum nd (fun m => a m * rsum nv (fun l => coef (nth m Gs dummy_cm) (fst ij * dimG + snd ij) l * vv l)))%R))|].
        - intros [i j] Hij. apply grid_in in Hij as [Hi Hj]. cbn [fst snd]. assert (Hk : i * dimG + j < dimG * dimG) by nia.
          eapply emits_ext; [apply (fix_row_emits N objG TG (dimG * dimG) v _ Gs 0 nd (CVar (cv_at (mkCV dimG dimG nd) i j)) (fun a => a (nd + i * dimG + j)) (i * dimG + j) CG TG1 (SLG _ Hk) Hk); [unfold N; lia|unfold cv_at; simpl; unfold N; lia|intros; unfold cv_at; simpl; easy]|].
          intros a. cbn beta. rewrite EV. rewrite (rsum_ext nd _ (fun m => a m * rsum nv (fun l => coef (nth m Gs dummy_cm) (i * dimG + j) l * vv l))%R); [easy|].
          intros m Hm. rewrite EV. easy.
        - intros a. split; [intros H i j Hi Hj; apply (H (i, j)), grid_in; easy|]. intros H [i j] Hij. apply grid_in in Hij as [Hi Hj]. apply H; easy. }
      match goal with |- context [obind (oiter _ (grid _ _)) ?k ?o] => destruct (step_emits N _ _ k o S3) as (c3 & -> & F3 & K3) end.
      rewrite !add_cons_app. unfold oret. eexists. split; [reflexivity|]. split; [easy|]. intros a.
      unfold sdp_feasible, feasible. cbn [sd_opti sd_psd op_cons add_cons o1 opti0]. rewrite app_nil_l, !Forall_app, K1, K2, K3.
      unfold fix_point. fold nd. split.
      + intros ((H1 & H2 & H3) & H4). split; [split; [exact H1|]; split; [exact H2|exact H3]|]. inversion H4; subst. assumption.
      + intros ((H1 & H2 & H3) & H4). split; [split; [exact H1|]; split; [exact H2|exact H3]|]. constructor; [exact H4|constructor].
    - intros e He. rewrite He. easy.
  Qed.

  (** Points of the program and certificates. *)
  Lemma fix_certificate params lam Z W wm : table_facts p s sr W wm -> good_coeffs (pr_params p) dimF dimG (sr_exp sr) Fs Gs nm ->
    fix_point params lam Z -> psd dimG Z ->
    exists r L, (forall x, In x (pr_params p) -> r x = dict_env params x) /\ certificate r sr wm dimG dimF dimG L.
  Proof using Hg.
    intros T C (H1 & H2 & H3) H4. destruct (cholesky dimG Z H4) as (L & _ & _ & HL).
    assert (HN : names_facts (pr_params p) nm) by apply C. assert (Sm := params_nous p Hg).
    set (y := fun i => if Nat.ltb i nv then vname_val (dict_env params) (nth i (nm_list nm) VOne) else lam (i - nv)).
    assert (Yl : forall i, y (nv + i) = lam i) by (intros i; unfold y; destruct (Nat.ltb_spec (nv + i) nv); [lia|]; f_equal; lia).
    assert (Yv : forall i, i < nv -> y i = vname_val (dict_env params) (nth i (nm_list nm) VOne)) by (intros i Hi; unfold y; apply Nat.ltb_lt in Hi; rewrite Hi; easy).
    assert (Yp : forall x, In x (pr_params p) -> at_name nm y x = dict_env params x).
    { intros x Hx. assert (Q := nf_param _ _ HN x Hx). apply In_nth_error in Q as [i Hi]. rewrite (at_name_nth _ _ HN y i x Hi).
      assert (Hl : i < nv) by (apply nth_error_Some; congruence). rewrite (Yv i Hl), (nth_error_nth _ _ _ Hi). simpl. unfold long. rewrite (split_param _ Sm x Hx). simpl. lra. }
    exists (key_env W nm y), L. split; [intros x Hx; rewrite (key_env_param p W nm Hg y x Hx); apply Yp, Hx|].
    destruct (point_equations p s sr W wm Fs Gs nm T C (key_env W nm y) y) as [PF PG].
    { intros i Hi. rewrite (Yv i Hi). apply (vname_agree (pr_params p) nm _ _ _ HN Sm); [apply nth_In, Hi|]. intros x Hx. rewrite (key_env_param p W nm Hg y x Hx). symmetry. apply Yp, Hx. }
    { intros i kw E. apply (key_env_dual p s sr W wm nm T y i kw E). }
    assert (EY : forall A k, rsum nv (fun j => coef A k j * y j)%R = rsum nv (fun j => coef A k j * vname_val (dict_env params) (nth j (nm_list nm) VOne))%R).
    { intros A k. apply rsum_ext. intros j Hj. rewrite (Yv j Hj). easy. }
    constructor.
    - intros f i j Hk. assert (T0 := T). destruct T0 as (Ex & _ & _ & _ & HI & _). unfold keys in Hk. rewrite Ex, map_app in Hk. apply in_app_or in Hk as [Hk|[Hk|[]]]; [|discriminate].
      apply In_nth_error in Hk as [q Hq]. destruct (nth_error W q) as [kw|] eqn:E.
      2:{ apply nth_error_None in E. assert (Zq : nth_error (map fst W) q <> None) by congruence. apply nth_error_Some in Zq. rewrite map_length in Zq. lia. }
      assert (Ek := map_nth_error fst _ _ E). rewrite Hq in Ek. injection Ek as Ek.
      change (dual_name (lamb_prefix f) i j) with (dual_of (SK 0 f i j)). rewrite Ek, (key_env_dual p s sr W wm nm T y q kw E), Yl. apply H1.
      apply (HI q _ Hq). eauto.
    - intros k Hk. destruct (PF k Hk) as [<- <-]. rewrite EY, (H2 k Hk). apply rsum_ext. intros i Hi. rewrite Yl, EY. easy.
    - intros a b Ha Hb. destruct (PG a b Ha Hb) as [<- <-]. specialize (H3 a b Ha Hb). rewrite EY, <- (HL a b Ha Hb).
      match goal with |- (?A - _ = _)%R => assert (EA : A = rsum (nI + nE) (fun i => lam i * rsum nv (fun j => coef (nth i Gs dummy_cm) (a * dimG + b) j * vname_val (dict_env params) (nth j (nm_list nm) VOne)))%R) end.
      { apply rsum_ext. intros i Hi. rewrite Yl, EY. easy. }
      rewrite EA. lra.
  Qed.
  Lemma certificate_fix params r m P W wm : table_facts p s sr W wm -> good_coeffs (pr_params p) dimF dimG (sr_exp sr) Fs Gs nm ->
    (forall x, In x (pr_params p) -> r x = dict_env params x) -> certificate r sr wm dimG dimF m P ->
    exists lam Z, fix_point params lam Z /\ psd dimG Z /\
      (forall i kw, nth_error W i = Some kw -> lam i = r (dual_of (fst kw))) /\ forall i j, Z i j = rsum m (fun c => P i c * P j c)%R.
  Proof using Hg.
    intros T C Hr [CN CF CG]. assert (HN : names_facts (pr_params p) nm) by apply C. assert (Sm := params_nous p Hg).
    set (lam := fun i => r (dual_of (fst (nth i W (SObj, wm))))).
    set (y := fun i => if Nat.ltb i nv then vname_val r (nth i (nm_list nm) VOne) else lam (i - nv)).
    assert (Yl : forall i, y (nv + i) = lam i) by (intros i; unfold y; destruct (Nat.ltb_spec (nv + i) nv); [lia|]; f_equal; lia).
    assert (Yv : forall i, i < nv -> y i = vname_val r (nth i (nm_list nm) VOne)) by (intros i Hi; unfold y; apply Nat.ltb_lt in Hi; rewrite Hi; easy).
    assert (Hlam : forall i kw, nth_error W i = Some kw -> lam i = r (dual_of (fst kw))) by (intros i kw E; unfold lam; rewrite (nth_error_nth _ _ _ E); easy).
    destruct (point_equations p s sr W wm Fs Gs nm T C r y Yv) as [PF PG].
    { intros i kw E. rewrite Yl. symmetry. apply Hlam, E. }
    assert (EY : forall A k, rsum nv (fun j => coef A k j * vname_val (dict_env params) (nth j (nm_list nm) VOne))%R = rsum nv (fun j => coef A k j * y j)%R).
    { intros A k. apply rsum_ext. intros j Hj. rewrite (Yv j Hj). f_equal. symmetry. apply (vname_agree (pr_params p) nm _ _ _ HN Sm); [apply nth_In, Hj|exact Hr]. }
    exists lam, (fun i j => rsum m (fun c => P i c * P j c)%R). split; [|split; [apply ppt_psd|split; [exact Hlam|easy]]]. split; [|split].
    - intros i Hi. assert (T0 := T). destruct T0 as (Ex & _ & HL & _ & HI & _). destruct (nth_error W i) as [kw|] eqn:E.
      2:{ apply nth_error_None in E. lia. }
      rewrite (Hlam i kw E). assert (Ek := map_nth_error fst _ _ E). destruct (proj1 (HI i _ Ek) Hi) as (f & a & b & EK). rewrite EK.
      apply CN. rewrite <- EK, Ex. unfold keys. rewrite map_app. apply in_or_app. left. apply nth_error_In in Ek. exact Ek.
    - intros k Hk. rewrite EY. destruct (PF k Hk) as [-> PF2]. rewrite <- (CF k Hk), <- PF2. apply rsum_ext. intros i Hi. rewrite Yl, EY. easy.
    - intros a b Ha Hb. rewrite EY. destruct (PG a b Ha Hb) as [-> PG2]. rewrite <- (CG a b Ha Hb).
      transitivity (ev r (wG (sr_sum sr) a b)); [lra|]. rewrite <- PG2. apply rsum_ext. intros i Hi. rewrite Yl, EY. easy.
  Qed.
End Fix.

(** * bisection *)
Fixpoint halved (q : Q) (k : nat) : Q := match k with O => q | S k' => halved (q / 2)%Q k' end.
Lemma halved_val k : forall q, Q2R (halved q k) = (Q2R q / 2 ^ k)%R.
Proof.
  induction k as [|k IH]; intros q; simpl; [lra|]. rewrite IH. unfold Qdiv. rewrite Qreals.Q2R_mult.
  assert (E : Q2R (/ 2) = (/ 2)%R) by (unfold Q2R; simpl; lra). rewrite E. assert (H := pow_nonzero 2 k ltac:(lra)). field. exact H.
Qed.
Lemma halved_S k : forall q, halved q (S k) = (halved q k / 2)%Q.
Proof. induction k as [|k IH]; intros q; [easy|]. simpl. simpl in IH. rewrite IH. easy. Qed.
Lemma dset_dset {V} k (v w : V) l : dset String.eqb k v (dset String.eqb k w l) = dset String.eqb k v l.
Proof.
  induction l as [|[k' u] l IH]; simpl; [rewrite String.eqb_refl; easy|]. destruct (String.eqb k k') eqn:E; simpl; rewrite ?E; [easy|rewrite IH; easy].
Qed.

Section Bisect.
  Variables (build : list (string * Q) -> res sdp) (solver : nat -> sdp -> res string).
  (** iteration t, with the value eta, reports "optimal" *)
  Definition reported (params : list (string * Q)) (t : nat) (eta : Q) : Prop :=
    exists d, build (dset String.eqb "eta"%string eta params) = Ok d /\ solver t d = Ok "optimal"%string.
  Lemma bisect_spec n : forall params eta t, exists k, k <= n /\
    snd (bisect_loop build solver params eta t n) = halved eta k /\
    (forall j, j < k -> ~ reported params (t + j) (halved eta j)) /\
    ((k < n /\ reported params (t + k) (halved eta k) /\ fst (bisect_loop build solver params eta t n) = dset String.eqb "eta"%string (halved eta k) params) \/
     (k = n /\ fst (bisect_loop build solver params eta t n) = match n with O => params | S n' => dset String.eqb "eta"%string (halved eta n') params end)).
  Proof using Type.
    induction n as [|n IH]; intros params eta t.
    - exists 0. split; [easy|]. split; [easy|]. split; [intros; lia|]. right. easy.
    - set (P := dset String.eqb "eta"%string eta params).
      assert (Rep : forall t' e, reported P t' e <-> reported params t' e) by (intros; unfold reported, P; rewrite dset_dset; easy).
      assert (Step : (reported params t eta /\ bisect_loop build solver params eta t (S n) = (P, eta)) \/
                     (~ reported params t eta /\ bisect_loop build solver params eta t (S n) = bisect_loop build solver P (eta / 2)%Q (S t) n)).
      { cbn [bisect_loop]. fold P. unfold reported. fold P. destruct (build P) as [d|e]; cbn [bindr].
        - destruct (solver t d) as [st|e] eqn:E.
          + destruct (String.eqb_spec st "optimal") as [->|Hne]; [left; split; [eauto|easy]|right]. split; [|easy]. intros (d' & [= <-] & E'). congruence.
          + right. split; [|easy]. intros (d' & [= <-] & E'). congruence.
        - right. split; [|easy]. intros (d' & [=] & _). }
      destruct Step as [[R ->]|[R ->]].
      + exists 0. cbn [halved fst snd]. split; [lia|]. split; [easy|]. split; [intros; lia|]. left. rewrite Nat.add_0_r. split; [lia|]. easy.
      + destruct (IH P (eta / 2)%Q (S t)) as (k & Hk & H1 & H2 & H3). exists (S k). split; [lia|]. split; [exact H1|]. split.
        * intros [|j] Hj; [rewrite Nat.add_0_r; exact R|]. rewrite Nat.add_succ_r. intros Q. apply (H2 j ltac:(lia)). apply Rep. exact Q.
        * destruct H3 as [(A & B & C)|(A & C)].
          -- left. split; [lia|]. rewrite Nat.add_succ_r. split; [apply Rep, B|]. rewrite C. unfold P. rewrite dset_dset. easy.
          -- right. split; [lia|]. rewrite C. destruct n; [easy|]. unfold P. rewrite dset_dset. easy.
  Qed.
End Bisect.

(** * main statements *)
Section FixMain.
  Context {SY : sympy} (OK : sympy_ok SY).
  Variables (p : problem) (s : state).
  Hypothesis I : Inv s.
  Hypothesis Nd : NoDup (pr_params p).
  Hypothesis Hg : Forall good_param (pr_params p).
  Hypothesis Hd : declared p s.

  Lemma keys_perm params : keys_match params p = true -> Permutation (map fst params) (pr_params p).
  Proof using Type.
    unfold keys_match. destruct (list_eq_dec _ _ _) as [E|]; [|discriminate]. intros _. rewrite <- E. apply Permutation_sym, Permutation_sym, ssort_perm.
  Qed.
  Lemma dict_get (params : list (string * Q)) x q : NoDup (map fst params) -> In (x, q) params -> dict_env params x = Q2R q.
  Proof using Type.
    unfold dict_env. induction params as [|[y w] l IH]; intros Hn H; [destruct H|]. simpl in *. inversion Hn as [|? ? N1 N2]; subst.
    destruct (String.eqb_spec x y) as [->|Ne].
    - destruct H as [[= ->]|H]; [easy|]. exfalso. apply N1. apply (in_map fst) in H. exact H.
    - destruct H as [[= -> ->]|H]; [easy|]. apply IH; assumption.
  Qed.

  (** a feasible program at a dictionary proves the claim there *)
  Lemma fix_sound_inputs inp s' params d a v phi :
    own_pb s p -> sdp_inputs SY p s = (Ok inp, s') -> fix_sdp (st_ectr s) (st_pctr s) inp params = Ok d -> sdp_feasible d a ->
    (forall x, In x (pr_params p) -> v_env v x = dict_env params x) ->
    consistent v phi s -> constraints_hold v p -> constant_free p s ->
    exists e, pr_metric p = Some e /\ (den_e v e <= 0)%R.
  Proof using OK I Nd Hg Hd.
    intros HB Hi Hf Ha Hv Hc Hh Hcf. destruct inp as [[[sr Fs] Gs] nm].
    destruct (inputs_facts OK p s s' sr Fs Gs nm I Nd Hg Hd Hi) as (Es & _).
    destruct (fix_build_eq OK p s s' sr Fs Gs nm I Nd Hg Hd Hi params) as (W & wm & T & C & B0 & B1 & B2 & B3).
    destruct (vars_to_vector (nm_list nm) params) as [vv|e0] eqn:Ev; [|rewrite (B3 e0 eq_refl) in Hf; discriminate].
    destruct (Nat.eq_dec (sr_I sr + sr_E sr) 0) as [E0|N0]; [exfalso; apply (B0 E0 d Hf)|].
    destruct (Nat.eq_dec (sr_I sr + sr_E sr) 1) as [E1|N1]; [rewrite (B1 E1 vv eq_refl) in Hf; discriminate|].
    destruct (B2 ltac:(lia) vv eq_refl) as (d' & Ed & _ & Hfeas). rewrite Hf in Ed. injection Ed as <-.
    apply Hfeas in Ha as [Ha1 Ha2].
    destruct (fix_certificate p s sr Fs Gs nm Hg params _ _ W wm T C Ha1 Ha2) as (r & L & Hr & Ce).
    assert (Hon : env_on (v_env v) r (pr_params p)) by (intros x Hx; rewrite (Hr x Hx); apply Hv, Hx).
    assert (Ew : In (SObj, wm) (sr_exp sr)) by (rewrite (proj1 T); apply in_or_app; right; simpl; auto).
    destruct (certificate_sound SY OK s p sr s' wm (st_pctr s) L (with_env v r) phi I HB Es Ew Ce) as (e & Em & He).
    - eapply consistent_env; eauto.
    - eapply constraints_env; eauto.
    - exact Hcf.
    - exists e. split; [exact Em|]. rewrite <- (den_e_env v r (pr_params p)); [exact He|exact Hon|]. apply (proj1 Hd). exact Em.
  Qed.

  Lemma fix_unfold params sr d s' : fix_discr_sdp SY p params s = (Ok (sr, d), s') ->
    keys_match params p = true /\ exists Fs Gs nm, sdp_inputs SY p s = (Ok (sr, Fs, Gs, nm), s') /\ fix_sdp (st_ectr s) (st_pctr s) (sr, Fs, Gs, nm) params = Ok d.
  Proof using Type.
    unfold fix_discr_sdp. destruct (keys_match params p); [|discriminate]. destruct (sdp_inputs SY p s) as [[inp|] s1]; [|discriminate].
    destruct (fix_sdp (st_ectr s) (st_pctr s) inp params) as [d0|] eqn:Ef; [|discriminate]. destruct inp as [[[sr0 Fs] Gs] nm].
    cbn [fst]. intros [= -> -> ->]. split; [easy|]. exists Fs, Gs, nm. easy.
  Qed.
  Lemma fix_sound params sr d s' a v phi :
    own_pb s p -> fix_discr_sdp SY p params s = (Ok (sr, d), s') -> sdp_feasible d a ->
    (forall x q, In (x, q) params -> v_env v x = Q2R q) ->
    consistent v phi s -> constraints_hold v p -> constant_free p s ->
    exists e, pr_metric p = Some e /\ (den_e v e <= 0)%R.
  Proof using OK I Nd Hg Hd.
    intros HB Hf Ha Hv Hc Hh Hcf. destruct (fix_unfold _ _ _ _ Hf) as (Km & Fs & Gs & nm & Hi & Hs).
    apply (fix_sound_inputs _ s' params d a v phi HB Hi Hs Ha); try assumption.
    assert (P := keys_perm params Km). intros x Hx. apply (Permutation_in _ (Permutation_sym P)) in Hx. apply in_map_iff in Hx as ([y q] & <- & Hin).
    cbn [fst]. rewrite (Hv y q Hin). symmetry. apply dict_get; [|exact Hin]. apply (Permutation_NoDup (Permutation_sym P) Nd).
  Qed.
  Lemma fix_exact params sr d s' : fix_discr_sdp SY p params s = (Ok (sr, d), s') ->
    ((exists a, sdp_feasible d a) <->
     exists r w m P, In (SObj, w) (sr_exp sr) /\ (forall x q, In (x, q) params -> r x = Q2R q) /\
       certificate r sr w (st_pctr s) (st_ectr s) m P).
  Proof using OK I Nd Hg Hd.
    intros Hf. destruct (fix_unfold _ _ _ _ Hf) as (Km & Fs & Gs & nm & Hi & Hs). clear Hf.
    assert (Pm := keys_perm params Km). assert (Ndk := Permutation_NoDup (Permutation_sym Pm) Nd).
    destruct (fix_build_eq OK p s s' sr Fs Gs nm I Nd Hg Hd Hi params) as (W & wm & T & C & B0 & B1 & B2 & B3).
    destruct (vars_to_vector (nm_list nm) params) as [vv|e0] eqn:Ev; [|rewrite (B3 e0 eq_refl) in Hs; discriminate].
    destruct (Nat.eq_dec (sr_I sr + sr_E sr) 0) as [E0|N0]; [exfalso; apply (B0 E0 d Hs)|].
    destruct (Nat.eq_dec (sr_I sr + sr_E sr) 1) as [E1|N1]; [rewrite (B1 E1 vv eq_refl) in Hs; discriminate|].
    destruct (B2 ltac:(lia) vv eq_refl) as (d' & Ed & _ & Hfeas). rewrite Hs in Ed. injection Ed as <-.
    assert (Hw : forall w, In (SObj, w) (sr_exp sr) -> w = wm).
    { intros w H. assert (T0 := T). destruct T0 as (Ex & _ & _ & K & _). rewrite Ex in H. apply in_app_or in H as [H|[[= <-]|[]]]; [|easy].
      apply (in_map fst) in H. destruct (K _ H) as (? & ? & ? & ? & [=] & _). }
    split.
    - intros (a & Ha). apply Hfeas in Ha as [Ha1 Ha2]. destruct (fix_certificate p s sr Fs Gs nm Hg params _ _ W wm T C Ha1 Ha2) as (r & L & Hr & Ce).
      exists r, wm. eexists. exists L. split; [rewrite (proj1 T); apply in_or_app; right; simpl; auto|]. split; [|exact Ce].
      intros x q Hx. rewrite Hr; [apply dict_get; assumption|]. apply (Permutation_in _ Pm). apply (in_map fst) in Hx. exact Hx.
    - intros (r & w & m & P & Hin & Hr & Ce). rewrite (Hw w Hin) in Ce.
      assert (Hr' : forall x, In x (pr_params p) -> r x = dict_env params x).
      { intros x Hx. apply (Permutation_in _ (Permutation_sym Pm)) in Hx. apply in_map_iff in Hx as ([y q] & <- & Hx). cbn [fst].
        rewrite (Hr y q Hx). symmetry. apply dict_get; assumption. }
      destruct (certificate_fix p s sr Fs Gs nm Hg params r m P W wm T C Hr' Ce) as (lam & Z & Hp & HZ & _).
      set (nd := sr_I sr + sr_E sr) in *. set (dimG := st_pctr s) in *.
      exists (fun i => if Nat.ltb i nd then lam i else Z (Nat.div (i - nd) dimG) (Nat.modulo (i - nd) dimG)). apply Hfeas.
      assert (EZ : forall i j, j < dimG -> (if Nat.ltb (nd + i * dimG + j) nd then lam (nd + i * dimG + j) else Z ((nd + i * dimG + j - nd) / dimG) ((nd + i * dimG + j - nd) mod dimG)) = Z i j).
      { intros i j Hj. destruct (Nat.ltb_spec (nd + i * dimG + j) nd); [lia|]. replace (nd + i * dimG + j - nd) with (j + i * dimG) by lia.
        rewrite Nat.div_add, Nat.mod_add by lia. rewrite Nat.div_small, Nat.mod_small by exact Hj. easy. }
      split.
      + destruct Hp as (H1 & H2 & H3). split; [|split].
        * intros i Hi'. destruct (Nat.ltb_spec i nd); [apply H1, Hi'|unfold nd in *; lia].
        * intros k Hk. fold nd. rewrite (H2 k Hk). fold nd. apply rsum_ext. intros i Hi'. apply Nat.ltb_lt in Hi'. rewrite Hi'. easy.
        * intros a b Ha Hb. cbv beta. etransitivity; [|etransitivity; [apply (H3 a b Ha Hb)|]]; [rewrite <- (EZ a b Hb); reflexivity|]. fold nd. apply rsum_ext. intros i Hi'. apply Nat.ltb_lt in Hi'. rewrite Hi'. easy.
      + destruct HZ as [Z1 Z2]. split.
        * intros i j Hi' Hj. fold nd dimG. rewrite !EZ by assumption. apply Z1; assumption.
        * intros x. eapply Rle_trans; [apply (Z2 x)|]. right. apply rsum_ext. intros i Hi'. apply rsum_ext. intros j Hj. fold nd dimG. rewrite EZ by assumption. easy.
  Qed.
  (** when the program can be built *)
  Lemma fix_total params sr s' : symbolic SY p s = (Ok sr, s') -> keys_match params p = true ->
    (exists d, fix_discr_sdp SY p params s = (Ok (sr, d), s')) <-> 2 <= sr_I sr + sr_E sr.
  Proof using OK I Nd Hg Hd.
    intros Es Km. destruct (assembled OK p s sr s' I Es) as (W & wm & T).
    assert (D := declared_lists p s sr W wm T Hg Hd). destruct (coefficients_total OK (pr_params p) _ Nd D) as (Fs & Gs & nm & Ec).
    assert (Hi : sdp_inputs SY p s = (Ok (sr, Fs, Gs, nm), s')) by (unfold sdp_inputs; rewrite Es, Ec; easy).
    destruct (fix_build_eq OK p s s' sr Fs Gs nm I Nd Hg Hd Hi params) as (W' & wm' & T' & C & B0 & B1 & B2 & B3).
    assert (Hv : exists v, vars_to_vector (nm_list nm) params = Ok v).
    { apply vector_total. intros x Hx. assert (Q := names_parts (pr_params p) nm x (proj1 C) (params_nous p Hg) Hx). eapply Forall_impl; [|exact Q].
      intros y Hy. apply (Permutation_in _ (Permutation_sym (keys_perm params Km)) Hy). }
    destruct Hv as [v Ev]. unfold fix_discr_sdp. rewrite Km, Hi. cbn [fst]. split.
    - intros (d & E). destruct (fix_sdp (st_ectr s) (st_pctr s) (sr, Fs, Gs, nm) params) as [d0|] eqn:Ef; [|discriminate].
      destruct (Nat.eq_dec (sr_I sr + sr_E sr) 0) as [E0|N0]; [exfalso; apply (B0 E0 d0 eq_refl)|].
      destruct (Nat.eq_dec (sr_I sr + sr_E sr) 1) as [E1|N1]; [specialize (B1 E1 v Ev); discriminate|]. lia.
    - intros H2. destruct (B2 H2 v Ev) as (d & -> & _). eauto.
  Qed.
  Lemma fix_single params sr s' : symbolic SY p s = (Ok sr, s') -> keys_match params p = true -> sr_I sr + sr_E sr = 1 ->
    fix_discr_sdp SY p params s = (Err ValueError, s').
  Proof using OK I Nd Hg Hd.
    intros Es Km H1. destruct (assembled OK p s sr s' I Es) as (W & wm & T).
    assert (D := declared_lists p s sr W wm T Hg Hd). destruct (coefficients_total OK (pr_params p) _ Nd D) as (Fs & Gs & nm & Ec).
    assert (Hi : sdp_inputs SY p s = (Ok (sr, Fs, Gs, nm), s')) by (unfold sdp_inputs; rewrite Es, Ec; easy).
    destruct (fix_build_eq OK p s s' sr Fs Gs nm I Nd Hg Hd Hi params) as (W' & wm' & T' & C & B0 & B1 & B2 & B3).
    assert (Hv : exists v, vars_to_vector (nm_list nm) params = Ok v).
    { apply vector_total. intros x Hx. assert (Q := names_parts (pr_params p) nm x (proj1 C) (params_nous p Hg) Hx). eapply Forall_impl; [|exact Q].
      intros y Hy. apply (Permutation_in _ (Permutation_sym (keys_perm params Km)) Hy). }
    destruct Hv as [v Ev]. unfold fix_discr_sdp. rewrite Km, Hi, (B1 H1 v Ev). easy.
  Qed.

  (** ** bisection *)
  Definition eta0 (params : list (string * Q)) : Q := match dget String.eqb "eta"%string params with Some q => q | None => 10%Q end.
  Lemma bisection_unfold solver params n ps q s' : bisection_eta SY solver p params n s = (Ok (ps, q), s') ->
    keys_match params p = true /\ exists inp, sdp_inputs SY p s = (Ok inp, s') /\
      bisect_loop (fix_sdp (st_ectr s) (st_pctr s) inp) solver params (eta0 params) 0 n = (ps, q).
  Proof using Type.
    unfold bisection_eta. destruct (keys_match params p); [|discriminate]. destruct (sdp_inputs SY p s) as [[inp|] s1]; [|discriminate].
    fold (eta0 params). intros [= E <-]. split; [easy|]. exists inp. easy.
  Qed.
  Lemma fix_sdp_same params inp s' : sdp_inputs SY p s = (Ok inp, s') ->
    forall d, fix_sdp (st_ectr s) (st_pctr s) inp params = Ok d -> keys_match params p = true -> exists sr, fix_discr_sdp SY p params s = (Ok (sr, d), s').
  Proof using Type. intros Hi d Hf Km. unfold fix_discr_sdp. rewrite Km, Hi, Hf. eauto. Qed.
  Lemma dset_keys x (q : Q) l : In x (map fst l) -> map fst (dset String.eqb x q l) = map fst l.
  Proof using Type.
    induction l as [|[y w] l IH]; simpl; [easy|]. intros H. destruct (String.eqb_spec x y) as [->|Ne]; [easy|]. simpl. f_equal. apply IH. destruct H; [congruence|easy].
  Qed.
  Lemma dset_other x y (q : Q) l : x <> y -> dget String.eqb x (dset String.eqb y q l) = dget String.eqb x l.
  Proof using Type.
    intros H. induction l as [|[z w] l IH]; simpl.
    - destruct (String.eqb_spec x y); [easy|easy].
    - destruct (String.eqb_spec y z) as [->|Ne]; simpl.
      + destruct (String.eqb_spec x z); [congruence|easy].
      + destruct (String.eqb_spec x z); [easy|exact IH].
  Qed.
  Lemma dset_same x (q : Q) l : dget String.eqb x (dset String.eqb x q l) = Some q.
  Proof using Type. induction l as [|[z w] l IH]; simpl; [rewrite String.eqb_refl; easy|]. destruct (String.eqb x z) eqn:E; simpl; rewrite E; [easy|exact IH]. Qed.

  (** what the call to fix_discr_sdp for the value q says: with eta among the
      parameters this is solve_fix_discr_sdp at params with eta = q *)
  Lemma bisection_spec solver params n ps q s' : bisection_eta SY solver p params n s = (Ok (ps, q), s') ->
    exists inp k, sdp_inputs SY p s = (Ok inp, s') /\ k <= n /\ q = halved (eta0 params) k /\
      (forall j, j < k -> ~ reported (fix_sdp (st_ectr s) (st_pctr s) inp) solver params j (halved (eta0 params) j)) /\
      ((k < n /\ reported (fix_sdp (st_ectr s) (st_pctr s) inp) solver params k q /\ ps = dset String.eqb "eta"%string q params) \/
       (k = n /\ ps = match n with O => params | S n' => dset String.eqb "eta"%string (halved (eta0 params) n') params end)).
  Proof using Type.
    intros H. destruct (bisection_unfold _ _ _ _ _ _ H) as (_ & inp & Hi & Hb).
    destruct (bisect_spec (fix_sdp (st_ectr s) (st_pctr s) inp) solver n params (eta0 params) 0) as (k & K1 & K2 & K3 & K4).
    rewrite Hb in K2, K4. cbn [fst snd] in K2, K4. exists inp, k. split; [exact Hi|]. split; [exact K1|]. split; [exact K2|].
    split; [exact K3|]. rewrite K2. exact K4.
  Qed.

  Lemma bisection_sound solver params n ps q s' v phi :
    (forall t d, solver t d = Ok "optimal"%string -> exists a, sdp_feasible d a) ->
    bisection_eta SY solver p params n s = (Ok (ps, q), s') ->
    0 < n -> ~ (eta0 params == 0)%Q -> dget String.eqb "eta"%string ps = Some q ->
    own_pb s p -> (forall x, In x (pr_params p) -> v_env v x = dict_env ps x) ->
    consistent v phi s -> constraints_hold v p -> constant_free p s ->
    exists e, pr_metric p = Some e /\ (den_e v e <= 0)%R.
  Proof using OK I Nd Hg Hd.
    intros Hsol H Hn Hz Hps HB Hv Hc Hh Hcf. destruct (bisection_spec _ _ _ _ _ _ H) as (inp & k & Hi & _ & Hq & _ & [(Hk & (d & Hf & Hs) & ->)|(Hk & ->)]).
    - destruct (Hsol _ _ Hs) as (a & Ha). apply (fix_sound_inputs inp s' _ d a v phi HB Hi Hf Ha Hv Hc Hh Hcf).
    - exfalso. destruct n as [|n]; [lia|]. rewrite dset_same in Hps. injection Hps as Hps. rewrite Hq, Hk, halved_S in Hps.
      assert (E : (Q2R (halved (eta0 params) n) = Q2R (halved (eta0 params) n) / 2)%R).
      { rewrite Hps at 1. unfold Qdiv. rewrite Qreals.Q2R_mult. unfold Q2R at 2. simpl. lra. }
      rewrite halved_val in E. assert (P2 : (0 < / 2 ^ n)%R) by (apply Rinv_0_lt_compat, pow_lt; lra).
      assert (Q2R (eta0 params) <> 0)%R. { intros Q0. apply Hz. apply eqR_Qeq. rewrite Q0. symmetry. apply Q2R_0'. }
      unfold Rdiv in E. set (u := (/ 2 ^ n)%R) in *. assert (Hu : (Q2R (eta0 params) * u = 0)%R) by lra. apply Rmult_integral in Hu as [Hu|Hu]; lra.
  Qed.
End FixMain.
