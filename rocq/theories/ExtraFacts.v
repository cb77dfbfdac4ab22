(** solve_gp never reaches the optimiser when an interpolation constraint
    contributes; what [solve] returns; the three Ipopt programs compared. *)
From Coq Require Import List Arith Bool String Ascii QArith Reals Qreals Lra Lia Permutation.
From Coq Require Import Decimal DecimalString Numbers.DecimalNat.
From Verif Require Import Prelude PreludeFacts Sympy SympyFacts AlgebraModel Denote AlgebraFacts FunctionModel CircuitModel SymSpec
  GramFacts SymFacts Spec ClassSpec CertSpec StateSpec SessionModel StateFacts CertFacts ClassProps RepeatFacts SymbolFacts ParsingModel
  ParsingSpec SolverModel ParsingFacts CoeffFacts SolverSpec SolverFacts IpoptFacts IpoptTail IpoptProof IpoptComplete SolverProps
  QcqpModel QcqpSpec QcqpFacts QcqpFacts2 QcqpBuild QcqpProof QcqpMain SdpModel SdpSpec SdpFacts SdpRelax ExtraModel ExtraSpec.
Import ListNotations.
Local Open Scope nat_scope.
Local Open Scope string_scope.

(** * names *)
Lemma uint_noh d : has_char "h"%char (NilEmpty.string_of_uint d) = false.
Proof. induction d; simpl; try (rewrite IHd); easy. Qed.
Lemma nat_str_noh n : has_char "h"%char (nat_str n) = false.
Proof. rewrite nat_str_empty. apply uint_noh. Qed.
Lemma block_name_ne f g : lamb_prefix f <> gp_block_name g.
Proof.
  intros E. apply (f_equal (has_char "h"%char)) in E. unfold gp_block_name in E. rewrite has_char_app in E. unfold lamb_prefix in E.
  rewrite !has_char_app, !nat_str_noh in E. discriminate E.
Qed.
Lemma lamb0_shift f : lamb_prefix f = "lamb0" -> f = 0.
Proof. unfold lamb_prefix. intros E. apply (string_app_inj_l "lamb" _ "0") in E. apply (nat_str_inj f 0). exact E. Qed.
Lemma lamb_prefix_char f s : String.prefix "lamb" s = false -> lamb_prefix f <> s.
Proof. intros H E. subst s. unfold lamb_prefix in H. rewrite prefix_refl_app in H. discriminate H. Qed.

(** * the translation leaves the model unchanged and looks up every name *)
Lemma gp_prefixes_same l : forall pre o u o', gp_prefixes pre l o = Ok (u, o') -> o' = o.
Proof.
  induction l as [|x l IH]; intros pre o u o' H; simpl in H; [injection H as _ <-; easy|].
  apply obind_ok in H as (b & o1 & Hb & H). unfold has_var in Hb. injection Hb as <- <-. destruct (dmem _ _ _); [|discriminate]. eapply IH; exact H.
Qed.
Lemma gp_linearize_same m o e o' : gp_linearize_monomial m o = Ok (e, o') -> o' = o.
Proof.
  unfold gp_linearize_monomial. destruct (ssort m) as [|x l]; [intros [= _ <-]; easy|]. intros H.
  apply obind_ok in H as (u & o1 & H1 & H). apply gp_prefixes_same in H1 as ->. apply obind_ok in H as (v & o2 & H2 & H).
  unfold get_var in H2. destruct (dget _ _ _); [|discriminate]. injection H2 as <- <-. apply olift_ok in H as [_ ->]. easy.
Qed.
Lemma get_entry_same p i j o e o' : get_entry p i j o = Ok (e, o') -> o' = o /\ dget String.eqb p (op_vars o) <> None.
Proof.
  unfold get_entry. intros H. apply obind_ok in H as (v & o1 & H1 & H). unfold get_var in H1. destruct (dget _ _ _) eqn:E; [|discriminate].
  injection H1 as <- <-. destruct (_ && _)%bool; [|discriminate]. injection H as _ <-. split; [easy|discriminate].
Qed.
Lemma gp_dual_same name rest o e o' :
  (ado r <- olift (parse_dual name); let '(prefix, a, b) := r in ado e <- get_entry prefix a b; ado m <- gp_linearize_monomial rest; oret (CMul e m)) o = Ok (e, o') ->
  o' = o /\ exists p i j, parse_dual name = Ok (p, i, j) /\ dget String.eqb p (op_vars o) <> None.
Proof.
  intros H. apply obind_ok in H as ([[p i] j] & o1 & H1 & H). apply olift_ok in H1 as [H1 ->].
  apply obind_ok in H as (x & o2 & H2 & H). apply get_entry_same in H2 as [-> H2]. apply obind_ok in H as (m & o3 & H3 & H). apply gp_linearize_same in H3 as ->.
  injection H as _ <-. split; [easy|]. eauto.
Qed.
Lemma gp_monomial_same vs o e o' : gp_monomial vs o = Ok (e, o') -> o' = o /\
  forall v, In v vs -> isL v = true -> exists p i j, parse_dual v = Ok (p, i, j) /\ dget String.eqb p (op_vars o) <> None.
Proof.
  unfold gp_monomial. destruct vs as [|v0 vs0]; [intros [= _ <-]; split; [easy|intros v []]|]. set (vs := v0 :: vs0).
  destruct (find_lambda_nu 0 vs (0, 0, 0, 0)) as [[[cl cn] il] iu] eqn:E. apply find_spec in E as (A & B & _ & _ & F & _). simpl in A, B.
  destruct (Nat.leb_spec (cn + cl) 1) as [Hle|]; [|discriminate]. destruct (Nat.ltb_spec 0 cl) as [Hc|Hc].
  - intros H. apply gp_dual_same in H as (-> & D). split; [easy|]. intros v Hv Lv. destruct F as (k & -> & K1 & K2 & K3); [lia|]. simpl in D.
    assert (Ev : v = nth k vs ""); [|rewrite Ev; exact D].
    assert (P := pop_perm k vs "" K1). apply (Permutation_in _ (Permutation_sym P)) in Hv as [Hv|Hv]; [easy|]. rewrite (K3 v Hv) in Lv. discriminate.
  - assert (Z : cnt isL vs = 0) by lia. rewrite cnt_zero in Z. intros H. split.
    + destruct (Nat.ltb 0 cn); [apply gp_dual_same in H; easy|eapply gp_linearize_same; exact H].
    + intros v Hv Lv. rewrite (Z v Hv) in Lv. discriminate.
Qed.

Section Gp.
  Context {SY : sympy} (OK : sympy_ok SY).

  (** [dead v]: translating a monomial with factor [v] raises *)
  Definition dead (o : opti) (v : string) : Prop := exists f i j, v = dual_name (lamb_prefix f) i j /\ dget String.eqb (lamb_prefix f) (op_vars o) = None.
  Lemma dead_dual f i j : isL (dual_name (lamb_prefix f) i j) = true.
  Proof using Type. unfold isL, dual_name, lamb_prefix. simpl. destruct (nat_str f ++ _)%string; easy. Qed.
  Lemma gp_no_dead vs o e o' : gp_monomial vs o = Ok (e, o') -> forall v, In v vs -> ~ dead o v.
  Proof using Type.
    intros H v Hv (f & i & j & -> & D). apply gp_monomial_same in H as [_ H]. destruct (H _ Hv (dead_dual f i j)) as (p & i' & j' & Ep & N).
    rewrite (parse_dual_name _ _ _ (lamb_prefix_nobar f)) in Ep. injection Ep as <- _ _. easy.
  Qed.
  Lemma gp_terms_dep gens l : forall acc o e o' r r', casadi_terms gp_monomial gens l acc o = Ok (e, o') ->
    (forall v, ~ dead o v -> r v = r' v) -> o' = o /\
    lsum (fun t => Q2R (snd t) * mono_val (long r) gens (fst t))%R l = lsum (fun t => Q2R (snd t) * mono_val (long r') gens (fst t))%R l.
  Proof using Type.
    induction l as [|[ex q] l IH]; intros acc o e o' r r' H Hr; simpl in H; [injection H as _ <-; easy|].
    apply obind_ok in H as (m & o1 & Hm & H). assert (Hm0 := Hm). apply gp_monomial_same in Hm0 as [-> _].
    destruct (IH _ _ _ _ r r' H Hr) as [-> Hl]. split; [easy|]. rewrite !lsum_cons, Hl. f_equal. cbn [fst snd]. f_equal.
    assert (Pr : forall q', mono_val (long q') gens ex = prod_of q' (mono_vars split_us gens ex)) by (intros q'; rewrite mono_vars_prod; easy).
    rewrite !Pr. apply prod_ext. intros v Hv. apply Hr. eapply gp_no_dead; eassumption.
  Qed.
  Lemma gp_expr_dep x o e o' r r' : sympy_expression_to_gurobi SY x o = Ok (e, o') -> (forall v, ~ dead o v -> r v = r' v) ->
    o' = o /\ ev (long r) x = ev (long r') x.
  Proof using OK.
    unfold sympy_expression_to_gurobi, casadi_expr. destruct (numeric SY x) eqn:N.
    - destruct (numeric_float OK _ N) as [q [Hq Hv]]. rewrite Hq. intros [= _ <-] _. split; [easy|]. rewrite !Hv. easy.
    - intros H Hr. destruct (gp_terms_dep _ _ _ _ _ _ r r' H Hr) as [-> E]. split; [easy|].
      fold (poly_val (long r) (poly SY (simp SY x))) in E. fold (poly_val (long r') (poly SY (simp SY x))) in E. rewrite !(poly_ev _ OK), !(simp_ev _ OK) in E. exact E.
  Qed.
  Lemma gp_matrix_dep l : forall o es o' r r', sympy_matrix_to_gurobi SY l o = Ok (es, o') -> (forall v, ~ dead o v -> r v = r' v) ->
    o' = o /\ forall x, In x l -> ev (long r) x = ev (long r') x.
  Proof using OK.
    induction l as [|x l IH]; intros o es o' r r' H Hr; simpl in H; [injection H as _ <-; split; easy|].
    apply obind_ok in H as (c & o1 & Hc & H). destruct (gp_expr_dep _ _ _ _ r r' Hc Hr) as [-> Ex]. apply obind_ok in H as (cs & o2 & Hcs & H).
    injection H as _ <-. destruct (IH _ _ _ r r' Hcs Hr) as [-> El]. split; [easy|]. intros y [<-|Hy]; auto.
  Qed.

  (** * the created names *)
  Definition keeps_names {A} (m : OM A) (new : string -> Prop) : Prop := forall o u o', m o = Ok (u, o') ->
    forall n, dget String.eqb n (op_vars o') <> None -> dget String.eqb n (op_vars o) <> None \/ new n.
  Lemma keeps_ret {A} (x : A) new : keeps_names (oret x) new.
  Proof using Type. intros o u o' [= _ <-]; auto. Qed.
  Lemma keeps_subject c new : keeps_names (subject_to c) new.
  Proof using Type. intros o u o' H. unfold subject_to in H. injection H as _ <-. cbn [op_vars]. auto. Qed.
  Lemma keeps_bind {A B} (m : OM A) (k : A -> OM B) new : keeps_names m new -> (forall u, keeps_names (k u) new) -> keeps_names (obind m k) new.
  Proof using Type. intros Hm Hk o u o' H n Hn. apply obind_ok in H as (x & o1 & H1 & H). destruct (Hk x _ _ _ H n Hn) as [Q|Q]; [|auto]. apply (Hm _ _ _ H1 n Q). Qed.
  Lemma keeps_iter {A} (f : A -> OM unit) l new : (forall x, In x l -> keeps_names (f x) new) -> keeps_names (oiter f l) new.
  Proof using Type.
    induction l as [|x l IH]; intros Hf; simpl; [apply keeps_ret|]. apply keeps_bind; [apply Hf; simpl; auto|]. intros _. apply IH. intros; apply Hf; simpl; auto.
  Qed.
  Lemma keeps_gp_block name r c lb ub (new : string -> Prop) : new name -> keeps_names (gp_block name r c lb ub) new.
  Proof using Type.
    intros Hn o u o' H n Hk. unfold gp_block in H. apply obind_ok in H as (v & o1 & H1 & H). unfold opti_variable in H1. injection H1 as <- <-.
    apply obind_ok in H as (u2 & o2 & H2 & H). unfold set_var in H2. injection H2 as _ <-.
    assert (K : keeps_names (oiter (fun i => ado _ <- subject_to (CGe (CVar i) (CNum lb)); subject_to (CGe (CNum ub) (CVar i))) (cv_ids (mkCV r c (op_next o)))) new).
    { apply keeps_iter. intros. apply keeps_bind; [apply keeps_subject|intros; apply keeps_subject]. }
    destruct (K _ _ _ H n Hk) as [Q|Q]; [|auto]. cbn [op_vars] in Q. destruct (string_dec n name) as [->|Ne]; [auto|].
    rewrite (dget_dset_other String.eqb String.eqb_eq) in Q by exact Ne. auto.
  Qed.
  Lemma keeps_bound_list ids ub lb new : keeps_names (bound_list ids ub lb) new.
  Proof using Type.
    unfold bound_list. apply keeps_bind; [destruct ub; [apply keeps_iter; intros; apply keeps_subject|apply keeps_ret]|].
    intros _. destruct lb; [apply keeps_iter; intros; apply keeps_subject|apply keeps_ret].
  Qed.
  Lemma keeps_gp_bound name ub lb new : keeps_names (gp_bound name ub lb) new.
  Proof using Type.
    intros o u o' H. unfold gp_bound in H. apply obind_ok in H as (v & o1 & H1 & H). unfold get_var in H1. destruct (dget _ _ _); [|discriminate].
    injection H1 as <- <-. apply (keeps_bound_list _ _ _ new _ _ _ H).
  Qed.
  Lemma keeps_gp_bounds b new : keeps_names (gp_bounds b) new.
  Proof using Type.
    destruct b as [b|]; [|apply keeps_ret]. apply keeps_iter. intros [n [ub lb]] _ o u o' H. apply obind_ok in H as (k & o1 & H1 & H). unfold has_var in H1. injection H1 as <- <-.
    destruct (dmem _ _ _); [apply (keeps_gp_bound _ _ _ new _ _ _ H)|apply (keeps_ret _ new _ _ _ H)].
  Qed.
  Lemma keeps_fun_blocks b sizes : forall idx (new : string -> Prop), (forall g, new (gp_block_name g)) -> keeps_names (gp_fun_blocks b idx sizes) new.
  Proof using Type.
    induction sizes as [|n l IH]; intros idx new Hn; simpl; [apply keeps_ret|]. apply keeps_bind; [apply keeps_gp_block, Hn|]. intros _.
    apply keeps_bind; [|intros _; apply IH, Hn]. destruct b as [b|]; [|apply keeps_ret]. destruct (dget _ _ _) as [[ub lb]|]; [apply keeps_gp_bound|apply keeps_ret].
  Qed.
  Definition fixed_names : list string := ["eta"; "rho"; "h"; "gamma"; "alpha"; "beta"; "P"].
  Lemma keeps_get name new : keeps_names (get_var name) new.
  Proof using Type. intros o u o' H. unfold get_var in H. destruct (dget _ _ _); [|discriminate]. injection H as _ <-. auto. Qed.
  Lemma keeps_head b dimG : keeps_names (gp_head b dimG) (fun n => In n fixed_names).
  Proof using Type.
    unfold gp_head.
    refine (keeps_bind _ _ _ _ (fun _ => keeps_bind _ _ _ _ (fun _ => keeps_bind _ _ _ _ (fun _ => keeps_bind _ _ _ _ (fun _ => keeps_bind _ _ _ _ (fun _ => keeps_bind _ _ _ _ (fun _ => keeps_ret _ _))))))).
    - apply keeps_iter. intros x Hx. apply keeps_gp_block. repeat (destruct Hx as [<-|Hx]; [cbn [fst]; unfold fixed_names; simpl; tauto|]). destruct Hx.
    - apply keeps_gp_block. unfold fixed_names; simpl; tauto.
    - apply keeps_get.
    - apply keeps_gp_bounds.
    - apply keeps_iter. intros. apply keeps_subject.
    - apply keeps_iter. intros. destruct (Nat.ltb _ _); [apply keeps_subject|apply keeps_ret].
  Qed.
  Lemma head_names b dimG P o1 : gp_head b dimG opti0 = Ok (P, o1) -> forall n, dget String.eqb n (op_vars o1) <> None -> In n fixed_names.
  Proof using Type. intros H n Hn. destruct (keeps_head b dimG _ _ _ H n Hn) as [Q|Q]; [exfalso; apply Q; reflexivity|exact Q]. Qed.
  Lemma multiplier_missing p b sr sizes dimG P o1 u o2 f : gp_head b dimG opti0 = Ok (P, o1) -> gp_multipliers p b sr sizes o1 = Ok (u, o2) ->
    sr_E sr = List.length (eqs p) -> shift_of p <= f -> dget String.eqb (lamb_prefix f) (op_vars o2) = None.
  Proof using Type.
    intros Hh Hm HE Hf. assert (Hlen := eqs_ineqs_length p).
    set (ineq_size := match pr_cons p with [] => 0 | _ => List.length (pr_cons p) - sr_E sr end).
    assert (Hs : 1 <= ineq_size -> 1 <= f).
    { intros Hi. unfold shift_of in Hf. destruct (ineqs p) eqn:Ei; [|exact Hf]. cbn [List.length] in Hlen. unfold ineq_size in Hi. rewrite HE in Hi. generalize dependent (List.length (eqs p)); intros q; intros; destruct (pr_cons p); cbn [List.length] in *; lia. }
    set (new := fun n => In n fixed_names \/ (n = "lamb0" /\ 1 <= ineq_size) \/ n = "nu0" \/ exists g, n = gp_block_name g).
    assert (K : keeps_names (gp_multipliers p b sr sizes) new).
    { unfold gp_multipliers. fold ineq_size. apply keeps_bind.
      - destruct (Nat.leb_spec 1 ineq_size); [apply keeps_gp_block; unfold new; auto|apply keeps_ret].
      - intros _. apply keeps_bind; [destruct (Nat.leb _ _); [apply keeps_gp_block; unfold new; auto|apply keeps_ret]|].
        intros _. apply keeps_fun_blocks. intros g. unfold new. right. right. right. eauto. }
    destruct (dget String.eqb (lamb_prefix f) (op_vars o2)) as [v|] eqn:E; [|easy]. exfalso.
    assert (Hnew : new (lamb_prefix f)).
    { destruct (K _ _ _ Hm (lamb_prefix f)) as [Q|Q]; [congruence| |exact Q]. left. apply (head_names _ _ _ _ Hh _ Q). }
    destruct Hnew as [Q|[[Q1 Q2]|[Q|[g Q]]]].
    - unfold fixed_names in Q. repeat (destruct Q as [Q|Q]; [symmetry in Q; revert Q; apply lamb_prefix_char; reflexivity|]). destruct Q.
    - apply lamb0_shift in Q1. specialize (Hs Q2). lia.
    - revert Q. apply lamb_prefix_char. reflexivity.
    - revert Q. apply block_name_ne.
  Qed.

  (** * the assembled sums use simple names *)
  Lemma simple_sums p s sr s1 : Inv s -> Forall good_param (pr_params p) -> declared p s -> symbolic SY p s = (Ok sr, s1) -> fg_all simple_name (sr_sum sr).
  Proof using OK.
    intros I Hg (D1 & D2 & D3) Es. unfold symbolic in Es. set (funs := leaf_funs (st_flist s) s) in *.
    assert (Hnd : NoDup funs) by (apply leaf_funs_nodup, (inv_flist s I)).
    assert (Hin : forall f, In f funs -> In f (st_flist s)) by (intros f Hf; apply leaf_funs_in in Hf; easy).
    assert (Simple : Forall simple_name (pr_params p)).
    { eapply Forall_impl; [|exact Hg]. intros a Ha. apply Ha. }
    assert (Pl : forall f i j, simple_name (dual_name (lamb_prefix f) i j)).
    { intros f i j. apply simple_has. apply dual_nous. apply lamb_prefix_nous. }
    assert (Pn : forall i j, simple_name (dual_name "nu0" i j)).
    { intros i j. apply simple_has. apply dual_nous. reflexivity. }
    apply (csm_all OK simple_name _ _ Pl Pn p funs s sr s1 Es Hnd).
    - intros f Hf. destruct (inv_funs s I f (Hin f Hf)) as [fn [E Hok]]. exists fn. split; [exact E|].
      split; [apply Hok|]. intros t Ht. apply leaf_funs_in in Hf as [Hf [fn' [E' El]]]. rewrite E in E'. injection E' as <-.
      destruct (D3 f fn t Hf E El Ht) as (A & B & C). split; [|split]; eauto using pt_all_params, ex_all_params.
    - intros c Hc. eapply ex_all_params; [exact (D2 c Hc)|exact Simple].
  Qed.

  (** changing one multiplier changes the sum by the weights of that constraint *)
  Lemma lsum_one {A} (f g : A -> R) (l : list A) (d : A) key (h : A -> string) : NoDup (map h l) -> In d l -> h d = key ->
    (forall x, In x l -> h x <> key -> f x = g x) -> (lsum f l - lsum g l = f d - g d)%R.
  Proof using Type.
    induction l as [|x l IH]; intros Nd Hd Hk Hx; [destruct Hd|]. rewrite !lsum_cons. inversion Nd; subst. destruct Hd as [<-|Hd].
    - assert (E : lsum f l = lsum g l); [|rewrite E; lra]. apply lsum_ext. intros y Hy. apply Hx; [simpl; auto|]. intros Q. apply H1. rewrite <- Q. apply in_map, Hy.
    - rewrite (Hx x (or_introl eq_refl)); [|intros Q; apply H1; rewrite Q; apply in_map, Hd]. specialize (IH H2 Hd eq_refl ltac:(intros; apply Hx; simpl; auto)). lra.
  Qed.

  Lemma gp_model_ok p b s n s' : gp_model SY p b s = (Ok n, s') -> exists P o1 u o2 w z1 z2,
    gp_head b (st_pctr s) opti0 = Ok (P, o1) /\ symbolic SY p s = (Ok (nlp_sym n), s') /\
    gp_multipliers p b (nlp_sym n) (rec_sizes (leaf_funs (st_flist s) s) s') o1 = Ok (u, o2) /\ obj_weights (nlp_sym n) = Ok w /\
    sympy_matrix_to_gurobi SY (z1_entries SY (nlp_sym n) w (st_ectr s)) o2 = Ok (z1, o2) /\
    sympy_matrix_to_gurobi SY (z2_entries SY (nlp_sym n) w (st_pctr s)) o2 = Ok (z2, o2).
  Proof using OK.
    unfold gp_model. intros H. destruct (gp_head b (st_pctr s) opti0) as [[P o1]|] eqn:Eh; [|discriminate H].
    destruct (symbolic SY p s) as [[sr|] s1] eqn:Es; [|discriminate H].
    destruct (gp_tail SY p b sr (rec_sizes (leaf_funs (st_flist s) s) s1) (st_pctr s) (st_ectr s) P o1) as [[obj o]|] eqn:Et; [|discriminate H].
    injection H as <- <-. cbn [nlp_sym]. unfold gp_tail in Et. apply obind_ok in Et as (u & o2 & Em & Et).
    apply obind_ok in Et as (w0 & o3 & E0 & Et). apply olift_ok in E0 as [E0 ->].
    apply obind_ok in Et as (z1 & o3 & E1 & Et). apply obind_ok in Et as (z2 & o4 & E2 & Et).
    assert (o3 = o2) as -> by (apply (gp_matrix_dep _ _ _ _ (fun _ => 0%R) (fun _ => 0%R) E1 (fun _ _ => eq_refl))).
    assert (o4 = o2) as -> by (apply (gp_matrix_dep _ _ _ _ (fun _ => 0%R) (fun _ => 0%R) E2 (fun _ _ => eq_refl))).
    exists P, o1, u, o2, w0, z1, z2. repeat split; assumption.
  Qed.

  Lemma obj_weights_last sr W wm : sr_exp sr = (W ++ [(SObj, wm)])%list -> (forall k, In k (map fst W) -> exists b f i j, k = SK b f i j /\ b <= 1) ->
    obj_weights sr = Ok wm.
  Proof using Type.
    intros E Kk. unfold obj_weights. rewrite E. assert (Hno : ~ In SObj (map fst W)) by (intros Q; destruct (Kk _ Q) as (? & ? & ? & ? & [=] & _)).
    clear -Hno. induction W as [|[k w'] W IH]; simpl; [easy|]. simpl in Hno. destruct k; simpl; [apply IH; tauto|tauto].
  Qed.

  Lemma changed_sum (sel : fgw -> sexpr) (params : list string) (key : string) r sr wm (W : list (skey * fgw)) k w :
    let r' := fun x => if String.eqb x key then (r x + 1)%R else r x in
    (forall x, In x params -> x <> key) -> (forall x, In x params -> simple_name x) -> NoDup (map dual_of (map fst W)) -> In (k, w) W -> dual_of k = key ->
    (forall kw, In kw W -> forall x, In x (free (sel (snd kw))) -> In x params) -> (forall x, In x (free (sel wm)) -> In x params) ->
    (forall q, ev q (sel (sr_sum sr)) = lsum (fun kw => q (dual_of (fst kw)) * ev q (sel (snd kw)))%R W) ->
    (forall x, In x (free (sel (sr_sum sr))) -> simple_name x) ->
    ev (long r) (linearize_expression SY (ssub (sel (sr_sum sr)) (sel wm))) = ev (long r') (linearize_expression SY (ssub (sel (sr_sum sr)) (sel wm))) ->
    ev r (sel w) = 0%R.
  Proof using OK.
    intros r' Hk Sp Nd HwW Ek Q1 Q2 Q3 Q4 Q5.
    assert (Hpar : forall x, In x params -> r x = r' x) by (intros x Hx; unfold r'; destruct (String.eqb_spec x key) as [->|]; [exfalso; apply (Hk _ Hx); easy|easy]).
    assert (Sx : simple_symbols (ssub (sel (sr_sum sr)) (sel wm))) by (apply simple_ssub; intros x Hx; [apply Q4, Hx|apply Sp, Q2, Hx]).
    rewrite !(linearize_ev OK) in Q5 by exact Sx. rewrite !ssub_ev in Q5.
    assert (Em' : ev r (sel wm) = ev r' (sel wm)) by (apply ev_free_ext; intros x Hx; apply Hpar, Q2, Hx).
    rewrite Em' in Q5. assert (Q6 : ev r (sel (sr_sum sr)) = ev r' (sel (sr_sum sr))) by lra. rewrite !Q3 in Q6.
    assert (Q7 := lsum_one (fun kw => r (dual_of (fst kw)) * ev r (sel (snd kw)))%R (fun kw => r' (dual_of (fst kw)) * ev r' (sel (snd kw)))%R W (k, w) key (fun kw => dual_of (fst kw))).
    rewrite Q6 in Q7. cbv beta in Q7. cbn [fst snd] in Q7. rewrite map_map in Nd. specialize (Q7 Nd HwW Ek).
    assert (Es' : ev r (sel w) = ev r' (sel w)) by (apply ev_free_ext; intros x Hx; apply Hpar; apply (Q1 _ HwW x Hx)).
    rewrite Ek, <- Es' in Q7. assert (Rk : r' key = (r key + 1)%R) by (unfold r'; rewrite String.eqb_refl; easy). rewrite Rk in Q7.
    enough (0 = r key * ev r (sel w) - (r key + 1) * ev r (sel w))%R by lra. rewrite <- Q7; [lra|].
    intros kw Hkw Hne. f_equal; [unfold r'; destruct (String.eqb_spec (dual_of (fst kw)) key); easy|]. apply ev_free_ext. intros x Hx. apply Hpar, (Q1 kw Hkw x Hx).
  Qed.

  Lemma eq_count p s sr s' : Inv s -> symbolic SY p s = (Ok sr, s') -> sr_E sr = List.length (eqs p).
  Proof using Type.
    intros I Es. unfold symbolic in Es. set (funs := leaf_funs (st_flist s) s) in *.
    assert (Hin' : forall g, In g funs -> In g (st_flist s)) by (intros g Hgn; apply leaf_funs_in in Hgn; apply Hgn).
    destruct (csm_spec SY _ _ p funs (funs_of s funs) s sr s' Es) as (W0 & m0 & wm0 & _ & _ & _ & _ & _ & HE & _); [apply leaf_funs_nodup, (inv_flist s I)|apply fresh_funs; assumption|exact HE].
  Qed.

  Theorem gp_dead_constraints p b s n s' f i j w : Inv s -> Forall good_param (pr_params p) -> declared p s ->
    gp_model SY p b s = (Ok n, s') -> In (SK 0 f i j, w) (sr_exp (nlp_sym n)) -> shift_of p <= f ->
    forall r, (forall k, k < st_ectr s -> ev r (wF w k) = 0%R) /\ (forall k1 k2, k1 < st_pctr s -> k2 < st_pctr s -> ev r (wG w k1 k2) = 0%R).
  Proof using OK.
    intros I Hg Hd H Hin Hf r. destruct (gp_model_ok _ _ _ _ _ H) as (P & o1 & u & o2 & wm' & z1 & z2 & Eh & Es & Em & Ew' & E1 & E2). clear H.
    set (sr := nlp_sym n) in *. clearbody sr. clear n.
    destruct (assembled OK p s sr s' I Es) as (W & wm & T). assert (Ss := simple_sums p s sr s' I Hg Hd Es).
    assert (HE := eq_count p s sr s' I Es). destruct T as (Exp & Nd & _ & Kk & _ & SF & SG & Hall). specialize (Hall Hd).
    rewrite (obj_weights_last sr W wm Exp Kk) in Ew'. injection Ew' as <-.
    assert (Hdead := multiplier_missing p b sr _ _ P o1 u o2 f Eh Em HE Hf). clear Em Eh Es.
    assert (Hr : forall v, ~ dead o2 v -> r v = (fun x => if String.eqb x (dual_of (SK 0 f i j)) then (r x + 1)%R else r x) v).
    { intros v Hv. cbv beta. destruct (String.eqb_spec v (dual_of (SK 0 f i j))) as [->|]; [|easy]. exfalso. apply Hv. exists f, i, j. split; [easy|exact Hdead]. }
    assert (Hpar : forall x, In x (pr_params p) -> x <> dual_of (SK 0 f i j)).
    { intros x Hx ->. rewrite Forall_forall in Hg. destruct (Hg _ Hx) as (_ & Q & _). cbn [dual_of] in Q. rewrite is_dual_LN, dead_dual in Q. discriminate Q. }
    destruct (gp_matrix_dep _ _ _ _ r _ E1 Hr) as [_ D1]. destruct (gp_matrix_dep _ _ _ _ r _ E2 Hr) as [_ D2]. clear E1 E2 Hr Hdead.
    assert (HwW : In (SK 0 f i j, w) W) by (rewrite Exp in Hin; apply in_app_or in Hin as [Q|[Q|[]]]; [exact Q|discriminate Q]).
    assert (Hwm : fg_all (fun x => In x (pr_params p)) wm) by (apply (Hall (SObj, wm)); rewrite Exp; apply in_or_app; simpl; auto).
    assert (HWa : forall kw, In kw W -> fg_all (fun x => In x (pr_params p)) (snd kw)) by (intros kw Hkw; apply Hall; rewrite Exp; apply in_or_app; auto).
    assert (Sp : forall x, In x (pr_params p) -> simple_name x) by (rewrite Forall_forall in Hg; intros x Hx; apply (Hg x Hx)).
    split.
    - intros k Hk. apply (changed_sum (fun w => wF w k) (pr_params p) (dual_of (SK 0 f i j)) r sr wm W (SK 0 f i j) w Hpar Sp Nd HwW eq_refl).
      + intros kw Hkw x Hx. apply (proj1 (HWa kw Hkw) k x Hx).
      + intros x Hx. apply (proj1 Hwm k x Hx).
      + intros q. apply SF, Hk.
      + intros x Hx. apply (proj1 Ss k x Hx).
      + apply D1. unfold z1_entries. apply in_map_iff. exists k. split; [reflexivity|]. apply in_seq. lia.
    - intros k1 k2 Hk1 Hk2. apply (changed_sum (fun w => wG w k1 k2) (pr_params p) (dual_of (SK 0 f i j)) r sr wm W (SK 0 f i j) w Hpar Sp Nd HwW eq_refl).
      + intros kw Hkw x Hx. apply (proj2 (HWa kw Hkw) k1 k2 x Hx).
      + intros x Hx. apply (proj2 Hwm k1 k2 x Hx).
      + intros q. apply SG; assumption.
      + intros x Hx. apply (proj2 Ss k1 k2 x Hx).
      + apply D2. unfold z2_entries. apply in_map_iff. exists (k1, k2). split; [reflexivity|]. apply in_flat_map. exists k1. split; [apply in_seq; lia|].
        apply in_map_iff. exists k2. split; [reflexivity|apply in_seq; lia].
  Qed.
End Gp.

(** * the programs compared *)
Section Compare.
  Context {SY : sympy} (OK : sympy_ok SY).
  Variables (p : problem) (b : option bounds) (s : state).
  Hypothesis I : Inv s.
  Hypothesis Nd : NoDup (pr_params p).
  Hypothesis Hg : Forall good_param (pr_params p).
  Hypothesis Hd : declared p s.

  Lemma side_agree signs r r1 : (signs = true -> forall x, In x ["eta"; "h"; "rho"; "gamma"] -> In x (pr_params p)) -> recips_declared (pr_params p) ->
    (forall x, In x (pr_params p) -> r1 x = r x) -> vec_side_ok signs p b r -> vec_side_ok signs p b r1.
  Proof using Type.
    intros H4 Hr E (A & B & C). split; [|split].
    - intros x Hx. destruct (Hr x Hx) as [R1 R2]. rewrite (E _ R1), (E _ R2). apply A, Hx.
    - destruct b as [l|]; [|easy]. intros x ub lb Hx. destruct (B x ub lb Hx) as (B1 & B2 & B3). rewrite (E _ B1). easy.
    - intros Hs x Hx. rewrite (E _ (H4 Hs x Hx)). apply (C Hs x Hx).
  Qed.
  Lemma vec_certified signs n s' r : (exists W wm Fs Gs nm cb all N, @vec_prog SY signs p b s s' n W wm Fs Gs nm cb all N) ->
    (signs = true -> forall x, In x ["eta"; "h"; "rho"; "gamma"] -> In x (pr_params p)) -> recips_declared (pr_params p) -> vec_side_ok signs p b r ->
    accepts n (pr_params p) r <-> certified p s (nlp_sym n) r.
  Proof using OK Hg.
    intros HV H4 Hr S. split.
    - intros (a & Ha & Ed). destruct HV as (W & wm & Fs & Gs & nm & cb & all & N & V).
      destruct (prog_certificate OK _ _ _ _ _ _ _ _ _ _ _ _ _ _ V Hg a Ha) as (r1 & L & Ew & C & Hx). exists r1, wm, (st_pctr s), L. split; [exact Ew|]. split; [|exact C].
      intros x Hin. rewrite (Hx x Hin). rewrite (returned OK _ _ _ _ _ _ _ _ _ _ _ _ _ _ V Hg a) in Ed.
      assert (Q : In (x, at_name nm a x) (map (fun x => (x, r x)) (pr_params p))) by (rewrite <- Ed; apply in_map_iff; eauto).
      apply in_map_iff in Q as (y & [= -> ->] & _). easy.
    - intros (r1 & w & m & P & Hw & E & C). assert (S1 := side_agree signs r r1 H4 Hr E S).
      destruct (vec_complete OK signs p b s s' n Hg HV r1 w m P Hw C S1) as (a & Ha & Ed). exists a. split; [exact Ha|]. rewrite Ed. apply map_ext_in. intros x Hx. rewrite (E x Hx). easy.
  Qed.
  Lemma ipopt_certified n s' r : ipopt_nlp SY p b s = (Ok n, s') ->
    (forall x, In x ["eta"; "h"; "rho"] -> In x (pr_params p)) -> recips_declared (pr_params p) -> side_ok p b r ->
    accepts n (pr_params p) r <-> certified p s (nlp_sym n) r.
  Proof using OK Hg Hd I Nd.
    intros Hn H4 Hr S. split.
    - intros (a & Ha & Ed). destruct (feasible_certificate OK p b s n s' a I Hg Hd Hn Ha) as (_ & w & r1 & L & Ew & C & Hx & _).
      exists r1, w, (st_pctr s), L. split; [exact Ew|]. split; [|exact C]. intros x Hin. specialize (Hx x Hin). rewrite Ed in Hx. apply in_map_iff in Hx as (y & [= -> ->] & _). reflexivity.
    - intros (r1 & w & m & P & Hw & E & C). assert (S1 : side_ok p b r1).
      { destruct S as (A & B & C1 & C2 & C3). split; [|split].
        - intros x Hx. destruct (Hr x Hx) as [R1 R2]. rewrite (E _ R1), (E _ R2). apply A, Hx.
        - clear -B E. destruct b as [l|]; [|exact Logic.I]. intros x ub lb Hx. destruct (B x ub lb Hx) as (B1 & B2). rewrite (E _ B1). split; assumption.
        - rewrite !E by (apply H4; clear; simpl; tauto). repeat split; assumption. }
      destruct (complete OK p b s n s' r1 w m P I Hg Hd) as (a & Ha & Ed); try assumption.
      { intros x Hx. destruct (Hr x Hx) as [R1 _]. rewrite Forall_forall in Hg. apply (Hg x R1). }
      exists a. split; [exact Ha|]. rewrite Ed. apply map_ext_in. intros x Hx. rewrite (E x Hx). reflexivity.
  Qed.
  Lemma ipopt_symbolic n s' : ipopt_nlp SY p b s = (Ok n, s') -> symbolic SY p s = (Ok (nlp_sym n), s').
  Proof using Type.
    unfold ipopt_nlp. destruct (ipopt_head _ _ _ _) as [[P o1]|]; [|discriminate]. destruct (symbolic SY p s) as [[sr|] s1]; [|discriminate].
    destruct (ipopt_tail _ _ _ _ _ _ _ _) as [[obj o]|]; [|discriminate]. intros H. injection H as <- <-. reflexivity.
  Qed.
  Lemma fix_certified params sr d s' r : fix_discr_sdp SY p params s = (Ok (sr, d), s') -> (forall x q, In (x, q) params -> r x = Q2R q) ->
    (exists a, sdp_feasible d a) <-> certified p s sr r.
  Proof using OK I Nd Hg Hd.
    intros Hf Hr. rewrite (fix_exact OK p s I Nd Hg Hd params sr d s' Hf). destruct (fix_unfold p s params sr d s' Hf) as (Km & _).
    assert (Pm := keys_perm p params Km). assert (Ndk := Permutation_NoDup (Permutation_sym Pm) Nd). split.
    - intros (r1 & w & m & P & Hw & E & C). exists r1, w, m, P. split; [exact Hw|]. split; [|exact C]. intros x Hx.
      apply (Permutation_in _ (Permutation_sym Pm)) in Hx. apply in_map_iff in Hx as ([y q] & <- & Hin). cbn [fst]. rewrite (E y q Hin), (Hr y q Hin). easy.
    - intros (r1 & w & m & P & Hw & E & C). exists r1, w, m, P. split; [exact Hw|]. split; [|exact C]. intros x q Hin. rewrite E; [auto|].
      apply (Permutation_in _ Pm). apply in_map_iff. exists (x, q). easy.
  Qed.
End Compare.

(** * shapes of the returned values *)
Lemma solve_shapes SY ipopt cvx solver p b extra params n s v s' : solve SY ipopt cvx solver p b extra params n s = (Ok v, s') ->
  (exists sr, v = Some [PNone; PVars; PNone; PSymbolic sr] /\ In solver ["ipopt"; "ipopt_qcqp"; "ipopt_qcqp_matrix"]) \/
  (exists l sr, v = Some [PParams l; PSolution; PSymbolic sr] /\ In solver ["ipopt"; "ipopt_qcqp"; "ipopt_qcqp_matrix"]) \/
  (exists sr, v = Some [PVars; PSolution; PSymbolic sr] /\ solver = "fix_discr_sdp") \/
  (exists l q, v = Some [PNumbers l; PEta q] /\ solver = "bisection_eta") \/
  (v = None /\ ~ In solver ["ipopt"; "ipopt_qcqp"; "ipopt_qcqp_matrix"; "fix_discr_sdp"; "bisection_eta"]).
Proof.
  assert (F : forall m, In solver ["ipopt"; "ipopt_qcqp"; "ipopt_qcqp_matrix"] -> finish_ipopt ipopt p m s = (Ok v, s') ->
    (exists sr, v = Some [PNone; PVars; PNone; PSymbolic sr] /\ In solver ["ipopt"; "ipopt_qcqp"; "ipopt_qcqp_matrix"]) \/
    (exists l sr, v = Some [PParams l; PSolution; PSymbolic sr] /\ In solver ["ipopt"; "ipopt_qcqp"; "ipopt_qcqp_matrix"])).
  { intros m Hs. unfold finish_ipopt. destruct (m s) as [[n0|] s1]; [|discriminate]. destruct (ipopt (nlp_opti n0) (nlp_obj n0)) as [[[|] a]|]; [|discriminate|]; intros [= <- _]; [right|left]; eauto. }
  unfold solve. destruct (String.eqb_spec solver "ipopt") as [->|N1]; [intros H; destruct (F _ ltac:(simpl; tauto) H); auto|].
  destruct (String.eqb_spec solver "ipopt_qcqp") as [->|N2]; [intros H; destruct (F _ ltac:(simpl; tauto) H); auto|].
  destruct (String.eqb_spec solver "ipopt_qcqp_matrix") as [->|N3]; [intros H; destruct (F _ ltac:(simpl; tauto) H); auto|].
  destruct (String.eqb_spec solver "fix_discr_sdp") as [->|N4].
  { unfold finish_fix. destruct params as [ps|]; [|discriminate]. destruct (fix_discr_sdp SY p ps s) as [[[sr d]|] s1]; [|discriminate]. destruct (cvx 0 d); [|discriminate].
    intros [= <- _]. right. right. left. eauto. }
  destruct (String.eqb_spec solver "bisection_eta") as [->|N5].
  { unfold finish_bisection. destruct params as [ps|]; [|discriminate]. destruct (bisection_eta SY cvx p ps n s) as [[[l q]|] s1]; [|discriminate].
    intros [= <- _]. right. right. right. left. eauto. }
  intros [= <- _]. do 4 right. split; [easy|]. simpl. intuition congruence.
Qed.
