(** Every certificate with the right signs is a feasible point of the
    nonlinear program of solve_ipopt. *)
From Coq Require Import List Arith Bool String Ascii QArith Reals Qreals Lra Lia Permutation.
From Verif Require Import Prelude PreludeFacts Sympy SympyFacts AlgebraModel Denote AlgebraFacts FunctionModel CircuitModel SymSpec
  GramFacts SymFacts Spec ClassSpec CertSpec StateSpec SessionModel StateFacts CertFacts RepeatFacts SymbolFacts ParsingModel
  ParsingSpec SolverModel ParsingFacts SolverSpec SolverFacts IpoptFacts IpoptTail IpoptProof.
Import ListNotations.
Local Open Scope nat_scope.

(** * which symbols the aggregated matrices depend on *)
Lemma rsum_delta n k f : k < n -> rsum n (fun i => f i * (if Nat.eqb i k then 1 else 0))%R = f k.
Proof.
  induction n as [|n IH]; [lia|]. intros H. simpl. destruct (Nat.eqb n k) eqn:E.
  - apply Nat.eqb_eq in E. subst n. rewrite rsum_zero; [lra|]. intros i Hi. destruct (Nat.eqb i k) eqn:E; [apply Nat.eqb_eq in E; lia|lra].
  - apply Nat.eqb_neq in E. rewrite IH by lia. lra.
Qed.
Lemma fg_val_F r dimG dimF w k : k < dimF -> fg_val r dimG dimF w (fun i => if Nat.eqb i k then 1 else 0)%R (fun _ _ => 0%R) = ev r (wF w k).
Proof.
  intros H. unfold fg_val. rewrite (rsum_delta dimF k (fun i => ev r (wF w i))) by easy.
  rewrite (rsum_zero dimG); [lra|]. intros a Ha. apply rsum_zero. intros; lra.
Qed.
Lemma fg_val_G r dimG dimF w i j : i < dimG -> j < dimG ->
  fg_val r dimG dimF w (fun _ => 0%R) (fun a b => (if Nat.eqb a i then 1 else 0) * (if Nat.eqb b j then 1 else 0))%R = ev r (wG w i j).
Proof.
  intros Hi Hj. unfold fg_val. rewrite (rsum_zero dimF) by (intros; lra).
  rewrite (rsum_ext dimG _ (fun a => ev r (wG w a j) * (if Nat.eqb a i then 1 else 0))%R).
  - rewrite (rsum_delta dimG i (fun a => ev r (wG w a j))) by easy. lra.
  - intros a Ha. rewrite (rsum_ext dimG _ (fun b => (ev r (wG w a b) * (if Nat.eqb a i then 1 else 0)) * (if Nat.eqb b j then 1 else 0))%R) by (intros; ring).
    rewrite (rsum_delta dimG j (fun b => ev r (wG w a b) * (if Nat.eqb a i then 1 else 0))%R) by easy. easy.
Qed.

Section Dep.
  Context {SY : sympy} (OK : sympy_ok SY).

  Lemma fresh_funs s l : Inv s -> (forall f, In f l -> In f (st_flist s)) ->
    Forall2 (fun f fn => dget Nat.eqb f (st_funs s) = Some fn /\ fresh_fun fn) l (funs_of s l).
  Proof using Type.
    intros I. induction l as [|f l IH]; intros Hl; simpl; [constructor|].
    destruct (inv_funs s I f (Hl f (or_introl eq_refl))) as [fn [E Hok]]. rewrite E. constructor.
    - split; [easy|]. destruct Hok as (_ & _ & A & _ & _ & B). split; easy.
    - apply IH. intros; apply Hl; simpl; auto.
  Qed.

  Lemma table_syms p s kt e : declared p s ->
    In kt (constraint_table SY p (funs_of s (leaf_funs (st_flist s) s))) -> snd kt = Ok e -> ex_all (fun x => In x (pr_params p)) e.
  Proof using OK.
    intros (D1 & D2 & D3) Hkt He.
    assert (A : Forall (fun x => In x (pr_params p)) (pr_params p)) by (rewrite Forall_forall; easy).
    unfold constraint_table in Hkt. rewrite !in_app_iff in Hkt. destruct Hkt as [Hkt|[Hkt|Hkt]].
    - apply in_map_iff in Hkt as [[i e'] [<- Hkt]]. simpl in He. injection He as ->. apply number_in in Hkt. unfold ineqs in Hkt.
      apply in_map_iff in Hkt as [c [<- Hc]]. apply filter_In in Hc as [Hc _]. eapply ex_all_params; [apply D2; exact Hc|exact A].
    - unfold class_table in Hkt. apply in_flat_map in Hkt as [[idx fn] [Hn Hkt]].
      apply number_in in Hn. unfold funs_of in Hn. apply in_flat_map in Hn as [f [Hf Hn]].
      destruct (dget Nat.eqb f (st_funs s)) as [fn'|] eqn:Ef; [|easy]. destruct Hn as [->|[]].
      apply leaf_funs_in in Hf as [Hf [fn2 [E2 El]]]. rewrite Ef in E2. injection E2 as <-.
      unfold fun_table in Hkt. apply in_map_iff in Hkt as [[i j] [<- Hij]]. simpl in He. apply pairs_spec in Hij as (Hi & Hj & _).
      unfold interp in He.
      assert (T : forall t, In t (fn_pts fn) -> trip_all (fun x => In x (pr_params p)) t).
      { intros t Ht. destruct (D3 f fn t Hf Ef El Ht) as (B1 & B2 & B3). split; [|split]; eauto using pt_all_params, ex_all_params. }
      eapply (class_all OK); [exact He|apply T, nth_In; exact Hi|apply T, nth_In; exact Hj].
    - apply in_map_iff in Hkt as [[i e'] [<- Hkt]]. simpl in He. injection He as ->. apply number_in in Hkt. unfold eqs in Hkt.
      apply in_map_iff in Hkt as [c [<- Hc]]. apply filter_In in Hc as [Hc _]. eapply ex_all_params; [apply D2; exact Hc|exact A].
  Qed.

  Lemma fg_val_ext P r r' dimG dimF w Fv Gm : fg_all P w -> (forall x, P x -> r x = r' x) ->
    fg_val r dimG dimF w Fv Gm = fg_val r' dimG dimF w Fv Gm.
  Proof using Type.
    intros [A B] H. unfold fg_val. f_equal.
    - apply rsum_ext. intros k _. f_equal. apply ev_free_ext. intros x Hx. apply H, (A k x Hx).
    - apply rsum_ext. intros a _. apply rsum_ext. intros b _. f_equal. apply ev_free_ext. intros x Hx. apply H, (B a b x Hx).
  Qed.

  Lemma sum_depends p s sr s' w r r' : Inv s -> declared p s -> symbolic SY p s = (Ok sr, s') -> In (SObj, w) (sr_exp sr) ->
    env_on r r' (pr_params p) ->
    (forall b f i j, In (SK b f i j) (keys (sr_exp sr)) -> r (dual_of (SK b f i j)) = r' (dual_of (SK b f i j))) ->
    (forall Fv Gm, fg_val r (st_pctr s) (st_ectr s) (sr_sum sr) Fv Gm = fg_val r' (st_pctr s) (st_ectr s) (sr_sum sr) Fv Gm) /\
    (forall Fv Gm, fg_val r (st_pctr s) (st_ectr s) w Fv Gm = fg_val r' (st_pctr s) (st_ectr s) w Fv Gm).
  Proof using OK.
    intros I Hd HS Hw Hp Hk. unfold symbolic in HS. set (funs := leaf_funs (st_flist s) s) in *.
    assert (Hin : forall f, In f funs -> In f (st_flist s)) by (intros f Hf; apply leaf_funs_in in Hf; apply Hf).
    destruct (csm_spec SY _ _ p funs (funs_of s funs) s sr s' HS) as (W & m & wm & Em & Ew & Ex & F2 & Hsum & _ & _).
    { apply leaf_funs_nodup, (inv_flist s I). }
    { apply fresh_funs; assumption. }
    assert (T : forall kw, In kw W -> fg_all (fun x => In x (pr_params p)) (snd kw) /\ exists b f i j, fst kw = SK b f i j).
    { assert (Tt : forall kt, In kt (constraint_table SY p (funs_of s funs)) -> forall e, snd kt = Ok e -> ex_all (fun x => In x (pr_params p)) e).
      { intros kt Hkt e He. eapply table_syms; eauto. }
      assert (Tk : forall kt, In kt (constraint_table SY p (funs_of s funs)) -> exists b f i j, fst kt = SK b f i j).
      { intros kt Hkt. unfold constraint_table in Hkt. rewrite !in_app_iff in Hkt. destruct Hkt as [Hkt|[Hkt|Hkt]].
        - apply in_map_iff in Hkt as [? [<- _]]. simpl. eauto.
        - unfold class_table in Hkt. apply in_flat_map in Hkt as [? [_ Hkt]]. unfold fun_table in Hkt. apply in_map_iff in Hkt as [? [<- _]]. simpl. eauto.
        - apply in_map_iff in Hkt as [? [<- _]]. simpl. eauto. }
      clear -F2 Tt Tk. induction F2 as [|kt kw T0 W0 [E1 [e [E2 E3]]] F IH]; intros x Hx; [destruct Hx|].
      destruct Hx as [<-|Hx].
      - split; [|rewrite <- E1; apply Tk; simpl; auto]. eapply expression_to_matrix_all; [exact E3|]. apply (Tt kt); simpl; auto.
      - apply IH; [intros kt' Hkt'; apply Tt; simpl; auto|intros kt' Hkt'; apply Tk; simpl; auto|exact Hx]. }
    split; intros Fv Gm.
    - rewrite (Hsum r Fv Gm), (Hsum r' Fv Gm), !fg_val_zero. f_equal. apply lsum_ext. intros kw Hkw.
      destruct (T kw Hkw) as [A (b & f & i & j & E)]. f_equal.
      + rewrite E. apply Hk. rewrite Ex. unfold keys. rewrite map_app, in_app_iff. left. rewrite <- E. apply in_map. exact Hkw.
      + eapply fg_val_ext; [exact A|]. intros x Hx. apply Hp, Hx.
    - assert (w = wm).
      { rewrite Ex in Hw. apply in_app_or in Hw as [Hw|[Hw|[]]]; [|injection Hw; auto]. destruct (T _ Hw) as [_ (b & f & i & j & E)]. discriminate E. }
      subst w. apply (fg_val_ext (fun x => In x (pr_params p))); [|intros x Hx; apply Hp, Hx].
      eapply expression_to_matrix_all; [exact Ew|]. eapply ex_all_params; [apply (proj1 Hd); exact Em|]. rewrite Forall_forall; easy.
  Qed.
End Dep.

(** * reaching prescribed values *)
Section Target.
  Variable T : string -> nat -> nat -> R.

  Definition tgt (o : opti) (a : nat -> R) : Prop :=
    forall n v i j, dget String.eqb n (op_vars o) = Some v -> i < cv_rows v -> j < cv_cols v -> a (cv_at v i j) = T n i j.
  (** the constraints so far can be met with all variables at their targets *)
  Definition reach (o : opti) : Prop := Good o /\ exists a, feasible o a /\ tgt o a.

  Lemma reach0 : reach opti0.
  Proof. split; [exact good0|]. exists (fun _ => 0%R). split; [constructor|]. intros n v i j H. discriminate H. Qed.

  Lemma reach_block n r c o : has_char us n = false -> reach o -> reach (add_block n r c o).
  Proof.
    intros Hn [G [a [Ha Ht]]]. split; [apply good_block; assumption|].
    exists (fun k => if Nat.ltb k (op_next o) then a k else T n ((k - op_next o) / c) ((k - op_next o) mod c)). split.
    - unfold feasible in *. cbn [add_block op_cons]. pose proof (wfo_cons _ (proj1 G)) as W. rewrite Forall_forall in *. intros x Hx.
      eapply holds_ext; [apply W; exact Hx| |apply Ha; exact Hx]. intros i Hi. apply Nat.ltb_lt in Hi. simpl. rewrite Hi. reflexivity.
    - intros m v i j. unfold add_block. cbn [op_vars]. rewrite sget_set. destruct (String.eqb m n) eqn:E.
      + intros [= <-] Hi Hj. cbn [cv_rows cv_cols] in *. unfold cv_at. cbn [cv_base cv_cols].
        replace (Nat.ltb (op_next o + i * c + j) (op_next o)) with false by (symmetry; apply Nat.ltb_ge; lia).
        replace (op_next o + i * c + j - op_next o) with (i * c + j) by lia. apply String.eqb_eq in E. subst m.
        rewrite Nat.div_add_l, (Nat.div_small j c), Nat.add_0_r by lia. rewrite Nat.add_comm, Nat.mod_add, Nat.mod_small by lia. reflexivity.
      + intros Hv Hi Hj. pose proof (wfo_vars _ (proj1 G) _ _ Hv) as W.
        replace (Nat.ltb (cv_at v i j) (op_next o)) with true; [apply Ht; assumption|].
        symmetry. apply Nat.ltb_lt. unfold cv_at. nia.
  Qed.
  Lemma reach_cons cs o : Forall (con_lt (op_next o)) cs -> (forall a, tgt o a -> Forall (holds a) cs) -> reach o -> reach (add_cons cs o).
  Proof.
    intros Hl Hc [G [a [Ha Ht]]]. split; [apply good_cons; assumption|]. exists a. split; [|exact Ht].
    apply add_cons_feasible. split; [exact Ha|apply Hc, Ht].
  Qed.
  Lemma tgt_1 o a n v : tgt o a -> dget String.eqb n (op_vars o) = Some v -> cv_rows v = 1 -> cv_cols v = 1 -> a (cv_base v) = T n 0 0.
  Proof. intros H E R C. rewrite <- (H n v 0 0 E) by lia. f_equal. unfold cv_at. lia. Qed.

  Lemma tgt_ids o a n v i : tgt o a -> dget String.eqb n (op_vars o) = Some v -> In i (cv_ids v) ->
    exists k l, k < cv_rows v /\ l < cv_cols v /\ a i = T n k l.
  Proof.
    intros H E Hi. apply ids_in in Hi.
    assert (C : cv_cols v <> 0) by (intros C; rewrite C in Hi; lia).
    exists ((i - cv_base v) / cv_cols v), ((i - cv_base v) mod cv_cols v).
    assert (A : (i - cv_base v) / cv_cols v < cv_rows v) by (apply Nat.div_lt_upper_bound; [exact C|nia]).
    assert (B := Nat.mod_upper_bound (i - cv_base v) (cv_cols v) C).
    split; [exact A|]. split; [exact B|]. rewrite <- (H n v _ _ E A B). f_equal. unfold cv_at.
    pose proof (Nat.div_mod (i - cv_base v) (cv_cols v) C). nia.
  Qed.

  Lemma reach_nonneg n v o : dget String.eqb n (op_vars o) = Some v -> (forall i j, i < cv_rows v -> j < cv_cols v -> (0 <= T n i j)%R) ->
    reach o -> reach (add_cons (map (fun i => CGe (CVar i) (CNum 0)) (cv_ids v)) o).
  Proof.
    intros E Hp R. apply reach_cons; [| |exact R].
    - rewrite Forall_forall. intros x Hx. apply in_map_iff in Hx as [i [<- Hi]]. apply ids_in in Hi.
      pose proof (wfo_vars _ (proj1 (proj1 R)) _ _ E). simpl. lia.
    - intros a Ha. rewrite Forall_forall. intros x Hx. apply in_map_iff in Hx as [i [<- Hi]].
      destruct (tgt_ids o a n v i Ha E Hi) as (k & l & Hk & Hl & Ev). simpl. rewrite Ev, Q2R_0'. apply Rle_ge, Hp; assumption.
  Qed.

  Lemma reach_iter {A} (f : A -> OM unit) (l : list A) (good : A -> Prop) :
    (forall x o u o', good x -> reach o -> f x o = Ok (u, o') -> reach o') ->
    forall o u o', (forall x, In x l -> good x) -> reach o -> oiter f l o = Ok (u, o') -> reach o'.
  Proof.
    intros Hf. induction l as [|x l IH]; intros o u o' Hl R H; simpl in H.
    - injection H; intros <- _. exact R.
    - unfold obind in H. destruct (f x o) as [[u1 o1]|] eqn:E; [|discriminate]. eapply IH; [|eapply Hf; [|exact R|exact E]|exact H].
      + intros y Hy. apply Hl. simpl; auto.
      + apply Hl. simpl; auto.
  Qed.

  Lemma reach_new_scalars l o u o' : (forall n, In n l -> has_char us n = false) -> reach o -> oiter new_scalar l o = Ok (u, o') -> reach o'.
  Proof.
    apply (reach_iter new_scalar l (fun n => has_char us n = false)). intros x o1 u1 o1' Hx R H. rewrite new_scalar_run in H.
    injection H; intros <- _. apply reach_block; assumption.
  Qed.
  Lemma inv_ne n : n <> ("inv" ++ n)%string.
  Proof.
    intros H. assert (L : String.length n = String.length ("inv" ++ n)) by (rewrite <- H; reflexivity). simpl in L. lia.
  Qed.
  Definition recip_ok (n : string) : Prop :=
    has_char us n = false /\ (T n 0 0 * T ("inv" ++ n)%string 0 0 = 1)%R /\ (Q2R tiny <= T n 0 0)%R.
  Lemma reach_recips l o u o' : (forall n, In n l -> recip_ok n) -> reach o -> oiter add_reciprocal l o = Ok (u, o') -> reach o'.
  Proof.
    apply (reach_iter add_reciprocal l recip_ok). intros n o1 u1 o1' (Hn & Hp & Ht) R H. rewrite add_reciprocal_run in H.
    injection H; intros <- _. clear H.
    assert (R1 := reach_block n 1 1 o1 Hn R). assert (R2 := reach_block ("inv" ++ n) 1 1 _ ltac:(simpl; exact Hn) R1).
    apply reach_cons; [repeat constructor; simpl; lia| |exact R2]. intros a Ha.
    assert (E1 : dget String.eqb n (op_vars (add_block ("inv" ++ n) 1 1 (add_block n 1 1 o1))) = Some (mkCV 1 1 (op_next o1))).
    { rewrite block_other by apply inv_ne. apply block_at. }
    assert (E2 := block_at ("inv" ++ n) 1 1 (add_block n 1 1 o1)).
    pose proof (tgt_1 _ _ _ _ Ha E1 eq_refl eq_refl) as V1. pose proof (tgt_1 _ _ _ _ Ha E2 eq_refl eq_refl) as V2. simpl in V1, V2.
    constructor; [|constructor; [|constructor]]; simpl.
    - rewrite V1, V2, Q2R_1'. exact Hp.
    - rewrite V1. apply Rle_ge. exact Ht.
  Qed.
  Lemma reach_declares l o u o' : (forall n, In n l -> has_char us n = false) -> reach o -> oiter declare_param l o = Ok (u, o') -> reach o'.
  Proof.
    apply (reach_iter declare_param l (fun n => has_char us n = false)). intros x o1 u1 o1' Hx R H. rewrite declare_run in H.
    injection H; intros <- _. destruct (dmem String.eqb x (op_vars o1)); [exact R|apply reach_block; assumption].
  Qed.
  Lemma reach_head_vars bn params dimG o0 u o : (forall n, In n params -> has_char us n = false) -> (forall n, In n bn -> has_char us n = false) ->
    (forall n, In n (inv_discr_params params) -> recip_ok n) -> reach o0 ->
    (ado _ <- oiter new_scalar bn; head_rest params dimG) o0 = Ok (u, o) -> reach o.
  Proof.
    intros Hp Hb Hr R0 H. unfold obind at 1 in H. destruct (oiter new_scalar bn o0) as [[u1 o1]|] eqn:E1; [|discriminate].
    assert (R1 := reach_new_scalars _ _ _ _ Hb R0 E1). clear E1 R0. unfold head_rest in H.
    assert (H' : (ado _ <- oiter add_reciprocal (inv_discr_params params); oiter declare_param params) (add_block "P" dimG dimG o1) = Ok (u, o)) by exact H.
    clear H. assert (R2 := reach_block "P" dimG dimG o1 eq_refl R1). unfold obind at 1 in H'.
    destruct (oiter add_reciprocal (inv_discr_params params) (add_block "P" dimG dimG o1)) as [[u2 o2]|] eqn:E2; [|discriminate].
    assert (R3 := reach_recips _ _ _ _ Hr R2 E2). eapply reach_declares; [exact Hp|exact R3|exact H'].
  Qed.

  (** bounds: every name is known and its target within the bounds *)
  Definition bound_ok (e : string * (option Q * option Q)) : Prop :=
    forall i j, (match fst (snd e) with Some q => (T (fst e) i j <= Q2R q)%R | None => True end) /\
      (match snd (snd e) with Some q => (Q2R q <= T (fst e) i j)%R | None => True end).
  Lemma reach_bounds b : forall this o u o', (forall e, In e b -> bound_ok e /\ mem (fst e) o) ->
    reach o -> ca_add_bounds_loop b [] this o = Ok (u, o') -> reach o'.
  Proof.
    induction b as [|[name [ub lb]] b IH]; intros this o u o' Hb R H; simpl in H.
    - injection H; intros <- _. exact R.
    - destruct (Hb (name, (ub, lb)) (or_introl eq_refl)) as [Hok [v Ev]]. simpl in Ev.
      unfold obind at 1, has_var, dmem in H. rewrite Ev in H. unfold obind at 1 in H. unfold obind at 1, get_var in H. rewrite Ev in H.
      unfold oret at 1 in H. unfold obind at 1 in H.
      assert (Hid : forall i, In i (cv_ids v) -> i < op_next o).
      { intros i Hi. apply ids_in in Hi. pose proof (wfo_vars _ (proj1 (proj1 R)) _ _ Ev). lia. }
      assert (S1 : exists c1, (match ub with None => oret tt | Some q => oiter (fun i => subject_to (CGe (CNum q) (CVar i))) (cv_ids v) end) o = Ok (tt, add_cons c1 o) /\
          reach (add_cons c1 o)).
      { destruct ub as [q|]; [|exists []; rewrite add_cons_nil; split; [reflexivity|exact R]]. rewrite oiter_subject. eexists. split; [reflexivity|].
        apply reach_cons; [| |exact R].
        - rewrite Forall_forall. intros x Hx. apply in_map_iff in Hx as [i [<- Hi]]. simpl. auto.
        - intros a Ha. rewrite Forall_forall. intros x Hx. apply in_map_iff in Hx as [i [<- Hi]].
          destruct (tgt_ids o a name v i Ha Ev Hi) as (k & l & Hk & Hl & E). simpl. rewrite E. apply Rle_ge. apply (Hok k l). }
      destruct S1 as (c1 & S1 & R1). rewrite S1 in H. unfold obind at 1 in H.
      assert (S2 : exists c2, (match lb with None => oret tt | Some q => oiter (fun i => subject_to (CGe (CVar i) (CNum q))) (cv_ids v) end) (add_cons c1 o) = Ok (tt, add_cons c2 (add_cons c1 o)) /\
          reach (add_cons c2 (add_cons c1 o))).
      { destruct lb as [q|]; [|exists []; rewrite add_cons_nil; split; [reflexivity|exact R1]]. rewrite oiter_subject. eexists. split; [reflexivity|].
        apply reach_cons; [| |exact R1].
        - rewrite Forall_forall. intros x Hx. apply in_map_iff in Hx as [i [<- Hi]]. simpl. auto.
        - intros a Ha. rewrite Forall_forall. intros x Hx. apply in_map_iff in Hx as [i [<- Hi]].
          destruct (tgt_ids o a name v i Ha Ev Hi) as (k & l & Hk & Hl & E). simpl. rewrite E. apply Rle_ge. apply (Hok k l). }
      destruct S2 as (c2 & S2 & R2). rewrite S2 in H. eapply IH; [|exact R2|exact H].
      intros e He. apply Hb. simpl; auto.
  Qed.

  Lemma reach_head_signs b dimG o P o1 : (forall k, k < dimG -> (0 <= T "P" k k)%R) ->
    (match b with None => True | Some b => forall e, In e b -> bound_ok e /\ mem (fst e) o end) ->
    (forall n i j, In n ["eta"; "rho"; "h"]%string -> (0 <= T n i j)%R) ->
    reach o -> head_signs b dimG o = Ok (P, o1) -> reach o1.
  Proof.
    intros HP Hb Hn R H. unfold head_signs, obind at 1, get_var in H. destruct (dget String.eqb "P"%string (op_vars o)) as [P0|] eqn:EP; [|discriminate].
    destruct (Nat.eqb (cv_rows P0) dimG) eqn:Er; [|discriminate]. destruct (Nat.eqb (cv_cols P0) dimG) eqn:Ec; [|discriminate].
    apply Nat.eqb_eq in Er, Ec. simpl in H. unfold obind at 1 in H. rewrite oiter_subject in H.
    set (c1 := map (fun k => CGe (tril P0 k k) (CNum 0)) (seq 0 dimG)) in H.
    assert (R1 : reach (add_cons c1 o)).
    { pose proof (wfo_vars _ (proj1 (proj1 R)) _ _ EP) as Wb. rewrite Er, Ec in Wb. apply reach_cons; [| |exact R].
      - rewrite Forall_forall. intros c Hc. apply in_map_iff in Hc as [k [<- Hk]]. apply in_seq in Hk.
        unfold tril. rewrite Nat.leb_refl. simpl. unfold cv_at. rewrite Ec. nia.
      - intros a Ha. rewrite Forall_forall. intros c Hc. apply in_map_iff in Hc as [k [<- Hk]]. apply in_seq in Hk.
        unfold tril. rewrite Nat.leb_refl. simpl. rewrite (Ha _ _ k k EP) by lia. rewrite Q2R_0'. apply Rle_ge, HP. lia. }
    unfold obind at 1 in H. destruct (ca_add_bounds b [] (add_cons c1 o)) as [[u2 o2]|] eqn:E2; [|discriminate].
    assert (R2 : reach o2).
    { destruct b as [b|]; simpl in E2; [|injection E2; intros <- _; exact R1]. eapply reach_bounds; [|exact R1|exact E2]. exact Hb. }
    clear R1 E2.
    assert (NN : forall n o3 u o4, In n ["eta"; "rho"; "h"]%string -> reach o3 -> nonneg_var n o3 = Ok (u, o4) -> reach o4).
    { intros n o3 u o4 Hin R3 Hv. apply nonneg_var_run in Hv as (v & Ev & ->). eapply reach_nonneg; [exact Ev| |exact R3]. intros i j _ _. apply Hn, Hin. }
    unfold obind at 1 in H. destruct (nonneg_var "eta" o2) as [[u3 o3]|] eqn:E3; [|discriminate]. apply NN in E3; [|simpl; auto|exact R2].
    unfold obind at 1 in H. destruct (nonneg_var "rho" o3) as [[u4 o4]|] eqn:E4; [|discriminate]. apply NN in E4; [|simpl; auto|exact E3].
    unfold obind at 1 in H. destruct (nonneg_var "h" o4) as [[u5 o5]|] eqn:E5; [|discriminate]. apply NN in E5; [|simpl; auto|exact E4].
    injection H as _ <-. exact E5.
  Qed.

  Lemma reach_nonneg_block n r c o : has_char us n = false -> (forall i j, (0 <= T n i j)%R) -> reach o -> reach (nonneg_block_state n r c o).
  Proof.
    intros Hn Hp R. unfold nonneg_block_state. assert (R1 := reach_block n r c o Hn R).
    apply (reach_nonneg n (mkCV r c (op_next o))) in R1; [exact R1|apply block_at|]. intros; apply Hp.
  Qed.
  Lemma reach_fun_blocks sizes : (forall f i j, (0 <= T (lamb_prefix f) i j)%R) -> forall idx o u o',
    reach o -> ipopt_fun_blocks idx sizes o = Ok (u, o') -> reach o'.
  Proof.
    intros Hp. induction sizes as [|n sizes IH]; intros idx o u o' R H; simpl in H.
    - injection H; intros <- _. exact R.
    - unfold obind in H. rewrite nonneg_block_run in H. eapply IH; [|exact H]. apply (reach_nonneg_block (lamb_prefix idx) n n o); [apply lamb_prefix_nous|apply Hp|exact R].
  Qed.
  Lemma reach_multipliers p sr sizes o u o' : (forall f i j, (0 <= T (lamb_prefix f) i j)%R) ->
    reach o -> ipopt_multipliers p sr sizes o = Ok (u, o') -> reach o'.
  Proof.
    intros Hp R H. unfold ipopt_multipliers in H. unfold obind at 1 in H.
    match type of H with match ?m with _ => _ end = _ => destruct m as [[u1 o1]|] eqn:E1; [|discriminate] end.
    assert (R1 : reach o1).
    { match type of E1 with (if ?b then _ else _) _ = _ => destruct b end; [|unfold oret in E1; injection E1; intros <- _; exact R]. rewrite nonneg_block_run in E1. injection E1; intros <- _.
      apply (reach_nonneg_block "lamb0" _ 1 o); [reflexivity|apply (Hp 0)|exact R]. }
    unfold obind at 1 in H.
    match type of H with match ?m with _ => _ end = _ => destruct m as [[u2 o2]|] eqn:E2; [|discriminate] end.
    assert (R2 : reach o2).
    { match type of E2 with (if ?b then _ else _) _ = _ => destruct b end; [|unfold oret in E2; injection E2; intros <- _; exact R1]. unfold obind, opti_variable, set_var in E2. injection E2; intros <- _.
      apply (reach_block "nu0" _ 1 o1); [reflexivity|exact R1]. }
    eapply reach_fun_blocks; [exact Hp|exact R2|exact H].
  Qed.
End Target.

(** * the theorem *)
(** the remaining constraints of the program: reciprocals, bounds, signs *)
Definition target (r : env) (L : nat -> nat -> R) (n : string) (i j : nat) : R :=
  if String.eqb n "P" then if Nat.leb j i then L i j else 0%R
  else if String.prefix "lamb" n then Rabs (r (dual_name n i j))
  else if is_dual n then r (dual_name n i j)
  else r n.

Lemma target_param r L n i j : good_param n -> target r L n i j = r n.
Proof.
  intros (_ & A & B). unfold target. apply String.eqb_neq in B. rewrite B. unfold is_dual in *. apply orb_false_iff in A as [A1 A2].
  rewrite A1, A2. reflexivity.
Qed.
Lemma target_lamb r L f i j : target r L (lamb_prefix f) i j = Rabs (r (dual_name (lamb_prefix f) i j)).
Proof. unfold target, lamb_prefix. simpl. destruct (nat_str f); reflexivity. Qed.

Lemma inv_good l n : Forall good_param l -> (forall x, In x (inv_discr_params l) -> is_dual x = false /\ x <> "P"%string) ->
  In n (inv_discr_params l) -> good_param n.
Proof.
  intros H Hd Hn. split; [|apply Hd; exact Hn]. apply simple_has. eapply inv_simple; [|exact Hn]. intros m Hm. rewrite Forall_forall in H.
  apply simple_has, H, Hm.
Qed.

Section Complete.
  Context {SY : sympy} (OK : sympy_ok SY).

  Lemma head_reach p b dimG P o1 r L : Forall good_param (pr_params p) ->
    (forall x, In x (inv_discr_params (pr_params p)) -> is_dual x = false /\ x <> "P"%string) ->
    side_ok p b r -> lower_tri dimG L -> ipopt_head (pr_params p) b dimG opti0 = Ok (P, o1) -> reach (target r L) o1.
  Proof using Type.
    intros Hg Hi (S1 & S2 & S3) [L1 L2] H. rewrite head_split in H.
    destruct (head_vars (pr_params p) dimG opti0) as [[u o]|] eqn:E; [|discriminate].
    destruct (head_vars_spec (pr_params p) dimG u o (param_names p Hg) E) as (_ & _ & Hm).
    assert (R : reach (target r L) o).
    { revert E. pose proof base_names_simple as Hb. pose proof (reach0 (target r L)) as R0. unfold head_vars. revert Hb R0.
      generalize base_names opti0. intros bn o0 Hb R0 E. eapply reach_head_vars; [apply (param_names p Hg)|exact Hb| |exact R0|exact E].
      intros n Hn. assert (Gn := inv_good _ n Hg Hi Hn). destruct (S1 n Hn) as [A B]. split; [apply simple_has, Gn|].
      rewrite (target_param r L n) by exact Gn. split; [|exact B].
      replace (target r L ("inv" ++ n) 0 0) with (r ("inv" ++ n)%string); [exact A|]. unfold target. simpl. reflexivity. }
    clear E. eapply reach_head_signs; [| | |exact R|exact H].
    - intros k Hk. unfold target. simpl. rewrite Nat.leb_refl. apply L2, Hk.
    - destruct b as [b|]; [|exact I]. intros [x [ub lb]] Hx. simpl. destruct (S2 x ub lb Hx) as (A & B & C). split; [|apply Hm, A].
      intros i j. simpl. rewrite (target_param r L x) by (rewrite Forall_forall in Hg; apply Hg, A). split; assumption.
    - intros n i j Hn. destruct S3 as (A & B & C). simpl in Hn. destruct Hn as [<-|[<-|[<-|[]]]]; assumption.
  Qed.

  Theorem certificate_feasible p b s n s' r L w : Inv s -> Forall good_param (pr_params p) -> declared p s ->
    (forall x, In x (inv_discr_params (pr_params p)) -> is_dual x = false /\ x <> "P"%string) ->
    ipopt_nlp SY p b s = (Ok n, s') -> In (SObj, w) (sr_exp (nlp_sym n)) ->
    certificate r (nlp_sym n) w (st_pctr s) (st_ectr s) (st_pctr s) L ->
    side_ok p b r -> lower_tri (st_pctr s) L ->
    exists a, feasible (nlp_opti n) a /\
      (forall x, In x (pr_params p) -> In (x, r x) (dict_parameters (nlp_opti n) a (pr_params p))).
  Proof using OK.
    intros I Hg Hd Hi H Hw HC HS HL.
    destruct (nlp_split OK p b s n s' I Hg Hd H) as (P & o1 & o2 & w' & m & Eh & Es & T). clear H.
    destruct (head_spec _ _ _ _ _ (param_names p Hg) Eh) as (_ & Hps & EP & Er & Ec).
    assert (R1 := head_reach p b _ P o1 r L Hg Hi HS HL Eh). clear Eh.
    destruct T as (Em & Ew & EE & Kk & Emu & G1 & G2 & So & X & Hs & T1 & T2 & e0 & Eo & T3).
    assert (R2 : reach (target r L) o2).
    { eapply reach_multipliers; [|exact R1|exact Emu]. intros f i j. rewrite target_lamb. apply Rabs_pos. }
    destruct R2 as [_ [a [Fa Ta]]].
    destruct (multipliers_spec _ _ _ _ _ _ Emu G1) as (_ & _ & M1 & M2 & M3 & M4).
    rewrite (ineq_size_ok _ _ EE) in *. rewrite (eq_size_ok _ _ EE) in *. rewrite shift_ok in M4.
    assert (Hpar : forall x, In x (pr_params p) -> exists v, dget String.eqb x (op_vars o2) = Some v /\ cv_rows v = 1 /\ cv_cols v = 1 /\
       a (cv_base v) = r x /\ base_env (op_vars o2) a x = r x).
    { intros x Hx. assert (Hgx := Hg). rewrite Forall_forall in Hgx. assert (Gx := Hgx x Hx). destruct (Hgx x Hx) as (Q1 & Q2 & Q3).
      destruct (Hps x Hx Q3) as (v & E & R & C). exists v. rewrite <- (M1 x Q2) in E. split; [exact E|]. split; [exact R|]. split; [exact C|].
      assert (V : a (cv_base v) = r x) by (rewrite (tgt_1 _ _ _ _ _ Ta E R C); apply target_param, Gx). split; [exact V|].
      unfold base_env. rewrite Q2. unfold plain_env. rewrite E, R, C. exact V. }
    assert (Hdual : forall f i j rr cc, block_is o2 (lamb_prefix f) rr cc -> i < rr -> j < cc -> In (SK 0 f i j) (keys (sr_exp (nlp_sym n))) ->
       base_env (op_vars o2) a (dual_name (lamb_prefix f) i j) = r (dual_name (lamb_prefix f) i j)).
    { intros f i j rr cc Hb Hi' Hj' Hk.
      destruct (dual_value o2 a (lamb_prefix f) rr cc i j Hb (lamb_dual f) (lamb_prefix_nobar f) (dual_is_dual f i j) Hi' Hj') as (v & E & Hin & ->).
      destruct Hb as (v' & E' & R' & C'). rewrite E in E'. injection E' as <-. rewrite (Ta _ _ i j E) by lia. rewrite target_lamb.
      apply Rabs_pos_eq, (cert_nonneg _ _ _ _ _ _ _ HC), Hk. }
    assert (Hkeys : forall b' f i j, In (SK b' f i j) (keys (sr_exp (nlp_sym n))) -> r (dual_of (SK b' f i j)) = base_env (op_vars o2) a (dual_of (SK b' f i j))).
    { intros b' f i j Hk.
      assert (Hb : b' = 0 \/ b' = 1 /\ f = 0 /\ j = 0 /\ i < List.length (eqs p)).
      { assert (Es' := Es). unfold symbolic in Es'. set (funs := leaf_funs (st_flist s) s) in *.
        destruct (csm_spec SY _ _ p funs (funs_of s funs) s _ s' Es') as (W & m' & wm & _ & _ & Ex & F2 & _).
        { apply leaf_funs_nodup, (inv_flist s I). }
        { apply fresh_funs; [exact I|]. intros f' Hf'. apply leaf_funs_in in Hf'. apply Hf'. }
        rewrite Ex in Hk. unfold keys in Hk. rewrite map_app, in_app_iff, (stores_keys SY _ _ _ _ F2) in Hk.
        destruct Hk as [Hk|[Hk|[]]]; [|discriminate]. apply table_keys in Hk as [[-> _]|Hk]; auto. }
      destruct Hb as [->|(-> & -> & -> & Hlt)].
      - symmetry. cbn [dual_of]. assert (Hk' := Hk). apply Kk in Hk as [(-> & -> & Hi')|(k & sz & Hn & -> & Hi' & Hj' & _)].
        + eapply Hdual; [apply nonneg_block_is, M2; lia|exact Hi'|lia|exact Hk'].
        + eapply Hdual; [rewrite Nat.add_comm; apply nonneg_block_is, (M4 k sz Hn)|exact Hi'|exact Hj'|exact Hk'].
      - cbn [dual_of]. change ("nu" ++ nat_str 0)%string with "nu0"%string.
        destruct (dual_value o2 a "nu0" (List.length (eqs p)) 1 i 0) as (v & E & _ & ->); try reflexivity; try lia.
        { apply M3. lia. }
        destruct M3 as (v' & E' & R' & C'); [lia|]. rewrite E in E'. injection E' as <-. rewrite (Ta _ _ i 0 E) by lia. reflexivity. }
    assert (Hon : env_on r (base_env (op_vars o2) a) (pr_params p)).
    { intros x Hx. destruct (Hpar x Hx) as (v & _ & _ & _ & _ & V). symmetry. exact V. }
    destruct (sum_depends OK p s (nlp_sym n) s' w r _ I Hd Es Hw Hon Hkeys) as [D1 D2].
    assert (w' = w).
    { assert (Es' := Es). unfold symbolic in Es'. set (funs := leaf_funs (st_flist s) s) in *.
      destruct (csm_spec SY _ _ p funs (funs_of s funs) s _ s' Es') as (W & m' & wm & _ & _ & Ex & F2 & _).
      { apply leaf_funs_nodup, (inv_flist s I). }
      { apply fresh_funs; [exact I|]. intros f' Hf'. apply leaf_funs_in in Hf'. apply Hf'. }
      assert (Hn : forall x, ~ In (SObj, x) W).
      { intros x Hx. apply (in_map fst) in Hx. rewrite (stores_keys SY _ _ _ _ F2) in Hx. simpl in Hx.
        unfold constraint_table in Hx. rewrite !map_app, !in_app_iff in Hx. destruct Hx as [Hx|[Hx|Hx]].
        - unfold extra_ineq_table in Hx. rewrite map_map in Hx. apply in_map_iff in Hx as [? [? _]]. discriminate.
        - apply in_map_iff in Hx as [? [E Hx]]. apply in_flat_map in Hx as [? [_ Hx]]. unfold fun_table in Hx. apply in_map_iff in Hx as [? [<- _]]. discriminate.
        - unfold eq_table in Hx. rewrite map_map in Hx. apply in_map_iff in Hx as [? [? _]]. discriminate. }
      rewrite Ex in Hw, Ew. apply in_app_or in Hw as [Hw|[Hw|[]]]; [destruct (Hn _ Hw)|]. apply in_app_or in Ew as [Ew|[Ew|[]]]; [destruct (Hn _ Ew)|]. congruence. }
    subst w'.
    destruct (T2 a Fa) as (a' & Ag & Fa').
    - intros k Hk. pose proof (cert_F _ _ _ _ _ _ _ HC k Hk) as E.
      rewrite <- !(fg_val_F _ (st_pctr s) (st_ectr s) _ k Hk) in E. rewrite <- !(fg_val_F _ (st_pctr s) (st_ectr s) _ k Hk). rewrite <- D1, <- D2. exact E.
    - intros i j Hi' Hj'. pose proof (cert_G _ _ _ _ _ _ _ HC i j Hi' Hj') as E.
      rewrite <- !(fg_val_G _ (st_pctr s) (st_ectr s) _ i j Hi' Hj') in E. rewrite <- !(fg_val_G _ (st_pctr s) (st_ectr s) _ i j Hi' Hj'). rewrite <- D1, <- D2. rewrite E.
      apply rsum_ext. intros c Hc.
      assert (V : forall i, i < st_pctr s -> P_val P a i c = L i c).
      { intros k Hk. unfold P_val, tril. destruct (Nat.leb c k) eqn:Ele.
        - simpl. rewrite <- (M1 "P"%string eq_refl) in EP. rewrite (Ta _ _ k c EP) by lia. unfold target. simpl. rewrite Ele. reflexivity.
        - apply Nat.leb_gt in Ele. simpl. rewrite Q2R_0'. symmetry. apply (proj1 HL); assumption. }
      rewrite !V by assumption. reflexivity.
    - exists a'. split; [exact Fa'|]. intros x Hx. destruct (Hpar x Hx) as (v & E & R & C & V & _). unfold dict_parameters. apply in_flat_map. exists x. split; [exact Hx|].
      rewrite Hs by (apply (param_names p Hg x Hx)). rewrite E, R, C. simpl. left. f_equal. rewrite Ag; [exact V|].
      pose proof (wfo_vars _ (proj1 G2) _ _ E). lia.
  Qed.
End Complete.
