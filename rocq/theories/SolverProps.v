(** Proofs of the statements in [Props_Solver]. *)
From Coq Require Import List Arith Bool String Ascii QArith Reals Qreals Lra Lia Permutation.
From Verif Require Import Prelude PreludeFacts Sympy SympyFacts AlgebraModel Denote FunctionModel CircuitModel
  SymSpec SymFacts Spec ClassSpec CertSpec StateSpec SessionModel StateFacts CertFacts ClassProps
  ParsingModel ParsingSpec ParsingFacts SolverModel SolverSpec SolverFacts IpoptFacts IpoptTail IpoptProof IpoptComplete MatFacts.
Import ListNotations.
Local Open Scope nat_scope.
Local Open Scope string_scope.

(** * C22 *)
Lemma nu_nobar f : has_char "|"%char ("nu" ++ nat_str f) = false.
Proof. rewrite has_char_app, nat_str_nochar by (simpl; auto). reflexivity. Qed.
Lemma dual_inj p q i j k l : has_char "|"%char p = false -> has_char "|"%char q = false ->
  dual_name p i j = dual_name q k l -> p = q /\ i = k /\ j = l.
Proof.
  intros Hp Hq E. pose proof (parse_dual_name p i j Hp) as A. rewrite E, (parse_dual_name q k l Hq) in A.
  injection A as -> -> ->. auto.
Qed.
Lemma dual_of_inj b f i j b' f' i' j' : b <= 1 -> b' <= 1 ->
  dual_of (SK b f i j) = dual_of (SK b' f' i' j') -> SK b f i j = SK b' f' i' j'.
Proof.
  intros Hb Hb' E.
  destruct b as [|[|b]]; try lia; destruct b' as [|[|b']]; try lia; cbn [dual_of] in E;
    apply dual_inj in E; try apply lamb_prefix_nobar; try apply nu_nobar; destruct E as (E1 & -> & ->).
  - apply lamb_prefix_inj in E1 as ->. reflexivity.
  - unfold lamb_prefix in E1. discriminate E1.
  - unfold lamb_prefix in E1. discriminate E1.
  - apply string_app_inj_l, nat_str_inj in E1 as ->. reflexivity.
Qed.

Section Names.
  Variable SY : sympy.
  Lemma assembled_keys s p sr s' : Inv s -> symbolic SY p s = (Ok sr, s') ->
    exists T, keys (sr_exp sr) = (T ++ [SObj])%list /\ NoDup T /\
      forall k, In k T -> exists b f i j, k = SK b f i j /\ b <= 1.
  Proof.
    intros I Es. unfold symbolic in Es. set (funs := leaf_funs (st_flist s) s) in *.
    assert (Hnd : NoDup funs) by (apply leaf_funs_nodup, (inv_flist s I)).
    assert (Hf : Forall2 (fun f fn => dget Nat.eqb f (st_funs s) = Some fn /\ fresh_fun fn) funs (funs_of s funs)).
    { apply fresh_funs; [exact I|]. intros f Hf. apply leaf_funs_in in Hf. easy. }
    destruct (csm_spec SY _ _ p funs _ s sr s' Es Hnd Hf) as (W & m & wm & _ & _ & Ex & St & _).
    exists (map fst (constraint_table SY p (funs_of s funs))). rewrite Ex. unfold keys. rewrite map_app. simpl.
    rewrite (stores_keys _ _ _ _ _ St). split; [reflexivity|]. split; [apply table_keys_nodup|].
    intros k Hk. destruct k as [b f i j|].
    - exists b, f, i, j. split; [reflexivity|]. apply table_keys in Hk as [[-> _]|[-> _]]; lia.
    - exfalso. unfold constraint_table in Hk. rewrite !map_app, !in_app_iff in Hk. destruct Hk as [Hk|[Hk|Hk]].
      + unfold extra_ineq_table in Hk. rewrite map_map in Hk. apply in_map_iff in Hk as (x & E & _). discriminate E.
      + unfold class_table in Hk. apply in_map_iff in Hk as (x & E & Hx). apply in_flat_map in Hx as (y & _ & Hx).
        unfold fun_table in Hx. apply in_map_iff in Hx as (z & <- & _). discriminate E.
      + unfold eq_table in Hk. rewrite map_map in Hk. apply in_map_iff in Hk as (x & E & _). discriminate E.
  Qed.
  Lemma multiplier_names s p sr s' : Inv s -> symbolic SY p s = (Ok sr, s') ->
    exists T, keys (sr_exp sr) = (T ++ [SObj])%list /\ NoDup (map dual_of T).
  Proof.
    intros I Es. destruct (assembled_keys s p sr s' I Es) as (T & E & N & K). exists T. split; [exact E|]. clear E.
    induction N as [|k T Hk N IH]; simpl; constructor.
    - intros Hin. apply in_map_iff in Hin as (k' & E & Hin). apply Hk.
      destruct (K k (or_introl eq_refl)) as (b & f & i & j & -> & Hb).
      destruct (K k' (or_intror Hin)) as (b' & f' & i' & j' & -> & Hb').
      apply dual_of_inj in E; try assumption. rewrite <- E. exact Hin.
    - apply IH. intros k' Hk'. apply K. right. exact Hk'.
  Qed.
End Names.

(** * C37 *)
Lemma feasible_add_cons cs o a : feasible (add_cons cs o) a <-> feasible o a /\ Forall (holds a) cs.
Proof. apply add_cons_feasible. Qed.
Section Bounds.
  Variable name2idx : list (vname * nat).
  Definition bound_cons (ids : list nat) (ub lb : option Q) : list ccon :=
    ((match ub with Some q => map (fun i => CGe (CNum q) (CVar i)) ids | None => [] end) ++
     (match lb with Some q => map (fun i => CGe (CVar i) (CNum q)) ids | None => [] end))%list.
  Lemma bound_cons_holds ids ub lb a : Forall (holds a) (bound_cons ids ub lb) <-> forall i, In i ids -> in_bounds (a i) ub lb.
  Proof.
    unfold bound_cons, in_bounds. rewrite Forall_app, !Forall_forall. split.
    - intros [A B] i Hi. split.
      + destruct ub as [q|]; [|exact I]. apply Rge_le. apply (A (CGe (CNum q) (CVar i))). apply in_map_iff. eauto.
      + destruct lb as [q|]; [|exact I]. apply Rge_le. apply (B (CGe (CVar i) (CNum q))). apply in_map_iff. eauto.
    - intros H. split.
      + destruct ub as [q|]; [|intros x []]. intros x Hx. apply in_map_iff in Hx as (i & <- & Hi). simpl. apply Rle_ge. apply (H i Hi).
      + destruct lb as [q|]; [|intros x []]. intros x Hx. apply in_map_iff in Hx as (i & <- & Hi). simpl. apply Rle_ge. apply (H i Hi).
  Qed.
  Lemma bounds_step name ub lb b this o ids : bound_target o name2idx name = Some ids ->
    ca_add_bounds_loop ((name, (ub, lb)) :: b) name2idx this o =
    ca_add_bounds_loop b name2idx (Some ids) (add_cons (bound_cons ids ub lb) o).
  Proof.
    intros H. cbn [ca_add_bounds_loop]. unfold obind at 1, has_var, dmem.
    unfold bound_target in H. unfold obind at 1.
    assert (E : (if match dget String.eqb name (op_vars o) with Some _ => true | None => false end
       then (ado v <- get_var name; oret (Some (cv_ids v)))
       else match dget vname_eqb (VStr name) name2idx with
            | Some i => ado v <- get_var "x"; if Nat.ltb i (cv_rows v) then oret (Some [cv_at v i 0]) else oraise IndexError
            | None => oret this end) o = Ok (Some ids, o)).
    { destruct (dget String.eqb name (op_vars o)) as [v|] eqn:Ev.
      - unfold obind, get_var. rewrite Ev. injection H as ->. reflexivity.
      - destruct (dget vname_eqb (VStr name) name2idx) as [i|]; [|discriminate]. unfold obind, get_var.
        destruct (dget String.eqb "x" (op_vars o)) as [v|]; [|discriminate]. destruct (Nat.ltb i (cv_rows v)); [|discriminate].
        injection H as ->. reflexivity. }
    rewrite E. clear E.
    assert (E1 : (match ub with None => oret tt | Some q => oiter (fun i => subject_to (CGe (CNum q) (CVar i))) ids end) o =
       Ok (tt, add_cons (match ub with Some q => map (fun i => CGe (CNum q) (CVar i)) ids | None => [] end) o)).
    { destruct ub as [q|]; [rewrite oiter_subject|rewrite add_cons_nil]; reflexivity. }
    unfold obind at 1. rewrite E1.
    set (o1 := add_cons _ o).
    assert (E2 : (match lb with None => oret tt | Some q => oiter (fun i => subject_to (CGe (CVar i) (CNum q))) ids end) o1 =
       Ok (tt, add_cons (match lb with Some q => map (fun i => CGe (CVar i) (CNum q)) ids | None => [] end) o1)).
    { destruct lb as [q|]; [rewrite oiter_subject|rewrite add_cons_nil]; reflexivity. }
    unfold obind at 1. rewrite E2. unfold o1. rewrite add_cons_app. reflexivity.
  Qed.
  Lemma bound_target_add cs o name : bound_target (add_cons cs o) name2idx name = bound_target o name2idx name.
  Proof. reflexivity. Qed.
  Lemma bounds_exact b : forall this o, (forall name ub lb, In (name, (ub, lb)) b -> bound_target o name2idx name <> None) ->
    exists cs, ca_add_bounds_loop b name2idx this o = Ok (tt, add_cons cs o) /\
      forall a, Forall (holds a) cs <-> forall name ub lb ids i, In (name, (ub, lb)) b -> bound_target o name2idx name = Some ids -> In i ids ->
         in_bounds (a i) ub lb.
  Proof.
    induction b as [|[name [ub lb]] b IH]; intros this o H.
    - exists []. rewrite add_cons_nil. split; [reflexivity|]. intros a. split; [intros _ ? ? ? ? ? []|constructor].
    - destruct (bound_target o name2idx name) as [ids|] eqn:E.
      2:{ exfalso. apply (H name ub lb); [left; reflexivity|exact E]. }
      rewrite (bounds_step _ _ _ _ _ _ _ E).
      destruct (IH (Some ids) (add_cons (bound_cons ids ub lb) o)) as (cs & E1 & H1).
      { intros n u l Hin. rewrite bound_target_add. apply (H n u l). right. exact Hin. }
      rewrite E1, add_cons_app. eexists. split; [reflexivity|]. intros a. rewrite Forall_app, H1, bound_cons_holds. split.
      + intros [A B] n u l ids' i [[= <- <- <-]|Hin] Et Hi.
        * rewrite E in Et. injection Et as <-. apply A, Hi.
        * eapply B; eauto.
      + intros A. split.
        * intros i Hi. eapply A; [left; reflexivity|exact E|exact Hi].
        * intros n u l ids' i Hin Et Hi. eapply A; [right; exact Hin|exact Et|exact Hi].
  Qed.
  Lemma bounds_unknown name ub lb b o : dget String.eqb name (op_vars o) = None -> dget vname_eqb (VStr name) name2idx = None ->
    ub <> None \/ lb <> None ->
    ca_add_bounds_loop ((name, (ub, lb)) :: b) name2idx None o = Err UnboundLocalError.
  Proof.
    intros E1 E2 H. simpl. unfold obind, has_var, dmem. rewrite E1, E2. destruct ub as [q|]; [reflexivity|]. destruct lb as [q|]; [reflexivity|].
    destruct H as [H|H]; elim H; reflexivity.
  Qed.
  Lemma bounds_stale n0 ub0 lb0 name ub lb b o ids : bound_target o name2idx n0 = Some ids ->
    dget String.eqb name (op_vars o) = None -> dget vname_eqb (VStr name) name2idx = None ->
    ca_add_bounds_loop ((n0, (ub0, lb0)) :: (name, (ub, lb)) :: b) name2idx None o =
    ca_add_bounds_loop b name2idx (Some ids) (add_cons (bound_cons ids ub0 lb0 ++ bound_cons ids ub lb) o).
  Proof.
    intros E E1 E2. rewrite (bounds_step _ _ _ _ _ _ _ E). rewrite <- add_cons_app. set (o1 := add_cons (bound_cons ids ub0 lb0) o).
    assert (E1' : dget String.eqb name (op_vars o1) = None) by exact E1. clearbody o1. cbn [ca_add_bounds_loop].
    unfold obind at 1, has_var, dmem. rewrite E1', E2. unfold obind at 1, oret at 1.
    assert (F1 : (match ub with None => oret tt | Some q => oiter (fun i => subject_to (CGe (CNum q) (CVar i))) ids end) o1 =
       Ok (tt, add_cons (match ub with Some q => map (fun i => CGe (CNum q) (CVar i)) ids | None => [] end) o1)).
    { destruct ub as [q|]; [rewrite oiter_subject|rewrite add_cons_nil]; reflexivity. }
    unfold obind at 1. rewrite F1. set (o2 := add_cons _ o1).
    assert (F2 : (match lb with None => oret tt | Some q => oiter (fun i => subject_to (CGe (CVar i) (CNum q))) ids end) o2 =
       Ok (tt, add_cons (match lb with Some q => map (fun i => CGe (CVar i) (CNum q)) ids | None => [] end) o2)).
    { destruct lb as [q|]; [rewrite oiter_subject|rewrite add_cons_nil]; reflexivity. }
    unfold obind at 1. rewrite F2. unfold o2. rewrite add_cons_app. reflexivity.
  Qed.
End Bounds.

(** * C40 *)
Lemma prefix_refl_app t s : String.prefix t (t ++ s) = true.
Proof. induction t as [|a t IH]; [destruct s; reflexivity|]. simpl. destruct (ascii_dec a a) as [_|H]; [exact IH|elim H; reflexivity]. Qed.
Lemma infix_self t s : infix t (t ++ s) = true.
Proof. destruct t as [|a t]; [destruct s; reflexivity|]. cbn [append infix]. rewrite (prefix_refl_app (String a t) s : String.prefix (String a t) (String a (t ++ s)) = true). reflexivity. Qed.
Lemma substring_all s : forall n, String.length s <= n -> String.substring 0 n s = s.
Proof. induction s as [|a s IH]; intros [|n] H; simpl in *; try reflexivity; try lia. rewrite IH by lia. reflexivity. Qed.
Lemma drop3_inv X : drop3 ("inv" ++ X) = X.
Proof. unfold drop3. simpl. apply substring_all. lia. Qed.
Lemma recip_params l : recip_names l -> forall X, In X (inv_discr_params l) <-> In ("inv" ++ X) l /\ infix "inv" X = false /\ is_dual X = false /\ X <> "P".
Proof.
  intros H X. unfold inv_discr_params. rewrite in_map_iff. split.
  - intros (m & E & Hm). apply filter_In in Hm as [Hm Hi]. destruct (H m Hm Hi) as (Y & -> & A & B & C). rewrite drop3_inv in E. subst Y. auto.
  - intros (A & _). exists ("inv" ++ X). split; [apply drop3_inv|]. apply filter_In. split; [exact A|]. apply infix_self.
Qed.

Definition recip_is (o : opti) (X : string) : Prop := exists v w,
  dget String.eqb X (op_vars o) = Some v /\ cv_rows v = 1 /\ cv_cols v = 1 /\
  dget String.eqb ("inv" ++ X) (op_vars o) = Some w /\ cv_rows w = 1 /\ cv_cols w = 1 /\
  In (CEq (CMul (CVar (cv_base v)) (CVar (cv_base w))) (CNum 1)) (op_cons o) /\
  In (CGe (CVar (cv_base v)) (CNum tiny)) (op_cons o).
Lemma recip_keep o o' X : recip_is o X ->
  (forall n, n = X \/ n = "inv" ++ X -> dget String.eqb n (op_vars o') = dget String.eqb n (op_vars o)) ->
  (exists cs, op_cons o' = (op_cons o ++ cs)%list) -> recip_is o' X.
Proof.
  intros (v & w & A1 & A2 & A3 & B1 & B2 & B3 & C1 & C2) H [cs E]. exists v, w. rewrite !H by auto. rewrite E.
  repeat (split; [first [assumption|apply in_or_app; left; assumption]|]). apply in_or_app; left; assumption.
Qed.
Lemma recip_new o n : recip_is (add_cons [CEq (CMul (CVar (op_next o)) (CVar (op_next o + 1))) (CNum 1); CGe (CVar (op_next o)) (CNum tiny)]
            (add_block ("inv" ++ n) 1 1 (add_block n 1 1 o))) n.
Proof.
  exists (mkCV 1 1 (op_next o)), (mkCV 1 1 (op_next o + 1)). repeat split.
  - change (op_vars (add_cons ?c ?o)) with (op_vars o). rewrite block_other by apply inv_ne. apply block_at.
  - change (op_vars (add_cons ?c ?o)) with (op_vars o). rewrite block_at. reflexivity.
  - simpl. apply in_or_app. right. simpl. auto.
  - simpl. apply in_or_app. right. simpl. auto.
Qed.
Lemma recips_loop l : forall o u o', (forall Y, In Y l -> infix "inv" Y = false) -> oiter add_reciprocal l o = Ok (u, o') ->
  (forall X, infix "inv" X = false -> In X l \/ recip_is o X -> recip_is o' X).
Proof.
  induction l as [|y l IH]; intros o u o' Hl H X HX HI; simpl in H.
  - injection H; intros <- _. destruct HI as [[]|HI]. exact HI.
  - unfold obind in H. rewrite add_reciprocal_run in H. eapply IH; [|exact H|exact HX|].
    + intros Y HY. apply Hl. right. exact HY.
    + destruct (String.eqb X y) eqn:E.
      * apply String.eqb_eq in E. subst y. right. apply recip_new.
      * apply String.eqb_neq in E. destruct HI as [[HI|HI]|HI]; [elim E; auto|left; exact HI|]. right.
        eapply recip_keep; [exact HI| |].
        2:{ eexists. reflexivity. }
        assert (Hy : infix "inv" y = false) by (apply Hl; left; reflexivity).
        intros n Hn. change (op_vars (add_cons ?c ?o)) with (op_vars o). rewrite !block_other; [reflexivity| |].
        -- intros ->. destruct Hn as [Hn|Hn]; [auto|]. subst y. rewrite (infix_self "inv" X) in Hy. discriminate Hy.
        -- intros ->. destruct Hn as [Hn|Hn].
           ++ subst X. rewrite (infix_self "inv" y) in HX. discriminate HX.
           ++ injection Hn as Hn. auto.
Qed.
Lemma declares_keep l : forall o u o', oiter declare_param l o = Ok (u, o') ->
  (forall n v, dget String.eqb n (op_vars o) = Some v -> dget String.eqb n (op_vars o') = Some v) /\ op_cons o' = op_cons o.
Proof.
  induction l as [|x l IH]; intros o u o' H; simpl in H.
  - injection H; intros <- _. easy.
  - unfold obind in H. rewrite declare_run in H. apply IH in H as [A B].
    unfold dmem in A, B. destruct (dget String.eqb x (op_vars o)) as [w|] eqn:E; [easy|]. split; [|exact B].
    intros n v Hv. apply A. rewrite block_other; [exact Hv|]. intros ->. rewrite E in Hv. discriminate Hv.
Qed.
Lemma head_rest_recip params dimG o0 u o : recip_names params -> head_rest params dimG o0 = Ok (u, o) ->
  forall X, In ("inv" ++ X) params -> recip_is o X.
Proof.
  intros Hr H X HX. unfold head_rest in H.
  assert (H' : (ado _ <- oiter add_reciprocal (inv_discr_params params); oiter declare_param params) (add_block "P" dimG dimG o0) = Ok (u, o)) by exact H.
  clear H. unfold obind at 1 in H'.
  destruct (oiter add_reciprocal (inv_discr_params params) (add_block "P" dimG dimG o0)) as [[u2 o2]|] eqn:E2; [|discriminate].
  destruct (Hr _ HX (infix_self "inv" X)) as (Y & EY & A & B & C). injection EY as <-.
  assert (R : recip_is o2 X).
  { eapply recips_loop; [|exact E2|exact A|].
    - intros Y HY. apply (recip_params params Hr) in HY. easy.
    - left. apply (recip_params params Hr). auto. }
  apply declares_keep in H' as [K1 K2]. destruct R as (v & w & A1 & A2 & A3 & B1 & B2 & B3 & C1 & C2).
  exists v, w. rewrite K2. repeat (split; [solve [auto]|]). exact C2.
Qed.
Lemma head_vars_recip bn params dimG o0 u o : recip_names params -> (ado _ <- oiter new_scalar bn; head_rest params dimG) o0 = Ok (u, o) ->
  forall X, In ("inv" ++ X) params -> recip_is o X.
Proof.
  intros Hr H. unfold obind at 1 in H. destruct (oiter new_scalar bn o0) as [[u1 o1]|]; [|discriminate]. eapply head_rest_recip; eauto.
Qed.
Lemma head_recip params b dimG P o1 : (forall n, In n params -> has_char us n = false) -> recip_names params ->
  ipopt_head params b dimG opti0 = Ok (P, o1) -> forall X, In ("inv" ++ X) params -> recip_is o1 X.
Proof.
  intros Hp Hr H. rewrite head_split in H. destruct (head_vars params dimG opti0) as [[u o]|] eqn:E; [|discriminate].
  assert (G := head_vars_spec _ _ _ _ Hp E). destruct G as (G & _ & _). apply head_signs_spec in H; [|exact G].
  destruct H as (cs & -> & _). intros X HX.
  assert (R : recip_is o X) by (unfold head_vars in E; exact (head_vars_recip _ _ _ _ _ _ Hr E X HX)).
  apply (recip_keep o); [exact R|reflexivity|exists cs; reflexivity].
Qed.

Section Recip.
  Context {SY : sympy} (OK : sympy_ok SY).
  Lemma ipopt_reciprocals p b s n s' a : Inv s -> Forall good_param (pr_params p) -> declared p s -> recip_names (pr_params p) ->
    ipopt_nlp SY p b s = (Ok n, s') -> feasible (nlp_opti n) a ->
    forall X, In ("inv" ++ X) (pr_params p) -> exists x y,
      dict_parameters (nlp_opti n) a [X; "inv" ++ X] = [(X, x); ("inv" ++ X, y)] /\ (x * y = 1)%R /\ (x >= Q2R tiny)%R.
  Proof using OK.
    intros I Hg Hd Hr H Ha X HX. destruct (nlp_split OK p b s n s' I Hg Hd H) as (P & o1 & o2 & w & m & Eh & Es & T).
    assert (R := head_recip _ _ _ _ _ (param_names p Hg) Hr Eh X HX). clear Eh H.
    destruct T as (Em & Ew & EE & Kk & Emu & G1 & G2 & So & X2 & Hs & T1 & T2 & T3).
    destruct (multipliers_spec _ _ _ _ _ _ Emu G1) as (_ & X1 & M1 & _).
    destruct (Hr _ HX (infix_self "inv" X)) as (Y & EY & A & B & C). injection EY as <-.
    assert (Hn : has_char us ("inv" ++ X) = false) by (apply (param_names p Hg); exact HX).
    assert (R2 : recip_is (nlp_opti n) X).
    { eapply recip_keep; [exact R| |].
      - intros k [->| ->].
        + rewrite Hs by exact Hn. apply M1. exact B.
        + rewrite Hs by exact Hn. apply M1. reflexivity.
      - destruct X1 as [[c1 E1] _], X2 as [[c2 E2] _]. exists (c1 ++ c2)%list. rewrite E2, E1, app_assoc. reflexivity. }
    destruct R2 as (v & v' & A1 & A2 & A3 & B1 & B2 & B3 & C1 & C2).
    exists (a (cv_base v)), (a (cv_base v')). split; [|].
    - unfold dict_parameters. cbn [flat_map]. rewrite A1, A2, A3, B1, B2, B3. reflexivity.
    - unfold feasible in Ha. rewrite Forall_forall in Ha. apply Ha in C1. apply Ha in C2. simpl in C1, C2. rewrite Q2R_1' in C1. auto.
  Qed.
End Recip.

(** * C23 *)
Section Ipopt.
  Context {SY : sympy} (OK : sympy_ok SY).

  Lemma dict_names o a l : (forall x, In x l -> exists q, In (x, q) (dict_parameters o a l)) ->
    map fst (dict_parameters o a l) = l /\
    forall x q, In (x, q) (dict_parameters o a l) -> exists v, dget String.eqb x (op_vars o) = Some v /\ q = a (cv_base v).
  Proof using Type.
    intros H.
    assert (K : forall x, In x l -> exists v, dget String.eqb x (op_vars o) = Some v /\ Nat.eqb (cv_rows v) 1 && Nat.eqb (cv_cols v) 1 = true).
    { intros x Hx. destruct (H x Hx) as [q Hq]. unfold dict_parameters in Hq. apply in_flat_map in Hq as (y & _ & Hy).
      destruct (dget String.eqb y (op_vars o)) as [v|] eqn:E; [|destruct Hy].
      destruct (Nat.eqb (cv_rows v) 1 && Nat.eqb (cv_cols v) 1) eqn:E2; [|destruct Hy]. destruct Hy as [[= -> _]|[]]. eauto. }
    clear H. induction l as [|x l IH]; [split; [reflexivity|intros ? ? []]|].
    destruct IH as [I1 I2]; [intros y Hy; apply K; right; exact Hy|].
    destruct (K x (or_introl eq_refl)) as (v & E & E2). unfold dict_parameters in *. cbn [flat_map]. rewrite E, E2. simpl. rewrite I1.
    split; [reflexivity|]. intros y q [[= <- <-]|Hy]; [eauto|apply I2; exact Hy].
  Qed.

  Lemma returned_values p b s n s' a : Inv s -> Forall good_param (pr_params p) -> declared p s ->
    ipopt_nlp SY p b s = (Ok n, s') -> feasible (nlp_opti n) a ->
    map fst (dict_parameters (nlp_opti n) a (pr_params p)) = pr_params p /\
    forall e r, pr_obj p = Some e -> only_params (pr_params p) (fun x => In x (free e)) ->
      (forall x q, In (x, q) (dict_parameters (nlp_opti n) a (pr_params p)) -> r x = q) ->
      ceval a (nlp_obj n) = (- ev r e)%R.
  Proof using OK.
    intros I Hg Hd H Ha. destruct (feasible_certificate OK p b s n s' a I Hg Hd H Ha) as (_ & w & r0 & L & _ & _ & Hr & Ho).
    split; [apply dict_names; intros x Hx; eauto|]. intros e r He Hp Hv. rewrite (Ho e He Hp). f_equal.
    apply ev_free_ext. intros x Hx. symmetry. apply Hv, Hr, Hp, Hx.
  Qed.

  Lemma certificate_lower r sr w dimG dimF m P : certificate r sr w dimG dimF m P ->
    exists L, certificate r sr w dimG dimF dimG L /\ lower_tri dimG L.
  Proof using Type.
    intros [C1 C2 C3]. destruct (cholesky dimG _ (ppt_psd dimG m P)) as (L & L1 & L2 & L3). exists L. split.
    - constructor; [exact C1|exact C2|]. intros i j Hi Hj. rewrite (C3 i j Hi Hj). apply L3; assumption.
    - split; assumption.
  Qed.
  Lemma complete p b s n s' r w m P : Inv s -> Forall good_param (pr_params p) -> declared p s ->
    (forall x, In x (inv_discr_params (pr_params p)) -> is_dual x = false /\ x <> "P") ->
    ipopt_nlp SY p b s = (Ok n, s') -> In (SObj, w) (sr_exp (nlp_sym n)) ->
    certificate r (nlp_sym n) w (st_pctr s) (st_ectr s) m P -> side_ok p b r ->
    exists a, feasible (nlp_opti n) a /\
      dict_parameters (nlp_opti n) a (pr_params p) = map (fun x => (x, r x)) (pr_params p).
  Proof using OK.
    intros I Hg Hd Hi H Hw C S. destruct (certificate_lower _ _ _ _ _ _ _ C) as (L & CL & HL).
    destruct (certificate_feasible OK p b s n s' r L w I Hg Hd Hi H Hw CL S HL) as (a & Ha & Hr). exists a. split; [exact Ha|].
    destruct (dict_names (nlp_opti n) a (pr_params p)) as [D1 D2]; [intros x Hx; eauto|].
    set (D := dict_parameters (nlp_opti n) a (pr_params p)) in *.
    assert (V : forall x q, In (x, q) D -> q = r x).
    { intros x q Hq. destruct (D2 x q Hq) as (v & E & ->).
      assert (Hx : In x (pr_params p)) by (rewrite <- D1; apply (in_map fst D (x, a (cv_base v)) Hq)).
      destruct (D2 x (r x) (Hr x Hx)) as (v' & E' & ->). rewrite E in E'. injection E' as ->. reflexivity. }
    clear -D1 V. clearbody D. revert D1. generalize (pr_params p). induction D as [|[x q] D IH]; intros l <-; [reflexivity|].
    simpl. rewrite (V x q (or_introl eq_refl)). f_equal. apply IH; [intros y z Hz; apply V; right; exact Hz|reflexivity].
  Qed.
  Lemma optimal p b s n s' a e : Inv s -> Forall good_param (pr_params p) -> declared p s ->
    (forall x, In x (inv_discr_params (pr_params p)) -> is_dual x = false /\ x <> "P") ->
    pr_obj p = Some e -> only_params (pr_params p) (fun x => In x (free e)) ->
    ipopt_nlp SY p b s = (Ok n, s') -> feasible (nlp_opti n) a ->
    (forall a', feasible (nlp_opti n) a' -> (ceval a (nlp_obj n) <= ceval a' (nlp_obj n))%R) ->
    forall r0, (forall x q, In (x, q) (dict_parameters (nlp_opti n) a (pr_params p)) -> r0 x = q) ->
    forall r w m P, In (SObj, w) (sr_exp (nlp_sym n)) ->
      certificate r (nlp_sym n) w (st_pctr s) (st_ectr s) m P -> side_ok p b r -> (ev r e <= ev r0 e)%R.
  Proof using OK.
    intros I Hg Hd Hi He Hf H Ha Hmin r0 Hr0 r w m P Hw C S.
    destruct (complete p b s n s' r w m P I Hg Hd Hi H Hw C S) as (a' & Ha' & Hd').
    destruct (returned_values p b s n s' a I Hg Hd H Ha) as [_ O1].
    destruct (returned_values p b s n s' a' I Hg Hd H Ha') as [_ O2].
    specialize (Hmin a' Ha'). rewrite (O1 e r0 He Hf Hr0), (O2 e r He Hf) in Hmin; [lra|].
    intros x q Hq. rewrite Hd' in Hq. apply in_map_iff in Hq as (y & [= <- <-] & _). reflexivity.
  Qed.

  (** * C31 *)
  Lemma pinned_matrix o es cs o' : wf_o o -> simple_keys o -> sympy_matrix_to_casadi SY es o = Ok (cs, o') ->
    (forall a, feasible o' a ->
       Forall2 (fun e c => ceval a c = ev (long (base_env (op_vars o) a)) e) es cs) /\
    (forall a, feasible o' a -> feasible o a) /\
    (forall a, feasible o a -> exists a', (forall i, i < op_next o -> a' i = a i) /\ feasible o' a') /\
    (forall n v, dget String.eqb n (op_vars o) = Some v -> dget String.eqb n (op_vars o') = Some v).
  Proof using OK.
    intros W K H. assert (S : St o) by (apply good_St; split; assumption).
    destruct (okO_matrix OK es o S cs o' H) as (S' & X & F). split; [|split; [|split]].
    - intros a Ha. clear -F Ha. induction F as [|e c es cs [_ V] F IH]; constructor; auto.
    - intros a. apply ext_feasible. exact X.
    - apply (xo_conserv _ _ X).
    - apply (xo_keep _ _ X).
  Qed.
End Ipopt.

(** * C30 *)
Section Reject.
  Variable SY : sympy.
  Definition accepted (e : sexpr) : Prop := numeric SY e = true \/ p_terms (poly SY (simp SY e)) = [] \/
    Forall simple_name (p_gens (poly SY (simp SY e))).
  Lemma coeff_terms_gens gens row l nm A r : coeff_terms gens row l nm A = Ok r -> l = [] \/ Forall simple_name gens.
  Proof.
    destruct l as [|t l]; [auto|]. cbn [coeff_terms]. unfold coeff_term. destruct (existsb (has_char us) gens) eqn:E; [discriminate|].
    intros _. right. rewrite Forall_forall. intros g Hg. apply simple_has. destruct (has_char us g) eqn:Eg; [|reflexivity].
    rewrite <- E. symmetry. apply existsb_exists. eauto.
  Qed.
  Lemma coeff_rows_accepted l : forall row nm A r, coeff_rows SY row l nm A = Ok r -> Forall accepted l.
  Proof.
    induction l as [|e l IH]; intros row nm A r H; constructor; cbn [coeff_rows] in H.
    - unfold accepted. destruct (numeric SY e) eqn:E; [auto|]. right.
      destruct (coeff_terms _ _ _ _ _) eqn:E1; [|discriminate]. apply coeff_terms_gens in E1. exact E1.
    - match type of H with bindr ?m _ = _ => destruct m; [|discriminate] end. simpl in H. eapply IH, H.
  Qed.
  Lemma coeff_matrices_accepted l : forall nm F G r, coeff_matrices SY l nm F G = Ok r ->
    forall Fs Gs e, In (Fs, Gs) l -> In e (Fs ++ Gs)%list -> accepted e.
  Proof.
    induction l as [|[F G] l IH]; intros nm aF aG r H Fs Gs e Hin He; [destruct Hin|]. cbn [coeff_matrices] in H.
    destruct (coeff_matrix SY F nm) as [pF|] eqn:E1; [|discriminate]. cbn [bindr] in H.
    destruct (coeff_matrix SY G (fst pF)) as [pG|] eqn:E2; [|discriminate]. cbn [bindr] in H.
    destruct Hin as [[= <- <-]|Hin]; [|eapply IH; eauto].
    apply coeff_rows_accepted in E1, E2. rewrite Forall_forall in E1, E2. apply in_app_or in He as [He|He]; auto.
  Qed.
End Reject.
