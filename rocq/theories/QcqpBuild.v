(** The two QCQP builders: when they succeed, and exactly which constraints
    the resulting program has. *)
From Coq Require Import List Arith Bool String Ascii QArith Reals Qreals Lra Lia Permutation.
From Verif Require Import Prelude PreludeFacts Sympy SympyFacts AlgebraModel FunctionModel CircuitModel ParsingModel
  ParsingSpec SolverModel ParsingFacts CoeffFacts SolverSpec SolverFacts IpoptFacts IpoptTail SolverProps QcqpModel QcqpSpec QcqpFacts QcqpFacts2.
Import ListNotations.
Local Open Scope nat_scope.

Lemma obind_ok {A B} (m : OM A) (k : A -> OM B) o x o' : obind m k o = Ok (x, o') -> exists a o1, m o = Ok (a, o1) /\ k a o1 = Ok (x, o').
Proof. unfold obind. destruct (m o) as [[a o1]|]; [|discriminate]. eauto. Qed.
Lemma olift_ok {A} (r : res A) o x o' : olift r o = Ok (x, o') -> r = Ok x /\ o' = o.
Proof. unfold olift. destruct r; [|discriminate]. intros [= -> ->]. easy. Qed.
Lemma oiter_ok {A} (f : A -> OM unit) l : forall o u o', oiter f l o = Ok (u, o') -> forall x, In x l -> exists o1 o2, f x o1 = Ok (tt, o2).
Proof.
  induction l as [|y l IH]; intros o u o' H x Hx; [easy|]. simpl in H. apply obind_ok in H as ([] & o1 & H1 & H2).
  destruct Hx as [<-|Hx]; [eauto|]. eapply IH; eauto.
Qed.
Lemma step_emits {A} N m C (k : unit -> OM A) o : emits N m C -> exists cs, obind m k o = k tt (add_cons cs o) /\ Forall (con_lt N) cs /\ forall a, Forall (holds a) cs <-> C a.
Proof. intros H. destruct (H o) as (cs & E & F & K). exists cs. split; [|easy]. unfold obind. rewrite E. easy. Qed.
Lemma step_lift {A B} (r : res A) x (k : A -> OM B) o : r = Ok x -> obind (olift r) k o = k x o.
Proof. intros ->. easy. Qed.

Definition xvars (xsz : nat) : list (string * cavar) := [("x"%string, mkCV xsz 1 0)].

(** * bounds *)
Section Bounds.
  Variables (N xsz : nat) (idx : list (vname * nat)).
  Hypothesis HN : xsz <= N.
  Lemma bounds_cases b : forall this, (forall ids i, this = Some ids -> In i ids -> i < N) ->
    (exists cs, Forall (con_lt N) cs /\ forall o, op_vars o = xvars xsz -> ca_add_bounds_loop b idx this o = Ok (tt, add_cons cs o)) \/
    (exists e, forall o, op_vars o = xvars xsz -> ca_add_bounds_loop b idx this o = Err e).
  Proof using HN.
    induction b as [|[name [ub lb]] b IH]; intros this Ht.
    - left. exists []. split; [constructor|]. intros o _. rewrite add_cons_nil. easy.
    - assert (T : (exists this', (forall ids i, this' = Some ids -> In i ids -> i < N) /\ forall o, op_vars o = xvars xsz ->
         obind (has_var name) (fun k => if k : bool then ado v <- get_var name; oret (Some (cv_ids v))
                      else match dget vname_eqb (VStr name) idx with
                           | Some i => ado v <- get_var "x";
                                       if Nat.ltb i (cv_rows v) then oret (Some [cv_at v i 0]) else oraise IndexError
                           | None => oret this
                           end) o = Ok (this', o)) \/ (exists e, forall o, op_vars o = xvars xsz ->
         obind (has_var name) (fun k => if k : bool then ado v <- get_var name; oret (Some (cv_ids v))
                      else match dget vname_eqb (VStr name) idx with
                           | Some i => ado v <- get_var "x";
                                       if Nat.ltb i (cv_rows v) then oret (Some [cv_at v i 0]) else oraise IndexError
                           | None => oret this
                           end) o = Err e)).
      { unfold obind, has_var, get_var, dmem. destruct (String.eqb name "x") eqn:E.
        - left. exists (Some (seq 0 (xsz * 1))). split; [intros ids i [= <-] Hi; apply in_seq in Hi; lia|].
          intros o Ho. rewrite Ho. unfold xvars. cbn [dget]. rewrite E. cbn. rewrite Ho. unfold xvars. cbn [dget]. rewrite E. reflexivity.
        - destruct (dget vname_eqb (VStr name) idx) as [i|] eqn:Ei.
          + destruct (Nat.ltb i xsz) eqn:Hi.
            * left. exists (Some [cv_at (mkCV xsz 1 0) i 0]). apply Nat.ltb_lt in Hi as Hi'. split.
              { intros ids j [= <-] [<-|[]]. unfold cv_at. simpl. lia. }
              intros o Ho. rewrite Ho. unfold xvars. cbn [dget]. rewrite E. cbn -[Nat.ltb]. rewrite Ho. cbn -[Nat.ltb]. rewrite Hi. reflexivity.
            * right. exists IndexError. intros o Ho. rewrite Ho. unfold xvars. cbn [dget]. rewrite E. cbn -[Nat.ltb]. rewrite Ho. cbn -[Nat.ltb]. rewrite Hi. reflexivity.
          + left. exists this. split; [exact Ht|]. intros o Ho. rewrite Ho. unfold xvars. cbn [dget]. rewrite E. reflexivity. }
      assert (Assoc : forall A B C D (m : OM A) (k : A -> OM B) (h : B -> OM C) (o : opti) (z : D), obind m (fun x => obind (k x) h) o = obind (obind m k) h o).
      { intros. unfold obind. destruct (m o) as [[? ?]|]; easy. }
      assert (Hl : forall o, ca_add_bounds_loop ((name, (ub, lb)) :: b) idx this o =
        obind (obind (has_var name) (fun k => if k : bool then ado v <- get_var name; oret (Some (cv_ids v))
                      else match dget vname_eqb (VStr name) idx with
                           | Some i => ado v <- get_var "x";
                                       if Nat.ltb i (cv_rows v) then oret (Some [cv_at v i 0]) else oraise IndexError
                           | None => oret this
                           end)) (fun this' => 
        ado _ <- (match ub with
                  | None => oret tt
                  | Some q => match this' with
                              | None => oraise UnboundLocalError
                              | Some ids => oiter (fun i => subject_to (CGe (CNum q) (CVar i))) ids
                              end
                  end);
        ado _ <- (match lb with
                  | None => oret tt
                  | Some q => match this' with
                              | None => oraise UnboundLocalError
                              | Some ids => oiter (fun i => subject_to (CGe (CVar i) (CNum q))) ids
                              end
                  end);
        ca_add_bounds_loop b idx this') o).
      { intros o. rewrite <- (Assoc _ _ _ _ _ _ _ _ 0). reflexivity. }
      destruct T as [(this' & Ht' & T)|(e & T)].
      2:{ right. exists e. intros o Ho. rewrite Hl. unfold obind at 1. rewrite (T o Ho). easy. }
      assert (U : (exists cs, Forall (con_lt N) cs /\ forall o, (match ub with
                  | None => oret tt
                  | Some q => match this' with
                              | None => oraise UnboundLocalError
                              | Some ids => oiter (fun i => subject_to (CGe (CNum q) (CVar i))) ids
                              end
                  end) o = Ok (tt, add_cons cs o)) \/ (exists e, forall o : opti, (match ub with
                  | None => oret tt
                  | Some q => match this' with
                              | None => oraise UnboundLocalError
                              | Some ids => oiter (fun i => subject_to (CGe (CNum q) (CVar i))) ids
                              end
                  end) o = Err e)).
      { destruct ub as [q|]; [|left; exists []; split; [constructor|]; intros o; rewrite add_cons_nil; easy].
        destruct this' as [ids|]; [left|right; exists UnboundLocalError; easy].
        exists (map (fun i => CGe (CNum q) (CVar i)) ids). split; [|intros o; apply oiter_subject].
        rewrite Forall_forall. intros c Hc. apply in_map_iff in Hc as (i & <- & Hi). simpl. split; [exact I|]. apply (Ht' ids i eq_refl Hi). }
      assert (L : (exists cs, Forall (con_lt N) cs /\ forall o, (match lb with
                  | None => oret tt
                  | Some q => match this' with
                              | None => oraise UnboundLocalError
                              | Some ids => oiter (fun i => subject_to (CGe (CVar i) (CNum q))) ids
                              end
                  end) o = Ok (tt, add_cons cs o)) \/ (exists e, forall o : opti, (match lb with
                  | None => oret tt
                  | Some q => match this' with
                              | None => oraise UnboundLocalError
                              | Some ids => oiter (fun i => subject_to (CGe (CVar i) (CNum q))) ids
                              end
                  end) o = Err e)).
      { destruct lb as [q|]; [|left; exists []; split; [constructor|]; intros o; rewrite add_cons_nil; easy].
        destruct this' as [ids|]; [left|right; exists UnboundLocalError; easy].
        exists (map (fun i => CGe (CVar i) (CNum q)) ids). split; [|intros o; apply oiter_subject].
        rewrite Forall_forall. intros c Hc. apply in_map_iff in Hc as (i & <- & Hi). simpl. split; [|exact I]. apply (Ht' ids i eq_refl Hi). }
      destruct U as [(c1 & F1 & U)|(e & U)].
      2:{ right. exists e. intros o Ho. rewrite Hl. unfold obind at 1. rewrite (T o Ho). unfold obind at 1. rewrite U. easy. }
      destruct L as [(c2 & F2 & L)|(e & L)].
      2:{ right. exists e. intros o Ho. rewrite Hl. unfold obind at 1. rewrite (T o Ho). unfold obind at 1. rewrite U. unfold obind at 1. rewrite L. easy. }
      destruct (IH this' Ht') as [(c3 & F3 & R)|(e & R)].
      2:{ right. exists e. intros o Ho. rewrite Hl. unfold obind at 1. rewrite (T o Ho). unfold obind at 1. rewrite U. unfold obind at 1. rewrite L. apply R. exact Ho. }
      left. exists (c1 ++ c2 ++ c3). split; [rewrite !Forall_app; easy|]. intros o Ho. rewrite Hl. unfold obind at 1. rewrite (T o Ho). unfold obind at 1. rewrite U.
      unfold obind at 1. rewrite L. rewrite R by exact Ho. rewrite !add_cons_app, ?app_assoc. easy.
  Qed.
End Bounds.

(** names that bounds may mention *)
Definition known_bounds (b : option bounds) (nm : names) : Prop :=
  match b with None => True | Some b => forall s ub lb, In (s, (ub, lb)) b -> s = "x"%string \/ In (VStr s) (nm_list nm) end.

Lemma bounds_run N nm b xsz : numbered nm -> List.length (nm_list nm) <= xsz -> xsz <= N ->
  (exists cs, Forall (con_lt N) cs /\ (forall o, op_vars o = xvars xsz -> ca_add_bounds b (nm_idx nm) o = Ok (tt, add_cons cs o)) /\
     (known_bounds b nm -> forall a, Forall (holds a) cs <-> x_bounds b nm xsz a)) \/
  (~ known_bounds b nm /\ exists e, forall o, op_vars o = xvars xsz -> ca_add_bounds b (nm_idx nm) o = Err e).
Proof.
  intros Hn Hv HN. destruct b as [b|]; [|left; exists []; split; [constructor|]; split; [intros o _; rewrite add_cons_nil; easy|]; intros _ a; simpl; split; constructor].
  pose (o0 := mkOpti 0 [] (xvars xsz)).
  assert (K : known_bounds (Some b) nm -> exists cs, ca_add_bounds_loop b (nm_idx nm) None o0 = Ok (tt, add_cons cs o0) /\
      forall a, Forall (holds a) cs <-> x_bounds (Some b) nm xsz a).
  { intros Kb.
    assert (Tg : forall s ub lb, In (s, (ub, lb)) b -> exists ids, bound_target o0 (nm_idx nm) s = Some ids /\
       forall i, In i ids <-> (if String.eqb s "x" then i < xsz else dget vname_eqb (VStr s) (nm_idx nm) = Some i)).
    { intros s ub lb Hin. unfold bound_target, o0, xvars. cbn [op_vars dget]. destruct (Kb s ub lb Hin) as [->|Hs].
      - rewrite String.eqb_refl. eexists. split; [reflexivity|]. intros i. unfold cv_ids. cbn [cv_base cv_rows cv_cols]. rewrite in_seq. lia.
      - destruct (String.eqb s "x"); [eexists; split; [reflexivity|]; intros i; unfold cv_ids; cbn [cv_base cv_rows cv_cols]; rewrite in_seq; lia|].
        apply In_nth_error in Hs as [i Hi]. rewrite (numbered_nth _ _ _ Hn Hi).
        assert (Hl : i < List.length (nm_list nm)) by (apply nth_error_Some; congruence).
        cbn -[Nat.ltb]. destruct (Nat.ltb_spec i xsz); [|lia]. eexists. split; [reflexivity|]. intros j. simpl. unfold cv_at. simpl. split.
        + intros [<-|[]]. f_equal. lia.
        + intros [= <-]. left. lia. }
    destruct (bounds_exact (nm_idx nm) b None o0) as (cs & E & H).
    { intros s ub lb Hin. destruct (Tg s ub lb Hin) as (ids & -> & _). easy. }
    exists cs. split; [exact E|]. intros a. rewrite H. unfold x_bounds. split.
    - intros Q s ub lb Hin i Hi. destruct (Tg s ub lb Hin) as (ids & E1 & E2). apply E2 in Hi. apply (Q s ub lb ids i Hin E1 Hi).
    - intros Q s ub lb ids i Hin E1 Hi. destruct (Tg s ub lb Hin) as (ids' & E1' & E2). rewrite E1 in E1'. injection E1' as <-.
      apply E2 in Hi. apply (Q s ub lb Hin i Hi). }
  destruct (bounds_cases N xsz (nm_idx nm) HN b None ltac:(easy)) as [(cs & F & R)|(e & R)].
  - left. exists cs. split; [exact F|]. split; [exact R|]. intros Kb a. destruct (K Kb) as (cs' & E & H).
    rewrite (R o0 eq_refl) in E. injection E as E. rewrite <- H. subst cs'. easy.
  - right. split; [|exists e; exact R]. intros Kb. destruct (K Kb) as (cs' & E & H). rewrite (R o0 eq_refl) in E. discriminate.
Qed.

Section Build.
  Context {SY : sympy}.
  Variables (p : problem) (b : option bounds) (sr : symres) (dimF dimG : nat) (Fs Gs : list cmatrix) (nm : names).
  Notation nv := (List.length (nm_list nm)).
  Notation nI := (sr_I sr).
  Notation nE := (sr_E sr).
  Notation xsz := (nv + nI + nE + start_idx dimG).
  Hypothesis Hnm : numbered nm.
  Hypothesis Hhd : exists l, nm_list nm = VOne :: map VStr l.
  Hypothesis Hcl : forall s, In (VStr s) (nm_list nm) -> List.length (split_us s) <> 1 ->
    In (VStr (last (split_us s) ""%string)) (nm_list nm) /\ In (VStr (join_us (removelast (split_us s)))) (nm_list nm).
  Hypothesis HFs : Forall (shaped dimF nv) Fs.
  Hypothesis HGs : Forall (shaped (dimG * dimG) nv) Gs.
  Hypothesis LF : List.length Fs = S (nI + nE).
  Hypothesis LG : List.length Gs = S (nI + nE).
  Hypothesis Hobj : last_is_obj sr = true.

  Definition signs_in : Prop := forall s, In s ["eta"; "h"; "rho"; "gamma"]%string -> In (VStr s) (nm_list nm).
  Definition recips_in : Prop := forall x, In x (inv_discr_params (pr_params p)) -> In (VStr x) (nm_list nm) /\ In (VStr ("inv" ++ x)%string) (nm_list nm).

  Lemma nv_pos : 1 <= nv.
  Proof using Hhd. destruct Hhd as [l ->]. apply le_n_S, Nat.le_0_l. Qed.

  Lemma new_x_eq extra : new_x xsz extra opti0 = Ok (the_x nm nI nE dimG, mkOpti (xsz + extra) [CEq (CVar 0) (CNum 1)] (xvars xsz)).
  Proof using Hhd.
    unfold new_x, obind, opti_variable, set_var. cbn [op_next opti0 op_cons op_vars cv_base Nat.add].
    pose proof nv_pos as Hp. destruct (Nat.ltb_spec 0 xsz) as [Hlt|Hle]; [|exfalso; clear - Hp Hle; lia]. unfold subject_to. cbn [op_next op_cons op_vars app dset]. unfold oret.
    rewrite Nat.mul_1_r. reflexivity.
  Qed.

  Lemma name_idx_in s i : name_idx nm s = Ok i -> In (VStr s) (nm_list nm).
  Proof using Hnm. intros H. unfold name_idx in H. destruct (dget vname_eqb (VStr s) (nm_idx nm)) eqn:E; [|discriminate]. clear H. rename E into H. apply (numbered_get _ _ _ Hnm) in H. eapply nth_error_In; eauto. Qed.
  Lemma x_entry_in x s e : x_entry x nm s = Ok e -> In (VStr s) (nm_list nm).
  Proof using Hnm.
    unfold x_entry. destruct (dget vname_eqb (VStr s) (nm_idx nm)) as [i|] eqn:E; [|discriminate]. intros _.
    apply (numbered_get _ _ _ Hnm) in E. eapply nth_error_In; eauto.
  Qed.
  Lemma recip_in_ok quad x v o u : reciprocal_con quad x nv nm v o = Ok u -> In (VStr v) (nm_list nm) /\ In (VStr ("inv" ++ v)%string) (nm_list nm).
  Proof using Hnm.
    destruct u as [u o']. unfold reciprocal_con. intros H. apply obind_ok in H as (i & o1 & H1 & H). apply obind_ok in H as (j & o2 & H2 & H).
    apply olift_ok in H1 as [H1 _]. apply olift_ok in H2 as [H2 _]. split; eapply name_idx_in; eauto.
  Qed.
  Lemma padded_pos Ms rows n : List.length Ms = S n -> (exists r, padded Ms rows nv n = Ok r) -> 1 <= n.
  Proof using Type.
    clear. intros L [r H]. unfold padded in H. destruct (rev Ms) as [|A l] eqn:E; [discriminate|]. apply bindr_ok' in H as (o & _ & H).
    apply bindr_ok' in H as (T & H & _). destruct (last_rev Ms dummy_cm A l E) as [_ Ed]. rewrite Ed in H.
    assert (L2 : List.length (rev l) = n).
    { apply (f_equal (@List.length _)) in E. rewrite rev_length in E. simpl in E. rewrite rev_length. lia. }
    destruct (rev l); [discriminate|]. simpl in L2. lia.
  Qed.
  Lemma mono_equiv a : (forall x, In x (tl (nm_list nm)) -> mono_eq nm a x) <->
     (forall s pre x, In (VStr s) (nm_list nm) -> split_us s = (pre ++ [x])%list -> pre <> [] ->
        at_name nm a s = (at_name nm a (join_us pre) * at_name nm a x)%R).
  Proof using Hhd.
    clear - Hhd. destruct Hhd as [l El]. rewrite El. cbn [tl]. split.
    - intros H s pre x [Hs|Hs] Es Hp; [discriminate|]. specialize (H (VStr s) Hs). cbn [mono_eq] in H. rewrite Es, app_length in H. simpl in H.
      destruct pre as [|y pre]; [easy|]. destruct H as [H|H]; [simpl in H; lia|]. rewrite removelast_last, last_last in H. exact H.
    - intros H x Hx. apply in_map_iff in Hx as (s & <- & Hs). cbn [mono_eq].
      assert (Hne := split_nonnil us s). change (split us s) with (split_us s) in Hne.
      destruct (split_us s) as [|y t] eqn:E; [easy|]. clear Hne.
      destruct t as [|z t]; [left; easy|]. right.
      assert (Hne : y :: z :: t <> []) by easy.
      apply (H s (removelast (y :: z :: t)) (last (y :: z :: t) ""%string)).
      + right. apply in_map. exact Hs.
      + rewrite E. apply app_removelast_last. easy.
      + simpl. destruct t; easy.
  Qed.
  Lemma head_mono l : nm_list nm = VOne :: map VStr l -> forall x, In x (tl (nm_list nm)) -> exists s, x = VStr s /\ In (VStr s) (nm_list nm).
  Proof using Type. intros El x Hx. rewrite El in Hx |- *. cbn [tl] in Hx. apply in_map_iff in Hx as (s & <- & Hs). exists s. split; [easy|]. right. apply in_map, Hs. Qed.

  (** ** solve_ipopt_qcqp *)
  Theorem qcqp_needs extra x : qcqp_build SY p b extra sr dimF dimG Fs Gs nm opti0 = Ok x ->
    1 <= nI + nE /\ signs_in /\ recips_in.
  Proof using Hnm Hhd Hcl HFs HGs LF LG Hobj.
    destruct x as [obj o]. unfold qcqp_build. intros H. unfold obind at 1 in H. rewrite new_x_eq in H.
    apply obind_ok in H as (xv & o1 & _ & H). apply obind_ok in H as (u1 & o2 & _ & H). rewrite Hobj in H.
    apply obind_ok in H as (u2 & o3 & H1 & H). apply obind_ok in H as (F & o4 & H2 & H). apply olift_ok in H2 as [H2 _].
    apply obind_ok in H as (u5 & o5 & _ & H). apply obind_ok in H as (u6 & o6 & _ & H). apply obind_ok in H as (u7 & o7 & _ & H).
    apply obind_ok in H as (u8 & o8 & _ & H). apply obind_ok in H as (u9 & o9 & H3 & H).
    pose proof nv_pos as Hp. rewrite (proj1 (xis_lam xsz nm nI nE dimG (le_n _) Hnm Hp)) in H2.
    split; [|split].
    - eapply padded_pos; [exact LF|]. eauto.
    - intros s Hs. destruct (oiter_ok _ _ _ _ _ H1 s Hs) as (o' & o'' & E). unfold x_positive in E. apply obind_ok in E as (e & o10 & E & _).
      apply olift_ok in E as [E _]. eapply x_entry_in; eauto.
    - intros v Hv. destruct (oiter_ok _ _ _ _ _ H3 v Hv) as (o' & o'' & E). eapply recip_in_ok; eauto.
  Qed.

  Theorem qcqp_build_eq extra : 1 <= nI + nE -> signs_in -> recips_in ->
    (exists cb all, Forall (con_lt xsz) all /\
      qcqp_build SY p b extra sr dimF dimG Fs Gs nm opti0 = minimize SY p (mkOpti (xsz + extra) all (name_vars 0 nm)) /\
      (forall a, Forall (holds a) all <-> Forall (holds a) cb /\ x_signs nm a /\ qcqp_point (pr_params p) nm Fs Gs nI nE dimF dimG a) /\
      ca_add_bounds b (nm_idx nm) (mkOpti 0 [] (xvars xsz)) = Ok (tt, mkOpti 0 cb (xvars xsz)) /\
      (known_bounds b nm -> forall a, Forall (holds a) cb <-> x_bounds b nm xsz a)) \/
    (~ known_bounds b nm /\ exists e, qcqp_build SY p b extra sr dimF dimG Fs Gs nm opti0 = Err e).
  Proof using Hnm Hhd Hcl HFs HGs LF LG Hobj.
    intros Hnd Hsg Hrc. unfold qcqp_build. pose proof nv_pos as Hp. set (M := xsz + extra). pose (N := xsz).
    assert (HN : xsz <= N) by (unfold N; lia).
    assert (Enew : forall A (k : xmat -> OM A), obind (new_x xsz extra) k opti0 = k (the_x nm nI nE dimG) (mkOpti M [CEq (CVar 0) (CNum 1)] (xvars xsz))).
    { intros A k. unfold obind. rewrite new_x_eq. easy. }
    rewrite Enew. clear Enew. set (o1 := mkOpti M [CEq (CVar 0) (CNum 1)] (xvars xsz)).
    assert (Eget : forall A (k : cavar -> OM A), obind (get_var "x") k o1 = k (mkCV xsz 1 0) o1) by (intros; reflexivity).
    rewrite Eget. clear Eget.
    destruct (bounds_run N nm b xsz Hnm ltac:(lia) HN) as [(cb & Fb & Rb & Kb)|(Nk & e & Rb)].
    2:{ right. split; [exact Nk|]. exists e. unfold obind at 1. rewrite (Rb o1 eq_refl). easy. }
    left. unfold obind at 1. rewrite (Rb o1 eq_refl). rewrite Hobj.
    (* signs *)
    assert (S1 : emits N (oiter (x_positive (the_x nm nI nE dimG) nm) ["eta"; "h"; "rho"; "gamma"]%string) (fun a => x_signs nm a)).
    { eapply emits_ext; [apply (emits_iter N _ (fun s a => (Q2R tiny <= at_name nm a s)%R))|].
      - intros s Hs. destruct (name_in N nm nI nE dimG HN Hnm Hp s (Hsg s Hs)) as (i & Hi & _). eapply emits_pos; eauto.
      - intros a. unfold x_signs. easy. }
    destruct (padded_ok Fs dimF nv (nI + nE) HFs LF Hnd) as (objF & TF & EF & CF & TF1 & TF2 & TF3 & SF).
    destruct (padded_ok Gs (dimG * dimG) nv (nI + nE) HGs LG Hnd) as (objG & TG & EG & CG & TG1 & TG2 & TG3 & SG).
    assert (ElamR := proj1 (xis_lam N nm nI nE dimG HN Hnm Hp)).
    match goal with |- context [obind (oiter (x_positive _ _) _) ?k ?o] => destruct (step_emits N _ _ k o S1) as (c1 & -> & F1 & K1) end.
    rewrite ElamR, EF. rewrite (step_lift _ _ _ _ eq_refl). cbn [fst snd].
    assert (S2 : emits N (oiter (qcqp_F_con objF TF (get_vec_var (the_x nm nI nE dimG) (0, nv - 1)) (get_vec_var (the_x nm nI nE dimG) (nv, nv + nI + nE - 1))) (seq 0 dimF))
      (fun a => forall k, k < dimF -> (rsum nv (fun j => coef (last Fs dummy_cm) k j * a j) =
         rsum (nI + nE) (fun i => a (nv + i)%nat * rsum nv (fun j => coef (nth i Fs dummy_cm) k j * a j)))%R)).
    { eapply emits_ext; [apply (emits_iter N _ (fun k a => (rsum nv (fun j => coef (last Fs dummy_cm) k j * a j) =
         rsum (nI + nE) (fun i => a (nv + i)%nat * rsum nv (fun j => coef (nth i Fs dummy_cm) k j * a j)))%R))|].
      - intros k Hk. apply in_seq in Hk. eapply emits_F; try assumption; try exact CF; try lia. apply SF. lia.
      - intros a. split; intros H k Hk; apply H; [apply in_seq|apply in_seq in Hk]; lia. }
    match goal with |- context [obind (oiter (qcqp_F_con _ _ _ _) _) ?k ?o] => destruct (step_emits N _ _ k o S2) as (c2 & -> & F2 & K2) end.
    rewrite EG. rewrite (step_lift _ _ _ _ eq_refl). cbn [fst snd].
    assert (S3 : emits N (oiter (qcqp_G_con objG TG (get_vec_var (the_x nm nI nE dimG) (0, nv - 1)) (get_vec_var (the_x nm nI nE dimG) (nv, nv + nI + nE - 1))
        (get_vec_var (the_x nm nI nE dimG) (nv + nI + nE, xsz - 1)) dimG) (grid dimG dimG))
      (fun a => forall k1 k2, k1 < dimG -> k2 < dimG -> let P := tri (fun i => a (nv + nI + nE + i)%nat) in
         (rsum nv (fun j => coef (last Gs dummy_cm) (k1 * dimG + k2)%nat j * a j) + rsum dimG (fun c => P k1 c * P k2 c) =
         rsum (nI + nE) (fun i => a (nv + i)%nat * rsum nv (fun j => coef (nth i Gs dummy_cm) (k1 * dimG + k2)%nat j * a j)))%R)).
    { eapply emits_ext; [apply (emits_iter N _ (fun ij a => let P := tri (fun i => a (nv + nI + nE + i)%nat) in
         (rsum nv (fun j => coef (last Gs dummy_cm) (fst ij * dimG + snd ij)%nat j * a j) + rsum dimG (fun c => P (fst ij) c * P (snd ij) c) =
         rsum (nI + nE) (fun i => a (nv + i)%nat * rsum nv (fun j => coef (nth i Gs dummy_cm) (fst ij * dimG + snd ij)%nat j * a j)))%R))|].
      - intros [k1 k2] Hk. apply grid_in in Hk as [Hk1 Hk2]. cbn [fst snd]. eapply emits_G; try assumption; try exact CG. apply SG. nia.
      - intros a. split.
        + intros H k1 k2 H1 H2. apply (H (k1, k2)). apply grid_in. easy.
        + intros H [k1 k2] Hk. apply grid_in in Hk as [H1 H2]. apply H; assumption. }
    match goal with |- context [obind (oiter (qcqp_G_con _ _ _ _ _ _) _) ?k ?o] => destruct (step_emits N _ _ k o S3) as (c3 & -> & F3 & K3) end.
    assert (Q1 := qcqp_quad_ok N nm nI nE dimG HN Hnm Hp). assert (L1 := qcqp_lin_ok N nm nI nE dimG HN Hnm Hp).
    assert (S4 : emits N (oiter (monomial_con (qcqp_quad (get_vec_var (the_x nm nI nE dimG) (0, nv - 1))) (qcqp_lin (get_vec_var (the_x nm nI nE dimG) (0, nv - 1))) nv nm) (tl (nm_list nm)))
       (fun a => forall x, In x (tl (nm_list nm)) -> mono_eq nm a x)).
    { apply (emits_iter N _ (fun x a => mono_eq nm a x)). intros x Hx. destruct Hhd as [l El]. destruct (head_mono l El x Hx) as (s & -> & Hs).
      apply (emits_mono N nm nI nE dimG HN Hnm Hp); try assumption. apply Hcl. exact Hs. }
    match goal with |- context [obind (oiter (monomial_con _ _ _ _) _) ?k ?o] => destruct (step_emits N _ _ k o S4) as (c4 & -> & F4 & K4) end.
    assert (S5 : emits N (oiter (reciprocal_con (qcqp_quad (get_vec_var (the_x nm nI nE dimG) (0, nv - 1))) (the_x nm nI nE dimG) nv nm) (inv_discr_params (pr_params p)))
       (fun a => forall x, In x (inv_discr_params (pr_params p)) -> at_name nm a x * at_name nm a ("inv" ++ x)%string = 1 /\ Q2R tiny <= at_name nm a x)%R).
    { apply (emits_iter N _ (fun x a => (at_name nm a x * at_name nm a ("inv" ++ x)%string = 1 /\ Q2R tiny <= at_name nm a x)%R)).
      intros x Hx. destruct (Hrc x Hx) as [R1 R2]. destruct (name_in N nm nI nE dimG HN Hnm Hp _ R1) as (i & Hi & _). destruct (name_in N nm nI nE dimG HN Hnm Hp _ R2) as (j & Hj & _).
      eapply emits_recip; eauto. }
    match goal with |- context [obind (oiter (reciprocal_con _ _ _ _) _) ?k ?o] => destruct (step_emits N _ _ k o S5) as (c5 & -> & F5 & K5) end.
    match goal with |- context [obind (subject_ge (get_vec_var _ (_, nv + nI - 1)) 0) ?k ?o] => destruct (step_emits N _ _ k o (emits_la N nm nI nE dimG HN Hnm Hp)) as (c6 & -> & F6 & K6) end.
    destruct (emits_diag N nm nI nE dimG HN Hnm Hp) as (D & ED & S7). rewrite (step_lift _ _ _ _ ED).
    match goal with |- context [obind (subject_ge D 0) ?k ?o] => destruct (step_emits N _ _ k o S7) as (c7 & -> & F7 & K7) end.
    rewrite !add_cons_app.
    exists cb, ([CEq (CVar 0) (CNum 1)] ++ (cb ++ c1 ++ c2 ++ c3 ++ c4 ++ c5 ++ c6 ++ c7)).
    split; [|split; [|split; [|split; [apply (Rb (mkOpti 0 [] (xvars xsz)) eq_refl)|]]]].
    - rewrite !Forall_app. repeat split; try assumption. repeat constructor. simpl. lia.
    - reflexivity.
    - intros a. rewrite !Forall_app, K1, K2, K3, K4, K5, K6, K7, mono_equiv. rewrite Forall_cons_iff. cbn [holds ceval].
      rewrite RMicromega.Q2R_1.
      split.
      + intros ((H0 & _) & Hb & H1 & H2 & H3 & H4 & H5 & H6 & H7). split; [exact Hb|]. split; [exact H1|]. constructor; assumption.
      + intros (Hb & H1 & [Q0 Q2 Q3 Q4 Q5 Q6 Q7]). split; [split; [exact Q0|constructor]|]. repeat (split; [assumption|]). assumption.
    - exact Kb.
  Qed.

  (** ** solve_ipopt_qcqp_matrix *)
  Lemma selections : 1 <= nI + nE -> exists Iv IP Il Ila,
    get_vec_matrix (the_x nm nI nE dimG) (0, nv - 1) = Ok Iv /\ is_sel nm nI nE dimG Iv nv 0 /\
    get_vec_matrix (the_x nm nI nE dimG) (nv + nI + nE, xsz - 1) = Ok IP /\ is_sel nm nI nE dimG IP (start_idx dimG) (nv + nI + nE) /\
    get_vec_matrix (the_x nm nI nE dimG) (nv, nv + nI + nE - 1) = Ok Il /\ is_sel nm nI nE dimG Il (nI + nE) nv /\
    get_vec_matrix (the_x nm nI nE dimG) (nv, nv + nI - 1) = Ok Ila /\ is_sel nm nI nE dimG Ila nI nv.
  Proof using Hnm Hhd Hcl HFs HGs LF LG Hobj.
    intros Hnd. pose proof nv_pos as Hp.
    destruct (sel_range xsz nm nI nE dimG (le_n _) Hnm Hp 0 (nv - 1) ltac:(lia) ltac:(lia)) as (Iv & E1 & S1).
    destruct (sel_range xsz nm nI nE dimG (le_n _) Hnm Hp (nv + nI + nE) (xsz - 1) ltac:(lia) ltac:(lia)) as (IP & E2 & S2).
    destruct (sel_range xsz nm nI nE dimG (le_n _) Hnm Hp nv (nv + nI + nE - 1) ltac:(lia) ltac:(lia)) as (Il & E3 & S3).
    destruct (sel_range xsz nm nI nE dimG (le_n _) Hnm Hp nv (nv + nI - 1) ltac:(lia) ltac:(lia)) as (Ila & E4 & S4).
    exists Iv, IP, Il, Ila.
    replace (nv - 1 + 1 - 0) with nv in S1 by lia. replace (xsz - 1 + 1 - (nv + nI + nE)) with (start_idx dimG) in S2 by lia.
    replace (nv + nI + nE - 1 + 1 - nv) with (nI + nE) in S3 by lia. replace (nv + nI - 1 + 1 - nv) with nI in S4 by lia.
    repeat (split; [assumption|]). assumption.
  Qed.

  Theorem matrix_needs x : matrix_build SY p b sr dimF dimG Fs Gs nm opti0 = Ok x -> 1 <= nI + nE /\ recips_in.
  Proof using Hnm Hhd Hcl HFs HGs LF LG Hobj.
    destruct x as [obj o]. unfold matrix_build. intros H. unfold obind at 1 in H. rewrite new_x_eq in H.
    apply obind_ok in H as (xv & o1 & _ & H). apply obind_ok in H as (X & o2 & _ & H). rewrite Hobj in H.
    apply obind_ok in H as (Iv & o3 & _ & H). apply obind_ok in H as (IP & o4 & _ & H).
    apply obind_ok in H as (Il & o5 & H1 & H). apply obind_ok in H as (F & o6 & H2 & H). apply olift_ok in H1 as [H1 _]. apply olift_ok in H2 as [H2 _].
    apply obind_ok in H as (u7 & o7 & _ & H). apply obind_ok in H as (u8 & o8 & _ & H). apply obind_ok in H as (u9 & o9 & _ & H).
    apply obind_ok in H as (u10 & o10 & _ & H). apply obind_ok in H as (u11 & o11 & H3 & H).
    pose proof nv_pos as Hp. split.
    - destruct (sel_range xsz nm nI nE dimG (le_n _) Hnm Hp nv (nv + nI + nE - 1) ltac:(lia) ltac:(lia)) as (Il' & E & S').
      rewrite H1 in E. injection E as <-. rewrite (proj1 S') in H2. replace (nv + nI + nE - 1 + 1 - nv) with (nI + nE) in H2 by lia.
      eapply padded_pos; [exact LF|]. eauto.
    - intros v Hv. destruct (oiter_ok _ _ _ _ _ H3 v Hv) as (o' & o'' & E). eapply recip_in_ok; eauto.
  Qed.

  Theorem matrix_build_eq : 1 <= nI + nE -> recips_in ->
    (exists cb all, Forall (con_lt xsz) all /\
      matrix_build SY p b sr dimF dimG Fs Gs nm opti0 = minimize SY p (mkOpti (xsz + 100) all (name_vars 0 nm)) /\
      (forall a, Forall (holds a) all <-> Forall (holds a) cb /\ qcqp_point (pr_params p) nm Fs Gs nI nE dimF dimG a) /\
      ca_add_bounds b (nm_idx nm) (mkOpti 0 [] (xvars xsz)) = Ok (tt, mkOpti 0 cb (xvars xsz)) /\
      (known_bounds b nm -> forall a, Forall (holds a) cb <-> x_bounds b nm xsz a)) \/
    (~ known_bounds b nm /\ exists e, matrix_build SY p b sr dimF dimG Fs Gs nm opti0 = Err e).
  Proof using Hnm Hhd Hcl HFs HGs LF LG Hobj.
    intros Hnd Hrc. unfold matrix_build. pose proof nv_pos as Hp. set (M := xsz + 100). pose (N := xsz).
    assert (HN : xsz <= N) by (unfold N; lia).
    assert (Enew : forall A (k : xmat -> OM A), obind (new_x xsz 100) k opti0 = k (the_x nm nI nE dimG) (mkOpti M [CEq (CVar 0) (CNum 1)] (xvars xsz))).
    { intros A k. unfold obind. rewrite new_x_eq. easy. }
    rewrite Enew. clear Enew. set (o1 := mkOpti M [CEq (CVar 0) (CNum 1)] (xvars xsz)).
    assert (Eget : forall A (k : cavar -> OM A), obind (get_var "x") k o1 = k (mkCV xsz 1 0) o1) by (intros; reflexivity).
    rewrite Eget. clear Eget. rewrite (step_lift _ _ _ _ (X_ok N nm nI nE dimG HN Hnm Hp)). rewrite Hobj.
    destruct (selections Hnd) as (Iv & IP & Il & Ila & EIv & HIv & EIP & HIP & EIl & HIl & EIla & HIla).
    rewrite (step_lift _ _ _ _ EIv), (step_lift _ _ _ _ EIP), (step_lift _ _ _ _ EIl).
    destruct (padded_ok Fs dimF nv (nI + nE) HFs LF Hnd) as (objF & TF & EF & CF & TF1 & TF2 & TF3 & SF).
    destruct (padded_ok Gs (dimG * dimG) nv (nI + nE) HGs LG Hnd) as (objG & TG & EG & CG & TG1 & TG2 & TG3 & SG).
    rewrite (proj1 HIl), EF. rewrite (step_lift _ _ _ _ eq_refl). cbn [fst snd].
    assert (S2 : emits N (oiter (matrix_F_con objF TF Iv Il (the_x nm nI nE dimG) (the_X nm nI nE dimG)) (seq 0 dimF))
      (fun a => forall k, k < dimF -> (rsum nv (fun j => coef (last Fs dummy_cm) k j * a j) =
         rsum (nI + nE) (fun i => a (nv + i)%nat * rsum nv (fun j => coef (nth i Fs dummy_cm) k j * a j)))%R)).
    { eapply emits_ext; [apply (emits_iter N _ (fun k a => (rsum nv (fun j => coef (last Fs dummy_cm) k j * a j) =
         rsum (nI + nE) (fun i => a (nv + i)%nat * rsum nv (fun j => coef (nth i Fs dummy_cm) k j * a j)))%R))|].
      - intros k Hk. apply in_seq in Hk. eapply emits_mF; try assumption; try exact CF; try lia. apply SF. lia.
      - intros a. split; intros H k Hk; apply H; [apply in_seq|apply in_seq in Hk]; lia. }
    match goal with |- context [obind (oiter (matrix_F_con _ _ _ _ _ _) _) ?k ?o] => destruct (step_emits N _ _ k o S2) as (c2 & -> & F2 & K2) end.
    rewrite EG. rewrite (step_lift _ _ _ _ eq_refl). cbn [fst snd].
    assert (S3 : emits N (oiter (matrix_G_con objG TG Iv Il (the_x nm nI nE dimG) (the_X nm nI nE dimG) (nv + nI + nE) dimG) (grid dimG dimG))
      (fun a => forall k1 k2, k1 < dimG -> k2 < dimG -> let P := tri (fun i => a (nv + nI + nE + i)%nat) in
         (rsum nv (fun j => coef (last Gs dummy_cm) (k1 * dimG + k2)%nat j * a j) + rsum dimG (fun c => P k1 c * P k2 c) =
         rsum (nI + nE) (fun i => a (nv + i)%nat * rsum nv (fun j => coef (nth i Gs dummy_cm) (k1 * dimG + k2)%nat j * a j)))%R)).
    { eapply emits_ext; [apply (emits_iter N _ (fun ij a => let P := tri (fun i => a (nv + nI + nE + i)%nat) in
         (rsum nv (fun j => coef (last Gs dummy_cm) (fst ij * dimG + snd ij)%nat j * a j) + rsum dimG (fun c => P (fst ij) c * P (snd ij) c) =
         rsum (nI + nE) (fun i => a (nv + i)%nat * rsum nv (fun j => coef (nth i Gs dummy_cm) (fst ij * dimG + snd ij)%nat j * a j)))%R))|].
      - intros [k1 k2] Hk. apply grid_in in Hk as [Hk1 Hk2]. cbn [fst snd]. eapply emits_mG; try assumption; try exact CG. apply SG. nia.
      - intros a. split.
        + intros H k1 k2 H1 H2. apply (H (k1, k2)). apply grid_in. easy.
        + intros H [k1 k2] Hk. apply grid_in in Hk as [H1 H2]. apply H; assumption. }
    match goal with |- context [obind (oiter (matrix_G_con _ _ _ _ _ _ _ _) _) ?k ?o] => destruct (step_emits N _ _ k o S3) as (c3 & -> & F3 & K3) end.
    assert (Q1 := matrix_quad_ok N nm nI nE dimG HN Hnm Hp Iv HIv). assert (L1 := matrix_lin_ok N nm nI nE dimG HN Hnm Hp Iv HIv).
    assert (S4 : emits N (oiter (monomial_con (matrix_quad Iv (the_X nm nI nE dimG)) (matrix_lin Iv (the_x nm nI nE dimG)) nv nm) (tl (nm_list nm)))
       (fun a => forall x, In x (tl (nm_list nm)) -> mono_eq nm a x)).
    { apply (emits_iter N _ (fun x a => mono_eq nm a x)). intros x Hx. destruct Hhd as [l El]. destruct (head_mono l El x Hx) as (s & -> & Hs).
      apply (emits_mono N nm nI nE dimG HN Hnm Hp); try assumption. apply Hcl. exact Hs. }
    match goal with |- context [obind (oiter (monomial_con _ _ _ _) _) ?k ?o] => destruct (step_emits N _ _ k o S4) as (c4 & -> & F4 & K4) end.
    assert (S5 : emits N (oiter (reciprocal_con (matrix_quad Iv (the_X nm nI nE dimG)) (the_x nm nI nE dimG) nv nm) (inv_discr_params (pr_params p)))
       (fun a => forall x, In x (inv_discr_params (pr_params p)) -> at_name nm a x * at_name nm a ("inv" ++ x)%string = 1 /\ Q2R tiny <= at_name nm a x)%R).
    { apply (emits_iter N _ (fun x a => (at_name nm a x * at_name nm a ("inv" ++ x)%string = 1 /\ Q2R tiny <= at_name nm a x)%R)).
      intros x Hx. destruct (Hrc x Hx) as [R1 R2]. destruct (name_in N nm nI nE dimG HN Hnm Hp _ R1) as (i & Hi & _). destruct (name_in N nm nI nE dimG HN Hnm Hp _ R2) as (j & Hj & _).
      eapply emits_recip; eauto. }
    match goal with |- context [obind (oiter (reciprocal_con _ _ _ _) _) ?k ?o] => destruct (step_emits N _ _ k o S5) as (c5 & -> & F5 & K5) end.
    rewrite !add_cons_app.
    destruct (bounds_run N nm b xsz Hnm ltac:(lia) HN) as [(cb & Fb & Rb & Kb)|(Nk & e & Rb)].
    2:{ right. split; [exact Nk|]. exists e. unfold obind at 1. rewrite (Rb (add_cons (c2 ++ c3 ++ c4 ++ c5) o1) eq_refl). easy. }
    left. unfold obind at 1. rewrite (Rb (add_cons (c2 ++ c3 ++ c4 ++ c5) o1) eq_refl).
    rewrite (step_lift _ _ _ _ EIla). destruct (emits_mla N nm nI nE dimG HN Hnm Hp Ila HIla) as (la & Ela & S6). rewrite (step_lift _ _ _ _ Ela).
    match goal with |- context [obind (subject_ge la 0) ?k ?o] => destruct (step_emits N _ _ k o S6) as (c6 & -> & F6 & K6) end.
    destruct (emits_mdiag N nm nI nE dimG HN Hnm Hp IP HIP) as (D0 & D & ED0 & ED & S7). rewrite (step_lift _ _ _ _ ED0), (step_lift _ _ _ _ ED).
    match goal with |- context [obind (subject_ge D 0) ?k ?o] => destruct (step_emits N _ _ k o S7) as (c7 & -> & F7 & K7) end.
    rewrite !add_cons_app.
    exists cb, ([CEq (CVar 0) (CNum 1)] ++ ((c2 ++ c3 ++ c4 ++ c5) ++ cb ++ c6 ++ c7)).
    split; [|split; [|split; [|split; [apply (Rb (mkOpti 0 [] (xvars xsz)) eq_refl)|]]]].
    - rewrite !Forall_app. repeat split; try assumption. repeat constructor. simpl. lia.
    - reflexivity.
    - intros a. rewrite !Forall_app, K2, K3, K4, K5, K6, K7, mono_equiv. rewrite Forall_cons_iff. cbn [holds ceval].
      rewrite RMicromega.Q2R_1.
      split.
      + intros ((H0 & _) & (H2 & H3 & H4 & H5) & Hb & H6 & H7). split; [exact Hb|]. constructor; assumption.
      + intros (Hb & [Q0 Q2 Q3 Q4 Q5 Q6 Q7]). split; [split; [exact Q0|constructor]|]. repeat split; try assumption.
        * exact (proj1 (Q5 x H)).
        * exact (proj2 (Q5 x H)).
    - exact Kb.
  Qed.
End Build.
