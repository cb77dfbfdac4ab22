(** C14-C16, C18-C21: interpolation constraints and the symbolic assembly.
    [se_st (run SY session0 l)] is the state reached by an arbitrary program
    [l] of API calls. *)
From Coq Require Import List Arith Bool String QArith Reals Qreals Lra Lia.
From Verif Require Import Prelude PreludeFacts Sympy SympyFacts AlgebraModel Denote AlgebraFacts
  FunctionModel CircuitModel SymSpec GramFacts SymFacts Spec SpecFacts ClassSpec ClassFacts CertSpec
  StateSpec SessionModel StateFacts CertFacts ClassProps RepeatFacts Examples.
Import ListNotations.
Local Open Scope R_scope.

(** ** C14 *)
Theorem c14_convex_constraints_hold SY : sympy_ok SY ->
  forall l f fn s' fn' v phi, let s := se_st (run SY session0 l) in
    In f (st_flist s) -> dget Nat.eqb f (st_funs s) = Some fn -> fn_class fn = CConvex ->
    add_class_constraints SY f s = (Ok tt, s') -> dget Nat.eqb f (st_funs s') = Some fn' ->
    convex phi -> (forall t, In t (fn_pts fn) -> rec_sampled v phi t) ->
    forall e, In e (fn_cons fn') -> den_e v e <= 0.
Proof.
  intros OK l f fn s' fn' v phi s Hf E Ec H E' Hc. 
  apply (class_sound SY OK l f fn s' fn' v phi Hf E H E'); rewrite Ec; simpl; easy.
Qed.
Print Assumptions c14_convex_constraints_hold.

(** ** C15 *)
Theorem c15_strongly_convex_constraints_hold SY : sympy_ok SY ->
  forall l f fn mu s' fn' v phi, let s := se_st (run SY session0 l) in
    In f (st_flist s) -> dget Nat.eqb f (st_funs s) = Some fn -> fn_class fn = CStrongly mu ->
    add_class_constraints SY f s = (Ok tt, s') -> dget Nat.eqb f (st_funs s') = Some fn' ->
    0 <= Q2R mu -> strongly_convex (v_dim v) (Q2R mu) phi ->
    (forall t, In t (fn_pts fn) -> rec_sampled v phi t) ->
    forall e, In e (fn_cons fn') -> den_e v e <= 0.
Proof.
  intros OK l f fn mu s' fn' v phi s Hf E Ec H E' Hm Hc. 
  apply (class_sound SY OK l f fn s' fn' v phi Hf E H E'); rewrite Ec; simpl; easy.
Qed.
Print Assumptions c15_strongly_convex_constraints_hold.

(** ** C16 *)
Theorem c16_smooth_constraints_hold SY : sympy_ok SY ->
  forall l f fn mu L s' fn' v phi, let s := se_st (run SY session0 l) in
    In f (st_flist s) -> dget Nat.eqb f (st_funs s) = Some fn -> fn_class fn = CSmoothSC mu L ->
    add_class_constraints SY f s = (Ok tt, s') -> dget Nat.eqb f (st_funs s') = Some fn' ->
    0 <= Q2R mu < Q2R L ->
    strongly_convex (v_dim v) (Q2R mu) phi -> smooth (v_dim v) (Q2R L) phi ->
    (forall t, In t (fn_pts fn) -> rec_sampled v phi t) ->
    forall e, In e (fn_cons fn') -> den_e v e <= 0.
Proof.
  intros OK l f fn mu L s' fn' v phi s Hf E Ec H E' Hm Hc Hs. 
  apply (class_sound SY OK l f fn s' fn' v phi Hf E H E'); rewrite Ec; simpl; easy.
Qed.
Print Assumptions c16_smooth_constraints_hold.

(** The function x^2/2 recorded at 1 and 0 meets all hypotheses, for each class. *)
Example c14_c16_case : forall decl, In decl [OConvex; OStrongly (1 # 2); OSmoothSC (1 # 2) (Fin 2)] ->
  let s := se_st (run sympy0 session0 (quad_prog decl)) in
  exists f fn s' fn', In f (st_flist s) /\ dget Nat.eqb f (st_funs s) = Some fn /\
    add_class_constraints sympy0 f s = (Ok tt, s') /\ dget Nat.eqb f (st_funs s') = Some fn' /\
    List.length (fn_cons fn') = 2%nat /\
    class_params_ok (fn_class fn) /\ in_class (v_dim quad_val) (fn_class fn) quad /\
    (forall t, In t (fn_pts fn) -> rec_sampled quad_val quad t).
Proof.
  intros decl Hd.
  assert (R : forall t, In t [mkTrip 6 (leaf_point (mkLeaf 2 0)) (leaf_point (mkLeaf 4 1)) (leaf_expr (mkLeaf 3 0));
      mkTrip 9 (leaf_point (mkLeaf 7 2)) zero_point (leaf_expr (mkLeaf 8 1))] \/
      In t [mkTrip 5 (leaf_point (mkLeaf 2 0)) (leaf_point (mkLeaf 4 1)) (leaf_expr (mkLeaf 3 0));
      mkTrip 8 (leaf_point (mkLeaf 6 2)) zero_point (leaf_expr (mkLeaf 7 1))] -> rec_sampled quad_val quad t).
  { intros t H. unfold rec_sampled, sampled.
    assert (Hx : forall i j, den_p quad_val (leaf_point (mkLeaf i j)) = fun k => (Q2R 1 * v_pt quad_val (mkLeaf i j) k + 0)) by (intros; reflexivity).
    assert (Hf : forall i j, den_e quad_val (leaf_expr (mkLeaf i j)) = Q2R 1 * v_fv quad_val (mkLeaf i j) + 0) by (intros; reflexivity).
    assert (Q1 : Q2R 1 = 1) by (unfold Q2R; simpl; lra).
    assert (E0 : forall g, (forall k, g k = 0) -> forall x, (forall k, x k = 0) -> subgradient 1 quad x g).
    { intros g Hg x Hx0. split; [exact I|]. intros y _. unfold quad; simpl. rewrite dot1, Hg, Hx0. assert (0 <= y 0%nat * y 0%nat) by apply Rle_0_sqr. lra. }
    assert (E1 : forall g, (forall k, g k = 1) -> forall x, (forall k, x k = 1) -> subgradient 1 quad x g).
    { intros g Hg x Hx0. split; [exact I|]. intros y _. unfold quad; simpl. rewrite dot1. unfold vsub. rewrite Hg, Hx0.
      assert (0 <= (y 0%nat - 1) * (y 0%nat - 1)) by apply Rle_0_sqr. lra. }
    simpl in H. 
    destruct H as [[<-|[<-|[]]]|[<-|[<-|[]]]]; cbn [t_x t_g t_f]; rewrite ?Hx, ?Hf, ?Q1; simpl; (split;
      [first [apply E1; intros; lra | apply E0; intros; unfold den_p, den_pd; simpl; lra]|lra]). }
  assert (Q12 : Q2R (1 # 2) = 1 / 2) by (unfold Q2R; simpl; lra).
  assert (Q2 : Q2R 2 = 2) by (unfold Q2R; simpl; lra).
  destruct Hd as [<-|[<-|[<-|[]]]]; do 4 eexists;
  (split; [vm_compute; left; reflexivity|]); (split; [vm_compute; reflexivity|]);
  (split; [vm_compute; reflexivity|]); (split; [vm_compute; reflexivity|]); (split; [vm_compute; reflexivity|]);
  cbn [fn_class class_params_ok in_class fn_pts]; rewrite ?Q12, ?Q2.
  - split; [easy|]. split; [apply quad_convex|]. intros t Ht. apply R. auto.
  - split; [lra|]. split; [rewrite <- Q12; apply quad_strongly|]. intros t Ht. apply R. auto.
  - split; [lra|]. split; [split; [rewrite <- Q12; apply quad_strongly|rewrite <- Q2; apply quad_smooth]|]. intros t Ht. apply R. auto.
Qed.

(** ** C18: n(n-1) constraints in row order; [interp_value] is the textbook
    inequality between the records i and j. *)
Theorem c18_constraint_enumeration SY : sympy_ok SY ->
  forall l f fn, let s := se_st (run SY session0 l) in let n := List.length (fn_pts fn) in
    In f (st_flist s) -> dget Nat.eqb f (st_funs s) = Some fn -> fn_leaf fn = true ->
    class_params_ok (fn_class fn) ->
    exists s' fn', add_class_constraints SY f s = (Ok tt, s') /\ dget Nat.eqb f (st_funs s') = Some fn' /\
      List.length (fn_cons fn') = (n * (n - 1))%nat /\
      forall i j, (i < n)%nat -> (j < n)%nat -> i <> j ->
        exists e, nth_error (fn_cons fn') (i * (n - 1) + (if Nat.ltb j i then j else j - 1))%nat = Some e /\
        forall v, let ti := nth i (fn_pts fn) dummy_trip in let tj := nth j (fn_pts fn) dummy_trip in
          den_e v e = interp_value (v_dim v) (fn_class fn)
            (den_p v (t_x ti)) (den_p v (t_g ti)) (den_e v (t_f ti))
            (den_p v (t_x tj)) (den_p v (t_g tj)) (den_e v (t_f tj)).
Proof. exact (enumeration SY). Qed.
Print Assumptions c18_constraint_enumeration.

(** The dictionary handed to the solvers: exactly one entry per constraint
    plus the metric, each holding the matrices of the right constraint. *)
Theorem c18_stored_under_key SY : sympy_ok SY ->
  forall l sr s', let se := run SY session0 l in let s := se_st se in
    symbolic SY (se_pb se) s = (Ok sr, s') ->
    NoDup (keys (sr_exp sr)) /\
    List.length (sr_exp sr) = S (sr_I sr + sr_E sr) /\
    (forall b F i j, In (SK b F i j) (keys (sr_exp sr)) <->
      (b = 0%nat /\ F = 0%nat /\ j = 0%nat /\ (i < List.length (ineqs (se_pb se)))%nat) \/
      (b = 1%nat /\ F = 0%nat /\ j = 0%nat /\ (i < List.length (eqs (se_pb se)))%nat) \/
      (b = 0%nat /\ exists k f fn, F = (k + shift_of (se_pb se))%nat /\
         nth_error (leaf_funs (st_flist s) s) k = Some f /\ dget Nat.eqb f (st_funs s) = Some fn /\
         (i < List.length (fn_pts fn))%nat /\ (j < List.length (fn_pts fn))%nat /\ i <> j)) /\
    (forall i e w, nth_error (ineqs (se_pb se)) i = Some e ->
       dget skey_eqb (SK 0 0 i 0) (sr_exp sr) = Some w -> no_const e ->
       forall v, paired s v w = den_e v e) /\
    (forall i e w, nth_error (eqs (se_pb se)) i = Some e ->
       dget skey_eqb (SK 1 0 i 0) (sr_exp sr) = Some w -> no_const e ->
       forall v, paired s v w = den_e v e) /\
    (forall e w, pr_metric (se_pb se) = Some e ->
       dget skey_eqb SObj (sr_exp sr) = Some w -> no_const e ->
       forall v, paired s v w = den_e v e) /\
    (forall k f fn i j w, nth_error (leaf_funs (st_flist s) s) k = Some f ->
       dget Nat.eqb f (st_funs s) = Some fn ->
       (i < List.length (fn_pts fn))%nat -> (j < List.length (fn_pts fn))%nat -> i <> j ->
       dget skey_eqb (SK 0 (k + shift_of (se_pb se)) i j) (sr_exp sr) = Some w ->
       Forall (fun t => no_const (t_f t)) (fn_pts fn) ->
       forall v, let ti := nth i (fn_pts fn) dummy_trip in let tj := nth j (fn_pts fn) dummy_trip in
         paired s v w = interp_value (v_dim v) (fn_class fn)
            (den_p v (t_x ti)) (den_p v (t_g ti)) (den_e v (t_f ti))
            (den_p v (t_x tj)) (den_p v (t_g tj)) (den_e v (t_f tj))).
Proof. exact (stored_under_key SY). Qed.
Print Assumptions c18_stored_under_key.
Example c18_case : let se := run sympy0 session0 (quad_prog OConvex ++ [OConstraint 2 "inequality"]) in
  exists sr s', symbolic sympy0 (se_pb se) (se_st se) = (Ok sr, s') /\
    keys (sr_exp sr) = [SK 0 0 0 0; SK 0 1 0 1; SK 0 1 1 0; SObj].
Proof.
  intros se.
  assert (H : match symbolic sympy0 (se_pb se) (se_st se) with
    (Ok sr, _) => keys (sr_exp sr) = [SK 0 0 0 0; SK 0 1 0 1; SK 0 1 1 0; SObj] | _ => False end) by (vm_compute; reflexivity).
  destruct (symbolic sympy0 (se_pb se) (se_st se)) as [[sr|] s']; [|easy]. exists sr, s'. easy.
Qed.

(** ** C19: refuted as stated.  The second assembly raises AssertionError as
    soon as some function has two records; otherwise it agrees with the
    first. *)
Theorem c19_repeated_solve SY :
  forall l sr s', let se := run SY session0 l in let s := se_st se in
    symbolic SY (se_pb se) s = (Ok sr, s') ->
    ((exists f fn, In f (st_flist s) /\ dget Nat.eqb f (st_funs s) = Some fn /\ fn_leaf fn = true /\
                   (2 <= List.length (fn_pts fn))%nat) ->
     exists s'', symbolic SY (se_pb se) s' = (Err AssertionError, s'')) /\
    ((forall f fn, In f (st_flist s) -> dget Nat.eqb f (st_funs s) = Some fn -> fn_leaf fn = true ->
                   (List.length (fn_pts fn) <= 1)%nat) ->
     exists s'', symbolic SY (se_pb se) s' = (Ok sr, s'')).
Proof. exact (solve_twice SY). Qed.
Print Assumptions c19_repeated_solve.
Theorem c19_repeated_solve_refuted :
  exists l sr s' s'', let se := run sympy0 session0 l in
    symbolic sympy0 (se_pb se) (se_st se) = (Ok sr, s') /\
    symbolic sympy0 (se_pb se) s' = (Err AssertionError, s'').
Proof.
  exists (quad_prog OConvex). set (se := run sympy0 session0 (quad_prog OConvex)).
  assert (H : match symbolic sympy0 (se_pb se) (se_st se) with
    (Ok _, s') => match symbolic sympy0 (se_pb se) s' with (Err AssertionError, _) => True | _ => False end | _ => False end)
    by (vm_compute; exact I).
  destruct (symbolic sympy0 (se_pb se) (se_st se)) as [[sr|] s'] eqn:E1; [|easy].
  destruct (symbolic sympy0 (se_pb se) s') as [[|x] s''] eqn:E2; [destruct H|]. destruct x; try (destruct H; fail).
  exists sr, s', s''. cbv zeta. split; [exact E1|exact E2].
Qed.
Print Assumptions c19_repeated_solve_refuted.

(** ** C20 *)
Theorem c20_class_selection : forall mu L s, exists f s' fn,
  def_function mu L s = (Ok f, s') /\ st_flist s' = st_flist s ++ [f] /\
  st_funs s' = st_funs s ++ [(f, fn)] /\ fn_leaf fn = true /\ fn_pts fn = [] /\
  fn_class fn = match L with
                | Inf => if Qeq_bool mu 0 then CConvex else CStrongly mu
                | Fin l => CSmoothSC (if Qeq_bool mu 0 then 0%Q else mu) l
                end /\
  fn_reuse fn = match L with Fin _ => true | Inf => false end.
Proof.
  intros mu L s. destruct (class_selection mu L s) as (f & s' & fn & A & B & C & D & E & F & G).
  exists f, s', fn. repeat split; assumption.
Qed.
Print Assumptions c20_class_selection.
(** The constraints exist for 0 <= mu < L (c18_constraint_enumeration) but not
    for mu = L: *)
Theorem c20_equal_constants_fail SY :
  forall l f fn mu L, let s := se_st (run SY session0 l) in
    In f (st_flist s) -> dget Nat.eqb f (st_funs s) = Some fn -> fn_class fn = CSmoothSC mu L ->
    Qeq_bool mu L = true -> (2 <= List.length (fn_pts fn))%nat ->
    exists s', add_class_constraints SY f s = (Err ZeroDivisionError, s').
Proof. exact (equal_constants_fail SY). Qed.
Print Assumptions c20_equal_constants_fail.
Theorem c20_all_mu_le_L_refuted :
  exists mu L, (0 <= mu)%Q /\ (mu <= L)%Q /\
    let s := se_st (run sympy0 session0 (quad_prog (ODefFun mu (Fin L)))) in
    exists f s', In f (st_flist s) /\ add_class_constraints sympy0 f s = (Err ZeroDivisionError, s').
Proof.
  exists 1%Q, 1%Q. split; [easy|]. split; [apply Qle_refl|]. do 2 eexists.
  split; [vm_compute; left; reflexivity|vm_compute; reflexivity].
Qed.
Print Assumptions c20_all_mu_le_L_refuted.

(** ** C21 *)
Theorem c21_aggregated_matrices SY : sympy_ok SY ->
  forall l sr s', let se := run SY session0 l in let s := se_st se in
    symbolic SY (se_pb se) s = (Ok sr, s') -> constant_free (se_pb se) s ->
    forall v, paired s v (sr_sum sr) =
      lsum (fun ie => v_env v (dual_name "lamb0" (fst ie) 0) * den_e v (snd ie)) (number 0 (ineqs (se_pb se))) +
      lsum (fun ie => v_env v (dual_name "nu0" (fst ie) 0) * den_e v (snd ie)) (number 0 (eqs (se_pb se))) +
      lsum (fun kf => let fn := snd kf in
              lsum (fun ij => let ti := nth (fst ij) (fn_pts fn) dummy_trip in let tj := nth (snd ij) (fn_pts fn) dummy_trip in
                      v_env v (dual_name (lamb_prefix (fst kf + shift_of (se_pb se))) (fst ij) (snd ij)) *
                      interp_value (v_dim v) (fn_class fn)
                        (den_p v (t_x ti)) (den_p v (t_g ti)) (den_e v (t_f ti))
                        (den_p v (t_x tj)) (den_p v (t_g tj)) (den_e v (t_f tj)))
                   (pairs (List.length (fn_pts fn))))
           (number 0 (funs_of s (leaf_funs (st_flist s) s))).
Proof. exact (aggregated SY). Qed.
Print Assumptions c21_aggregated_matrices.
Example c21_case : let se := run sympy0 session0 (quad_prog OConvex ++ [OConstraint 2 "inequality"]) in
  (exists sr s', symbolic sympy0 (se_pb se) (se_st se) = (Ok sr, s')) /\ constant_free (se_pb se) (se_st se).
Proof.
  intros se.
  split.
  { assert (H : match symbolic sympy0 (se_pb se) (se_st se) with (Ok _, _) => True | _ => False end) by (vm_compute; exact I).
    destruct (symbolic sympy0 (se_pb se) (se_st se)) as [[sr|] s']; [|destruct H]. exists sr, s'. reflexivity. }
  split; [|split].
  - intros m H. vm_compute in H. injection H; intros <-. intros w r Hw; vm_compute in Hw; repeat destruct Hw as [Hw|Hw]; try discriminate Hw; destruct Hw.
  - vm_compute. repeat constructor. intros w r Hw; vm_compute in Hw; repeat destruct Hw as [Hw|Hw]; try discriminate Hw; destruct Hw.
  - intros f fn H1 H2 _. vm_compute in H1. destruct H1 as [<-|[]]. vm_compute in H2. injection H2; intros <-.
    simpl. repeat constructor; intros w r Hw; vm_compute in Hw; repeat destruct Hw as [Hw|Hw]; try discriminate Hw; destruct Hw.
Qed.
