(** C22, C23, C29-C31, C37, C40: multiplier names, linearisation, the casadi
    translation and the nonlinear program of [solve(solver="ipopt")].

    [se_st (run SY session0 l)] is the state reached by an arbitrary program
    [l] of API calls; the problem [p] may declare any parameters and any
    objective, but has the constraints and the metric of the session. *)
From Coq Require Import List Arith Bool String Ascii QArith Reals Qreals Lra Lia.
From Verif Require Import Prelude PreludeFacts Sympy SympyFacts AlgebraModel Denote FunctionModel CircuitModel
  SymSpec Spec ClassSpec CertSpec StateSpec SessionModel StateFacts CertFacts Examples
  ParsingModel ParsingSpec ParsingFacts SolverModel SolverSpec SolverFacts IpoptFacts IpoptTail IpoptProof IpoptComplete
  MatFacts SolverProps.
Import ListNotations.
Local Open Scope nat_scope.
Local Open Scope string_scope.

(** ** C22 *)
Theorem c22_multiplier_names SY :
  forall l p sr s', symbolic SY p (se_st (run SY session0 l)) = (Ok sr, s') ->
    exists T, keys (sr_exp sr) = (T ++ [SObj])%list /\ NoDup (map dual_of T) /\
      forall k, In k T -> exists b f i j, k = SK b f i j /\
        ((b = 0 /\ parse_dual (dual_of k) = Ok ("lamb" ++ nat_str f, i, j)) \/
         (b = 1 /\ parse_dual (dual_of k) = Ok ("nu" ++ nat_str f, i, j))).
Proof.
  intros l p sr s' H. assert (I := si_inv _ (reachable_inv SY l)).
  destruct (multiplier_names SY _ p sr s' I H) as (T & E & N).
  destruct (assembled_keys SY _ p sr s' I H) as (T' & E' & _ & K).
  assert (T = T') as <- by (rewrite E in E'; apply app_inj_tail in E'; easy).
  exists T. split; [exact E|]. split; [exact N|]. intros k Hk. destruct (K k Hk) as (b & f & i & j & -> & Hb).
  exists b, f, i, j. split; [reflexivity|]. destruct b as [|[|b]]; [left|right|lia]; split; try reflexivity; cbn [dual_of];
    apply parse_dual_name; [apply lamb_prefix_nobar|apply nu_nobar].
Qed.
Print Assumptions c22_multiplier_names.
(** In general: names with bar-free prefixes never collide and parse back. *)
Theorem c22_dual_names : forall p q i j k l, ~ In "|"%char (list_ascii_of_string p) -> ~ In "|"%char (list_ascii_of_string q) ->
  parse_dual (dual_name p i j) = Ok (p, i, j) /\
  (dual_name p i j = dual_name q k l -> p = q /\ i = k /\ j = l).
Proof.
  intros p q i j k l Hp Hq. rewrite <- has_char_in in Hp, Hq. apply not_true_is_false in Hp, Hq.
  split; [apply parse_dual_name; exact Hp|apply dual_inj; assumption].
Qed.
Print Assumptions c22_dual_names.
(** Two-digit indices, extra inequalities and equalities: names such as
    lamb1|0.11| and lamb11|0.1| stay apart. *)
Example c22_case : let se := run sympy0 session0 (quad_prog OConvex ++ [OConstraint 2 "inequality"; OConstraint 2 "equality"]) in
  (exists sr s', symbolic sympy0 (se_pb se) (se_st se) = (Ok sr, s') /\
     map dual_of (keys (sr_exp sr)) = ["lamb0|0.0|"; "lamb1|0.1|"; "lamb1|1.0|"; "nu0|0.0|"; "FG_obj"]) /\
  dual_name "lamb1" 0 11 = "lamb1|0.11|" /\ parse_dual "lamb11|0.1|" = Ok ("lamb11", 0, 1).
Proof.
  intros se. split; [|split; reflexivity].
  assert (H : match symbolic sympy0 (se_pb se) (se_st se) with (Ok sr, _) => map dual_of (keys (sr_exp sr)) | _ => [] end =
     ["lamb0|0.0|"; "lamb1|0.1|"; "lamb1|1.0|"; "nu0|0.0|"; "FG_obj"]) by (vm_compute; reflexivity).
  destruct (symbolic sympy0 (se_pb se) (se_st se)) as [[sr|] s']; [|discriminate H]. exists sr, s'. split; [reflexivity|exact H].
Qed.

(** ** C23 *)
(** Every feasible point is a descent proof at the returned parameters. *)
Theorem c23_solve_ipopt_sound SY : sympy_ok SY ->
  forall l p b n s' a v phi, let se := run SY session0 l in let s := se_st se in
    pr_cons p = pr_cons (se_pb se) -> pr_metric p = pr_metric (se_pb se) ->
    Forall good_param (pr_params p) -> declared p s -> constant_free p s ->
    ipopt_nlp SY p b s = (Ok n, s') -> feasible (nlp_opti n) a ->
    (forall x q, In (x, q) (dict_parameters (nlp_opti n) a (pr_params p)) -> v_env v x = q) ->
    consistent v phi s -> constraints_hold v p ->
    exists e, pr_metric p = Some e /\ (den_e v e <= 0)%R.
Proof.
  intros OK l p b n s' a v phi se s E1 E2 Hg Hd Hcf H Ha Hv Hc Hh. assert (SI := reachable_inv SY l). fold se in SI.
  assert (HB : own_pb s p) by (unfold own_pb; rewrite E1, E2; apply (si_pb _ SI)).
  exact (@ipopt_sound SY OK s p b n s' a v phi (si_inv _ SI) HB Hg Hd H Ha Hv Hc Hh Hcf).
Qed.
Print Assumptions c23_solve_ipopt_sound.

(** All declared parameters are returned, and the value that Ipopt minimises is
    minus the objective at the returned parameters. *)
Theorem c23_returned_values SY : sympy_ok SY ->
  forall l p b n s' a, let s := se_st (run SY session0 l) in
    Forall good_param (pr_params p) -> declared p s ->
    ipopt_nlp SY p b s = (Ok n, s') -> feasible (nlp_opti n) a ->
    map fst (dict_parameters (nlp_opti n) a (pr_params p)) = pr_params p /\
    forall e r, pr_obj p = Some e -> only_params (pr_params p) (fun x => In x (free e)) ->
      (forall x q, In (x, q) (dict_parameters (nlp_opti n) a (pr_params p)) -> r x = q) ->
      ceval a (nlp_obj n) = (- ev r e)%R.
Proof. intros OK l p b n s' a s. exact (returned_values OK p b s n s' a (si_inv _ (reachable_inv SY l))). Qed.
Print Assumptions c23_returned_values.

(** Conversely every certificate (non-negative multipliers, matching linear
    part, positive semidefinite slack) whose parameters meet the side
    conditions is a feasible point. *)
Theorem c23_solve_ipopt_complete SY : sympy_ok SY ->
  forall l p b n s' r w m P, let s := se_st (run SY session0 l) in
    Forall good_param (pr_params p) -> declared p s ->
    (forall x, In x (inv_discr_params (pr_params p)) -> is_dual x = false /\ x <> "P") ->
    ipopt_nlp SY p b s = (Ok n, s') -> In (SObj, w) (sr_exp (nlp_sym n)) ->
    certificate r (nlp_sym n) w (st_pctr s) (st_ectr s) m P -> side_ok p b r ->
    exists a, feasible (nlp_opti n) a /\
      dict_parameters (nlp_opti n) a (pr_params p) = map (fun x => (x, r x)) (pr_params p).
Proof. intros OK l p b n s' r w m P s. exact (complete OK p b s n s' r w m P (si_inv _ (reachable_inv SY l))). Qed.
Print Assumptions c23_solve_ipopt_complete.

(** Hence a global minimiser of the program returns parameters with the best
    objective among all certificates that meet the side conditions. *)
Theorem c23_solve_ipopt_optimal SY : sympy_ok SY ->
  forall l p b n s' a e, let s := se_st (run SY session0 l) in
    Forall good_param (pr_params p) -> declared p s ->
    (forall x, In x (inv_discr_params (pr_params p)) -> is_dual x = false /\ x <> "P") ->
    pr_obj p = Some e -> only_params (pr_params p) (fun x => In x (free e)) ->
    ipopt_nlp SY p b s = (Ok n, s') -> feasible (nlp_opti n) a ->
    (forall a', feasible (nlp_opti n) a' -> (ceval a (nlp_obj n) <= ceval a' (nlp_obj n))%R) ->
    forall r0, (forall x q, In (x, q) (dict_parameters (nlp_opti n) a (pr_params p)) -> r0 x = q) ->
    forall r w m P, In (SObj, w) (sr_exp (nlp_sym n)) ->
      certificate r (nlp_sym n) w (st_pctr s) (st_ectr s) m P -> side_ok p b r -> (ev r e <= ev r0 e)%R.
Proof. intros OK l p b n s' a e s. exact (optimal OK p b s n s' a e (si_inv _ (reachable_inv SY l))). Qed.
Print Assumptions c23_solve_ipopt_optimal.

(** A convex function recorded at x and at a minimiser x*, metric h (f* - f(x)):
    the point with h = 3 and multiplier 3 is feasible and every hypothesis is
    met by x^2/2 at x = 1, x* = 0. *)
Definition descent_prog : list op :=
  [ONewProblem; OConvex; OPoint; OOracle 0 0; OStationary 0; OESub 1 0; OEScale (Sym "h") 2; OMetric 3].
Definition descent_assign (i : nat) : R := if Nat.eqb i 2 || Nat.eqb i 17 then 3%R else 0%R.
Definition descent_val : valuation :=
  mkVal 1 (v_pt quad_val) (v_fv quad_val) (fun x => if String.eqb x "h" then 3%R else 0%R).
(** The constraints and variables of that program, computed. *)
Definition descent_nlp : list ccon * list (string * cavar) := Eval vm_compute in
  match ipopt_nlp sympy0 (se_pb (run sympy0 session0 descent_prog)) None (se_st (run sympy0 session0 descent_prog)) with
  | (Ok n, _) => (op_cons (nlp_opti n), op_vars (nlp_opti n)) | _ => ([], []) end.
Example c23_case : let se := run sympy0 session0 descent_prog in let s := se_st se in let p := se_pb se in
  exists n s',
    Forall good_param (pr_params p) /\ declared p s /\ constant_free p s /\
    (forall x, In x (inv_discr_params (pr_params p)) -> is_dual x = false /\ x <> "P") /\
    ipopt_nlp sympy0 p None s = (Ok n, s') /\ feasible (nlp_opti n) descent_assign /\
    (forall x q, In (x, q) (dict_parameters (nlp_opti n) descent_assign (pr_params p)) -> v_env descent_val x = q) /\
    consistent descent_val (fun _ => quad) s /\ constraints_hold descent_val p /\
    exists e, pr_metric p = Some e /\ (den_e descent_val e = - (3 / 2))%R.
Proof.
  intros se s p.
  assert (H : match ipopt_nlp sympy0 p None s with
    | (Ok n, _) => op_cons (nlp_opti n) = fst descent_nlp /\ op_vars (nlp_opti n) = snd descent_nlp
    | _ => False end) by (vm_compute; split; reflexivity).
  destruct (ipopt_nlp sympy0 p None s) as [[n|] s'] eqn:E; [|destruct H]. destruct H as [H1 H2]. exists n, s'.
  assert (Q : p = mkProblem ["alpha"; "beta"; "delta"; "eta"; "gamma"; "h"; "rho"] (pr_cons p) (pr_metric p) (pr_obj p)) by (vm_compute; reflexivity).
  split.
  { rewrite Q. cbn [pr_params]. repeat apply Forall_cons; try apply Forall_nil; (split; [apply simple_has; reflexivity|split; [reflexivity|discriminate]]). }
  split.
  { split; [|split].
    - intros m Hm. vm_compute in Hm. injection Hm as <-. intros x (kv & Hk & Hx). vm_compute in Hk.
      destruct Hk as [<-|[<-|[]]]; vm_compute in Hx; vm_compute; repeat (destruct Hx as [<-|Hx]; [auto 10|]); destruct Hx.
    - intros c [].
    - intros f fn t Hf E1 _ Ht. vm_compute in Hf. destruct Hf as [<-|[]]. vm_compute in E1. injection E1 as <-.
      destruct Ht as [<-|[<-|[]]]; repeat split; intros x (kv & Hk & Hx); vm_compute in Hk;
        repeat (destruct Hk as [<-|Hk]; [vm_compute in Hx; destruct Hx|]); destruct Hk. }
  split.
  { split; [|split].
    - intros m Hm. vm_compute in Hm. injection Hm as <-. intros w r Hw; vm_compute in Hw; repeat destruct Hw as [Hw|Hw]; try discriminate Hw; destruct Hw.
    - constructor.
    - intros f fn Hf E1 _. vm_compute in Hf. destruct Hf as [<-|[]]. vm_compute in E1. injection E1 as <-.
      repeat constructor; intros w r Hw; vm_compute in Hw; repeat destruct Hw as [Hw|Hw]; try discriminate Hw; destruct Hw. }
  split; [rewrite Q; intros x []|]. split; [reflexivity|]. clear E. split.
  { unfold feasible. rewrite H1. unfold descent_nlp, descent_assign. cbn [fst]. repeat constructor; simpl; unfold Q2R; simpl; lra. }
  split.
  { unfold dict_parameters. rewrite H2, Q. cbn [pr_params]. unfold descent_nlp. cbn [snd flat_map dget String.eqb Ascii.eqb Bool.eqb cv_rows cv_cols Nat.eqb andb app].
    intros x q Hx. repeat (destruct Hx as [Hx|Hx]; [injection Hx as <- <-; reflexivity|]). destruct Hx. }
  split.
  { intros f fn Hf E1 _. vm_compute in Hf. destruct Hf as [<-|[]]. vm_compute in E1. injection E1 as <-.
    split; [exact I|]. split; [exact quad_convex|]. 
    apply Forall_cons; [|apply Forall_cons; [|apply Forall_nil]]; apply quad_record; try reflexivity;
      unfold den_p, den_pd, den_e; simpl; unfold Q2R; simpl; lra. }
  split; [intros c []|]. eexists. split; [vm_compute; reflexivity|]. unfold den_e. simpl. unfold Q2R; simpl. lra.
Qed.

(** ** C29 *)
Theorem c29_linearize_collapse SY : sympy_ok SY ->
  forall e, simple_symbols e ->
    (forall r, ev (long r) (linearize_expression SY e) = ev r e) /\
    (forall s, In s (free (linearize_expression SY e)) -> Forall (fun x => In x (free e)) (split_us s)) /\
    exists e', collapse_expression SY (linearize_expression SY e) = Ok e' /\ forall r, ev r e' = ev r e.
Proof.
  intros OK e H. split; [intros r; apply linearize_ev; assumption|]. split; [intros s; apply linearize_parts; assumption|].
  destruct (collapse_total OK (linearize_expression SY e)) as [e' He]. exists e'. split; [exact He|].
  intros r. rewrite (collapse_ev OK _ _ _ He). apply linearize_ev; assumption.
Qed.
Print Assumptions c29_linearize_collapse.
(** 2 h^2 lamb0|0.1| + h: three factors, one repeated. *)
Definition c29_expr : sexpr := sadd (smul (Num 2) (smul (Sym "h") (smul (Sym "lamb0|0.1|") (Sym "h")))) (Sym "h").
Example c29_case : simple_symbols c29_expr /\
  free (linearize_expression sympy0 c29_expr) = ["h_h_lamb0|0.1|"; "h"].
Proof.
  split; [|vm_compute; reflexivity]. intros s Hs. apply simple_has. simpl in Hs.
  repeat (destruct Hs as [<-|Hs]; [reflexivity|]). destruct Hs.
Qed.

(** ** C30 *)
(** The vectorised formulations reject underscores. *)
Theorem c30_coefficients_reject_underscores SY :
  forall l params r, sp_v_coeff_matrix SY l params = Ok r ->
    forall F G e, In (F, G) l -> In e (F ++ G)%list ->
      numeric SY e = true \/ p_terms (poly SY (simp SY e)) = [] \/ Forall simple_name (p_gens (poly SY (simp SY e))).
Proof. intros l params r. exact (coeff_matrices_accepted SY l (init_names params) [] [] r). Qed.
Print Assumptions c30_coefficients_reject_underscores.
Example c30_rejected_case : sp_v_coeff_matrix sympy0 [([Sym "a_b"], [])] ["a"; "b"; "a_b"] = Err AssertionError /\
  exists r, sp_v_coeff_matrix sympy0 [([smul (Sym "a") (Sym "b")], [])] ["a"; "b"] = Ok r.
Proof. split; [vm_compute; reflexivity|]. eexists. vm_compute. reflexivity. Qed.

(** [linearize_expression] cannot tell "a_b" from a*b, and [solve_ipopt] accepts
    such names: with parameters a, b, a_b and metric -a*b*|x|^2 the program is
    feasible at a = 1, b = -1, where the metric is positive. *)
Definition us_prog : list op := [ONewProblem; OPoint; OPPow 0 2; OEScale (smul (Num (-1)) (smul (Sym "a") (Sym "b"))) 0; OMetric 1].
Definition us_pb : problem := set_params (se_pb (run sympy0 session0 us_prog)) ["a"; "b"; "a_b"].
Definition us_assign (i : nat) : R := match i with 8 => 1%R | 9 => (-1)%R | _ => 0%R end.
Definition us_val : valuation := mkVal 1 (fun _ _ => 1%R) (fun _ => 0%R) (fun x => if String.eqb x "a" then 1%R else if String.eqb x "b" then (-1)%R else 0%R).

Theorem c30_underscores_refuted : exists n s',
  linearize_expression sympy0 (smul (Sym "a") (Sym "b")) = linearize_expression sympy0 (Sym "a_b") /\
  let s := se_st (run sympy0 session0 us_prog) in
  ipopt_nlp sympy0 us_pb None s = (Ok n, s') /\ feasible (nlp_opti n) us_assign /\
  pr_params us_pb = ["a"; "b"; "a_b"] /\ Forall (fun x => is_dual x = false /\ x <> "P") (pr_params us_pb) /\
  declared us_pb s /\ constant_free us_pb s /\
  dict_parameters (nlp_opti n) us_assign (pr_params us_pb) = [("a", 1%R); ("b", (-1)%R); ("a_b", 0%R)] /\
  (v_env us_val "a" = 1 /\ v_env us_val "b" = -1 /\ v_env us_val "a_b" = 0)%R /\
  consistent us_val (fun _ => quad) s /\ constraints_hold us_val us_pb /\
  exists e, pr_metric us_pb = Some e /\ (den_e us_val e > 0)%R.
Proof.
  set (s := se_st (run sympy0 session0 us_prog)).
  assert (H : match ipopt_nlp sympy0 us_pb None s with
    | (Ok n, _) => op_cons (nlp_opti n) =
        [CGe (CVar 7) (CNum 0); CGe (CVar 0) (CNum 0); CGe (CVar 1) (CNum 0); CGe (CVar 2) (CNum 0);
         CEq (CSub (CAdd (CNum 0) (CMul (CNum 1) (CVar 10))) (CAdd (CNum 0) (CMul (CVar 7) (CVar 7)))) (CNum 0)] /\
        map (fun x => dget String.eqb x (op_vars (nlp_opti n))) ["a"; "b"; "a_b"] = [Some (mkCV 1 1 8); Some (mkCV 1 1 9); Some (mkCV 1 1 10)]
    | _ => False end) by (vm_compute; split; reflexivity).
  destruct (ipopt_nlp sympy0 us_pb None s) as [[n|] s'] eqn:E; [|destruct H]. destruct H as [H1 H2]. exists n, s'.
  split; [vm_compute; reflexivity|]. cbv zeta. fold s. split; [exact E|]. clear E. split.
  { unfold feasible. rewrite H1. repeat constructor; simpl; unfold Q2R; simpl; lra. }
  split; [reflexivity|]. split.
  { repeat constructor; discriminate. }
  split.
  { split; [|split].
    - intros m Hm. vm_compute in Hm. injection Hm as <-. intros x (kv & Hk & Hx). vm_compute in Hk.
      destruct Hk as [<-|[]]. vm_compute in Hx. vm_compute. repeat (destruct Hx as [<-|Hx]; [auto|]). destruct Hx.
    - intros c []. - intros f fn t []. }
  split.
  { split; [|split; [constructor|intros f fn []]]. intros m Hm. vm_compute in Hm. injection Hm as <-. intros w r Hw; vm_compute in Hw; repeat destruct Hw as [Hw|Hw]; try discriminate Hw; destruct Hw. }
  split.
  { injection H2 as A B C. unfold dict_parameters. cbn [us_pb set_params pr_params flat_map]. rewrite A, B, C. reflexivity. }
  split; [repeat split; reflexivity|]. split; [intros f fn []|]. split; [intros c []|].
  eexists. split; [vm_compute; reflexivity|]. unfold den_e. simpl. unfold dot, Q2R; simpl. lra.
Qed.
Print Assumptions c30_underscores_refuted.

(** ** C31 *)
Theorem c31_auxiliary_variables_pinned SY : sympy_ok SY ->
  forall o es cs o', wf_o o -> simple_keys o -> sympy_matrix_to_casadi SY es o = Ok (cs, o') ->
    (** in every feasible assignment each translated entry has its value *)
    (forall a, feasible o' a ->
       Forall2 (fun e c => ceval a c = ev (long (base_env (op_vars o) a)) e) es cs) /\
    (** the old constraints are kept and the old variables are not restricted *)
    (forall a, feasible o' a -> feasible o a) /\
    (forall a, feasible o a -> exists a', (forall i, i < op_next o -> a' i = a i) /\ feasible o' a') /\
    (** the old names keep their variables *)
    (forall n v, dget String.eqb n (op_vars o) = Some v -> dget String.eqb n (op_vars o') = Some v).
Proof. intros OK. exact (pinned_matrix OK). Qed.
Print Assumptions c31_auxiliary_variables_pinned.
Definition c31_opti : opti := mkOpti 6 [] [("h", mkCV 1 1 0); ("eta", mkCV 1 1 1); ("lamb0", mkCV 2 2 2)].
(** lamb0|0.1| h^2 eta introduces h_eta-like products; they are pinned. *)
Example c31_case : wf_o c31_opti /\ simple_keys c31_opti /\
  exists cs o', sympy_matrix_to_casadi sympy0
    [linearize_expression sympy0 (smul (Sym "lamb0|0.1|") (smul (Sym "h") (smul (Sym "eta") (Sym "h")))); Num 3] c31_opti = Ok (cs, o') /\
    keys (op_vars o') = ["h"; "eta"; "lamb0"; "eta_h"; "eta_h_h"] /\ List.length (op_cons o') = 2.
Proof.
  split; [|split].
  - constructor; [constructor|]. intros n v. simpl. repeat (destruct (String.eqb n _); [intros [= <-]; simpl; lia|]). discriminate.
  - intros n v H. simpl in H.
    destruct (String.eqb n "h") eqn:E1; [apply String.eqb_eq in E1 as ->; reflexivity|].
    destruct (String.eqb n "eta") eqn:E2; [apply String.eqb_eq in E2 as ->; reflexivity|].
    destruct (String.eqb n "lamb0") eqn:E3; [apply String.eqb_eq in E3 as ->; reflexivity|]. discriminate H.
  - set (r := sympy_matrix_to_casadi _ _ _).
    assert (H : match r with Ok (_, o') => keys (op_vars o') = ["h"; "eta"; "lamb0"; "eta_h"; "eta_h_h"] /\ List.length (op_cons o') = 2 | Err _ => False end)
      by (vm_compute; split; reflexivity).
    destruct r as [[cs o']|]; [|destruct H]. exists cs, o'. split; [reflexivity|exact H].
Qed.

(** ** C37 *)
Theorem c37_bounds_exact : forall b name2idx o,
  (forall name ub lb, In (name, (ub, lb)) b -> bound_target o name2idx name <> None) ->
  exists o', ca_add_bounds (Some b) name2idx o = Ok (tt, o') /\
    op_vars o' = op_vars o /\ op_next o' = op_next o /\
    forall a, feasible o' a <-> feasible o a /\
      forall name ub lb ids i, In (name, (ub, lb)) b -> bound_target o name2idx name = Some ids -> In i ids -> in_bounds (a i) ub lb.
Proof.
  intros b name2idx o H. destruct (bounds_exact name2idx b None o H) as (cs & E & K). exists (add_cons cs o).
  split; [exact E|]. split; [reflexivity|]. split; [reflexivity|]. intros a. rewrite feasible_add_cons, K. reflexivity.
Qed.
Print Assumptions c37_bounds_exact.
(** Names that the solver does not know. *)
Theorem c37_unknown_first_name_fails : forall name ub lb b name2idx o,
  dget String.eqb name (op_vars o) = None -> dget vname_eqb (VStr name) name2idx = None -> ub <> None \/ lb <> None ->
  ca_add_bounds (Some ((name, (ub, lb)) :: b)) name2idx o = Err UnboundLocalError.
Proof. intros name ub lb b name2idx o. exact (bounds_unknown name2idx name ub lb b o). Qed.
Print Assumptions c37_unknown_first_name_fails.
(** An unknown name after a known one silently bounds the known variable. *)
Theorem c37_bounds_exact_refuted : exists b o o' a,
  ca_add_bounds (Some b) [] o = Ok (tt, o') /\ b = [("eta", (None, Some 1%Q)); ("etta", (Some 2%Q, None))] /\
  feasible o a /\ (forall i, In i (match bound_target o [] "eta" with Some l => l | None => [] end) -> in_bounds (a i) None (Some 1%Q)) /\
  bound_target o [] "etta" = None /\ ~ feasible o' a.
Proof.
  exists [("eta", (None, Some 1%Q)); ("etta", (Some 2%Q, None))], (mkOpti 1 [] [("eta", mkCV 1 1 0)]). eexists. exists (fun _ => 3%R).
  split; [vm_compute; reflexivity|]. split; [reflexivity|]. split; [constructor|]. split; [|split; [reflexivity|]].
  - intros i _. split; [exact I|]. unfold Q2R; simpl. lra.
  - intros H. inversion H as [|? ? _ H1]; subst. inversion H1 as [|? ? H2 _]; subst. simpl in H2. unfold Q2R in H2; simpl in H2. lra.
Qed.
Print Assumptions c37_bounds_exact_refuted.
Example c37_case : forall name ub lb, In (name, (ub, lb)) [("eta", (None, Some 1%Q)); ("lamb0", (Some 2%Q, Some 0%Q)); ("h_h", (Some 5%Q, None))] ->
  bound_target (mkOpti 12 [] [("eta", mkCV 1 1 0); ("lamb0", mkCV 2 2 1); ("x", mkCV 7 1 5)]) [(VOne, 0); (VStr "h_h", 3)] name <> None.
Proof. intros name ub lb [[= <- _ _]|[[= <- _ _]|[[= <- _ _]|[]]]]; vm_compute; discriminate. Qed.

(** ** C40 *)
Theorem c40_reciprocals SY : sympy_ok SY ->
  forall l p b n s' a, let s := se_st (run SY session0 l) in
    Forall good_param (pr_params p) -> declared p s -> recip_names (pr_params p) ->
    ipopt_nlp SY p b s = (Ok n, s') -> feasible (nlp_opti n) a ->
    forall X, In ("inv" ++ X) (pr_params p) -> exists x y,
      dict_parameters (nlp_opti n) a [X; "inv" ++ X] = [(X, x); ("inv" ++ X, y)] /\ (x * y = 1)%R /\ (x >= Q2R (1 # 10000000))%R.
Proof. intros OK l p b n s' a s. exact (ipopt_reciprocals OK p b s n s' a (si_inv _ (reachable_inv SY l))). Qed.
Print Assumptions c40_reciprocals.
(** hypotheses and a feasible assignment: parameters a, b, inva *)
Definition rc_pb : problem := set_params us_pb ["a"; "b"; "inva"].
Definition rc_assign (i : nat) : R := match i with 8 => 2%R | 9 => (1/2)%R | _ => 0%R end.
Lemma rc_pb_good : Forall good_param (pr_params rc_pb).
Proof.
  change (pr_params rc_pb) with ["a"; "b"; "inva"].
  repeat (apply Forall_cons; [split; [intros Hu; simpl in Hu; decompose [or] Hu; try discriminate; try contradiction|split; [reflexivity|discriminate]]|]).
  constructor.
Qed.
Example c40_case : exists n s', let s := se_st (run sympy0 session0 us_prog) in
  Forall good_param (pr_params rc_pb) /\ recip_names (pr_params rc_pb) /\ In ("inv" ++ "a") (pr_params rc_pb) /\ declared rc_pb s /\
  ipopt_nlp sympy0 rc_pb None s = (Ok n, s') /\ feasible (nlp_opti n) rc_assign.
Proof.
  set (s := se_st (run sympy0 session0 us_prog)).
  assert (H : match ipopt_nlp sympy0 rc_pb None s with
    | (Ok n, _) => op_cons (nlp_opti n) =
        [CEq (CMul (CVar 8) (CVar 9)) (CNum 1); CGe (CVar 8) (CNum (1 # 10000000));
         CGe (CVar 7) (CNum 0); CGe (CVar 0) (CNum 0); CGe (CVar 1) (CNum 0); CGe (CVar 2) (CNum 0);
         CEq (CVar 11) (CMul (CVar 8) (CVar 10));
         CEq (CSub (CAdd (CNum 0) (CMul (CNum 1) (CVar 11))) (CAdd (CNum 0) (CMul (CVar 7) (CVar 7)))) (CNum 0)]
    | _ => False end) by (vm_compute; reflexivity).
  destruct (ipopt_nlp sympy0 rc_pb None s) as [[n|] s'] eqn:E; [|destruct H]. exists n, s'. cbv zeta. fold s.
  split; [|split; [|split; [|split; [|split; [exact E|]]]]].
  - clear E. exact rc_pb_good.
  - clear E. intros m [<-|[<-|[<-|[]]]] Hm; try discriminate Hm. exists "a". repeat split; discriminate.
  - clear E. right. right. left. reflexivity.
  - clear E. split; [|split].
    + intros m Hm. vm_compute in Hm. injection Hm as <-. intros x (kv & Hk & Hx). vm_compute in Hk.
      destruct Hk as [<-|[]]. vm_compute in Hx. vm_compute. repeat (destruct Hx as [<-|Hx]; [auto|]). destruct Hx.
    + intros c [].
    + intros f fn t [].
  - clear E. unfold feasible. rewrite H. repeat constructor; simpl; unfold Q2R; simpl; lra.
Qed.

(** A parameter "invinva" makes the loop replace the variable "inva" after its
    reciprocal constraint has been stated: the returned a and inva are then
    unrelated. *)
Definition rr_pb : problem := set_params us_pb ["a"; "b"; "inva"; "invinva"].
Lemma rr_pb_good : Forall good_param (pr_params rr_pb).
Proof.
  change (pr_params rr_pb) with ["a"; "b"; "inva"; "invinva"].
  repeat (apply Forall_cons; [split; [intros Hu; simpl in Hu; decompose [or] Hu; try discriminate; try contradiction|split; [reflexivity|discriminate]]|]).
  constructor.
Qed.
Definition rr_assign (i : nat) : R := match i with 8 => 1%R | 9 => 1%R | 10 => 2%R | 11 => (1/2)%R | _ => 0%R end.
Theorem c40_reciprocals_refuted : exists n s', let s := se_st (run sympy0 session0 us_prog) in
  pr_params rr_pb = ["a"; "b"; "inva"; "invinva"] /\ Forall good_param (pr_params rr_pb) /\ declared rr_pb s /\
  ipopt_nlp sympy0 rr_pb None s = (Ok n, s') /\ feasible (nlp_opti n) rr_assign /\
  exists x y, dict_parameters (nlp_opti n) rr_assign ["a"; "inva"] = [("a", x); ("inva", y)] /\ (x * y <> 1)%R.
Proof.
  set (s := se_st (run sympy0 session0 us_prog)).
  assert (H : match ipopt_nlp sympy0 rr_pb None s with
    | (Ok n, _) => op_cons (nlp_opti n) =
        [CEq (CMul (CVar 8) (CVar 9)) (CNum 1); CGe (CVar 8) (CNum (1 # 10000000));
         CEq (CMul (CVar 10) (CVar 11)) (CNum 1); CGe (CVar 10) (CNum (1 # 10000000));
         CGe (CVar 7) (CNum 0); CGe (CVar 0) (CNum 0); CGe (CVar 1) (CNum 0); CGe (CVar 2) (CNum 0);
         CEq (CVar 13) (CMul (CVar 8) (CVar 12));
         CEq (CSub (CAdd (CNum 0) (CMul (CNum 1) (CVar 13))) (CAdd (CNum 0) (CMul (CVar 7) (CVar 7)))) (CNum 0)] /\
        map (fun x => dget String.eqb x (op_vars (nlp_opti n))) ["a"; "inva"] = [Some (mkCV 1 1 8); Some (mkCV 1 1 10)]
    | _ => False end) by (vm_compute; split; reflexivity).
  destruct (ipopt_nlp sympy0 rr_pb None s) as [[n|] s'] eqn:E; [|destruct H]. destruct H as [H1 H2]. exists n, s'. cbv zeta. fold s.
  split; [reflexivity|split; [|split; [|split; [exact E|split]]]].
  - clear E. exact rr_pb_good.
  - clear E. split; [|split].
    + intros m Hm. vm_compute in Hm. injection Hm as <-. intros x (kv & Hk & Hx). vm_compute in Hk.
      destruct Hk as [<-|[]]. vm_compute in Hx. vm_compute. repeat (destruct Hx as [<-|Hx]; [auto|]). destruct Hx.
    + intros c [].
    + intros f fn t [].
  - clear E. unfold feasible. rewrite H1. repeat constructor; simpl; unfold Q2R; simpl; lra.
  - injection H2 as A B. exists 1%R, 2%R. unfold dict_parameters. cbn [flat_map]. rewrite A, B. split; [reflexivity|lra].
Qed.
Print Assumptions c40_reciprocals_refuted.
