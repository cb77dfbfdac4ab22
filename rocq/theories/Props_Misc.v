(** C38, C39, C54-C58: degree check, evaluation, linear coefficients, helpers,
    splitting, grid search, comparison of expressions. *)
From Coq Require Import List Arith Bool String Ascii QArith ZArith Reals Qreals Lra Lia Permutation.
From Verif Require Import Prelude PreludeFacts Sympy SympyFacts AlgebraModel Denote FunctionModel CircuitModel
  StateSpec SessionModel StateFacts ParsingModel ParsingSpec ParsingFacts CoeffFacts SolverSpec MatFacts
  MiscModel MiscSpec MiscFacts LinFacts PolyFacts.
Import ListNotations.
Local Open Scope nat_scope.
Local Open Scope string_scope.

(** ** C38 *)
(** On sympy expressions the check is right: it accepts exactly the
    expressions that are polynomials of degree at most [d] along every line
    through the origin (sympy stores no zero coefficient). *)
Theorem c38_check_degree SY : sympy_ok SY -> forall e d,
  (check_degree SY e d = true -> forall r, poly_fun d (fun t => ev (fun s => (t * r s)%R) e)) /\
  ((forall t, In t (p_terms (poly SY (simp SY e))) -> Q2R (snd t) <> 0%R) ->
   (forall r, poly_fun d (fun t => ev (fun s => (t * r s)%R) e)) -> check_degree SY e d = true).
Proof. intros OK e d. exact (conj (check_degree_sound SY e d OK) (degree_complete SY e d OK)). Qed.
Print Assumptions c38_check_degree.
Definition deg3 : sexpr := Mul (Sym "a") (Mul (Sym "a") (Sym "b")).
Example c38_case : check_degree sympy0 deg3 3 = true /\ check_degree sympy0 deg3 2 = false /\
  (forall t, In t (p_terms (poly sympy0 (simp sympy0 deg3))) -> Q2R (snd t) <> 0%R).
Proof.
  split; [vm_compute; reflexivity|]. split; [vm_compute; reflexivity|]. intros t Ht. vm_compute in Ht. destruct Ht as [<-|[]]. cbn [snd]. unfold Q2R. simpl. lra.
Qed.
(** But the metric is never checked: every Expression is accepted, whatever
    the degree of its weights, and everything else is refused. *)
Theorem c38_metric_unchecked SY : forall pb o,
  set_metric SY pb o = match o with PyExpression e => Ok (set_performance_metric pb e) | _ => Err AssertionError end.
Proof. intros pb [e|p|e|q]; reflexivity. Qed.
Print Assumptions c38_metric_unchecked.
Theorem c38_metric_refuted : exists l e pb, In e (se_exps (run sympy0 session0 l)) /\
  (exists k w, In (k, w) (ex_dict e) /\ check_degree sympy0 w 2 = false) /\
  set_metric sympy0 (se_pb (run sympy0 session0 l)) (PyExpression e) = Ok pb.
Proof.
  exists [ONewProblem; OExpr; OEScale deg3 0], (mkExpr false [(KF (mkLeaf 0 0), simp sympy0 (smul (Num 1) deg3))]).
  eexists. split; [|split].
  - vm_compute. right. left. reflexivity.
  - eexists. eexists. split; [left; reflexivity|]. vm_compute. reflexivity.
  - reflexivity.
Qed.
Print Assumptions c38_metric_refuted.

(** ** C39 *)
(** Nothing ever stores the value of a leaf, so evaluation fails as soon as a
    leaf is involved: only empty points and constants can be evaluated. *)
Theorem c39_point_eval : forall p, eval_point no_values p = Err ValueError \/
  (pt_leaf p = false /\ pt_dict p = [] /\ exists v, eval_point no_values p = Ok v /\ forall k, v k = 0%Q).
Proof.
  intros [lf d]. unfold eval_point. simpl. destruct lf; [left; destruct d as [|[x w] [|]]; reflexivity|]. destruct d as [|kv d]; [right|left; apply eval_pd_none; discriminate].
  repeat split; try reflexivity. exists (fun _ => 0%Q). split; reflexivity.
Qed.
Print Assumptions c39_point_eval.
Lemma existsb_leaf_key (d : edict) : existsb leaf_key (keys d) = false <-> forall k w, In (k, w) d -> k = KOne.
Proof.
  split.
  - intros H k w Hi. destruct k; try reflexivity; exfalso; assert (T : existsb leaf_key (keys d) = true) by (apply existsb_exists; eexists; split; [apply (in_map fst _ _ Hi)|reflexivity]); congruence.
  - intros H. destruct (existsb leaf_key (keys d)) eqn:E; [|reflexivity]. apply existsb_exists in E as (k & Hk & Hl). apply in_map_iff in Hk as ([k' w] & <- & Hi). simpl in Hl. rewrite (H _ _ Hi) in Hl. discriminate.
Qed.
Theorem c39_expr_eval : forall n e,
  (ex_leaf e = false /\ (forall k w, In (k, w) (ex_dict e) -> k = KOne) ->
    forall r, exists v, eval_expr no_values n e = Ok v /\ ev r v = lsum (fun kv => ev r (snd kv)) (ex_dict e)) /\
  (ex_leaf e = true \/ (exists k w, In (k, w) (ex_dict e) /\ k <> KOne) -> eval_expr no_values n e = Err ValueError).
Proof.
  intros n [lf d]. unfold eval_expr. simpl. split.
  - intros [-> H] r. destruct (eval_ed_const n d r (Num 0)) as (v & E & Hv); [apply existsb_leaf_key, H|]. exists v. split; [exact E|]. rewrite Hv. simpl. rewrite Q2R_0'. lra.
  - intros [->|(k & w & Hi & Hk)].
    + destruct d as [|[[f|x y|] w] [|]]; reflexivity.
    + assert (E : existsb leaf_key (keys d) = true) by (apply existsb_exists; exists k; split; [apply (in_map fst _ _ Hi)|destruct k; [reflexivity|reflexivity|contradiction]]).
      destruct lf; [|apply eval_ed_none, E]. destruct d as [|[[f|x y|] w'] [|]]; reflexivity.
Qed.
Print Assumptions c39_expr_eval.
(** Constraints turn that failure into a TypeError; their dual values never
    exist. *)
Theorem c39_constraint_eval : forall n c,
  (ex_leaf (c_expr c) = true \/ (exists k w, In (k, w) (ex_dict (c_expr c)) /\ k <> KOne) -> eval_constraint no_values n c = Err TypeError) /\
  eval_dual None = Err ValueError.
Proof. intros n c. split; [|reflexivity]. intros H. unfold eval_constraint. rewrite (proj2 (c39_expr_eval n (c_expr c)) H). reflexivity. Qed.
Print Assumptions c39_constraint_eval.
(** The documented claim is false: a program, its metric and a constraint. *)
Theorem c39_eval_refuted : exists l e c, let se := run sympy0 session0 l in
  pr_metric (se_pb se) = Some e /\ In c (pr_cons (se_pb se)) /\
  eval_expr no_values (st_pctr (se_st se)) e = Err ValueError /\ eval_constraint no_values (st_pctr (se_st se)) c = Err TypeError.
Proof.
  exists [ONewProblem; OConvex; OPoint; OPoint; OValue 0 0; OPMul 0 1; OMetric 0; OConstraint 1 "inequality"]. eexists. eexists.
  split; [vm_compute; reflexivity|]. split; [vm_compute; left; reflexivity|]. split; vm_compute; reflexivity.
Qed.
Print Assumptions c39_eval_refuted.
(** Were the slots filled, [Expression.eval] would compute the meaning. *)
Theorem c39_eval_value : forall s v e, slots_match s v -> ex_leaf e = false ->
  exists x, eval_expr s (v_dim v) e = Ok x /\ ev (v_env v) x = den_e v e.
Proof.
  intros s v e H He. unfold eval_expr. rewrite He. destruct (eval_ed_value s v H (ex_dict e) (Num 0)) as (x & E & Hx). exists x. split; [exact E|]. rewrite Hx. unfold den_e. simpl. rewrite Q2R_0'. lra.
Qed.
Print Assumptions c39_eval_value.
Example c39_case : exists s v e, slots_match s v /\ ex_leaf e = false /\ ex_dict e <> [].
Proof.
  exists (mkSlots (fun _ => Some (fun k => if Nat.eqb k 0 then 2%Q else 0%Q)) (fun _ => Some 3%Q)), (mkVal 1 (fun _ k => Q2R (if Nat.eqb k 0 then 2 else 0)) (fun _ => Q2R 3) (fun _ => 0%R)),
    (mkExpr false [(KG (mkLeaf 0 0) (mkLeaf 0 0), Sym "a"); (KF (mkLeaf 1 0), Num 1)]).
  split; [split; intros; simpl; reflexivity|]. split; [reflexivity|discriminate].
Qed.

(** ** C54 *)
(** The row of coefficients times the monomials is the expression, long symbols
    standing for products. *)
Theorem c54_const_coeff SY : sympy_ok SY -> forall nm e x_size v,
  numbered nm -> nth_error (nm_list nm) 0 = Some VOne ->
  (forall s, In s (free e) -> In (VStr s) (nm_list nm)) ->
  const_coeff_expr SY e (nm_idx nm) x_size = Ok v ->
  List.length v = x_size /\ (forall j, List.length (nm_list nm) <= j -> Q2R (nth j v 0%Q) = 0%R) /\
  forall r, rsum (List.length (nm_list nm)) (fun j => (Q2R (nth j v 0%Q) * vname_val r (nth j (nm_list nm) VOne))%R) = ev (long r) e.
Proof. intros OK nm e x_size v HN H1 Hk H. destruct (const_coeff_ok nm HN OK H1 e x_size v H Hk) as (A & _ & B & C). exact (conj A (conj B C)). Qed.
Print Assumptions c54_const_coeff.
Theorem c54_const_coeff_total SY : sympy_ok SY -> forall nm e x_size,
  numbered nm -> nth_error (nm_list nm) 0 = Some VOne ->
  (forall s, In s (free e) -> In (VStr s) (nm_list nm)) -> check_linear_expression SY e = true -> List.length (nm_list nm) <= x_size ->
  exists v, const_coeff_expr SY e (nm_idx nm) x_size = Ok v.
Proof. intros OK nm e x_size HN H1 Hk Hl Hx. exact (const_coeff_total nm HN OK H1 e x_size Hl Hk Hx). Qed.
Print Assumptions c54_const_coeff_total.
Theorem c54_linear_matrix SY : sympy_ok SY -> forall nm l A,
  numbered nm -> nth_error (nm_list nm) 0 = Some VOne ->
  linear_matrix_expr_to_coeff_matrix SY l (nm_idx nm) = Ok A ->
  cm_rows A = List.length l /\ cm_cols A = List.length (nm_list nm) /\
  forall k e, nth_error l k = Some e -> forall r, row_times r (nm_list nm) A k = ev (long r) e.
Proof.
  intros OK nm l A HN H1 H. unfold linear_matrix_expr_to_coeff_matrix in H.
  destruct (lin_rows_ok nm HN OK H1 l 0 _ A H) as (A1 & A2 & _ & A4); [cbn; apply numbered_len, HN|intros; cbn; apply Q2R_0'|].
  split; [exact A1|]. split; [exact A2|]. intros k e He r. unfold row_times. rewrite A2. exact (A4 k e He r).
Qed.
Print Assumptions c54_linear_matrix.
Theorem c54_linear_matrix_total SY : sympy_ok SY -> forall nm l,
  numbered nm -> nth_error (nm_list nm) 0 = Some VOne ->
  (forall e, In e l -> check_linear_expression SY e = true /\ forall s, In s (free e) -> In (VStr s) (nm_list nm)) ->
  exists A, linear_matrix_expr_to_coeff_matrix SY l (nm_idx nm) = Ok A.
Proof.
  intros OK nm l HN H1 H. unfold linear_matrix_expr_to_coeff_matrix. apply (lin_rows_total nm HN OK H1); [cbn; apply numbered_len, HN|cbn; lia|exact H].
Qed.
Print Assumptions c54_linear_matrix_total.
Definition c54_names : names := init_names ["a"; "b"].
Definition c54_expr : sexpr := Add (Num 3) (Add (Mul (Num 2) (Sym "b")) (Sym "a")).
Example c54_case : numbered c54_names /\ nth_error (nm_list c54_names) 0 = Some VOne /\
  (forall s, In s (free c54_expr) -> In (VStr s) (nm_list c54_names)) /\ check_linear_expression sympy0 c54_expr = true /\
  exists v, const_coeff_expr sympy0 c54_expr (nm_idx c54_names) 4 = Ok v /\ Forall2 Qeq v [3; 1; 2; 0]%Q.
Proof.
  split; [apply numbered_init; repeat constructor; simpl; intuition discriminate|]. split; [reflexivity|]. split; [simpl; intros s Hs; intuition (subst; auto)|].
  split; [vm_compute; reflexivity|]. eexists. split; [vm_compute; reflexivity|]. repeat constructor.
Qed.
(** With an unknown variable after a known one, the coefficient of the known
    one is silently overwritten: a + 2 b with only "a" known gives (0, 2). *)
Theorem c54_unknown_refuted : exists nm e v r, numbered nm /\ nth_error (nm_list nm) 0 = Some VOne /\
  const_coeff_expr sympy0 e (nm_idx nm) (List.length (nm_list nm)) = Ok v /\
  rsum (List.length (nm_list nm)) (fun j => (Q2R (nth j v 0%Q) * vname_val r (nth j (nm_list nm) VOne))%R) <> ev (long r) e.
Proof.
  exists (init_names ["a"]), (Add (Sym "a") (Mul (Num 2) (Sym "b"))). eexists. exists (fun s => if String.eqb s "a" then 1%R else 0%R).
  split; [apply numbered_init; repeat constructor; simpl; intuition discriminate|]. split; [reflexivity|]. split; [vm_compute; reflexivity|].
  cbn. unfold long. cbn. unfold Q2R. simpl. lra.
Qed.
Print Assumptions c54_unknown_refuted.

(** ** C55 *)
Local Open Scope R_scope.
Theorem c55_symm_prod_one_hot : forall n i j, (i < n)%nat -> (j < n)%nat -> exists M, symm_prod_one_hot n i j = Ok M /\
  rm_rows M = n /\ rm_cols M = n /\ (forall r c, rm_at M r c = rm_at M c r) /\ forall v, bilinear n (rm_at M) v v = v i * v j.
Proof. exact symm_one_hot. Qed.
Print Assumptions c55_symm_prod_one_hot.
Theorem c55_symm_prod : forall a b, rm_cols a = rm_cols b -> rm_rows a = rm_rows b -> exists M, symm_prod a b = Ok M /\
  rm_rows M = rm_rows a /\ rm_cols M = rm_rows a /\ (forall r c, rm_at M r c = rm_at M c r) /\
  forall v, bilinear (rm_rows a) (rm_at M) v v =
    rsum (rm_cols a) (fun k => rsum (rm_rows a) (fun r => v r * rm_at a r k) * rsum (rm_rows a) (fun r => v r * rm_at b r k)).
Proof. exact symm_prod_form. Qed.
Print Assumptions c55_symm_prod.
Theorem c55_one_hot : forall n i, (i < n)%nat ->
  (rm_rows (one_hot n i) = n /\ rm_cols (one_hot n i) = 1%nat /\ forall v, rsum n (fun r => v r * rm_at (one_hot n i) r 0) = v i) /\
  exists u, one_hot_flat n i = Ok u /\ forall v, rsum n (fun r => v r * u r) = v i.
Proof.
  intros n i H. split.
  - unfold one_hot. cbn [rm_rows rm_cols rm_at]. split; [reflexivity|]. apply Nat.ltb_lt in H as E. rewrite E. split; [reflexivity|]. intros v. rewrite Nat.add_0_r. apply rsum_pick, H.
  - unfold one_hot_flat. apply Nat.ltb_lt in H as E. rewrite E. eexists. split; [reflexivity|]. intros v. apply rsum_pick, H.
Qed.
Print Assumptions c55_one_hot.
Theorem c55_prod_one_hot : forall rows cols i j, (i < rows)%nat -> (j < cols)%nat -> exists E, prod_one_hot rows cols i j = Ok E /\
  rm_rows E = rows /\ rm_cols E = cols /\ forall M : nat -> nat -> R, rsum rows (fun r => rsum cols (fun c => M r c * rm_at E r c)) = M i j.
Proof.
  intros rows cols i j Hi Hj. unfold prod_one_hot. apply Nat.ltb_lt in Hi as Ei. apply Nat.ltb_lt in Hj as Ej. rewrite Ei, Ej. eexists. split; [reflexivity|].
  split; [reflexivity|]. split; [reflexivity|]. intros M. cbn [rm_at]. rewrite <- (rsum_pick rows i (fun r => M r j) Hi). apply rsum_ext. intros r _. unfold upd2.
  destruct (Nat.eqb_spec r i) as [->|Hne]; cbn.
  - rewrite Rmult_1_r. apply (rsum_pick cols j (fun c => M i c) Hj).
  - rewrite Rmult_0_r. apply rsum_zero. intros. ring.
Qed.
Print Assumptions c55_prod_one_hot.
Theorem c55_stack_vectors : forall l mx T, stack_vectors l mx = Ok T -> forall a v, nth_error l a = Some v ->
  (rm_cols v <= mx)%nat /\
  (forall r c, (c < rm_cols v)%nat -> T a r c = rm_at v r c) /\ (forall r c, (rm_cols v <= c)%nat -> T a r c = 0) /\
  forall r x, rsum mx (fun c => T a r c * x c) = rsum (rm_cols v) (fun c => rm_at v r c * x c).
Proof.
  intros [|w l] mx T H a v Hv; [discriminate|]. unfold stack_vectors in H. destruct (stack_from_at _ _ _ _ _ _ H) as [H1 _]. destruct (H1 a v Hv) as (_ & A2 & A3). cbn [Nat.add] in A3.
  assert (B1 : forall r c, (c < rm_cols v)%nat -> T a r c = rm_at v r c) by (intros r c Hc; rewrite A3; apply Nat.ltb_lt in Hc; rewrite Hc; reflexivity).
  assert (B2 : forall r c, (rm_cols v <= c)%nat -> T a r c = 0) by (intros r c Hc; rewrite A3; apply Nat.ltb_ge in Hc; rewrite Hc; reflexivity).
  split; [exact A2|]. split; [exact B1|]. split; [exact B2|]. intros r x. apply rsum_pad; [exact A2| |]; intros c Hc; [rewrite B1 by exact Hc; reflexivity|rewrite B2 by exact Hc; ring].
Qed.
Print Assumptions c55_stack_vectors.
Theorem c55_stack_vectors_total : forall v l mx, (forall w, In w (v :: l) -> rm_rows w = rm_rows v /\ (rm_cols w <= mx)%nat) -> exists T, stack_vectors (v :: l) mx = Ok T.
Proof. intros v l mx H. apply stack_from_total, H. Qed.
Print Assumptions c55_stack_vectors_total.
(** An empty list has no first array. *)
Theorem c55_stack_empty_refuted : exists l mx, stack_vectors l mx = Err IndexError.
Proof. exists [], 3%nat. reflexivity. Qed.
Print Assumptions c55_stack_empty_refuted.
(** Indices out of range: no exception, but the zero matrix. *)
Theorem c55_out_of_range_refuted : exists n i j M, symm_prod_one_hot n i j = Ok M /\ (n <= i)%nat /\ forall r c, rm_at M r c = 0.
Proof.
  exists 2%nat, 2%nat, 3%nat. eexists. split; [reflexivity|]. split; [lia|]. intros r c. cbn. lra.
Qed.
Print Assumptions c55_out_of_range_refuted.
Theorem c55_gp_trace : forall M, gp_trace M = rsum (rm_rows M) (fun i => rm_at M i i).
Proof.
  intros M. unfold gp_trace. rewrite <- lsum_seq. assert (G : forall l acc, fold_left (fun tr i => tr + rm_at M i i) l acc = acc + lsum (fun i => rm_at M i i) l).
  { induction l as [|i l IH]; intros acc; cbn [fold_left]; [unfold lsum; cbn; lra|]. rewrite IH, lsum_cons. lra. }
  rewrite G. lra.
Qed.
Print Assumptions c55_gp_trace.
Example c55_case : exists T, stack_vectors [one_hot 3 1; mkRM 3 2 (fun r c => INR (r + c))] 4 = Ok T /\ T 1%nat 2%nat 1%nat = INR 3 /\ T 1%nat 2%nat 2%nat = 0.
Proof. eexists. split; [reflexivity|]. split; reflexivity. Qed.

(** ** C56 *)
Theorem c56_split : forall eigh argsort n A, eigendecomposition n A (fst (eigh A)) (snd (eigh A)) -> sorts n (fst (eigh A)) (argsort n (fst (eigh A))) ->
  let AP := fst (matrix_to_diff_psd eigh argsort n A) in let AM := snd (matrix_to_diff_psd eigh argsort n A) in
  (forall i j, (i < n)%nat -> (j < n)%nat -> AP i j - AM i j = A i j) /\ psd n AP /\ psd n AM /\
  (forall i j, (i < n)%nat -> (j < n)%nat -> rsum n (fun k => AP i k * AM k j) = 0).
Proof. exact split_ok. Qed.
Print Assumptions c56_split.
Theorem c56_clip : forall eigh n A, eigendecomposition n A (fst (eigh A)) (snd (eigh A)) -> forall eps, 0 <= eps ->
  psd n (clip_eigenvalues eigh n eps A) /\
  (forall x, eps * rsum n (fun i => x i * x i) <= bilinear n (clip_eigenvalues eigh n eps A) x x) /\
  ((forall k, (k < n)%nat -> eps <= fst (eigh A) k) -> forall i j, (i < n)%nat -> (j < n)%nat -> clip_eigenvalues eigh n eps A i j = A i j).
Proof. intros eigh n A H eps He. exact (clip_ok eigh n A H eps He). Qed.
Print Assumptions c56_clip.
(** diag(2, -1, 3): the eigenvalues come unsorted, and both parts are nonzero. *)
Definition c56_A (i j : nat) : R := if Nat.eqb i j then nth i [2; -1; 3] 0 else 0.
Definition c56_eigh (_ : nat -> nat -> R) : (nat -> R) * (nat -> nat -> R) := ((fun k => nth k [2; -1; 3] 0), fun r k => if Nat.eqb r k then 1 else 0).
Definition c56_sort (_ : nat) (_ : nat -> R) (k : nat) : nat := nth k [1; 0; 2]%nat 0%nat.
Example c56_case : eigendecomposition 3 c56_A (fst (c56_eigh c56_A)) (snd (c56_eigh c56_A)) /\ sorts 3 (fst (c56_eigh c56_A)) (c56_sort 3 (fst (c56_eigh c56_A))).
Proof.
  split; [split; [|split]|split].
  - intros [|[|[|r]]] [|[|[|c]]] Hr Hc; try lia; unfold c56_A; simpl; lra.
  - intros [|[|[|r]]] [|[|[|c]]] Hr Hc; try lia; simpl; lra.
  - intros [|[|[|r]]] [|[|[|c]]] Hr Hc; try lia; simpl; lra.
  - simpl. apply perm_swap.
  - intros [|[|[|i]]] [|[|[|j]]] H1 H2; try lia; simpl; lra.
Qed.

(** ** C57 *)
Theorem c57_grid_search : forall (P : Type) (f : P -> list R) l start stop p, grid_search f l start stop = Ok p ->
  exists l1 l2, l = (l1 ++ p :: l2)%list /\
    (forall q, In q l1 -> window_mean start stop (f p) < window_mean start stop (f q)) /\
    (forall q, In q l2 -> window_mean start stop (f p) <= window_mean start stop (f q)).
Proof.
  intros P f l start stop p H. unfold grid_search in H. destruct (Nat.eq_dec start stop) as [->|Hne].
  - exfalso. destruct l as [|q l]; cbn in H; [discriminate|]. rewrite Nat.eqb_refl in H. discriminate.
  - destruct (grid_loop_spec f start stop Hne l [] None eq_refl) as ([[b q]|] & E & S); rewrite E in H; cbn in H; [|discriminate].
    injection H as <-. destruct S as (l1 & l2 & E1 & _ & H1 & H2). exists l1, l2. auto.
Qed.
Print Assumptions c57_grid_search.
Theorem c57_grid_errors : forall (P : Type) (f : P -> list R) l start stop,
  (l = [] -> grid_search f l start stop = Err UnboundLocalError) /\
  (l <> [] -> start = stop -> grid_search f l start stop = Err ZeroDivisionError) /\
  (l <> [] -> start <> stop -> exists p, grid_search f l start stop = Ok p).
Proof.
  intros P f l start stop. split; [intros ->; reflexivity|]. split.
  - intros Hl ->. destruct l as [|q l]; [contradiction|]. unfold grid_search. cbn. rewrite Nat.eqb_refl. reflexivity.
  - intros Hl Hne. unfold grid_search. destruct (grid_loop_spec f start stop Hne l [] None eq_refl) as ([[b q]|] & E & S); rewrite E; cbn; [eauto|].
    cbn in S. contradiction.
Qed.
Print Assumptions c57_grid_errors.
(** The sum is divided by the length of the window even if the run was
    shorter: a short run with a larger error at every step wins. *)
Theorem c57_short_run_refuted : exists (f : bool -> list R) start stop, grid_search f [true; false] start stop = Ok true /\
  (forall k, (k < List.length (f true))%nat -> nth k (f false) 0 < nth k (f true) 0).
Proof.
  exists (fun b : bool => if b then [3] else [2; 2]), 0%nat, 2%nat. split.
  - unfold grid_search. cbn [grid_loop Nat.eqb]. rewrite !window_val. unfold window_mean. cbn [bindr].
    match goal with |- context [Rlt_dec ?a ?b] => destruct (Rlt_dec a b) as [H|H]; [exfalso; simpl in H; lra|reflexivity] end.
  - intros k Hk. destruct k as [|k]; simpl in *; [lra|lia].
Qed.
Print Assumptions c57_short_run_refuted.
Example c57_case : exists p, grid_search (fun p : nat => [INR p; 1]) [3; 1; 2]%nat 0 2 = Ok p /\ p = 1%nat.
Proof.
  destruct (c57_grid_errors nat (fun p : nat => [INR p; 1]) [3; 1; 2]%nat 0 2) as (_ & _ & H). destruct H as [p Hp]; [discriminate|discriminate|].
  exists p. split; [exact Hp|]. destruct (c57_grid_search _ _ _ _ _ _ Hp) as (l1 & l2 & E & H1 & H2).
  destruct l1 as [|a l1]; [|destruct l1 as [|b l1]; [|destruct l1 as [|c l1]; [|destruct l1]]]; cbn in E; injection E; intros; subst; try discriminate; try reflexivity.
  - exfalso. specialize (H2 1%nat ltac:(simpl; auto)). unfold window_mean in H2. simpl in H2. lra.
  - exfalso. specialize (H1 1%nat ltac:(simpl; auto)). unfold window_mean in H1. simpl in H1. lra.
Qed.

(** ** C58 *)
(** The comparison used by the repository's tests: expressions that agree
    (long symbols standing for products) are reported equal; expressions
    reported equal differ by a polynomial with coefficients of at most 1e-8, or
    are both constant and agree within numpy's tolerance. *)
Theorem c58_equal_complete SY : sympy_ok SY -> forall e1 e2, (forall r, ev (long r) e1 = ev (long r) e2) -> equal_expression SY e1 e2 = Ok true.
Proof. intros OK e1 e2. exact (equal_complete OK e1 e2). Qed.
Print Assumptions c58_equal_complete.
Theorem c58_equal_sound SY : sympy_ok SY -> forall e1 e2, equal_expression SY e1 e2 = Ok true ->
  (exists P, NoDup (p_gens P) /\ NoDup (map fst (p_terms P)) /\
    (forall t, In t (p_terms P) -> List.length (fst t) = List.length (p_gens P) /\ Rabs (Q2R (snd t)) <= / 100000000) /\
    forall r, poly_val r P = ev (long r) e1 - ev (long r) e2) \/
  (exists a b, Rabs (a - b) <= / 100000000 + / 100000 * Rabs b /\ forall r, ev (long r) e1 = a /\ ev (long r) e2 = b).
Proof. intros OK e1 e2. exact (equal_sound OK e1 e2). Qed.
Print Assumptions c58_equal_sound.
Example c58_case : equal_expression sympy0 (Sym "a_b") (Mul (Sym "b") (Sym "a")) = Ok true /\
  equal_expression sympy0 (Sym "a_b") (Mul (Sym "a") (Sym "a")) = Ok false.
Proof. split; vm_compute; reflexivity. Qed.
