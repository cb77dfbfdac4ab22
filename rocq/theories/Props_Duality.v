(** C63: no valid rate is missed.  Where the constraints of the problem have a
    strictly feasible point, the programs handed to the solvers are feasible at
    exactly the parameter values for which the metric is never positive, for
    all functions of the declared classes, in all dimensions. *)
From Coq Require Import List Arith Bool String QArith Reals Qreals Lra Lia FunctionalExtensionality.
From Verif Require Import Prelude PreludeFacts Sympy SympyFacts AlgebraModel Denote FunctionModel CircuitModel SymSpec
  Spec ClassSpec CertSpec StateSpec SessionModel StateFacts CertFacts ParsingModel ParsingSpec SolverModel SolverSpec SdpModel SdpSpec
  ExtraSpec BuilderModel BuilderSpec BuildsSpec BuilderUse DualitySpec DualityFacts DualityProps DualityExamples Props_Builders.
Import ListNotations.
Local Open Scope R_scope.

(** ** C63: a dual certificate exists if and only if the metric is never positive. *)
Theorem c63_certificate_exact SY : sympy_ok SY ->
  forall l p sr s' m r v0, let se := run SY session0 l in let s := se_st se in
    pr_cons p = pr_cons (se_pb se) -> pr_metric p = pr_metric (se_pb se) ->
    Forall good_param (pr_params p) -> declared p s -> constant_free p s ->
    symbolic SY p s = (Ok sr, s') -> pr_metric p = Some m ->
    v_env v0 = r -> strictly_feasible v0 p s ->
    (certified p s sr r <-> metric_nonpos r p s m).
Proof.
  intros OK l p sr s' m r v0 se s E1 E2 Hg Hd Hcf HS Em Hv Hst. assert (SI := reachable_inv SY l). fold se in SI.
  assert (HB : own_pb s p) by (unfold own_pb; rewrite E1, E2; apply (si_pb _ SI)).
  exact (certified_iff OK s p (si_inv _ SI) HB Hg Hd Hcf sr s' m r v0 HS Em Hv Hst).
Qed.
Print Assumptions c63_certificate_exact.

(** solve_fix_discr_sdp is feasible if and only if the metric is never positive. *)
Theorem c63_fix_sdp_exact SY : sympy_ok SY ->
  forall l p ps sr d s' m r v0, let se := run SY session0 l in let s := se_st se in
    pr_cons p = pr_cons (se_pb se) -> pr_metric p = pr_metric (se_pb se) -> NoDup (pr_params p) ->
    Forall good_param (pr_params p) -> declared p s -> constant_free p s ->
    fix_discr_sdp SY p ps s = (Ok (sr, d), s') -> (forall x q, In (x, q) ps -> r x = Q2R q) -> pr_metric p = Some m ->
    v_env v0 = r -> strictly_feasible v0 p s ->
    ((exists a, sdp_feasible d a) <-> metric_nonpos r p s m).
Proof.
  intros OK l p ps sr d s' m r v0 se s E1 E2 Nd Hg Hd Hcf HS Hr Em Hv Hst. assert (SI := reachable_inv SY l). fold se in SI.
  assert (HB : own_pb s p) by (unfold own_pb; rewrite E1, E2; apply (si_pb _ SI)).
  exact (fix_sdp_exact OK s p (si_inv _ SI) HB Nd Hg Hd Hcf ps sr d s' m r v0 HS Hr Em Hv Hst).
Qed.
Print Assumptions c63_fix_sdp_exact.

(** solve_ipopt can return the parameter values [r] (which meet the side
    conditions it imposes) if and only if the metric is never positive. *)
Theorem c63_ipopt_exact SY : sympy_ok SY ->
  forall l p b n s' m r v0, let se := run SY session0 l in let s := se_st se in
    pr_cons p = pr_cons (se_pb se) -> pr_metric p = pr_metric (se_pb se) -> NoDup (pr_params p) ->
    Forall good_param (pr_params p) -> declared p s -> constant_free p s ->
    (forall x, In x ["eta"; "h"; "rho"]%string -> In x (pr_params p)) -> recips_declared (pr_params p) ->
    ipopt_nlp SY p b s = (Ok n, s') -> pr_metric p = Some m ->
    side_ok p b r -> v_env v0 = r -> strictly_feasible v0 p s ->
    (accepts n (pr_params p) r <-> metric_nonpos r p s m).
Proof.
  intros OK l p b n s' m r v0 se s E1 E2 Nd Hg Hd Hcf H3 Hr HS Em Hs Hv Hst. assert (SI := reachable_inv SY l). fold se in SI.
  assert (HB : own_pb s p) by (unfold own_pb; rewrite E1, E2; apply (si_pb _ SI)).
  exact (ipopt_exact OK s p (si_inv _ SI) HB Nd Hg Hd Hcf b n s' m r v0 HS H3 Hr Hs Em Hv Hst).
Qed.
Print Assumptions c63_ipopt_exact.

(** Hence a global solution of the program has the best objective among all
    parameter values that give a valid bound and meet the side conditions. *)
Theorem c63_ipopt_best SY : sympy_ok SY ->
  forall l p b n s' m a e r0 r v0, let se := run SY session0 l in let s := se_st se in
    pr_cons p = pr_cons (se_pb se) -> pr_metric p = pr_metric (se_pb se) -> NoDup (pr_params p) ->
    Forall good_param (pr_params p) -> declared p s -> constant_free p s ->
    (forall x, In x ["eta"; "h"; "rho"]%string -> In x (pr_params p)) -> recips_declared (pr_params p) ->
    ipopt_nlp SY p b s = (Ok n, s') -> pr_metric p = Some m ->
    pr_obj p = Some e -> only_params (pr_params p) (fun x => In x (free e)) ->
    feasible (nlp_opti n) a -> (forall a', feasible (nlp_opti n) a' -> ceval a (nlp_obj n) <= ceval a' (nlp_obj n)) ->
    (forall x q, In (x, q) (dict_parameters (nlp_opti n) a (pr_params p)) -> r0 x = q) ->
    side_ok p b r -> v_env v0 = r -> strictly_feasible v0 p s -> metric_nonpos r p s m -> ev r e <= ev r0 e.
Proof.
  intros OK l p b n s' m a e r0 r v0 se s E1 E2 Nd Hg Hd Hcf H3 Hr HS Em Eo Ho Ha Hm Hr0 Hs Hv Hst Hp. assert (SI := reachable_inv SY l). fold se in SI.
  assert (HB : own_pb s p) by (unfold own_pb; rewrite E1, E2; apply (si_pb _ SI)).
  exact (ipopt_best OK s p (si_inv _ SI) HB Nd Hg Hd Hcf b n s' m a e r0 r v0 HS H3 Hr Em Eo Ho Ha Hm Hr0 Hs Hv Hst Hp).
Qed.
Print Assumptions c63_ipopt_best.

(** For every builder: the solvers accept the parameters of a method exactly
    when the bound holds for all its runs. *)
Theorem c63_builder_exact SY : sympy_ok SY -> forall k s0 params A, builds k s0 params A -> NoDup params ->
  forall p s, k s0 = (Ok p, s) -> forall r v0, v_env v0 = r -> strictly_feasible v0 p s ->
  (forall ps sr dp s', fix_discr_sdp SY p ps s = (Ok (sr, dp), s') -> (forall x q, In (x, q) ps -> r x = Q2R q) ->
     ((exists a, sdp_feasible dp a) <-> (forall d q, A d r q -> q <= 0))) /\
  (forall b n s', ipopt_nlp SY p b s = (Ok n, s') ->
     (forall x, In x ["eta"; "h"; "rho"]%string -> In x params) -> recips_declared params -> side_ok p b r ->
     (accepts n params r <-> (forall d q, A d r q -> q <= 0))).
Proof.
  intros OK k s0 params A HB Nd p s Hk r v0 Hv Hst. split.
  - intros ps sr dp s' H Hr. exact (builder_sdp_exact OK k s0 params A HB Nd p s Hk ps sr dp s' r v0 H Hr Hv Hst).
  - intros b n s' H H3 Hr Hs. exact (builder_ipopt_exact OK k s0 params A HB Nd p s Hk b n s' r v0 H H3 Hr Hs Hv Hst).
Qed.
Print Assumptions c63_builder_exact.

(** Gradient flow with mu = 0, L = 1, C = 1: the strictly feasible point exists
    for all step sizes and coefficients except h = 0, alpha = 0 and
    alpha = beta = 1 (where two recorded points always coincide), so solve_ipopt
    accepts such a discretisation exactly when it is a valid descent. *)
Lemma default_recips : recips_declared default_params.
Proof. intros x Hx. vm_compute in Hx. destruct Hx. Qed.
Lemma default_nodup : NoDup default_params.
Proof. repeat constructor; intros H; vm_compute in H; intuition discriminate. Qed.
Example c63_gradient_flow : forall p s n s' r,
  gradient_flow_circuit sympy0 None 0 (Fin 1) 1 (se_st (run sympy0 session0 [])) = (Ok p, s) ->
  ipopt_nlp sympy0 p None s = (Ok n, s') ->
  r "h"%string <> 0 -> r "alpha"%string <> 0 -> ~ (r "alpha"%string = 1 /\ r "beta"%string = 1) ->
  0 <= r "eta"%string -> 0 <= r "rho"%string -> 0 <= r "h"%string ->
  (accepts n default_params r <->
   forall d q, gradient_flow_run d 0 (Fin 1) (Q2R 1) (r "h"%string) (r "alpha"%string) (r "beta"%string) (r "eta"%string) q -> q <= 0).
Proof.
  intros p s n s' r Hk Hn Hh Ha Hb H1 H2 H3. destruct (gf_strict r p s Hk Hh Ha Hb) as (v0 & Hv & Hst).
  assert (HB := c44_gradient_flow_builder sympy0 sympy0_ok [] 0 (Fin 1) 1 ltac:(apply c44_case) ltac:(apply c44_case)).
  refine (proj2 (c63_builder_exact sympy0 sympy0_ok _ _ _ _ HB default_nodup p s Hk r v0 Hv Hst) None n s' Hn _ default_recips _).
  - intros x Hx. vm_compute in Hx. vm_compute. tauto.
  - destruct (built _ _ _ _ HB p s Hk) as (_ & E & _). split; [|split; [exact I|auto]].
    rewrite E. intros x Hx. vm_compute in Hx. destruct Hx.
Qed.
(** Such a valid choice: h = 1, alpha = 1/2, beta = 1, eta = 1 (gradient descent
    with an unused extra gradient).  That solve_ipopt accepts it is derived from
    the bound alone. *)
Definition gf_half (x : string) : R := if String.eqb x "alpha" then 1 / 2 else gf_env x.
Example c63_accepted : exists p s n s',
  gradient_flow_circuit sympy0 None 0 (Fin 1) 1 (se_st (run sympy0 session0 [])) = (Ok p, s) /\
  ipopt_nlp sympy0 p None s = (Ok n, s') /\ (exists v0, v_env v0 = gf_half /\ strictly_feasible v0 p s) /\
  accepts n default_params gf_half.
Proof.
  destruct c44_feasible as (p & s & n & s' & Hk & Hn & Hf & Hr). exists p, s, n, s'. split; [exact Hk|]. split; [exact Hn|].
  assert (A1 : gf_half "h" = 1) by reflexivity. assert (A2 : gf_half "alpha" = 1 / 2) by reflexivity. assert (A3 : gf_half "beta" = 1) by reflexivity.
  assert (A4 : gf_half "eta" = 1) by reflexivity. assert (A5 : gf_half "rho" = 0) by reflexivity.
  split; [apply gf_strict; rewrite ?A1, ?A2; try assumption; lra|].
  apply (c63_gradient_flow p s n s'); rewrite ?A1, ?A2, ?A3, ?A4, ?A5; try assumption; try lra.
  intros d q (phi & Hc & xs & fs & Hxs & Qs & x1 & Hx1 & y1 & f1 & Q1 & y15 & f15 & Q15 & y2 & f2 & Q2 & ->).
  assert (HB := c44_gradient_flow_builder sympy0 sympy0_ok [] 0 (Fin 1) 1 ltac:(apply c44_case) ltac:(apply c44_case)).
  apply (ipopt_value sympy0_ok _ _ _ _ HB p s Hk None n s' gf_assign gf_env Hn Hf Hr d).
  exists phi. split; [exact Hc|]. exists xs, fs. split; [exact Hxs|]. split; [exact Qs|]. exists x1. split; [exact Hx1|].
  exists y1, f1. split; [exact Q1|]. exists y1, f1. split.
  { replace (vsub x1 (vscal (gf_env "alpha" * gf_env "h" / Q2R 1) y1)) with x1; [exact Q1|].
    apply functional_extensionality. intros k. unfold vsub, vscal, gf_env; simpl. unfold Rdiv. ring. }
  assert (EX : vsub (vsub x1 (vscal (1 * 1 / Q2R 1) y1)) (vscal ((1 - 1) * 1 / Q2R 1) y15) =
    vsub (vsub x1 (vscal (gf_env "beta" * gf_env "h" / Q2R 1) y1)) (vscal ((1 - gf_env "beta") * gf_env "h" / Q2R 1) y1)).
  { apply functional_extensionality. intros k. unfold vsub, vscal, gf_env; simpl. unfold Rdiv. ring. }
  exists y2, f2. rewrite <- EX. split; [exact Q2|]. reflexivity.
Qed.

Lemma dot_self_zero k (u : vec) : dot k u u = 0 -> forall c, (c < k)%nat -> u c = 0.
Proof.
  induction k as [|k IH]; intros H c Hc; [lia|]. unfold dot in H. simpl in H.
  assert (A : 0 <= rsum k (fun c => u c * u c)) by (apply rsum_nonneg; intros; apply Rle_0_sqr).
  assert (B := Rle_0_sqr (u k)). unfold Rsqr in B. assert (u k * u k = 0) by lra.
  destruct (Nat.eq_dec c k) as [->|N]; [apply Rsqr_0_uniq; assumption|]. apply IH; [unfold dot; lra|lia].
Qed.
(** Without a strictly feasible point valid bounds can be missed.  With the
    constraint |x|^2 = 0, the way the builders identify points, the metric
    <x, y> is 0 for all data, but no certificate exists. *)
Definition square_prog : list op :=
  [ONewProblem; OPoint; OPoint; OPPow 0 2; OPMul 0 1; OConstraint 0 "equality"; OMetric 1].
Definition square_entries : res (list (skey * sexpr * sexpr)) := Eval vm_compute in
  match fst (symbolic sympy0 (se_pb (run sympy0 session0 square_prog)) (se_st (run sympy0 session0 square_prog))) with
  | Ok sr => Ok ((SObj, wG (sr_sum sr) 0%nat 1%nat, wG (sr_sum sr) 1%nat 1%nat) :: map (fun kw => (fst kw, wG (snd kw) 0%nat 1%nat, wG (snd kw) 1%nat 1%nat)) (sr_exp sr))
  | Err e => Err e end.
Theorem c63_without_strict_point_refuted : exists l sr s' m r, let se := run sympy0 session0 l in let s := se_st se in let p := se_pb se in
  NoDup (pr_params p) /\ Forall good_param (pr_params p) /\ declared p s /\ constant_free p s /\
  symbolic sympy0 p s = (Ok sr, s') /\ pr_metric p = Some m /\
  metric_nonpos r p s m /\ ~ certified p s sr r.
Proof.
  set (se := run sympy0 session0 square_prog).
  destruct (symbolic sympy0 (se_pb se) (se_st se)) as [[sr|] s'] eqn:Es; [|vm_compute in Es; discriminate Es].
  destruct (pr_metric (se_pb se)) as [m|] eqn:Em; [|vm_compute in Em; discriminate Em].
  exists square_prog, sr, s', m, (fun _ => 0). cbv zeta. fold se.
  split; [exact default_nodup|]. split; [exact BuilderProof.default_good|].
  split; [|split; [|split; [exact Es|split; [exact Em|split]]]].
  - split; [|split].
    + intros m' Hm x (kv & Hkv & Hx). rewrite Em in Hm. injection Hm as <-. vm_compute in Em. injection Em as <-.
      simpl in Hkv. repeat (destruct Hkv as [<-|Hkv]; [destruct Hx|]). destruct Hkv.
    + intros c Hc x (kv & Hkv & Hx). vm_compute in Hc. destruct Hc as [<-|[]].
      simpl in Hkv. repeat (destruct Hkv as [<-|Hkv]; [destruct Hx|]). destruct Hkv.
    + intros f fn t Hf. vm_compute in Hf. destruct Hf.
  - split; [|split].
    + intros m' Hm w r Hw. rewrite Em in Hm. injection Hm as <-. vm_compute in Em. injection Em as <-. simpl in Hw.
      repeat (destruct Hw as [Hw|Hw]; [discriminate Hw|]). destruct Hw.
    + apply Forall_forall. intros c Hc w r Hw. vm_compute in Hc. destruct Hc as [<-|[]]. simpl in Hw.
      repeat (destruct Hw as [Hw|Hw]; [discriminate Hw|]). destruct Hw.
    + intros f fn Hf. vm_compute in Hf. destruct Hf.
  - intros v phi _ _ Hh. set (x := mkLeaf 0 0). set (y := mkLeaf 1 1).
    assert (Dm : ex_dict m = [(KG x y, Num 1)]) by (vm_compute in Em; injection Em as <-; reflexivity).
    assert (Dc : exists c, In c (pr_cons (se_pb se)) /\ c_kind c = Equality /\ ex_dict (c_expr c) = [(KG x x, Num 1)]).
    { eexists. split; [vm_compute; left; reflexivity|]. split; reflexivity. }
    destruct Dc as (c & Hc & Kc & Dc). specialize (Hh c Hc). rewrite Kc in Hh.
    unfold den_e, den_ed in *. rewrite Dc in Hh. rewrite Dm. simpl in Hh |- *.
    assert (Q1 : Q2R 1 = 1) by (unfold Q2R; simpl; lra). rewrite Q1 in *.
    assert (N : nsq (v_dim v) (v_pt v x) = 0) by (unfold nsq; lra). replace (dot (v_dim v) (v_pt v x) (v_pt v y)) with 0; [lra|].
    symmetry. apply rsum_zero. intros c0 Hc0. rewrite (dot_self_zero _ _ N c0 Hc0). ring.
  - intros (r1 & w & k & P & Hw & _ & [_ _ HG]).
    assert (B : Ok ((SObj, wG (sr_sum sr) 0%nat 1%nat, wG (sr_sum sr) 1%nat 1%nat) :: map (fun kw => (fst kw, wG (snd kw) 0%nat 1%nat, wG (snd kw) 1%nat 1%nat)) (sr_exp sr)) = square_entries).
    { transitivity (match fst (symbolic sympy0 (se_pb se) (se_st se)) with
        | Ok sr => Ok ((SObj, wG (sr_sum sr) 0%nat 1%nat, wG (sr_sum sr) 1%nat 1%nat) :: map (fun kw => (fst kw, wG (snd kw) 0%nat 1%nat, wG (snd kw) 1%nat 1%nat)) (sr_exp sr))
        | Err e => Err e end); [rewrite Es; reflexivity|vm_compute; reflexivity]. }
    injection B as B1 B2 B3. assert (G := in_map (fun kw => (fst kw, wG (snd kw) 0%nat 1%nat, wG (snd kw) 1%nat 1%nat)) _ _ Hw).
    rewrite B3 in G. cbn [fst snd] in G. destruct G as [G|[G|[]]]; [discriminate G|]. injection G as G1 G2.
    assert (E11 := HG 1%nat 1%nat ltac:(vm_compute; lia) ltac:(vm_compute; lia)).
    assert (E01 := HG 0%nat 1%nat ltac:(vm_compute; lia) ltac:(vm_compute; lia)).
    rewrite B1, <- G1 in E01. rewrite B2, <- G2 in E11. simpl in E01, E11. unfold Q2R in E01, E11; simpl in E01, E11.
    assert (Z : forall c, (c < k)%nat -> P 1%nat c = 0).
    { intros c Hc. assert (S0 : rsum k (fun c => P 1%nat c * P 1%nat c) = 0) by lra.
      apply (dot_self_zero k (P 1%nat) S0 c Hc). }
    rewrite (rsum_zero k) in E01; [lra|]. intros c Hc. rewrite (Z c Hc). ring.
Qed.
Print Assumptions c63_without_strict_point_refuted.
