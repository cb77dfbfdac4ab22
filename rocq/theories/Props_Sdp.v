(** C26, C36, C41-C43: the semidefinite problems for fixed parameters, the
    bisection over eta, the relaxation, solve_gp, and [solve] itself. *)
From Coq Require Import List Arith Bool String Ascii QArith Reals Qreals Lra Lia Permutation.
From Verif Require Import Prelude PreludeFacts Sympy SympyFacts AlgebraModel Denote FunctionModel CircuitModel
  SymSpec Spec ClassSpec CertSpec StateSpec SessionModel StateFacts CertFacts Examples
  ParsingModel ParsingSpec ParsingFacts CoeffFacts SolverModel SolverSpec SolverFacts IpoptFacts IpoptTail IpoptProof IpoptComplete
  MatFacts SolverProps Props_Solver QcqpModel QcqpSpec QcqpFacts QcqpFacts2 QcqpBuild QcqpProof QcqpMain Props_Qcqp
  SdpModel SdpSpec SdpFacts SdpRelax ExtraModel ExtraSpec ExtraFacts CheckFacts.
Import ListNotations.
Local Open Scope nat_scope.
Local Open Scope string_scope.

(** ** C26 *)
Theorem c26_fix_sdp_sound SY : sympy_ok SY ->
  forall l p params sr d s' a v phi, let se := run SY session0 l in let s := se_st se in
    pr_cons p = pr_cons (se_pb se) -> pr_metric p = pr_metric (se_pb se) ->
    NoDup (pr_params p) -> Forall good_param (pr_params p) -> declared p s -> constant_free p s ->
    fix_discr_sdp SY p params s = (Ok (sr, d), s') -> sdp_feasible d a ->
    (forall x q, In (x, q) params -> v_env v x = Q2R q) ->
    consistent v phi s -> constraints_hold v p ->
    exists e, pr_metric p = Some e /\ (den_e v e <= 0)%R.
Proof.
  intros OK l p params sr d s' a v phi se s E1 E2 Nd Hg Hd Hcf H Ha Hv Hc Hh. assert (SI := reachable_inv SY l). fold se in SI.
  assert (HB : own_pb s p) by (unfold own_pb; rewrite E1, E2; apply (si_pb _ SI)).
  exact (fix_sound OK p s (si_inv _ SI) Nd Hg Hd params sr d s' a v phi HB H Ha Hv Hc Hh Hcf).
Qed.
Print Assumptions c26_fix_sdp_sound.
(** Feasibility is exactly the existence of a certificate at these parameters. *)
Theorem c26_fix_sdp_exact SY : sympy_ok SY ->
  forall l p params sr d s' r, let s := se_st (run SY session0 l) in
    NoDup (pr_params p) -> Forall good_param (pr_params p) -> declared p s ->
    fix_discr_sdp SY p params s = (Ok (sr, d), s') -> (forall x q, In (x, q) params -> r x = Q2R q) ->
    ((exists a, sdp_feasible d a) <-> certified p s sr r).
Proof.
  intros OK l p params sr d s' r s Nd Hg Hd H Hr.
  exact (fix_certified OK p s (si_inv _ (reachable_inv SY l)) Nd Hg Hd params sr d s' r H Hr).
Qed.
Print Assumptions c26_fix_sdp_exact.
(** The problem is built whenever there are at least two constraints; with a
    single one numpy drops an axis and the call fails. *)
Theorem c26_fix_sdp_total SY : sympy_ok SY ->
  forall l p params sr s', let s := se_st (run SY session0 l) in
    NoDup (pr_params p) -> Forall good_param (pr_params p) -> declared p s ->
    symbolic SY p s = (Ok sr, s') -> ssort (map fst params) = pr_params p ->
    ((exists d, fix_discr_sdp SY p params s = (Ok (sr, d), s')) <-> 2 <= sr_I sr + sr_E sr) /\
    (sr_I sr + sr_E sr = 1 -> fix_discr_sdp SY p params s = (Err ValueError, s')).
Proof.
  intros OK l p params sr s' s Nd Hg Hd H Hk. assert (I := si_inv _ (reachable_inv SY l)).
  assert (Km : keys_match params p = true) by (unfold keys_match; destruct (list_eq_dec string_dec _ _); [reflexivity|exfalso; auto]).
  split; [exact (fix_total OK p s I Nd Hg Hd params sr s' H Km)|exact (fix_single OK p s I Nd Hg Hd params sr s' H Km)].
Qed.
Print Assumptions c26_fix_sdp_total.

Definition mono_params : list (string * Q) :=
  [("alpha", 0); ("beta", 0); ("delta", 0); ("eta", 3); ("gamma", 1); ("h", 1); ("rho", 1)]%Q.
Definition mono_sdp : list ccon * list cavar := Eval vm_compute in
  match fix_discr_sdp sympy0 (se_pb (run sympy0 session0 mono_prog)) mono_params (se_st (run sympy0 session0 mono_prog)) with
  | (Ok (_, d), _) => (op_cons (sd_opti d), sd_psd d) | _ => ([], []) end.
Lemma psd_zero n Z : (forall i j, Z i j = 0%R) -> psd n Z.
Proof.
  intros H. split; [intros; rewrite !H; reflexivity|]. intros x. apply Req_le. symmetry.
  apply rsum_zero. intros i Hi. apply rsum_zero. intros j Hj. rewrite H. lra.
Qed.
Lemma mono_consistent v : v_dim v = 1 -> (forall l, v_pt v l = v_pt quad_val l) -> (forall l, v_fv v l = v_fv quad_val l) ->
  consistent v (fun _ => quad) (se_st (run sympy0 session0 mono_prog)).
Proof.
  intros H1 H2 H3 f fn Hf E1 _. vm_compute in Hf. destruct Hf as [<-|[]]. vm_compute in E1. injection E1 as <-.
  split; [exact I|]. split; [exact quad_convex|].
  apply Forall_cons; [|apply Forall_cons; [|apply Forall_nil]]; apply quad_record; try exact H1;
    unfold den_p, den_pd, den_e; simpl; rewrite ?H2, ?H3; simpl; unfold Q2R; simpl; lra.
Qed.
(** metric 3 h^2 (f* - f(x)) at h = 1: multiplier 3 for one constraint *)
Example c26_case : let se := run sympy0 session0 mono_prog in let s := se_st se in let p := se_pb se in
  exists sr d s' a, NoDup (pr_params p) /\ Forall good_param (pr_params p) /\ declared p s /\ constant_free p s /\
    fix_discr_sdp sympy0 p mono_params s = (Ok (sr, d), s') /\ sdp_feasible d a /\
    (forall x q, In (x, q) mono_params -> v_env mono_val x = Q2R q) /\
    consistent mono_val (fun _ => quad) s /\ constraints_hold mono_val p /\
    exists e, pr_metric p = Some e /\ (den_e mono_val e = - (3 / 2))%R.
Proof.
  intros se s p.
  assert (H : match fix_discr_sdp sympy0 p mono_params s with
    | (Ok (_, d), _) => op_cons (sd_opti d) = fst mono_sdp /\ sd_psd d = snd mono_sdp
    | _ => False end) by (vm_compute; split; reflexivity).
  destruct (fix_discr_sdp sympy0 p mono_params s) as [[[sr d]|] s'] eqn:E; [|destruct H]. destruct H as [H1 H2].
  exists sr, d, s', (fun i => match i with 0 => 3 | _ => 0 end%R). destruct mono_ready as (R1 & R2 & R3 & R4).
  split; [exact R1|]. split; [exact R2|]. split; [exact R3|]. split; [exact R4|]. split; [reflexivity|]. clear E. split.
  { split.
    - unfold feasible. rewrite H1. unfold mono_sdp. cbn [fst]. repeat constructor; simpl; unfold Q2R; simpl; lra.
    - rewrite H2. unfold mono_sdp. cbn [snd]. constructor; [|constructor]. apply psd_zero. intros i j. unfold cv_at. simpl. reflexivity. }
  split.
  { intros x q Hx. repeat (destruct Hx as [Hx|Hx]; [injection Hx as <- <-; unfold Q2R; simpl; lra|]). destruct Hx. }
  split; [apply mono_consistent; intros; reflexivity|].
  split; [intros c Hcc; vm_compute in Hcc; destruct Hcc|]. eexists. split; [vm_compute; reflexivity|]. unfold den_e. simpl. unfold Q2R; simpl. lra.
Qed.

(** ** C36 *)
(** In iteration t the SDP for eta = e was built and reported "optimal". *)
Definition verified (SY : sympy) (p : problem) (s : state) (solver : nat -> sdp -> res string) (params : list (string * Q)) (t : nat) (e : Q) : Prop :=
  exists sr d s', fix_discr_sdp SY p (dset String.eqb "eta" e params) s = (Ok (sr, d), s') /\ solver t d = Ok "optimal".
(** The returned eta is eta0 / 2^k for the first k whose problem was reported
    optimal; if there is none among the first n it is eta0 / 2^n, for which no
    problem was solved. *)
Theorem c36_first_reported SY :
  forall l p solver params n ps q s', let s := se_st (run SY session0 l) in
    NoDup (pr_params p) -> In "eta" (pr_params p) ->
    bisection_eta SY solver p params n s = (Ok (ps, q), s') ->
    exists q0 k f, dget String.eqb "eta" params = Some q0 /\ k <= n /\ q = f k /\ (forall j, Q2R (f j) = Q2R q0 / 2 ^ j)%R /\
      (forall j, j < k -> ~ verified SY p s solver params j (f j)) /\
      ((k < n /\ verified SY p s solver params k q /\ ps = dset String.eqb "eta" q params) \/
       (k = n /\ dget String.eqb "eta" ps = Some (f (n - 1)))).
Proof.
  intros l p solver params n ps q s' s Nd He H. destruct (bisection_unfold _ _ _ _ _ _ _ _ H) as (Km & _).
  destruct (bisection_spec _ _ _ _ _ _ _ _ H) as (inp & k & Hi & Hk & Eq & Hj & Hc).
  assert (Pm := keys_perm p params Km). assert (Hin : In "eta" (map fst params)) by (apply (Permutation_in _ (Permutation_sym Pm) He)).
  assert (Eg : exists q0, dget String.eqb "eta" params = Some q0).
  { clear -Hin. induction params as [|[y w] ps IH]; [destruct Hin|]. cbn [dget]. destruct (String.eqb_spec "eta" y) as [_|Ne]; [eauto|]. apply IH. cbn [map fst In] in Hin. destruct Hin as [E|Hin]; [exfalso; apply Ne; symmetry; exact E|exact Hin]. }
  destruct Eg as [q0 Eg]. assert (E0 : eta0 params = q0) by (unfold eta0; rewrite Eg; reflexivity). rewrite E0 in *.
  assert (Km' : forall e, keys_match (dset String.eqb "eta" e params) p = true).
  { intros e. unfold keys_match in *. rewrite (dset_keys "eta" e params Hin). exact Km. }
  assert (V : forall t e, reported (fix_sdp (st_ectr s) (st_pctr s) inp) solver params t e <-> verified SY p s solver params t e).
  { intros t e. split.
    - intros (d & Hb & Hs). destruct (fix_sdp_same p s _ inp s' Hi d Hb (Km' e)) as (sr & Hf). exists sr, d, s'. split; assumption.
    - intros (sr & d & s1 & Hf & Hs). exists d. split; [|exact Hs]. destruct (fix_unfold _ _ _ _ _ _ Hf) as (_ & Fs & Gs & nm & Hi' & Hb). rewrite Hi in Hi'. injection Hi' as -> _. exact Hb. }
  exists q0, k, (halved q0). split; [exact Eg|]. split; [exact Hk|]. split; [exact Eq|]. split; [intros j; apply halved_val|].
  split; [intros j Hlt Q; apply (Hj j Hlt), V, Q|]. destruct Hc as [(A & B & C)|(A & B)]; [left|right].
  - split; [exact A|]. split; [apply V, B|exact C].
  - split; [exact A|]. rewrite B. destruct n as [|n']; [exact Eg|]. rewrite dget_dset_same by apply String.eqb_eq. do 2 f_equal. lia.
Qed.
Print Assumptions c36_first_reported.
(** If the returned eta is the one stored in the returned parameters, it was
    verified: the metric is non-positive at these parameters. *)
Theorem c36_verified SY : sympy_ok SY ->
  forall l p solver params n ps q s' v phi, let se := run SY session0 l in let s := se_st se in
    pr_cons p = pr_cons (se_pb se) -> pr_metric p = pr_metric (se_pb se) ->
    NoDup (pr_params p) -> Forall good_param (pr_params p) -> declared p s -> constant_free p s ->
    (forall t d, solver t d = Ok "optimal" -> exists a, sdp_feasible d a) ->
    bisection_eta SY solver p params n s = (Ok (ps, q), s') -> 0 < n ->
    ~ (forall q0, dget String.eqb "eta" params = Some q0 -> (q0 == 0)%Q) -> dget String.eqb "eta" ps = Some q ->
    (forall x, In x (pr_params p) -> v_env v x = dict_env ps x) ->
    consistent v phi s -> constraints_hold v p ->
    exists e, pr_metric p = Some e /\ (den_e v e <= 0)%R.
Proof.
  intros OK l p solver params n ps q s' v phi se s E1 E2 Nd Hg Hd Hcf Hs H Hn H0 He Hv Hc Hh. assert (SI := reachable_inv SY l). fold se in SI.
  assert (HB : own_pb s p) by (unfold own_pb; rewrite E1, E2; apply (si_pb _ SI)).
  refine (bisection_sound OK p s (si_inv _ SI) Nd Hg Hd solver params n ps q s' v phi Hs H Hn _ He HB Hv Hc Hh Hcf).
  intros Q. apply H0. intros q0 Eq. unfold eta0 in Q. rewrite Eq in Q. exact Q.
Qed.
Print Assumptions c36_verified.

(** A metric that is positive for every eta > 0: f(x) - f*, scaled by eta.
    Whatever the solver says, bisection returns some eta > 0, and the claim
    "metric <= 0" is false there. *)
Definition bad_prog : list op :=
  [ONewProblem; OConvex; OPoint; OOracle 0 0; OStationary 0; OESub 0 1; OEScale (Sym "eta") 2; OMetric 3].
Lemma bad_inputs : exists inp s', sdp_inputs sympy0 (se_pb (run sympy0 session0 bad_prog)) (se_st (run sympy0 session0 bad_prog)) = (Ok inp, s').
Proof.
  assert (H : match fst (sdp_inputs sympy0 (se_pb (run sympy0 session0 bad_prog)) (se_st (run sympy0 session0 bad_prog))) with Ok _ => True | _ => False end) by (vm_compute; exact I).
  destruct (sdp_inputs _ _ _) as [[inp|] s']; [|destruct H]. exists inp, s'. reflexivity.
Qed.
Theorem c36_exhausted_refuted : forall (solver : nat -> sdp -> res string) (n : nat), let se := run sympy0 session0 bad_prog in let s := se_st se in let p := se_pb se in
  exists ps q s', bisection_eta sympy0 solver p mono_params n s = (Ok (ps, q), s') /\ (0 < Q2R q)%R /\
    exists v phi e, v_env v "eta" = Q2R q /\ consistent v phi s /\ constraints_hold v p /\ pr_metric p = Some e /\ (0 < den_e v e)%R.
Proof.
  intros solver n se s p. destruct bad_inputs as (inp & s' & Hi). fold se s p in Hi.
  assert (Km : keys_match mono_params p = true) by (vm_compute; reflexivity).
  assert (Hb : exists ps q, bisection_eta sympy0 solver p mono_params n s = (Ok (ps, q), s')).
  { unfold bisection_eta. rewrite Km, Hi. destruct (bisect_loop _ _ _ _ _ _) as [ps q]. exists ps, q. reflexivity. }
  destruct Hb as (ps & q & Hb). exists ps, q, s'. split; [exact Hb|].
  destruct (bisection_spec _ _ _ _ _ _ _ _ Hb) as (_ & k & _ & _ & Eq & _). clear Hb Hi.
  assert (Hq : (0 < Q2R q)%R).
  { rewrite Eq, halved_val. change (eta0 mono_params) with 3%Q. apply Rdiv_lt_0_compat; [unfold Q2R; simpl; lra|apply pow_lt; lra]. }
  split; [exact Hq|]. exists (mkVal 1 (v_pt quad_val) (v_fv quad_val) (fun _ => Q2R q)), (fun _ => quad).
  eexists. split; [reflexivity|]. split.
  { intros f fn Hf E1 _. vm_compute in Hf. destruct Hf as [<-|[]]. vm_compute in E1. injection E1 as <-.
    split; [exact I|]. split; [exact quad_convex|].
    apply Forall_cons; [|apply Forall_cons; [|apply Forall_nil]]; apply quad_record; try reflexivity;
      unfold den_p, den_pd, den_e; simpl; unfold Q2R; simpl; lra. }
  split; [intros c Hcc; vm_compute in Hcc; destruct Hcc|]. split; [vm_compute; reflexivity|]. unfold den_e. simpl. generalize dependent (Q2R q). intros z Hz. unfold Q2R. simpl. lra.
Qed.
Print Assumptions c36_exhausted_refuted.
Lemma bisect_first build solver params eta t n d : build (dset String.eqb "eta" eta params) = Ok d -> solver t d = Ok "optimal" ->
  bisect_loop build solver params eta t (S n) = (dset String.eqb "eta" eta params, eta).
Proof. intros H1 H2. cbn [bisect_loop]. rewrite H1. cbn [bindr]. rewrite H2. reflexivity. Qed.
(** The good case: eta = 3 is reported in the first iteration by a solver that
    says "optimal" only for feasible problems. *)
Example c36_case : let se := run sympy0 session0 mono_prog in let s := se_st se in let p := se_pb se in
  exists sr d s' (solver : nat -> sdp -> res string), fix_discr_sdp sympy0 p mono_params s = (Ok (sr, d), s') /\
    (exists a, sdp_feasible d a) /\ solver 0 d = Ok "optimal" /\
    bisection_eta sympy0 solver p mono_params 20 s = (Ok (mono_params, 3%Q), s') /\
    ~ (forall q0, dget String.eqb "eta" mono_params = Some q0 -> (q0 == 0)%Q) /\ dget String.eqb "eta" mono_params = Some 3%Q.
Proof.
  intros se s p. destruct c26_case as (sr & d & s' & a & _ & _ & _ & _ & E & Ha & _). fold se s p in E.
  exists sr, d, s', (fun _ _ => Ok "optimal"). split; [exact E|]. split; [exists a; exact Ha|]. split; [reflexivity|].
  split; [|split; [intros Q; specialize (Q _ eq_refl); discriminate Q|reflexivity]].
  destruct (fix_unfold _ _ _ _ _ _ E) as (Km & Fs & Gs & nm & Hi & Hb). unfold bisection_eta. rewrite Km, Hi.
  rewrite (bisect_first _ _ mono_params _ 0 19 d); [reflexivity|exact Hb|reflexivity].
Qed.

(** ** C41 *)
(** The three Ipopt programs accept the same parameter values, once eta, h,
    rho and gamma are at least 1e-7: exactly the certified ones. *)
Theorem c41_same_parameters SY : sympy_ok SY ->
  forall l p b extra ni si nq sq nx sx r, let s := se_st (run SY session0 l) in
    NoDup (pr_params p) -> Forall good_param (pr_params p) -> declared p s -> recips_declared (pr_params p) ->
    ipopt_nlp SY p b s = (Ok ni, si) -> qcqp_nlp SY p b extra s = (Ok nq, sq) -> qcqp_matrix_nlp SY p b s = (Ok nx, sx) ->
    vec_side_ok true p b r ->
    (accepts ni (pr_params p) r <-> certified p s (nlp_sym ni) r) /\
    (accepts nq (pr_params p) r <-> accepts ni (pr_params p) r) /\
    (accepts nx (pr_params p) r <-> accepts ni (pr_params p) r).
Proof.
  intros OK l p b extra ni si nq sq nx sx r s Nd Hg Hd Hr Hi Hq Hx S. assert (I := si_inv _ (reachable_inv SY l)). fold s in I.
  destruct (c24_qcqp_needs SY OK l p b extra nq sq Nd Hg Hd Hq) as [H4 _].
  assert (Vq := qcqp_prog OK p b s I Nd Hg Hd extra nq sq Hq). assert (Vx := matrix_prog OK p b s I Nd Hg Hd nx sx Hx).
  assert (Es := ipopt_symbolic p b s ni si Hi).
  assert (Eq : nlp_sym nq = nlp_sym ni).
  { destruct Vq as (? & ? & ? & ? & ? & ? & ? & ? & V). assert (Q := vp_sym _ _ _ _ _ _ _ _ _ _ _ _ _ _ V). rewrite Es in Q. injection Q as Q _. symmetry. exact Q. }
  assert (Ex : nlp_sym nx = nlp_sym ni).
  { destruct Vx as (? & ? & ? & ? & ? & ? & ? & ? & V). assert (Q := vp_sym _ _ _ _ _ _ _ _ _ _ _ _ _ _ V). rewrite Es in Q. injection Q as Q _. symmetry. exact Q. }
  assert (T0 : (0 < Q2R tiny)%R) by (unfold tiny, Q2R; simpl; lra).
  assert (Si : side_ok p b r).
  { destruct S as (A & B & C). split; [exact A|]. split; [destruct b as [bl|]; [|exact Logic.I]; intros x ub lb Hin; destruct (B x ub lb Hin) as (B1 & _ & B2); split; assumption|].
    specialize (C eq_refl). assert (C1 := C "eta" ltac:(simpl; tauto)). assert (C2 := C "rho" ltac:(simpl; tauto)). assert (C3 := C "h" ltac:(simpl; tauto)). repeat split; lra. }
  assert (Sx : vec_side_ok false p b r) by (destruct S as (A & B & _); split; [exact A|split; [exact B|intros Q; discriminate Q]]).
  assert (Ci := ipopt_certified OK p b s I Nd Hg Hd ni si r Hi (fun x Hx0 => H4 x ltac:(simpl in *; tauto)) Hr Si).
  assert (Cq := vec_certified OK p b s Hg true nq sq r Vq (fun _ => H4) Hr S). assert (Cx := vec_certified OK p b s Hg false nx sx r Vx (fun Q => False_ind _ (diff_false_true Q)) Hr Sx).
  rewrite Eq in Cq. rewrite Ex in Cx. split; [exact Ci|]. rewrite Cq, Cx, Ci. split; reflexivity.
Qed.
Print Assumptions c41_same_parameters.
(** ... and solve_fix_discr_sdp is feasible at the same values. *)
Theorem c41_fix_same SY : sympy_ok SY ->
  forall l p b ni si params sr d s' r, let s := se_st (run SY session0 l) in
    NoDup (pr_params p) -> Forall good_param (pr_params p) -> declared p s -> recips_declared (pr_params p) ->
    (forall x, In x ["eta"; "h"; "rho"] -> In x (pr_params p)) ->
    ipopt_nlp SY p b s = (Ok ni, si) -> fix_discr_sdp SY p params s = (Ok (sr, d), s') ->
    (forall x q, In (x, q) params -> r x = Q2R q) -> side_ok p b r ->
    ((exists a, sdp_feasible d a) <-> accepts ni (pr_params p) r).
Proof.
  intros OK l p b ni si params sr d s' r s Nd Hg Hd Hr H3 Hi Hf Hp S. assert (I := si_inv _ (reachable_inv SY l)). fold s in I.
  assert (Es := ipopt_symbolic p b s ni si Hi). destruct (fix_unfold _ _ _ _ _ _ Hf) as (_ & Fs & Gs & nm & Hin & _).
  destruct (inputs_facts OK p s s' sr Fs Gs nm I Nd Hg Hd Hin) as (Es' & _). rewrite Es in Es'. injection Es' as Es' _.
  rewrite (fix_certified OK p s I Nd Hg Hd params sr d s' r Hf Hp), (ipopt_certified OK p b s I Nd Hg Hd ni si r Hi H3 Hr S), Es'. reflexivity.
Qed.
Print Assumptions c41_fix_same.
(** What a caller that unpacks three values gets. *)
Theorem c41_unpack SY : forall ipopt cvx solver p b extra params n s v s',
  solve SY ipopt cvx solver p b extra params n s = (Ok v, s') ->
  match unpack3 v with
  | Ok (x, y, z) => (exists sr, z = PSymbolic sr) /\
      ((In solver ["ipopt"; "ipopt_qcqp"; "ipopt_qcqp_matrix"] /\ exists l, x = PParams l) \/ (solver = "fix_discr_sdp" /\ x = PVars))
  | Err e => (e = ValueError /\ In solver ["ipopt"; "ipopt_qcqp"; "ipopt_qcqp_matrix"; "bisection_eta"]) \/
      (e = TypeError /\ ~ In solver ["ipopt"; "ipopt_qcqp"; "ipopt_qcqp_matrix"; "fix_discr_sdp"; "bisection_eta"])
  end.
Proof.
  intros ipopt cvx solver p b extra params n s v s' H.
  destruct (solve_shapes _ _ _ _ _ _ _ _ _ _ _ _ H) as [(sr & -> & Hs)|[(l & sr & -> & Hs)|[(sr & -> & ->)|[(l & q & -> & ->)|(-> & Hs)]]]]; cbn [unpack3].
  - left. split; [reflexivity|]. simpl in *. tauto.
  - split; [eauto|]. left. split; [exact Hs|eauto].
  - split; [eauto|]. right. auto.
  - left. split; [reflexivity|]. simpl. tauto.
  - right. auto.
Qed.
Print Assumptions c41_unpack.
(** The three Ipopt methods: the triple appears exactly if Ipopt succeeded. *)
Theorem c41_ipopt_triple SY : forall ipopt cvx p b extra params n s nl s',
  ipopt_nlp SY p b s = (Ok nl, s') ->
  (forall a, ipopt (nlp_opti nl) (nlp_obj nl) = Some (true, a) ->
     exists v, solve SY ipopt cvx "ipopt" p b extra params n s = (Ok v, s') /\
       unpack3 v = Ok (PParams (dict_parameters (nlp_opti nl) a (pr_params p)), PSolution, PSymbolic (nlp_sym nl))) /\
  (ipopt (nlp_opti nl) (nlp_obj nl) = None -> exists v, solve SY ipopt cvx "ipopt" p b extra params n s = (Ok v, s') /\ unpack3 v = Err ValueError).
Proof.
  intros ipopt cvx p b extra params n s nl s' H. unfold solve. cbn [String.eqb Ascii.eqb Bool.eqb]. unfold finish_ipopt. rewrite H. split.
  - intros a ->. eexists. split; reflexivity.
  - intros ->. eexists. split; reflexivity.
Qed.
Print Assumptions c41_ipopt_triple.

Definition mono_ipopt : list ccon * list (string * cavar) := Eval vm_compute in
  match ipopt_nlp sympy0 (se_pb (run sympy0 session0 mono_prog)) None (se_st (run sympy0 session0 mono_prog)) with
  | (Ok n, _) => (op_cons (nlp_opti n), op_vars (nlp_opti n)) | _ => ([], []) end.
(** Without the lower bounds the formulations differ: eta = h = 0 is accepted
    by solve_ipopt, never by solve_ipopt_qcqp. *)
Theorem c41_signs_refuted : let se := run sympy0 session0 mono_prog in let s := se_st se in let p := se_pb se in
  exists ni si nq sq, ipopt_nlp sympy0 p None s = (Ok ni, si) /\ qcqp_nlp sympy0 p None 100 s = (Ok nq, sq) /\
    accepts ni (pr_params p) (fun _ => 0%R) /\ ~ accepts nq (pr_params p) (fun _ => 0%R).
Proof.
  intros se s p. destruct mono_ready as (R1 & R2 & R3 & _). fold se s p in R1, R2, R3.
  assert (H : match ipopt_nlp sympy0 p None s with
    | (Ok n, _) => op_cons (nlp_opti n) = fst mono_ipopt /\ op_vars (nlp_opti n) = snd mono_ipopt
    | _ => False end) by (vm_compute; split; reflexivity).
  assert (H' : match fst (qcqp_nlp sympy0 p None 100 s) with Ok _ => True | _ => False end) by (vm_compute; exact I).
  destruct (qcqp_nlp sympy0 p None 100 s) as [[nq|] sq] eqn:Eq; [|destruct H'].
  destruct (ipopt_nlp sympy0 p None s) as [[ni|] si] eqn:Ex; [|destruct H]. destruct H as [H1 H2]. exists ni, si, nq, sq.
  split; [reflexivity|]. split; [reflexivity|]. clear Ex H'. split.
  { clear Eq. exists (fun _ => 0%R). split.
    - unfold feasible. rewrite H1. apply (holdsq_ok (fun _ => 0%Q)); [intros; unfold Q2R; simpl; lra|vm_compute; reflexivity].
    - unfold dict_parameters. assert (Q := mono_pb). cbv zeta in Q. fold se in Q. fold p in Q. rewrite H2, Q. reflexivity. }
  intros (a & Ha & Ed).
  destruct (c24_side_conditions sympy0 sympy0_ok mono_prog p None 100 nq sq a (fun _ => 0%R) R1 R2 R3 Eq Ha) as (_ & _ & S).
  - intros x q Hq. rewrite Ed in Hq. apply in_map_iff in Hq as (y & Hy & _). injection Hy as _ <-. reflexivity.
  - exact Logic.I.
  - specialize (S eq_refl "eta" ltac:(simpl; auto)). unfold Q2R, tiny in S. simpl in S. lra.
Qed.
Print Assumptions c41_signs_refuted.
(** A failed Ipopt run and an unknown solver name break unpacking. *)
Theorem c41_triple_refuted : let se := run sympy0 session0 mono_prog in let s := se_st se in let p := se_pb se in forall cvx extra params n,
  (exists v s', solve sympy0 (fun _ _ => None) cvx "ipopt" p None extra params n s = (Ok v, s') /\ unpack3 v = Err ValueError) /\
  (exists v s', solve sympy0 (fun _ _ => None) cvx "Ipopt" p None extra params n s = (Ok v, s') /\ unpack3 v = Err TypeError).
Proof.
  intros se s p cvx extra params n. split; [|eexists; eexists; split; reflexivity].
  destruct c41_signs_refuted as (ni & si & nq & sq & Ei & _). fold se s p in Ei.
  destruct (c41_ipopt_triple sympy0 (fun _ _ => None) cvx p None extra params n s ni si Ei) as [_ Q]. destruct (Q eq_refl) as (v & Hv & Hu). exists v, si. split; assumption.
Qed.
Print Assumptions c41_triple_refuted.
(** The hypotheses of [c41_same_parameters] at eta = 3, h = rho = gamma = 1,
    where all three programs accept. *)
Example c41_case : let se := run sympy0 session0 mono_prog in let s := se_st se in let p := se_pb se in
  exists ni si nq sq nx sx, ipopt_nlp sympy0 p None s = (Ok ni, si) /\ qcqp_nlp sympy0 p None 100 s = (Ok nq, sq) /\
    qcqp_matrix_nlp sympy0 p None s = (Ok nx, sx) /\ recips_declared (pr_params p) /\ vec_side_ok true p None (v_env mono_val) /\
    accepts nq (pr_params p) (v_env mono_val).
Proof.
  intros se s p. destruct c41_signs_refuted as (ni & si & nq & sq & Ei & Eq & _). destruct c25_signs_refuted as (_ & _ & nx & sx & _ & _ & _ & _ & Ex & _).
  destruct c24_case as (nq' & sq' & R1 & R2 & R3 & _ & Eq' & Ha & Hv & _). fold se in Eq, Eq', Ei, Ex, R1, R2, R3; fold s p in Eq, Eq', Ei, Ex, R1, R2, R3. fold se in Hv; fold p in Hv. rewrite Eq in Eq'. assert (nq' = nq) as -> by (injection Eq' as -> _; reflexivity). clear Eq'.
  exists ni, si, nq, sq, nx, sx. split; [exact Ei|]. split; [exact Eq|]. split; [exact Ex|].
  split. { assert (Q := mono_pb). cbv zeta in Q. fold se in Q. fold p in Q. rewrite Q. intros x Hx. vm_compute in Hx. destruct Hx. }
  split. { split; [|split; [exact Logic.I|]].
    - assert (Q := mono_pb). cbv zeta in Q. fold se in Q. fold p in Q. rewrite Q. intros x Hx. vm_compute in Hx. destruct Hx.
    - intros _ x Hx. repeat (destruct Hx as [<-|Hx]; [unfold tiny, Q2R; simpl; lra|]). destruct Hx. }
  exists mono_assign. split; [exact Ha|]. assert (Hk := proj1 (c24_returned_values sympy0 sympy0_ok mono_prog p None 100 nq sq mono_assign R1 R2 R3 Eq Ha)).
  clear Ei Eq Ex. revert Hk Hv. generalize (dict_parameters (nlp_opti nq) mono_assign (pr_params p)). generalize (pr_params p). clear.
  intros l d <- Hv. induction d as [|[x q] d IH]; [reflexivity|]. cbn [map fst]. rewrite (Hv x q (or_introl eq_refl)). f_equal. apply IH. intros; apply Hv; right; assumption.
Qed.

(** ** C42 *)
(** With [var_bound] set, solve_sdp_relax never returns; when the rest can be
    built it is the lookup of "lamb_nu" that fails. *)
Theorem c42_relax_bound SY : forall p b v s rl s', sdp_relax SY p b (Some v) s <> (Ok rl, s').
Proof. exact (fun p b v s rl s' => relax_bound_fails p b s v rl s'). Qed.
Print Assumptions c42_relax_bound.
Theorem c42_relax_bound_key SY : sympy_ok SY -> forall l p b v sr s', let s := se_st (run SY session0 l) in
  NoDup (pr_params p) -> Forall good_param (pr_params p) -> declared p s ->
  symbolic SY p s = (Ok sr, s') -> 1 <= sr_I sr + sr_E sr -> (forall x, In x ["eta"; "h"; "rho"; "alpha"; "beta"] -> In x (pr_params p)) ->
  sdp_relax SY p b (Some v) s = (Err KeyError, s').
Proof.
  intros OK l p b v sr s' s Nd Hg Hd. exact (relax_bound_key OK p b s (si_inv _ (reachable_inv SY l)) Nd Hg Hd v sr s').
Qed.
Print Assumptions c42_relax_bound_key.
(** solve_gp names the multiplier blocks of the functions "lamb<n>ho", so no
    expression mentioning such a multiplier can be translated.  A model is
    built only if every interpolation constraint has weight zero everywhere. *)
Theorem c42_gp_multipliers SY : sympy_ok SY -> forall l p b n s' f i j w, let s := se_st (run SY session0 l) in
  Forall good_param (pr_params p) -> declared p s -> gp_model SY p b s = (Ok n, s') ->
  In (SK 0 f i j, w) (sr_exp (nlp_sym n)) -> shift_of p <= f ->
  forall r, (forall k, k < st_ectr s -> ev r (wF w k) = 0%R) /\ (forall k1 k2, k1 < st_pctr s -> k2 < st_pctr s -> ev r (wG w k1 k2) = 0%R).
Proof.
  intros OK l p b n s' f i j w s Hg Hd. exact (gp_dead_constraints OK p b s n s' f i j w (si_inv _ (reachable_inv SY l)) Hg Hd).
Qed.
Print Assumptions c42_gp_multipliers.
Theorem c42_gp_refuted : let se := run sympy0 session0 mono_prog in
  fst (gp_model sympy0 (se_pb se) None (se_st se)) = Err KeyError /\
  fst (sdp_relax sympy0 (se_pb se) None (Some "x") (se_st se)) = Err KeyError /\
  exists rl s', sdp_relax sympy0 (se_pb se) None None (se_st se) = (Ok rl, s').
Proof.
  intros se. split; [vm_compute; reflexivity|]. split; [vm_compute; reflexivity|].
  assert (H : match fst (sdp_relax sympy0 (se_pb se) None None (se_st se)) with Ok _ => True | _ => False end) by (vm_compute; exact I).
  destruct (sdp_relax _ _ _ _ _) as [[rl|] s']; [|destruct H]. exists rl, s'. reflexivity.
Qed.
Print Assumptions c42_gp_refuted.
(** Only a problem whose interpolation constraints vanish is built: a function
    evaluated at one point only. *)
Definition lone_prog : list op := [ONewProblem; OConvex; OPoint; OOracle 0 0; OPPow 0 2; OEScale (smul (Num (-1)) (Sym "eta")) 1; OMetric 2].
Example c42_gp_case : let se := run sympy0 session0 lone_prog in exists n s',
  gp_model sympy0 (se_pb se) None (se_st se) = (Ok n, s') /\ shift_of (se_pb se) = 0.
Proof.
  intros se. assert (H : match fst (gp_model sympy0 (se_pb se) None (se_st se)) with Ok _ => True | _ => False end) by (vm_compute; exact I).
  destruct (gp_model _ _ _ _) as [[n|] s']; [|destruct H]. exists n, s'. split; reflexivity.
Qed.

(** ** C43 *)
(** The box that the relaxation puts on the parameters. *)
Definition in_box (r : env) : Prop :=
  (1 / 100000 <= r "eta" /\ 1 / 100000 <= r "h" /\ 0 <= r "rho" /\ -1 <= r "alpha" <= 1 /\ -1 <= r "beta" <= 1)%R.
Definition within (b : option bounds) (r : env) : Prop :=
  match b with None => True | Some l => forall x ub lb, In (x, (ub, lb)) l -> in_bounds (r x) ub lb end.
(** Every certified choice of parameters in the box is a feasible point of the
    relaxation with the same parameters and the same objective value. *)
Theorem c43_relaxation SY : sympy_ok SY -> forall l p b rl s' sr r, let s := se_st (run SY session0 l) in
  NoDup (pr_params p) -> Forall good_param (pr_params p) -> declared p s -> param_bounds (pr_params p) b ->
  sdp_relax SY p b None s = (Ok rl, s') -> symbolic SY p s = (Ok sr, s') -> certified p s sr r -> in_box r -> within b r ->
  exists a, sdp_feasible (rl_sdp rl) a /\ relax_values rl a (pr_params p) = map (fun x => (x, r x)) (pr_params p) /\
    forall e, pr_obj p = Some e -> only_params (pr_params p) (fun x => In x (free e)) -> ceval a (sd_obj (rl_sdp rl)) = (- ev r e)%R.
Proof.
  intros OK l p b rl s' sr r s Nd Hg Hd Hb H Es (r1 & w & m & P & Hw & E & C) Hbox Hwi. assert (I := si_inv _ (reachable_inv SY l)). fold s in I.
  destruct (relax_ok OK p b s s' I Nd Hg Hd rl H) as (_ & _ & _ & _ & _ & _ & _ & _ & _ & _ & _ & _ & _ & _ & Hn & _).
  assert (En : forall x, In x needs -> r1 x = r x) by (intros x Hx; apply E, Hn, Hx).
  destruct (relax_lift OK p b s s' I Nd Hg Hd rl sr w r1 m P H Es Hw C) as (a & Ha & Hv & Ho).
  - rewrite !En by (unfold needs; simpl; tauto). unfold in_box in Hbox. unfold micro, Q2R. simpl. repeat split; lra.
  - exact Hb.
  - clear -Hwi Hb E. destruct b as [bl|]; [|exact Logic.I]. intros x ub lb Hin. rewrite E; [apply (Hwi x ub lb Hin)|apply (Hb x ub lb Hin)].
  - exists a. split; [exact Ha|]. split; [rewrite Hv; apply map_ext_in; intros x Hx; rewrite (E x Hx); reflexivity|].
    intros e He Hf. rewrite (Ho e He Hf). f_equal. apply ev_free_ext. intros x Hx. apply E, Hf, Hx.
Qed.
Print Assumptions c43_relaxation.
(** The same for whatever the nonlinear solvers accept ... *)
Theorem c43_relaxes_ipopt SY : sympy_ok SY -> forall l p b rl s' ni si r, let s := se_st (run SY session0 l) in
  NoDup (pr_params p) -> Forall good_param (pr_params p) -> declared p s -> recips_declared (pr_params p) -> param_bounds (pr_params p) b ->
  sdp_relax SY p b None s = (Ok rl, s') -> ipopt_nlp SY p b s = (Ok ni, si) -> side_ok p b r -> accepts ni (pr_params p) r -> in_box r ->
  exists a, sdp_feasible (rl_sdp rl) a /\ relax_values rl a (pr_params p) = map (fun x => (x, r x)) (pr_params p).
Proof.
  intros OK l p b rl s' ni si r s Nd Hg Hd Hr Hb H Hi S Ac Hbox. assert (I := si_inv _ (reachable_inv SY l)). fold s in I.
  destruct (relax_ok OK p b s s' I Nd Hg Hd rl H) as (sr & _ & _ & _ & _ & _ & _ & _ & _ & _ & Es & _ & _ & _ & Hn & _).
  assert (Es' := ipopt_symbolic p b s ni si Hi). rewrite Es in Es'. assert (sr = nlp_sym ni) as -> by (injection Es' as -> _; reflexivity). clear Es'.
  assert (C := proj1 (ipopt_certified OK p b s I Nd Hg Hd ni si r Hi (fun x Hx => Hn x ltac:(unfold needs; simpl in *; tauto)) Hr S) Ac).
  destruct (c43_relaxation SY OK l p b rl s' (nlp_sym ni) r Nd Hg Hd Hb H Es C Hbox) as (a & Ha & Hv & _).
  - clear -S. destruct b as [bl|]; [|exact Logic.I]. intros x ub lb Hin. destruct S as (_ & B & _). destruct (B x ub lb Hin) as (_ & B2). exact B2.
  - exists a. split; assumption.
Qed.
Print Assumptions c43_relaxes_ipopt.
(** ... so the optimal value of the relaxation bounds the objective of every
    certified choice in the box. *)
Theorem c43_upper_bound SY : sympy_ok SY -> forall l p b rl s' sr a e, let s := se_st (run SY session0 l) in
  NoDup (pr_params p) -> Forall good_param (pr_params p) -> declared p s -> param_bounds (pr_params p) b ->
  sdp_relax SY p b None s = (Ok rl, s') -> symbolic SY p s = (Ok sr, s') ->
  pr_obj p = Some e -> only_params (pr_params p) (fun x => In x (free e)) ->
  (forall a', sdp_feasible (rl_sdp rl) a' -> (ceval a (sd_obj (rl_sdp rl)) <= ceval a' (sd_obj (rl_sdp rl)))%R) ->
  forall r, certified p s sr r -> in_box r -> within b r -> (ev r e <= - ceval a (sd_obj (rl_sdp rl)))%R.
Proof.
  intros OK l p b rl s' sr a e s Nd Hg Hd Hb H Es He Hf Hm r C Hbox Hw.
  destruct (c43_relaxation SY OK l p b rl s' sr r Nd Hg Hd Hb H Es C Hbox Hw) as (a' & Ha & _ & Ho). specialize (Hm a' Ha). rewrite (Ho e He Hf) in Hm. lra.
Qed.
Print Assumptions c43_upper_bound.
(** All constraints of the relaxation. *)
Theorem c43_constraints SY : sympy_ok SY -> forall l p b rl s', let s := se_st (run SY session0 l) in
  NoDup (pr_params p) -> Forall good_param (pr_params p) -> declared p s -> sdp_relax SY p b None s = (Ok rl, s') ->
  exists sr Fs Gs nm, rl_inp rl = (sr, Fs, Gs, nm) /\ symbolic SY p s = (Ok sr, s') /\
    sp_v_coeff_matrix SY (fg_lists sr (st_ectr s) (st_pctr s)) (pr_params p) = Ok (Fs, Gs, nm) /\
    let n := (List.length (nm_list nm) + sr_I sr + sr_E sr)%nat in
    forall a, sdp_feasible (rl_sdp rl) a <->
      relax_point nm Fs Gs (sr_I sr) (sr_E sr) (st_ectr s) (st_pctr s) (xval rl a) (blk rl a 0) (blk rl a 1) (blk rl a 2) /\
      relax_bounds b nm (sr_I sr + sr_E sr) (st_pctr s) (xval rl a) (blk rl a 1) (blk rl a 2) /\
      psd (n + 1) (blk rl a 0) /\ psd n (blk rl a 1) /\ psd (st_pctr s) (blk rl a 2).
Proof.
  intros OK l p b rl s' s Nd Hg Hd H. assert (I := si_inv _ (reachable_inv SY l)). fold s in I.
  destruct (relax_ok OK p b s s' I Nd Hg Hd rl H) as (sr & Fs & Gs & nm & W & wm & e & c & E1 & E2 & E3 & _ & _ & _ & _ & _ & _ & _ & _ & _ & K).
  exists sr, Fs, Gs, nm. split; [exact E1|]. split; [exact E3|]. destruct (inputs_facts OK p s s' sr Fs Gs nm I Nd Hg Hd E2) as (_ & Q & _). split; [exact Q|]. exact K.
Qed.
Print Assumptions c43_constraints.
Example c43_case : let se := run sympy0 session0 mono_prog in let s := se_st se in let p := se_pb se in
  exists rl s' sr, sdp_relax sympy0 p None None s = (Ok rl, s') /\ symbolic sympy0 p s = (Ok sr, s') /\ certified p s sr (v_env mono_val) /\
    in_box (v_env mono_val) /\ param_bounds (pr_params p) None.
Proof.
  intros se s p. destruct c41_case as (ni & si & nq & sq & nx & sx & Ei & Eq & Ex & Hr & S & Ac). destruct mono_ready as (R1 & R2 & R3 & _).
  destruct c42_gp_refuted as (_ & _ & rl & s' & Hl). fold se in Ei, Eq, Ex, Hr, S, Ac, R1, R2, R3, Hl; fold s p in Ei, Eq, Ex, Hr, S, Ac, R1, R2, R3, Hl.
  assert (I := si_inv _ (reachable_inv sympy0 mono_prog)). fold se in I. fold s in I.
  destruct (relax_ok sympy0_ok p None s s' I R1 R2 R3 rl Hl) as (sr & _ & _ & _ & _ & _ & _ & _ & _ & _ & Es & _).
  exists rl, s', sr. split; [exact Hl|]. split; [exact Es|].
  destruct (c41_same_parameters sympy0 sympy0_ok mono_prog p None 100 ni si nq sq nx sx (v_env mono_val) R1 R2 R3 Hr Ei Eq Ex S) as (C1 & C2 & _).
  assert (Es' := ipopt_symbolic p None s ni si Ei). rewrite Es in Es'. assert (sr = nlp_sym ni) as -> by (injection Es' as -> _; reflexivity).
  split; [apply C1, C2, Ac|]. clear. split; [|exact Logic.I]. unfold in_box. simpl. repeat split; lra.
Qed.
