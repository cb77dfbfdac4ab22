(** No valid rate is missed: where the constraints have a strictly feasible
    point, the problems handed to the solvers are feasible at exactly the
    parameter values for which the metric is never positive. *)
From Coq Require Import List Arith Bool String QArith Reals Qreals Lra Lia.
From Verif Require Import Prelude PreludeFacts Sympy SympyFacts AlgebraModel Denote AlgebraFacts FunctionModel CircuitModel SymSpec
  GramFacts SymFacts Spec ClassSpec CertSpec StateSpec SessionModel StateFacts CertFacts SymbolFacts ParsingModel
  ParsingSpec SolverModel SolverSpec MatFacts SdpModel SdpSpec SdpFacts ExtraSpec ExtraFacts IpoptFacts IpoptTail IpoptProof IpoptComplete ClassProps InterpProps SolverProps
  BuilderSpec BuildsSpec BuilderUse DualitySpec DualityFacts.
Import ListNotations.
Local Open Scope R_scope.

Section D.
  Context {SY : sympy} (OK : sympy_ok SY).
  Variables (s : state) (p : problem).
  Hypothesis I : Inv s.
  Hypothesis HB : own_pb s p.
  Hypothesis Hg : Forall good_param (pr_params p).
  Hypothesis Hd : declared p s.
  Hypothesis Hcf : constant_free p s.

  Lemma certified_sound sr s' m r : symbolic SY p s = (Ok sr, s') -> pr_metric p = Some m ->
    certified p s sr r -> metric_nonpos r p s m.
  Proof using OK I HB Hd Hcf.
    intros HS Em (r1 & w & k & P & Hw & E & C) v phi Hv Hc Hh.
    assert (EO : env_on (v_env v) r1 (pr_params p)) by (intros x Hx; rewrite Hv, (E x Hx); reflexivity).
    destruct (certificate_sound SY OK s p sr s' w k P (with_env v r1) phi I HB HS Hw C) as (e & Ee & D).
    - apply (consistent_env v r1 p s phi EO Hd Hc).
    - apply (constraints_env v r1 p s EO Hd Hh).
    - exact Hcf.
    - rewrite Em in Ee. injection Ee as <-. rewrite (den_e_env v r1 _ m EO) in D; [exact D|]. apply (proj1 Hd m Em).
  Qed.

  Lemma metric_weight sr s' m : symbolic SY p s = (Ok sr, s') -> pr_metric p = Some m ->
    exists wm, dget skey_eqb SObj (sr_exp sr) = Some wm /\ In (SObj, wm) (sr_exp sr).
  Proof using OK I HB.
    intros HS Em. destruct (stored_inv SY OK s p sr s' I HB HS) as (ND & _).
    destruct (symbolic_spec SY s p sr s' I HS) as (W & m' & wm & _ & _ & Ex & _).
    exists wm. assert (A : In (SObj, wm) (sr_exp sr)) by (rewrite Ex, in_app_iff; right; left; reflexivity).
    split; [|exact A]. apply (dget_nodup skey_eqb skey_eqb_eq); assumption.
  Qed.

  (** a certificate whose environment agrees with [r] on all names that are not multipliers *)
  Lemma certificate_from sr s' m r v0 : symbolic SY p s = (Ok sr, s') -> pr_metric p = Some m ->
    v_env v0 = r -> strictly_feasible v0 p s ->
    (forall v phi, v_env v = r -> (forall l, in_Rd (v_dim v) (v_pt v l)) -> consistent v phi s -> constraints_hold v p -> den_e v m <= 0) ->
    exists r1 w k P, In (SObj, w) (sr_exp sr) /\ (forall x, is_dual x = false -> r1 x = r x) /\
      certificate r1 sr w (st_pctr s) (st_ectr s) k P.
  Proof using OK I HB Hg Hd Hcf.
    intros HS Em Hv Hst Hm. destruct (metric_weight sr s' m HS Em) as (wm & Ew & Hin). rewrite <- Hv in *.
    destruct (certificate_exists SY OK s p sr s' m wm v0 I HB HS Hcf Hg Hd Em Ew Hst Hm) as (r1 & P & E & C).
    exists r1, wm, (st_pctr s), P. auto.
  Qed.

  Theorem certified_iff sr s' m r v0 : symbolic SY p s = (Ok sr, s') -> pr_metric p = Some m ->
    v_env v0 = r -> strictly_feasible v0 p s -> certified p s sr r <-> metric_nonpos r p s m.
  Proof using OK I HB Hg Hd Hcf.
    intros HS Em Hv Hst. split; [apply (certified_sound sr s' m r HS Em)|]. intros Hm.
    destruct (certificate_from sr s' m r v0 HS Em Hv Hst) as (r1 & w & k & P & Hw & E & C); [intros v phi Ev _; apply (Hm v phi Ev)|].
    exists r1, w, k, P. split; [exact Hw|]. split; [|exact C]. intros x Hx. apply E. rewrite Forall_forall in Hg. apply (Hg x Hx).
  Qed.

  (** only vectors of R^d need be considered *)
  Lemma nonpos_Rd sr s' m r v0 : symbolic SY p s = (Ok sr, s') -> pr_metric p = Some m ->
    v_env v0 = r -> strictly_feasible v0 p s ->
    ((forall d q, metric_value s p d r q -> q <= 0) <-> metric_nonpos r p s m).
  Proof using OK I HB Hg Hd Hcf.
    intros HS Em Hv Hst. split.
    - intros HA. apply (certified_sound sr s' m r HS Em).
      destruct (certificate_from sr s' m r v0 HS Em Hv Hst) as (r1 & w & k & P & Hw & E & C).
      { intros v phi Ev Hsp Hc Hh. apply (HA (v_dim v)). exists v, phi. repeat (split; [try assumption; reflexivity|]). eauto. }
      exists r1, w, k, P. split; [exact Hw|]. split; [|exact C]. intros x Hx. apply E. rewrite Forall_forall in Hg. apply (Hg x Hx).
    - intros Hm d q (v & phi & Vd & Ve & _ & Vc & Vh & m' & Em' & <-). rewrite Em in Em'. injection Em' as <-. apply (Hm v phi Ve Vc Vh).
  Qed.

  Lemma metric_some sr s' : symbolic SY p s = (Ok sr, s') -> exists m, pr_metric p = Some m.
  Proof using I. intros HS. destruct (symbolic_spec SY s p sr s' I HS) as (W & m' & wm & Em & _). eauto. Qed.
End D.

(** * the solvers *)
Section Solvers.
  Context {SY : sympy} (OK : sympy_ok SY).
  Variables (s : state) (p : problem).
  Hypothesis I : Inv s.
  Hypothesis HB : own_pb s p.
  Hypothesis Nd : NoDup (pr_params p).
  Hypothesis Hg : Forall good_param (pr_params p).
  Hypothesis Hd : declared p s.
  Hypothesis Hcf : constant_free p s.

  Lemma fix_sdp_exact ps sr d s' m r v0 : fix_discr_sdp SY p ps s = (Ok (sr, d), s') -> (forall x q, In (x, q) ps -> r x = Q2R q) ->
    pr_metric p = Some m -> v_env v0 = r -> strictly_feasible v0 p s ->
    (exists a, sdp_feasible d a) <-> metric_nonpos r p s m.
  Proof using OK I HB Nd Hg Hd Hcf.
    intros Hf Hr Em Hv Hst. rewrite (fix_certified OK p s I Nd Hg Hd ps sr d s' r Hf Hr).
    destruct (fix_unfold _ _ _ _ _ _ Hf) as (_ & Fs & Gs & nm & Hin & _).
    destruct (inputs_facts OK p s s' sr Fs Gs nm I Nd Hg Hd Hin) as (Es' & _).
    apply (certified_iff OK s p I HB Hg Hd Hcf sr s' m r v0); try assumption.
  Qed.
  Lemma ipopt_exact b n s' m r v0 : ipopt_nlp SY p b s = (Ok n, s') ->
    (forall x, In x ["eta"; "h"; "rho"]%string -> In x (pr_params p)) -> recips_declared (pr_params p) -> side_ok p b r ->
    pr_metric p = Some m -> v_env v0 = r -> strictly_feasible v0 p s ->
    accepts n (pr_params p) r <-> metric_nonpos r p s m.
  Proof using OK I HB Nd Hg Hd Hcf.
    intros Hn H3 Hr Hs Em Hv Hst. rewrite (ipopt_certified OK p b s I Nd Hg Hd n s' r Hn H3 Hr Hs).
    apply (certified_iff OK s p I HB Hg Hd Hcf _ s' m r v0); try assumption. apply (ipopt_symbolic p b s n s' Hn).
  Qed.
  Lemma ipopt_best b n s' m a e r0 r v0 : ipopt_nlp SY p b s = (Ok n, s') ->
    (forall x, In x ["eta"; "h"; "rho"]%string -> In x (pr_params p)) -> recips_declared (pr_params p) ->
    pr_metric p = Some m -> pr_obj p = Some e -> only_params (pr_params p) (fun x => In x (free e)) ->
    feasible (nlp_opti n) a -> (forall a', feasible (nlp_opti n) a' -> ceval a (nlp_obj n) <= ceval a' (nlp_obj n)) ->
    (forall x q, In (x, q) (dict_parameters (nlp_opti n) a (pr_params p)) -> r0 x = q) ->
    side_ok p b r -> v_env v0 = r -> strictly_feasible v0 p s -> metric_nonpos r p s m -> ev r e <= ev r0 e.
  Proof using OK I HB Nd Hg Hd Hcf.
    intros Hn H3 Hr Em He Hf Ha Hmin Hr0 Hs Hv Hst Hm.
    destruct (proj2 (ipopt_exact b n s' m r v0 Hn H3 Hr Hs Em Hv Hst) Hm) as (a' & Ha' & Ed).
    destruct (returned_values OK p b s n s' a I Hg Hd Hn Ha) as [_ O1].
    destruct (returned_values OK p b s n s' a' I Hg Hd Hn Ha') as [_ O2].
    specialize (Hmin a' Ha'). rewrite (O1 e r0 He Hf Hr0), (O2 e r He Hf) in Hmin; [lra|].
    intros x q Hq. rewrite Ed in Hq. apply in_map_iff in Hq as (y & [= <- <-] & _). reflexivity.
  Qed.
End Solvers.

(** * the builders *)
Section Builders.
  Context {SY : sympy} (OK : sympy_ok SY).
  Variables (k : M problem) (s0 : state) (params : list string) (A : nat -> env -> R -> Prop).
  Hypothesis HB : builds k s0 params A.
  Hypothesis Nd : NoDup params.
  Variables (p : problem) (s : state).
  Hypothesis Hk : k s0 = (Ok p, s).

  Lemma builder_sdp_exact ps sr d s' r v0 : fix_discr_sdp SY p ps s = (Ok (sr, d), s') -> (forall x q, In (x, q) ps -> r x = Q2R q) ->
    v_env v0 = r -> strictly_feasible v0 p s ->
    (exists a, sdp_feasible d a) <-> (forall d q, A d r q -> q <= 0).
  Proof using OK HB Nd Hk.
    intros Hf Hr Hv Hst. destruct (built k s0 params A HB p s Hk) as ([W1 W2 W3 W4 W5 W6] & E & V). subst params.
    destruct (fix_unfold _ _ _ _ _ _ Hf) as (_ & Fs & Gs & nm & Hin & _).
    destruct (inputs_facts OK p s s' sr Fs Gs nm W1 Nd W3 W4 Hin) as (HS & _).
    destruct (metric_some s p W1 sr s' HS) as (m & Em).
    rewrite (fix_sdp_exact OK s p W1 W2 Nd W3 W4 W5 ps sr d s' m r v0 Hf Hr Em Hv Hst).
    rewrite <- (nonpos_Rd OK s p W1 W2 W3 W4 W5 sr s' m r v0 HS Em Hv Hst).
    split; intros H d' q Hq; apply (H d'); apply V; exact Hq.
  Qed.
  Lemma builder_ipopt_exact b n s' r v0 : ipopt_nlp SY p b s = (Ok n, s') ->
    (forall x, In x ["eta"; "h"; "rho"]%string -> In x params) -> recips_declared params -> side_ok p b r ->
    v_env v0 = r -> strictly_feasible v0 p s ->
    accepts n params r <-> (forall d q, A d r q -> q <= 0).
  Proof using OK HB Nd Hk.
    intros Hn H3 Hr Hs Hv Hst. destruct (built k s0 params A HB p s Hk) as ([W1 W2 W3 W4 W5 W6] & E & V). subst params.
    assert (HS := ipopt_symbolic p b s n s' Hn).
    destruct (metric_some s p W1 _ s' HS) as (m & Em).
    rewrite (ipopt_exact OK s p W1 W2 Nd W3 W4 W5 b n s' m r v0 Hn H3 Hr Hs Em Hv Hst).
    rewrite <- (nonpos_Rd OK s p W1 W2 W3 W4 W5 _ s' m r v0 HS Em Hv Hst).
    split; intros H d' q Hq; apply (H d'); apply V; exact Hq.
  Qed.
End Builders.
