(** The builders with [n_func] functions. *)
From Coq Require Import List Arith Bool String QArith Reals Qreals Lia Lra FunctionalExtensionality.
From Verif Require Import Prelude PreludeFacts Sympy SympyFacts AlgebraModel Denote AlgebraFacts FunctionModel CircuitModel
  Spec SpecFacts ClassSpec CertSpec StateSpec StateFacts CertFacts FunctionSpec FunctionFacts FunctionFacts2
  SymbolFacts SolverSpec BuilderModel BuilderSpec BuildsSpec BuilderLogic BuilderT BuilderRun BuilderList BuilderProof.
Import ListNotations.
Local Open Scope R_scope.

Lemma and_iff_l (A B P Q : Prop) : (A <-> B) -> (B -> (P <-> Q)) -> (A /\ P) <-> (B /\ Q).
Proof. tauto. Qed.
Lemma ex_comm {A B} (P : A -> Prop) (Q : B -> Prop) (S : A -> B -> Prop) :
  (exists a, P a /\ exists b, Q b /\ S a b) <-> (exists b, Q b /\ exists a, P a /\ S a b).
Proof. firstorder. Qed.
Lemma Q2R_nat n : Q2R (inject_Z (Z.of_nat n)) = INR n.
Proof. rewrite INR_IZR_INZ. unfold Q2R, inject_Z. simpl. lra. Qed.

Ltac derl OK := lazymatch goal with
  | |- derl _ _ (zip_with _ _ _) _ => eapply derl_zip; [derl OK|derl OK|intros ? ?; cbv beta; derp' OK]
  | |- derl _ _ (zip3 _ _ _ _) _ => eapply derl_zip3; [derl OK|derl OK|derl OK|intros ? ? ?; cbv beta; derp' OK]
  | |- derl _ _ (map _ _) _ => eapply derl_map; [derl OK|intros ?; cbv beta; derp' OK]
  | |- derl _ _ (_ ++ _) _ => eapply derl_app; [derl OK|derl OK]
  | |- derl _ _ (_ :: _) _ => eapply derl_cons; [derp' OK|derl OK]
  | |- derl _ _ [] _ => eapply derl_nil
  | |- derl _ ?c ?p _ => let l := cnorm (cl c) in let n := idx p l in eapply (derl_var _ n); reflexivity
  end
with derp' OK := lazymatch goal with
  | |- derp _ _ (padd _ _ _) _ => eapply (derp_add OK); [derp' OK|derp' OK]
  | |- derp _ _ (psub _ _ _) _ => eapply (derp_sub OK); [derp' OK|derp' OK]
  | |- derp _ _ (pscale _ _ _) _ => eapply (derp_scale OK); [symok|derp' OK]
  | |- derp _ _ (pdivq _ _ _) _ => eapply (derp_divq OK); derp' OK
  | |- derp _ _ (sum_points _ _) _ => eapply (derp_sum OK); derl OK
  | |- derp _ _ zero_point _ => eapply derp_zero
  | |- derp _ ?c ?p _ => let l := cnorm (cx c) in let n := idx p l in eapply (derp_var _ n); reflexivity
  end.
Ltac dere' OK := lazymatch goal with
  | |- dere _ _ (eadd _ _ _) _ => eapply (dere_add OK); [dere' OK|dere' OK]
  | |- dere _ _ (esub _ _ _) _ => eapply (dere_sub OK); [dere' OK|dere' OK]
  | |- dere _ _ (escale _ _ _) _ => eapply (dere_scale OK); [symok|dere' OK]
  | |- dere _ _ (pmul _ _ _) _ => eapply (dere_mul OK); [derp' OK|derp' OK]
  | |- dere _ _ (psq _ _) _ => eapply (dere_sq OK); derp' OK
  | |- dere _ _ (sum_from_zero _ _) _ => eapply (dere_sum0 OK); derm OK
  | |- dere _ _ (sum_from _ _ _) _ => eapply (dere_sum_from OK); [dere' OK|derm OK]
  | |- dere _ ?c ?p _ => let l := cnorm (ce c) in let n := idx p l in eapply (dere_var _ n); reflexivity
  end
with derm OK := lazymatch goal with
  | |- derm _ _ (zip_with _ _ _) _ => eapply derm_zip; [derl OK|derl OK|intros ? ?; cbv beta; dere' OK]
  | |- derm _ _ (zip3 _ _ _ _) _ => eapply derm_zip3; [derl OK|derl OK|derl OK|intros ? ? ?; cbv beta; dere' OK]
  | |- derm _ _ (zip4 _ _ _ _ _) _ => eapply derm_zip4; [derl OK|derl OK|derm OK|derl OK|derl OK|congruence|congruence|intros ? ? ? ? ?; cbv beta iota delta [fst snd]; dere' OK]
  | |- derm _ ?c ?p _ => let l := cnorm (cm c) in let n := idx p l in eapply (derm_var _ n); reflexivity
  end.
Ltac at_n := apply at_is_n; [reflexivity|eassumption].
Lemma len_zip {A B C} (f : A -> B -> C) n l m : List.length l = n -> List.length m = n -> List.length (zip_with f l m) = n.
Proof. intros H K. rewrite zip_with_map2, map2_length; congruence. Qed.
Lemma len_zip3 {A B C D} (f : A -> B -> C -> D) n l m o : List.length l = n -> List.length m = n -> List.length o = n -> List.length (zip3 f l m o) = n.
Proof. intros H K K'. rewrite zip3_map3, map3_length; congruence. Qed.
Ltac zlen := lazymatch goal with
  | |- List.length (map _ _) = _ => rewrite map_length; zlen
  | |- List.length (zip_with _ _ _) = _ => apply len_zip; zlen
  | |- List.length (zip3 _ _ _ _) = _ => apply len_zip3; zlen
  | |- List.length (_ ++ [_]) = _ => rewrite app_length; simpl; lia
  | |- List.length ?x = _ => first [assumption | match goal with H : x = _ |- _ => rewrite H; zlen end]
  end.
Ltac lstep OK := lazymatch goal with
  | |- T _ (bind (define_loop _ _ _ _ _ _) _) _ _ _ _ => eapply T_define_n; [assumption|lia|intros ? ? ? ?; after]
  | |- T _ (bind (stationary_of _ _) _) _ _ _ _ => eapply (T_stat_of OK _ _ _ 0); [reflexivity|rewrite seq_length; lia|intros ? ? ? ?; after]
  | |- T _ (bind (oracle_loop _ _ _) _) _ _ _ _ => eapply (T_oracles_n OK); [at_n|assumption|derp' OK|prune|intros ? ? ?; after]
  | |- T _ (bind (conj_loop _ _ _) _) _ _ _ _ => eapply (T_conjs_n OK); [at_n|assumption|derl OK|zlen|intros ? ? ?; after]
  | |- T _ (bind (prox_loop _ _ _ _) _) _ _ _ _ => eapply (T_proxes_n OK); [at_n|assumption|derl OK|zlen|intros ? ? ? ? ? ? ?; after]
  | |- T _ (bind (dual_init _ _ _) _) _ _ _ _ => eapply (T_dual_n OK); [at_n|assumption|lia|intros ? ? ? ? ?; after]
  | |- T _ (bind (init_currents _ _ _) _) _ _ _ _ => eapply (T_init_none OK); [lia|intros ? ? ? ?; after]
  | |- T _ (bind set_initial_point _) _ _ _ _ => eapply T_point; intros ? ? ?; after
  | |- T _ (bind (add_equality _ _) _) _ _ _ _ => eapply (T_equality OK); [derp' OK|after]
  | |- T ?P (let x : point := ?e in @?k x) ?s ?pb ?c ?A => change (T P (k e) s pb c A); eapply (T_let P k e); [derp' OK|intros ? ?; after]
  | |- T ?P (let x : expr := ?e in @?k x) ?s ?pb ?c ?A => change (T P (k e) s pb c A); eapply (T_lete P k e); [dere' OK|intros ?; after]
  | |- T ?P (let x : list point := ?e in @?k x) ?s ?pb ?c ?A => change (T P (k e) s pb c A); eapply (T_letl P k e); [derl OK|intros ? ?; after]
  | |- T ?P (let x : Q := ?e in @?k x) ?s ?pb ?c ?A => change (T P (k e) s pb c A); after
  | |- T _ (ret (set_performance_metric _ _)) _ _ _ _ => eapply T_ret; dere' OK
  end.
Ltac lsemantics := cbv beta iota delta [pushx pushe pushl pushm vf vx ve vl vm senv0 nth].
Ltac funs E := cbv beta iota delta [funs_at vf]; rewrite !E.
Ltac lst := first [reflexivity | apply map2_ext; intros; first [vec|real] | apply map3_ext; intros; first [vec|real]
                  | apply map_ext; intros; vec | apply map5_ext; intros; real].
Ltac lreal := first [reflexivity | f_equal; [real|apply (f_equal rsuml); lst] | apply (f_equal rsuml); lst | real].
Ltac lwalk := repeat lazymatch goal with
  | |- (exists _ : vec, _ = _ /\ _) <-> (let x := ?e in @?Q x) => apply (let_iff _ e _ Q); [vec|intros ?]
  | |- (exists _ : R, _ = _ /\ _) <-> (let x := ?e in @?Q x) => apply (let_iff _ e _ Q); [lreal|intros ?]
  | |- (exists _ : list vec, _ = _ /\ _) <-> (let x := ?e in @?Q x) => apply (let_iff _ e _ Q); [lst|intros ?]
  | |- (exists _, (List.length _ = _ /\ _) /\ exists _, in_Rd _ _ /\ _) <-> _ => etransitivity; [apply ex_comm|]
  | |- (exists _, (List.length _ = _ /\ _) /\ _) <-> _ => etransitivity; [apply balanced_split; lia|cbv beta]
  | |- (exists _, _) <-> (exists _, _) => apply ex_iff; intros ?
  | |- (_ /\ _) <-> (_ /\ _) => apply and_iff; [leaf|]
  | |- _ = ?a <-> _ = ?b => replace a with b by lreal; reflexivity
  end.
Ltac lstart n := apply ex_iff; let phis := fresh "phis" in intros phis; apply and_iff_l; [reflexivity|];
  let E := fresh "E" in intros E; apply funs_n in E; funs E; rewrite <- ?(Q2R_nat n).

Section P.
  Context {SY : sympy} (OK : sympy_ok SY).
  Lemma primal_decomposition_builds params s0 n mu L C : has_keys params ["h"; "alpha"; "beta"; "eta"]%string -> good_class mu L -> Q2R C <> 0 -> (1 <= n)%nat -> Inv s0 ->
    builds (primal_decomposition SY params n mu L C) s0 default_params (fun d r q =>
      primal_decomposition_run d n mu L (Q2R C) (value params r "h") (value params r "alpha") (value params r "beta") (value params r "eta") q)%string.
  Proof using OK.
    intros. open primal_decomposition. eapply (builder_start _ default_good _ _ _ _ _ _ pb0); [assumption|assumption|reflexivity|reflexivity| |].
    - repeat lstep OK.
    - intros d r q. open primal_decomposition_run. lsemantics. lstart n. lwalk.
  Qed.
  Lemma n_nz n : (1 <= n)%nat -> Q2R (inject_Z (Z.of_nat n)) <> 0.
  Proof. intros H. rewrite Q2R_nat. apply not_0_INR. lia. Qed.
  Lemma dual_decomposition_builds params s0 n mu L Ind : has_keys params ["h"; "alpha"; "beta"; "eta"]%string -> good_class mu L -> Q2R Ind <> 0 -> (2 <= n)%nat -> Inv s0 ->
    builds (dual_decomposition SY params n mu L Ind) s0 default_params (fun d r q =>
      dual_decomposition_run d n mu L (Q2R Ind) (value params r "h") (value params r "alpha") (value params r "beta") (value params r "eta") q)%string.
  Proof using OK.
    intros. assert (Hn := n_nz n ltac:(lia)). open dual_decomposition. eapply (builder_start _ default_good _ _ _ _ _ _ pb0); [assumption|assumption|reflexivity|reflexivity| |].
    - repeat lstep OK.
    - intros d r q. open dual_decomposition_run. lsemantics. lstart n. lwalk.
  Qed.
  Lemma admm_consensus_builds params s0 n mu L Rs Ind : has_keys params ["h"; "alpha"; "beta"; "eta"; "rho"; "gamma"]%string -> good_class mu L -> Q2R Ind <> 0 -> (2 <= n)%nat -> Inv s0 ->
    builds (admm_consensus SY params n mu L Rs Ind) s0 default_params (fun d r q =>
      admm_consensus_run d n mu L (Q2R Rs) (Q2R Ind) (value params r "h") (value params r "alpha") (value params r "beta") (value params r "eta") (value params r "rho") (value params r "gamma") q)%string.
  Proof using OK.
    intros. assert (Hn := n_nz n ltac:(lia)). open admm_consensus. eapply (builder_start _ default_good _ _ _ _ _ _ pb0); [assumption|assumption|reflexivity|reflexivity| |].
    - repeat lstep OK.
    - intros d r q. open admm_consensus_run. lsemantics. lstart n. lwalk.
  Qed.
  Lemma admm_euler_builds params s0 n mu L Rs Ind : has_keys params ["h"; "eta"; "rho"]%string -> good_class mu L -> Q2R Ind <> 0 -> (2 <= n)%nat -> Inv s0 ->
    builds (admm_euler_consensus SY params n mu L Rs Ind) s0 default_params (fun d r q =>
      admm_euler_run d n mu L (Q2R Rs) (Q2R Ind) (value params r "h") (value params r "eta") (value params r "rho") q)%string.
  Proof using OK.
    intros. assert (Hn := n_nz n ltac:(lia)). open admm_euler_consensus. eapply (builder_start _ default_good _ _ _ _ _ _ pb0); [assumption|assumption|reflexivity|reflexivity| |].
    - repeat lstep OK.
    - intros d r q. open admm_euler_run. lsemantics. lstart n. lwalk.
  Qed.
End P.
