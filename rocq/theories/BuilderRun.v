(** From the judgement [T] to statements about a whole builder, and the
    tactics that execute one. *)
From Coq Require Import List Arith Bool String QArith Reals Qreals Lia Lra FunctionalExtensionality.
From Verif Require Import Prelude PreludeFacts Sympy SympyFacts AlgebraModel Denote AlgebraFacts FunctionModel CircuitModel
  Spec SpecFacts ClassSpec CertSpec StateSpec StateFacts CertFacts FunctionSpec FunctionFacts FunctionFacts2
  SymbolFacts SolverSpec BuilderModel BuilderSpec BuildsSpec BuilderLogic BuilderT.
Import ListNotations.
Local Open Scope R_scope.

Section Run.
  Context {SY : sympy} (OK : sympy_ok SY).
  Variable P : list string.
  Hypothesis GP : Forall good_param P.

  Lemma T_problem (k : M problem) s0 pb A (A' : nat -> env -> R -> Prop) :
    Inv s0 -> st_flist s0 = [] -> pr_params pb = P -> pr_cons pb = [] ->
    T P k s0 pb ctx0 A -> (forall d r q, A d r senv0 q <-> A' d r q) -> builds k s0 P A'.
  Proof using GP.
    intros I Hf Hp Hn HT HA.
    assert (HS : St P s0). { split; [easy|]. rewrite Hf. intros f fn []. }
    assert (Hc : okc P s0 ctx0). { repeat split; constructor. }
    destruct (HT HS Hc) as (p & sf & l & H1 & H2 & H3 & H4 & H5 & H6 & (m & Hm & Om) & H8 & H9). rewrite Hn in H5. simpl in H5.
    exists p, sf. split; [easy|]. split; [|split; [congruence|]].
    - constructor.
      + apply H3.
      + split; [|rewrite Hm; apply Om]. rewrite H5. eapply Forall_impl; [|exact H6]. intros c0 Hc0. apply Hc0.
      + rewrite H4, Hp. easy.
      + rewrite Forall_forall in H6. split; [|split].
        * intros m' Hm'. rewrite Hm in Hm'. injection Hm'; intros <-. rewrite H4, Hp. intros x (kv & K1 & K2). eapply (proj1 (proj2 Om)); eauto.
        * intros c0 Hc0. rewrite H5 in Hc0. rewrite H4, Hp. intros x (kv & K1 & K2). eapply (proj1 (proj2 (H6 c0 Hc0))); eauto.
        * intros f fn t Hin Hg Hl Ht. destruct H3 as [_ H3]. destruct (H3 f fn Hin Hg Hl) as [K _].
          destruct (K t Ht) as [(K1 & K2 & K3) _]. rewrite H4, Hp. split; [|split]; intros x (kv & J1 & J2); eauto.
      + split; [|split].
        * intros m' Hm'. rewrite Hm in Hm'. injection Hm'; intros <-. apply Om.
        * rewrite H5. eapply Forall_impl; [|exact H6]. intros c0 Hc0. apply Hc0.
        * intros f fn Hin Hg Hl. destruct H3 as [_ H3]. destruct (H3 f fn Hin Hg Hl) as [K _]. apply Forall_forall. intros t Ht. apply K; easy.
      + easy.
    - intros d r q. destruct (H9 d r q) as [B W]. rewrite <- HA. split.
      + intros (v & phi & V1 & V2 & V3 & V4 & V5 & V6). apply (B v phi senv0); try easy.
        intros c0 Hc0. apply V5. rewrite H5. easy.
      + intros Ha. destruct (W (mkVal d (fun _ => vzero) (fun _ => 0) r) (fun _ => rfun0) senv0) as (v & phi & (V1 & V2 & V3) & _ & V4 & V5 & V6); try easy.
        * intros f fn Hin. rewrite Hf in Hin. destruct Hin.
        * exists v, phi. split; [easy|]. split; [easy|]. split; [easy|]. split; [easy|]. split; [|easy].
          intros c0 Hc0. apply V5. rewrite H5 in Hc0. easy.
  Qed.

  (** CircuitOpt() *)
  Definition pb0 : problem := mkProblem default_params [] None None.
  Definition reset_state (s : state) : state := mkState (st_next s) 0 0 0 (st_funs s) [] [] [].
  Lemma start_ok params names s : has_keys params names -> start params names s = (Ok pb0, reset_state s).
  Proof using Type.
    intros H. destruct params as [ps|]; [|reflexivity].
    change (start (Some ps) names s) with ((if forallb (fun x => match dget String.eqb x ps with Some _ => true | None => false end) names
      then ret pb0 else lift (Err KeyError)) (reset_state s)).
    replace (forallb _ names) with true; [reflexivity|]. symmetry. apply forallb_forall. intros x Hx.
    destruct (H x Hx) as (q & ->). reflexivity.
  Qed.
  Lemma builder_start params names (k : problem -> M problem) s0 A (A' : nat -> env -> R -> Prop) pb :
    has_keys params names -> Inv s0 -> pr_params pb = P -> pr_cons pb = [] ->
    T P (k pb0) (reset_state s0) pb ctx0 A -> (forall d r q, A d r senv0 q <-> A' d r q) ->
    builds (bind (start params names) k) s0 P A'.
  Proof using GP.
    intros K I Hp Hn HT HA. destruct (T_problem (k pb0) (reset_state s0) pb A A') as (p & s & H); try easy.
    - apply reset_inv. apply inv_fid; easy.
    - exists p, s. split; [|easy]. unfold bind. rewrite start_ok by exact K. easy.
  Qed.
  Lemma symok_param params x : In x P -> symok P (param params x).
  Proof using Type.
    intros H y Hy. destruct params as [ps|]; simpl in Hy; [destruct Hy|]. destruct Hy as [<-|[]]; exact H.
  Qed.
End Run.

Lemma builds_iff k s0 P A A' : (forall d r q, A d r q <-> A' d r q) -> builds k s0 P A -> builds k s0 P A'.
Proof.
  intros H (p & s & H1 & H2 & H3 & H4). exists p, s. repeat (split; [easy|]). intros d r q. rewrite <- H. apply H4.
Qed.

(** * Tactics *)
Lemma let_iff {A} (x y : A) (P Q : A -> Prop) : x = y -> (forall z, P z <-> Q z) -> (exists z, z = x /\ P z) <-> Q y.
Proof. intros <- H. rewrite <- H. split; [intros (z & -> & K); easy|intros K; eauto]. Qed.
Lemma ex_iff {A} (P Q : A -> Prop) : (forall z, P z <-> Q z) -> (exists z, P z) <-> (exists z, Q z).
Proof. intros H. split; intros (z & K); exists z; apply H; easy. Qed.
Lemma and_iff (A B P Q : Prop) : (A <-> B) -> (P <-> Q) -> (A /\ P) <-> (B /\ Q).
Proof. tauto. Qed.
Lemma proxed_iff d phi c c' a a' x g z : c = c' -> a = a' -> proxed d phi c a x g z <-> proxed d phi c' a' x g z.
Proof. intros -> ->. easy. Qed.
Lemma Q2R_nz q : Q2R q <> 0 -> ~ (q == 0)%Q.
Proof. intros H E. apply H. apply Qeq_eqR in E. rewrite E. apply Q2R_0'. Qed.
Lemma padd_pruned SY a b : pruned (padd SY a b).
Proof. unfold pruned, padd; simpl. apply prune_prune. Qed.
Lemma nz_inv x : x <> 0 -> / x <> 0. Proof. apply Rinv_neq_0_compat. Qed.

Ltac idx x l := lazymatch l with x :: _ => constr:(O) | _ :: ?l' => let n := idx x l' in constr:(S n) end.
Ltac cnorm t := eval cbn [cf cs cx ce cl cm addf adds addx adde addl addm ctx0 app] in t.
Ltac find_f := lazymatch goal with |- nth_error (cf ?c) ?i = Some ?f =>
  let l := cnorm (cf c) in let n := idx f l in unify i n; reflexivity end.
Ltac find_l := lazymatch goal with |- nth_error (cl ?c) ?i = Some ?f =>
  let l := cnorm (cl c) in let n := idx f l in unify i n; reflexivity end.
Ltac find_m := lazymatch goal with |- nth_error (cm ?c) ?i = Some ?f =>
  let l := cnorm (cm c) in let n := idx f l in unify i n; reflexivity end.
Ltac sidx x l := lazymatch l with (x, _) :: _ => constr:(O) | _ :: ?l' => let n := sidx x l' in constr:(S n) end.
Ltac find_s := lazymatch goal with |- nth_error (cs ?c) ?i = Some (?F, _) =>
  let l := cnorm (cs c) in let n := sidx F l in unify i n; reflexivity end.
Ltac in_list := solve [cbn; tauto | unfold default_params; vm_compute; tauto].
Ltac symok := repeat first
  [ apply symok_num | apply symok_div | apply symok_mul | apply symok_sub | apply symok_neg | apply symok_add
  | apply symok_param; vm_compute; tauto | apply symok_sym; vm_compute; tauto ].
Ltac derp OK := lazymatch goal with
  | |- derp _ _ (padd _ _ _) _ => eapply (derp_add OK); [derp OK|derp OK]
  | |- derp _ _ (psub _ _ _) _ => eapply (derp_sub OK); [derp OK|derp OK]
  | |- derp _ _ (pscale _ _ _) _ => eapply (derp_scale OK); [symok|derp OK]
  | |- derp _ _ (pneg _ _) _ => eapply (derp_neg OK); derp OK
  | |- derp _ _ (pdivq _ _ _) _ => eapply (derp_divq OK); derp OK
  | |- derp _ _ zero_point _ => eapply derp_zero
  | |- derp _ ?c ?p _ => let l := cnorm (cx c) in let n := idx p l in eapply (derp_var _ n); reflexivity
  end.
Ltac dere OK := lazymatch goal with
  | |- dere _ _ (eadd _ _ _) _ => eapply (dere_add OK); [dere OK|dere OK]
  | |- dere _ _ (esub _ _ _) _ => eapply (dere_sub OK); [dere OK|dere OK]
  | |- dere _ _ (escale _ _ _) _ => eapply (dere_scale OK); [symok|dere OK]
  | |- dere _ _ (pmul _ _ _) _ => eapply (dere_mul OK); [derp OK|derp OK]
  | |- dere _ _ (psq _ _) _ => eapply (dere_sq OK); derp OK
  | |- dere _ ?c ?p _ => let l := cnorm (ce c) in let n := idx p l in eapply (dere_var _ n); reflexivity
  end.
Ltac prune := first [assumption | match goal with H : ?x = _ |- pruned ?x => rewrite H end;
                     first [apply psub_pruned | apply padd_pruned] | apply psub_pruned | apply padd_pruned].
Ltac after := cbv beta iota.
Ltac step OK := lazymatch goal with
  | |- T _ (bind (def_function _ _) _) _ _ _ _ => eapply T_def; [assumption|intros ? ?; after]
  | |- T _ (bind set_initial_point _) _ _ _ _ => eapply T_point; intros ? ? ?; after
  | |- T _ (bind (oracle _ _ _) _) _ _ _ _ => eapply (T_oracle OK); [find_f|derp OK|prune|intros ? ? ?; after]
  | |- T _ (bind (proximal_step _ _ _ _) _) _ _ _ _ => eapply (T_prox OK); [find_f|derp OK|symok|intros ? ? ? ? ?; after]
  | |- T _ (bind (stationary_point _ _) _) _ _ _ _ =>
      first [ eapply (T_stat OK); [find_f|intros ? ? ? ?; after]
            | eapply (T_stat_sum OK); [find_s|cbn; lia|intros ? ? ? ?; after] ]
  | |- T _ (bind (fn_add _ _ _) _) _ _ _ _ =>
      eapply T_fn_add; [find_f|first [left; eexists; split; [find_f|reflexivity]|right; eexists; find_s]
                       |cbn; intuition discriminate|intros ? ?; after]
  | |- T _ (bind (add_equality _ _) _) _ _ _ _ => eapply (T_equality OK); [derp OK|after]
  | |- T ?P (let x : point := ?e in @?k x) ?s ?pb ?c ?A => change (T P (k e) s pb c A); eapply (T_let P k e); [derp OK|intros ? ?; after]
  | |- T ?P (let x : expr := ?e in @?k x) ?s ?pb ?c ?A => change (T P (k e) s pb c A); eapply (T_lete P k e); [dere OK|intros ?; after]
  | |- T ?P (let x : Q := ?e in @?k x) ?s ?pb ?c ?A => change (T P (k e) s pb c A); after
  | |- T ?P (let x : sexpr := ?e in @?k x) ?s ?pb ?c ?A => change (T P (k e) s pb c A); after
  | |- T ?P (let x : problem := ?e in @?k x) ?s ?pb ?c ?A => change (T P (k e) s pb c A); after
  | |- T _ (ret (set_performance_metric _ _)) _ _ _ _ => eapply T_ret; dere OK
  end.

Lemma Q2R_num_1 : Q2R 1 = 1. Proof. unfold Q2R; simpl; lra. Qed.
Lemma Q2R_num_2 : Q2R 2 = 2. Proof. unfold Q2R; simpl; lra. Qed.
Lemma Q2R_num_3 : Q2R 3 = 3. Proof. unfold Q2R; simpl; lra. Qed.
Lemma Q2R_num_4 : Q2R 4 = 4. Proof. unfold Q2R; simpl; lra. Qed.
Lemma Q2R_num_5 : Q2R 5 = 5. Proof. unfold Q2R; simpl; lra. Qed.
Lemma Q2R_half : Q2R (1 # 2) = / 2. Proof. unfold Q2R; simpl; lra. Qed.
Lemma Q2R_third : Q2R (1 # 3) = / 3. Proof. unfold Q2R; simpl; lra. Qed.
Lemma Q2R_fourth : Q2R (1 # 4) = / 4. Proof. unfold Q2R; simpl; lra. Qed.
Lemma vsub_zero x : vsub x vzero = x.
Proof. apply functional_extensionality. intros k. unfold vsub, vzero. ring. Qed.
Ltac nzr := repeat first [assumption | lra | apply Rmult_integral_contrapositive_currified | apply Rinv_neq_0_compat | apply Ropp_neq_0_compat].
Ltac q2r := unfold Qdiv, Qminus; repeat first
  [ rewrite Q2R_red | rewrite Q2R_mult | rewrite Q2R_plus | rewrite Q2R_opp | rewrite Q2R_inv by qnz ];
  rewrite ?Q2R_num_1, ?Q2R_num_2, ?Q2R_num_3, ?Q2R_num_4, ?Q2R_num_5, ?Q2R_half, ?Q2R_third, ?Q2R_fourth;
  repeat match goal with H : Q2R (inv_ext _) = _ |- _ => rewrite H end
with qnz := first [discriminate | apply Q2R_nz; assumption | apply Q2R_nz; q2r; nzr].
Lemma param_ev r params x : ev r (param params x) = value params r x.
Proof. destruct params; reflexivity. Qed.
Ltac evs := unfold sdivq; rewrite ?smul_ev, ?ssub_ev, ?sneg_ev, ?sadd_ev, ?param_ev; cbn [ev]; q2r.
Ltac fld := first [reflexivity | ring | field; repeat split; nzr].
Ltac vec := first [reflexivity | apply functional_extensionality; intros ?k; unfold vadd, vsub, vscal, vopp, vzero; evs; fld].
Ltac real := first [reflexivity | rewrite ?vsub_zero, ?dot_scal_l; evs; fld].
Ltac veq := split; intros Heq; apply functional_extensionality; intros ?k; match goal with k : nat |- _ => apply (f_equal (fun f => f k)) in Heq end;
  revert Heq; unfold vadd, vsub, vscal, vopp, vzero; evs; rewrite ?Rinv_mult; lra.
Ltac leaf := lazymatch goal with
  | |- proxed _ _ _ _ _ _ _ <-> proxed _ _ _ _ _ _ _ => apply proxed_iff; [real|vec]
  | |- @eq vec _ _ <-> @eq vec _ _ => first [reflexivity | veq]
  | |- _ <-> _ => reflexivity
  end.
Ltac walk := repeat lazymatch goal with
  | |- (exists _ : vec, _ = _ /\ _) <-> (let x := ?e in @?Q x) => apply (let_iff _ e _ Q); [vec|intros ?]
  | |- (exists _ : R, _ = _ /\ _) <-> (let x := ?e in @?Q x) => apply (let_iff _ e _ Q); [real|intros ?]
  | |- (exists _, _) <-> (exists _, _) => apply ex_iff; intros ?
  | |- (_ /\ _) <-> (_ /\ _) => apply and_iff; [leaf|]
  | |- _ = ?a <-> _ = ?b => replace a with b by real; reflexivity
  end.
Ltac semantics := cbv beta iota delta [pushf pushx pushe pushl pushm vf vx ve vl vm senv0 nth app map].

