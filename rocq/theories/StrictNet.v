(** Strictly feasible data for the consensus builders: every function is evaluated
    at the minimiser and at one proximal point only. *)
From Coq Require Import List Arith Bool String QArith Reals Qreals Lia Lra FunctionalExtensionality.
From Verif Require Import Prelude PreludeFacts Sympy SympyFacts AlgebraModel Denote AlgebraFacts FunctionModel CircuitModel SymSpec
  Spec SpecFacts ClassSpec CertSpec StateSpec StateFacts CertFacts FunctionSpec FunctionFacts FunctionFacts2
  SymbolFacts SolverSpec BuilderModel BuilderSpec BuildsSpec BuilderLogic BuilderT BuilderRun BuilderProof Examples BuilderExamples
  DualitySpec DualityProps DualityExamples StrictSpec StrictProps StrictSum StrictBuild StrictMulti.
Import ListNotations.
Local Open Scope R_scope.

Lemma inside_avoid mu l (cs : list R) : good_class mu (Fin l) -> exists q, inside mu (Fin l) q /\ Forall (fun c => 1 + c * q <> 0) cs.
Proof.
  intros [H0 H1]. destruct (avoid (map (fun c => - / c) cs) (Q2R mu) (Q2R l) H1) as (q & Hq & Nq). exists q. split; [exact Hq|].
  apply Forall_forall. intros c Hc E. apply Nq. assert (c <> 0) by (intros ->; lra).
  replace q with (- / c); [exact (in_map (fun c => - / c) cs c Hc)|]. apply (Rmult_eq_reg_l c); [|assumption]. field_simplify; [lra|assumption].
Qed.
Lemma nodup_two a c q : a <> 0 -> 1 + c * q <> 0 -> NoDup [pt 0; pt (a / (1 + c * q))].
Proof.
  intros Ha Hc. apply (nodup_pt [0; a / (1 + c * q)]). constructor; [|constructor; [intros []|constructor]]. intros [E|[]]. apply Ha.
  apply (Rmult_eq_reg_r (/ (1 + c * q))); [|apply Rinv_neq_0_compat; exact Hc]. unfold Rdiv in E. lra.
Qed.
Lemma U_equality_wf {SY : sympy} (OK : sympy_ok SY) P bs (k : problem -> M problem) p X s c pb A' : derp P c p X ->
  (Forall wf_p (cx c) -> forall v, den_p v p = vzero) ->
  ((forall v, den_e v (psq SY p) = 0) -> U P bs (k (add_constraint pb (mkConstr (psq SY p) Equality))) s c A') ->
  U P bs (bind (add_equality pb (psq SY p)) k) s c A'.
Proof.
  intros HX Hz H HS Hc. assert (Wc : Forall wf_p (cx c)).
  { destruct Hc as (_ & _ & Hc & _). eapply Forall_impl; [|exact Hc]. intros x Hx. exact (okp_wf P s x Hx). }
  exact (U_equality OK P bs k p X s c pb A' HX (fun v _ => Hz Wc v) H HS Hc).
Qed.
Ltac nwf := repeat first [assumption | apply padd_wf | apply psub_wf | apply zero_point_wf].
Ltac nnull OK := intros ?W; cbn [cx addx adde addf adds app] in W;
  repeat match goal with W : Forall wf_p (_ :: _) |- _ => let h := fresh in assert (h := Forall_inv W); apply Forall_inv_tail in W end;
  intros ?v; match goal with K : forall v, vsum _ = vzero |- den_p ?v ?p = vzero =>
  rewrite ?(psub_den _ OK), ?(padd_den _ OK), ?zero_point_den by nwf; rewrite ?(psub_den _ OK), ?(padd_den _ OK) by nwf;
  apply functional_extensionality; intros ?i; let K' := fresh in assert (K' := f_equal (fun w => w i) (K v)); cbn [map] in K';
  unfold vsum in K'; cbn [fold_right] in K'; unfold vsub, vadd, vzero in *; lra end.
Ltac nstep OK := lazymatch goal with
  | |- U _ _ (ret (set_performance_metric _ _)) _ _ _ => eapply U_ret; intros ?c ?Hc; cbn in Hc;
      repeat (destruct Hc as [<-|Hc]; [assumption|]); destruct Hc
  | |- U _ _ (bind (add_equality _ _) _) _ _ _ =>
      eapply (U_equality_wf OK); [derp OK|nnull OK|intros ?; after]
  | _ => vstep OK
  end.
Ltac nprox q Hq := lazymatch goal with |- exists x g z0, proxed 1 (qf q) (ev _ (Num ?c)) ?e x g z0 /\ _ =>
  first [constr_eq e (pt 1) | let E1 := fresh in assert (E1 : e = pt 1) by (apply functional_extensionality; intros [|?k]; unfold vsub, vadd, vscal, vopp, pt; cbn [Nat.eqb]; evs; first [ring | field; repeat split; nzr]);
  rewrite E1; clear E1]; exists (pt (1 / (1 + Q2R c * q))); eexists _, _; split; [apply (qf_proxed q (Q2R c) 1 Hq); assumption|] end.
Ltac nstart q Iq Hq := repeat (exists q; split; [exact Iq|]); exists (pt 0), 0;
  split; [match goal with |- optimal 1 ?l _ _ => let rec go l := lazymatch l with nil => constr:(@nil R) | qf ?a :: ?t => let t' := go t in constr:(a :: t') end in
            let l' := go l in apply (opt_zero l') end; repeat (apply Forall_cons; [assumption|]); apply Forall_nil|];
  repeat (exists vzero, 0; split; [apply qf_query_min; exact Hq|]).
Ltac nend := repeat (apply Forall_cons; [apply nodup_two; [lra|assumption]|]); apply Forall_nil.
Ltac ninit a := exists (pt a); split; [apply in_R1_pt|].

Lemma avoid_linear (ab : list (R * R)) : Forall (fun t => fst t <> 0) ab -> exists i, Forall (fun t => fst t * i + snd t <> 0) ab.
Proof.
  intros H. destruct (avoid (map (fun t => - snd t / fst t) ab) 0 1 Rlt_0_1) as (i & _ & Ni). exists i. apply Forall_forall. intros t Ht E. apply Ni.
  rewrite Forall_forall in H. specialize (H t Ht). replace i with (- snd t / fst t); [exact (in_map (fun t => - snd t / fst t) ab t Ht)|].
  apply (Rmult_eq_reg_l (fst t)); [|exact H]. field_simplify; [lra|exact H].
Qed.
Lemma nodup_three a c q : a <> 0 -> a <> 1 + c * q -> 1 + c * q <> 0 -> NoDup [pt 0; pt 1; pt (a / (1 + c * q))].
Proof.
  intros Ha Hb Hc. apply (nodup_pt [0; 1; a / (1 + c * q)]). assert (K : a / (1 + c * q) * (1 + c * q) = a) by (field; exact Hc).
  repeat constructor; simpl; intros J; decompose [or] J; try lra; try contradiction;
    match goal with E : _ = _ / _ |- _ => rewrite <- E in K; lra | E : _ / _ = _ |- _ => rewrite E in K; lra end.
Qed.
Lemma nodup_one : NoDup [pt 0; pt 1].
Proof. apply (nodup_pt [0; 1]). repeat constructor; simpl; intros J; decompose [or] J; try lra; contradiction. Qed.

Lemma one_fresh : ~ In (pt 1) [pt 0].
Proof. assert (N := nodup_one). inversion N; subst. intros [J|[]]. match goal with H : ~ In _ _ |- _ => apply H; left; symmetry; exact J end. Qed.
Ltac pgprox q Hq c Nq z := lazymatch goal with |- exists x g z0, proxed 1 (qf q) _ ?e x g z0 /\ _ =>
  let E1 := fresh in assert (E1 : e = pt z) by (repeat match goal with H := _ : nat -> R |- _ => progress unfold H end; apply functional_extensionality; intros [|?k]; unfold vsub, vadd, vscal, vopp, pt; cbn [Nat.eqb]; evs; ring);
  rewrite E1; clear E1; exists (pt (z / (1 + c * q))); eexists _, _; split; [exact (qf_proxed q c z Hq Nq)|] end.

Section B.
  Context {SY : sympy} (OK : sympy_ok SY).
  Lemma consensus_proof_strict s0 mu l Rs : good_class mu (Fin l) -> Q2R Rs <> 0 -> Inv s0 ->
    forall p s r, admm_consensus_proof SY None mu (Fin l) Rs s0 = (Ok p, s) ->
    exists v, v_env v = r /\ strictly_feasible v p s.
  Proof.
    intros HC NR HI p s r E. revert E. cbv delta [admm_consensus_proof]; cbv beta zeta. intros E.
    destruct (inside_avoid mu l [Q2R (Qred (/ Qred (/ Rs)))] HC) as (q & Iq & Nq). apply Forall_inv in Nq.
    refine (U_start ["h"; "eta"; "rho"]%string None _ _ s0 _ I HI _ p s r E _).
    - repeat nstep OK.
    - semantics. cbn [upd upds fold_left nth app]. clear E.
      assert (Hq : 0 <= q) by (destruct HC, Iq; lra).
      nstart q Iq Hq. ninit 1. ninit 0. do 2 nprox q Hq. nend.
  Qed.
  Lemma cycle4_strict s0 mu l Rs Ind : good_class mu (Fin l) -> Inv s0 ->
    forall p s r, decentralized_admm_cycle4 SY None mu (Fin l) Rs Ind s0 = (Ok p, s) ->
    exists v, v_env v = r /\ strictly_feasible v p s.
  Proof.
    intros HC HI p s r E. revert E. cbv delta [decentralized_admm_cycle4]; cbv beta zeta. intros E.
    destruct (inside_avoid mu l [Q2R (Qred (Rs / 2))] HC) as (q & Iq & Nq). apply Forall_inv in Nq.
    refine (U_start ["h"; "eta"; "rho"; "gamma"]%string None _ _ s0 _ I HI _ p s r E _).
    - repeat nstep OK.
    - semantics. cbn [upd upds fold_left nth app]. clear E.
      assert (Hq : 0 <= q) by (destruct HC, Iq; lra). nstart q Iq Hq. ninit 0. do 4 ninit 1. do 4 ninit 0. do 4 nprox q Hq. nend.
  Qed.
  Lemma graph6_strict s0 mu l Rs Ind : good_class mu (Fin l) -> Inv s0 ->
    forall p s r, decentralized_admm_graph6 SY None mu (Fin l) Rs Ind s0 = (Ok p, s) ->
    exists v, v_env v = r /\ strictly_feasible v p s.
  Proof.
    intros HC HI p s r E. revert E. cbv delta [decentralized_admm_graph6]; cbv beta zeta. intros E.
    destruct (inside_avoid mu l [Q2R (Qred (Rs / 2)); Q2R (Qred (Rs / 3)); Q2R (Qred (Rs / 4)); Q2R Rs] HC) as (q & Iq & Nq).
    repeat match goal with W : Forall _ (_ :: _) |- _ => let h := fresh "N" in assert (h := Forall_inv W); apply Forall_inv_tail in W end.
    refine (U_start ["h"; "eta"; "rho"; "gamma"]%string None _ _ s0 _ I HI _ p s r E _).
    - repeat nstep OK.
    - semantics. cbn [upd upds fold_left nth app]. clear E.
      assert (Hq : 0 <= q) by (destruct HC, Iq; lra). nstart q Iq Hq. do 2 ninit 0. do 7 ninit 1. do 7 ninit 0. do 6 nprox q Hq. nend.
  Qed.
  Lemma C_graph6_strict s0 mu0 mu1 l0 l1 Rs C Ind : good_class mu0 (Fin l0) -> good_class mu1 (Fin l1) -> Inv s0 ->
    forall p s r, dadmm_C_graph6 SY None mu0 mu1 (Fin l0) (Fin l1) Rs C Ind s0 = (Ok p, s) ->
    exists v, v_env v = r /\ strictly_feasible v p s.
  Proof.
    intros HC0 HC1 HI p s r E. revert E. cbv delta [dadmm_C_graph6]; cbv beta zeta. intros E.
    destruct (inside_avoid mu0 l0 [Q2R (Qred (Rs / 2)); Q2R (Qred (Rs / 3)); Q2R (Qred (Rs / 4)); Q2R Rs] HC0) as (q0 & Iq0 & Nq0).
    destruct (inside_avoid mu1 l1 [Q2R (Qred (Rs / 2)); Q2R (Qred (Rs / 3)); Q2R (Qred (Rs / 4)); Q2R Rs] HC1) as (q1 & Iq1 & Nq1).
    repeat match goal with W : Forall _ (_ :: _) |- _ => let h := fresh "N" in assert (h := Forall_inv W); apply Forall_inv_tail in W end.
    refine (U_start ["h"; "eta"; "rho"; "gamma"]%string None _ _ s0 _ I HI _ p s r E _).
    - repeat nstep OK.
    - semantics. cbn [upd upds fold_left nth app]. clear E.
      assert (Hq0 : 0 <= q0) by (destruct HC0, Iq0; lra). assert (Hq1 : 0 <= q1) by (destruct HC1, Iq1; lra).
      do 3 (exists q0; split; [exact Iq0|]). do 2 (exists q1; split; [exact Iq1|]). exists q0. split; [exact Iq0|].
      nstart q0 Iq0 Hq0. do 2 (exists vzero, 0; split; [apply qf_query_min; exact Hq1|]). exists vzero, 0. split; [apply qf_query_min; exact Hq0|].
      do 2 ninit 0. do 7 ninit 1. do 8 ninit 0. do 3 nprox q0 Hq0. do 2 nprox q1 Hq1. nprox q0 Hq0. nend.
  Qed.
  Lemma pg_extra_strict s0 mu lh lf Rs W : good_class mu (Fin lh) -> good_class mu (Fin lf) -> Q2R Rs <> 0 -> Inv s0 ->
    forall p s r, pg_extra_l3 SY None mu (Fin lh) (Fin lf) Rs W s0 = (Ok p, s) ->
    exists v, v_env v = r /\ strictly_feasible v p s.
  Proof.
    intros HH HF NR HI p s r E. revert E. cbv delta [pg_extra_l3]; cbv beta zeta. intros E.
    destruct (inside_avoid mu lf [Q2R Rs] HF) as (q & Iq & Nq). apply Forall_inv in Nq.
    destruct (inside_avoid mu lh [] HH) as (u & Iu & _).
    set (w := fun i => Q2R (W i 0)%nat + Q2R (W i 1)%nat + Q2R (W i 2)%nat - Q2R Rs * u).
    destruct (avoid_linear [(- Q2R Rs, w 0%nat); (- Q2R Rs, w 0%nat - (1 + Q2R Rs * q))]) as (i12 & N12); [repeat (apply Forall_cons; [simpl; lra|]); apply Forall_nil|].
    destruct (avoid_linear [(- Q2R Rs, w 1%nat + Q2R Rs * i12); (- Q2R Rs, w 1%nat + Q2R Rs * i12 - (1 + Q2R Rs * q)); (Q2R Rs, w 2%nat); (Q2R Rs, w 2%nat - (1 + Q2R Rs * q))])
      as (i23 & N23); [repeat (apply Forall_cons; [simpl; lra|]); apply Forall_nil|].
    repeat match goal with W : Forall _ (_ :: _) |- _ => let h := fresh "N" in assert (h := Forall_inv W); apply Forall_inv_tail in W; cbv beta delta [fst snd w] iota in h end.
    refine (U_start ["h"; "alpha"; "beta"; "eta"; "rho"; "gamma"]%string None _ _ s0 _ I HI _ p s r E _).
    - repeat nstep OK.
    - semantics. cbn [upd upds fold_left nth app]. clear E.
      assert (Hq : 0 <= q) by (destruct HF, Iq; lra). assert (Hu : 0 <= u) by (destruct HH, Iu; lra).
      do 3 (exists q; split; [exact Iq|]). do 3 (exists u; split; [exact Iu|]). nstart q Iq Hq.
      do 3 (exists vzero, 0; split; [apply qf_query_min; exact Hu|]). do 3 ninit 1.
      do 3 (eexists _, _; split; [apply (qf_query_pt q 1 Hq)|]; split; [exact one_fresh|]).
      do 3 (eexists _, _; split; [apply (qf_query_pt u 1 Hu)|]; split; [exact one_fresh|]).
      ninit i12. ninit i23.
      pgprox q Hq (Q2R Rs) Nq (- Q2R Rs * i12 + w 0%nat).
      pgprox q Hq (Q2R Rs) Nq (- Q2R Rs * i23 + (w 1%nat + Q2R Rs * i12)).
      pgprox q Hq (Q2R Rs) Nq (Q2R Rs * i23 + w 2%nat).
      repeat (apply Forall_cons; [first [exact nodup_one | apply nodup_three; [unfold w; assumption|unfold w; lra|assumption]]|]). apply Forall_nil.
  Qed.
End B.
