(** Strictly feasible data for the builders of several functions. *)
From Coq Require Import List Arith Bool String QArith Reals Qreals Lia Lra FunctionalExtensionality.
From Verif Require Import Prelude PreludeFacts Sympy SympyFacts AlgebraModel Denote AlgebraFacts FunctionModel CircuitModel SymSpec
  Spec SpecFacts ClassSpec CertSpec StateSpec StateFacts CertFacts FunctionSpec FunctionFacts FunctionFacts2
  SymbolFacts SolverSpec BuilderModel BuilderSpec BuildsSpec BuilderLogic BuilderT BuilderRun BuilderProof Examples BuilderExamples
  DualitySpec DualityProps DualityExamples StrictSpec StrictProps StrictSum StrictBuild.
Import ListNotations.
Local Open Scope R_scope.
Ltac wfp := repeat first [assumption | apply padd_wf | apply zero_point_wf].
Ltac nullden OK := match goal with K : forall v, vsum _ = vzero |- den_p ?v ?p = vzero =>
  rewrite ?(psub_den _ OK), ?(padd_den _ OK), ?zero_point_den by wfp;
  apply functional_extensionality; intros ?i; let K' := fresh in assert (K' := f_equal (fun w => w i) (K v)); cbn [map] in K';
  unfold vsum in K'; cbn [fold_right] in K'; unfold vsub, vadd, vzero in *; lra end.
Ltac vstep OK := lazymatch goal with
  | |- U _ _ (bind (fn_add _ _ _) _) _ _ _ =>
      eapply U_fn_add; [find_f|first [left; eexists; split; [find_f|reflexivity]|right; eexists; find_s]
                       |cbn; intuition discriminate|intros ? ?; after]
  | |- U _ _ (bind (stationary_point _ _) _) _ _ _ =>
      first [ eapply (U_stat OK); [find_f|intros ? ? ? ?; after]
            | eapply (U_stat_sum OK); [find_s|cbn; lia|intros _; cbn; lia|
                intros ? ? ? ? ? ?FF ?; cbn [app] in FF;
                repeat match type of FF with Forall2 _ _ _ => let a := fresh "FF" in inversion FF as [|? ? ? ? [? ?] a]; subst; clear FF; rename a into FF end; inversion FF; subst; clear FF;
                repeat match goal with H : recorded ?s (nth ?i ?l ?d) ?x ?g |- _ => let n := eval cbn in (nth i l d) in change (recorded s n x g) in H end; after] ]
  | |- U _ _ (bind (oracle _ _ _) _) _ _ _ =>
      first [ eapply (U_oracle_known OK); [find_f|reflexivity|derp OK|eassumption|intros ?; after]
            | eapply (U_oracle OK); [find_f|derp OK|prune|intros ? ? ?; after] ]
  | |- U _ _ (bind (add_equality _ _) _) _ _ _ =>
      eapply (U_equality OK); [derp OK|intros ?v _; nullden OK|intros ?; after]
  | |- U _ _ (ret (set_performance_metric _ _)) _ _ _ => eapply U_ret; intros ?c ?Hc; cbn in Hc;
      solve [destruct Hc | destruct Hc as [<-|Hc]; [assumption|destruct Hc]]
  | _ => ustep OK
  end.


Lemma opt_zero qs : Forall (fun q => 0 <= q) qs -> optimal 1 (map qf qs) (pt 0) 0.
Proof.
  intros H. split; [apply in_R1_pt|]. exists (map (fun _ => vzero) qs), (map (fun _ => 0) qs). split; [|split].
  - induction H as [|q qs Hq H IH]; [constructor|]. simpl. constructor; [apply qf_query_min; exact Hq|exact IH].
  - clear H. induction qs as [|q qs IH]; [reflexivity|]. unfold vsum in *. simpl. rewrite IH. apply functional_extensionality. intros k. unfold vadd, vzero. ring.
  - clear H. induction qs as [|q qs IH]; [reflexivity|]. unfold rsuml in *. simpl. rewrite <- IH. ring.
Qed.
Lemma nodup_pts l : Forall (@NoDup R) l -> Forall (@NoDup vec) (map (map pt) l).
Proof. induction 1 as [|a l H _ IH]; [constructor|]. simpl. constructor; [apply nodup_pt; exact H|exact IH]. Qed.
Ltac unfold_aux := repeat match goal with H := ?b : R |- _ => lazymatch b with _ / (1 + _) => fail | _ => progress unfold H end end.
Ltac aprox q Hq c Nq z := lazymatch goal with |- exists x g z0, proxed 1 (qf q) _ ?e x g z0 /\ _ =>
  let E1 := fresh in assert (E1 : e = pt z) by (unfold_aux; pteq); rewrite E1; clear E1;
  exists (pt (z / (1 + c * q))); eexists _, _; split; [exact (qf_proxed q c z Hq Nq)|] end.
Ltac aask q Hq x N := lazymatch goal with |- exists g z, query 1 (qf q) ?e g z /\ _ =>
  first [constr_eq e (pt x) | let E1 := fresh in assert (E1 : e = pt x) by (unfold_aux; pteq); rewrite !E1; clear E1];
  eexists _, _; split; [apply qf_query_pt; exact Hq|]; split; [match type of N with NoDup ?l => let l' := eval simpl in (removelast l) in exact (nodup_last l' _ N) end|] end.

Section B.
  Context {SY : sympy} (OK : sympy_ok SY).
  Lemma prox_gradient_strict s0 mu l Rs C : good_class mu (Fin l) -> Q2R C <> 0 -> Q2R Rs <> 0 -> Inv s0 ->
    forall p s r q1 q2 x1, prox_gradient_circuit SY None mu (Fin l) Rs C s0 = (Ok p, s) ->
    inside mu (Fin l) q1 -> inside 0 Inf q2 -> 1 + Q2R Rs * q2 <> 0 ->
    Forall (@NoDup R) (prox_gradient_points (Q2R Rs) (Q2R C) (r "h"%string) q1 q2 x1) ->
    exists v, v_env v = r /\ strictly_feasible v p s.
  Proof.
    intros HC NC NR HI p s r q1 q2 x1 E I1 I2 N2 Nd. revert E. cbv delta [prox_gradient_circuit]; cbv beta. intros E. assert (GI := good_zero_inf).
    refine (U_start default_params None _ _ s0 _ I HI _ p s r E _).
    - repeat vstep OK.
    - semantics. cbn [upd upds fold_left nth app]. clear E. apply nodup_pts in Nd.
      assert (Hq1 : 0 <= q1) by (destruct HC, I1; lra). assert (Hq2 : 0 <= q2) by (destruct GI, I2; lra).
      set (e1 := x1 - (Q2R Rs) * (q1 * x1)). set (p1 := e1 / (1 + (Q2R Rs) * q2)). set (x2 := x1 - r "h"%string / Q2R C * ((e1 - p1) / (Q2R Rs) + q1 * x1)).
      set (e2 := x2 - (Q2R Rs) * (q1 * x2)). set (p2 := e2 / (1 + (Q2R Rs) * q2)).
      change (Forall (@NoDup vec) [[pt 0; pt x1; pt x2]; [pt 0; pt p1; pt p2]]) in Nd.
      assert (Na := Forall_inv Nd). assert (N1 : NoDup [pt 0; pt x1]) by exact (nodup_prefix [pt 0; pt x1] _ Na).
      exists q1. split; [exact I1|]. exists q2. split; [exact I2|].
      exists (pt 0), 0. split; [apply (opt_zero [q1; q2]); repeat (apply Forall_cons; [assumption|]); apply Forall_nil|].
      exists vzero, 0. split; [apply qf_query_min; exact Hq1|].
      exists (pt x1). split; [apply in_R1_pt|]. aask q1 Hq1 x1 N1.
      aprox q2 Hq2 (Q2R Rs) N2 e1. fold p1. aask q1 Hq1 x2 Na. aprox q2 Hq2 (Q2R Rs) N2 e2. exact Nd.
  Qed.

  Lemma douglas_rachford_strict s0 mu l Rs Ind : good_class mu (Fin l) -> Q2R Ind <> 0 -> Inv s0 ->
    forall p s r q1 q2 i0 x0, douglas_rachford_splitting SY None mu (Fin l) Rs Ind s0 = (Ok p, s) ->
    inside mu (Fin l) q1 -> inside mu (Fin l) q2 -> 1 + Q2R Rs * q1 <> 0 -> 1 + Q2R Rs * q2 <> 0 ->
    Forall (@NoDup R) (douglas_rachford_points (Q2R Rs) (Q2R Ind) (r "h"%string) (r "alpha"%string) q1 q2 i0 x0) ->
    exists v, v_env v = r /\ strictly_feasible v p s.
  Proof.
    intros HC NI HI p s r q1 q2 i0 x0 E I1 I2 N1 N2 Nd. revert E. cbv delta [douglas_rachford_splitting]; cbv beta. intros E.
    refine (U_start default_params None _ _ s0 _ I HI _ p s r E _).
    - repeat vstep OK.
    - semantics. cbn [upd upds fold_left nth app]. clear E. apply nodup_pts in Nd.
      assert (Hq1 : 0 <= q1) by (destruct HC, I1; lra). assert (Hq2 : 0 <= q2) by (destruct HC, I2; lra).
      set (z1 := x0 + (Q2R Rs) * i0). set (a1 := z1 / (1 + (Q2R Rs) * q1)). set (w1 := a1 - (Q2R Rs) * i0). set (b1 := w1 / (1 + (Q2R Rs) * q2)).
      set (i1 := i0 + r "h"%string / Q2R Ind * (b1 - a1)).
      set (z15 := b1 + (Q2R Rs) * i1). set (a15 := z15 / (1 + (Q2R Rs) * q1)). set (w15 := a15 - (Q2R Rs) * i1). set (b15 := w15 / (1 + (Q2R Rs) * q2)).
      set (i15 := i1 + r "alpha"%string * r "h"%string / Q2R Ind * (b1 - a1)).
      set (z2 := b15 + (Q2R Rs) * i15). set (a2 := z2 / (1 + (Q2R Rs) * q1)). set (w2 := a2 - (Q2R Rs) * i15). set (b2 := w2 / (1 + (Q2R Rs) * q2)).
      change (Forall (@NoDup vec) [[pt 0; pt a1; pt a15; pt a2]; [pt 0; pt b1; pt b15; pt b2]]) in Nd.
      exists q1. split; [exact I1|]. exists q2. split; [exact I2|].
      exists (pt 0), 0. split; [apply (opt_zero [q1; q2]); repeat (apply Forall_cons; [assumption|]); apply Forall_nil|].
      exists vzero, 0. split; [apply qf_query_min; exact Hq1|]. exists vzero, 0. split; [apply qf_query_min; exact Hq2|].
      exists (pt i0). split; [apply in_R1_pt|]. exists (pt x0). split; [apply in_R1_pt|].
      aprox q1 Hq1 (Q2R Rs) N1 z1. fold a1. aprox q2 Hq2 (Q2R Rs) N2 w1. fold b1.
      aprox q1 Hq1 (Q2R Rs) N1 z15. fold a15. aprox q2 Hq2 (Q2R Rs) N2 w15. fold b15.
      aprox q1 Hq1 (Q2R Rs) N1 z2. fold a2. aprox q2 Hq2 (Q2R Rs) N2 w2. fold b2. exact Nd.
  Qed.

  Lemma davis_yin_strict s0 mu l Rs Ind : good_class mu (Fin l) -> Q2R Rs <> 0 -> Q2R Ind <> 0 -> Inv s0 ->
    forall p s r q1 q2 q3 i0 x0, davis_yin_splitting SY None mu (Fin l) Rs Ind s0 = (Ok p, s) ->
    inside mu (Fin l) q1 -> inside mu (Fin l) q2 -> inside mu (Fin l) q3 -> 1 + Q2R Rs * q1 <> 0 -> 1 + Q2R Rs * q2 <> 0 ->
    Forall (@NoDup R) (davis_yin_points (Q2R Rs) (Q2R Ind) (r "h"%string) (r "alpha"%string) q1 q2 q3 i0 x0) ->
    exists v, v_env v = r /\ strictly_feasible v p s.
  Proof.
    intros HC NR NI HI p s r q1 q2 q3 i0 x0 E I1 I2 I3 N1 N2 Nd. revert E. cbv delta [davis_yin_splitting]; cbv beta. intros E.
    refine (U_start default_params None _ _ s0 _ I HI _ p s r E _).
    - repeat vstep OK.
    - semantics. cbn [upd upds fold_left nth app]. clear E. apply nodup_pts in Nd.
      assert (Hq1 : 0 <= q1) by (destruct HC, I1; lra). assert (Hq2 : 0 <= q2) by (destruct HC, I2; lra). assert (Hq3 : 0 <= q3) by (destruct HC, I3; lra).
      set (e0 := x0 - (Q2R Rs) * i0 - (Q2R Rs) * (q3 * x0)).
      set (z1 := 2 * x0 - e0 - (Q2R Rs) * (q3 * x0)). set (a1 := z1 / (1 + (Q2R Rs) * q1)). set (w1 := a1 + e0 - x0). set (b1 := w1 / (1 + (Q2R Rs) * q2)).
      set (i1 := i0 + r "h"%string / Q2R Ind * (b1 - a1)). set (e1 := b1 - (Q2R Rs) * (q3 * b1) - (Q2R Rs) * i1).
      set (z15 := 2 * b1 - e1 - (Q2R Rs) * (q3 * b1)). set (a15 := z15 / (1 + (Q2R Rs) * q1)). set (w15 := a15 + e1 - b1). set (b15 := w15 / (1 + (Q2R Rs) * q2)).
      set (i15 := i1 + r "alpha"%string * r "h"%string / Q2R Ind * (b15 - a15)). set (e15 := b15 - (Q2R Rs) * (q3 * b15) - (Q2R Rs) * i15).
      set (z2 := 2 * b15 - e15 - (Q2R Rs) * (q3 * b15)). set (a2 := z2 / (1 + (Q2R Rs) * q1)). set (w2 := a2 + e15 - b15). set (b2 := w2 / (1 + (Q2R Rs) * q2)).
      change (Forall (@NoDup vec) [[pt 0; pt a1; pt a15; pt a2]; [pt 0; pt b1; pt b15; pt b2]; [pt 0; pt x0; pt b1; pt b15; pt b2]]) in Nd.
      assert (Nc := Forall_inv (Forall_inv_tail (Forall_inv_tail Nd))).
      assert (Nc1 : NoDup [pt 0; pt x0]) by exact (nodup_prefix [pt 0; pt x0] _ Nc).
      assert (Nc2 : NoDup [pt 0; pt x0; pt b1]) by exact (nodup_prefix [pt 0; pt x0; pt b1] _ Nc).
      assert (Nc3 : NoDup [pt 0; pt x0; pt b1; pt b15]) by exact (nodup_prefix [pt 0; pt x0; pt b1; pt b15] _ Nc).
      exists q1. split; [exact I1|]. exists q2. split; [exact I2|]. exists q3. split; [exact I3|].
      exists (pt 0), 0. split; [apply (opt_zero [q1; q2; q3]); repeat (apply Forall_cons; [assumption|]); apply Forall_nil|].
      exists vzero, 0. split; [apply qf_query_min; exact Hq1|]. exists vzero, 0. split; [apply qf_query_min; exact Hq2|].
      exists vzero, 0. split; [apply qf_query_min; exact Hq3|].
      exists (pt i0). split; [apply in_R1_pt|]. exists (pt x0). split; [apply in_R1_pt|].
      aask q3 Hq3 x0 Nc1. aprox q1 Hq1 (Q2R Rs) N1 z1. fold a1. aprox q2 Hq2 (Q2R Rs) N2 w1. fold b1.
      aask q3 Hq3 b1 Nc2. aprox q1 Hq1 (Q2R Rs) N1 z15. fold a15. aprox q2 Hq2 (Q2R Rs) N2 w15. fold b15.
      aask q3 Hq3 b15 Nc3. aprox q1 Hq1 (Q2R Rs) N1 z2. fold a2. aprox q2 Hq2 (Q2R Rs) N2 w2. fold b2.
      aask q3 Hq3 b2 Nc. exact Nd.
  Qed.
End B.
