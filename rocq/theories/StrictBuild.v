From Coq Require Import List Arith Bool String QArith Reals Qreals Lia Lra FunctionalExtensionality.
From Verif Require Import Prelude PreludeFacts Sympy SympyFacts AlgebraModel Denote AlgebraFacts FunctionModel CircuitModel SymSpec
  Spec SpecFacts ClassSpec CertSpec StateSpec StateFacts CertFacts FunctionSpec FunctionFacts FunctionFacts2
  SymbolFacts SolverSpec BuilderModel BuilderSpec BuildsSpec BuilderLogic BuilderT BuilderRun BuilderProof Examples BuilderExamples
  DualitySpec DualityProps DualityExamples StrictSpec StrictProps.
Import ListNotations.
Local Open Scope R_scope.

Ltac ustep OK := lazymatch goal with
  | |- U _ _ (bind (def_function _ _) _) _ _ _ => eapply U_def; [assumption|intros ? ?; after]
  | |- U _ _ (bind set_initial_point _) _ _ _ => eapply U_point; intros ? ? ?; after
  | |- U _ _ (bind (oracle _ _ _) _) _ _ _ => eapply (U_oracle OK); [find_f|derp OK|prune|intros ? ? ?; after]
  | |- U _ _ (bind (proximal_step _ _ _ _) _) _ _ _ => eapply (U_prox OK); [find_f|derp OK|symok|intros ? ? ? ? ?; after]
  | |- U _ _ (bind (stationary_point _ _) _) _ _ _ => eapply (U_stat OK); [find_f|intros ? ? ? ?; after]
  | |- U ?P ?bs (let x : point := ?e in @?k x) ?s ?c ?A => change (U P bs (k e) s c A); eapply (U_let P bs k e); [derp OK|intros ? ?; after]
  | |- U ?P ?bs (let x : expr := ?e in @?k x) ?s ?c ?A => change (U P bs (k e) s c A); eapply (U_lete P bs k e); [dere OK|intros ?; after]
  | |- U ?P ?bs (let x : Q := ?e in @?k x) ?s ?c ?A => change (U P bs (k e) s c A); after
  | |- U ?P ?bs (let x : sexpr := ?e in @?k x) ?s ?c ?A => change (U P bs (k e) s c A); after
  | |- U ?P ?bs (let x : problem := ?e in @?k x) ?s ?c ?A => change (U P bs (k e) s c A); after
  | |- U _ _ (ret (set_performance_metric _ _)) _ _ _ => eapply U_ret; try reflexivity; intros ? []
  end.

Lemma qf_query_pt q a : 0 <= q -> query 1 (qf q) (pt a) (pt (q * a)) (q * (a * a) / 2).
Proof.
  intros H. replace (pt (q * a)) with (vscal q (pt a)).
  - apply (qf_query q (pt a) H). intros [|k] Hk; [lia|reflexivity].
  - apply functional_extensionality. intros [|k]; unfold vscal, pt; simpl; ring.
Qed.
Lemma qf_query_min q : 0 <= q -> query 1 (qf q) (pt 0) vzero 0.
Proof.
  intros H. replace vzero with (pt (q * 0)); [replace 0 with (q * (0 * 0) / 2) at 3 by field; apply qf_query_pt; exact H|].
  apply functional_extensionality. intros [|k]; unfold pt, vzero; simpl; ring.
Qed.
Lemma in_R1_pt a : in_Rd 1 (pt a).
Proof. intros [|k] Hk; [lia|reflexivity]. Qed.
Lemma nodup_pt l : NoDup l -> NoDup (map pt l).
Proof.
  intros H. induction H as [|a l N H IH]; [constructor|]. simpl. constructor; [|exact IH]. intros K. apply in_map_iff in K as (b & E & Hb).
  apply N. replace a with b; [exact Hb|]. apply (f_equal (fun f => f 0%nat)) in E. unfold pt in E. simpl in E. exact E.
Qed.
Lemma nodup_last {A} (l : list A) x : NoDup (l ++ [x]) -> ~ In x l.
Proof. intros H. apply NoDup_remove_2 in H. rewrite app_nil_r in H. exact H. Qed.
Lemma nodup_prefix {A} (l m : list A) : NoDup (l ++ m) -> NoDup l.
Proof.
  induction l as [|a l IH]; intros H; [constructor|]. simpl in H. inversion_clear H as [|? ? N N']. constructor; [|apply IH; exact N'].
  intros K. apply N. apply in_or_app. left. exact K.
Qed.
Ltac pteq := apply functional_extensionality; intros [|?k]; unfold vsub, vadd, vscal, pt; cbn [Nat.eqb]; evs; cbn [value]; first [ring | field; repeat split; nzr].

Section B.
  Context {SY : sympy} (OK : sympy_ok SY).
  Lemma gradient_flow_strict s0 mu L C : good_class mu L -> Q2R C <> 0 -> Inv s0 ->
    forall p s r q x1, gradient_flow_circuit SY None mu L C s0 = (Ok p, s) ->
    inside mu L q -> NoDup (gradient_flow_points (/ Q2R C) (r "h"%string) (r "alpha"%string) (r "beta"%string) q x1) ->
    exists v, v_env v = r /\ strictly_feasible v p s.
  Proof.
    intros HC NC HI p s r q x1 E Iq Nd. revert E. cbv delta [gradient_flow_circuit]; cbv beta. intros E.
    refine (U_start default_params None _ _ s0 _ I HI _ p s r E _).
    - repeat ustep OK.
    - semantics. cbn [upd nth app]. clear E. apply nodup_pt in Nd. unfold gradient_flow_points in Nd. cbv zeta in Nd. cbn [map] in Nd.
      assert (Hq : 0 <= q) by (destruct HC, Iq; lra).
      set (h := r "h"%string) in *. set (al := r "alpha"%string) in *. set (be := r "beta"%string) in *.
      set (x15 := x1 - al * h * / Q2R C * (q * x1)) in *. set (x2 := x1 - be * h * / Q2R C * (q * x1) - (1 - be) * h * / Q2R C * (q * x15)) in *.
      assert (N1 : NoDup [pt 0; pt x1]) by exact (nodup_prefix [pt 0; pt x1] _ Nd).
      assert (N2 : NoDup [pt 0; pt x1; pt x15]) by exact (nodup_prefix [pt 0; pt x1; pt x15] _ Nd).
      exists q. split; [exact Iq|]. exists (pt 0), 0. split; [apply in_R1_pt|]. split; [apply qf_query_min; exact Hq|].
      exists (pt x1). split; [apply in_R1_pt|]. eexists _, _. split; [apply qf_query_pt; exact Hq|]. split; [exact (nodup_last [pt 0] _ N1)|].
      match goal with |- context [query 1 (qf q) ?e] => assert (E1 : e = pt x15) by (unfold x15, al, h; pteq); rewrite !E1; clear E1 end.
      eexists _, _. split; [apply qf_query_pt; exact Hq|]. split; [exact (nodup_last [pt 0; pt x1] _ N2)|].
      match goal with |- context [query 1 (qf q) ?e] => assert (E1 : e = pt x2) by (unfold x2, be, h; pteq); rewrite !E1; clear E1 end.
      eexists _, _. split; [apply qf_query_pt; exact Hq|]. split; [exact (nodup_last [pt 0; pt x1; pt x15] _ Nd)|]. constructor; [exact Nd|constructor].
  Qed.

  Ltac unfold_hyps := repeat match goal with H := _ : R |- _ => progress unfold H end.
  Ltac ask q Hq x N := match goal with |- context [query 1 (qf q) ?e] =>
    first [constr_eq e (pt x) | let E1 := fresh in assert (E1 : e = pt x) by (unfold_hyps; pteq); rewrite !E1; clear E1];
    eexists _, _; split; [apply qf_query_pt; exact Hq|]; split; [match type of N with NoDup ?l => let l' := eval simpl in (removelast l) in exact (nodup_last l' _ N) end|] end.

  Lemma tuneC_strict s0 mu L : good_class mu L -> Inv s0 ->
    forall p s r q x1, gradient_flow_circuit_tuneC SY None mu L s0 = (Ok p, s) ->
    inside mu L q -> NoDup (gradient_flow_points (r "invC"%string) (r "h"%string) (r "alpha"%string) (r "beta"%string) q x1) ->
    exists v, v_env v = r /\ strictly_feasible v p s.
  Proof.
    intros HC HI p s r q x1 E Iq Nd. revert E. cbv delta [gradient_flow_circuit_tuneC]; cbv beta. intros E.
    refine (U_start (ssort (default_params ++ ["C"; "invC"]))%string None _ _ s0 _ I HI _ p s r E _).
    - repeat ustep OK.
    - semantics. cbn [upd nth app]. clear E. apply nodup_pt in Nd. unfold gradient_flow_points in Nd. cbv zeta in Nd. cbn [map] in Nd.
      assert (Hq : 0 <= q) by (destruct HC, Iq; lra).
      set (h := r "h"%string) in *. set (al := r "alpha"%string) in *. set (be := r "beta"%string) in *. set (ic := r "invC"%string) in *.
      set (x15 := x1 - al * h * ic * (q * x1)) in *. set (x2 := x1 - be * h * ic * (q * x1) - (1 - be) * h * ic * (q * x15)) in *.
      assert (N1 : NoDup [pt 0; pt x1]) by exact (nodup_prefix [pt 0; pt x1] _ Nd).
      assert (N2 : NoDup [pt 0; pt x1; pt x15]) by exact (nodup_prefix [pt 0; pt x1; pt x15] _ Nd).
      exists q. split; [exact Iq|]. exists (pt 0), 0. split; [apply in_R1_pt|]. split; [apply qf_query_min; exact Hq|].
      exists (pt x1). split; [apply in_R1_pt|]. ask q Hq x1 N1. ask q Hq x15 N2. ask q Hq x2 Nd. constructor; [exact Nd|constructor].
  Qed.

  Lemma accelerated_strict s0 mu L Rs C Ind : good_class mu L -> Q2R C <> 0 -> Q2R Ind <> 0 -> Inv s0 ->
    forall p s r q v1 i1, accelerated_gradient_circuit SY None mu L Rs C Ind s0 = (Ok p, s) ->
    inside mu L q -> NoDup (accelerated_points (Q2R Rs) (/ Q2R C) (/ Q2R Ind) (r "h"%string) (r "alpha"%string) (r "beta"%string) q v1 i1) ->
    exists v, v_env v = r /\ strictly_feasible v p s.
  Proof.
    intros HC NC NI HI p s r q v1 i1 E Iq Nd. revert E. cbv delta [accelerated_gradient_circuit]; cbv beta. intros E.
    refine (U_start default_params None _ _ s0 _ I HI _ p s r E _).
    - repeat ustep OK.
    - semantics. cbn [upd nth app]. clear E. apply nodup_pt in Nd. unfold accelerated_points in Nd. cbv zeta in Nd. cbn [map] in Nd.
      assert (Hq : 0 <= q) by (destruct HC, Iq; lra).
      match type of Nd with NoDup [_; pt ?a; pt ?b; pt ?c] => set (x2 := c) in *; set (x15 := b) in *; set (x1 := a) in * end.
      assert (N1 : NoDup [pt 0; pt x1]) by exact (nodup_prefix [pt 0; pt x1] _ Nd).
      assert (N2 : NoDup [pt 0; pt x1; pt x15]) by exact (nodup_prefix [pt 0; pt x1; pt x15] _ Nd).
      exists q. split; [exact Iq|]. exists (pt 0), 0. split; [apply in_R1_pt|]. split; [apply qf_query_min; exact Hq|].
      exists (pt v1). split; [apply in_R1_pt|]. exists (pt i1). split; [apply in_R1_pt|].
      ask q Hq x1 N1. ask q Hq x15 N2. ask q Hq x2 Nd. constructor; [exact Nd|constructor].
  Qed.

  Lemma tuneRLC_strict s0 mu L : good_class mu L -> Inv s0 ->
    forall p s r q v1 i1, accelerated_gradient_circuit_tuneRLC SY None mu L s0 = (Ok p, s) ->
    inside mu L q -> NoDup (accelerated_points (r "R"%string) (r "invC"%string) (r "invL"%string) (r "h"%string) (r "alpha"%string) (r "beta"%string) q v1 i1) ->
    exists v, v_env v = r /\ strictly_feasible v p s.
  Proof.
    intros HC HI p s r q v1 i1 E Iq Nd. revert E. cbv delta [accelerated_gradient_circuit_tuneRLC]; cbv beta. intros E.
    refine (U_start (ssort (default_params ++ ["C"; "invC"; "L"; "invL"; "R"]))%string None _ _ s0 _ I HI _ p s r E _).
    - repeat ustep OK.
    - semantics. cbn [upd nth app]. clear E. apply nodup_pt in Nd. unfold accelerated_points in Nd. cbv zeta in Nd. cbn [map] in Nd.
      assert (Hq : 0 <= q) by (destruct HC, Iq; lra).
      match type of Nd with NoDup [_; pt ?a; pt ?b; pt ?c] => set (x2 := c) in *; set (x15 := b) in *; set (x1 := a) in * end.
      assert (N1 : NoDup [pt 0; pt x1]) by exact (nodup_prefix [pt 0; pt x1] _ Nd).
      assert (N2 : NoDup [pt 0; pt x1; pt x15]) by exact (nodup_prefix [pt 0; pt x1; pt x15] _ Nd).
      exists q. split; [exact Iq|]. exists (pt 0), 0. split; [apply in_R1_pt|]. split; [apply qf_query_min; exact Hq|].
      exists (pt v1). split; [apply in_R1_pt|]. exists (pt i1). split; [apply in_R1_pt|].
      ask q Hq x1 N1. ask q Hq x15 N2. ask q Hq x2 Nd. constructor; [exact Nd|constructor].
  Qed.

  Lemma qf_proxed q c a : 0 <= q -> 1 + c * q <> 0 -> proxed 1 (qf q) c (pt a) (pt (a / (1 + c * q))) (pt (q * (a / (1 + c * q)))) (q * (a / (1 + c * q) * (a / (1 + c * q))) / 2).
  Proof using Type.
    intros Hq N. split; [|apply qf_query_pt; exact Hq]. apply functional_extensionality. intros [|k]; unfold vsub, vscal, pt; simpl; [field; exact N|ring].
  Qed.
  Lemma ppm_strict s0 mu L C Rs : good_class mu L -> Q2R C <> 0 -> Q2R Rs <> 0 -> Inv s0 ->
    forall p s r q x1, ppm_circuit SY None mu L C Rs s0 = (Ok p, s) ->
    inside mu L q -> 1 + Q2R Rs * q <> 0 -> NoDup (ppm_points (Q2R C) (Q2R Rs) (r "h"%string) (r "alpha"%string) (r "beta"%string) q x1) ->
    exists v, v_env v = r /\ strictly_feasible v p s.
  Proof.
    intros HC NC NR HI p s r q x1 E Iq Nq Nd. revert E. cbv delta [ppm_circuit]; cbv beta. intros E.
    refine (U_start default_params None _ _ s0 _ I HI _ p s r E _).
    - repeat ustep OK.
    - semantics. cbn [upd nth app]. clear E. apply nodup_pt in Nd. unfold ppm_points in Nd. cbv zeta in Nd. cbn [map] in Nd.
      assert (Hq : 0 <= q) by (destruct HC, Iq; lra).
      match type of Nd with NoDup [_; pt ?a; pt (?b / _); pt ?c] => set (x2 := c) in *; set (x15 := b) in * end.
      exists q. split; [exact Iq|]. exists (pt 0), 0. split; [apply in_R1_pt|]. split; [apply qf_query_min; exact Hq|].
      exists (pt x1). split; [apply in_R1_pt|].
      exists (pt (x1 / (1 + Q2R Rs * q))). eexists _, _. split; [exact (qf_proxed q (Q2R Rs) x1 Hq Nq)|].
      match goal with |- context [proxed 1 (qf q) _ ?e] => assert (E1 : e = pt x15) by (unfold x15; pteq); rewrite !E1; clear E1 end.
      exists (pt (x15 / (1 + Q2R Rs * q))). eexists _, _. split; [exact (qf_proxed q (Q2R Rs) x15 Hq Nq)|].
      ask q Hq x2 Nd. constructor; [exact Nd|constructor].
  Qed.
  Lemma example_strict s0 mu L C Rs : good_class mu L -> Q2R C <> 0 -> Q2R Rs <> 0 -> Inv s0 ->
    forall p s r q z1 e1, example_fC3RC_circuit SY None mu L C Rs s0 = (Ok p, s) ->
    inside mu L q -> 1 + Q2R Rs / 2 * q <> 0 -> NoDup (example_points (Q2R C) (Q2R Rs) (r "h"%string) (r "alpha"%string) (r "beta"%string) q z1 e1) ->
    exists v, v_env v = r /\ strictly_feasible v p s.
  Proof.
    intros HC NC NR HI p s r q z1 e1 E Iq Nq Nd. revert E. cbv delta [example_fC3RC_circuit]; cbv beta. intros E.
    refine (U_start default_params None _ _ s0 _ I HI _ p s r E _).
    - repeat ustep OK.
    - semantics. cbn [upd nth app]. clear E. apply nodup_pt in Nd. unfold example_points in Nd. cbv zeta in Nd. cbn [map] in Nd.
      assert (Hq : 0 <= q) by (destruct HC, Iq; lra).
      match type of Nd with NoDup [_; _; pt (?b / _); pt (?c / _)] => set (z2 := c) in *; set (z15 := b) in * end.
      exists q. split; [exact Iq|]. exists (pt 0), 0. split; [apply in_R1_pt|]. split; [apply qf_query_min; exact Hq|].
      exists (pt z1). split; [apply in_R1_pt|]. exists (pt e1). split; [apply in_R1_pt|].
      assert (E0 : ev r (Num (Qred (Rs / 2))) = Q2R Rs / 2) by (evs; cbn [value]; first [reflexivity | field]).
      rewrite E0.
      exists (pt (z1 / (1 + Q2R Rs / 2 * q))). eexists _, _. split; [exact (qf_proxed q (Q2R Rs / 2) z1 Hq Nq)|].
      match goal with |- context [proxed 1 (qf q) _ ?e] => assert (E1 : e = pt z15) by (unfold z15; pteq); rewrite !E1; clear E1 end.
      exists (pt (z15 / (1 + Q2R Rs / 2 * q))). eexists _, _. split; [exact (qf_proxed q (Q2R Rs / 2) z15 Hq Nq)|].
      match goal with |- context [proxed 1 (qf q) _ ?e] => assert (E1 : e = pt z2) by (unfold z2; pteq); rewrite !E1; clear E1 end.
      exists (pt (z2 / (1 + Q2R Rs / 2 * q))). eexists _, _. split; [exact (qf_proxed q (Q2R Rs / 2) z2 Hq Nq)|].
      constructor; [exact Nd|constructor].
  Qed.
End B.

(** * When gradient flow moves *)
Lemma gf_points_distinct w alpha beta h lo hi : lo < hi -> 0 <= lo -> h * w <> 0 -> alpha <> 0 -> ~ (alpha = 1 /\ beta = 1) ->
  exists q, lo < q < hi /\ NoDup (gradient_flow_points w h alpha beta q 1).
Proof.
  intros Hl H0 Hh Ha Hb. set (k := h * w) in *.
  destruct (two_roots 1 (- (alpha * k)) 0) as (r1 & r2 & R1); [lra|].
  destruct (two_roots 1 (- k) ((1 - beta) * alpha * (k * k))) as (r3 & r4 & R2); [lra|].
  destruct (two_roots 0 (- k) ((1 - beta) * alpha * (k * k))) as (r5 & r6 & R3); [lra|].
  destruct (two_roots 0 (alpha * k - k) ((1 - beta) * alpha * (k * k))) as (r7 & r8 & R4).
  { right. destruct (Req_dec alpha 1) as [->|N]; [right|left].
    - intros E. apply Hb. split; [reflexivity|]. apply Rmult_integral in E as [E|E]; [lra|]. apply Rmult_integral in E. lra.
    - intros E. replace (alpha * k - k) with ((alpha - 1) * k) in E by ring. apply Rmult_integral in E. lra. }
  destruct (avoid [r1; r2; r3; r4; r5; r6; r7; r8] lo hi) as (q & Hq & Nq); [exact Hl|]. exists q. split; [exact Hq|].
  unfold gradient_flow_points.
  replace (1 - alpha * h * w * (q * 1)) with (1 - alpha * k * q) by (unfold k; ring).
  replace (1 - beta * h * w * (q * 1) - (1 - beta) * h * w * (q * (1 - alpha * k * q)))
    with (1 - beta * k * q - (1 - beta) * k * (q * (1 - alpha * k * q))) by (unfold k; ring).
  assert (N1 : 1 - alpha * k * q <> 0).
  { intros E. apply Nq. destruct (R1 q) as [->| ->]; [lra| |]; simpl; auto 10. }
  assert (N2 : 1 - beta * k * q - (1 - beta) * k * (q * (1 - alpha * k * q)) <> 0).
  { intros E. apply Nq. destruct (R2 q) as [->| ->]; [lra| |]; simpl; auto 10. }
  assert (N3 : 1 - alpha * k * q <> 1).
  { intros E. assert (A : (alpha * k) * q = 0) by lra. apply Rmult_integral in A as [A|A]; [|lra]. apply Rmult_integral in A as [A|A]; lra. }
  assert (N4 : 1 - beta * k * q - (1 - beta) * k * (q * (1 - alpha * k * q)) <> 1).
  { intros E. apply Nq. destruct (R3 q) as [->| ->]; [lra| |]; simpl; auto 10. }
  assert (N5 : 1 - beta * k * q - (1 - beta) * k * (q * (1 - alpha * k * q)) <> 1 - alpha * k * q).
  { intros E. apply Nq. destruct (R4 q) as [->| ->]; [lra| |]; simpl; auto 10. }
  repeat constructor; intros X; repeat (destruct X as [X|X]; [lra|]); destruct X.
Qed.
Lemma good_interval mu L : good_class mu L -> exists lo hi, lo < hi /\ 0 <= lo /\ forall q, lo < q < hi -> inside mu L q.
Proof.
  intros [H1 H2]. destruct L as [l|]; simpl in H2.
  - exists (Q2R mu), (Q2R l). split; [lra|]. split; [lra|]. intros q Hq. split; simpl; lra.
  - exists (Q2R mu), (Q2R mu + 1). split; [lra|]. split; [lra|]. intros q Hq. split; simpl; [lra|exact I].
Qed.
Lemma gf_moves mu L w h alpha beta : good_class mu L -> h * w <> 0 -> alpha <> 0 -> ~ (alpha = 1 /\ beta = 1) ->
  exists q, inside mu L q /\ NoDup (gradient_flow_points w h alpha beta q 1).
Proof.
  intros G Hh Ha Hb. destruct (good_interval mu L G) as (lo & hi & H1 & H2 & H3).
  destruct (gf_points_distinct w alpha beta h lo hi H1 H2 Hh Ha Hb) as (q & Hq & Nd). exists q. auto.
Qed.

(** * When the proximal point method moves *)
Lemma list4_eq (a b c d a' b' c' d' : R) : a = a' -> b = b' -> c = c' -> d = d' -> [a; b; c; d] = [a'; b'; c'; d'].
Proof. intros -> -> -> ->. reflexivity. Qed.
Lemma ppm_points_distinct C Rs h alpha beta lo hi : lo < hi -> 0 <= lo -> C <> 0 -> 0 < Rs ->
  let k := h / (C * Rs) in
  alpha * k <> 0 -> ~ (k = 1 /\ beta = 1) -> ~ (k * (1 - alpha) = 1 /\ k * (1 - beta) = 1) ->
  exists q, lo < q < hi /\ NoDup (ppm_points C Rs h alpha beta q 1).
Proof.
  intros Hl H0 HC HR k Ha Hb Hc. set (a := alpha * k) in *. set (c := (1 - beta) * k).
  assert (Mono : forall x, 0 <= x -> 0 < 1 + Rs * x) by (intros x Hx; assert (0 <= Rs * x) by (apply Rmult_le_pos; lra); lra).
  set (tt := fun x => Rs * x / (1 + Rs * x)).
  assert (Ett : forall x, 0 <= x -> tt x = 1 - / (1 + Rs * x)) by (intros x Hx; assert (P := Mono x Hx); unfold tt; field; lra).
  assert (Tl : tt lo < tt hi).
  { rewrite !Ett by lra. assert (P1 := Mono lo H0). assert (P2 := Mono hi ltac:(lra)).
    assert (/ (1 + Rs * hi) < / (1 + Rs * lo)); [|lra]. apply Rinv_lt_contravar; [apply Rmult_lt_0_compat; assumption|].
    assert (Rs * lo < Rs * hi) by (apply Rmult_lt_compat_l; lra). lra. }
  destruct (two_roots 1 (- a) 0) as (r1 & r2 & R1); [lra|].
  destruct (two_roots 1 (- k) (a * c)) as (r3 & r4 & R2); [lra|].
  assert (Kn : k <> 0) by (intros E; apply Ha; unfold a; rewrite E; ring).
  destruct (two_roots 0 (1 - k) (a * c)) as (r5 & r6 & R3).
  { right. destruct (Req_dec k 1) as [E|N]; [right|left; lra]. intros X. apply Rmult_integral in X as [X|X]; [exact (Ha X)|].
    unfold c in X. rewrite E in X. apply Hb. split; [exact E|lra]. }
  destruct (two_roots 0 (1 + a - k) (a * c - a)) as (r7 & r8 & R4).
  { right. destruct (Req_dec k (1 + a)) as [E|N]; [right|left; lra]. intros X.
    assert (Y : a * (c - 1) = 0) by lra. apply Rmult_integral in Y as [Y|Y]; [exact (Ha Y)|]. apply Hc. unfold a, c in *. split; lra. }
  destruct (avoid [r1; r2; r3; r4; r5; r6; r7; r8] (tt lo) (tt hi)) as (t & Ht & Nt); [exact Tl|].
  assert (T0 : 0 <= tt lo) by (unfold tt; apply Rmult_le_pos; [apply Rmult_le_pos; lra|apply Rlt_le, Rinv_0_lt_compat, Mono; lra]).
  assert (T1 : tt hi < 1).
  { rewrite Ett by lra. assert (0 < / (1 + Rs * hi)) by (apply Rinv_0_lt_compat, Mono; lra). lra. }
  set (q := t / (Rs * (1 - t))).
  assert (Q1 : 1 + Rs * q = / (1 - t)) by (unfold q; field; split; lra).
  assert (Qu : / (1 + Rs * q) = 1 - t) by (rewrite Q1; apply Rinv_inv).
  assert (Q0 : 0 < q) by (unfold q; apply Rdiv_lt_0_compat; [lra|apply Rmult_lt_0_compat; lra]).
  assert (Qt : tt q = t) by (rewrite Ett by lra; rewrite Qu; ring).
  assert (Inj : forall x y, 0 <= x -> 0 <= y -> tt x < tt y -> x < y).
  { intros x y Hx Hy Hxy. destruct (Rlt_le_dec x y) as [|Hn]; [assumption|exfalso]. rewrite !Ett in Hxy by assumption.
    assert (/ (1 + Rs * x) <= / (1 + Rs * y)); [|lra]. apply Rinv_le_contravar; [apply Mono; assumption|].
    assert (Rs * y <= Rs * x) by (apply Rmult_le_compat_l; lra). lra. }
  exists q. split; [split; apply Inj; try lra; rewrite Qt; lra|].
  assert (Mn : 1 + Rs * q <> 0) by (assert (P := Mono q ltac:(lra)); lra).
  assert (F : ppm_points C Rs h alpha beta q 1 = [0; 1 - t; (1 - t) * (1 - a * t); 1 - k * t + a * c * (t * t)]).
  { unfold ppm_points. assert (X : forall x, x / (1 + Rs * q) = x * (1 - t)) by (intros x; unfold Rdiv; rewrite Qu; reflexivity).
    rewrite !X. unfold a, c, k. apply list4_eq; field; split; lra. }
  rewrite F.
  assert (Tp : 0 < t < 1) by lra.
  assert (N1 : 1 - a * t <> 0).
  { intros E. apply Nt. destruct (R1 t) as [->| ->]; [lra| |]; simpl; auto 10. }
  assert (N2 : 1 - k * t + a * c * (t * t) <> 0).
  { intros E. apply Nt. destruct (R2 t) as [->| ->]; [lra| |]; simpl; auto 10. }
  assert (N3 : (1 - t) * (1 - a * t) <> 0) by (intros E; apply Rmult_integral in E as [E|E]; [lra|exact (N1 E)]).
  assert (N4 : (1 - t) * (1 - a * t) <> 1 - t).
  { intros E. assert (A : (1 - t) * (a * t) = 0) by lra. apply Rmult_integral in A as [A|A]; [lra|]. apply Rmult_integral in A as [A|A]; [exact (Ha A)|lra]. }
  assert (N5 : 1 - k * t + a * c * (t * t) <> 1 - t).
  { intros E. apply Nt. destruct (R3 t) as [->| ->]; [lra| |]; simpl; auto 10. }
  assert (N6 : 1 - k * t + a * c * (t * t) <> (1 - t) * (1 - a * t)).
  { intros E. apply Nt. destruct (R4 t) as [->| ->]; [lra| |]; simpl; auto 10. }
  repeat constructor; intros X; repeat (destruct X as [X|X]; [lra|]); destruct X.
Qed.
Lemma ppm_moves mu L C Rs h alpha beta : good_class mu L -> C <> 0 -> 0 < Rs ->
  let k := h / (C * Rs) in
  alpha * k <> 0 -> ~ (k = 1 /\ beta = 1) -> ~ (k * (1 - alpha) = 1 /\ k * (1 - beta) = 1) ->
  exists q, inside mu L q /\ 1 + Rs * q <> 0 /\ NoDup (ppm_points C Rs h alpha beta q 1).
Proof.
  intros G HC HR k Ha Hb Hc. destruct (good_interval mu L G) as (lo & hi & H1 & H2 & H3).
  destruct (ppm_points_distinct C Rs h alpha beta lo hi H1 H2 HC HR Ha Hb Hc) as (q & Hq & Nd). exists q. split; [auto|]. split; [|exact Nd].
  assert (0 < Rs * q) by (apply Rmult_lt_0_compat; lra). lra.
Qed.
