(** Strictly feasible data for the gradient flow builder: a quadratic with
    curvature strictly inside the class, recorded at four distinct points. *)
From Coq Require Import List Arith Bool String QArith Reals Qreals Lra Lia.
From Verif Require Import Prelude PreludeFacts Sympy SympyFacts AlgebraModel Denote FunctionModel CircuitModel SymSpec ClassSpec SessionModel
  BuilderModel Examples BuilderExamples DualitySpec.
Import ListNotations.
Local Open Scope R_scope.

(** a polynomial of degree at most two that is not zero has at most two roots *)
Lemma two_roots c0 c1 c2 : c0 <> 0 \/ c1 <> 0 \/ c2 <> 0 -> exists a b, forall x, c0 + c1 * x + c2 * (x * x) = 0 -> x = a \/ x = b.
Proof.
  intros H. set (P := fun x => c0 + c1 * x + c2 * (x * x) = 0).
  destruct (Classical_Prop.classic (exists a, P a)) as [[a Pa]|N]; [|exists 0, 0; intros x Hx; exfalso; apply N; exists x; exact Hx].
  destruct (Classical_Prop.classic (exists b, P b /\ b <> a)) as [[b [Pb Nb]]|N].
  - exists a, b. intros x Hx. destruct (Req_dec x a) as [|Na]; [auto|]. destruct (Req_dec x b) as [|Nx]; [auto|]. exfalso.
    unfold P in *. assert (A1 : (b - a) * (c1 + c2 * (a + b)) = 0) by lra. assert (A2 : (x - a) * (c1 + c2 * (a + x)) = 0) by lra.
    apply Rmult_integral in A1 as [A1|A1]; [lra|]. apply Rmult_integral in A2 as [A2|A2]; [lra|].
    assert (A3 : c2 * (x - b) = 0) by lra. apply Rmult_integral in A3 as [A3|A3]; [|lra]. subst c2.
    assert (c1 = 0) by lra. subst c1. assert (c0 = 0) by lra. lra.
  - exists a, a. intros x Hx. destruct (Req_dec x a); [auto|]. exfalso. apply N. exists x. auto.
Qed.
Lemma avoid (l : list R) : forall lo hi, lo < hi -> exists q, lo < q < hi /\ ~ In q l.
Proof.
  induction l as [|a l IH]; intros lo hi H; [exists ((lo + hi) / 2); split; [lra|intros []]|].
  destruct (Rle_lt_dec a ((lo + hi) / 2)) as [A|A].
  - destruct (IH ((lo + hi) / 2) hi) as (q & Hq & Nq); [lra|]. exists q. split; [lra|]. intros [E|E]; [lra|auto].
  - destruct (IH lo ((lo + hi) / 2)) as (q & Hq & Nq); [lra|]. exists q. split; [lra|]. intros [E|E]; [lra|auto].
Qed.

(** x -> q x^2 / 2 with 0 < q < 1 satisfies the constraint of a convex 1-smooth
    function strictly at distinct points *)
Lemma quad_strict q (xi gi xj gj : vec) fi fj : 0 < q < 1 -> xi 0%nat <> xj 0%nat ->
  gi 0%nat = q * xi 0%nat -> gj 0%nat = q * xj 0%nat -> fi = q * (xi 0%nat * xi 0%nat) / 2 -> fj = q * (xj 0%nat * xj 0%nat) / 2 ->
  interp_value 1 (CSmoothSC 0 1) xi gi fi xj gj fj < 0.
Proof.
  intros Hq N Gi Gj -> ->. unfold interp_value, nsq. rewrite !dot1. unfold vsub, vscal. rewrite Gi, Gj.
  replace (Q2R 0) with 0 by (unfold Q2R; simpl; lra). replace (Q2R 1) with 1 by (unfold Q2R; simpl; lra).
  set (a := xi 0%nat) in *. set (b := xj 0%nat) in *. assert (P : 0 < (a - b) * (a - b)) by (apply Rsqr_pos_lt; lra).
  replace (q * (b * b) / 2 - q * (a * a) / 2 + q * b * (a - b) + 1 / (2 * 1) * ((q * a - q * b) * (q * a - q * b)) +
    0 / (2 * (1 - 0 / 1)) * ((a - b - 1 / 1 * (q * a - q * b)) * (a - b - 1 / 1 * (q * a - q * b))))
    with (- (q * (1 - q) / 2 * ((a - b) * (a - b)))) by (field; lra).
  assert (0 < q * (1 - q) / 2) by nra. nra.
Qed.

(** the four points of one step from 1, the minimiser being 0 *)
Definition gf_pos (h alpha beta q : R) (i : nat) : R :=
  match i with
  | O => 0 | S O => 1 | S (S O) => 1 - alpha * h * q
  | _ => 1 - beta * h * q - (1 - beta) * h * (q * (1 - alpha * h * q))
  end.
Lemma gf_distinct h alpha beta : h <> 0 -> alpha <> 0 -> ~ (alpha = 1 /\ beta = 1) ->
  exists q, 0 < q < 1 /\ forall i j, (i < 4)%nat -> (j < 4)%nat -> i <> j -> gf_pos h alpha beta q i <> gf_pos h alpha beta q j.
Proof.
  intros Hh Ha Hb.
  destruct (two_roots 1 (- (alpha * h)) 0) as (r1 & r2 & R1); [lra|].
  destruct (two_roots 1 (- h) ((1 - beta) * alpha * (h * h))) as (r3 & r4 & R2); [lra|].
  destruct (two_roots 0 (- h) ((1 - beta) * alpha * (h * h))) as (r5 & r6 & R3); [lra|].
  destruct (two_roots 0 (alpha * h - h) ((1 - beta) * alpha * (h * h))) as (r7 & r8 & R4).
  { right. destruct (Req_dec alpha 1) as [->|N]; [right|left].
    - intros E. apply Hb. split; [reflexivity|]. apply Rmult_integral in E as [E|E]; [lra|]. apply Rmult_integral in E. lra.
    - intros E. replace (alpha * h - h) with ((alpha - 1) * h) in E by ring. apply Rmult_integral in E. lra. }
  destruct (avoid [r1; r2; r3; r4; r5; r6; r7; r8] 0 1) as (q & Hq & Nq); [lra|]. exists q. split; [exact Hq|].
  assert (N1 : 1 - alpha * h * q <> 0).
  { intros E. apply Nq. destruct (R1 q) as [->| ->]; [lra| |]; simpl; auto 10. }
  assert (N2 : 1 - beta * h * q - (1 - beta) * h * (q * (1 - alpha * h * q)) <> 0).
  { intros E. apply Nq. destruct (R2 q) as [->| ->]; [lra| |]; simpl; auto 10. }
  assert (N3 : 1 - alpha * h * q <> 1).
  { intros E. assert (A : (alpha * h) * q = 0) by lra. apply Rmult_integral in A as [A|A]; [|lra]. apply Rmult_integral in A as [A|A]; lra. }
  assert (N4 : 1 - beta * h * q - (1 - beta) * h * (q * (1 - alpha * h * q)) <> 1).
  { intros E. apply Nq. destruct (R3 q) as [->| ->]; [lra| |]; simpl; auto 10. }
  assert (N5 : 1 - beta * h * q - (1 - beta) * h * (q * (1 - alpha * h * q)) <> 1 - alpha * h * q).
  { intros E. apply Nq. destruct (R4 q) as [->| ->]; [lra| |]; simpl; auto 10. }
  intros [|[|[|[|i]]]] [|[|[|[|j]]]] Hi Hj Hij; try lia; cbn [gf_pos]; lra.
Qed.

Definition gf_val (r : env) (q : R) : valuation :=
  let a := gf_pos (r "h"%string) (r "alpha"%string) (r "beta"%string) q in
  mkVal 1 (fun lf => pt (match lctr lf with O => 0 | S O => 1 | S (S k) => q * a (S k) end))
    (fun lf => q * (a (lctr lf) * a (lctr lf)) / 2) r.
Definition gf_build : res (list constr * list nat * option func) := Eval vm_compute in
  match gradient_flow_circuit sympy0 None 0 (Fin 1) 1 (se_st (run sympy0 session0 [])) with
  | (Ok p, s) => Ok (pr_cons p, st_flist s, dget Nat.eqb 0%nat (st_funs s)) | (Err e, _) => Err e end.

Lemma gf_strict r p s : gradient_flow_circuit sympy0 None 0 (Fin 1) 1 (se_st (run sympy0 session0 [])) = (Ok p, s) ->
  r "h"%string <> 0 -> r "alpha"%string <> 0 -> ~ (r "alpha"%string = 1 /\ r "beta"%string = 1) ->
  exists v, v_env v = r /\ strictly_feasible v p s.
Proof.
  intros E Hh Ha Hb.
  assert (B : Ok (pr_cons p, st_flist s, dget Nat.eqb 0%nat (st_funs s)) = gf_build).
  { transitivity (match gradient_flow_circuit sympy0 None 0 (Fin 1) 1 (se_st (run sympy0 session0 [])) with
      | (Ok p, s) => Ok (pr_cons p, st_flist s, dget Nat.eqb 0%nat (st_funs s)) | (Err e, _) => Err e end); [rewrite E; reflexivity|vm_compute; reflexivity]. }
  clear E. injection B as E1 E2 E3.
  destruct (gf_distinct _ _ _ Hh Ha Hb) as (q & Hq & D). exists (gf_val r q). split; [reflexivity|]. split.
  - rewrite E1. intros c [].
  - rewrite E2. intros f fn [<-|[]] Ef _. rewrite E3 in Ef. injection Ef as <-. cbn [fn_class fn_pts List.length]. split.
    { simpl. unfold Q2R; simpl. lra. }
    intros i j Hi Hj Hij. cbv zeta. specialize (D i j Hi Hj Hij).
    match goal with |- context [nth i ?l dummy_trip] => set (T := l) end.
    assert (K : forall k, (k < 4)%nat -> let t := nth k T dummy_trip in
      den_p (gf_val r q) (t_x t) 0%nat = gf_pos (r "h"%string) (r "alpha"%string) (r "beta"%string) q k /\
      den_p (gf_val r q) (t_g t) 0%nat = q * gf_pos (r "h"%string) (r "alpha"%string) (r "beta"%string) q k /\
      den_e (gf_val r q) (t_f t) = q * (gf_pos (r "h"%string) (r "alpha"%string) (r "beta"%string) q k * gf_pos (r "h"%string) (r "alpha"%string) (r "beta"%string) q k) / 2).
    { intros k Hk. cbv zeta. unfold T. destruct k as [|[|[|[|k]]]]; [| | | |lia]; cbn [nth t_x t_g t_f]; unfold den_p, den_pd, den_e, den_ed, gf_val; cbn [pt_dict ex_dict v_pt v_fv v_env lctr lsum fst snd];
        unfold vscal, pt; simpl; unfold Q2R; simpl; repeat split; lra. }
    destruct (K i Hi) as (X1 & G1 & F1). destruct (K j Hj) as (X2 & G2 & F2). clear K.
    change (v_dim (gf_val r q)) with 1%nat. apply (quad_strict q); rewrite ?X1, ?X2; try assumption.
Qed.
