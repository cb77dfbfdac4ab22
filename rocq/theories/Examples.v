(** Concrete instances used to show that hypotheses can be met: the function
    x^2/2 on R^1, recorded at x = 1 and at its minimiser 0. *)
From Coq Require Import List Arith Bool String QArith Reals Qreals Lra Lia.
From Verif Require Import Prelude PreludeFacts Sympy AlgebraModel Denote FunctionModel CircuitModel
  Spec SpecFacts ClassSpec CertSpec SessionModel.
Import ListNotations.
Local Open Scope R_scope.

Definition quad : rfun := mkFun (fun _ => True) (fun x => x 0%nat * x 0%nat / 2).

Lemma dot1 u v : dot 1 u v = u 0%nat * v 0%nat.
Proof. unfold dot; simpl. lra. Qed.
Lemma quad_convex : convex quad.
Proof.
  intros x y t _ _ Ht. split; [exact I|]. unfold quad, segment, vadd, vscal; simpl.
  assert (0 <= t * (1 - t) * ((x 0%nat - y 0%nat) * (x 0%nat - y 0%nat))).
  { apply Rmult_le_pos; [apply Rmult_le_pos; lra|]. apply Rle_0_sqr. }
  nra.
Qed.
Lemma quad_strongly : strongly_convex 1 (Q2R (1 # 2)) quad.
Proof.
  intros x y t _ _ Ht. split; [exact I|]. unfold quad, segment, vadd, vscal, nsq; simpl. rewrite dot1. unfold vsub, Q2R; simpl.
  assert (0 <= t * (1 - t) * ((x 0%nat - y 0%nat) * (x 0%nat - y 0%nat))).
  { apply Rmult_le_pos; [apply Rmult_le_pos; lra|]. apply Rle_0_sqr. }
  nra.
Qed.
Lemma quad_smooth : smooth 1 (Q2R 2) quad.
Proof.
  split; [easy|]. exists (fun x => x). split.
  - intros x u. unfold quad; simpl. rewrite dot1.
    set (a := x 0%nat). set (b := u 0%nat).
    replace (a * b) with ((0 * b + 1 * b) * (a + 0 * b) / 2 + (a + 0 * b) * (0 * b + 1 * b) / 2) by lra.
    intros eps He. exists (mkposreal (eps / (b * b + 1)) ltac:(apply Rdiv_lt_0_compat; nra)). simpl.
    intros h Hh Hlt. unfold vadd, vscal. fold a b.
    replace (((a + (0 + h) * b) * (a + (0 + h) * b) / 2 - (a + 0 * b) * (a + 0 * b) / 2) / h -
      ((0 * b + 1 * b) * (a + 0 * b) / 2 + (a + 0 * b) * (0 * b + 1 * b) / 2)) with (h * (b * b / 2)) by (field; easy).
    rewrite Rabs_mult, (Rabs_right (b * b / 2)) by nra.
    apply Rmult_lt_compat_r with (r := b * b + 1) in Hlt; [|nra].
    unfold Rdiv in Hlt. rewrite Rmult_assoc, Rinv_l in Hlt by nra.
    assert (0 <= Rabs h) by apply Rabs_pos. nra.
  - intros x y. unfold nsq. rewrite !dot1. unfold vsub, Q2R; simpl. 
    assert (0 <= (x 0%nat - y 0%nat) * (x 0%nat - y 0%nat)) by apply Rle_0_sqr. nra.
Qed.
Lemma quad_sub x : subgradient 1 quad x x.
Proof.
  split; [exact I|]. intros y _. unfold quad; simpl. rewrite dot1. unfold vsub.
  assert (0 <= (x 0%nat - y 0%nat) * (x 0%nat - y 0%nat)) by apply Rle_0_sqr. nra.
Qed.

(** Declare one function, evaluate it at a point, add its minimiser. *)
Definition quad_prog (decl : op) : list op :=
  [OPoint; ONewProblem; decl; OPoint; OOracle 0 0; OStationary 0; OPSub 0 2; OPPow 3 2; OESub 0 1; OMetric 3].
(** leaf points: x, g = x, x* = 0; values f = 1/2, f* = 0 *)
Definition quad_val : valuation :=
  mkVal 1 (fun l _ => match lctr l with O => 1 | S O => 1 | _ => 0 end)
        (fun l => match lctr l with O => 1 / 2 | _ => 0 end) (fun _ => 1).

(** x^2/2 has gradient x and value x^2/2 *)
Lemma quad_record v t : v_dim v = 1%nat -> den_p v (t_g t) 0%nat = den_p v (t_x t) 0%nat ->
  den_e v (t_f t) = den_p v (t_x t) 0%nat * den_p v (t_x t) 0%nat / 2 -> rec_sampled v quad t.
Proof.
  intros Hd Hg Hf. unfold rec_sampled, sampled. rewrite Hd, Hf. split; [|reflexivity]. split; [exact I|].
  intros y _. unfold quad; simpl. rewrite dot1, Hg. unfold vsub.
  assert (0 <= (y 0%nat - den_p v (t_x t) 0%nat) * (y 0%nat - den_p v (t_x t) 0%nat)) by apply Rle_0_sqr. nra.
Qed.
