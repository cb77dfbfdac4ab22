(** The function classes in the sense of [Spec], and the interpolation
    inequality of each class written as a real number. *)
From Coq Require Import List Reals QArith Qreals.
From Verif Require Import Prelude Spec Sympy AlgebraModel Denote FunctionModel.
Local Open Scope R_scope.

(** [phi] belongs to the class declared by the user. *)
Definition in_class (d : nat) (c : fclass) (phi : rfun) : Prop :=
  match c with
  | CBase => False
  | CConvex => convex phi
  | CStrongly mu => strongly_convex d (Q2R mu) phi
  | CSmoothSC mu L => strongly_convex d (Q2R mu) phi /\ smooth d (Q2R L) phi
  end.

(** Parameters for which the class is meaningful. *)
Definition class_params_ok (c : fclass) : Prop :=
  match c with
  | CBase | CConvex => True
  | CStrongly mu => 0 <= Q2R mu
  | CSmoothSC mu L => 0 <= Q2R mu < Q2R L
  end.

(** f_j - f_i + <g_j, x_i - x_j> + ... <= 0, see function.py:216, 238-241, 260-262 *)
Definition interp_value (d : nat) (c : fclass) (xi gi : vec) (fi : R) (xj gj : vec) (fj : R) : R :=
  let base := fj - fi + dot d gj (vsub xi xj) in
  match c with
  | CBase | CConvex => base
  | CStrongly mu => base + Q2R mu / 2 * nsq d (vsub xi xj)
  | CSmoothSC mu L =>
      base + 1 / (2 * Q2R L) * nsq d (vsub gi gj)
      + Q2R mu / (2 * (1 - Q2R mu / Q2R L))
        * nsq d (vsub (vsub xi xj) (vscal (1 / Q2R L) (vsub gi gj)))
  end.

(** The record [t] is a sample (point, subgradient, value) of [phi]. *)
Definition rec_sampled (v : valuation) (phi : rfun) (t : trip) : Prop :=
  sampled (v_dim v) phi (den_p v (t_x t)) (den_p v (t_g t)) (den_e v (t_f t)).

Definition wf_t (t : trip) : Prop := wf_p (t_x t) /\ wf_p (t_g t) /\ wf_e (t_f t).
