(** What the methods of Function are meant to do, in terms of the meaning of
    points and expressions only, and the programs for which they do it. *)
From Coq Require Import List Arith Bool QArith Reals Qreals.
From Verif Require Import Prelude Sympy AlgebraModel Denote FunctionModel SessionModel.
Import ListNotations.

(** [t] is a triple (point, gradient, value) stored in the object [f]. *)
Definition recorded (s : state) (f : nat) (t : trip) : Prop :=
  exists fn, dget Nat.eqb f (st_funs s) = Some fn /\ In t (fn_pts fn).

(** sum_i w_i g_i and sum_i w_i f_i over the components (f_i, w_i) and one
    triple (x_i, g_i, f_i) of each. *)
Definition wsum_p (v : valuation) (d : list (nat * sexpr)) (ts : list trip) : vec :=
  fun k => lsum (fun a => (ev (v_env v) (snd (fst a)) * den_p v (t_g (snd a)) k)%R) (combine d ts).
Definition wsum_e (v : valuation) (d : list (nat * sexpr)) (ts : list trip) : R :=
  lsum (fun a => (ev (v_env v) (snd (fst a)) * den_e v (t_f (snd a)))%R) (combine d ts).

(** The gradient [g] and the value [e] of the function with components [d] at
    [x] are the weighted sums of gradients and values its components have
    recorded at [x]. *)
Definition decomposed (s : state) (d : list (nat * sexpr)) (x g : point) (e : expr) : Prop :=
  exists ts,
    Forall2 (fun fw t => recorded s (fst fw) t /\ forall v, den_p v (t_x t) = den_p v x) d ts /\
    forall v, den_p v g = wsum_p v d ts /\ den_e v e = wsum_e v d ts.

(** sum_i w_i phi_i for arbitrary numbers phi_i attached to the functions. *)
Definition comb (r : env) (phi : nat -> R) (d : list (nat * sexpr)) : R :=
  lsum (fun fw => (ev r (snd fw) * phi (fst fw))%R) d.

(** No explicitly stored zero weight (every result of point.__add__ and every
    leaf is such). *)
Definition pruned (p : point) : Prop := prune_dict (pt_dict p) = pt_dict p.
(** A nonzero numeric weight. *)
Definition nonzero (w : sexpr) : Prop := exists q, w = Num q /\ Qeq_bool q 0 = false.
(** The function is a combination with nonzero numeric weights. *)
Definition proper (s : state) (f : nat) : Prop :=
  forall fn, dget Nat.eqb f (st_funs s) = Some fn -> Forall (fun fw => nonzero (snd fw)) (fn_dict fn).
(** Neither [f] nor any of its components has been evaluated at [x]. *)
Definition unevaluated (s : state) (f : nat) (x : point) : Prop :=
  forall fn, dget Nat.eqb f (st_funs s) = Some fn ->
    evaluated_at (fn_pts fn) x = None /\
    forall h fh, In h (keys (fn_dict fn)) -> dget Nat.eqb h (st_funs s) = Some fh -> evaluated_at (fn_pts fh) x = None.

Section Regular.
  Variable SY : sympy.

  (** Regular calls: combinations of functions get nonzero numeric weights,
      evaluation points carry no explicit zero weight, proximal step sizes are
      not identically zero, and hand-written triples are added at new points. *)
  Definition regular_call (se : session) (o : op) : Prop :=
    let s := se_st se in
    match o with
    | OFAdd i j => forall a b, nth_error (se_fns se) i = Some a -> nth_error (se_fns se) j = Some b ->
        forall f s', fn_add SY a b s = (Ok f, s') -> proper s' f
    | OFSub i j => forall a b, nth_error (se_fns se) i = Some a -> nth_error (se_fns se) j = Some b ->
        forall f s', fn_sub SY a b s = (Ok f, s') -> proper s' f
    | OFNeg i => True
    | OFScale c i => nonzero c
    | OFDiv i c => True
    | OOracle _ x | OValue _ x | OGradient _ x => forall p, nth_error (se_pts se) x = Some p -> pruned p
    | OProx x _ gamma => exists r, ev r gamma <> 0%R
    | OAddPoint f x _ _ => forall F p, nth_error (se_fns se) f = Some F -> nth_error (se_pts se) x = Some p ->
        pruned p /\ unevaluated s F p
    | _ => True
    end.

  Fixpoint regular (se : session) (l : list op) : Prop :=
    match l with
    | [] => True
    | o :: l' => regular_call se o /\ regular (step SY se o) l'
    end.
End Regular.
