(** Meaning of points and expressions: what a valuation of the leaves
    (vectors for leaf points, reals for leaf expressions) and of the symbols
    makes of them.  This is the "English" semantics: a point is a linear
    combination, an expression a combination of function values, inner
    products and constants.  It does not use any operation of the model. *)
From Coq Require Import List Reals Qreals.
From Verif Require Import Prelude Sympy AlgebraModel.

Record valuation : Type := mkVal {
  v_dim : nat;                (* dimension d of the space *)
  v_pt : leaf -> vec;         (* leaf points (and gradients) *)
  v_fv : leaf -> R;           (* leaf function values *)
  v_env : env                 (* symbols *)
}.

Definition den_pd (v : valuation) (d : pdict) : vec :=
  fun k => lsum (fun kv => (ev (v_env v) (snd kv) * v_pt v (fst kv) k)%R) d.
Definition den_p (v : valuation) (p : point) : vec := den_pd v (pt_dict p).

Definition den_key (v : valuation) (k : ekey) : R :=
  match k with
  | KF f => v_fv v f
  | KG x y => dot (v_dim v) (v_pt v x) (v_pt v y)
  | KOne => 1%R
  end.
Definition den_ed (v : valuation) (d : edict) : R :=
  lsum (fun kv => (ev (v_env v) (snd kv) * den_key v (fst kv))%R) d.
Definition den_e (v : valuation) (e : expr) : R := den_ed v (ex_dict e).

(** Python dictionaries have distinct keys. *)
Definition wf_p (p : point) : Prop := NoDup (keys (pt_dict p)).
Definition wf_e (e : expr) : Prop := NoDup (keys (ex_dict e)).
