(** Model of [ciropt/point.py], [ciropt/expression.py] and the dictionary
    helpers of [ciropt/sympy_parsing.py]. *)
From Coq Require Import List Arith Bool String QArith.
From Verif Require Import Prelude Sympy.
Import ListNotations.

(** A leaf object: its identity (never reused) and the value of the class
    counter when it was created.  point.py:25-30, expression.py:24-29 *)
Record leaf : Type := mkLeaf { lid : nat; lctr : nat }.
Definition leaf_eqb (a b : leaf) : bool :=
  Nat.eqb (lid a) (lid b) && Nat.eqb (lctr a) (lctr b).

(** Keys of an Expression's decomposition: a leaf Expression, a pair of leaf
    Points, or the integer 1.  expression.py:83-95 *)
Inductive ekey : Type :=
| KF (f : leaf)
| KG (x y : leaf)
| KOne.
Definition ekey_eqb (a b : ekey) : bool :=
  match a, b with
  | KF x, KF y => leaf_eqb x y
  | KG x y, KG z w => leaf_eqb x z && leaf_eqb y w
  | KOne, KOne => true
  | _, _ => false
  end.

Definition pdict := list (leaf * sexpr).
Definition edict := list (ekey * sexpr).

(** point.py:14-34.  The [_value] slot is omitted: no code ever sets the one
    of a leaf (see [EvalModel]). *)
Record point : Type := mkPoint { pt_leaf : bool; pt_dict : pdict }.
(** expression.py:14-33 *)
Record expr : Type := mkExpr { ex_leaf : bool; ex_dict : edict }.

Section Ops.
  Variable S : sympy.

  Section Merge.
    Context {K : Type}.
    Variable eqb : K -> K -> bool.
    (** sympy_parsing.py:151-160 [merge_dict] *)
    Definition merge_dict (d1 d2 : list (K * sexpr)) : list (K * sexpr) :=
      fold_left (fun merged kv =>
        let '(k, v) := kv in
        if dmem eqb k d1 then
          match dget eqb k merged with
          | Some old => dset eqb k (simp S (sadd old v)) merged
          | None => merged (* unreachable: keys of d1 stay in merged *)
          end
        else dset eqb k v merged) d2 d1.

    (** sympy_parsing.py:163-168 [prune_dict] (keys are distinct, so rebuilding
        the dictionary is a filter) *)
    Definition prune_dict (d : list (K * sexpr)) : list (K * sexpr) :=
      filter (fun kv => negb (is_num 0 (snd kv))) d.

    (** Python [dict.__eq__]: same size, and every key of the first is in the
        second with an equal value. *)
    Definition dict_eqb (d1 d2 : list (K * sexpr)) : bool :=
      Nat.eqb (List.length d1) (List.length d2) &&
      forallb (fun kv => match dget eqb (fst kv) d2 with
                         | Some v => sexpr_eqb (snd kv) v
                         | None => false
                         end) d1.

    (** point.py:53-57, expression.py:62-66: [{key: sp.simplify(value*other)}] *)
    Definition scale_dict (c : sexpr) (d : list (K * sexpr)) : list (K * sexpr) :=
      map (fun kv => (fst kv, simp S (smul (snd kv) c))) d.
  End Merge.

  (** sympy_parsing.py:137-148 [multiply_dicts] *)
  Definition multiply_dicts (d1 d2 : pdict) : edict :=
    fold_left (fun acc kv1 =>
      fold_left (fun acc' kv2 =>
        let k := KG (fst kv1) (fst kv2) in
        let v := simp S (smul (snd kv1) (snd kv2)) in
        match dget ekey_eqb k acc' with
        | Some old => dset ekey_eqb k (sadd old v) acc'
        | None => dset ekey_eqb k v acc'
        end) d2 acc) d1 [].

  (** point.py:39-43 *)
  Definition padd (p q : point) : point :=
    mkPoint false (prune_dict (merge_dict leaf_eqb (pt_dict p) (pt_dict q))).
  (** point.py:51-57, 65-66 (scalar case) *)
  Definition pscale (c : sexpr) (p : point) : point :=
    mkPoint false (scale_dict c (pt_dict p)).
  (** point.py:48-49 *)
  Definition pneg (p : point) : point := pscale (Num (-1)) p.
  (** point.py:45-46 *)
  Definition psub (p q : point) : point := padd p (pneg q).
  (** point.py:58-60, 65-66 (point case): [self * other] *)
  Definition pmul (p q : point) : expr :=
    mkExpr false (multiply_dicts (pt_dict p) (pt_dict q)).
  (** point.py:71-73 *)
  Definition ppow (p : point) (n : nat) : res expr :=
    if Nat.eqb n 2 then Ok (pmul p p) else Err AssertionError.
  Definition psq (p : point) : expr := pmul p p.
  (** [1 / denominator] for a numeric denominator *)
  Definition recip (c : sexpr) : res sexpr :=
    match c with
    | Num q => if Qeq_bool q 0 then Err ZeroDivisionError else Ok (Num (Qred (/ q)))
    | _ => Err SymbolicDenominator
    end.
  (** point.py:68-69 *)
  Definition pdiv (p : point) (c : sexpr) : res point :=
    let? r := recip c in Ok (pscale r p).

  (** expression.py:38-40, 46 *)
  Definition eadd (a b : expr) : expr :=
    mkExpr false (merge_dict ekey_eqb (ex_dict a) (ex_dict b)).
  (** expression.py:41-42, 46, 48-49: adding a Python number *)
  Definition eaddc (a : expr) (q : Q) : expr :=
    mkExpr false (merge_dict ekey_eqb (ex_dict a) [(KOne, Num q)]).
  (** expression.py:60-69 *)
  Definition escale (c : sexpr) (a : expr) : expr :=
    mkExpr false (scale_dict c (ex_dict a)).
  (** expression.py:57-58 *)
  Definition eneg (a : expr) : expr := escale (Num (-1)) a.
  (** expression.py:51-52 *)
  Definition esub (a b : expr) : expr := eadd a (eneg b).
  Definition esubc (a : expr) (q : Q) : expr := eaddc a (Qred (- q)).
  (** expression.py:54-55: [q - a] *)
  Definition ersubc (q : Q) (a : expr) : expr := eneg (esubc a q).
  (** expression.py:71-72 *)
  Definition ediv (a : expr) (c : sexpr) : res expr :=
    let? r := recip c in Ok (escale r a).
End Ops.

(** A leaf point / expression object.  point.py:25-30, expression.py:24-29 *)
Definition leaf_point (l : leaf) : point := mkPoint true [(l, Num 1)].
Definition leaf_expr (l : leaf) : expr := mkExpr true [(KF l, Num 1)].
(** [Point(is_leaf=False, decomposition_dict=dict())] *)
Definition zero_point : point := mkPoint false [].
Definition zero_expr : expr := mkExpr false [].
