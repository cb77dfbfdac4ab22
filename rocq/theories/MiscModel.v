(** Model of the remaining helpers: evaluation of points, expressions and
    constraints; the degree check of the metric; one-hot and stacking helpers;
    the splitting of a matrix into positive semidefinite parts; grid search. *)
From Coq Require Import List Arith Bool String QArith Qabs ZArith Reals.
From Verif Require Import Prelude Sympy AlgebraModel FunctionModel CircuitModel ParsingModel.
Import ListNotations.

(** * Evaluation *)

(** The [_value] slots of the leaf objects.  Constructors store None
    (point.py:22, expression.py:21); the only other assignments to [_value] in
    /repo are the caches of non-leaf objects at the end of [eval]
    (point.py:83, expression.py:96) and constraint.py:34. *)
Record slots : Type := mkSlots { sl_pt : leaf -> option (nat -> Q); sl_ex : leaf -> option Q }.
Definition no_values : slots := mkSlots (fun _ => None) (fun _ => None).

(** [np.dot] on arrays of length n *)
Fixpoint qdot (n : nat) (u v : nat -> Q) : Q :=
  match n with O => 0%Q | S m => (qdot m u v + u m * v m)%Q end.

(** point.py:74-84 for a leaf *)
Definition eval_leaf_point (s : slots) (x : leaf) : res (nat -> Q) :=
  match sl_pt s x with Some v => Ok v | None => Err ValueError end.

(** point.py:74-84.  The array has length [n] = Point.counter and is returned
    as a function of the coordinate.  Simplifications: a cached value of a
    non-leaf is recomputed; a weight that is not a number raises TypeError
    (numpy refuses to add an array of objects to an array of floats in place). *)
Fixpoint eval_point_dict (s : slots) (d : pdict) (acc : nat -> Q) : res (nat -> Q) :=
  match d with
  | [] => Ok acc
  | (x, w) :: d' =>
      let? v := eval_leaf_point s x in
      match w with
      | Num q => eval_point_dict s d' (fun k => (acc k + q * v k)%Q)
      | _ => Err TypeError
      end
  end.
Definition eval_point (s : slots) (p : point) : res (nat -> Q) :=
  if pt_leaf p
  then match pt_dict p with [(x, _)] => eval_leaf_point s x | _ => Err ValueError end
  else eval_point_dict s (pt_dict p) (fun _ => 0%Q).

(** expression.py:77-97.  The value is a sympy expression as soon as a weight
    is one; a leaf expression is its own single key. *)
Definition eval_leaf_expr (s : slots) (f : leaf) : res Q :=
  match sl_ex s f with Some v => Ok v | None => Err ValueError end.
Fixpoint eval_expr_dict (s : slots) (n : nat) (d : edict) (acc : sexpr) : res sexpr :=
  match d with
  | [] => Ok acc
  | (KF f, w) :: d' =>
      let? q := eval_leaf_expr s f in eval_expr_dict s n d' (sadd acc (smul w (Num q)))
  | (KG x y, w) :: d' =>
      let? u := eval_leaf_point s x in
      let? v := eval_leaf_point s y in
      eval_expr_dict s n d' (sadd acc (smul w (Num (qdot n u v))))
  | (KOne, w) :: d' => eval_expr_dict s n d' (sadd acc w)
  end.
Definition eval_expr (s : slots) (n : nat) (e : expr) : res sexpr :=
  if ex_leaf e
  then match ex_dict e with [(KF f, _)] => let? q := eval_leaf_expr s f in Ok (Num q) | _ => Err ValueError end
  else eval_expr_dict s n (ex_dict e) (Num 0).

(** constraint.py:29-38.  The except clause names an exception instance, which
    is not a class: when the try block raises, matching it raises TypeError. *)
Definition eval_constraint (s : slots) (n : nat) (c : constr) : res sexpr :=
  match eval_expr s n (c_expr c) with
  | Ok v => Ok v
  | Err _ => Err TypeError
  end.

(** constraint.py:40-47; [d] is [_dual_variable_value], which constraint.py:27
    sets to None and nothing else assigns. *)
Definition eval_dual (d : option Q) : res Q :=
  match d with Some q => Ok q | None => Err ValueError end.

(** * The degree check of the metric *)

(** The objects a user may pass. *)
Inductive pyobj : Type :=
| PyExpression (e : expr)
| PyPoint (p : point)
| PySympy (e : sexpr)
| PyNumber (q : Q).

(** What [check_degree_expression] returns: a boolean, or its argument.
    sympy_parsing.py:171-178 *)
Inductive checked : Type := CBool (b : bool) | CObj (o : pyobj).
Definition check_degree_expression (SY : sympy) (o : pyobj) (degree : nat) : checked :=
  match o with
  | PySympy e => CBool (check_degree SY e degree)
  | _ => CObj o
  end.
(** Truth value of an object: Expression and Point define neither [__bool__]
    nor [__len__], so their instances are true. *)
Definition truthy (c : checked) : bool :=
  match c with
  | CBool b => b
  | CObj (PyNumber q) => negb (Qeq_bool q 0)
  | CObj (PySympy (Num q)) => negb (Qeq_bool q 0)
  | CObj _ => true
  end.
(** circuit_opt.py:44-54 *)
Definition set_metric (SY : sympy) (pb : problem) (o : pyobj) : res problem :=
  match o with
  | PyExpression e =>
      if truthy (check_degree_expression SY o 2)
      then Ok (set_performance_metric pb e) else Err AssertionError
  | _ => Err AssertionError
  end.

(** * One-hot helpers *)

(** A real array with two axes. *)
Record rmat : Type := mkRM { rm_rows : nat; rm_cols : nat; rm_at : nat -> nat -> R }.

(** utils.py:123-127 with flatten=False: [np.eye(n)[:, i:i+1]]; a slice that
    starts beyond the end has no column. *)
Definition one_hot (n i : nat) : rmat :=
  mkRM n (if Nat.ltb i n then 1 else 0) (fun r c => if Nat.eqb r (i + c) then 1%R else 0%R).
(** utils.py:124-125: [np.eye(n)[:, i]] *)
Definition one_hot_flat (n i : nat) : res (nat -> R) :=
  if Nat.ltb i n then Ok (fun r => if Nat.eqb r i then 1%R else 0%R) else Err IndexError.

(** [a @ b.T]; numpy raises ValueError when the inner sizes differ *)
Definition mul_t (a b : rmat) : res rmat :=
  if Nat.eqb (rm_cols a) (rm_cols b)
  then Ok (mkRM (rm_rows a) (rm_rows b) (fun r c => rsum (rm_cols a) (fun k => (rm_at a r k * rm_at b c k)%R)))
  else Err ValueError.
(** Sum of two arrays of one shape (broadcasting of other shapes, which needs
    an axis of size one, is left out). *)
Definition rm_add (a b : rmat) : res rmat :=
  if Nat.eqb (rm_rows a) (rm_rows b) && Nat.eqb (rm_cols a) (rm_cols b)
  then Ok (mkRM (rm_rows a) (rm_cols a) (fun r c => (rm_at a r c + rm_at b r c)%R))
  else Err ValueError.
(** utils.py:149-153 *)
Definition symm_prod (a b : rmat) : res rmat :=
  let? ab := mul_t a b in
  let? ba := mul_t b a in
  let? s := rm_add ab ba in
  Ok (mkRM (rm_rows s) (rm_cols s) (fun r c => (/ 2 * rm_at s r c)%R)).
(** utils.py:130-133 *)
Definition symm_prod_one_hot (n i j : nat) : res rmat := symm_prod (one_hot n i) (one_hot n j).
(** utils.py:143-146 *)
Definition prod_one_hot (rows cols i j : nat) : res rmat :=
  if Nat.ltb i rows && Nat.ltb j cols
  then Ok (mkRM rows cols (upd2 (fun _ _ => 0%R) i j 1%R)) else Err IndexError.

(** utils.py:109-113.  The slice assignment needs the number of rows of the
    first array and at most [max_len] columns (broadcasting of arrays with a
    single row or column is left out: ValueError). *)
Fixpoint stack_from (i rows max_len : nat) (l : list rmat) (acc : nat -> nat -> nat -> R)
  : res (nat -> nat -> nat -> R) :=
  match l with
  | [] => Ok acc
  | v :: l' =>
      if Nat.eqb (rm_rows v) rows && Nat.leb (rm_cols v) max_len
      then stack_from (S i) rows max_len l'
             (fun a r c => if Nat.eqb a i && Nat.ltb c (rm_cols v) then rm_at v r c else acc a r c)
      else Err ValueError
  end.
Definition stack_vectors (l : list rmat) (max_len : nat) : res (nat -> nat -> nat -> R) :=
  match l with
  | [] => Err IndexError
  | v :: _ => stack_from 0 (rm_rows v) max_len l (fun _ _ _ => 0%R)
  end.

(** utils.py:116-120 *)
Definition gp_trace (M : rmat) : R :=
  fold_left (fun tr i => (tr + rm_at M i i)%R) (seq 0 (rm_rows M)) 0%R.

(** * Splitting into positive semidefinite parts *)

(** utils.py:194-223 for symmetric A.  [np.linalg.eigh] is a parameter giving
    the eigenvalues and the matrix of eigenvectors (column i belongs to
    eigenvalue i), [np.argsort] a parameter giving the order.  [n] is the size.
    The closing assertion on [np.allclose] is left out. *)
Section Split.
  Variable eigh : (nat -> nat -> R) -> (nat -> R) * (nat -> nat -> R).
  Variable argsort : nat -> (nat -> R) -> nat -> nat.

  (** [np.where(evals>0)[0]] is empty, or its first element *)
  Fixpoint first_positive (m : nat) (i : nat) (ev : nat -> R) : option nat :=
    match m with
    | O => None
    | S m' => if Rlt_dec 0 (ev i) then Some i else first_positive m' (S i) ev
    end.

  Definition matrix_to_diff_psd (n : nat) (A : nat -> nat -> R) : (nat -> nat -> R) * (nat -> nat -> R) :=
    let '(ev0, V0) := eigh A in
    let idx := argsort n ev0 in
    let ev := fun k => ev0 (idx k) in
    let V := fun r k => V0 r (idx k) in
    match first_positive n 0 ev with
    | Some pos =>
        if Nat.leb 1 pos then
          ((fun r c => rsum (n - pos) (fun k => (ev (pos + k)%nat * V r (pos + k)%nat * V c (pos + k)%nat)%R)),
           (fun r c => (- rsum pos (fun k => ev k * V r k * V c k))%R))
        else (A, fun _ _ => 0%R)
    | None => ((fun _ _ => 0%R), fun r c => (- A r c)%R)
    end.

  (** utils.py:100-103: the matrix handed to [np.linalg.cholesky] *)
  Definition clip_eigenvalues (n : nat) (eps : R) (Z : nat -> nat -> R) : nat -> nat -> R :=
    let '(ev, V) := eigh Z in
    fun r c => rsum n (fun k => (Rmax (ev k) eps * V r k * V c k)%R).
End Split.

(** * Grid search *)

(** [l[start:end]] *)
Definition slice {A} (start stop : nat) (l : list A) : list A := firstn (stop - start) (skipn start l).

(** utils.py:226-236.  The best value starts as infinity ([None]).  Prints are
    left out. *)
Fixpoint grid_loop {P} (f : P -> list R) (start stop : nat) (l : list P) (best : option (R * P)) : res (option (R * P)) :=
  match l with
  | [] => Ok best
  | p :: l' =>
      if Nat.eqb stop start then Err ZeroDivisionError else
      let v := (fold_left Rplus (slice start stop (f p)) 0 / IZR (Z.of_nat stop - Z.of_nat start))%R in
      let best' := match best with
                   | None => Some (v, p)
                   | Some (b, _) => if Rlt_dec v b then Some (v, p) else best
                   end in
      grid_loop f start stop l' best'
  end.
Definition grid_search {P} (f : P -> list R) (l : list P) (start stop : nat) : res P :=
  let? b := grid_loop f start stop l None in
  match b with
  | Some (_, p) => Ok p
  | None => Err UnboundLocalError
  end.

(** * Comparing expressions *)

(** [np.allclose(a, b)]: |a - b| <= 1e-8 + 1e-5 |b| *)
Definition allclose (a b : Q) : bool :=
  Qle_bool (Qabs (a - b)) ((1 # 100000000) + (1 # 100000) * Qabs b).

(** sympy_parsing.py:222-232.  An expression without symbols is a number.
    Simplification: so is one that simplifies to a number (sympy cancels the
    sums built by [collapse_expression] by itself). *)
Definition is_zero_expr (SY : sympy) (e : sexpr) : res bool :=
  if numeric SY e then let? q := float_simp SY e in Ok (allclose q 0)
  else Ok (forallb (fun t => allclose (snd t) 0) (p_terms (poly SY (simp SY e)))).

(** sympy_parsing.py:234-249.  [collapse_expression] returns a float for a
    numeric argument and a sympy object otherwise. *)
Definition equal_expression (SY : sympy) (e1 e2 : sexpr) : res bool :=
  let? ex1 := collapse_expression SY e1 in
  let? ex2 := collapse_expression SY e2 in
  let? z := is_zero_expr SY (ssub ex1 ex2) in
  if z then Ok true
  else match numeric SY e1, numeric SY e2 with
       | false, true =>
           if numeric SY ex1 then let? a := float_simp SY ex1 in let? b := float_simp SY ex2 in Ok (allclose a b) else Ok false
       | true, false =>
           if numeric SY ex2 then let? a := float_simp SY ex1 in let? b := float_simp SY ex2 in Ok (allclose a b) else Ok false
       | _, _ => is_zero_expr SY (ssub ex1 ex2)
       end.
