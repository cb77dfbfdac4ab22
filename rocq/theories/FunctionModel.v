(** Model of [ciropt/function.py] and of the class-level state of Point,
    Expression and Function. *)
From Coq Require Import List Arith Bool String QArith.
From Verif Require Import Prelude Sympy AlgebraModel.
Import ListNotations.

(** A recorded triplet (point, gradient, value), function.py:97-102.  [t_id]
    is the identity of the triple of objects: Python compares two triplets
    with [!=] object by object (function.py:214). *)
Record trip : Type := mkTrip { t_id : nat; t_x : point; t_g : point; t_f : expr }.

(** The Python class of a Function object and its parameters.
    function.py:15 / 202-216 / 219-241, 265-275 / 244-262 *)
Inductive fclass : Type :=
| CBase                          (* Function: composites *)
| CConvex                        (* ConvexFunction *)
| CSmoothSC (mu L : Q)           (* SmoothStronglyConvexFunction, SmoothConvexFunction (mu = 0) *)
| CStrongly (mu : Q).            (* StronglyConvexFunction *)

(** function.py:20-40 *)
Record func : Type := mkFunc {
  fn_leaf : bool;
  fn_reuse : bool;
  fn_class : fclass;
  fn_dict : list (nat * sexpr);    (* decomposition_dict: function identity -> weight *)
  fn_ctr : option nat;
  fn_stat : list trip;             (* list_of_stationary_points *)
  fn_pts : list trip;              (* list_of_points *)
  fn_cons : list expr              (* list_of_class_constraints *)
}.

(** Interpreter state: object identities, class counters (point.py:17,
    expression.py:16, function.py:17), the class-level lists
    [Function.list_of_functions] (function.py:18), [Point.list_of_leaf_points]
    (point.py:18), [Expression.list_of_leaf_expressions] (expression.py:17), and
    the Function objects. *)
Record state : Type := mkState {
  st_next : nat;
  st_pctr : nat;
  st_ectr : nat;
  st_fctr : nat;
  st_funs : list (nat * func);
  st_flist : list nat;
  st_plist : list leaf;
  st_elist : list leaf
}.

(** State and exception monad; effects before an exception persist. *)
Definition M (A : Type) : Type := state -> res A * state.
Definition ret {A} (a : A) : M A := fun s => (Ok a, s).
Definition raise {A} (e : exn) : M A := fun s => (Err e, s).
Definition bind {A B} (m : M A) (k : A -> M B) : M B :=
  fun s => match m s with
           | (Ok a, s') => k a s'
           | (Err e, s') => (Err e, s')
           end.
Definition lift {A} (r : res A) : M A := fun s => (r, s).
Notation "'do' x '<-' m ';' k" := (bind m (fun x => k))
  (at level 200, x pattern, m at level 99, k at level 200).
Notation "m ';;' k" := (bind m (fun _ => k)) (at level 100, k at level 200, right associativity).
Definition assertM (b : bool) : M unit := if b then ret tt else raise AssertionError.

(** Fresh object identity. *)
Definition fresh_id : M nat := fun s =>
  (Ok (st_next s), mkState (S (st_next s)) (st_pctr s) (st_ectr s) (st_fctr s) (st_funs s) (st_flist s)
       (st_plist s) (st_elist s)).

(** [Point(is_leaf=True)], point.py:20-30 *)
Definition new_point : M point := fun s =>
  (Ok (leaf_point (mkLeaf (st_next s) (st_pctr s))),
   mkState (S (st_next s)) (S (st_pctr s)) (st_ectr s) (st_fctr s) (st_funs s) (st_flist s)
     (st_plist s ++ [mkLeaf (st_next s) (st_pctr s)]) (st_elist s)).

(** [Expression(is_leaf=True)], expression.py:19-29 *)
Definition new_expr : M expr := fun s =>
  (Ok (leaf_expr (mkLeaf (st_next s) (st_ectr s))),
   mkState (S (st_next s)) (st_pctr s) (S (st_ectr s)) (st_fctr s) (st_funs s) (st_flist s)
     (st_plist s) (st_elist s ++ [mkLeaf (st_next s) (st_ectr s)])).

(** Attribute access on a Function object.  A dangling identity cannot occur
    in Python; it is mapped to AttributeError. *)
Definition get_fun (f : nat) : M func := fun s =>
  match dget Nat.eqb f (st_funs s) with
  | Some fn => (Ok fn, s)
  | None => (Err AttributeError, s)
  end.
Definition set_fun (f : nat) (fn : func) : M unit := fun s =>
  (Ok tt, mkState (st_next s) (st_pctr s) (st_ectr s) (st_fctr s)
                  (dset Nat.eqb f fn (st_funs s)) (st_flist s) (st_plist s) (st_elist s)).

(** [Function.__init__] for a leaf, function.py:20-40 *)
Definition new_leaf_fun (c : fclass) (reuse : bool) : M nat := fun s =>
  let f := st_next s in
  (Ok f,
   mkState (S (st_next s)) (st_pctr s) (st_ectr s) (S (st_fctr s))
     (st_funs s ++ [(f, mkFunc true reuse c [(f, Num 1)] (Some (st_fctr s)) [] [] [])])
     (st_flist s ++ [f]) (st_plist s) (st_elist s)).
(** [Function.__init__] for a composite, function.py:33-40 *)
Definition new_comp_fun (d : list (nat * sexpr)) (reuse : bool) : M nat := fun s =>
  let f := st_next s in
  (Ok f,
   mkState (S (st_next s)) (st_pctr s) (st_ectr s) (st_fctr s)
     (st_funs s ++ [(f, mkFunc false reuse CBase d None [] [] [])])
     (st_flist s ++ [f]) (st_plist s) (st_elist s)).

(** Smoothness constants: a number or [np.inf]. *)
Inductive extq : Type := Fin (q : Q) | Inf.

(** [ConvexFunction()], function.py:202-207 *)
Definition new_convex : M nat := new_leaf_fun CConvex false.
(** [SmoothStronglyConvexFunction(mu, L)], function.py:219-229: the object is
    registered before the assertion on L. *)
Definition new_smooth_sc (mu : Q) (L : extq) : M nat :=
  match L with
  | Fin l => new_leaf_fun (CSmoothSC mu l) true
  | Inf => new_leaf_fun (CSmoothSC mu 1) true ;; raise AssertionError
  end.
(** [StronglyConvexFunction(mu)], function.py:244-251 *)
Definition new_strongly (mu : Q) : M nat := new_leaf_fun (CStrongly mu) false.
(** [SmoothConvexFunction(L)], function.py:265-275 *)
Definition new_smooth (L : extq) : M nat := new_smooth_sc 0 L.

(** [def_function], function.py:278-287; [define_function], utils.py:239-248
    (with package = ciropt) is the same code. *)
Definition def_function (mu : Q) (L : extq) : M nat :=
  let nz := negb (Qeq_bool mu 0) in
  match L with
  | Fin _ => if nz then new_smooth_sc mu L else new_smooth L
  | Inf => if nz then new_strongly mu else new_convex
  end.

Section Fun.
  Variable SY : sympy.

  (** function.py:45-50 *)
  Definition fn_add (f1 f2 : nat) : M nat :=
    do a <- get_fun f1; do b <- get_fun f2;
    new_comp_fun (merge_dict SY Nat.eqb (fn_dict a) (fn_dict b)) (fn_reuse a && fn_reuse b).
  (** function.py:58-66, 68-69: weights are multiplied without simplification *)
  Definition fn_scale (c : sexpr) (f : nat) : M nat :=
    do a <- get_fun f;
    new_comp_fun (map (fun kv => (fst kv, smul (snd kv) c)) (fn_dict a)) (fn_reuse a).
  (** function.py:55-56, 52-53 *)
  Definition fn_neg (f : nat) : M nat := fn_scale (Num (-1)) f.
  Definition fn_sub (f1 f2 : nat) : M nat := do g <- fn_neg f2; fn_add f1 g.
  (** function.py:71-72 *)
  Definition fn_div (f : nat) (c : sexpr) : M nat := do r <- lift (recip c); fn_scale r f.

  (** [triplet[0].decomposition_dict == point.decomposition_dict] *)
  Definition same_point (p q : point) : bool := dict_eqb leaf_eqb (pt_dict p) (pt_dict q).

  (** function.py:77-81 *)
  Definition evaluated_at (l : list trip) (p : point) : option (point * expr) :=
    match find (fun t => same_point (t_x t) p) l with
    | Some t => Some (t_g t, t_f t)
    | None => None
    end.

  (** function.py:83-95: split into (nothing, gradient only, gradient and value) *)
  Fixpoint separate (d : list (nat * sexpr)) (p : point)
    : M (list (nat * sexpr) * list (nat * sexpr) * list (nat * sexpr)) :=
    match d with
    | [] => ret ([], [], [])
    | (f, w) :: d' =>
        do fn <- get_fun f;
        do r <- separate d' p;
        let '(a, b, c) := r in
        match evaluated_at (fn_pts fn) p with
        | Some _ => if fn_reuse fn then ret ((f, w) :: a, b, c) else ret (a, (f, w) :: b, c)
        | None => ret (a, b, (f, w) :: c)
        end
    end.

  Definition prune_p (p : point) : point := mkPoint (pt_leaf p) (prune_dict (pt_dict p)).
  Definition prune_e (e : expr) : expr := mkExpr (ex_leaf e) (prune_dict (ex_dict e)).
  Definition prune_t (t : trip) : trip :=
    mkTrip (t_id t) (prune_p (t_x t)) (prune_p (t_g t)) (prune_e (t_f t)).

  (** The methods of Function that call each other, abstracted over the
      methods used on the component functions. *)
  Record meths : Type := mkMeths {
    m_add : nat -> trip -> M unit;            (* add_point *)
    m_oracle : nat -> point -> M (point * expr);
    m_value : nat -> point -> M expr;
    m_grad : nat -> point -> M point
  }.

  Section Body.
    Variable sub : meths.

    (** function.py:117-126: the loop distributing gradient and value over
        the components; [n] is the number of calls left before the last one. *)
    Fixpoint distribute (l : list (nat * sexpr)) (n : nat) (p g : point) (f : expr) : M unit :=
      match l with
      | [] => ret tt
      | (fi, w) :: l' =>
          match n with
          | S n' =>
              do gv <- m_oracle sub fi p;
              distribute l' n' p (psub SY g (pscale SY w (fst gv))) (esub SY f (escale SY w (snd gv)))
          | O =>
              do g' <- lift (pdiv SY g w);
              do f' <- lift (ediv SY f w);
              do i <- fresh_id;
              m_add sub fi (mkTrip i p g' f') ;;
              distribute l' O p g' f'
          end
      end.

    (** function.py:97-126.  The three objects are pruned in place in Python;
        in the model the record holds the pruned values and the caller's own
        copy is not touched (no difference for points without zero weights). *)
    Definition add_body (self : nat) (t0 : trip) : M unit :=
      let t := prune_t t0 in
      do fn <- get_fun self;
      let stat := match pt_dict (t_g t) with [] => fn_stat fn ++ [t] | _ => fn_stat fn end in
      let dict := if fn_leaf fn then fn_dict fn else prune_dict (fn_dict fn) in
      set_fun self (mkFunc (fn_leaf fn) (fn_reuse fn) (fn_class fn) dict (fn_ctr fn)
                           stat (fn_pts fn ++ [t]) (fn_cons fn)) ;;
      if fn_leaf fn then ret tt
      else
        do r <- separate dict (t_x t);
        let '(nothing, gonly, both) := r in
        let something := gonly ++ both in
        match something with
        | [] => ret tt
        | _ => distribute (nothing ++ something) (List.length dict - 1) (t_x t) (t_g t) (t_f t)
        end.

    (** function.py:139-141, 145-147 *)
    Fixpoint sum_values (d : list (nat * sexpr)) (p : point) (acc : expr) : M expr :=
      match d with
      | [] => ret acc
      | (f, w) :: d' => do v <- m_value sub f p; sum_values d' p (eadd SY acc (escale SY w v))
      end.
    Fixpoint sum_grads (d : list (nat * sexpr)) (p : point) (acc : point) : M point :=
      match d with
      | [] => ret acc
      | (f, w) :: d' => do g <- m_grad sub f p; sum_grads d' p (padd SY acc (pscale SY w g))
      end.

    (** function.py:128-151.  The returned objects are the recorded ones, hence pruned. *)
    Definition oracle_body (self : nat) (p : point) : M (point * expr) :=
      do fn <- get_fun self;
      let cached := evaluated_at (fn_pts fn) p in
      match cached, fn_reuse fn with
      | Some gf, true => ret gf
      | _, _ =>
          do r <- separate (fn_dict fn) p;
          let '(nothing, gonly, both) := r in
          do f <- match cached with
                  | Some gf => ret (snd gf)
                  | None => match both with
                            | [] => sum_values (fn_dict fn) p zero_expr
                            | _ => new_expr
                            end
                  end;
          do g <- match both, gonly with
                  | [], [] => sum_grads (fn_dict fn) p zero_point
                  | _, _ => new_point
                  end;
          do i <- fresh_id;
          add_body self (mkTrip i p g f) ;;
          ret (prune_p g, prune_e f)
      end.

    (** function.py:161-168 *)
    Definition value_body (self : nat) (p : point) : M expr :=
      do fn <- get_fun self;
      match evaluated_at (fn_pts fn) p with
      | Some gf => ret (snd gf)
      | None => do gf <- oracle_body self p; ret (snd gf)
      end.
    (** function.py:153-159 *)
    Definition grad_body (self : nat) (p : point) : M point :=
      do gf <- oracle_body self p; ret (fst gf).

    Definition bodies : meths := mkMeths add_body oracle_body value_body grad_body.
  End Body.

  (** Recursion bounded by fuel; composites have leaf components
      (function.py:45-66 only merges decompositions), so two levels suffice. *)
  Definition no_meths : meths :=
    mkMeths (fun _ _ => raise RecursionError) (fun _ _ => raise RecursionError)
            (fun _ _ => raise RecursionError) (fun _ _ => raise RecursionError).
  Fixpoint methods (fuel : nat) : meths :=
    match fuel with O => no_meths | S n => bodies (methods n) end.

  Definition add_point (f : nat) (t : trip) : M unit := m_add (methods 2) f t.
  Definition oracle (f : nat) (p : point) : M (point * expr) := m_oracle (methods 2) f p.
  Definition value (f : nat) (p : point) : M expr := m_value (methods 2) f p.
  Definition gradient (f : nat) (p : point) : M point := m_grad (methods 2) f p.

  (** [function.add_point((x, g, f))] with a new tuple of objects *)
  Definition add_triplet (fid : nat) (x g : point) (f : expr) : M unit :=
    do i <- fresh_id; add_point fid (mkTrip i x g f).

  (** function.py:173-182 *)
  Definition stationary_point (fid : nat) : M (point * point * expr) :=
    do x <- new_point;
    do f <- new_expr;
    add_triplet fid x zero_point f ;;
    ret (x, zero_point, f).

  (** function.py:185-191; the returned x is the recorded (pruned) object *)
  Definition proximal_step (x0 : point) (fid : nat) (gamma : sexpr) : M (point * point * expr) :=
    do gx <- new_point;
    do fx <- new_expr;
    let x := psub SY x0 (pscale SY gamma gx) in
    add_triplet fid x gx fx ;;
    ret (prune_p x, gx, fx).

  (** function.py:194-199 *)
  Definition subgrad_conjugate (gx : point) (fid : nat) : M point :=
    do x <- new_point;
    do fx <- new_expr;
    add_triplet fid x gx fx ;;
    ret x.

  (** The interpolation inequality of each class for an ordered pair,
      as an expression required to be <= 0.
      function.py:216 / 238-241 / 260-262 / 74-75 *)
  Definition qdiv (a b : Q) : res Q :=
    if Qeq_bool b 0 then Err ZeroDivisionError else Ok (Qred (a / b)).
  Definition conv_part (ti tj : trip) : expr :=
    eadd SY (esub SY (t_f tj) (t_f ti)) (pmul SY (t_g tj) (psub SY (t_x ti) (t_x tj))).
  Definition class_constraint (c : fclass) (ti tj : trip) : res expr :=
    match c with
    | CBase => Err NotImplementedError
    | CConvex => Ok (conv_part ti tj)
    | CSmoothSC mu L =>
        let? c1 := qdiv 1 (Qred (2 * L)) in
        let? ml := qdiv mu L in
        let? c2 := qdiv mu (Qred (2 * (1 - ml))) in
        let? il := qdiv 1 L in
        let dg := psub SY (t_g ti) (t_g tj) in
        let dx := psub SY (psub SY (t_x ti) (t_x tj)) (pscale SY (Num il) dg) in
        Ok (eadd SY (eadd SY (conv_part ti tj) (escale SY (Num c1) (psq SY dg)))
                    (escale SY (Num c2) (psq SY dx)))
    | CStrongly mu =>
        Ok (eadd SY (conv_part ti tj)
                    (escale SY (Num (Qred (mu / 2))) (psq SY (psub SY (t_x ti) (t_x tj)))))
    end.

  (** The double loop, function.py:210-216, 232-241, 254-262.  All triplets are
      visited in order; [point_i != point_j] is the identity test. *)
  Fixpoint row (c : fclass) (ti : trip) (l : list trip) : res (list expr) :=
    match l with
    | [] => Ok []
    | tj :: l' =>
        if Nat.eqb (t_id ti) (t_id tj) then row c ti l'
        else let? e := class_constraint c ti tj in let? r := row c ti l' in Ok (e :: r)
    end.
  Fixpoint rows (c : fclass) (li l : list trip) : res (list expr) :=
    match li with
    | [] => Ok []
    | ti :: li' => let? a := row c ti l in let? b := rows c li' l in Ok (a ++ b)
    end.

  (** [add_class_constraints]: appends to [list_of_class_constraints].  An
      exception is raised by the constants of the class at the first pair, so
      nothing has been appended when it happens.  The base class raises
      NotImplementedError (function.py:74-75). *)
  Definition add_class_constraints (fid : nat) : M unit :=
    do fn <- get_fun fid;
    match fn_class fn with
    | CBase => raise NotImplementedError
    | c => do l <- lift (rows c (fn_pts fn) (fn_pts fn));
           set_fun fid (mkFunc (fn_leaf fn) (fn_reuse fn) (fn_class fn) (fn_dict fn) (fn_ctr fn)
                               (fn_stat fn) (fn_pts fn) (fn_cons fn ++ l))
    end.
End Fun.
