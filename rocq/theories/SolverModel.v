(** Model of the Ipopt formulations: [ciropt/sympy_to_solvers.py] (casadi
    part), [ciropt/utils.py] (index helpers and bounds) and
    [ciropt/circuit_opt.py:163-519].

    A casadi [Opti] object is a counter of scalar decision variables and the
    list of constraints passed to [subject_to]; expressions are kept as syntax
    and evaluated by [ceval].  Options, initial guesses, printing and debug
    output are not modelled. *)
From Coq Require Import List Arith Bool String Ascii QArith Reals Qreals.
From Coq Require Import Decimal DecimalString Numbers.DecimalNat.
From Verif Require Import Prelude Sympy AlgebraModel FunctionModel CircuitModel ParsingModel.
Import ListNotations.
Local Open Scope nat_scope.
Local Open Scope string_scope.

(** * casadi expressions *)
Inductive cexpr : Type :=
| CNum (q : Q)
| CVar (n : nat)
| CAdd (a b : cexpr)
| CSub (a b : cexpr)
| CMul (a b : cexpr).

Fixpoint ceval (a : nat -> R) (e : cexpr) : R :=
  match e with
  | CNum q => Q2R q
  | CVar n => a n
  | CAdd x y => (ceval a x + ceval a y)%R
  | CSub x y => (ceval a x - ceval a y)%R
  | CMul x y => (ceval a x * ceval a y)%R
  end.

(** [a == b], [a >= b] ([a <= b] is [b >= a]) *)
Inductive ccon : Type := CEq (a b : cexpr) | CGe (a b : cexpr).
Definition holds (a : nat -> R) (c : ccon) : Prop :=
  match c with
  | CEq x y => ceval a x = ceval a y
  | CGe x y => (ceval a x >= ceval a y)%R
  end.

(** A variable block created by [opti.variable(rows, cols)]: consecutive scalar
    variables; the order of the entries inside a block is immaterial. *)
Record cavar : Type := mkCV { cv_rows : nat; cv_cols : nat; cv_base : nat }.
Definition cv_at (v : cavar) (i j : nat) : nat := cv_base v + i * cv_cols v + j.
Definition cv_ids (v : cavar) : list nat := seq (cv_base v) (cv_rows v * cv_cols v).

(** Opti object and the dictionary [ca_vars] *)
Record opti : Type := mkOpti {
  op_next : nat;
  op_cons : list ccon;
  op_vars : list (string * cavar)
}.
Definition opti0 : opti := mkOpti 0 [] [].
Definition feasible (o : opti) (a : nat -> R) : Prop := Forall (holds a) (op_cons o).

Definition OM (A : Type) : Type := opti -> res (A * opti).
Definition oret {A} (a : A) : OM A := fun o => Ok (a, o).
Definition oraise {A} (e : exn) : OM A := fun _ => Err e.
Definition obind {A B} (m : OM A) (k : A -> OM B) : OM B :=
  fun o => match m o with Ok (a, o') => k a o' | Err e => Err e end.
Definition olift {A} (r : res A) : OM A :=
  fun o => match r with Ok a => Ok (a, o) | Err e => Err e end.
Notation "'ado' x '<-' m ';' k" := (obind m (fun x => k))
  (at level 200, x pattern, m at level 99, k at level 200).

Definition opti_variable (r c : nat) : OM cavar := fun o =>
  Ok (mkCV r c (op_next o), mkOpti (op_next o + r * c) (op_cons o) (op_vars o)).
Definition subject_to (c : ccon) : OM unit := fun o =>
  Ok (tt, mkOpti (op_next o) (op_cons o ++ [c])%list (op_vars o)).
Definition set_var (name : string) (v : cavar) : OM unit := fun o =>
  Ok (tt, mkOpti (op_next o) (op_cons o) (dset String.eqb name v (op_vars o))).
(** [ca_vars[name]] *)
Definition get_var (name : string) : OM cavar := fun o =>
  match dget String.eqb name (op_vars o) with Some v => Ok (v, o) | None => Err KeyError end.
Definition has_var (name : string) : OM bool := fun o => Ok (dmem String.eqb name (op_vars o), o).

Fixpoint omap {A B} (f : A -> OM B) (l : list A) : OM (list B) :=
  match l with
  | [] => oret []
  | x :: l' => ado y <- f x; ado ys <- omap f l'; oret (y :: ys)
  end.
Fixpoint oiter {A} (f : A -> OM unit) (l : list A) : OM unit :=
  match l with
  | [] => oret tt
  | x :: l' => ado _ <- f x; oiter f l'
  end.

(** A block used as a scalar in a product.  Simplification: casadi would
    multiply a matrix elementwise; the model raises TypeError instead. *)
Definition scalar (v : cavar) : res cexpr :=
  if Nat.eqb (cv_rows v) 1 && Nat.eqb (cv_cols v) 1 then Ok (CVar (cv_base v)) else Err TypeError.

(** * sympy_to_solvers.py *)

(** sympy_to_solvers.py:13-23; the two counts and the last index of each kind *)
Fixpoint find_lambda_nu (i : nat) (l : list string) (acc : nat * nat * nat * nat) : nat * nat * nat * nat :=
  match l with
  | [] => acc
  | v :: l' =>
      let '(cl, cn, il, iu) := acc in
      if String.prefix "lamb" v then find_lambda_nu (S i) l' (S cl, cn, i, iu)
      else if String.prefix "nu" v then find_lambda_nu (S i) l' (cl, S cn, il, i)
      else find_lambda_nu (S i) l' acc
  end.

(** [int(s)] restricted to plain digit strings; Python also accepts signs,
    spaces and underscores, which do not occur in generated names *)
Definition parse_nat (s : string) : res nat :=
  match NilEmpty.uint_of_string s with
  | Some d => match s with EmptyString => Err ValueError | _ => Ok (Nat.of_uint d) end
  | None => Err ValueError
  end.

(** sympy_to_solvers.py:45-46 [prefix, ab, _ = name.split("|")] and
    [a, b = map(int, ab.split("."))] *)
Definition parse_dual (name : string) : res (string * nat * nat) :=
  match split "|"%char name with
  | [prefix; ab; _] =>
      match split "."%char ab with
      | [a; b] => let? x := parse_nat a in let? y := parse_nat b in Ok (prefix, x, y)
      | _ => Err ValueError
      end
  | _ => Err ValueError
  end.

(** [l.pop(i)] *)
Definition pop {A} (i : nat) (l : list A) : list A := (firstn i l ++ skipn (S i) l)%list.

(** sympy_to_solvers.py:81-93 [ca_linearize_monomial]; [pre] is the current
    prefix [monomial[:i+1]], [l] the remaining factors *)
Fixpoint pin_prefixes (pre : list string) (l : list string) : OM unit :=
  match l with
  | [] => oret tt
  | x :: l' =>
      let pre' := (pre ++ [x])%list in
      let nv := join_us pre' in
      ado b <- has_var nv;
      ado _ <- (if b : bool then oret tt else
        ado v <- opti_variable 1 1;
        ado _ <- set_var nv v;
        ado v1 <- get_var (join_us pre);
        ado e1 <- olift (scalar v1);
        ado v2 <- get_var x;
        ado e2 <- olift (scalar v2);
        subject_to (CEq (CVar (cv_base v)) (CMul e1 e2)));
      pin_prefixes pre' l'
  end.
Definition ca_linearize_monomial (m : list string) : OM cexpr :=
  match ssort m with
  | [] => oret (CNum 1)
  | x :: l =>
      ado _ <- pin_prefixes [x] l;
      ado v <- get_var (join_us (x :: l));
      olift (scalar v)
  end.

(** [ca_vars[prefix][a, b]] *)
Definition get_entry (prefix : string) (a b : nat) : OM cexpr :=
  ado v <- get_var prefix;
  if Nat.ltb a (cv_rows v) && Nat.ltb b (cv_cols v) then oret (CVar (cv_at v a b))
  else oraise IndexError.

(** sympy_to_solvers.py:39-64: one monomial of sympy_expression_to_casadi_lamb *)
Definition casadi_monomial_lamb (vs : list string) : OM cexpr :=
  match vs with
  | [] => oret (CNum 1)
  | _ =>
      let '(cl, cn, il, iu) := find_lambda_nu 0 vs (0, 0, 0, 0) in
      if Nat.leb (cn + cl) 1 then
        if Nat.ltb 0 cl then
          ado r <- olift (parse_dual (nth il vs ""));
          let '(prefix, a, b) := r in
          ado e <- get_entry prefix a b;
          ado m <- ca_linearize_monomial (pop il vs);
          oret (CMul e m)
        else if Nat.ltb 0 cn then
          ado r <- olift (parse_dual (nth iu vs ""));
          let '(prefix, a, b) := r in
          ado e <- get_entry prefix a b;
          ado m <- ca_linearize_monomial (pop iu vs);
          oret (CMul e m)
        else ca_linearize_monomial vs
      else oraise AssertionError
  end.

(** sympy_to_solvers.py:106-110: one monomial of sympy_expression_to_casadi *)
Definition casadi_monomial (vs : list string) : OM cexpr :=
  match vs with [] => oret (CNum 1) | _ => ca_linearize_monomial vs end.

(** sympy_to_solvers.py:36-66, 103-112: the loop over the monomials *)
Fixpoint casadi_terms (mono : list string -> OM cexpr) (gens : list string)
    (l : list (list nat * Q)) (acc : cexpr) : OM cexpr :=
  match l with
  | [] => oret acc
  | (ex, q) :: l' =>
      ado m <- mono (mono_vars split_us gens ex);
      casadi_terms mono gens l' (CAdd acc (CMul (CNum q) m))
  end.

Section Solver.
  Variable SY : sympy.

  Definition casadi_expr (mono : list string -> OM cexpr) (e : sexpr) : OM cexpr :=
    if numeric SY e then ado q <- olift (float_simp SY e); oret (CNum q)
    else let p := poly SY (simp SY e) in casadi_terms mono (p_gens p) (p_terms p) (CNum 0).

  (** sympy_to_solvers.py:26-67 *)
  Definition sympy_expression_to_casadi_lamb : sexpr -> OM cexpr := casadi_expr casadi_monomial_lamb.
  (** sympy_to_solvers.py:96-113 *)
  Definition sympy_expression_to_casadi : sexpr -> OM cexpr := casadi_expr casadi_monomial.

  (** sympy_to_solvers.py:70-78 with utils.py:143-146.  [M += val * E_ij] over
      all i, j leaves [val] in entry (i, j); see C55 for the assembly.  The
      entries are listed row by row. *)
  Definition sympy_matrix_to_casadi (l : list sexpr) : OM (list cexpr) :=
    omap sympy_expression_to_casadi_lamb l.

  (** * utils.py *)

  (** [bounds]: name -> ("ub", "lb") *)
  Definition bounds : Type := list (string * (option Q * option Q)).

  (** utils.py:7-15.  [this] is the Python variable [this_var], which keeps its
      value from the previous name when the name is unknown.  Entries of a
      matrix variable are bounded elementwise. *)
  Fixpoint ca_add_bounds_loop (b : bounds) (name2idx : list (vname * nat)) (this : option (list nat)) : OM unit :=
    match b with
    | [] => oret tt
    | (name, (ub, lb)) :: b' =>
        ado k <- has_var name;
        ado this' <- (if k : bool then ado v <- get_var name; oret (Some (cv_ids v))
                      else match dget vname_eqb (VStr name) name2idx with
                           | Some i => ado v <- get_var "x";
                                       if Nat.ltb i (cv_rows v) then oret (Some [cv_at v i 0]) else oraise IndexError
                           | None => oret this
                           end);
        ado _ <- (match ub with
                  | None => oret tt
                  | Some q => match this' with
                              | None => oraise UnboundLocalError
                              | Some ids => oiter (fun i => subject_to (CGe (CNum q) (CVar i))) ids
                              end
                  end);
        ado _ <- (match lb with
                  | None => oret tt
                  | Some q => match this' with
                              | None => oraise UnboundLocalError
                              | Some ids => oiter (fun i => subject_to (CGe (CVar i) (CNum q))) ids
                              end
                  end);
        ca_add_bounds_loop b' name2idx this'
    end.
  Definition ca_add_bounds (b : option bounds) (name2idx : list (vname * nat)) : OM unit :=
    match b with None => oret tt | Some b => ca_add_bounds_loop b name2idx None end.

  (** utils.py:136-141; [name[3:]] *)
  Definition drop3 (s : string) : string := String.substring 3 (String.length s - 3) s.
  Definition inv_discr_params (l : list string) : list string :=
    map drop3 (filter (infix "inv") l).

  (** * circuit_opt.py:163-262 [solve_ipopt] *)

  (** [opti.variable()] bound to a name *)
  Definition new_scalar (name : string) : OM unit :=
    ado v <- opti_variable 1 1; set_var name v.

  Definition tiny : Q := 1 # 10000000.   (* 1e-7 *)

  (** circuit_opt.py:184-189 *)
  Definition add_reciprocal (name : string) : OM unit :=
    ado v <- opti_variable 1 1; ado _ <- set_var name v;
    ado w <- opti_variable 1 1; ado _ <- set_var ("inv" ++ name) w;
    ado _ <- subject_to (CEq (CMul (CVar (cv_base v)) (CVar (cv_base w))) (CNum 1));
    subject_to (CGe (CVar (cv_base v)) (CNum tiny)).

  (** circuit_opt.py:191-193 *)
  Definition declare_param (name : string) : OM unit :=
    ado b <- has_var name; if b : bool then oret tt else new_scalar name.

  (** circuit_opt.py:198-199 *)
  Definition nonneg_var (name : string) : OM unit :=
    ado v <- get_var name;
    oiter (fun i => subject_to (CGe (CVar i) (CNum 0))) (cv_ids v).

  (** [ca.tril(P)] entrywise *)
  Definition tril (v : cavar) (i j : nat) : cexpr :=
    if Nat.leb j i then CVar (cv_at v i j) else CNum 0.

  (** circuit_opt.py:171-199; the returned block is P.  When a parameter
      "invP" is declared P is rebound to a scalar; then the model raises
      TypeError (casadi would broadcast). *)
  Definition ipopt_head (params : list string) (b : option bounds) (dimG : nat) : OM cavar :=
    ado _ <- oiter new_scalar ["eta"; "rho"; "h"; "gamma"; "delta"; "alpha"; "beta"];
    ado P0 <- opti_variable dimG dimG;
    ado _ <- set_var "P" P0;
    ado _ <- oiter add_reciprocal (inv_discr_params params);
    ado _ <- oiter declare_param params;
    ado P <- get_var "P";
    if Nat.eqb (cv_rows P) dimG && Nat.eqb (cv_cols P) dimG then
      ado _ <- oiter (fun k => subject_to (CGe (tril P k k) (CNum 0))) (seq 0 dimG);
      ado _ <- ca_add_bounds b [];
      ado _ <- nonneg_var "eta"; ado _ <- nonneg_var "rho"; ado _ <- nonneg_var "h";
      oret P
    else oraise TypeError.

  (** circuit_opt.py:205-222; [sizes] are the numbers of records of the leaf
      functions *)
  Definition nonneg_block (name : string) (r c : nat) : OM unit :=
    ado v <- opti_variable r c; ado _ <- set_var name v;
    oiter (fun i => subject_to (CGe (CVar i) (CNum 0))) (cv_ids v).
  Fixpoint ipopt_fun_blocks (idx : nat) (sizes : list nat) : OM unit :=
    match sizes with
    | [] => oret tt
    | n :: l => ado _ <- nonneg_block (lamb_prefix idx) n n; ipopt_fun_blocks (S idx) l
    end.
  Definition ipopt_multipliers (p : problem) (sr : symres) (sizes : list nat) : OM unit :=
    let eq_size := match pr_cons p with [] => 0 | _ => sr_E sr end in
    let ineq_size := match pr_cons p with [] => 0 | _ => List.length (pr_cons p) - sr_E sr end in
    ado _ <- (if Nat.leb 1 ineq_size then nonneg_block "lamb0" ineq_size 1 else oret tt);
    ado _ <- (if Nat.leb 1 eq_size then ado v <- opti_variable eq_size 1; set_var "nu0" v else oret tt);
    ipopt_fun_blocks (if Nat.leb 1 ineq_size then 1 else 0) sizes.

  (** [sp_exp["FG_obj"]] *)
  Definition obj_weights (sr : symres) : res fgw :=
    match dget skey_eqb SObj (sr_exp sr) with Some w => Ok w | None => Err KeyError end.

  (** all (i, j) row by row *)
  Definition grid (n m : nat) : list (nat * nat) :=
    flat_map (fun i => map (fun j => (i, j)) (seq 0 m)) (seq 0 n).

  (** circuit_opt.py:224-229, sympy_parsing.py:260-268 *)
  Definition z1_entries (sr : symres) (w : fgw) (dimF : nat) : list sexpr :=
    map (fun k => linearize_expression SY (ssub (wF (sr_sum sr) k) (wF w k))) (seq 0 dimF).
  Definition z2_entries (sr : symres) (w : fgw) (dimG : nat) : list sexpr :=
    map (fun ij => linearize_expression SY (ssub (wG (sr_sum sr) (fst ij) (snd ij)) (wG w (fst ij) (snd ij))))
        (grid dimG dimG).

  (** entry (i, j) of [P @ P.T] *)
  Definition csumn (n : nat) (f : nat -> cexpr) : cexpr :=
    fold_left (fun acc k => CAdd acc (f k)) (seq 0 n) (CNum 0).
  Definition PPt (P : cavar) (dimG i j : nat) : cexpr :=
    csumn dimG (fun c => CMul (tril P i c) (tril P j c)).

  (** circuit_opt.py:205-240; returns the objective handed to [minimize] *)
  Definition ipopt_tail (p : problem) (sr : symres) (sizes : list nat) (dimG dimF : nat) (P : cavar) : OM cexpr :=
    ado _ <- ipopt_multipliers p sr sizes;
    ado w <- olift (obj_weights sr);
    ado z1 <- sympy_matrix_to_casadi (z1_entries sr w dimF);
    ado z2 <- sympy_matrix_to_casadi (z2_entries sr w dimG);
    ado _ <- oiter (fun z => subject_to (CEq z (CNum 0))) z1;
    ado _ <- oiter (fun zij => subject_to (CEq (CSub (fst zij) (PPt P dimG (fst (snd zij)) (snd (snd zij)))) (CNum 0)))
                   (combine z2 (grid dimG dimG));
    match pr_obj p with
    | None => oraise AttributeError
    | Some o => ado c <- sympy_expression_to_casadi o; oret (CSub (CNum 0) c)
    end.

  (** numbers of records of the functions in [l] *)
  Definition rec_sizes (l : list nat) (s : state) : list nat :=
    map (fun f => match dget Nat.eqb f (st_funs s) with Some fn => List.length (fn_pts fn) | None => 0 end) l.

  (** The nonlinear program built by [solve_ipopt], before [opti.solve()]:
      the Opti object, the objective and sp_exp. *)
  Record nlp : Type := mkNlp { nlp_opti : opti; nlp_obj : cexpr; nlp_sym : symres }.

  (** circuit_opt.py:163-240 *)
  Definition ipopt_nlp (p : problem) (b : option bounds) : M nlp := fun s =>
    let dimG := st_pctr s in
    let dimF := st_ectr s in
    let leaves := leaf_funs (st_flist s) s in
    match ipopt_head (pr_params p) b dimG opti0 with
    | Err e => (Err e, s)
    | Ok (P, o1) =>
        match symbolic SY p s with
        | (Err e, s') => (Err e, s')
        | (Ok sr, s') =>
            match ipopt_tail p sr (rec_sizes leaves s') dimG dimF P o1 with
            | Err e => (Err e, s')
            | Ok (obj, o2) => (Ok (mkNlp o2 obj sr), s')
            end
        end
    end.

  (** utils.py:156-165 with [keys_list]: names without a variable (or with a
      matrix variable, of which the model keeps no value) are skipped *)
  Definition dict_parameters (o : opti) (a : nat -> R) (l : list string) : list (string * R) :=
    flat_map (fun n => match dget String.eqb n (op_vars o) with
                       | Some v => if Nat.eqb (cv_rows v) 1 && Nat.eqb (cv_cols v) 1
                                   then [(n, a (cv_base v))] else []
                       | None => []
                       end) l.
End Solver.
