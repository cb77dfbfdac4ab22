(** Model of [ciropt/circuit_opt.py] up to the symbolic matrices, and of
    [ciropt/constraint.py]. *)
From Coq Require Import List Arith Bool String QArith.
From Coq Require Import Decimal DecimalString Numbers.DecimalNat.
From Verif Require Import Prelude Sympy AlgebraModel FunctionModel.
Import ListNotations.
Local Open Scope string_scope.

(** ["%d" % n] *)
Definition nat_str (n : nat) : string := NilZero.string_of_uint (Nat.to_uint n).

(** constraint.py:15-27 *)
Inductive ckind : Type := Equality | Inequality.
Record constr : Type := mkConstr { c_expr : expr; c_kind : ckind }.
Definition new_constraint (e : expr) (kind : string) : res constr :=
  if String.eqb kind "equality" then Ok (mkConstr e Equality)
  else if String.eqb kind "inequality" then Ok (mkConstr e Inequality)
  else Err AssertionError.

(** The attributes of a CircuitOpt used later.  circuit_opt.py:21-41 *)
Record problem : Type := mkProblem {
  pr_params : list string;          (* discretization_params *)
  pr_cons : list constr;            (* list_of_constraints *)
  pr_metric : option expr;          (* perf_metric *)
  pr_obj : option sexpr             (* obj *)
}.

(** circuit_opt.py:41 [sorted([...])] *)
Definition default_params : list string :=
  ssort ["alpha"; "beta"; "h"; "eta"; "rho"; "gamma"; "delta"].

(** circuit_opt.py:521-529.  Object identities are not reset; old Function
    objects stay alive when the user still references them. *)
Definition reset_classes : M unit := fun s =>
  (Ok tt, mkState (st_next s) 0 0 0 (st_funs s) [] [] []).

(** circuit_opt.py:21-41 *)
Definition circuit_opt : M problem :=
  reset_classes ;; ret (mkProblem default_params [] None None).

(** circuit_opt.py:44-54.  [check_degree_expression] (sympy_parsing.py:171-173)
    returns its argument when it is not a sympy object; an Expression object is
    truthy, so the assertion never fails. *)
Definition set_performance_metric (p : problem) (e : expr) : problem :=
  mkProblem (pr_params p) (pr_cons p) (Some e) (Some (Sym "eta")).

(** circuit_opt.py:544-546 *)
Definition add_constraint (p : problem) (c : constr) : problem :=
  mkProblem (pr_params p) (pr_cons p ++ [c]) (pr_metric p) (pr_obj p).

(** [problem.discretization_params = sorted(... + new)] is how the builders
    declare further symbols (e.g. classical_central_vi.py). *)
Definition set_params (p : problem) (l : list string) : problem :=
  mkProblem l (pr_cons p) (pr_metric p) (pr_obj p).

(** circuit_opt.py:538-541 *)
Definition set_initial_point : M point := new_point.

Section Sym.
  Variable SY : sympy.

  (** Fweights / Gweights: entries indexed by the class counters. *)
  Record fgw : Type := mkFG { wF : nat -> sexpr; wG : nat -> nat -> sexpr }.
  Definition zero_fg : fgw := mkFG (fun _ => Num 0) (fun _ _ => Num 0).

  (** circuit_opt.py:71-72 *)
  Definition norm_weight (w : sexpr) : res sexpr :=
    match w with
    | Num q => Ok (Num q)
    | _ => if closed (simp SY w) then let? q := to_float w in Ok (Num q) else Ok w
    end.

  (** circuit_opt.py:57-82 [_expression_to_matrix].  [key.counter] is the leaf's
      own counter; numpy raises IndexError when it is not below the dimension.
      The constant key 1 matches neither branch and is skipped. *)
  Fixpoint to_matrix (dimG dimF : nat) (d : edict) (acc : fgw) : res fgw :=
    match d with
    | [] => Ok acc
    | (k, w0) :: d' =>
        let? w := norm_weight w0 in
        match k with
        | KF f =>
            if Nat.ltb (lctr f) dimF then
              to_matrix dimG dimF d' (mkFG (upd1 (wF acc) (lctr f) (sadd (wF acc (lctr f)) w)) (wG acc))
            else Err IndexError
        | KG x y =>
            if Nat.ltb (lctr x) dimG && Nat.ltb (lctr y) dimG then
              let hw := smul w (Num (1 # 2)) in
              let G1 := upd2 (wG acc) (lctr x) (lctr y) (sadd (wG acc (lctr x) (lctr y)) hw) in
              let G2 := upd2 G1 (lctr y) (lctr x) (sadd (G1 (lctr y) (lctr x)) hw) in
              to_matrix dimG dimF d' (mkFG (wF acc) G2)
            else Err IndexError
        | KOne => to_matrix dimG dimF d' acc
        end
    end.
  Definition expression_to_matrix (e : expr) (dimG dimF : nat) : res fgw :=
    to_matrix dimG dimF (ex_dict e) zero_fg.

  (** Keys of [sp_exp]: (0|1, f, i, j) or "FG_obj". *)
  Inductive skey : Type := SK (b f i j : nat) | SObj.
  Definition skey_eqb (a b : skey) : bool :=
    match a, b with
    | SK b1 f1 i1 j1, SK b2 f2 i2 j2 =>
        Nat.eqb b1 b2 && Nat.eqb f1 f2 && Nat.eqb i1 i2 && Nat.eqb j1 j2
    | SObj, SObj => true
    | _, _ => false
    end.

  (** circuit_opt.py:119,122,125,128,138,142 *)
  Definition dual_name (prefix : string) (i j : nat) : string :=
    prefix ++ "|" ++ nat_str i ++ "." ++ nat_str j ++ "|".
  Definition lamb_prefix (f : nat) : string := "lamb" ++ nat_str f.

  (** circuit_opt.py:130-131, 149-150: [sum += lamb * weights] *)
  Definition accum (nm : string) (w sums : fgw) : fgw :=
    mkFG (fun k => sadd (wF sums k) (smul (Sym nm) (wF w k)))
         (fun k l => sadd (wG sums k l) (smul (Sym nm) (wG w k l))).

  Record symstate : Type := mkSS {
    ss_ineq : list (skey * fgw);
    ss_eq : list (skey * fgw);
    ss_sum : fgw;
    ss_I : nat;      (* total_I_size *)
    ss_E : nat       (* total_eq_size *)
  }.

  (** circuit_opt.py:113-132; [iq], [ie] are ineq_idx, eq_idx *)
  Fixpoint extra_loop (dimG dimF : nat) (l : list constr) (iq ie : nat) (s : symstate)
    : res (symstate * nat) :=
    match l with
    | [] => Ok (s, iq)
    | c :: l' =>
        let? w := expression_to_matrix (c_expr c) dimG dimF in
        match c_kind c with
        | Inequality =>
            extra_loop dimG dimF l' (S iq) ie
              (mkSS (dset skey_eqb (SK 0 0 iq 0) w (ss_ineq s)) (ss_eq s)
                    (accum (dual_name "lamb0" iq 0) w (ss_sum s)) (S (ss_I s)) (ss_E s))
        | Equality =>
            extra_loop dimG dimF l' iq (S ie)
              (mkSS (ss_ineq s) (dset skey_eqb (SK 1 0 ie 0) w (ss_eq s))
                    (accum (dual_name "nu0" ie 0) w (ss_sum s)) (ss_I s) (S (ss_E s)))
        end
    end.

  (** circuit_opt.py:139-141: the ordered pairs i <> j *)
  Definition pairs (n : nat) : list (nat * nat) :=
    flat_map (fun i => flat_map (fun j => if Nat.eqb i j then [] else [(i, j)]) (seq 0 n)) (seq 0 n).

  (** circuit_opt.py:139-150; [cons] is the rest of list_of_class_constraints
      from position [counter] on *)
  Fixpoint class_loop (dimG dimF f : nat) (l : list (nat * nat)) (cons : list expr) (s : symstate)
    : res symstate :=
    match l with
    | [] => Ok s
    | (i, j) :: l' =>
        match cons with
        | [] => Err IndexError
        | e :: cons' =>
            let? w := expression_to_matrix e dimG dimF in
            class_loop dimG dimF f l' cons'
              (mkSS (dset skey_eqb (SK 0 f i j) w (ss_ineq s)) (ss_eq s)
                    (accum (dual_name (lamb_prefix f) i j) w (ss_sum s)) (S (ss_I s)) (ss_E s))
        end
    end.

  (** circuit_opt.py:134-152 *)
  Fixpoint fun_loop (dimG dimF shift idx : nat) (l : list nat) (s : symstate) : M symstate :=
    match l with
    | [] => ret s
    | f :: l' =>
        add_class_constraints SY f ;;
        do fn <- get_fun f;
        let n := List.length (fn_pts fn) in
        do s' <- lift (class_loop dimG dimF (idx + shift) (pairs n) (fn_cons fn) s);
        assertM (Nat.eqb (List.length (fn_cons fn)) (n * (n - 1))) ;;
        fun_loop dimG dimF shift (S idx) l' s'
    end.

  (** Result of circuit_symbolic_matrices *)
  Record symres : Type := mkSymres {
    sr_exp : list (skey * fgw);    (* sp_exp, FG_obj last *)
    sr_I : nat;
    sr_E : nat;
    sr_sum : fgw                   (* sum_ij_La, sum_ij_AC *)
  }.

  (** circuit_opt.py:85-160.  [self.perf_metric] raises AttributeError when no
      metric was set; this happens after the loops. *)
  Definition circuit_symbolic_matrices (p : problem) (funs : list nat) (dimG dimF : nat) : M symres :=
    do r <- lift (extra_loop dimG dimF (pr_cons p) 0 0 (mkSS [] [] zero_fg 0 0));
    let '(s1, iq) := r in
    let shift := (if Nat.leb 1 iq then 1 else 0)%nat in
    do s2 <- fun_loop dimG dimF shift 0 funs s1;
    let exp := fold_left (fun acc kv => dset skey_eqb (fst kv) (snd kv) acc) (ss_eq s2) (ss_ineq s2) in
    assertM (Nat.eqb (List.length exp) (ss_I s2 + ss_E s2)) ;;
    match pr_metric p with
    | None => raise AttributeError
    | Some m =>
        do w <- lift (expression_to_matrix m dimG dimF);
        ret (mkSymres (dset skey_eqb SObj w exp) (ss_I s2) (ss_E s2) (ss_sum s2))
    end.

  (** circuit_opt.py:170-171, 201-204 (and 272-280, 392-400): dimensions are the
      class counters, the functions are the leaves of Function.list_of_functions *)
  Fixpoint leaf_funs (l : list nat) (s : state) : list nat :=
    match l with
    | [] => []
    | f :: l' => match dget Nat.eqb f (st_funs s) with
                 | Some fn => if fn_leaf fn then f :: leaf_funs l' s else leaf_funs l' s
                 | None => leaf_funs l' s
                 end
    end.
  Definition symbolic (p : problem) : M symres := fun s =>
    circuit_symbolic_matrices p (leaf_funs (st_flist s) s) (st_pctr s) (st_ectr s) s.
End Sym.
