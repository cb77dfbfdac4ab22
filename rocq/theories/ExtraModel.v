(** Model of [solve_gp] (ciropt/extra_methods.py:253-352, with the Gurobi
    translation of sympy_to_solvers.py:176-240) and of the dispatcher
    [CircuitOpt.solve] (circuit_opt.py:509-519) with the values the solvers
    return.

    gurobipy is assumed to be installed (otherwise solve_gp raises at once).
    A Gurobi model is kept like an Opti object; variable bounds are
    constraints.  Parameters of the optimiser and debug output are not
    modelled. *)
From Coq Require Import List Arith Bool String Ascii QArith Reals Qreals.
From Verif Require Import Prelude Sympy AlgebraModel FunctionModel CircuitModel ParsingModel SolverModel QcqpModel SdpModel.
Import ListNotations.
Local Open Scope nat_scope.
Local Open Scope string_scope.

(** * sympy_to_solvers.py:176-240 *)

(** sympy_to_solvers.py:224-240 [gp_linearize_monomial].  Creating a variable
    for a new prefix evaluates [gp.GRB.INFINITY]; [gp] is not bound in
    sympy_to_solvers.py (it is imported inside solve_gp only), so this raises
    NameError. *)
Fixpoint gp_prefixes (pre : list string) (l : list string) : OM unit :=
  match l with
  | [] => oret tt
  | x :: l' =>
      let pre' := (pre ++ [x])%list in
      ado b <- has_var (join_us pre');
      if b : bool then gp_prefixes pre' l' else oraise NameError
  end.
Definition gp_linearize_monomial (m : list string) : OM cexpr :=
  match ssort m with
  | [] => oret (CNum 1)
  | x :: l =>
      ado _ <- gp_prefixes [x] l;
      ado v <- get_var (join_us (x :: l));
      olift (scalar v)
  end.

(** sympy_to_solvers.py:189-208: one monomial of sympy_expression_to_gurobi *)
Definition gp_monomial (vs : list string) : OM cexpr :=
  match vs with
  | [] => oret (CNum 1)
  | _ =>
      let '(cl, cn, il, iu) := find_lambda_nu 0 vs (0, 0, 0, 0) in
      if Nat.leb (cn + cl) 1 then
        if Nat.ltb 0 cl then
          ado r <- olift (parse_dual (nth il vs ""));
          let '(prefix, a, b) := r in
          ado e <- get_entry prefix a b;
          ado m <- gp_linearize_monomial (pop il vs);
          oret (CMul e m)
        else if Nat.ltb 0 cn then
          ado r <- olift (parse_dual (nth iu vs ""));
          let '(prefix, a, b) := r in
          ado e <- get_entry prefix a b;
          ado m <- gp_linearize_monomial (pop iu vs);
          oret (CMul e m)
        else gp_linearize_monomial vs
      else oraise AssertionError
  end.

Section Extra.
  Variable SY : sympy.

  (** sympy_to_solvers.py:176-221 *)
  Definition sympy_expression_to_gurobi : sexpr -> OM cexpr := casadi_expr SY gp_monomial.
  Definition sympy_matrix_to_gurobi (l : list sexpr) : OM (list cexpr) := omap sympy_expression_to_gurobi l.

  (** * extra_methods.py:253-352 *)

  (** [model.addMVar((r, c), name=name, lb=lb, ub=ub)] stored under [name] *)
  Definition gp_block (name : string) (r c : nat) (lb ub : Q) : OM unit :=
    ado v <- opti_variable r c; ado _ <- set_var name v;
    oiter (fun i => ado _ <- subject_to (CGe (CVar i) (CNum lb)); subject_to (CGe (CNum ub) (CVar i))) (cv_ids v).

  (** extra_methods.py:276-282, 308-312 *)
  Definition gp_bound (name : string) (ub lb : option Q) : OM unit :=
    ado v <- get_var name; bound_list (map CVar (cv_ids v)) ub lb.
  Definition gp_bounds (b : option bounds) : OM unit :=
    match b with
    | None => oret tt
    | Some b => oiter (fun nb => ado k <- has_var (fst nb); if k : bool then gp_bound (fst nb) (fst (snd nb)) (snd (snd nb)) else oret tt) b
    end.

  (** extra_methods.py:268-287; P lower triangular with non-negative diagonal *)
  Definition gp_head (b : option bounds) (dimG : nat) : OM cavar :=
    ado _ <- oiter (fun nl => gp_block (fst nl) 1 1 (fst (snd nl)) (snd (snd nl)))
      [("eta", (0, 1000)); ("rho", (0, 1000)); ("h", (0, 1000)); ("gamma", (0, 1000)); ("alpha", (-(1), 1)); ("beta", (-(1), 1))]%Q;
    ado _ <- gp_block "P" dimG dimG (-(1000))%Q 1000%Q;
    ado P <- get_var "P";
    ado _ <- gp_bounds b;
    ado _ <- oiter (fun i => subject_to (CGe (CVar (cv_at P i i)) (CNum 0))) (seq 0 dimG);
    ado _ <- oiter (fun ij => if Nat.ltb (fst ij) (snd ij) then subject_to (CEq (CVar (cv_at P (fst ij) (snd ij))) (CNum 0)) else oret tt) (grid dimG dimG);
    oret P.

  (** extra_methods.py:306: ["lamb%rho" % n] is "lamb", the representation of
      n, and "ho" *)
  Definition gp_block_name (n : nat) : string := lamb_prefix n ++ "ho".

  (** extra_methods.py:305-316 *)
  Fixpoint gp_fun_blocks (b : option bounds) (idx : nat) (sizes : list nat) : OM unit :=
    match sizes with
    | [] => oret tt
    | n :: l =>
        ado _ <- gp_block (gp_block_name idx) n n 0%Q 1000%Q;
        ado _ <- match b with
                 | None => oret tt
                 | Some bb => match dget String.eqb (gp_block_name idx) bb with
                              | Some (ub, lb) => gp_bound (gp_block_name idx) ub lb
                              | None => oret tt
                              end
                 end;
        gp_fun_blocks b (S idx) l
    end.

  (** extra_methods.py:292-316 *)
  Definition gp_multipliers (p : problem) (b : option bounds) (sr : symres) (sizes : list nat) : OM unit :=
    let eq_size := match pr_cons p with [] => 0 | _ => sr_E sr end in
    let ineq_size := match pr_cons p with [] => 0 | _ => List.length (pr_cons p) - sr_E sr end in
    ado _ <- (if Nat.leb 1 ineq_size then gp_block "lamb0" ineq_size 1 0%Q 1000%Q else oret tt);
    ado _ <- (if Nat.leb 1 eq_size then gp_block "nu0" eq_size 1 (-(1000))%Q 1000%Q else oret tt);
    gp_fun_blocks b (if Nat.leb 1 ineq_size then 1 else 0) sizes.

  (** extra_methods.py:292-331 *)
  Definition gp_tail (p : problem) (b : option bounds) (sr : symres) (sizes : list nat) (dimG dimF : nat) (P : cavar) : OM cexpr :=
    ado _ <- gp_multipliers p b sr sizes;
    ado w <- olift (obj_weights sr);
    ado z1 <- sympy_matrix_to_gurobi (z1_entries SY sr w dimF);
    ado z2 <- sympy_matrix_to_gurobi (z2_entries SY sr w dimG);
    ado _ <- oiter (fun z => subject_to (CEq z (CNum 0))) z1;
    ado _ <- oiter (fun zij => subject_to (CEq (CSub (fst zij)
        (csumn dimG (fun c => CMul (CVar (cv_at P (fst (snd zij)) c)) (CVar (cv_at P (snd (snd zij)) c))))) (CNum 0)))
        (combine z2 (grid dimG dimG));
    match pr_obj p with
    | None => oraise AttributeError
    | Some o => ado c <- sympy_expression_to_gurobi o; oret (CSub (CNum 0) c)
    end.

  (** extra_methods.py:253-331 *)
  Definition gp_model (p : problem) (b : option bounds) : M nlp := fun s =>
    match gp_head b (st_pctr s) opti0 with
    | Err e => (Err e, s)
    | Ok (P, o1) =>
        match symbolic SY p s with
        | (Err e, s') => (Err e, s')
        | (Ok sr, s') =>
            match gp_tail p b sr (rec_sizes (leaf_funs (st_flist s) s) s') (st_pctr s) (st_ectr s) P o1 with
            | Err e => (Err e, s')
            | Ok (obj, o2) => (Ok (mkNlp o2 obj sr), s')
            end
        end
    end.

  (** * circuit_opt.py:509-519 [solve] *)

  (** the kinds of values that occur in the returned tuples *)
  Inductive pyval : Type :=
  | PNone
  | PParams (l : list (string * R))
  | PNumbers (l : list (string * Q))
  | PVars                       (* the dictionary ca_vars or self.vars *)
  | PSolution                   (* Opti's solution object or the cvxpy problem *)
  | PEta (q : Q)
  | PSymbolic (sr : symres).    (* sp_exp *)

  (** [None] or a tuple *)
  Definition pyres : Type := option (list pyval).

  (** What [opti.solve()] does: raise, or return a solution with its success
      flag; [cvx t d] is [prob.solve] as in SdpModel. *)
  Variable ipopt : opti -> cexpr -> option (bool * (nat -> R)).
  Variable cvx : nat -> sdp -> res string.

  (** circuit_opt.py:246-262, 369-384, 486-501: the end of the three Ipopt methods *)
  Definition finish_ipopt (p : problem) (m : M nlp) : M pyres := fun s =>
    match m s with
    | (Err e, s') => (Err e, s')
    | (Ok n, s') =>
        match ipopt (nlp_opti n) (nlp_obj n) with
        | None => (Ok (Some [PNone; PVars; PNone; PSymbolic (nlp_sym n)]), s')
        | Some (false, _) => (Err AssertionError, s')
        | Some (true, a) => (Ok (Some [PParams (dict_parameters (nlp_opti n) a (pr_params p)); PSolution; PSymbolic (nlp_sym n)]), s')
        end
    end.

  (** extra_methods.py:237-250.  [params=None] (the default) has no [keys]. *)
  Definition finish_fix (p : problem) (params : option (list (string * Q))) : M pyres := fun s =>
    match params with
    | None => (Err AttributeError, s)
    | Some ps =>
        match fix_discr_sdp SY p ps s with
        | (Err e, s') => (Err e, s')
        | (Ok (sr, d), s') =>
            match cvx 0 d with
            | Err e => (Err e, s')
            | Ok _ => (Ok (Some [PVars; PSolution; PSymbolic sr]), s')
            end
        end
    end.
  Definition finish_bisection (p : problem) (params : option (list (string * Q))) (max_iters : nat) : M pyres := fun s =>
    match params with
    | None => (Err AttributeError, s)
    | Some ps =>
        match bisection_eta SY cvx p ps max_iters s with
        | (Err e, s') => (Err e, s')
        | (Ok (l, q), s') => (Ok (Some [PNumbers l; PEta q]), s')
        end
    end.

  (** circuit_opt.py:509-519; keyword arguments: bounds, params, max_iters *)
  Definition solve (solver : string) (p : problem) (b : option bounds) (extra : nat)
      (params : option (list (string * Q))) (max_iters : nat) : M pyres :=
    if String.eqb solver "ipopt" then finish_ipopt p (ipopt_nlp SY p b)
    else if String.eqb solver "ipopt_qcqp" then finish_ipopt p (qcqp_nlp SY p b extra)
    else if String.eqb solver "ipopt_qcqp_matrix" then finish_ipopt p (qcqp_matrix_nlp SY p b)
    else if String.eqb solver "fix_discr_sdp" then finish_fix p params
    else if String.eqb solver "bisection_eta" then finish_bisection p params max_iters
    else fun s => (Ok None, s).

  (** Python's [x, y, z = value] *)
  Definition unpack3 (r : pyres) : res (pyval * pyval * pyval) :=
    match r with
    | None => Err TypeError
    | Some [x; y; z] => Ok (x, y, z)
    | Some _ => Err ValueError
    end.
End Extra.
