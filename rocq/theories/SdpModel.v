(** Model of the semidefinite formulations of [ciropt/extra_methods.py:17-250]
    and of [cvx_add_bounds] (utils.py:18-30) and [sympy_expression_to_cvx]
    (sympy_to_solvers.py:116-145).

    A cvxpy problem is kept like an Opti object (scalar variables numbered in
    creation order, list of scalar constraints) together with the variable
    blocks created with [PSD=True].  Vector and matrix (in)equalities are
    written entry by entry.  [prob.solve] is an oracle that raises or reports
    a status; options, printing and the attributes stored on [self] after the
    solve are not modelled.  Floats are exact rationals. *)
From Coq Require Import List Arith Bool String Ascii QArith Reals Qreals.
From Verif Require Import Prelude Sympy AlgebraModel FunctionModel CircuitModel ParsingModel SolverModel QcqpModel.
Import ListNotations.
Local Open Scope nat_scope.
Local Open Scope string_scope.

(** [cp.Problem(cp.Minimize(sd_obj), constraints)] *)
Record sdp : Type := mkSdp { sd_opti : opti; sd_psd : list cavar; sd_obj : cexpr }.

(** the entries of a variable block as a matrix expression *)
Definition xm_var (v : cavar) : xmat := mkXM (cv_rows v) (cv_cols v) (fun i j => CVar (cv_at v i j)).

(** entry [k] of [A @ v] for a list [v] *)
Definition row_value (A : cmatrix) (v : list Q) (k : nat) : Q :=
  qsum (cm_cols A) (fun j => (cm_at A k j * nth j v 0)%Q).

Section Sdp.
  Variable SY : sympy.

  (** circuit_symbolic_matrices and sp_v_coeff_matrix, as every solver calls
      them (extra_methods.py:179-181, 205-208): the symbolic result, the
      coefficient matrices and the names *)
  Definition inputs : Type := symres * list cmatrix * list cmatrix * names.
  Definition sdp_inputs (p : problem) : M inputs := fun s =>
    match symbolic SY p s with
    | (Err e, s') => (Err e, s')
    | (Ok sr, s') =>
        match sp_v_coeff_matrix SY (fg_lists sr (st_ectr s) (st_pctr s)) (pr_params p) with
        | Err e => (Err e, s')
        | Ok (Fs, Gs, nm) => (Ok (sr, Fs, Gs, nm), s')
        end
    end.

  (** * solve_fix_discr_sdp *)

  (** extra_methods.py:227, 234: row k of [vec(obj @ v) + slack == vec(lam^T (T @ v).squeeze())] *)
  Definition fix_row (obj : cmatrix) (T : tensor) (lam : cavar) (v : list Q) (slack : cexpr) (k : nat) : OM unit :=
    subject_to (CEq (CAdd (CNum (row_value obj v k)) slack)
      (csumn (t3_n T) (fun i => CMul (CVar (cv_at lam i 0)) (CNum (row_value (t3_slice k T) v i))))).

  (** [(T @ v).squeeze()] drops every axis of length one.  With a single
      constraint the first axis disappears and the product with [lam.T] is
      ill-shaped, so cvxpy raises ValueError. *)
  Definition squeeze_ok (T : tensor) : OM unit := if Nat.eqb (t3_n T) 1 then oraise ValueError else oret tt.

  (** extra_methods.py:212-236.  The returned block is Z.  A problem without
      points or without function values (empty arrays) is treated like any
      other. *)
  Definition fix_build (dimF dimG : nat) (inp : inputs) (params : list (string * Q)) : OM cavar :=
    let '(sr, Fs, Gs, nm) := inp in
    let nd := sr_I sr + sr_E sr in
    let v_size := List.length (nm_list nm) in
    ado v <- olift (vars_to_vector (nm_list nm) params);
    ado lam <- opti_variable nd 1;
    ado Z <- opti_variable dimG dimG;
    ado _ <- oiter (fun i => subject_to (CGe (CVar (cv_at lam i 0)) (CNum 0))) (seq 0 (sr_I sr));
    if last_is_obj sr then
      ado F <- olift (padded Fs dimF v_size nd);
      ado _ <- squeeze_ok (snd F);
      ado _ <- oiter (fix_row (fst F) (snd F) lam v (CNum 0)) (seq 0 dimF);
      ado G <- olift (padded Gs (dimG * dimG) v_size nd);
      ado _ <- squeeze_ok (snd G);
      ado _ <- oiter (fun ij => fix_row (fst G) (snd G) lam v (CVar (cv_at Z (fst ij) (snd ij))) (fst ij * dimG + snd ij)) (grid dimG dimG);
      oret Z
    else oraise AssertionError.
  Definition fix_sdp (dimF dimG : nat) (inp : inputs) (params : list (string * Q)) : res sdp :=
    match fix_build dimF dimG inp params opti0 with
    | Err e => Err e
    | Ok (Z, o) => Ok (mkSdp o [Z] (CNum 0))
    end.

  (** [sorted(list(params.keys())) == self.discretization_params] *)
  Definition keys_match (params : list (string * Q)) (p : problem) : bool :=
    if list_eq_dec string_dec (ssort (map fst params)) (pr_params p) then true else false.

  (** extra_methods.py:197-236 with [inputs=None]; the problem handed to
      [prob.solve] and sp_exp *)
  Definition fix_discr_sdp (p : problem) (params : list (string * Q)) : M (symres * sdp) := fun s =>
    if keys_match params p then
      match sdp_inputs p s with
      | (Err e, s') => (Err e, s')
      | (Ok inp, s') =>
          match fix_sdp (st_ectr s) (st_pctr s) inp params with
          | Err e => (Err e, s')
          | Ok d => (Ok (fst (fst (fst inp)), d), s')
          end
      end
    else (Err AssertionError, s).

  (** * solve_bisection_eta, extra_methods.py:183-194 *)

  (** [solver t d] is the outcome of [prob.solve] in iteration t: an exception
      or a status.  The loop ignores every exception.  [n] iterations are left. *)
  Fixpoint bisect_loop (build : list (string * Q) -> res sdp) (solver : nat -> sdp -> res string)
      (params : list (string * Q)) (eta : Q) (t n : nat) : list (string * Q) * Q :=
    match n with
    | O => (params, eta)
    | S n' =>
        let params' := dset String.eqb "eta" eta params in
        match (let? d := build params' in solver t d) with
        | Ok st => if String.eqb st "optimal" then (params', eta)
                   else bisect_loop build solver params' (eta / 2)%Q (S t) n'
        | Err _ => bisect_loop build solver params' (eta / 2)%Q (S t) n'
        end
    end.
  Definition bisection_eta (solver : nat -> sdp -> res string) (p : problem) (params : list (string * Q)) (max_iters : nat)
    : M (list (string * Q) * Q) := fun s =>
    if keys_match params p then
      match sdp_inputs p s with
      | (Err e, s') => (Err e, s')
      | (Ok inp, s') =>
          let eta := match dget String.eqb "eta" params with Some q => q | None => 10%Q end in
          (Ok (bisect_loop (fix_sdp (st_ectr s) (st_pctr s) inp) solver params eta 0 max_iters), s')
      end
    else (Err AssertionError, s).

  (** * solve_sdp_relax, extra_methods.py:17-167 *)

  (** sympy_to_solvers.py:116-124 [cvx_linearize_monomial]: the entry of x
      that name2idx gives to the sorted monomial *)
  Definition cvx_monomial (x : xmat) (nm : names) (vs : list string) : OM cexpr :=
    match vs with
    | [] => oret (CNum 1)
    | _ => olift (x_entry x nm (join_us (ssort vs)))
    end.
  (** sympy_to_solvers.py:127-145 *)
  Definition sympy_expression_to_cvx (x : xmat) (nm : names) : sexpr -> OM cexpr := casadi_expr SY (cvx_monomial x nm).

  (** utils.py:18-30 [cvx_add_bounds]; unknown names are skipped *)
  Definition bound_list (ids : list cexpr) (ub lb : option Q) : OM unit :=
    ado _ <- match ub with None => oret tt | Some q => oiter (fun e => subject_to (CGe (CNum q) e)) ids end;
    match lb with None => oret tt | Some q => oiter (fun e => subject_to (CGe e (CNum q))) ids end.
  Definition xm_entries (A : xmat) : list cexpr := map (fun ij => xm_at A (fst ij) (snd ij)) (grid (xm_rows A) (xm_cols A)).
  Definition cvx_bound (vars : list (string * xmat)) (nm : names) (x : xmat) (Il : cmatrix)
      (nb : string * (option Q * option Q)) : OM unit :=
    let '(name, (ub, lb)) := nb in
    match dget String.eqb name vars with
    | Some A => bound_list (xm_entries A) ub lb
    | None =>
        match dget vname_eqb (VStr name) (nm_idx nm) with
        | Some _ => ado e <- olift (x_entry x nm name); bound_list [e] ub lb
        | None =>
            if String.eqb name "lamb"
            then ado l <- olift (xm_mul (xm_num Il) x); bound_list (xm_entries l) ub lb
            else oret tt
        end
    end.
  Definition cvx_add_bounds (b : option bounds) (vars : list (string * xmat)) (nm : names) (x : xmat) (Il : cmatrix) : OM unit :=
    match b with None => oret tt | Some b => oiter (cvx_bound vars nm x Il) b end.

  (** [A == B] for blocks of equal shape *)
  Definition same_block (A B : xmat) : OM unit := ado d <- olift (xm_sub A B); subject_eq d 0.
  (** [A[r0:r1, c0:c1]] in range *)
  Definition sub_block (r0 r1 c0 c1 : nat) (A : xmat) : xmat :=
    mkXM (r1 - r0) (c1 - c0) (fun i j => xm_at A (r0 + i) (c0 + j)).

  (** extra_methods.py:65-73: [diag(A) >= 0] and
      [-(diag_i + diag_j)/2 <= A_ij <= (diag_i + diag_j)/2] *)
  Definition implied (A : xmat) : OM unit :=
    let half i j := CMul (CNum (1 # 2)) (CAdd (xm_at A j j) (xm_at A i i)) in
    ado _ <- oiter (fun i => subject_to (CGe (xm_at A i i) (CNum 0))) (seq 0 (xm_rows A));
    ado _ <- oiter (fun ij => subject_to (CGe (xm_at A (fst ij) (snd ij)) (CSub (CNum 0) (half (fst ij) (snd ij)))))
                   (grid (xm_rows A) (xm_cols A));
    oiter (fun ij => subject_to (CGe (half (fst ij) (snd ij)) (xm_at A (fst ij) (snd ij)))) (grid (xm_rows A) (xm_cols A)).

  (** extra_methods.py:101-103, 115-117: [bmat([[None, B.T], [B, None]])] with
      [B = 0.5 * T[:, k, :]] *)
  Definition off_blocks (B : cmatrix) : cmatrix :=
    let n := cm_cols B in
    mkCM (n + cm_rows B) (n + cm_rows B) (fun i j =>
      if Nat.ltb i n then (if Nat.ltb j n then 0%Q else cm_at B (j - n) i)
      else if Nat.ltb j n then cm_at B (i - n) j else 0%Q).
  (** extra_methods.py:99-105: [sum(q @ x) (+ slack) == trace(Q @ X)] for row k *)
  Definition relax_row (obj : cmatrix) (T : tensor) (Iv : cmatrix) (x X : xmat) (slack : xmat) (k : nat) : OM unit :=
    let Q := off_blocks (cm_scale (1 # 2) (t3_slice k T)) in
    ado q <- olift (cm_mul (cm_row k obj) Iv);
    ado l <- olift (xm_mul (xm_num q) x);
    ado l' <- olift (xm_add l slack);
    ado t0 <- olift (xm_mul (xm_num Q) X);
    ado t <- olift (xm_trace t0);
    same_block l' t.
  Definition relax_F_con (obj : cmatrix) (T : tensor) (Iv Il : cmatrix) (x X : xmat) (k : nat) : OM unit :=
    if Nat.eqb (cm_cols obj) (cm_rows Iv) && Nat.eqb (t3_n T) (cm_rows Il) && Nat.eqb (t3_cols T) (cm_rows Iv)
    then relax_row obj T Iv x X (mkXM 1 1 (fun _ _ => CNum 0)) k else oraise AssertionError.
  Definition relax_G_con (obj : cmatrix) (T : tensor) (Iv : cmatrix) (x X : xmat) (Z : xmat) (dimG : nat) (ij : nat * nat) : OM unit :=
    relax_row obj T Iv x X (mkXM 1 1 (fun _ _ => xm_at Z (fst ij) (snd ij))) (fst ij * dimG + snd ij).

  (** [cp.trace(Qi @ X)] and [cp.sum(ai.T @ x)], extra_methods.py:119-128 *)
  Definition relax_quad (X : xmat) (Qi : cmatrix) : res xmat := let? c := xm_mul (xm_num Qi) X in xm_trace c.
  Definition relax_lin (x : xmat) (aT : cmatrix) : res xmat := xm_mul (xm_num aT) x.

  Definition micro : Q := 1 # 100000.   (* 0.00001 *)

  (** extra_methods.py:39-151.  [var_bound]: the name of the bound to be
      maximised, if any.  In that case [bnames2idx["lamb_nu"]] (line 146) is
      looked up in a dictionary whose keys are Z, alpha, beta and lamb, which
      raises KeyError before the problem is built; the constraints collected
      before that are immaterial.  Returned: x and the PSD blocks W, X, Z, and
      the objective. *)
  Definition relax_build (p : problem) (b : option bounds) (var_bound : option string) (dimF dimG : nat) (inp : inputs)
    : OM (cavar * list cavar * cexpr) :=
    let '(sr, Fs, Gs, nm) := inp in
    let v_size := List.length (nm_list nm) in
    let nI := sr_I sr in
    let nE := sr_E sr in
    let n := v_size + nI + nE in
    ado _ <- match var_bound with None => oret tt | Some _ => ado _ <- opti_variable 4 1; oret tt end;
    ado vx <- opti_variable n 1;
    ado vW <- opti_variable (n + 1) (n + 1);
    ado vX <- opti_variable n n;
    ado vZ <- opti_variable dimG dimG;
    let x := xm_var vx in let W := xm_var vW in let X := xm_var vX in let Z := xm_var vZ in
    ado _ <- same_block (sub_block 0 n 0 (Nat.min 1 n) X) x;
    ado _ <- same_block (sub_block 0 (Nat.min 1 n) 0 n X) (xm_T x);
    ado eta <- olift (x_entry x nm "eta");
    ado _ <- subject_to (CGe eta (CNum micro));
    ado h <- olift (x_entry x nm "h");
    ado _ <- subject_to (CGe h (CNum micro));
    ado rho <- olift (x_entry x nm "rho");
    ado _ <- subject_to (CGe rho (CNum 0));
    ado _ <- same_block (sub_block 0 n 0 n W) X;
    ado _ <- same_block (sub_block n (n + 1) 0 n W) (xm_T x);
    ado _ <- same_block (sub_block 0 n n (n + 1) W) x;
    ado _ <- subject_to (CEq (xm_at W n n) (CNum 1));
    ado _ <- implied W;
    ado _ <- implied X;
    ado alpha <- olift (x_entry x nm "alpha");
    ado _ <- subject_to (CGe alpha (CNum (-1)));
    ado _ <- subject_to (CGe (CNum 1) alpha);
    ado beta <- olift (x_entry x nm "beta");
    ado _ <- subject_to (CGe beta (CNum (-1)));
    ado _ <- subject_to (CGe (CNum 1) beta);
    ado _ <- (if Nat.ltb 0 n then subject_to (CEq (xm_at x 0 0) (CNum 1)) else oraise IndexError);
    if last_is_obj sr then
      ado Iv <- olift (get_vec_matrix x (0, v_size - 1));
      ado Il <- olift (get_vec_matrix x (v_size, v_size + nI + nE - 1));
      ado _ <- cvx_add_bounds b [("Z", Z); ("x", x); ("X", X)] nm x Il;
      ado F <- olift (padded Fs dimF v_size (cm_rows Il));
      ado _ <- oiter (relax_F_con (fst F) (snd F) Iv Il x X) (seq 0 dimF);
      ado G <- olift (padded Gs (dimG * dimG) v_size (cm_rows Il));
      ado _ <- oiter (relax_G_con (fst G) (snd G) Iv x X Z dimG) (grid dimG dimG);
      ado _ <- oiter (monomial_con (relax_quad X) (relax_lin x) n nm) (tl (nm_list nm));
      ado Ila <- olift (get_vec_matrix x (v_size, v_size + nI - 1));
      ado la <- olift (xm_mul (xm_num Ila) x);
      ado _ <- subject_ge la 0;
      match var_bound with
      | Some _ => oraise KeyError
      | None =>
          match pr_obj p with
          | None => oraise AttributeError
          | Some e => ado c <- sympy_expression_to_cvx x nm e; oret (vx, [vW; vX; vZ], CSub (CNum 0) c)
          end
      end
    else oraise AssertionError.

  (** the problem, the vector x and the inputs it was built from *)
  Record relaxation : Type := mkRelax { rl_sdp : sdp; rl_x : cavar; rl_inp : inputs }.
  Definition sdp_relax (p : problem) (b : option bounds) (var_bound : option string) : M relaxation := fun s =>
    match sdp_inputs p s with
    | (Err e, s') => (Err e, s')
    | (Ok inp, s') =>
        match relax_build p b var_bound (st_ectr s) (st_pctr s) inp opti0 with
        | Err e => (Err e, s')
        | Ok (vx, l, obj, o) => (Ok (mkRelax (mkSdp o l obj) vx inp), s')
        end
    end.

  (** extra_methods.py:165: [{name : var_x[name2idx[name], 0].value for name in discretization_params}] *)
  Definition relax_values (r : relaxation) (a : nat -> R) (l : list string) : list (string * R) :=
    flat_map (fun n => match dget vname_eqb (VStr n) (nm_idx (snd (rl_inp r))) with
                       | Some i => [(n, a (cv_at (rl_x r) i 0))]
                       | None => []
                       end) l.
End Sdp.
