(** Model of the two QCQP formulations: [ciropt/circuit_opt.py:265-501] and the
    numpy helpers of [ciropt/utils.py:33-153] they use.

    numpy arrays with two axes are [cmatrix] (rational entries), casadi
    matrices are [xmat] (entries are casadi expressions).  A shape mismatch
    raises ValueError (casadi raises RuntimeError).  Opti's rejection of
    constraints without decision variables is not modelled. *)
From Coq Require Import List Arith Bool String Ascii QArith Reals Qreals.
From Verif Require Import Prelude Sympy AlgebraModel FunctionModel CircuitModel ParsingModel SolverModel.
Import ListNotations.
Local Open Scope nat_scope.
Local Open Scope string_scope.

(** * numpy *)
Fixpoint qsum (n : nat) (f : nat -> Q) : Q :=
  match n with O => 0%Q | S m => Qred (qsum m f + f m)%Q end.
(** [A.T] *)
Definition cm_T (A : cmatrix) : cmatrix := mkCM (cm_cols A) (cm_rows A) (fun i j => cm_at A j i).
(** [A @ B] *)
Definition cm_mul (A B : cmatrix) : res cmatrix :=
  if Nat.eqb (cm_cols A) (cm_rows B)
  then Ok (mkCM (cm_rows A) (cm_cols B) (fun i j => qsum (cm_cols A) (fun k => (cm_at A i k * cm_at B k j)%Q)))
  else Err ValueError.
(** [A + B] of equal shapes (no broadcasting) *)
Definition cm_add (A B : cmatrix) : res cmatrix :=
  if Nat.eqb (cm_rows A) (cm_rows B) && Nat.eqb (cm_cols A) (cm_cols B)
  then Ok (mkCM (cm_rows A) (cm_cols A) (fun i j => (cm_at A i j + cm_at B i j)%Q))
  else Err ValueError.
(** [q * A] *)
Definition cm_scale (q : Q) (A : cmatrix) : cmatrix := mkCM (cm_rows A) (cm_cols A) (fun i j => (q * cm_at A i j)%Q).
(** [A[k:k+1, :]] for k in range *)
Definition cm_row (k : nat) (A : cmatrix) : cmatrix := mkCM 1 (cm_cols A) (fun _ j => cm_at A k j).
(** [np.concatenate([A, np.zeros((r, n - A.shape[1]))], axis=1)] *)
Definition cm_pad (r n : nat) (A : cmatrix) : res cmatrix :=
  if Nat.eqb (cm_rows A) r then cm_widen n A else Err ValueError.

(** A numpy array with three axes. *)
Record tensor : Type := mkT3 { t3_n : nat; t3_rows : nat; t3_cols : nat; t3_at : nat -> nat -> nat -> Q }.
(** [T[:, k, :]] *)
Definition t3_slice (k : nat) (T : tensor) : cmatrix := mkCM (t3_n T) (t3_cols T) (fun i j => t3_at T i k j).
Definition dummy_cm : cmatrix := cm_zero 0 0.

(** utils.py:109-113.  [vectors[0]] raises IndexError on an empty list; the
    assignment to a slice needs matching shapes (broadcasting a single row is
    not modelled). *)
Definition stack_vectors (l : list cmatrix) (max_len : nat) : res tensor :=
  match l with
  | [] => Err IndexError
  | A :: _ =>
      if forallb (fun B => Nat.eqb (cm_rows B) (cm_rows A) && Nat.leb (cm_cols B) max_len) l
      then Ok (mkT3 (List.length l) (cm_rows A) max_len
                 (fun i k j => let B := nth i l dummy_cm in
                               if Nat.ltb j (cm_cols B) then cm_at B k j else 0%Q))
      else Err ValueError
  end.

(** utils.py:123-127: [np.eye(n)[:, i:i+1]], empty when i is out of range *)
Definition one_hot (n i : nat) : cmatrix :=
  mkCM n (if Nat.ltb i n then 1 else 0) (fun r _ => if Nat.eqb r i then 1%Q else 0%Q).
(** utils.py:149-153 *)
Definition symm_prod (a b : cmatrix) : res cmatrix :=
  let? ab := cm_mul a (cm_T b) in
  let? ba := cm_mul b (cm_T a) in
  let? s := cm_add ab ba in Ok (cm_scale (1 # 2) s).
(** utils.py:130-133 *)
Definition symm_prod_one_hot (n i j : nat) : res cmatrix := symm_prod (one_hot n i) (one_hot n j).

(** [np.concatenate([np.zeros((r, c1)), np.eye(r), np.zeros((r, total - c1 - r))], axis=1)];
    numpy raises ValueError when the last width is negative
    (utils.py:47-50, 55-56, 62-65) *)
Definition selection_matrix (r c1 total : nat) : res cmatrix :=
  if Nat.leb (c1 + r) total
  then Ok (mkCM r total (fun i j => if Nat.eqb j (c1 + i) then 1%Q else 0%Q))
  else Err ValueError.

(** utils.py:34-35, 46-47 [get_start_idx] *)
Definition start_idx (k : nat) : nat := Nat.div (k * (k + 1)) 2.

(** [np.cumsum(l)] *)
Fixpoint cumsum (acc : nat) (l : list nat) : list nat :=
  match l with [] => [] | x :: l' => (acc + x) :: cumsum (acc + x) l' end.
(** circuit_opt.py:359, 479: [np.cumsum(np.arange(dim_G + 1))[1:] - 1] *)
Definition diag_idx (dimG : nat) : list nat := map (fun c => c - 1) (tl (cumsum 0 (seq 0 (S dimG)))).
(** circuit_opt.py:360-361, 480-481: zeros with a one put in every row at the
    given column *)
Definition diag_selector (dimG : nat) : cmatrix :=
  mkCM dimG (start_idx dimG) (fun i j => if Nat.eqb j (nth i (diag_idx dimG) 0) then 1%Q else 0%Q).

(** * casadi matrices *)
Record xmat : Type := mkXM { xm_rows : nat; xm_cols : nat; xm_at : nat -> nat -> cexpr }.
Definition xm_num (A : cmatrix) : xmat := mkXM (cm_rows A) (cm_cols A) (fun i j => CNum (cm_at A i j)).
Definition xm_T (A : xmat) : xmat := mkXM (xm_cols A) (xm_rows A) (fun i j => xm_at A j i).
Definition xm_mul (A B : xmat) : res xmat :=
  if Nat.eqb (xm_cols A) (xm_rows B)
  then Ok (mkXM (xm_rows A) (xm_cols B) (fun i j => csumn (xm_cols A) (fun k => CMul (xm_at A i k) (xm_at B k j))))
  else Err ValueError.
Definition xm_zip (f : cexpr -> cexpr -> cexpr) (A B : xmat) : res xmat :=
  if Nat.eqb (xm_rows A) (xm_rows B) && Nat.eqb (xm_cols A) (xm_cols B)
  then Ok (mkXM (xm_rows A) (xm_cols A) (fun i j => f (xm_at A i j) (xm_at B i j)))
  else Err ValueError.
Definition xm_add : xmat -> xmat -> res xmat := xm_zip CAdd.
Definition xm_sub : xmat -> xmat -> res xmat := xm_zip CSub.
(** [ca.trace(A)] *)
Definition xm_trace (A : xmat) : res xmat :=
  if Nat.eqb (xm_rows A) (xm_cols A) then Ok (mkXM 1 1 (fun _ _ => csumn (xm_rows A) (fun i => xm_at A i i))) else Err ValueError.
(** [x[a:b]] (slices are clamped) *)
Definition xm_slice (a b : nat) (x : xmat) : xmat :=
  mkXM (Nat.min b (xm_rows x) - a) (xm_cols x) (fun i j => xm_at x (a + i) j).

(** [opti.subject_to(A == q)] and [opti.subject_to(A >= q)], elementwise *)
Definition subject_all (f : cexpr -> ccon) (A : xmat) : OM unit :=
  oiter (fun ij => subject_to (f (xm_at A (fst ij) (snd ij)))) (grid (xm_rows A) (xm_cols A)).
Definition subject_eq (A : xmat) (q : Q) : OM unit := subject_all (fun e => CEq e (CNum q)) A.
Definition subject_ge (A : xmat) (q : Q) : OM unit := subject_all (fun e => CGe e (CNum q)) A.

(** * utils.py *)
(** [vec_indices]: first and last index of a block *)
Definition range : Type := nat * nat.
(** utils.py:60-68 without and with [matrix=True] *)
Definition get_vec_var (x : xmat) (r : range) : xmat := xm_slice (fst r) (snd r + 1) x.
Definition get_vec_matrix (x : xmat) (r : range) : res cmatrix :=
  selection_matrix (snd r + 1 - fst r) (fst r) (xm_rows x).

(** utils.py:33-40 *)
Definition get_PPt_element (vec_P : xmat) (k1 k2 : nat) : res xmat :=
  let s1 := start_idx k1 in
  let s2 := start_idx k2 in
  let row1 := xm_slice s1 (s1 + Nat.min k1 k2 + 1) vec_P in
  let row2 := xm_slice s2 (s2 + Nat.min k1 k2 + 1) vec_P in
  xm_mul (xm_T row1) row2.

(** utils.py:43-57; [P0] is [vec_indices["P"][0]] *)
Definition get_PPt_matrix (x : xmat) (P0 k1 k2 : nat) : res (cmatrix * cmatrix) :=
  let n := Nat.min k1 k2 + 1 in
  let? S1 := selection_matrix n (P0 + start_idx k1) (xm_rows x) in
  let? S2 := selection_matrix n (P0 + start_idx k2) (xm_rows x) in
  Ok (S1, S2).

Section Qcqp.
  Variable SY : sympy.

  (** sympy_parsing.py:46-51: for every key of sp_exp the flattened matrices *)
  Definition fg_lists (sr : symres) (dimF dimG : nat) : list (list sexpr * list sexpr) :=
    map (fun kw => (map (wF (snd kw)) (seq 0 dimF),
                    map (fun ij => wG (snd kw) (fst ij) (snd ij)) (grid dimG dimG))) (sr_exp sr).

  (** [v_k_list[-1] == "FG_obj"] *)
  Definition last_is_obj (sr : symres) : bool :=
    match rev (sr_exp sr) with (SObj, _) :: _ => true | _ => false end.

  (** [var_x[name2idx[s]]] *)
  Definition x_entry (x : xmat) (nm : names) (s : string) : res cexpr :=
    match dget vname_eqb (VStr s) (nm_idx nm) with
    | None => Err KeyError
    | Some i => if Nat.ltb i (xm_rows x) then Ok (xm_at x i 0) else Err IndexError
    end.
  (** [opti.subject_to(var_x[name2idx[s]] >= 1e-7)] *)
  Definition x_positive (x : xmat) (nm : names) (s : string) : OM unit :=
    ado e <- olift (x_entry x nm s); subject_to (CGe e (CNum tiny)).

  Definition name_idx (nm : names) (s : string) : res nat :=
    match dget vname_eqb (VStr s) (nm_idx nm) with Some i => Ok i | None => Err KeyError end.

  (** circuit_opt.py:287-293, 407-414: the vector x; [extra] scalar variables
      beyond it stay unused *)
  Definition new_x (x_size extra : nat) : OM xmat :=
    ado v <- opti_variable (x_size + extra) 1;
    ado _ <- set_var "x" (mkCV x_size 1 (cv_base v));
    let x := mkXM x_size 1 (fun i _ => CVar (cv_base v + i)) in
    ado _ <- (if Nat.ltb 0 x_size then subject_to (CEq (xm_at x 0 0) (CNum 1)) else oraise IndexError);
    oret x.

  (** circuit_opt.py:318-323, 330-334, 433-438, 446-449: the padded objective
      coefficients and the stacked constraint coefficients, with the shape
      assertion *)
  Definition padded (Ms : list cmatrix) (rows v_size n_dual : nat) : res (cmatrix * tensor) :=
    match rev Ms with
    | [] => Err IndexError
    | last :: _ =>
        let? obj := cm_pad rows v_size last in
        let? T := stack_vectors (removelast Ms) v_size in
        if Nat.eqb (t3_n T) n_dual && Nat.eqb (t3_rows T) rows && Nat.eqb (t3_cols T) v_size
        then Ok (obj, T) else Err AssertionError
    end.

  (** circuit_opt.py:343-351, 458-464: [v^T Qi v + ai^T v == 0] for every name
      that is a product; [quad Qi] and [lin a] build the two terms *)
  Definition monomial_con (quad lin : cmatrix -> res xmat) (v_size : nat) (nm : names) (n : vname) : OM unit :=
    match n with
    | VOne => oraise AttributeError
    | VStr name =>
        let vars := split_us name in
        if Nat.eqb (List.length vars) 1 then oret tt else
        ado i <- olift (name_idx nm name);
        let ai := cm_scale (-1) (one_hot v_size i) in
        ado iv <- olift (name_idx nm (last vars ""));
        ado ip <- olift (name_idx nm (join_us (removelast vars)));
        ado Qi <- olift (symm_prod_one_hot v_size iv ip);
        ado q <- olift (quad Qi);
        ado l <- olift (lin (cm_T ai));
        ado c <- olift (xm_add q l);
        subject_eq c 0
    end.

  (** circuit_opt.py:353-357, 466-471 *)
  Definition reciprocal_con (quad : cmatrix -> res xmat) (x : xmat) (v_size : nat) (nm : names) (v : string) : OM unit :=
    ado iv <- olift (name_idx nm v);
    ado iw <- olift (name_idx nm ("inv" ++ v));
    ado Qi <- olift (symm_prod_one_hot v_size iv iw);
    ado q <- olift (quad Qi);
    ado _ <- subject_eq q 1;
    x_positive x nm v.

  (** circuit_opt.py:366, 487: [ca_vars = {name : var_x[idx]}].  The key 1 (an
      integer, never the name of a symbol) is left out. *)
  Definition name_vars (base : nat) (nm : names) : list (string * cavar) :=
    flat_map (fun vi => match fst vi with VOne => [] | VStr s => [(s, mkCV 1 1 (base + snd vi))] end) (nm_idx nm).
  Definition set_vars (l : list (string * cavar)) : OM unit := fun o =>
    Ok (tt, mkOpti (op_next o) (op_cons o) l).

  Definition minimize (p : problem) : OM cexpr :=
    match pr_obj p with
    | None => oraise AttributeError
    | Some e => ado c <- sympy_expression_to_casadi SY e; oret (CSub (CNum 0) c)
    end.

  (** ** circuit_opt.py:265-369 [solve_ipopt_qcqp] *)

  (** circuit_opt.py:324-326 *)
  Definition qcqp_F_con (obj : cmatrix) (T : tensor) (v lam : xmat) (k : nat) : OM unit :=
    if Nat.eqb (cm_cols obj) (xm_rows v) && Nat.eqb (t3_n T) (xm_rows lam) && Nat.eqb (t3_cols T) (xm_rows v) then
      ado a <- olift (xm_mul (xm_num (cm_row k obj)) v);
      ado b <- olift (xm_mul (xm_T lam) (xm_num (t3_slice k T)));
      ado c <- olift (xm_mul b v);
      ado d <- olift (xm_sub a c);
      subject_eq d 0
    else oraise AssertionError.

  (** circuit_opt.py:335-339 *)
  Definition qcqp_G_con (obj : cmatrix) (T : tensor) (v lam vec_P : xmat) (dimG : nat) (ij : nat * nat) : OM unit :=
    let k := fst ij * dimG + snd ij in
    ado PP <- olift (get_PPt_element vec_P (fst ij) (snd ij));
    ado a <- olift (xm_mul (xm_num (cm_row k obj)) v);
    ado a' <- olift (xm_add a PP);
    ado b <- olift (xm_mul (xm_T lam) (xm_num (t3_slice k T)));
    ado c <- olift (xm_mul b v);
    ado d <- olift (xm_sub a' c);
    subject_eq d 0.

  (** [vec_v.T @ Qi @ vec_v] and [ai.T @ vec_v] *)
  Definition qcqp_quad (v : xmat) (Qi : cmatrix) : res xmat :=
    let? a := xm_mul (xm_T v) (xm_num Qi) in xm_mul a v.
  Definition qcqp_lin (v : xmat) (aT : cmatrix) : res xmat := xm_mul (xm_num aT) v.

  (** circuit_opt.py:284-367, after the coefficients are known *)
  Definition qcqp_build (p : problem) (b : option bounds) (extra : nat) (sr : symres) (dimF dimG : nat)
      (Fs Gs : list cmatrix) (nm : names) : OM cexpr :=
    let v_size := List.length (nm_list nm) in
    let nI := sr_I sr in
    let nE := sr_E sr in
    let x_size := v_size + nI + nE + start_idx dimG in
    ado x <- new_x x_size extra;
    ado xv <- get_var "x";
    ado _ <- ca_add_bounds b (nm_idx nm);
    if last_is_obj sr then
      let v := get_vec_var x (0, v_size - 1) in
      let vec_P := get_vec_var x (v_size + nI + nE, x_size - 1) in
      let lam := get_vec_var x (v_size, v_size + nI + nE - 1) in
      ado _ <- oiter (x_positive x nm) ["eta"; "h"; "rho"; "gamma"];
      ado F <- olift (padded Fs dimF v_size (xm_rows lam));
      ado _ <- oiter (qcqp_F_con (fst F) (snd F) v lam) (seq 0 dimF);
      ado G <- olift (padded Gs (dimG * dimG) v_size (xm_rows lam));
      ado _ <- oiter (qcqp_G_con (fst G) (snd G) v lam vec_P dimG) (grid dimG dimG);
      ado _ <- oiter (monomial_con (qcqp_quad v) (qcqp_lin v) v_size nm) (tl (nm_list nm));
      ado _ <- oiter (reciprocal_con (qcqp_quad v) x v_size nm) (inv_discr_params (pr_params p));
      ado _ <- subject_ge (get_vec_var x (v_size, v_size + nI - 1)) 0;
      ado d <- olift (xm_mul (xm_num (diag_selector dimG)) vec_P);
      ado _ <- subject_ge d 0;
      ado _ <- set_vars (name_vars (cv_base xv) nm);
      minimize p
    else oraise AssertionError.

  Definition qcqp_nlp (p : problem) (b : option bounds) (extra : nat) : M nlp := fun s =>
    let dimG := st_pctr s in
    let dimF := st_ectr s in
    match symbolic SY p s with
    | (Err e, s') => (Err e, s')
    | (Ok sr, s') =>
        match (let? r := sp_v_coeff_matrix SY (fg_lists sr dimF dimG) (pr_params p) in
               let '(Fs, Gs, nm) := r in qcqp_build p b extra sr dimF dimG Fs Gs nm opti0) with
        | Err e => (Err e, s')
        | Ok (obj, o) => (Ok (mkNlp o obj sr), s')
        end
    end.

  (** ** circuit_opt.py:387-488 [solve_ipopt_qcqp_matrix] *)

  (** circuit_opt.py:439-442 *)
  Definition matrix_F_con (obj : cmatrix) (T : tensor) (Iv Il : cmatrix) (x X : xmat) (k : nat) : OM unit :=
    if Nat.eqb (cm_cols obj) (cm_rows Iv) && Nat.eqb (t3_n T) (cm_rows Il) && Nat.eqb (t3_cols T) (cm_rows Iv) then
      ado a0 <- olift (cm_mul (cm_row k obj) Iv);
      ado a <- olift (xm_mul (xm_num a0) x);
      ado b0 <- olift (cm_mul (cm_T Il) (t3_slice k T));
      ado b1 <- olift (cm_mul b0 Iv);
      ado b2 <- olift (xm_mul (xm_num b1) X);
      ado b <- olift (xm_trace b2);
      ado d <- olift (xm_sub a b);
      subject_eq d 0
    else oraise AssertionError.

  (** circuit_opt.py:450-456 *)
  Definition matrix_G_con (obj : cmatrix) (T : tensor) (Iv Il : cmatrix) (x X : xmat) (P0 dimG : nat) (ij : nat * nat) : OM unit :=
    let k := fst ij * dimG + snd ij in
    ado SS <- olift (get_PPt_matrix x P0 (fst ij) (snd ij));
    ado a0 <- olift (cm_mul (cm_row k obj) Iv);
    ado a <- olift (xm_mul (xm_num a0) x);
    ado s0 <- olift (cm_mul (cm_T (fst SS)) (snd SS));
    ado s1 <- olift (xm_mul (xm_num s0) X);
    ado s2 <- olift (xm_trace s1);
    ado a' <- olift (xm_add a s2);
    ado b0 <- olift (cm_mul (cm_T Il) (t3_slice k T));
    ado b1 <- olift (cm_mul b0 Iv);
    ado b2 <- olift (xm_mul (xm_num b1) X);
    ado b <- olift (xm_trace b2);
    ado d <- olift (xm_sub a' b);
    subject_eq d 0.

  (** [ca.trace(((I_v.T @ Qi) @ I_v) @ var_X)] and [ai.T @ I_v @ var_x] *)
  Definition matrix_quad (Iv : cmatrix) (X : xmat) (Qi : cmatrix) : res xmat :=
    let? a := cm_mul (cm_T Iv) Qi in
    let? b := cm_mul a Iv in
    let? c := xm_mul (xm_num b) X in xm_trace c.
  Definition matrix_lin (Iv : cmatrix) (x : xmat) (aT : cmatrix) : res xmat :=
    let? a := cm_mul aT Iv in xm_mul (xm_num a) x.

  (** circuit_opt.py:404-488, after the coefficients are known *)
  Definition matrix_build (p : problem) (b : option bounds) (sr : symres) (dimF dimG : nat)
      (Fs Gs : list cmatrix) (nm : names) : OM cexpr :=
    let v_size := List.length (nm_list nm) in
    let nI := sr_I sr in
    let nE := sr_E sr in
    let x_size := v_size + nI + nE + start_idx dimG in
    ado x <- new_x x_size 100;
    ado xv <- get_var "x";
    ado X <- olift (xm_mul x (xm_T x));
    if last_is_obj sr then
      ado Iv <- olift (get_vec_matrix x (0, v_size - 1));
      ado IP <- olift (get_vec_matrix x (v_size + nI + nE, x_size - 1));
      ado Il <- olift (get_vec_matrix x (v_size, v_size + nI + nE - 1));
      ado F <- olift (padded Fs dimF v_size (cm_rows Il));
      ado _ <- oiter (matrix_F_con (fst F) (snd F) Iv Il x X) (seq 0 dimF);
      ado G <- olift (padded Gs (dimG * dimG) v_size (cm_rows Il));
      ado _ <- oiter (matrix_G_con (fst G) (snd G) Iv Il x X (v_size + nI + nE) dimG) (grid dimG dimG);
      ado _ <- oiter (monomial_con (matrix_quad Iv X) (matrix_lin Iv x) v_size nm) (tl (nm_list nm));
      ado _ <- oiter (reciprocal_con (matrix_quad Iv X) x v_size nm) (inv_discr_params (pr_params p));
      ado _ <- ca_add_bounds b (nm_idx nm);
      ado Ila <- olift (get_vec_matrix x (v_size, v_size + nI - 1));
      ado la <- olift (xm_mul (xm_num Ila) x);
      ado _ <- subject_ge la 0;
      ado QI <- olift (cm_mul (diag_selector dimG) IP);
      ado d <- olift (xm_mul (xm_num QI) x);
      ado _ <- subject_ge d 0;
      ado _ <- set_vars (name_vars (cv_base xv) nm);
      minimize p
    else oraise AssertionError.

  Definition qcqp_matrix_nlp (p : problem) (b : option bounds) : M nlp := fun s =>
    let dimG := st_pctr s in
    let dimF := st_ectr s in
    match symbolic SY p s with
    | (Err e, s') => (Err e, s')
    | (Ok sr, s') =>
        match (let? r := sp_v_coeff_matrix SY (fg_lists sr dimF dimG) (pr_params p) in
               let '(Fs, Gs, nm) := r in matrix_build p b sr dimF dimG Fs Gs nm opti0) with
        | Err e => (Err e, s')
        | Ok (obj, o) => (Ok (mkNlp o obj sr), s')
        end
    end.
End Qcqp.
