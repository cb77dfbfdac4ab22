(** Model of the problem builders: [ciropt/classical_central_vi.py],
    [ciropt/classical_decentral_vi.py], [ciropt/new_algorithms_vi.py].

    The argument [params] selects the mode: [None] is Ciropt mode, where the
    discretisation parameters are symbols; a dictionary is verification mode,
    where they are numbers and the problem is a PEPit problem.  PEPit is not part
    of the repository: its points, expressions, functions and proximal step are
    modelled by those of ciropt, which are its copies (point.py:10,
    expression.py:10, function.py:12, constraint.py:2 say so), and
    [PEPit.PEP()] by the reset that [CircuitOpt()] does.  The lists
    [discretization_params] and the objective that a model of a PEPit problem
    carries mean nothing.  Local names are those of the Python code.  The
    circuit values R, Capacitance, Inductance and the mixing weights are exact
    rationals; a division by zero (ZeroDivisionError in Python) is not modelled,
    the theorems assume the denominators to be non-zero.  The sums that Python
    accumulates inside a loop are computed by a fold after the loop: additions
    of points and expressions have no side effect. *)
From Coq Require Import List Arith Bool String QArith.
From Verif Require Import Prelude Sympy AlgebraModel FunctionModel CircuitModel.
Import ListNotations.
Local Open Scope string_scope.

(** The value of a parameter: a symbol of the problem (circuit_opt.py:21-30) in
    Ciropt mode, a number of the dictionary in verification mode.  The zero is
    never used: [start] has checked the names. *)
Definition param (params : option (list (string * Q))) (x : string) : sexpr :=
  match params with
  | None => Sym x
  | Some ps => Num (match dget String.eqb x ps with Some q => q | None => 0 end)
  end.
(** classical_central_vi.py:18-27 and the same lines of the other builders: a new
    problem, and in verification mode [params[x]] for each name (KeyError) *)
Definition start (params : option (list (string * Q))) (names : list string) : M problem :=
  do problem <- circuit_opt;
  match params with
  | None => ret problem
  | Some ps => if forallb (fun x => match dget String.eqb x ps with Some _ => true | None => false end) names
               then ret problem else lift (Err KeyError)
  end.

(** [1/L_smooth], which is 0.0 for np.inf *)
Definition inv_ext (L : extq) : Q := match L with Fin l => Qred (/ l) | Inf => 0 end.

(** [c / q] for a sympy expression and a number *)
Definition sdivq (c : sexpr) (q : Q) : sexpr := smul c (Num (Qred (/ q))).

Definition zip_with {A B C} (f : A -> B -> C) (l : list A) (m : list B) : list C :=
  map (fun ab => f (fst ab) (snd ab)) (combine l m).
Definition zip3 {A B C D} (f : A -> B -> C -> D) (l : list A) (m : list B) (n : list C) : list D :=
  zip_with (fun ab c => f (fst ab) (snd ab) c) (combine l m) n.
Definition zip4 {A B C D E} (f : A -> B -> C -> D -> E) (l : list A) (m : list B) (n : list C) (o : list D) : list E :=
  zip_with (fun ab cd => f (fst ab) (snd ab) (fst cd) (snd cd)) (combine l m) (combine n o).

Section Builders.
  Variable SY : sympy.
  Variable params : option (list (string * Q)).
  Local Notation s_h := (param params "h").
  Local Notation s_alpha := (param params "alpha").
  Local Notation s_beta := (param params "beta").
  Local Notation s_eta := (param params "eta").
  Local Notation s_rho := (param params "rho").
  Local Notation s_gamma := (param params "gamma").

  (** [p / q], point.py:68-69 *)
  Definition pdivq (p : point) (q : Q) : point := pscale SY (Num (Qred (/ q))) p.

  Local Notation "p +. q" := (padd SY p q) (at level 50, left associativity).
  Local Notation "p -. q" := (psub SY p q) (at level 50, left associativity).
  Local Notation "c *. p" := (pscale SY c p) (at level 38, right associativity).
  Local Notation "p /. q" := (pdivq p q) (at level 40, left associativity).
  Local Notation "a +: b" := (eadd SY a b) (at level 50, left associativity).
  Local Notation "a -: b" := (esub SY a b) (at level 50, left associativity).
  Local Notation "c *: e" := (escale SY c e) (at level 38, right associativity).
  Local Notation "p ** q" := (pmul SY p q) (at level 40, left associativity).
  Local Notation sq := (psq SY).
  Local Notation "a *s b" := (smul a b) (at level 40, left associativity).
  Local Notation "a /s q" := (sdivq a q) (at level 40, left associativity).
  Local Notation N := Num.
  Local Notation "1-beta" := (ssub (Num 1) s_beta).
  Local Notation oracle := (oracle SY).
  Local Notation stationary_point := (stationary_point SY).
  Local Notation proximal_step := (proximal_step SY).
  Local Notation subgrad_conjugate := (subgrad_conjugate SY).
  Local Notation fn_add := (fn_add SY).

  (** [problem.add_constraint(Constraint(e, "equality"))] *)
  Definition add_equality (p : problem) (e : expr) : M problem :=
    do c <- lift (new_constraint e "equality"); ret (add_constraint p c).

  (** classical_central_vi.py:17-44 *)
  Definition gradient_flow_circuit (mu : Q) (L : extq) (C : Q) : M problem :=
    do problem <- start params ["h"; "alpha"; "beta"; "eta"];
    do func <- def_function mu L;
    do (x_star, y_star, f_star) <- stationary_point func;
    do x_1 <- set_initial_point;
    do (y_1, f_1) <- oracle func x_1;
    let x_1p5 := x_1 -. (s_alpha *s s_h /s C) *. y_1 in
    do (y_1p5, f_1p5) <- oracle func x_1p5;
    let x_2 := x_1 -. (s_beta *s s_h /s C) *. y_1 -. (1-beta *s s_h /s C) *. y_1p5 in
    do (y_2, f_2) <- oracle func x_2;
    let E_1 := N (Qred (C / 2)) *: sq (x_1 -. x_star) in
    let E_2 := N (Qred (C / 2)) *: sq (x_2 -. x_star) in
    let Delta_1 := s_eta *: (f_1 -: f_star) in
    ret (set_performance_metric problem (E_2 -: (E_1 -: Delta_1))).

  (** classical_central_vi.py:47-77 *)
  Definition gradient_flow_circuit_tuneC (mu : Q) (L : extq) : M problem :=
    do problem0 <- start params ["h"; "alpha"; "beta"; "eta"; "C"; "invC"];
    let C := param params "C" in let invC := param params "invC" in
    let problem := set_params problem0 (ssort (pr_params problem0 ++ ["C"; "invC"])) in
    do func <- def_function mu L;
    do (x_star, y_star, f_star) <- stationary_point func;
    do x_1 <- set_initial_point;
    do (y_1, f_1) <- oracle func x_1;
    let x_1p5 := x_1 -. (s_alpha *s s_h *s invC) *. y_1 in
    do (y_1p5, f_1p5) <- oracle func x_1p5;
    let x_2 := x_1 -. (s_beta *s s_h *s invC) *. y_1 -. (1-beta *s s_h *s invC) *. y_1p5 in
    do (y_2, f_2) <- oracle func x_2;
    let E_1 := (C /s 2) *: sq (x_1 -. x_star) in
    let E_2 := (C /s 2) *: sq (x_2 -. x_star) in
    let Delta_1 := s_eta *: (f_1 -: f_star) in
    ret (set_performance_metric problem (E_2 -: (E_1 -: Delta_1))).

  (** classical_central_vi.py:80-115 *)
  Definition accelerated_gradient_circuit (mu : Q) (L : extq) (R C Ind : Q) : M problem :=
    do problem <- start params ["h"; "alpha"; "beta"; "eta"; "rho"];
    do func <- def_function mu L;
    do (x_star, y_star, f_star) <- stationary_point func;
    do v_C_1 <- set_initial_point;
    do i_L_1 <- set_initial_point;
    let x_1 := N R *. i_L_1 +. v_C_1 in
    do (y_1, f_1) <- oracle func x_1;
    let i_L_1p5 := i_L_1 +. (s_alpha *s s_h /s Ind) *. (v_C_1 -. (x_1 -. N R *. y_1)) in
    let v_C_1p5 := v_C_1 -. (s_alpha *s s_h /s C) *. y_1 in
    let x_1p5 := N R *. i_L_1p5 +. v_C_1p5 in
    do (y_1p5, f_1p5) <- oracle func x_1p5;
    let i_L_2 := i_L_1 +. (s_beta *s s_h /s Ind) *. (v_C_1 -. (x_1 -. N R *. y_1))
                 +. (1-beta *s s_h /s Ind) *. (v_C_1p5 -. (x_1p5 -. N R *. y_1p5)) in
    let v_C_2 := v_C_1 -. (s_beta *s s_h /s C) *. y_1 -. (1-beta *s s_h /s C) *. y_1p5 in
    let x_2 := N R *. i_L_2 +. v_C_2 in
    do (y_2, f_2) <- oracle func x_2;
    let E_1 := N (Qred (C / 2)) *: sq (v_C_1 -. x_star) +: N (Qred (Ind / 2)) *: sq (i_L_1 -. y_star) in
    let E_2 := N (Qred (C / 2)) *: sq (v_C_2 -. x_star) +: N (Qred (Ind / 2)) *: sq (i_L_2 -. y_star) in
    let Delta_1 := (s_rho *s N R) *: sq (y_1 -. i_L_1) +: s_eta *: (f_1 -: f_star) in
    ret (set_performance_metric problem (E_2 -: (E_1 -: Delta_1))).

  (** classical_central_vi.py:118-158 *)
  Definition accelerated_gradient_circuit_tuneRLC (mu : Q) (Ls : extq) : M problem :=
    do problem0 <- start params ["h"; "alpha"; "beta"; "eta"; "rho"; "C"; "invC"; "L"; "invL"; "R"];
    let C := param params "C" in let R := param params "R" in let L := param params "L" in
    let invC := param params "invC" in let invL := param params "invL" in
    let problem := set_params problem0 (ssort (pr_params problem0 ++ ["C"; "invC"; "L"; "invL"; "R"])) in
    do func <- def_function mu Ls;
    do (x_star, y_star, f_star) <- stationary_point func;
    do v_C_1 <- set_initial_point;
    do i_L_1 <- set_initial_point;
    let x_1 := R *. i_L_1 +. v_C_1 in
    do (y_1, f_1) <- oracle func x_1;
    let i_L_1p5 := i_L_1 +. (s_alpha *s s_h *s invL) *. (v_C_1 -. (x_1 -. R *. y_1)) in
    let v_C_1p5 := v_C_1 -. (s_alpha *s s_h *s invC) *. y_1 in
    let x_1p5 := R *. i_L_1p5 +. v_C_1p5 in
    do (y_1p5, f_1p5) <- oracle func x_1p5;
    let i_L_2 := i_L_1 +. (s_beta *s s_h *s invL) *. (v_C_1 -. (x_1 -. R *. y_1))
                 +. (1-beta *s s_h *s invL) *. (v_C_1p5 -. (x_1p5 -. R *. y_1p5)) in
    let v_C_2 := v_C_1 -. (s_beta *s s_h *s invC) *. y_1 -. (1-beta *s s_h *s invC) *. y_1p5 in
    let x_2 := R *. i_L_2 +. v_C_2 in
    do (y_2, f_2) <- oracle func x_2;
    let E_1 := (C /s 2) *: sq (v_C_1 -. x_star) +: (L /s 2) *: sq (i_L_1 -. y_star) in
    let E_2 := (C /s 2) *: sq (v_C_2 -. x_star) +: (L /s 2) *: sq (i_L_2 -. y_star) in
    let Delta_1 := (s_rho *s R) *: sq (y_1 -. i_L_1) +: s_eta *: (f_1 -: f_star) in
    ret (set_performance_metric problem (E_2 -: (E_1 -: Delta_1))).

  (** classical_central_vi.py:161-192 *)
  Definition ppm_circuit (mu : Q) (L : extq) (C R : Q) : M problem :=
    do problem <- start params ["h"; "alpha"; "beta"; "eta"; "rho"];
    do func <- def_function mu L;
    do (x_star, y_star, f_star) <- stationary_point func;
    do x_1 <- set_initial_point;
    do (x1_prox, _, _) <- proximal_step x_1 func (N R);
    let x_1p5 := x_1 -. ((s_alpha *s s_h /s C) *. (x_1 -. x1_prox)) /. R in
    do (x1p5_prox, _, _) <- proximal_step x_1p5 func (N R);
    let i_R_1 := (x_1 -. x1_prox) /. R in
    let x_2 := x_1 -. ((s_beta *s s_h /s C) *. (x_1 -. x1_prox)) /. R
               -. ((1-beta *s s_h /s C) *. (x_1p5 -. x1p5_prox)) /. R in
    do (y_2, f_2) <- oracle func x_2;
    let E_1 := N (Qred (C / 2)) *: sq (x_1 -. x_star) in
    let E_2 := N (Qred (C / 2)) *: sq (x_2 -. x_star) in
    let Delta_1 := s_eta *: (f_2 -: f_star) +: (s_rho *s N R) *: sq (i_R_1 -. y_star) in
    ret (set_performance_metric problem (E_2 -: (E_1 -: Delta_1))).

  (** classical_central_vi.py:195-235 *)
  Definition prox_gradient_circuit (mu : Q) (L : extq) (R C : Q) : M problem :=
    do problem <- start params ["h"; "eta"; "rho"];
    do f <- def_function mu L;
    do g <- def_function 0 Inf;
    do func <- fn_add f g;
    do (x_star, y_star, func_star) <- stationary_point func;
    do (y2_star, _) <- oracle f x_star;
    let y1_star := y_star -. y2_star in
    let e_star := x_star -. N R *. y2_star in
    do x2_1 <- set_initial_point;
    do (y2_1, _) <- oracle f x2_1;
    let e_1 := x2_1 -. N R *. y2_1 in
    do (x1_1, y1_1, _) <- proximal_step e_1 g (N R);
    let nabla_R_g_e1 := (e_1 -. x1_1) /. R in
    let x2_2 := x2_1 -. (s_h /s C) *. (nabla_R_g_e1 +. y2_1) in
    do (y2_2, _) <- oracle f x2_2;
    let e_2 := x2_2 -. N R *. y2_2 in
    do (x1_2, y1_2, _) <- proximal_step e_2 g (N R);
    let E_1 := N (Qred (C / 2)) *: sq (e_1 -. e_star) in
    let E_2 := N (Qred (C / 2)) *: sq (e_2 -. e_star) in
    let Delta_1 := (s_eta *s N (Qred (inv_ext L - R))) *: sq (y2_1 -. y2_star)
                   +: (s_rho *s N R) *: sq (nabla_R_g_e1 -. y1_star) in
    ret (set_performance_metric problem (E_2 -: (E_1 -: Delta_1))).

  (** The loops shared by the builders with [n_func] functions. *)

  (** classical_central_vi.py:251-255, 316-320, 470-474, 545-549 *)
  Fixpoint define_loop (mu : Q) (L : extq) (n : nat) (fs : list nat) (f : option nat) : M (list nat * option nat) :=
    match n with
    | O => ret (fs, f)
    | S n' =>
        do fi <- def_function mu L;
        do f' <- match f with None => ret fi | Some g => fn_add g fi end;
        define_loop mu L n' (fs ++ [fi]) (Some f')
    end.
  (** [f.stationary_point()] where [f] is unbound when n_func = 0 *)
  Definition stationary_of (f : option nat) : M (point * point * expr) :=
    match f with None => raise UnboundLocalError | Some f => stationary_point f end.
  (** [yi, _ = fs[i].oracle(x)] for every i, classical_central_vi.py:258-260, 324-327, 331-334, 477-483 *)
  Fixpoint oracle_loop (fs : list nat) (x : point) : M (list point) :=
    match fs with
    | [] => ret []
    | f :: fs' => do (y, _) <- oracle f x; do ys <- oracle_loop fs' x; ret (y :: ys)
    end.
  (** [xi = subgrad_conjugate(ys[i], fs[i])], classical_central_vi.py:283-286 *)
  Fixpoint conj_loop (fs : list nat) (ys : list point) : M (list point) :=
    match fs, ys with
    | f :: fs', y :: ys' => do x <- subgrad_conjugate y f; do xs <- conj_loop fs' ys'; ret (x :: xs)
    | _, _ => ret []
    end.
  (** [xi, gi, fi = proximal_step(zs[i], fs[i], R)], classical_central_vi.py:495-499, 506-510, 569-573.
      Python collects the triplets in one list; here the points, the gradients
      and the values are three lists. *)
  Fixpoint prox_loop (fs : list nat) (zs : list point) (R : Q) : M (list point * list point * list expr) :=
    match fs, zs with
    | f :: fs', z :: zs' =>
        do (x, g, e) <- proximal_step z f (N R);
        do (xs, gs, es) <- prox_loop fs' zs' R;
        ret (x :: xs, g :: gs, e :: es)
    | _, _ => ret ([], [], [])
    end.
  (** [if i == 0: s = p_0 else: s += p_i] *)
  Definition sum_points (l : list point) : point :=
    match l with [] => zero_point | p :: l' => fold_left (padd SY) l' p end.
  (** [s = 0; s += e_i]: the first addition is [0 + e_0] *)
  Definition sum_from_zero (l : list expr) : expr :=
    match l with [] => zero_expr | e :: l' => fold_left (eadd SY) l' (eaddc SY e 0) end.
  (** [s = e; s += e_i] *)
  Definition sum_from (e : expr) (l : list expr) : expr := fold_left (eadd SY) l e.

  (** classical_central_vi.py:262-277: initial currents summing to zero.  With
      one function the last current is still the integer 0, and add_point
      raises AssertionError (function.py:99-101). *)
  Fixpoint dual_init (fs : list nat) (last : option point) : M (list point * list point) :=
    match fs with
    | [] => ret ([], [])
    | f :: fs' =>
        match fs' with
        | [] =>
            match last with
            | None => do _ <- new_point; do _ <- new_expr; raise AssertionError
            | Some y => do x <- subgrad_conjugate y f; ret ([y], [x])
            end
        | _ =>
            do y <- set_initial_point;
            let last' := match last with None => pneg SY y | Some l => l -. y end in
            do x <- subgrad_conjugate y f;
            do (ys, xs) <- dual_init fs' (Some last');
            ret (y :: ys, x :: xs)
        end
    end.

  (** classical_central_vi.py:238-300 *)
  Definition dual_decomposition (n_func : nat) (mu : Q) (L : extq) (Ind : Q) : M problem :=
    do problem <- start params ["h"; "alpha"; "beta"; "eta"];
    do (fs, f) <- define_loop mu L n_func [] None;
    do (x_star, y_star, f_star) <- stationary_of f;
    do ys_star <- oracle_loop fs x_star;
    do (i_L_1, xs_1) <- dual_init fs None;
    let nf := inject_Z (Z.of_nat n_func) in
    let z_1 := sum_points xs_1 /. nf in
    let i_L_1p5 := zip_with (fun i x => i +. (s_alpha *s s_h /s Ind) *. (z_1 -. x)) i_L_1 xs_1 in
    do xs_1p5 <- conj_loop fs i_L_1p5;
    let z_1p5 := sum_points xs_1p5 /. nf in
    let i_L_2 := zip3 (fun i x x' => i +. (s_beta *s s_h /s Ind) *. (z_1 -. x)
                                       +. (1-beta *s s_h /s Ind) *. (z_1p5 -. x'))
                   i_L_1 xs_1 xs_1p5 in
    let E_1 := sum_from_zero (zip_with (fun i y => N (Qred (Ind / 2)) *: sq (i -. y)) i_L_1 ys_star) in
    let E_2 := sum_from_zero (zip_with (fun i y => N (Qred (Ind / 2)) *: sq (i -. y)) i_L_2 ys_star) in
    let Delta_1 := sum_from_zero (zip3 (fun i x y => s_eta *: ((x -. x_star) ** (i -. y))) i_L_1 xs_1 ys_star) in
    ret (set_performance_metric problem (E_2 -: (E_1 -: Delta_1))).

  (** classical_central_vi.py:303-341 *)
  Definition primal_decomposition (n_func : nat) (mu : Q) (L : extq) (C : Q) : M problem :=
    do problem <- start params ["h"; "alpha"; "beta"; "eta"];
    do (fs, f) <- define_loop mu L n_func [] None;
    do (x_star, y_star, f_star) <- stationary_of f;
    do z_1 <- set_initial_point;
    do ys_1 <- oracle_loop fs z_1;
    let sum_y_1 := sum_points ys_1 in
    let z_1p5 := z_1 -. (s_alpha *s s_h /s C) *. sum_y_1 in
    do ys_1p5 <- oracle_loop fs z_1p5;
    let sum_y_1p5 := sum_points ys_1p5 in
    let z_2 := z_1 -. (s_beta *s s_h /s C) *. sum_y_1 -. (1-beta *s s_h /s C) *. sum_y_1p5 in
    let E_1 := N (Qred (C / 2)) *: sq (z_1 -. x_star) in
    let E_2 := N (Qred (C / 2)) *: sq (z_2 -. x_star) in
    let Delta_1 := s_eta *: ((z_1 -. x_star) ** (sum_y_1 -. y_star)) in
    ret (set_performance_metric problem (E_2 -: (E_1 -: Delta_1))).

  (** classical_central_vi.py:344-390 *)
  Definition douglas_rachford_splitting (mu : Q) (L : extq) (R Ind : Q) : M problem :=
    do problem <- start params ["h"; "alpha"; "beta"; "eta"; "rho"; "gamma"];
    do f1 <- def_function mu L;
    do f2 <- def_function mu L;
    do f12 <- fn_add f1 f2;
    do (x_star, y_star, f_star) <- stationary_point f12;
    do (y1_star, _) <- oracle f1 x_star;
    do (y2_star, _) <- oracle f2 x_star;
    do problem <- add_equality problem (sq (y1_star +. y2_star -. y_star));
    do i_L_0 <- set_initial_point;
    do x2_0 <- set_initial_point;
    do (x1_1, y1_1, f1_1) <- proximal_step (x2_0 +. N R *. i_L_0) f1 (N R);
    do (x2_1, y2_1, f2_1) <- proximal_step (x1_1 -. N R *. i_L_0) f2 (N R);
    let i_L_1 := i_L_0 +. (s_h /s Ind) *. (x2_1 -. x1_1) in
    do (x1_1p5, y1_1p5, f1_1p5) <- proximal_step (x2_1 +. N R *. i_L_1) f1 (N R);
    do (x2_1p5, y2_1p5, f2_1p5) <- proximal_step (x1_1p5 -. N R *. i_L_1) f2 (N R);
    let i_L_1p5 := i_L_1 +. (s_alpha *s s_h /s Ind) *. (x2_1 -. x1_1) in
    do (x1_2, y1_2, f1_2) <- proximal_step (x2_1p5 +. N R *. i_L_1p5) f1 (N R);
    do (x2_2, y2_2, f2_2) <- proximal_step (x1_2 -. N R *. i_L_1p5) f2 (N R);
    let i_L_2 := i_L_1 +. (s_beta *s s_h /s Ind) *. (x2_1 -. x1_1)
                 +. (1-beta *s s_h /s Ind) *. (x2_1p5 -. x1_1p5) in
    let E_1 := N (Qred (Ind / 2)) *: sq (i_L_1 -. y1_star) +: s_gamma *: sq (x2_1 -. x_star) in
    let E_2 := N (Qred (Ind / 2)) *: sq (i_L_2 -. y1_star) +: s_gamma *: sq (x2_2 -. x_star) in
    let Delta_1 := (s_rho *s N R) *: sq (y1_1 -. i_L_1)
                   +: s_eta *: (f1_1 +: f2_1 -: y1_star ** (x1_1 -. x_star) -: y2_star ** (x2_1 -. x_star) -: f_star) in
    ret (set_performance_metric problem (E_2 -: (E_1 -: Delta_1))).

  (** classical_central_vi.py:393-451 *)
  Definition davis_yin_splitting (mu : Q) (L : extq) (R Ind : Q) : M problem :=
    do problem <- start params ["h"; "alpha"; "beta"; "eta"; "rho"; "gamma"];
    do f1 <- def_function mu L;
    do f2 <- def_function mu L;
    do f3 <- def_function mu L;
    do f12 <- fn_add f1 f2;
    do f123 <- fn_add f12 f3;
    do (x_star, y_star, f_star) <- stationary_point f123;
    do (y1_star, _) <- oracle f1 x_star;
    do (y2_star, _) <- oracle f2 x_star;
    do (y3_star, _) <- oracle f3 x_star;
    do problem <- add_equality problem (sq (y1_star +. y2_star +. y3_star -. y_star));
    do i_L_0 <- set_initial_point;
    do x2_0 <- set_initial_point;
    do (y3_0, _) <- oracle f3 x2_0;
    let e_0 := x2_0 -. N R *. i_L_0 -. N R *. y3_0 in
    do (x1_1, y1_1, f1_1) <- proximal_step (N 2 *. x2_0 -. e_0 -. N R *. y3_0) f1 (N R);
    do (x2_1, y2_1, f2_1) <- proximal_step (x1_1 +. e_0 -. x2_0) f2 (N R);
    let i_L_1 := i_L_0 +. (s_h /s Ind) *. (x2_1 -. x1_1) in
    do (y3_1, f3_1) <- oracle f3 x2_1;
    let e_1 := x2_1 -. N R *. y3_1 -. N R *. i_L_1 in
    do (x1_1p5, y1_1p5, f1_1p5) <- proximal_step (N 2 *. x2_1 -. e_1 -. N R *. y3_1) f1 (N R);
    do (x2_1p5, y2_1p5, f2_1p5) <- proximal_step (x1_1p5 +. e_1 -. x2_1) f2 (N R);
    let i_L_1p5 := i_L_1 +. (s_alpha *s s_h /s Ind) *. (x2_1p5 -. x1_1p5) in
    do (y3_1p5, _) <- oracle f3 x2_1p5;
    let e_1p5 := x2_1p5 -. N R *. y3_1p5 -. N R *. i_L_1p5 in
    do (x1_2, y1_2, f1_2) <- proximal_step (N 2 *. x2_1p5 -. e_1p5 -. N R *. y3_1p5) f1 (N R);
    do (x2_2, y2_2, f2_2) <- proximal_step (x1_2 +. e_1p5 -. x2_1p5) f2 (N R);
    let i_L_2 := i_L_1 +. (s_beta *s s_h /s Ind) *. (x2_1 -. x1_1)
                 +. (1-beta *s s_h /s Ind) *. (x2_1p5 -. x1_1p5) in
    do (y3_2, _) <- oracle f3 x2_2;
    let e_2 := x2_2 -. N R *. y3_2 -. N R *. i_L_2 in
    let e_star := x_star -. N R *. y1_star -. N R *. y3_star in
    let E_1 := N (Qred (Ind / 2)) *: sq (i_L_1 -. y1_star) +: s_gamma *: sq (e_1 -. e_star) in
    let E_2 := N (Qred (Ind / 2)) *: sq (i_L_2 -. y1_star) +: s_gamma *: sq (e_2 -. e_star) in
    let Delta_1 := (s_rho *s N (Qred (/ R))) *: sq (x1_1 -. x2_1)
                   +: s_eta *: (f1_1 +: f2_1 +: f3_1 -: y1_star ** (x1_1 -. x_star) -: y2_star ** (x2_1 -. x_star)
                                -: y3_star ** (x2_1 -. x_star) -: f_star) in
    ret (set_performance_metric problem (E_2 -: (E_1 -: Delta_1))).

  (** classical_central_vi.py:487-492, 560-563: [n] currents, and the last one
      minus their sum (the integer 0 when [n = 0]) *)
  Fixpoint init_currents (n : nat) (last : option point) : M (list point * option point) :=
    match n with
    | O => ret ([], last)
    | S n' =>
        do y <- set_initial_point;
        do (ys, l) <- init_currents n' (Some (match last with None => pneg SY y | Some l => l -. y end));
        ret (y :: ys, l)
    end.

  (** classical_central_vi.py:454-526.  With one function [R * 0 + e_1] raises
      TypeError (line 496). *)
  Definition admm_consensus (n_func : nat) (mu : Q) (L : extq) (R Ind : Q) : M problem :=
    do problem <- start params ["h"; "alpha"; "beta"; "eta"; "rho"; "gamma"];
    do (fs, f) <- define_loop mu L n_func [] None;
    do (x_star, y_star, f_star) <- stationary_of f;
    do ys_star <- oracle_loop fs x_star;
    do problem <- add_equality problem (sq (sum_points ys_star -. y_star));
    do e_1 <- set_initial_point;
    do (is_, last) <- init_currents (n_func - 1) None;
    match last with
    | None => raise TypeError
    | Some l =>
    let i_Ls_1 := (is_ ++ [l])%list in
    let nf := inject_Z (Z.of_nat n_func) in
    let zs_1 := map (fun i => N R *. i +. e_1) i_Ls_1 in
    do (xs_1p5, gs_1p5, fs_1p5) <- prox_loop fs zs_1 R;
    let sum_x := sum_points xs_1p5 in
    let i_Ls_1p5 := zip_with (fun i x => i +. (s_alpha *s s_h /s Ind) *. (sum_x -. x)) i_Ls_1 xs_1p5 in
    let e_1p5 := sum_x /. nf in
    let zs_1p5 := map (fun i => N R *. i +. e_1p5) i_Ls_1p5 in
    do (xs_2, gs_2, fs_2) <- prox_loop fs zs_1p5 R;
    let e_2 := sum_points xs_2 /. nf in
    let i_Ls_2 := zip3 (fun i x x' => i +. (s_beta *s s_h /s Ind) *. (e_1p5 -. x)
                                        +. (1-beta *s s_h /s Ind) *. (e_2 -. x'))
                    i_Ls_1 xs_1p5 xs_2 in
    let E_1 := sum_from (s_gamma *: sq (e_1 -. x_star))
                 (zip_with (fun i y => N (Qred (Ind / 2)) *: sq (i -. y)) i_Ls_1 ys_star) in
    let E_2 := sum_from (s_gamma *: sq (e_2 -. x_star))
                 (zip_with (fun i y => N (Qred (Ind / 2)) *: sq (i -. y)) i_Ls_2 ys_star) in
    let Delta_1 := sum_from (sneg s_eta *: f_star)
                     (zip4 (fun xg f i y => (s_rho *s N R) *: sq (snd xg -. i) +: s_eta *: (f -: y ** (fst xg -. x_star)))
                        (combine xs_2 gs_2) fs_2 i_Ls_2 ys_star) in
    ret (set_performance_metric problem (E_2 -: (E_1 -: Delta_1)))
    end.

  (** classical_central_vi.py:529-588 *)
  Definition admm_euler_consensus (n_func : nat) (mu : Q) (L : extq) (R Ind : Q) : M problem :=
    do problem <- start params ["h"; "eta"; "rho"];
    do (fs, f) <- define_loop mu L n_func [] None;
    do (x_star, y_star, f_star) <- stationary_of f;
    do ys_star <- oracle_loop fs x_star;
    do problem <- add_equality problem (sq (sum_points ys_star -. y_star));
    do (is_, last) <- init_currents (n_func - 1) None;
    do e_1 <- set_initial_point;
    match last with
    | None => raise TypeError
    | Some l =>
    let i_Ls_1 := (is_ ++ [l])%list in
    let nf := inject_Z (Z.of_nat n_func) in
    let zs_1 := map (fun i => N R *. i +. e_1) i_Ls_1 in
    do (xs_1, gs_1, fs_1) <- prox_loop fs zs_1 R;
    let sum_x := sum_points xs_1 in
    let i_Ls_2 := zip_with (fun i x => i +. (s_h /s Ind) *. (e_1 -. x)) i_Ls_1 xs_1 in
    let sum_xi_1 := sum_x /. nf in
    do problem <- add_equality problem (sq (e_1 -. sum_xi_1));
    let E_1 := sum_from_zero (zip_with (fun i y => N (Qred (Ind / 2)) *: sq (i -. y)) i_Ls_1 ys_star) in
    let E_2 := sum_from_zero (zip_with (fun i y => N (Qred (Ind / 2)) *: sq (i -. y)) i_Ls_2 ys_star) in
    let Delta_1 := sum_from (sneg s_eta *: f_star)
                     (zip4 (fun xg f i y => (s_rho *s N R) *: sq (snd xg -. i) +: s_eta *: (f -: y ** (fst xg -. x_star)))
                        (combine xs_1 gs_1) fs_1 i_Ls_1 ys_star) in
    ret (set_performance_metric problem (E_2 -: (E_1 -: Delta_1)))
    end.

  (** classical_central_vi.py:591-627; [rho = 1 / R] replaces the symbol *)
  Definition admm_consensus_proof (mu : Q) (L : extq) (R : Q) : M problem :=
    do problem <- start params ["h"; "eta"; "rho"];
    let rho := Qred (/ R) in
    let irho := Qred (/ rho) in
    do f <- def_function mu L;
    do g <- def_function mu L;
    do func <- fn_add f g;
    do (x_star, y_star, func_star) <- stationary_point func;
    do (y1_star, _) <- oracle f x_star;
    let y2_star := y_star -. y1_star in
    do z1 <- set_initial_point;
    do y1_1 <- set_initial_point;
    let y2_1 := pneg SY y1_1 in
    do (x1_2, grad_f_2, f_2) <- proximal_step (z1 -. N irho *. y1_1) f (N irho);
    do (x2_2, grad_g_2, g_2) <- proximal_step (z1 -. N irho *. y2_1) g (N irho);
    let z2 := (x1_2 +. x2_2) /. 2 in
    let y1_2 := y1_1 -. (s_h *s N rho) *. (z2 -. x1_2) in
    let y2_2 := y2_1 -. (s_h *s N rho) *. (z2 -. x2_2) in
    let E_1 := N irho *: sq (y1_1 +. y1_star) +: N irho *: sq (y2_1 +. y2_star) +: N (Qred (2 * rho)) *: sq (z1 -. x_star) in
    let E_2 := N irho *: sq (y1_2 +. y1_star) +: N irho *: sq (y2_2 +. y2_star) +: N (Qred (2 * rho)) *: sq (z2 -. x_star) in
    let Delta_1 := s_eta *: (N rho *: sq (x1_2 -. z2) +: N rho *: sq (x2_2 -. z2))
                   +: N (Qred (rho * rho)) *: sq (z1 -. z2) in
    ret (set_performance_metric problem (E_2 -: (E_1 -: Delta_1))).

  (** classical_decentral_vi.py:14-63 *)
  Definition decentralized_gradient_descent_line3 (mu : Q) (L : extq) (R C : Q) : M problem :=
    do problem <- start params ["h"; "alpha"; "beta"; "eta"; "rho"];
    do f1 <- def_function mu L;
    do f2 <- def_function mu L;
    do f3 <- def_function mu L;
    do x2_star <- set_initial_point;
    do (y2_star, f2_star) <- oracle f2 x2_star;
    do (x1_star, y1_star, f1_star) <- proximal_step x2_star f1 (N R);
    do (x3_star, y3_star, f3_star) <- proximal_step x2_star f3 (N R);
    do (x2_star_v2, y2_star_v2, f2_star_v2) <- proximal_step ((x1_star +. x3_star) /. 2) f2 (N (Qred (R / 2)));
    do problem <- add_equality problem (sq (x2_star -. x2_star_v2));
    do x1_1 <- set_initial_point;
    do (y1_1, _) <- oracle f1 x1_1;
    do x2_1 <- set_initial_point;
    do (y2_1, _) <- oracle f2 x2_1;
    do x3_1 <- set_initial_point;
    do (y3_1, _) <- oracle f3 x3_1;
    let x1_2 := x1_1 -. (s_h /s C) *. (y1_1 +. (x1_1 -. x2_1) /. R) in
    do (y1_2, f1_2) <- oracle f1 x1_2;
    let x2_2 := x2_1 -. (s_h /s C) *. (y2_1 +. (x2_1 -. x1_1 +. x2_1 -. x3_1) /. R) in
    do (y2_2, f2_2) <- oracle f2 x2_2;
    let x3_2 := x3_1 -. (s_h /s C) *. (y3_1 +. (x3_1 -. x2_1) /. R) in
    do (y3_2, f3_2) <- oracle f3 x3_2;
    let E_1 := N (Qred (C / 2)) *: (sq (x1_1 -. x1_star) +: sq (x2_1 -. x2_star) +: sq (x3_1 -. x3_star)) in
    let E_2 := N (Qred (C / 2)) *: (sq (x1_2 -. x1_star) +: sq (x2_2 -. x2_star) +: sq (x3_2 -. x3_star)) in
    let Delta_2 := (s_rho *s N (Qred (/ R))) *: (sq (x1_2 -. x2_2 -. (x1_star -. x2_star)) +: sq (x3_2 -. x2_2 -. (x3_star -. x2_star)))
                   +: s_eta *: ((x1_2 -. x1_star) ** (y1_2 -. y1_star) +: (x2_2 -. x2_star) ** (y2_2 -. y2_star)
                                +: (x3_2 -. x3_star) ** (y3_2 -. y3_star)) in
    ret (set_performance_metric problem (E_2 -: (E_1 -: Delta_2))).

  (** classical_decentral_vi.py:66-131 *)
  Definition diffusion_line3 (mu : Q) (L : extq) (R C : Q) : M problem :=
    do problem <- start params ["h"; "alpha"; "beta"; "eta"; "rho"];
    do f1 <- def_function mu L;
    do f2 <- def_function mu L;
    do f3 <- def_function mu L;
    do x1_star <- set_initial_point;
    do x2_star <- set_initial_point;
    do x3_star <- set_initial_point;
    do (y1_star, f1_star) <- oracle f1 x1_star;
    do (y2_star, f2_star) <- oracle f2 x2_star;
    do (y3_star, f3_star) <- oracle f3 x3_star;
    let e1_star := x1_star -. N R *. y1_star in
    let e2_star := x2_star -. N R *. y2_star in
    let e3_star := x3_star -. N R *. y3_star in
    let R3 := Qred (3 * R) in
    let i3R := Qred (/ R3) in
    do problem <- add_equality problem (sq ((e1_star -. N 2 *. e2_star +. e3_star) /. R3 -. y2_star));
    do problem <- add_equality problem (sq ((e2_star -. e1_star) /. R3 -. y1_star));
    do problem <- add_equality problem (sq ((e2_star -. e3_star) /. R3 -. y3_star));
    do x1_1 <- set_initial_point;
    do (y1_1, _) <- oracle f1 x1_1;
    do x2_1 <- set_initial_point;
    do (y2_1, _) <- oracle f2 x2_1;
    do x3_1 <- set_initial_point;
    do (y3_1, _) <- oracle f3 x3_1;
    let e1_1 := x1_1 -. N R *. y1_1 in
    let e2_1 := x2_1 -. N R *. y2_1 in
    let e3_1 := x3_1 -. N R *. y3_1 in
    let x1_2 := x1_1 -. (s_h /s C) *. (y1_1 +. N i3R *. ((x1_1 -. N R *. y1_1) -. (x2_1 -. N R *. y2_1))) in
    do (y1_2, f1_2) <- oracle f1 x1_2;
    let x2_2 := x2_1 -. (s_h /s C) *. (y2_1 +. N i3R *. (N 2 *. (x2_1 -. N R *. y2_1) -. (x1_1 -. N R *. y1_1) -. (x3_1 -. N R *. y3_1))) in
    do (y2_2, f2_2) <- oracle f2 x2_2;
    let x3_2 := x3_1 -. (s_h /s C) *. (y3_1 +. N i3R *. ((x3_1 -. N R *. y3_1) -. (x2_1 -. N R *. y2_1))) in
    do (y3_2, f3_2) <- oracle f3 x3_2;
    let e1_2 := x1_2 -. N R *. y1_2 in
    let e2_2 := x2_2 -. N R *. y2_2 in
    let e3_2 := x3_2 -. N R *. y3_2 in
    let E_1 := N (Qred (C / 2)) *: (sq (e1_1 -. e1_star) +: sq (e2_1 -. e2_star) +: sq (e3_1 -. e3_star)) in
    let E_2 := N (Qred (C / 2)) *: (sq (e1_2 -. e1_star) +: sq (e2_2 -. e2_star) +: sq (e3_2 -. e3_star)) in
    let Delta_1 := (s_rho *s N i3R) *: (sq (e1_1 -. e2_1 -. (e1_star -. e2_star)) +: sq (e3_1 -. e2_1 -. (e3_star -. e2_star)))
                   +: (s_eta *s N (Qred (inv_ext L - R))) *: (sq (y1_1 -. y1_star) +: sq (y2_1 -. y2_star) +: sq (y3_1 -. y3_star)) in
    ret (set_performance_metric problem (E_2 -: (E_1 -: Delta_1))).

  (** classical_decentral_vi.py:134-216; [W] is indexed W[i][j] *)
  Definition pg_extra_l3 (mu : Q) (Lh Lf : extq) (R : Q) (W : nat -> nat -> Q) : M problem :=
    do problem <- start params ["h"; "alpha"; "beta"; "eta"; "rho"; "gamma"];
    do f1 <- def_function mu Lf;
    do f2 <- def_function mu Lf;
    do f3 <- def_function mu Lf;
    do h1 <- def_function mu Lh;
    do h2 <- def_function mu Lh;
    do h3 <- def_function mu Lh;
    do s1 <- fn_add f1 f2; do s2 <- fn_add s1 f3; do s3 <- fn_add s2 h1; do s4 <- fn_add s3 h2; do s5 <- fn_add s4 h3;
    do (x_star, y_star, f_star) <- stationary_point s5;
    do (y_f1_star, f1_star) <- oracle f1 x_star;
    do (y_f2_star, f2_star) <- oracle f2 x_star;
    do (y_f3_star, f3_star) <- oracle f3 x_star;
    do (y_h1_star, h1_star) <- oracle h1 x_star;
    do (y_h2_star, h2_star) <- oracle h2 x_star;
    do (y_h3_star, h3_star) <- oracle h3 x_star;
    let i_L_12_star := pneg SY y_f1_star -. y_h1_star in
    let i_L_23_star := y_f3_star +. y_h3_star in
    do problem <- add_equality problem
      (sq (y_f1_star +. y_f2_star +. y_f3_star +. y_h1_star +. y_h2_star +. y_h3_star -. y_star));
    do x1_1 <- set_initial_point;
    do x2_1 <- set_initial_point;
    do x3_1 <- set_initial_point;
    do (y_f1_1, f1_1) <- oracle f1 x1_1;
    do (y_f2_1, f2_1) <- oracle f2 x2_1;
    do (y_f3_1, f3_1) <- oracle f3 x3_1;
    do (y_h1_1, h1_1) <- oracle h1 x1_1;
    do (y_h2_1, h2_1) <- oracle h2 x2_1;
    do (y_h3_1, h3_1) <- oracle h3 x3_1;
    do i_L_12_1 <- set_initial_point;
    do i_L_23_1 <- set_initial_point;
    let e1_1 := N (W 0 0)%nat *. x1_1 +. N (W 0 1)%nat *. x2_1 +. N (W 0 2)%nat *. x3_1 -. N R *. y_h1_1 -. N R *. i_L_12_1 in
    let e2_1 := N (W 1 0)%nat *. x1_1 +. N (W 1 1)%nat *. x2_1 +. N (W 1 2)%nat *. x3_1 -. N R *. y_h2_1 +. N R *. i_L_12_1 -. N R *. i_L_23_1 in
    let e3_1 := N (W 2 0)%nat *. x1_1 +. N (W 2 1)%nat *. x2_1 +. N (W 2 2)%nat *. x3_1 -. N R *. y_h3_1 +. N R *. i_L_23_1 in
    do (x1_2, y_f1_2, f1_2) <- proximal_step e1_1 f1 (N R);
    do (x2_2, y_f2_2, f2_2) <- proximal_step e2_1 f2 (N R);
    do (x3_2, y_f3_2, f3_2) <- proximal_step e3_1 f3 (N R);
    let R_12 := Qred (R / W 0%nat 1%nat) in
    let R_23 := Qred (R / W 1%nat 2%nat) in
    let L_12 := R_12 in let L_23 := R_23 in
    let i_L_12_2 := i_L_12_1 +. (s_h /s R_12) *. (x1_1 -. x2_1) in
    let i_L_23_2 := i_L_23_1 +. (s_h /s R_23) *. (x2_1 -. x3_1) in
    let i_L_12_3 := i_L_12_2 +. (s_h /s R_12) *. (x1_2 -. x2_2) in
    let i_L_23_3 := i_L_23_2 +. (s_h /s R_23) *. (x2_2 -. x3_2) in
    let E_1 := s_gamma *: (sq (x1_1 -. x_star) +: sq (x2_1 -. x_star) +: sq (x3_1 -. x_star))
               +: N (Qred (L_12 / 2)) *: sq (i_L_12_2 -. i_L_12_star) +: N (Qred (L_23 / 2)) *: sq (i_L_23_2 -. i_L_23_star) in
    let E_2 := s_gamma *: (sq (x1_2 -. x_star) +: sq (x2_2 -. x_star) +: sq (x3_2 -. x_star))
               +: N (Qred (L_12 / 2)) *: sq (i_L_12_3 -. i_L_12_star) +: N (Qred (L_23 / 2)) *: sq (i_L_23_3 -. i_L_23_star) in
    let Delta_2 := s_eta *: ((y_f1_2 -. y_f1_star) ** (x1_2 -. x_star) +: (y_f2_2 -. y_f2_star) ** (x2_2 -. x_star)
                             +: (y_f3_2 -. y_f3_star) ** (x3_2 -. x_star))
                   +: s_rho *: ((y_h1_1 -. y_h1_star) ** (x1_1 -. x_star) +: (y_h2_1 -. y_h2_star) ** (x2_1 -. x_star)
                             +: (y_h3_1 -. y_h3_star) ** (x3_1 -. x_star)) in
    ret (set_performance_metric problem (E_2 -: (E_1 -: Delta_2))).

  (** [fi_2 - fi_star - yi_star * (xi_2 - x_star)]: in Python the terms of the
      different i are added left to right without parentheses *)

  (** classical_decentral_vi.py:219-299 *)
  Definition decentralized_admm_consensus_l3 (mu : Q) (L : extq) (R Ind : Q) : M problem :=
    do problem <- start params ["h"; "alpha"; "beta"; "eta"; "rho"; "gamma"];
    do f1 <- def_function mu L;
    do f2 <- def_function mu L;
    do f3 <- def_function mu L;
    do s1 <- fn_add f1 f2; do s2 <- fn_add s1 f3;
    do (x_star, y_star, f_star) <- stationary_point s2;
    do (y1_star, f1_star) <- oracle f1 x_star;
    do (y2_star, f2_star) <- oracle f2 x_star;
    do (y3_star, f3_star) <- oracle f3 x_star;
    do y2_21_star <- set_initial_point;
    let y2_23_star := y2_star -. y2_21_star in
    do problem <- add_equality problem (sq (y1_star +. y2_star +. y3_star -. y_star));
    do problem <- add_equality problem (sq (y2_21_star +. y1_star));
    do problem <- add_equality problem (sq (y2_23_star +. y3_star));
    do e_12_1 <- set_initial_point;
    do e_23_1 <- set_initial_point;
    do i_L_12n1_1 <- set_initial_point;
    do i_L_23n2_1 <- set_initial_point;
    let mR := Qred (- R) in
    do (x1_1p5, y1_1p5, f1_1p5) <- proximal_step (N R *. i_L_12n1_1 +. e_12_1) f1 (N R);
    do (x2_1p5, y2_1p5, f2_1p5) <- proximal_step
      (((N mR *. i_L_12n1_1 +. e_12_1) +. (N R *. i_L_23n2_1 +. e_23_1)) /. 2) f2 (N (Qred (R / 2)));
    do (x3_1p5, y3_1p5, f3_1p5) <- proximal_step (N mR *. i_L_23n2_1 +. e_23_1) f3 (N R);
    let e_12_1p5 := (x1_1p5 +. x2_1p5) /. 2 in
    let e_23_1p5 := (x2_1p5 +. x3_1p5) /. 2 in
    let i_L_12n1_1p5 := i_L_12n1_1 +. (s_alpha *s s_h /s Ind) *. (e_12_1p5 -. x1_1p5) in
    let i_L_23n2_1p5 := i_L_23n2_1 +. (s_alpha *s s_h /s Ind) *. (e_23_1p5 -. x2_1p5) in
    do (x1_2, y1_2, f1_2) <- proximal_step (N R *. i_L_12n1_1p5 +. e_12_1p5) f1 (N R);
    do (x2_2, y2_2, f2_2) <- proximal_step
      (((N mR *. i_L_12n1_1p5 +. e_12_1p5) +. (N R *. i_L_23n2_1p5 +. e_23_1p5)) /. 2) f2 (N (Qred (R / 2)));
    do (x3_2, y3_2, f3_2) <- proximal_step (N mR *. i_L_23n2_1p5 +. e_23_1p5) f3 (N R);
    let e_12_2 := (x1_2 +. x2_2) /. 2 in
    let e_23_2 := (x2_2 +. x3_2) /. 2 in
    let i_L_12n1_2 := i_L_12n1_1 +. (s_beta *s s_h /s Ind) *. (e_12_1p5 -. x1_1p5)
                      +. (1-beta *s s_h /s Ind) *. (e_12_2 -. x1_2) in
    let i_L_23n2_2 := i_L_23n2_1 +. (s_beta *s s_h /s Ind) *. (e_23_1p5 -. x2_1p5)
                      +. (1-beta *s s_h /s Ind) *. (e_23_2 -. x2_2) in
    let L2 := Qred (Ind / 2) in
    let E_1 := s_gamma *: sq (e_12_1 -. x_star) +: s_gamma *: sq (e_23_1 -. x_star)
               +: N L2 *: sq (i_L_12n1_1 -. y1_star) +: N L2 *: sq (pneg SY i_L_12n1_1 -. y2_21_star)
               +: N L2 *: sq (i_L_23n2_1 -. y2_23_star) +: N L2 *: sq (pneg SY i_L_23n2_1 -. y3_star) in
    let E_2 := s_gamma *: sq (e_12_2 -. x_star) +: s_gamma *: sq (e_23_2 -. x_star)
               +: N L2 *: sq (i_L_12n1_2 -. y1_star) +: N L2 *: sq (pneg SY i_L_12n1_2 -. y2_21_star)
               +: N L2 *: sq (i_L_23n2_2 -. y2_23_star) +: N L2 *: sq (pneg SY i_L_23n2_2 -. y3_star) in
    let Delta_2 := (s_rho *s N (Qred (/ R))) *: (sq (e_12_2 -. x1_2) +: sq (e_12_2 -. x2_2)
                                              +: sq (e_23_2 -. x2_2) +: sq (e_23_2 -. x3_2))
                   +: s_eta *: (f1_2 -: f1_star -: y1_star ** (x1_2 -. x_star)
                             +: f2_2 -: f2_star -: y2_star ** (x2_2 -. x_star)
                             +: f3_2 -: f3_star -: y3_star ** (x3_2 -. x_star)) in
    ret (set_performance_metric problem (E_2 -: (E_1 -: Delta_2))).

  (** classical_decentral_vi.py:302-386 *)
  Definition decentralized_admm_cycle4 (mu : Q) (L : extq) (R Ind : Q) : M problem :=
    do problem <- start params ["h"; "eta"; "rho"; "gamma"];
    do f1 <- def_function mu L;
    do f2 <- def_function mu L;
    do f3 <- def_function mu L;
    do f4 <- def_function mu L;
    do s1 <- fn_add f1 f2; do s2 <- fn_add s1 f3; do s3 <- fn_add s2 f4;
    do (x_star, y_star, f_star) <- stationary_point s3;
    do (y1_star, f1_star) <- oracle f1 x_star;
    do (y2_star, f2_star) <- oracle f2 x_star;
    do (y3_star, f3_star) <- oracle f3 x_star;
    do (y4_star, f4_star) <- oracle f4 x_star;
    do problem <- add_equality problem (sq (y1_star +. y2_star +. y3_star +. y4_star -. y_star));
    do y1_12_star <- set_initial_point;
    let y1_14_star := y1_star -. y1_12_star in
    let y2_23_star := y2_star +. y1_12_star in
    let y3_34_star := y3_star +. y2_23_star in
    do problem <- add_equality problem (sq (y1_14_star +. y3_34_star +. y4_star));
    do e_12_1 <- set_initial_point;
    do e_23_1 <- set_initial_point;
    do e_34_1 <- set_initial_point;
    do e_41_1 <- set_initial_point;
    do i_L_12_1 <- set_initial_point;
    do i_L_23_1 <- set_initial_point;
    do i_L_34_1 <- set_initial_point;
    do i_L_41_1 <- set_initial_point;
    let mR := Qred (- R) in
    let R2 := Qred (R / 2) in
    do (x1_2, y1_2, f1_2) <- proximal_step (N (1 # 2) *. ((N R *. i_L_12_1 +. e_12_1) +. (N mR *. i_L_41_1 +. e_41_1))) f1 (N R2);
    do (x2_2, y2_2, f2_2) <- proximal_step (N (1 # 2) *. ((N mR *. i_L_12_1 +. e_12_1) +. (N R *. i_L_23_1 +. e_23_1))) f2 (N R2);
    do (x3_2, y3_2, f3_2) <- proximal_step (N (1 # 2) *. ((N mR *. i_L_23_1 +. e_23_1) +. (N R *. i_L_34_1 +. e_34_1))) f3 (N R2);
    do (x4_2, y4_2, f4_2) <- proximal_step (N (1 # 2) *. ((N R *. i_L_41_1 +. e_41_1) +. (N mR *. i_L_34_1 +. e_34_1))) f4 (N R2);
    let e_12_2 := (x1_2 +. x2_2) /. 2 in
    let e_23_2 := (x2_2 +. x3_2) /. 2 in
    let e_34_2 := (x3_2 +. x4_2) /. 2 in
    let e_41_2 := (x4_2 +. x1_2) /. 2 in
    let i_L_12_2 := i_L_12_1 +. (s_h /s Ind) *. (e_12_2 -. x1_2) in
    let i_L_23_2 := i_L_23_1 +. (s_h /s Ind) *. (e_23_2 -. x2_2) in
    let i_L_34_2 := i_L_34_1 +. (s_h /s Ind) *. (e_34_2 -. x3_2) in
    let i_L_41_2 := i_L_41_1 +. (s_h /s Ind) *. (e_41_2 -. x4_2) in
    let E_1 := s_gamma *: (sq (e_12_1 -. x_star) +: sq (e_23_1 -. x_star) +: sq (e_34_1 -. x_star) +: sq (e_41_1 -. x_star))
               +: N Ind *: sq (i_L_12_1 -. y1_12_star) +: N Ind *: sq (i_L_23_1 -. y2_23_star)
               +: N Ind *: sq (i_L_34_1 -. y3_34_star) +: N Ind *: sq (i_L_41_1 +. y1_14_star) in
    let E_2 := s_gamma *: (sq (e_12_2 -. x_star) +: sq (e_23_2 -. x_star) +: sq (e_34_2 -. x_star) +: sq (e_41_2 -. x_star))
               +: N Ind *: sq (i_L_12_2 -. y1_12_star) +: N Ind *: sq (i_L_23_2 -. y2_23_star)
               +: N Ind *: sq (i_L_34_2 -. y3_34_star) +: N Ind *: sq (i_L_41_2 +. y1_14_star) in
    let Delta_2 := (s_rho *s N (Qred (2 / R))) *: (sq (e_12_2 -. x1_2) +: sq (e_23_2 -. x2_2)
                                                +: sq (e_34_2 -. x4_2) +: sq (e_41_2 -. x1_2))
                   +: s_eta *: (f1_2 -: f1_star -: y1_star ** (x1_2 -. x_star)
                             +: f2_2 -: f2_star -: y2_star ** (x2_2 -. x_star)
                             +: f3_2 -: f3_star -: y3_star ** (x3_2 -. x_star)
                             +: f4_2 -: f4_star -: y4_star ** (x4_2 -. x_star)) in
    ret (set_performance_metric problem (E_2 -: (E_1 -: Delta_2))).

  (** classical_decentral_vi.py:389-501 *)
  Definition decentralized_admm_graph6 (mu : Q) (L : extq) (R Ind : Q) : M problem :=
    do problem <- start params ["h"; "eta"; "rho"; "gamma"];
    do f1 <- def_function mu L;
    do f2 <- def_function mu L;
    do f3 <- def_function mu L;
    do f4 <- def_function mu L;
    do f5 <- def_function mu L;
    do f6 <- def_function mu L;
    do s1 <- fn_add f1 f2; do s2 <- fn_add s1 f3; do s3 <- fn_add s2 f4; do s4 <- fn_add s3 f5; do s5 <- fn_add s4 f6;
    do (x_star, y_star, f_star) <- stationary_point s5;
    do (y1_star, f1_star) <- oracle f1 x_star;
    do (y2_star, f2_star) <- oracle f2 x_star;
    do (y3_star, f3_star) <- oracle f3 x_star;
    do (y4_star, f4_star) <- oracle f4 x_star;
    do (y5_star, f5_star) <- oracle f5 x_star;
    do (y6_star, f6_star) <- oracle f6 x_star;
    do problem <- add_equality problem
      (sq (y1_star +. y2_star +. y3_star +. y4_star +. y5_star +. y6_star -. y_star));
    do y1_12_star <- set_initial_point;
    let y1_13_star := y1_star -. y1_12_star in
    do y2_23_star <- set_initial_point;
    let y2_24_star := y2_star +. y1_12_star -. y2_23_star in
    let y3_34_star := y3_star +. y1_13_star +. y2_23_star in
    do problem <- add_equality problem (sq (y2_24_star +. y3_34_star +. y5_star +. y6_star +. y4_star));
    do e_12_1 <- set_initial_point;
    do e_13_1 <- set_initial_point;
    do e_23_1 <- set_initial_point;
    do e_24_1 <- set_initial_point;
    do e_34_1 <- set_initial_point;
    do e_45_1 <- set_initial_point;
    do e_46_1 <- set_initial_point;
    do i_L_12_1 <- set_initial_point;
    do i_L_13_1 <- set_initial_point;
    do i_L_23_1 <- set_initial_point;
    do i_L_24_1 <- set_initial_point;
    do i_L_34_1 <- set_initial_point;
    do i_L_45_1 <- set_initial_point;
    do i_L_46_1 <- set_initial_point;
    let mR := Qred (- R) in
    do (x1_2, y1_2, f1_2) <- proximal_step (N (1 # 2) *. ((N R *. i_L_12_1 +. e_12_1) +. (N R *. i_L_13_1 +. e_13_1)))
      f1 (N (Qred (R / 2)));
    do (x2_2, y2_2, f2_2) <- proximal_step (N (1 # 3) *. ((N mR *. i_L_12_1 +. e_12_1) +. (N R *. i_L_23_1 +. e_23_1)
                                                      +. (N R *. i_L_24_1 +. e_24_1))) f2 (N (Qred (R / 3)));
    do (x3_2, y3_2, f3_2) <- proximal_step (N (1 # 3) *. ((N mR *. i_L_13_1 +. e_13_1) +. (N mR *. i_L_23_1 +. e_23_1)
                                                      +. (N R *. i_L_34_1 +. e_34_1))) f3 (N (Qred (R / 3)));
    do (x4_2, y4_2, f4_2) <- proximal_step (N (1 # 4) *. ((N mR *. i_L_24_1 +. e_24_1) +. (N mR *. i_L_34_1 +. e_34_1)
                                                      +. (N R *. i_L_45_1 +. e_45_1) +. (N R *. i_L_46_1 +. e_46_1)))
      f4 (N (Qred (R / 4)));
    do (x5_2, y5_2, f5_2) <- proximal_step (N mR *. i_L_45_1 +. e_45_1) f5 (N R);
    do (x6_2, y6_2, f6_2) <- proximal_step (N mR *. i_L_46_1 +. e_46_1) f6 (N R);
    let e_12_2 := (x1_2 +. x2_2) /. 2 in
    let e_13_2 := (x1_2 +. x3_2) /. 2 in
    let e_23_2 := (x2_2 +. x3_2) /. 2 in
    let e_24_2 := (x2_2 +. x4_2) /. 2 in
    let e_34_2 := (x3_2 +. x4_2) /. 2 in
    let e_45_2 := (x4_2 +. x5_2) /. 2 in
    let e_46_2 := (x4_2 +. x6_2) /. 2 in
    let i_L_12_2 := i_L_12_1 +. (s_h /s Ind) *. (e_12_2 -. x1_2) in
    let i_L_13_2 := i_L_13_1 +. (s_h /s Ind) *. (e_13_2 -. x1_2) in
    let i_L_23_2 := i_L_23_1 +. (s_h /s Ind) *. (e_23_2 -. x2_2) in
    let i_L_24_2 := i_L_24_1 +. (s_h /s Ind) *. (e_24_2 -. x2_2) in
    let i_L_34_2 := i_L_34_1 +. (s_h /s Ind) *. (e_34_2 -. x3_2) in
    let i_L_45_2 := i_L_45_1 +. (s_h /s Ind) *. (e_45_2 -. x4_2) in
    let i_L_46_2 := i_L_46_1 +. (s_h /s Ind) *. (e_46_2 -. x4_2) in
    let E_1 := s_gamma *: (sq (e_12_1 -. x_star) +: sq (e_13_1 -. x_star) +: sq (e_23_1 -. x_star) +: sq (e_24_1 -. x_star)
                        +: sq (e_34_1 -. x_star) +: sq (e_45_1 -. x_star) +: sq (e_46_1 -. x_star))
               +: N Ind *: sq (i_L_12_1 -. y1_12_star) +: N Ind *: sq (i_L_13_1 -. y1_13_star)
               +: N Ind *: sq (i_L_23_1 -. y2_23_star) +: N Ind *: sq (i_L_24_1 -. y2_24_star)
               +: N Ind *: sq (i_L_34_1 -. y3_34_star) +: N Ind *: sq (i_L_45_1 +. y5_star)
               +: N Ind *: sq (i_L_46_1 +. y6_star) in
    let E_2 := s_gamma *: (sq (e_12_2 -. x_star) +: sq (e_13_2 -. x_star) +: sq (e_23_2 -. x_star) +: sq (e_24_2 -. x_star)
                        +: sq (e_34_2 -. x_star) +: sq (e_45_2 -. x_star) +: sq (e_46_2 -. x_star))
               +: N Ind *: sq (i_L_12_2 -. y1_12_star) +: N Ind *: sq (i_L_13_2 -. y1_13_star)
               +: N Ind *: sq (i_L_23_2 -. y2_23_star) +: N Ind *: sq (i_L_24_2 -. y2_24_star)
               +: N Ind *: sq (i_L_34_2 -. y3_34_star) +: N Ind *: sq (i_L_45_2 +. y5_star)
               +: N Ind *: sq (i_L_46_2 +. y6_star) in
    let Delta_2 := (s_rho *s N (Qred (2 / R))) *: (sq (e_12_2 -. x1_2) +: sq (e_13_2 -. x3_2)
                        +: sq (e_23_2 -. x2_2) +: sq (e_24_2 -. x2_2)
                        +: sq (e_34_2 -. x4_2) +: sq (e_45_2 -. x5_2) +: sq (e_46_2 -. x6_2))
                   +: s_eta *: (f1_2 -: f1_star -: y1_star ** (x1_2 -. x_star)
                             +: f2_2 -: f2_star -: y2_star ** (x2_2 -. x_star)
                             +: f3_2 -: f3_star -: y3_star ** (x3_2 -. x_star)
                             +: f4_2 -: f4_star -: y4_star ** (x4_2 -. x_star)
                             +: f5_2 -: f5_star -: y5_star ** (x5_2 -. x_star)
                             +: f6_2 -: f6_star -: y6_star ** (x6_2 -. x_star)) in
    ret (set_performance_metric problem (E_2 -: (E_1 -: Delta_2))).

  (** new_algorithms_vi.py:16-138; [mus] and [L_smooths] are used at positions 0 and 1 *)
  Definition dadmm_C_graph6 (mu0 mu1 : Q) (L0 L1 : extq) (R C Ind : Q) : M problem :=
    do problem <- start params ["h"; "eta"; "rho"; "gamma"];
    do f1 <- def_function mu0 L0;
    do f2 <- def_function mu0 L0;
    do f3 <- def_function mu0 L0;
    do f4 <- def_function mu1 L1;
    do f5 <- def_function mu1 L1;
    do f6 <- def_function mu0 L0;
    do s1 <- fn_add f1 f2; do s2 <- fn_add s1 f3; do s3 <- fn_add s2 f4; do s4 <- fn_add s3 f5; do s5 <- fn_add s4 f6;
    do (x_star, y_star, f_star) <- stationary_point s5;
    do (y1_star, f1_star) <- oracle f1 x_star;
    do (y2_star, f2_star) <- oracle f2 x_star;
    do (y3_star, f3_star) <- oracle f3 x_star;
    do (y4_star, f4_star) <- oracle f4 x_star;
    do (y5_star, f5_star) <- oracle f5 x_star;
    do (y6_star, f6_star) <- oracle f6 x_star;
    do problem <- add_equality problem
      (sq (y1_star +. y2_star +. y3_star +. y4_star +. y5_star +. y6_star -. y_star));
    do y1_12_star <- set_initial_point;
    let y1_13_star := y1_star -. y1_12_star in
    do y2_23_star <- set_initial_point;
    let y2_24_star := y2_star +. y1_12_star -. y2_23_star in
    let y3_34_star := y3_star +. y1_13_star +. y2_23_star in
    do problem <- add_equality problem (sq (y2_24_star +. y3_34_star +. y5_star +. y6_star +. y4_star));
    do e_12_1 <- set_initial_point;
    do e_13_1 <- set_initial_point;
    do e_23_1 <- set_initial_point;
    do e_24_1 <- set_initial_point;
    do e_34_1 <- set_initial_point;
    do e_45_1 <- set_initial_point;
    do e_46_1 <- set_initial_point;
    do i_L_12_1 <- set_initial_point;
    do i_L_13_1 <- set_initial_point;
    do i_L_23_1 <- set_initial_point;
    do i_L_24_1 <- set_initial_point;
    do i_L_34_1 <- set_initial_point;
    do i_L_45_1 <- set_initial_point;
    do i_L_54_1 <- set_initial_point;
    do i_L_46_1 <- set_initial_point;
    let mR := Qred (- R) in
    do (x1_2, y1_2, f1_2) <- proximal_step (N (1 # 2) *. ((N R *. i_L_12_1 +. e_12_1) +. (N R *. i_L_13_1 +. e_13_1)))
      f1 (N (Qred (R / 2)));
    do (x2_2, y2_2, f2_2) <- proximal_step (N (1 # 3) *. ((N mR *. i_L_12_1 +. e_12_1) +. (N R *. i_L_23_1 +. e_23_1)
                                                      +. (N R *. i_L_24_1 +. e_24_1))) f2 (N (Qred (R / 3)));
    do (x3_2, y3_2, f3_2) <- proximal_step (N (1 # 3) *. ((N mR *. i_L_13_1 +. e_13_1) +. (N mR *. i_L_23_1 +. e_23_1)
                                                      +. (N R *. i_L_34_1 +. e_34_1))) f3 (N (Qred (R / 3)));
    do (x4_2, y4_2, f4_2) <- proximal_step (N (1 # 4) *. ((N mR *. i_L_24_1 +. e_24_1) +. (N mR *. i_L_34_1 +. e_34_1)
                                                      +. (N R *. i_L_45_1 +. e_45_1) +. (N R *. i_L_46_1 +. e_46_1)))
      f4 (N (Qred (R / 4)));
    do (x5_2, y5_2, f5_2) <- proximal_step (N R *. i_L_54_1 +. e_45_1) f5 (N R);
    do (x6_2, y6_2, f6_2) <- proximal_step (N mR *. i_L_46_1 +. e_46_1) f6 (N R);
    let e_12_2 := (x1_2 +. x2_2) /. 2 in
    let e_13_2 := (x1_2 +. x3_2) /. 2 in
    let e_23_2 := (x2_2 +. x3_2) /. 2 in
    let e_24_2 := (x2_2 +. x4_2) /. 2 in
    let e_34_2 := (x3_2 +. x4_2) /. 2 in
    let e_45_2 := e_45_1 -. (s_h /s C) *. (i_L_45_1 +. i_L_54_1 +. (N 2 *. e_45_1 -. x4_2 -. x5_2) /. R) in
    let e_46_2 := (x4_2 +. x6_2) /. 2 in
    let i_L_12_2 := i_L_12_1 +. (s_h /s Ind) *. (e_12_2 -. x1_2) in
    let i_L_13_2 := i_L_13_1 +. (s_h /s Ind) *. (e_13_2 -. x1_2) in
    let i_L_23_2 := i_L_23_1 +. (s_h /s Ind) *. (e_23_2 -. x2_2) in
    let i_L_24_2 := i_L_24_1 +. (s_h /s Ind) *. (e_24_2 -. x2_2) in
    let i_L_34_2 := i_L_34_1 +. (s_h /s Ind) *. (e_34_2 -. x3_2) in
    let i_L_45_2 := i_L_45_1 +. (s_h /s Ind) *. (e_45_2 -. x4_2) in
    let i_L_54_2 := i_L_54_1 +. (s_h /s Ind) *. (e_45_2 -. x5_2) in
    let i_L_46_2 := i_L_46_1 +. (s_h /s Ind) *. (e_46_2 -. x4_2) in
    let E_1 := s_gamma *: (sq (e_12_1 -. x_star) +: sq (e_13_1 -. x_star) +: sq (e_23_1 -. x_star) +: sq (e_24_1 -. x_star)
                        +: sq (e_34_1 -. x_star) +: sq (e_46_1 -. x_star))
               +: N Ind *: sq (i_L_12_1 -. y1_12_star) +: N Ind *: sq (i_L_13_1 -. y1_13_star)
               +: N Ind *: sq (i_L_23_1 -. y2_23_star) +: N Ind *: sq (i_L_24_1 -. y2_24_star)
               +: N Ind *: sq (i_L_34_1 -. y3_34_star)
               +: N (Qred (Ind / 2)) *: sq (i_L_45_1 +. y5_star) +: N (Qred (Ind / 2)) *: sq (i_L_54_1 -. y5_star)
               +: N Ind *: sq (i_L_46_1 +. y6_star)
               +: N (Qred (C / 2)) *: sq (e_45_1 -. x_star) in
    let E_2 := s_gamma *: (sq (e_12_2 -. x_star) +: sq (e_13_2 -. x_star) +: sq (e_23_2 -. x_star) +: sq (e_24_2 -. x_star)
                        +: sq (e_34_2 -. x_star) +: sq (e_46_2 -. x_star))
               +: N Ind *: sq (i_L_12_2 -. y1_12_star) +: N Ind *: sq (i_L_13_2 -. y1_13_star)
               +: N Ind *: sq (i_L_23_2 -. y2_23_star) +: N Ind *: sq (i_L_24_2 -. y2_24_star)
               +: N Ind *: sq (i_L_34_2 -. y3_34_star)
               +: N (Qred (Ind / 2)) *: sq (i_L_45_2 +. y5_star) +: N (Qred (Ind / 2)) *: sq (i_L_54_2 -. y5_star)
               +: N Ind *: sq (i_L_46_2 +. y6_star)
               +: N (Qred (C / 2)) *: sq (e_45_2 -. x_star) in
    let Delta_2 := s_rho *: (N (Qred (2 / R)) *: (sq (e_12_2 -. x1_2) +: sq (e_13_2 -. x3_2)
                        +: sq (e_23_2 -. x2_2) +: sq (e_24_2 -. x2_2)
                        +: sq (e_34_2 -. x4_2) +: sq (e_46_2 -. x6_2))
                      +: N (Qred (/ R)) *: (sq (e_45_2 -. x5_2) +: sq (e_45_2 -. x4_2)))
                   +: s_eta *: (f1_2 -: f1_star -: y1_star ** (x1_2 -. x_star)
                             +: f2_2 -: f2_star -: y2_star ** (x2_2 -. x_star)
                             +: f3_2 -: f3_star -: y3_star ** (x3_2 -. x_star)
                             +: f4_2 -: f4_star -: y4_star ** (x4_2 -. x_star)
                             +: f5_2 -: f5_star -: y5_star ** (x5_2 -. x_star)
                             +: f6_2 -: f6_star -: y6_star ** (x6_2 -. x_star)) in
    ret (set_performance_metric problem (E_2 -: (E_1 -: Delta_2))).

  (** new_algorithms_vi.py:144-188 *)
  Definition example_fC3RC_circuit (mu : Q) (L : extq) (C R : Q) : M problem :=
    do problem <- start params ["h"; "alpha"; "beta"; "eta"; "rho"];
    do func <- def_function mu L;
    do (x_star, y_star, f_star) <- stationary_point func;
    do z_1 <- set_initial_point;
    do e2_1 <- set_initial_point;
    let R2 := Qred (R / 2) in
    let iR2 := Qred (2 / R) in
    do (x_1, _, _) <- proximal_step z_1 func (N R2);
    let y_1 := N iR2 *. (z_1 -. x_1) in
    let d2 := Qred (2 * R * C) in
    let d4 := Qred (4 * R * C) in
    let R5 := Qred (5 * R) in
    let e2_1p5 := e2_1 -. (s_alpha *s s_h /s d2) *. (N R *. y_1 +. N 3 *. e2_1) in
    let z_1p5 := z_1 -. (s_alpha *s s_h /s d4) *. (N R5 *. y_1 +. N 3 *. e2_1) in
    do (x_1p5, _, _) <- proximal_step z_1p5 func (N R2);
    let y_1p5 := N iR2 *. (z_1p5 -. x_1p5) in
    let e2_2 := e2_1 -. (s_beta *s s_h /s d2) *. (N R *. y_1 +. N 3 *. e2_1)
                -. (1-beta *s s_h /s d2) *. (N R *. y_1p5 +. N 3 *. e2_1p5) in
    let z_2 := z_1 -. (s_beta *s s_h /s d4) *. (N R5 *. y_1 +. N 3 *. e2_1)
               -. (1-beta *s s_h /s d4) *. (N R5 *. y_1p5 +. N 3 *. e2_1p5) in
    do (x_2, _, _) <- proximal_step z_2 func (N R2);
    let y_2 := N iR2 *. (z_2 -. x_2) in
    let v_C1_1 := e2_1 /. 2 -. z_1 in
    let v_C1_2 := e2_2 /. 2 -. z_2 in
    let v_C2_1 := e2_1 in
    let v_C2_2 := e2_2 in
    let e1_1 := (e2_1 -. N R *. y_1) /. 2 in
    let E_1 := N (Qred (C / 2)) *: sq (v_C1_1 +. x_star) +: N (Qred (C / 2)) *: sq v_C2_1 in
    let E_2 := N (Qred (C / 2)) *: sq (v_C1_2 +. x_star) +: N (Qred (C / 2)) *: sq v_C2_2 in
    let Delta_1 := (s_eta *. (x_1 -. x_star)) ** (y_1 -. y_star)
                   +: (s_rho *s N (Qred (/ R))) *: (sq e1_1 +: sq (e1_1 -. e2_1) +: sq e2_1) in
    ret (set_performance_metric problem (E_2 -: (E_1 -: Delta_1))).

  (** README.md:77-125, the hello-world example: [alpha = 0] and [beta = 1]
      are built in, [mu] and [M] are those of Step 2, [R] and [C] of Step 4. *)
  Definition readme_hello_world (mu : Q) (L : extq) (R C : Q) : M problem :=
    do problem <- circuit_opt;
    do f <- def_function mu L;
    do (x_star, y_star, f_star) <- stationary_point f;
    do z_1 <- set_initial_point;
    do e2_1 <- set_initial_point;
    do (x_1, _, _) <- proximal_step z_1 f (N (Qred (R / 2)));
    let y_1 := N (Qred (2 / R)) *. (z_1 -. x_1) in
    let e1_1 := (e2_1 -. N R *. y_1) /. 2 in
    let v_C1_1 := e2_1 /. 2 -. z_1 in
    let v_C2_1 := e2_1 in
    let e2_2 := e2_1 -. (Sym "h" /s Qred (2 * R * C)) *. (N R *. y_1 +. N 3 *. e2_1) in
    let z_2 := z_1 -. (Sym "h" /s Qred (4 * R * C)) *. (N (Qred (5 * R)) *. y_1 +. N 3 *. e2_1) in
    do (x_2, _, _) <- proximal_step z_2 f (N (Qred (R / 2)));
    let y_2 := N (Qred (2 / R)) *. (z_2 -. x_2) in
    let v_C1_2 := e2_2 /. 2 -. z_2 in
    let v_C2_2 := e2_2 in
    let E_1 := N (Qred (C / 2)) *: sq (v_C1_1 +. x_star) +: N (Qred (C / 2)) *: sq v_C2_1 in
    let E_2 := N (Qred (C / 2)) *: sq (v_C1_2 +. x_star) +: N (Qred (C / 2)) *: sq v_C2_2 in
    let Delta_1 := (Sym "eta" *. (x_1 -. x_star)) ** (y_1 -. y_star) in
    ret (set_performance_metric problem (E_2 -: (E_1 -: Delta_1))).
End Builders.
