(** The numerical methods (ciropt/discretized_methods.py), the graphs and
    mixing matrices and the closed-form proximal operators of opt_problems/.

    Floating point numbers are replaced by real numbers.  A numpy array of
    shape (n, d) is a function from row numbers to vectors of which only the
    rows below [n] and the coordinates below [d] are read; loops that fill an
    array row by row from arrays they do not modify are written as one
    function.  Divisions of numpy arrays by 0 (inf or nan) are not modelled
    except where an option type says so; Python's [1./0] and [h/0] are
    ZeroDivisionError. *)
From Coq Require Import List Arith Bool Reals.
From Verif Require Import Prelude.
Import ListNotations.
Local Open Scope R_scope.

Definition vsumn (n : nat) (f : nat -> vec) : vec := fun k => rsum n (fun a => f a k).
Definition vlist (l : list vec) : vec := fold_left vadd l vzero.
(** numpy: np.sqrt(np.sum((a - b)**2)) on arrays of shape (n, d) *)
Definition frobenius (n d : nat) (a b : nat -> vec) : R := sqrt (rsum n (fun j => nsq d (vsub (a j) (b j)))).
(** numpy: np.linalg.norm of a vector *)
Definition norm (d : nat) (v : vec) : R := sqrt (nsq d v).

(** * networkx graphs

    [G._adj]: an insertion-ordered dict from nodes to insertion-ordered dicts of
    neighbours.  Modelled: Graph(), add_nodes_from, add_edges_from, degree,
    adjacency, edges, number_of_nodes. *)
Definition graph := list (nat * list nat).
Definition nbrs (g : graph) (u : nat) : list nat := match dget Nat.eqb u g with Some l => l | None => [] end.
Definition add_node (g : graph) (u : nat) : graph := if dmem Nat.eqb u g then g else g ++ [(u, [])].
Definition mem (v : nat) (l : list nat) : bool := existsb (Nat.eqb v) l.
Definition add_nbr (u v : nat) (g : graph) : graph :=
  map (fun p => if Nat.eqb (fst p) u then (fst p, if mem v (snd p) then snd p else snd p ++ [v]) else p) g.
Definition add_edge (g : graph) (e : nat * nat) : graph :=
  add_nbr (snd e) (fst e) (add_nbr (fst e) (snd e) (add_node (add_node g (fst e)) (snd e))).
Definition mk_graph (nodes : list nat) (edges : list (nat * nat)) : graph :=
  fold_left add_edge edges (fold_left add_node nodes []).
(** [G.degree(u)]: a self-loop counts twice *)
Definition degree (g : graph) (u : nat) : nat := List.length (nbrs g u) + (if mem u (nbrs g u) then 1 else 0).
(** [list(G.edges)]: each edge once, from the node met first *)
Fixpoint edges_from (seen : list nat) (g : graph) : list (nat * nat) :=
  match g with
  | [] => []
  | (u, l) :: g' => map (fun v => (u, v)) (filter (fun v => negb (mem v seen)) l) ++ edges_from (u :: seen) g'
  end.
Definition edges (g : graph) : list (nat * nat) := edges_from [] g.

(** discretized_methods.py:15-18 and 82-85.  The nodes are 1, ..., n (otherwise the code
    mixes up rows); [deg_of g j] is node_degrees[j], [adj_of g j] is adjacency[j]. *)
Definition deg_of (g : graph) (j : nat) : nat := degree g (S j).
Definition adj_of (g : graph) (j : nat) : list nat := map pred (nbrs g (S j)).

(** * dadmm *)
(** discretized_methods.py:19-27: alg_type with the parameters it reads from
    [params]; a missing key and an unknown alg_type are not modelled. *)
Inductive dalg : Type :=
| Dadmm (Rs : R)
| CirDadmm (Rs h Ind : R)
| CirDadmmC (Rs h Ind C : R).
Definition d_R (a : dalg) : R := match a with Dadmm Rs => Rs | CirDadmm Rs _ _ => Rs | CirDadmmC Rs _ _ _ => Rs end.
Definition div_num (x y : R) : res R := if Req_EM_T y 0 then Err ZeroDivisionError else Ok (x / y).
Definition step_size (a : dalg) : res R :=
  match a with
  | Dadmm Rs => div_num 1 Rs
  | CirDadmm _ h Ind => div_num h Ind
  | CirDadmmC _ h Ind _ => div_num h Ind
  end.
(** x_k, i_L_k, e_k; [st_i st j a] is i_L_k[j][a], the current of the a-th neighbour of j *)
Record dstate : Type := mkD { st_x : nat -> vec; st_i : nat -> nat -> vec; st_e : nat -> nat -> vec }.
(** discretized_methods.py:31-34 *)
Definition dinit : dstate := mkD (fun _ => vzero) (fun _ _ => vzero) (fun _ _ => vzero).

(** [adjacency[l].index(j)]; the index always exists in an undirected graph *)
Fixpoint index (j : nat) (l : list nat) : nat :=
  match l with [] => O | a :: l' => if Nat.eqb a j then O else S (index j l') end.
(** discretized_methods.py:49-51: the edge with the capacitor is hardcoded *)
Definition cap_edge (a : dalg) (j l : nat) : bool :=
  match a with CirDadmmC _ _ _ _ => (Nat.eqb j 3 && Nat.eqb l 4) || (Nat.eqb j 4 && Nat.eqb l 3) | _ => false end.
Definition cap_step (a : dalg) : R := match a with CirDadmmC _ h _ C => h / C | _ => 0 end.

(** discretized_methods.py:36-55, one iteration.  [prox j z rho] is
    prox_operators[j](z, rho). *)
Definition dadmm_step (a : dalg) (step : R) (g : graph) (prox : nat -> vec -> R -> vec) (s : dstate) : dstate :=
  let dg j := INR (deg_of g j) in
  let z j := vscal (1 / dg j) (vsumn (deg_of g j) (fun l => vadd (vscal (d_R a) (st_i s j l)) (st_e s j l))) in
  let x j := prox j (z j) (d_R a / dg j) in
  let e j k :=
    match nth_error (adj_of g j) k with
    | None => st_e s j k
    | Some l =>
        if cap_edge a j l
        then vsub (st_e s j k) (vscal (cap_step a)
               (vadd (vadd (st_i s j k) (st_i s l (index j (adj_of g l))))
                     (vscal (1 / d_R a) (vsub (vsub (vscal 2 (st_e s j k)) (x j)) (x l)))))
        else vscal (1 / 2) (vadd (x j) (x l))
    end in
  let i j k := vadd (st_i s j k) (vscal step (vsub (e j k) (x j))) in
  mkD x i e.
Fixpoint dadmm_iter (a : dalg) (step : R) (g : graph) (prox : nat -> vec -> R -> vec) (k : nat) : dstate :=
  match k with O => dinit | S k' => dadmm_step a step g prox (dadmm_iter a step g prox k') end.

(** Does an iteration raise?  [1./node_degrees[jj]] with an isolated node; [h / Capacitance]
    only on the hardcoded edge. *)
Definition dadmm_raises (a : dalg) (n : nat) (g : graph) : bool :=
  existsb (fun j => Nat.eqb (deg_of g j) 0) (seq 0 n) ||
  match a with
  | CirDadmmC _ _ _ C =>
      (if Req_EM_T C 0 then true else false) &&
      existsb (fun j => existsb (fun l => cap_edge a j l) (adj_of g j)) (seq 0 n)
  | _ => false
  end.

(** discretized_methods.py:57-59: what is reported after each iteration.  [const_vio] stays empty. *)
Record report : Type := mkReport { rp_err : R; rp_rel : R; rp_f : R }.
Definition dadmm_report (n d : nat) (xstar : nat -> vec) (fstar : R) (fi : nat -> vec -> R) (x : nat -> vec) : report :=
  mkReport (frobenius n d x xstar) (frobenius n d x xstar / frobenius n d (fun _ => vzero) xstar)
    (Rabs (fstar - rsum n (fun j => fi j (x j))) / fstar).
(** discretized_methods.py:7-62 *)
Definition dadmm (a : dalg) (n d itr : nat) (g : graph) (xstar : nat -> vec) (fstar : R)
  (prox : nat -> vec -> R -> vec) (fi : nat -> vec -> R) : res (list report) :=
  let? step := step_size a in
  if Nat.eqb itr 0 then Ok []
  else if dadmm_raises a n g then Err ZeroDivisionError
  else Ok (map (fun k => dadmm_report n d xstar fstar fi (st_x (dadmm_iter a step g prox (S k)))) (seq 0 itr)).

(** * pg_extra *)
(** [W[j] @ x] *)
Definition mix (n : nat) (W : nat -> nat -> R) (x : nat -> vec) (j : nat) : vec := vsumn n (fun l => vscal (W j l) (x l)).
(** [(np.eye(n) - W) @ x], row j *)
Definition lap (n : nat) (W : nat -> nat -> R) (x : nat -> vec) (j : nat) : vec :=
  vsumn n (fun l => vscal ((if Nat.eqb j l then 1 else 0) - W j l) (x l)).
Record pstate : Type := mkP { p_x : nat -> vec; p_w : nat -> vec }.
(** discretized_methods.py:101-123 with alg_type "pg_extra"; the new x uses the old w *)
Definition pg_step (n : nat) (rho : R) (W : nat -> nat -> R) (prox : nat -> vec -> R -> vec) (gradh : nat -> vec -> vec)
  (s : pstate) : pstate :=
  mkP (fun j => prox j (vsub (vsub (mix n W (p_x s) j) (p_w s j)) (vscal rho (gradh j (p_x s j)))) rho)
      (fun j => vadd (p_w s j) (vscal (1 / 2) (lap n W (p_x s) j))).
Definition pinit : pstate := mkP (fun _ => vzero) (fun _ => vzero).
Fixpoint pg_iter (n : nat) (rho : R) (W : nat -> nat -> R) (prox : nat -> vec -> R -> vec) (gradh : nat -> vec -> vec)
  (s0 : pstate) (k : nat) : pstate :=
  match k with O => s0 | S k' => pg_step n rho W prox gradh (pg_iter n rho W prox gradh s0 k') end.

(** discretized_methods.py:76-85, 96-99, 107-128, alg_type "pg_extra_par_c": [rho = R], inductor and capacitor currents on the edges *)
Record cstate : Type := mkC { c_x : nat -> vec; c_iL : nat -> nat -> vec; c_iC : nat -> nat -> vec }.
Definition cinit : cstate := mkC (fun _ => vzero) (fun _ _ => vzero) (fun _ _ => vzero).
Definition par_step (n : nat) (Rs h C : R) (W : nat -> nat -> R) (g : graph) (prox : nat -> vec -> R -> vec)
  (gradh : nat -> vec -> vec) (s : cstate) : cstate :=
  let x := c_x s in
  let iL j l := if mem l (adj_of g j) then vadd (c_iL s j l) (vscal (h * (1 / Rs * W j l)) (vsub (x j) (x l))) else c_iL s j l in
  let sum j := vlist (map (fun l => vadd (c_iL s j l) (c_iC s j l)) (adj_of g j)) in
  let x' j := prox j (vsub (vsub (mix n W x j) (vscal Rs (sum j))) (vscal Rs (gradh j (x j)))) Rs in
  let iC j l := if mem l (adj_of g j)
                then vadd (c_iC s j l) (vscal (C / h * (1 / Rs * W j l)) (vsub (vsub (x' j) (x' l)) (vsub (x j) (x l))))
                else c_iC s j l in
  mkC x' iL iC.
Fixpoint par_iter (n : nat) (Rs h C : R) (W : nat -> nat -> R) (g : graph) (prox : nat -> vec -> R -> vec)
  (gradh : nat -> vec -> vec) (k : nat) : cstate :=
  match k with O => cinit | S k' => par_step n Rs h C W g prox gradh (par_iter n Rs h C W g prox gradh k') end.

(** discretized_methods.py:130-133 *)
Record preport : Type := mkPR { pr_op : R; pr_err : R; pr_rel : R; pr_f : R }.
Definition pg_report (n d : nat) (xstar : nat -> vec) (fstar : R) (fh : nat -> vec -> R) (xprev x : nat -> vec) : preport :=
  mkPR (rsum n (fun j => nsq d (vsub (x j) (xprev j))))
    (frobenius n d x xstar) (frobenius n d x xstar / frobenius n d (fun _ => vzero) xstar)
    (Rabs ((rsum n (fun j => fh j (x j)) - fstar) / fstar)).
Inductive palg : Type := PgExtra | PgExtraParC (Rs h C : R).
(** discretized_methods.py:65-137 *)
Definition pg_extra (a : palg) (n d itr : nat) (rho : R) (W : nat -> nat -> R) (g : graph) (xstar : nat -> vec) (fstar : R)
  (prox : nat -> vec -> R -> vec) (gradh : nat -> vec -> vec) (fh : nat -> vec -> R) : res (list preport) :=
  let? x := match a with
    | PgExtra => Ok (fun k => p_x (pg_iter n rho W prox gradh pinit k))
    | PgExtraParC Rs h C =>
        let? _ := div_num C h in
        let? _ := div_num 1 Rs in
        Ok (fun k => c_x (par_iter n Rs h C W g prox gradh k))
    end in
  Ok (map (fun k => pg_report n d xstar fstar fh (x k) (x (S k))) (seq 0 itr)).

(** * mixing matrices: opt_problems/decentr_qp.py:88-95, decentr_geom_median.py:114-121,
      decentr_ell2_Anorm.py:112-119, decentr_compressed_sensing.py:132-139.  A node outside 1..n
      raises IndexError (node 0, which Python would wrap around, does not occur). *)
Definition weight (g : graph) (i j : nat) : R := 1 / (INR (Nat.max (degree g i) (degree g j)) + 1).
Definition edge_loop (g : graph) (n : nat) : res (nat -> nat -> R) :=
  fold_left (fun r e => let? W := r in
      if Nat.leb (fst e) n && Nat.leb (snd e) n
      then Ok (upd2 (upd2 W (pred (fst e)) (pred (snd e)) (weight g (fst e) (snd e)))
                 (pred (snd e)) (pred (fst e)) (weight g (snd e) (fst e)))
      else Err IndexError)
    (edges g) (Ok (fun _ _ => 0)).
Definition diag_loop (n : nat) (W : nat -> nat -> R) : nat -> nat -> R :=
  fold_left (fun W i => upd2 W i i (1 - rsum n (W i))) (seq 0 n) W.
Definition metropolis (g : graph) (n : nat) : res (nat -> nat -> R) :=
  let? W := edge_loop g n in Ok (diag_loop n W).
(** decentr_qp.py:80-86 *)
Definition qp_edges : list (nat * nat) :=
  [(1, 2); (2, 3); (3, 4); (4, 5); (5, 6); (6, 7); (7, 8); (8, 9); (9, 10);
   (10, 11); (11, 12); (12, 13); (13, 14); (14, 15); (15, 16); (16, 17); (17, 18);
   (18, 19); (19, 20); (1, 4); (1, 5); (2, 5); (3, 6); (5, 8); (7, 10); (9, 12);
   (11, 14); (13, 16); (15, 18); (17, 20); (2, 7); (4, 9); (6, 11); (8, 13); (10, 15); (12, 17); (14, 19)]%nat.
Definition qp_graph (n : nat) : graph := mk_graph [1; n]%nat qp_edges.
(** decentr_geom_median.py:102-113 and the copies of it *)
Definition graph6 : graph := mk_graph [1; 6]%nat [(1, 2); (1, 3); (2, 3); (2, 4); (3, 4); (4, 5); (4, 6)]%nat.

(** * proximal operators in closed form *)
(** decentr_qp.py:11-19.  [None]: division by the norm of a zero vector *)
Definition prox_halfspace (d : nat) (z : vec) (rho : R) (a : vec) (b : R) : option vec :=
  if Rle_dec (dot d a z - b) 0 then Some z
  else if Req_EM_T (nsq d a) 0 then None
  else Some (vadd z (vscal ((b - dot d a z) / nsq d a) a)).
(** decentr_qp.py:21-25 *)
Definition grad_quadratic (d : nat) (Qj : nat -> vec) (pj : vec) (z : vec) : vec := fun k => dot d (Qj k) z + pj k.
(** decentr_geom_median.py:13-19, decentr_ell2_Anorm.py:13-19.  [None]: 0/0 when z = b (nan) *)
Definition prox_norm (d : nat) (z : vec) (rho : R) (b : vec) : option vec :=
  let e := vsub b z in
  if Req_EM_T (norm d e) 0 then None
  else Some (vsub b (vscal (Rmax (norm d e - rho) 0) (vscal (/ norm d e) e))).
(** decentr_geom_median.py:21-30 *)
Definition prox_norm_sc (d : nat) (z : vec) (rho : R) (b c : vec) (theta : R) : option vec :=
  let new_z := vscal (1 / (1 + 2 * rho * theta)) (vadd z (vscal (2 * rho * theta) c)) in
  let new_rho := rho / (1 + 2 * rho * theta) in
  prox_norm d new_z new_rho b.
(** decentr_ell2_Anorm.py:34-40.  np.linalg.solve is any [solve] that returns a
    solution of the system. *)
Definition prox_quadratic (solve : (nat -> vec) -> vec -> vec) (z : vec) (rho : R) (b : vec) (P : nat -> vec) : vec :=
  let tilde_P := fun i j => P i j + (if Nat.eqb i j then 1 / rho else 0) in
  vadd b (solve tilde_P (vscal (1 / rho) (vsub z b))).
(** decentr_compressed_sensing.py:173, 218: np.sign(x) * np.maximum(np.abs(x) - t, 0.) *)
Definition sign (x : R) : R := if Rlt_dec 0 x then 1 else if Rlt_dec x 0 then -1 else 0.
Definition soft_threshold (t : R) (x : vec) : vec := fun k => sign (x k) * Rmax (Rabs (x k) - t) 0.
(** decentr_compressed_sensing.py:172: A.T @ (A @ x - b), [m] rows *)
Definition grad_lsq (m d : nat) (A : nat -> vec) (b : vec) (x : vec) : vec :=
  fun k => rsum m (fun i => A i k * (dot d (A i) x - b i)).
(** decentr_compressed_sensing.py:166-174 (obtain_opt_prob_solution) and 212-220
    (pg_extra_compressed_sensing): one iteration; [A j], [b j] are the rows of node j *)
Definition cs_step (n m d : nat) (alpha rho : R) (W : nat -> nat -> R) (A : nat -> nat -> vec) (b : nat -> vec) (s : pstate) : pstate :=
  mkP (fun j => soft_threshold (alpha * rho)
         (vsub (vsub (mix n W (p_x s) j) (vscal alpha (grad_lsq m d (A j) (b j) (p_x s j)))) (p_w s j)))
      (fun j => vadd (p_w s j) (vscal (1 / 2) (lap n W (p_x s) j))).
Fixpoint cs_iter (n m d : nat) (alpha rho : R) (W : nat -> nat -> R) (A : nat -> nat -> vec) (b : nat -> vec) (s0 : pstate) (k : nat) : pstate :=
  match k with O => s0 | S k' => cs_step n m d alpha rho W A b (cs_iter n m d alpha rho W A b s0 k') end.

(** decentr_compressed_sensing.py:176-180 and 221: what node j contributes to f_val *)
Definition cs_f (m d : nat) (rho : R) (A : nat -> nat -> vec) (b : nat -> vec) (j : nat) (x : vec) : R :=
  1 / 2 * rsum m (fun i => (dot d (A j i) x - b j i) * (dot d (A j i) x - b j i)) + rho * rsum d (fun k => Rabs (x k)).
(** decentr_compressed_sensing.py:148-182; [x0] is x_0_data *)
Definition cs_solution (n m d itr : nat) (alpha rho : R) (W : nat -> nat -> R) (A : nat -> nat -> vec) (b : nat -> vec) (x0 : nat -> vec)
  : (nat -> vec) * R :=
  let x := p_x (cs_iter n m d alpha rho W A b (mkP x0 (fun _ => vzero)) (2 * itr)) in
  (x, rsum n (fun j => cs_f m d rho A b j (x j))).
(** decentr_compressed_sensing.py:185-231 without op_norm (it needs the singular
    value decomposition of the network): distance, relative distance, violation and f_reldiff of
    every iteration; sensor i of node q is row q * m + i of A *)
Record creport : Type := mkCR { cr_err : R; cr_rel : R; cr_vio : R; cr_f : R }.
Definition cs_report (n m d : nat) (rho : R) (A : nat -> nat -> vec) (b : nat -> vec) (x0 xstar : nat -> vec) (fstar : R) (x : nat -> vec) : creport :=
  mkCR (frobenius n d x xstar) (frobenius n d x xstar / frobenius n d x0 xstar)
    (rsum n (fun q => rsum m (fun i => rsum n (fun j => (dot d (A q i) (x j) - b q i) * (dot d (A q i) (x j) - b q i)))))
    (Rabs (fstar - rsum n (fun j => cs_f m d rho A b j (x j))) / fstar).
Definition cs_run (n m d itr : nat) (alpha rho : R) (W : nat -> nat -> R) (A : nat -> nat -> vec) (b : nat -> vec) (x0 xstar : nat -> vec) (fstar : R)
  : list creport :=
  map (fun k => cs_report n m d rho A b x0 xstar fstar (p_x (cs_iter n m d alpha rho W A b (mkP x0 (fun _ => vzero)) (S k)))) (seq 0 itr).

(** * p_extra_dgeom_median: decentr_geom_median.py:130-173, decentr_ell2_Anorm.py:128-170

    [None]: some row became nan; what numpy computes from then on is not modelled. *)
Definition all_some (n : nat) (f : nat -> option vec) : option (nat -> vec) :=
  if forallb (fun j => match f j with Some _ => true | None => false end) (seq 0 n)
  then Some (fun j => match f j with Some v => v | None => vzero end)
  else None.
Definition p_step (n : nat) (rho : R) (W : nat -> nat -> R) (prox : nat -> vec -> R -> option vec) (s : pstate) : option pstate :=
  match all_some n (fun j => prox j (vsub (mix n W (p_x s) j) (p_w s j)) rho) with
  | None => None
  | Some x => Some (mkP x (fun j => vadd (p_w s j) (vscal (1 / 2) (lap n W (p_x s) j))))
  end.
Fixpoint p_iter (n : nat) (rho : R) (W : nat -> nat -> R) (prox : nat -> vec -> R -> option vec) (x0 : nat -> vec) (k : nat) : option pstate :=
  match k with
  | O => Some (mkP x0 (fun _ => vzero))
  | S k' => match p_iter n rho W prox x0 k' with None => None | Some s => p_step n rho W prox s end
  end.
(** nodes 3 and 4 (counted from 0) have the strongly convex function *)
Definition sc_node (j : nat) : bool := Nat.eqb j 3 || Nat.eqb j 4.
Definition median_prox (d : nat) (b c : nat -> vec) (theta : R) (j : nat) (z : vec) (rho : R) : option vec :=
  if sc_node j then prox_norm_sc d z rho (b j) (c j) theta else prox_norm d z rho (b j).
Definition median_f (d : nat) (b c : nat -> vec) (theta : R) (j : nat) (x : vec) : R :=
  if sc_node j then norm d (vsub x (b j)) + theta * (norm d (vsub x (c j)) * norm d (vsub x (c j))) else norm d (vsub x (b j)).
Definition anorm_prox (solve : (nat -> vec) -> vec -> vec) (d : nat) (b : nat -> vec) (P : nat -> nat -> vec) (j : nat) (z : vec) (rho : R) : option vec :=
  if sc_node j then Some (prox_quadratic solve z rho (b j) (P j)) else prox_norm d z rho (b j).
Definition anorm_f (d : nat) (b : nat -> vec) (P : nat -> nat -> vec) (j : nat) (x : vec) : R :=
  if sc_node j then 1 / 2 * rsum d (fun i => (x i - b j i) * dot d (P j i) (vsub x (b j))) else norm d (vsub x (b j)).
(** the iteration starts at x_0 = b and reports relative to it *)
Definition p_report (n d : nat) (x0 xstar : nat -> vec) (fstar : R) (f : nat -> vec -> R) (x : nat -> vec) : report :=
  mkReport (frobenius n d x xstar) (frobenius n d x xstar / frobenius n d x0 xstar) (Rabs (fstar - rsum n (fun j => f j (x j))) / fstar).
Definition p_extra (n d itr : nat) (rho : R) (W : nat -> nat -> R) (b xstar : nat -> vec) (fstar : R)
  (prox : nat -> vec -> R -> option vec) (f : nat -> vec -> R) : list (option report) :=
  map (fun k => match p_iter n rho W prox b (S k) with None => None | Some s => Some (p_report n d b xstar fstar f (p_x s)) end) (seq 0 itr).
