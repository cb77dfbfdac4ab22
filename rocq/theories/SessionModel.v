(** User programs: arbitrary sequences of API calls on the objects obtained so
    far.  A failing call (Python exception caught by the user) keeps its
    effects on the class-level state and yields no object. *)
From Coq Require Import List Arith Bool String QArith.
From Verif Require Import Prelude Sympy AlgebraModel FunctionModel CircuitModel.
Import ListNotations.

(** Objects are referred to by position in the lists of points, expressions
    and functions obtained since the last [CircuitOpt()]. *)
Inductive op : Type :=
| ONewProblem                                   (* CircuitOpt() *)
| OPoint | OExpr                                (* Point(), Expression() *)
| OPAdd (i j : nat) | OPSub (i j : nat) | OPNeg (i : nat)
| OPScale (c : sexpr) (i : nat) | OPDiv (i : nat) (c : sexpr)
| OPMul (i j : nat) | OPPow (i n : nat)
| OEAdd (i j : nat) | OESub (i j : nat) | OENeg (i : nat)
| OEScale (c : sexpr) (i : nat) | OEDiv (i : nat) (c : sexpr)
| OEAddC (i : nat) (q : Q) | OESubC (i : nat) (q : Q) | OERSubC (q : Q) (i : nat)
| OConvex | OSmoothSC (mu : Q) (L : extq) | OStrongly (mu : Q) | OSmooth (L : extq)
| ODefFun (mu : Q) (L : extq)
| OFAdd (i j : nat) | OFSub (i j : nat) | OFNeg (i : nat)
| OFScale (c : sexpr) (i : nat) | OFDiv (i : nat) (c : sexpr)
| OOracle (f x : nat) | OValue (f x : nat) | OGradient (f x : nat)
| OStationary (f : nat) | OProx (x f : nat) (gamma : sexpr) | OConj (g f : nat)
| OAddPoint (f x g e : nat)
| OMetric (e : nat) | OConstraint (e : nat) (kind : string) | OInitial.

Record session : Type := mkSession {
  se_st : state;
  se_pts : list point;
  se_exps : list expr;
  se_fns : list nat;
  se_pb : problem
}.

Section Session.
  Variable SY : sympy.

  (** Outcome of a call: the new objects and the new problem. *)
  Definition out : Type := (list point * list expr * list nat)%type.
  Definition outp (p : point) : out := ([p], [], []).
  Definition oute (e : expr) : out := ([], [e], []).
  Definition outf (f : nat) : out := ([], [], [f]).

  Definition at_ {A} (l : list A) (i : nat) : M A :=
    match nth_error l i with Some a => ret a | None => raise NameError end.

  Definition call (se : session) (o : op) : M out :=
    let P := at_ (se_pts se) in let E := at_ (se_exps se) in let F := at_ (se_fns se) in
    match o with
    | ONewProblem | OMetric _ | OConstraint _ _ => ret ([], [], [])
    | OPoint | OInitial => do p <- new_point; ret (outp p)
    | OExpr => do e <- new_expr; ret (oute e)
    | OPAdd i j => do a <- P i; do b <- P j; ret (outp (padd SY a b))
    | OPSub i j => do a <- P i; do b <- P j; ret (outp (psub SY a b))
    | OPNeg i => do a <- P i; ret (outp (pneg SY a))
    | OPScale c i => do a <- P i; ret (outp (pscale SY c a))
    | OPDiv i c => do a <- P i; do p <- lift (pdiv SY a c); ret (outp p)
    | OPMul i j => do a <- P i; do b <- P j; ret (oute (pmul SY a b))
    | OPPow i n => do a <- P i; do e <- lift (ppow SY a n); ret (oute e)
    | OEAdd i j => do a <- E i; do b <- E j; ret (oute (eadd SY a b))
    | OESub i j => do a <- E i; do b <- E j; ret (oute (esub SY a b))
    | OENeg i => do a <- E i; ret (oute (eneg SY a))
    | OEScale c i => do a <- E i; ret (oute (escale SY c a))
    | OEDiv i c => do a <- E i; do e <- lift (ediv SY a c); ret (oute e)
    | OEAddC i q => do a <- E i; ret (oute (eaddc SY a q))
    | OESubC i q => do a <- E i; ret (oute (esubc SY a q))
    | OERSubC q i => do a <- E i; ret (oute (ersubc SY q a))
    | OConvex => do f <- new_convex; ret (outf f)
    | OSmoothSC mu L => do f <- new_smooth_sc mu L; ret (outf f)
    | OStrongly mu => do f <- new_strongly mu; ret (outf f)
    | OSmooth L => do f <- new_smooth L; ret (outf f)
    | ODefFun mu L => do f <- def_function mu L; ret (outf f)
    | OFAdd i j => do a <- F i; do b <- F j; do f <- fn_add SY a b; ret (outf f)
    | OFSub i j => do a <- F i; do b <- F j; do f <- fn_sub SY a b; ret (outf f)
    | OFNeg i => do a <- F i; do f <- fn_neg a; ret (outf f)
    | OFScale c i => do a <- F i; do f <- fn_scale c a; ret (outf f)
    | OFDiv i c => do a <- F i; do f <- fn_div a c; ret (outf f)
    | OOracle f x => do a <- F f; do p <- P x; do r <- oracle SY a p; ret ([fst r], [snd r], [])
    | OValue f x => do a <- F f; do p <- P x; do r <- value SY a p; ret (oute r)
    | OGradient f x => do a <- F f; do p <- P x; do r <- gradient SY a p; ret (outp r)
    | OStationary f => do a <- F f; do r <- stationary_point SY a;
                       ret ([fst (fst r); snd (fst r)], [snd r], [])
    | OProx x f gamma => do a <- F f; do p <- P x; do r <- proximal_step SY p a gamma;
                         ret ([fst (fst r); snd (fst r)], [snd r], [])
    | OConj g f => do a <- F f; do p <- P g; do r <- subgrad_conjugate SY p a; ret (outp r)
    | OAddPoint f x g e => do a <- F f; do p <- P x; do q <- P g; do u <- E e;
                           add_triplet SY a p q u ;; ret ([], [], [])
    end.

  Definition step (se : session) (o : op) : session :=
    match o with
    | ONewProblem =>
        match circuit_opt (se_st se) with
        | (Ok p, s') => mkSession s' [] [] [] p
        | (Err _, s') => mkSession s' (se_pts se) (se_exps se) (se_fns se) (se_pb se)
        end
    | OMetric e =>
        match nth_error (se_exps se) e with
        | Some a => mkSession (se_st se) (se_pts se) (se_exps se) (se_fns se) (set_performance_metric (se_pb se) a)
        | None => se
        end
    | OConstraint e kind =>
        match nth_error (se_exps se) e with
        | Some a => match new_constraint a kind with
                    | Ok c => mkSession (se_st se) (se_pts se) (se_exps se) (se_fns se) (add_constraint (se_pb se) c)
                    | Err _ => se
                    end
        | None => se
        end
    | _ =>
        match call se o (se_st se) with
        | (Ok (ps, es, fs), s') => mkSession s' (se_pts se ++ ps) (se_exps se ++ es) (se_fns se ++ fs) (se_pb se)
        | (Err _, s') => mkSession s' (se_pts se) (se_exps se) (se_fns se) (se_pb se)
        end
    end.

  (** A fresh interpreter, and the session after a program. *)
  Definition state0 : state := mkState 0 0 0 0 [] [] [] [].
  Definition session0 : session := mkSession state0 [] [] [] (mkProblem default_params [] None None).
  Definition run (se : session) (l : list op) : session := fold_left step l se.
End Session.
