(** Scalars of the code: Python numbers and sympy objects.

    Python int/float and sympy numbers are exact rationals [Num]; sympy
    symbols are [Sym]; everything the code builds from them by [+], [-], [*]
    and division by a number is a polynomial expression.  [-e] is [(-1)*e],
    powers are repeated products.  Floating point rounding is not modelled. *)
From Coq Require Import List Arith Bool String Ascii QArith Reals Qreals.
From Verif Require Import Prelude.
Import ListNotations.

Inductive sexpr : Type :=
| Num (q : Q)
| Sym (s : string)
| Add (a b : sexpr)
| Mul (a b : sexpr).

(** Value of a scalar under an assignment of real numbers to the symbols. *)
Definition env := string -> R.
Fixpoint ev (r : env) (e : sexpr) : R :=
  match e with
  | Num q => Q2R q
  | Sym s => r s
  | Add a b => (ev r a + ev r b)%R
  | Mul a b => (ev r a * ev r b)%R
  end.

(** [expr.free_symbols] (sympy built-in). *)
Fixpoint free (e : sexpr) : list string :=
  match e with
  | Num _ => []
  | Sym s => [s]
  | Add a b | Mul a b => free a ++ free b
  end.

Definition closed (e : sexpr) : bool :=
  match free e with [] => true | _ => false end.

(** [float(e)]: TypeError on an expression with free symbols. *)
Fixpoint to_float (e : sexpr) : res Q :=
  match e with
  | Num q => Ok q
  | Sym _ => Err TypeError
  | Add a b => let? x := to_float a in let? y := to_float b in Ok (Qred (x + y))
  | Mul a b => let? x := to_float a in let? y := to_float b in Ok (Qred (x * y))
  end.

(** [a + b], [a * b] on Python/sympy scalars: numbers are folded, neutral and
    absorbing numerals disappear (sympy's automatic evaluation, restricted to
    numerals). *)
Definition is_num (v : Q) (e : sexpr) : bool :=
  match e with Num q => Qeq_bool q v | _ => false end.

Definition sadd (a b : sexpr) : sexpr :=
  match a, b with
  | Num p, Num q => Num (Qred (p + q))
  | _, _ => if is_num 0 a then b else if is_num 0 b then a else Add a b
  end.

Definition smul (a b : sexpr) : sexpr :=
  match a, b with
  | Num p, Num q => Num (Qred (p * q))
  | _, _ => if is_num 0 a || is_num 0 b then Num 0
            else if is_num 1 a then b else if is_num 1 b then a else Mul a b
  end.

Definition sneg (a : sexpr) : sexpr := smul (Num (-1)) a.
Definition ssub (a b : sexpr) : sexpr := sadd a (sneg b).

(** Structural equality [==] of sympy. *)
Fixpoint sexpr_eqb (a b : sexpr) : bool :=
  match a, b with
  | Num p, Num q => Qeq_bool p q
  | Sym s, Sym t => String.eqb s t
  | Add a1 a2, Add b1 b2 | Mul a1 a2, Mul b1 b2 => sexpr_eqb a1 b1 && sexpr_eqb a2 b2
  | _, _ => false
  end.

(** [sp.Poly(e)]: generators, and the list of (exponent vector, coefficient)
    given by [monoms()] and [coeffs()]. *)
Record Poly : Type := mkPoly {
  p_gens : list string;
  p_terms : list (list nat * Q)
}.

Fixpoint rpow (x : R) (n : nat) : R :=
  match n with O => 1%R | S m => (x * rpow x m)%R end.

Fixpoint mono_val (r : env) (gens : list string) (ex : list nat) : R :=
  match gens, ex with
  | g :: gens', n :: ex' => (rpow (r g) n * mono_val r gens' ex')%R
  | _, _ => 1%R
  end.

Definition poly_val (r : env) (p : Poly) : R :=
  lsum (fun t => (Q2R (snd t) * mono_val r (p_gens p) (fst t))%R) (p_terms p).

(** The two sympy services the code relies on.  They are parameters of the
    model; theorems assume only [sympy_ok]. [sympy0] below is an instance. *)
Record sympy : Type := mkSympy {
  simp : sexpr -> sexpr;      (* sp.simplify *)
  poly : sexpr -> Poly        (* sp.Poly *)
}.

Record sympy_ok (S : sympy) : Prop := mkSympyOk {
  (* simplification keeps the value and invents no symbol *)
  simp_ev : forall r e, ev r (simp S e) = ev r e;
  simp_free : forall e s, In s (free (simp S e)) -> In s (free e);
  (* the polynomial has the value of the expression, its generators are
     distinct symbols of the expression, and monomials are distinct exponent
     vectors of the right length *)
  poly_ev : forall r e, poly_val r (poly S e) = ev r e;
  poly_gens_nodup : forall e, NoDup (p_gens (poly S e));
  poly_gens_free : forall e s, In s (p_gens (poly S e)) -> In s (free e);
  poly_len : forall e t, In t (p_terms (poly S e)) ->
      List.length (fst t) = List.length (p_gens (poly S e));
  poly_mono_nodup : forall e, NoDup (map fst (p_terms (poly S e)))
}.

(** * A concrete instance: sorted sums of sorted monomials *)

(** Lexicographic order of strings, as Python's [sorted]. *)
Fixpoint sleb (a b : string) : bool :=
  match a, b with
  | EmptyString, _ => true
  | String _ _, EmptyString => false
  | String c a', String c' b' =>
      if Ascii.eqb c c' then sleb a' b'
      else Nat.ltb (nat_of_ascii c) (nat_of_ascii c')
  end.

Fixpoint sinsert (s : string) (l : list string) : list string :=
  match l with
  | [] => [s]
  | t :: l' => if sleb s t then s :: l else t :: sinsert s l'
  end.

(** Python's [sorted] on a list of strings. *)
Definition ssort (l : list string) : list string := fold_right sinsert [] l.

Fixpoint strs_eqb (a b : list string) : bool :=
  match a, b with
  | [], [] => true
  | x :: a', y :: b' => String.eqb x y && strs_eqb a' b'
  | _, _ => false
  end.

(** Normal form: association list from sorted monomials to coefficients. *)
Definition nf := list (list string * Q).

Fixpoint nf_add1 (m : list string) (q : Q) (p : nf) : nf :=
  match p with
  | [] => [(m, Qred q)]
  | (m', q') :: p' => if strs_eqb m m' then (m', Qred (q' + q)) :: p'
                      else (m', q') :: nf_add1 m q p'
  end.

Definition nf_add (a b : nf) : nf :=
  fold_right (fun t acc => nf_add1 (fst t) (snd t) acc) a b.

Definition nf_mul (a b : nf) : nf :=
  fold_right (fun t acc =>
    fold_right (fun u acc' => nf_add1 (ssort (fst t ++ fst u)) (snd t * snd u) acc') acc b)
    [] a.

Fixpoint to_nf (e : sexpr) : nf :=
  match e with
  | Num q => [([], Qred q)]
  | Sym s => [([s], 1)]
  | Add a b => nf_add (to_nf a) (to_nf b)
  | Mul a b => nf_mul (to_nf a) (to_nf b)
  end.

Definition nf_clean (p : nf) : nf := filter (fun t => negb (Qeq_bool (snd t) 0)) p.

Fixpoint mono_sexpr (m : list string) : sexpr :=
  match m with [] => Num 1 | s :: m' => smul (Sym s) (mono_sexpr m') end.

Definition nf_sexpr (p : nf) : sexpr :=
  fold_right (fun t acc => sadd (smul (Num (snd t)) (mono_sexpr (fst t))) acc) (Num 0) p.

Definition simp0 (e : sexpr) : sexpr := nf_sexpr (nf_clean (to_nf e)).

Fixpoint nub (l : list string) : list string :=
  match l with
  | [] => []
  | s :: l' => if existsb (String.eqb s) l' then nub l' else s :: nub l'
  end.

Definition count (s : string) (l : list string) : nat :=
  List.length (filter (String.eqb s) l).

Definition nf_poly (p : nf) : Poly :=
  let gens := ssort (nub (flat_map fst p)) in
  mkPoly gens (map (fun t => (map (fun g => count g (fst t)) gens, snd t)) p).

Definition poly0 (e : sexpr) : Poly := nf_poly (nf_clean (to_nf e)).

Definition sympy0 : sympy := mkSympy simp0 poly0.

Global Arguments sadd : simpl never.
Global Arguments smul : simpl never.
Global Arguments is_num : simpl never.
