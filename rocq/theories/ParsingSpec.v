(** Vocabulary for statements about parsing and linearisation. *)
From Coq Require Import List Arith Bool String Ascii QArith Reals Qreals.
From Verif Require Import Prelude Sympy ParsingModel.
Import ListNotations.

(** Product of the values of a list of names. *)
Fixpoint prod_of (r : env) (l : list string) : R :=
  match l with [] => 1%R | s :: l' => (r s * prod_of r l')%R end.

(** A name without underscore. *)
Definition simple_name (s : string) : Prop := ~ In us (list_ascii_of_string s).
Definition simple_symbols (e : sexpr) : Prop := forall s, In s (free e) -> simple_name s.

(** The long symbol "a_b_c" stands for the product of a, b and c. *)
Definition long (r : env) : env := fun name => prod_of r (split_us name).

(** Value of an entry of [v_names]. *)
Definition vname_val (r : env) (v : vname) : R :=
  match v with VOne => 1%R | VStr s => long r s end.

(** Row [i] of [A @ v], where v lists the values of the monomials [l]. *)
Definition row_times (r : env) (l : list vname) (A : cmatrix) (i : nat) : R :=
  rsum (cm_cols A) (fun j => (Q2R (cm_at A i j) * vname_val r (nth j l VOne))%R).

(** The table [name2idx] numbers the entries of [v_names], which are distinct. *)
Definition numbered (nm : names) : Prop :=
  NoDup (nm_list nm) /\ nm_idx nm = combine (nm_list nm) (seq 0 (List.length (nm_list nm))).

(** The matrix [A] times the vector of all monomials is the list [l], whatever
    the values of the symbols; columns beyond the width of [A] count as 0. *)
Definition represents (names : list vname) (l : list sexpr) (A : cmatrix) : Prop :=
  cm_rows A = List.length l /\ (cm_cols A <= List.length names)%nat /\
  forall r k e, nth_error l k = Some e -> row_times r names A k = ev r e.

(** All symbols of the matrices are parameters without underscore. *)
Definition declared_fg (params : list string) (l : list (list sexpr * list sexpr)) : Prop :=
  forall F G e s, In (F, G) l -> In e F \/ In e G -> In s (free e) -> In s params /\ simple_name s.
