(** Model of [ciropt/sympy_parsing.py].

    A Python number and a sympy number are both [Num]; the two early branches
    of the code ([not isinstance(expr, sp.Basic)], and "simplified expression
    has no symbol") both return the value of the number, so one branch models
    them.  [expr.is_number] holds exactly for expressions without symbols, and
    implies that the simplified expression has none either. *)
From Coq Require Import List Arith Bool String Ascii QArith.
From Verif Require Import Prelude Sympy.
Import ListNotations.
Local Open Scope nat_scope.
Local Open Scope string_scope.

(** [s.split(c)] for a one-character separator (Python built-in). *)
Fixpoint split (c : ascii) (s : string) : list string :=
  match s with
  | EmptyString => [EmptyString]
  | String a s' =>
      if Ascii.eqb a c then EmptyString :: split c s'
      else match split c s' with
           | [] => [String a EmptyString]
           | h :: t => String a h :: t
           end
  end.

Definition us : ascii := "_"%char.
(** ["_".join(l)] (Python built-in). *)
Definition join_us (l : list string) : string := String.concat "_" l.
Definition split_us (s : string) : list string := split us s.

(** [c in s] for a character *)
Fixpoint has_char (c : ascii) (s : string) : bool :=
  match s with
  | EmptyString => false
  | String a s' => Ascii.eqb a c || has_char c s'
  end.

(** [t in s] for strings *)
Fixpoint infix (t s : string) : bool :=
  String.prefix t s || match s with EmptyString => false | String _ s' => infix t s' end.

(** [l * n] for a list *)
Fixpoint times {A} (n : nat) (l : list A) : list A :=
  match n with O => [] | S m => l ++ times m l end.

(** The inner loop [for var, exp in zip(polynomial.gens, monomial):
    variables_in_monomial += f(var.name) * exp], with [f name = [name]]
    (sympy_parsing.py:17-18, 66-68, 190-191) or [f name = name.split("_")]
    (sympy_parsing.py:212-213, sympy_to_solvers.py:37-38). *)
Fixpoint mono_vars (f : string -> list string) (gens : list string) (ex : list nat) : list string :=
  match gens, ex with
  | g :: gens', n :: ex' => times n (f g) ++ mono_vars f gens' ex'
  | _, _ => []
  end.

Section Parsing.
  Variable SY : sympy.

  (** sympy_parsing.py:182, 203-206: the expression is a number *)
  Definition numeric (e : sexpr) : bool := closed (simp SY e).

  (** [float(sp.simplify(expr))] *)
  Definition float_simp (e : sexpr) : res Q := to_float (simp SY e).

  (** sympy_parsing.py:192-195 *)
  Definition long_symbol (vs : list string) : sexpr :=
    match vs with
    | [] => Num 1
    | _ => Sym (join_us (ssort (split_us (join_us (ssort vs)))))
    end.

  (** sympy_parsing.py:186-197 *)
  Fixpoint linearize_terms (gens : list string) (l : list (list nat * Q)) (acc : sexpr) : sexpr :=
    match l with
    | [] => acc
    | (ex, q) :: l' =>
        linearize_terms gens l'
          (sadd acc (smul (Num q) (long_symbol (mono_vars (fun g => [g]) gens ex))))
    end.

  (** sympy_parsing.py:181-198 *)
  Definition linearize_expression (e : sexpr) : sexpr :=
    if numeric e then e
    else let p := poly SY (simp SY e) in
         simp SY (linearize_terms (p_gens p) (p_terms p) (Num 0)).

  (** sympy_parsing.py:214-217: [sp.Mul] of the symbols *)
  Definition symbol_product (vs : list string) : sexpr :=
    fold_right (fun s acc => smul (Sym s) acc) (Num 1) vs.

  (** sympy_parsing.py:210-218 *)
  Fixpoint collapse_terms (gens : list string) (l : list (list nat * Q)) (acc : sexpr) : sexpr :=
    match l with
    | [] => acc
    | (ex, q) :: l' =>
        collapse_terms gens l'
          (sadd acc (smul (Num q) (symbol_product (mono_vars split_us gens ex))))
    end.

  (** sympy_parsing.py:201-219 *)
  Definition collapse_expression (e : sexpr) : res sexpr :=
    if numeric e then let? q := float_simp e in Ok (Num q)
    else let p := poly SY (simp SY e) in
         Ok (collapse_terms (p_gens p) (p_terms p) (Num 0)).

  (** sympy_parsing.py:171-178; the argument is a sympy object *)
  Definition check_degree (e : sexpr) (degree : nat) : bool :=
    forallb (fun t => Nat.leb (fold_right plus 0 (fst t)) degree) (p_terms (poly SY (simp SY e))).

  (** sympy_parsing.py:252-257 *)
  Definition check_linear_expression (e : sexpr) : bool :=
    forallb (fun t => Nat.leb (fold_right plus 0 (fst t)) 1) (p_terms (poly SY (simp SY e))).

  (** Entries of [v_names]: the integer 1 or a string. *)
  Inductive vname : Type := VOne | VStr (s : string).
  Definition vname_eqb (a b : vname) : bool :=
    match a, b with
    | VOne, VOne => true
    | VStr s, VStr t => String.eqb s t
    | _, _ => false
    end.

  (** A numpy array with two axes. *)
  Record cmatrix : Type := mkCM { cm_rows : nat; cm_cols : nat; cm_at : nat -> nat -> Q }.
  (** [np.zeros((r, c))] *)
  Definition cm_zero (r c : nat) : cmatrix := mkCM r c (fun _ _ => 0%Q).
  (** [A[i, j] = q]; IndexError outside the shape *)
  Definition cm_set (i j : nat) (q : Q) (A : cmatrix) : res cmatrix :=
    if Nat.ltb i (cm_rows A) && Nat.ltb j (cm_cols A)
    then Ok (mkCM (cm_rows A) (cm_cols A) (upd2 (cm_at A) i j q))
    else Err IndexError.
  (** [np.hstack((A, np.zeros((A.shape[0], n - A.shape[1]))))]; numpy raises
      ValueError when the width is negative *)
  Definition cm_widen (n : nat) (A : cmatrix) : res cmatrix :=
    if Nat.leb (cm_cols A) n
    then Ok (mkCM (cm_rows A) n (fun i j => if Nat.ltb j (cm_cols A) then cm_at A i j else 0%Q))
    else Err ValueError.

  (** The growing name table: [v_names] and [name2idx]. *)
  Record names : Type := mkNames { nm_list : list vname; nm_idx : list (vname * nat) }.

  (** sympy_parsing.py:20-23, 69-73: [1] for the empty monomial *)
  Definition mono_name (vs : list string) : vname :=
    match vs with [] => VOne | _ => VStr (join_us vs) end.

  (** sympy_parsing.py:80-84 *)
  Fixpoint add_prefixes (prefix : string) (l : list string) (nm : names) : string * names :=
    match l with
    | [] => (prefix, nm)
    | el :: l' =>
        let prefix' := prefix ++ "_" ++ el in
        let nm' := if dmem vname_eqb (VStr prefix') (nm_idx nm) then nm
                   else mkNames (nm_list nm ++ [VStr prefix'])
                                (dset vname_eqb (VStr prefix') (List.length (nm_idx nm)) (nm_idx nm)) in
        add_prefixes prefix' l' nm'
    end.

  (** sympy_parsing.py:64-90, one monomial *)
  Definition coeff_term (gens : list string) (row : nat) (t : list nat * Q) (nm : names) (A : cmatrix)
    : res (names * cmatrix) :=
    if existsb (has_char us) gens then Err AssertionError else
    let vs := ssort (mono_vars (fun g => [g]) gens (fst t)) in
    let name := mono_name vs in
    let? r := match dget vname_eqb name (nm_idx nm) with
      | Some i => Ok (nm, A, i)
      | None =>
          let vs' := ssort (split_us (join_us vs)) in
          match vs' with
          | x :: ((_ :: _) as rest0) =>
              let '(prefix, nm') := add_prefixes x rest0 nm in
              if vname_eqb (VStr prefix) name then
                match dget vname_eqb name (nm_idx nm') with
                | Some i => let? A' := cm_widen (List.length (nm_idx nm')) A in Ok (nm', A', i)
                | None => Err KeyError
                end
              else Err AssertionError
          | _ => Err AssertionError
          end
      end in
    let '(nm', A', i) := r in
    let? A'' := cm_set row i (snd t) A' in
    if Nat.eqb (cm_cols A'') (List.length (nm_idx nm')) then Ok (nm', A'') else Err AssertionError.

  (** sympy_parsing.py:63-90 *)
  Fixpoint coeff_terms (gens : list string) (row : nat) (l : list (list nat * Q)) (nm : names) (A : cmatrix)
    : res (names * cmatrix) :=
    match l with
    | [] => Ok (nm, A)
    | t :: l' => let? r := coeff_term gens row t nm A in coeff_terms gens row l' (fst r) (snd r)
    end.

  (** sympy_parsing.py:53-90, the rows of one matrix.  The assertion on
      underscores sits in the loop over the generators of each monomial. *)
  Fixpoint coeff_rows (row : nat) (l : list sexpr) (nm : names) (A : cmatrix) : res (names * cmatrix) :=
    match l with
    | [] => Ok (nm, A)
    | e :: l' =>
        let? r := if numeric e
                  then let? q := float_simp e in
                       let? A' := cm_set row 0 q A in Ok (nm, A')
                  else let p := poly SY (simp SY e) in
                       coeff_terms (p_gens p) row (p_terms p) nm A in
        coeff_rows (S row) l' (fst r) (snd r)
    end.

  (** sympy_parsing.py:48-91, one matrix flattened row by row *)
  Definition coeff_matrix (l : list sexpr) (nm : names) : res (names * cmatrix) :=
    coeff_rows 0 l nm (cm_zero (List.length l) (List.length (nm_list nm))).

  (** sympy_parsing.py:47: the F and then the G matrix of every key *)
  Fixpoint coeff_matrices (l : list (list sexpr * list sexpr)) (nm : names)
      (accF accG : list cmatrix) : res (list cmatrix * list cmatrix * names) :=
    match l with
    | [] => Ok (accF, accG, nm)
    | (F, G) :: l' =>
        let? rF := coeff_matrix F nm in
        let? rG := coeff_matrix G (fst rF) in
        coeff_matrices l' (fst rG) (accF ++ [snd rF]) (accG ++ [snd rG])
    end.

  (** sympy_parsing.py:43-44: [{var : idx for idx, var in enumerate(v_names)}] *)
  Fixpoint enum_idx (i : nat) (l : list vname) (d : list (vname * nat)) : list (vname * nat) :=
    match l with [] => d | v :: l' => enum_idx (S i) l' (dset vname_eqb v i d) end.
  Definition init_names (params : list string) : names :=
    let l := VOne :: map VStr params in mkNames l (enum_idx 0 l []).

  (** sympy_parsing.py:31-92 [sp_v_coeff_matrix]; the argument lists, for every
      key of sp_exp in order, the flattened F and G matrices *)
  Definition sp_v_coeff_matrix (l : list (list sexpr * list sexpr)) (params : list string)
    : res (list cmatrix * list cmatrix * names) :=
    coeff_matrices l (init_names params) [] [].

  (** sympy_parsing.py:289-294; [params] maps names to numbers *)
  Fixpoint eval_parts (l : list string) (params : list (string * Q)) (acc : Q) : res Q :=
    match l with
    | [] => Ok acc
    | s :: l' => match dget String.eqb s params with
                 | Some q => eval_parts l' params (Qred (acc * q)%Q)
                 | None => Err KeyError
                 end
    end.
  Definition evaluate_monomial (v : vname) (params : list (string * Q)) : res Q :=
    match v with
    | VOne => Ok 1%Q
    | VStr s => eval_parts (split_us s) params 1%Q
    end.

  (** sympy_parsing.py:297-301 *)
  Fixpoint vars_to_vector (l : list vname) (params : list (string * Q)) : res (list Q) :=
    match l with
    | [] => Ok []
    | v :: l' => let? q := evaluate_monomial v params in
                 let? r := vars_to_vector l' params in Ok (q :: r)
    end.

  (** sympy_parsing.py:6-28 [const_coeff_expr].  [idx] is the Python variable
      [var_idx], unbound at first and keeping its value from the previous
      monomial when the name is unknown. *)
  Fixpoint const_terms (gens : list string) (l : list (list nat * Q)) (name2idx : list (vname * nat))
      (idx : option nat) (row : nat -> Q) : res (nat -> Q) :=
    match l with
    | [] => Ok row
    | (ex, q) :: l' =>
        if Nat.leb (fold_right plus 0 ex) 1 then
          let name := mono_name (ssort (mono_vars (fun g => [g]) gens ex)) in
          let idx' := match dget vname_eqb name name2idx with Some i => Some i | None => idx end in
          match idx' with
          | None => Err UnboundLocalError
          | Some i => if Nat.ltb i (List.length name2idx)
                      then const_terms gens l' name2idx idx' (upd1 row i q)
                      else Err IndexError
          end
        else Err AssertionError
    end.
  Definition const_coeff_expr (e : sexpr) (name2idx : list (vname * nat)) (x_size : nat)
    : res (list Q) :=
    let n := List.length name2idx in
    let zero := fun _ : nat => 0%Q in
    let? row := if numeric e
                then let? q := float_simp e in
                     if Nat.ltb 0 n then Ok (upd1 zero 0 q) else Err IndexError
                else let p := poly SY (simp SY e) in
                     const_terms (p_gens p) (p_terms p) name2idx None zero in
    if Nat.leb n x_size then Ok (map row (seq 0 n) ++ repeat 0%Q (x_size - n))%list else Err ValueError.

  (** sympy_parsing.py:104-130 [linear_matrix_expr_to_coeff_matrix] *)
  Fixpoint lin_terms (gens : list string) (row : nat) (l : list (list nat * Q))
      (name2idx : list (vname * nat)) (A : cmatrix) : res cmatrix :=
    match l with
    | [] => Ok A
    | (ex, q) :: l' =>
        if Nat.leb (fold_right plus 0 ex) 1 then
          match dget vname_eqb (mono_name (ssort (mono_vars (fun g => [g]) gens ex))) name2idx with
          | None => Err KeyError
          | Some i => let? A' := cm_set row i q A in lin_terms gens row l' name2idx A'
          end
        else Err AssertionError
    end.
  Fixpoint lin_rows (row : nat) (l : list sexpr) (name2idx : list (vname * nat)) (A : cmatrix) : res cmatrix :=
    match l with
    | [] => Ok A
    | e :: l' =>
        let? A' := if numeric e then let? q := float_simp e in cm_set row 0 q A
                   else let p := poly SY (simp SY e) in
                        lin_terms (p_gens p) row (p_terms p) name2idx A in
        lin_rows (S row) l' name2idx A'
    end.
  Definition linear_matrix_expr_to_coeff_matrix (l : list sexpr) (name2idx : list (vname * nat)) : res cmatrix :=
    lin_rows 0 l name2idx (cm_zero (List.length l) (List.length name2idx)).
End Parsing.
