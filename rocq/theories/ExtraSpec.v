(** Vocabulary for comparing the solvers. *)
From Coq Require Import List Arith Bool String QArith Reals Qreals.
From Verif Require Import Prelude Sympy AlgebraModel Denote FunctionModel CircuitModel SymSpec Spec CertSpec ParsingModel ParsingSpec SolverModel.
Import ListNotations.

(** Ipopt may return the parameter values [r]: some feasible point of the
    program is read back as these values. *)
Definition accepts (n : nlp) (params : list string) (r : env) : Prop :=
  exists a, feasible (nlp_opti n) a /\ dict_parameters (nlp_opti n) a params = map (fun x => (x, r x)) params.

(** Whenever "inv" x is declared so is x, and vice versa for the reciprocals
    that the solvers look up. *)
Definition recips_declared (params : list string) : Prop :=
  forall x, In x (inv_discr_params params) -> In x params /\ In ("inv" ++ x)%string params.

(** There is a dual certificate at the parameter values [r]. *)
Definition certified (p : problem) (s : state) (sr : symres) (r : env) : Prop :=
  exists r1 w m P, In (SObj, w) (sr_exp sr) /\ (forall x, In x (pr_params p) -> r1 x = r x) /\
    certificate r1 sr w (st_pctr s) (st_ectr s) m P.
