(** Checking concrete feasible points with rational arithmetic (used by the
    examples only). *)
From Coq Require Import List Bool QArith Reals Qreals Lra.
From Verif Require Import Prelude Sympy AlgebraModel FunctionModel CircuitModel ParsingModel SolverModel.
Import ListNotations.

Fixpoint cevalq (a : nat -> Q) (e : cexpr) : Q :=
  match e with
  | CNum q => q
  | CVar n => a n
  | CAdd x y => Qred (cevalq a x + cevalq a y)
  | CSub x y => Qred (cevalq a x - cevalq a y)
  | CMul x y => Qred (cevalq a x * cevalq a y)
  end.
Definition holdsq (a : nat -> Q) (c : ccon) : bool :=
  match c with
  | CEq x y => Qeq_bool (cevalq a x) (cevalq a y)
  | CGe x y => Qle_bool (cevalq a y) (cevalq a x)
  end.
Lemma cevalq_ok a b e : (forall i, b i = Q2R (a i)) -> ceval b e = Q2R (cevalq a e).
Proof.
  intros H. induction e; simpl; rewrite ?(Qeq_eqR _ _ (Qred_correct _)), ?Q2R_plus, ?Q2R_minus, ?Q2R_mult, ?IHe1, ?IHe2; auto.
Qed.
Lemma holdsq_ok a b l : (forall i, b i = Q2R (a i)) -> forallb (holdsq a) l = true -> Forall (holds b) l.
Proof.
  intros H F. rewrite forallb_forall in F. apply Forall_forall. intros c Hc. specialize (F c Hc). destruct c as [x y|x y]; simpl in *; rewrite !(cevalq_ok a b _ H).
  - apply Qeq_eqR, Qeq_bool_eq, F.
  - apply Rle_ge, Qle_Rle, Qle_bool_iff, F.
Qed.
