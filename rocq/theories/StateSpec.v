(** Well-formedness of the class-level state: which leaves exist, who owns
    which record.  Used to state that properties hold in every reachable
    state. *)
From Coq Require Import List Arith Bool QArith.
From Verif Require Import Prelude Sympy AlgebraModel Denote FunctionModel.
Import ListNotations.

(** The leaves of a point / expression / record belong to the current problem. *)
Definition own_p (s : state) (p : point) : Prop :=
  wf_p p /\ forall l, In l (keys (pt_dict p)) -> In l (st_plist s).
Definition own_key (s : state) (k : ekey) : Prop :=
  match k with
  | KF f => In f (st_elist s)
  | KG x y => In x (st_plist s) /\ In y (st_plist s)
  | KOne => True
  end.
Definition own_e (s : state) (e : expr) : Prop :=
  wf_e e /\ forall k, In k (keys (ex_dict e)) -> own_key s k.
Definition own_t (s : state) (t : trip) : Prop :=
  own_p s (t_x t) /\ own_p s (t_g t) /\ own_e s (t_f t).

Definition zero_grad (t : trip) : bool :=
  match pt_dict (t_g t) with [] => true | _ => false end.

Definition fun_ok (s : state) (f : nat) (fn : func) : Prop :=
  (if fn_leaf fn then fn_dict fn = [(f, Num 1%Q)] /\ fn_class fn <> CBase
   else fn_class fn = CBase /\ NoDup (keys (fn_dict fn)) /\
        forall g, In g (keys (fn_dict fn)) ->
          In g (st_flist s) /\ exists fg, dget Nat.eqb g (st_funs s) = Some fg /\ fn_leaf fg = true) /\
  Forall (own_t s) (fn_pts fn) /\
  NoDup (map t_id (fn_pts fn)) /\
  Forall (fun t => t_id t < st_next s)%nat (fn_pts fn) /\
  fn_stat fn = filter zero_grad (fn_pts fn) /\
  fn_cons fn = [].

(** Invariant of every state reached from [CircuitOpt()]. *)
Record Inv (s : state) : Prop := mkInv {
  inv_pctr : map lctr (st_plist s) = seq 0 (st_pctr s);
  inv_ectr : map lctr (st_elist s) = seq 0 (st_ectr s);
  inv_pid : Forall (fun l => lid l < st_next s)%nat (st_plist s);
  inv_eid : Forall (fun l => lid l < st_next s)%nat (st_elist s);
  inv_pnd : NoDup (map lid (st_plist s));
  inv_end : NoDup (map lid (st_elist s));
  inv_fid : Forall (fun f => f < st_next s)%nat (keys (st_funs s));
  inv_flist : NoDup (st_flist s);
  inv_funs : forall f, In f (st_flist s) -> exists fn, dget Nat.eqb f (st_funs s) = Some fn /\ fun_ok s f fn
}.

(** [s'] extends [s]: leaves, functions and records are only added. *)
Definition ext_fn (fn fn' : func) : Prop :=
  fn_leaf fn' = fn_leaf fn /\ fn_reuse fn' = fn_reuse fn /\ fn_class fn' = fn_class fn /\
  fn_ctr fn' = fn_ctr fn /\ fn_cons fn' = fn_cons fn /\
  (exists l, fn_pts fn' = fn_pts fn ++ l) /\
  (fn_dict fn' = fn_dict fn \/ fn_dict fn' = prune_dict (fn_dict fn)).
Definition ext (s s' : state) : Prop :=
  (st_next s <= st_next s')%nat /\
  (exists l, st_plist s' = st_plist s ++ l) /\
  (exists l, st_elist s' = st_elist s ++ l) /\
  (exists l, st_flist s' = st_flist s ++ l) /\
  forall f fn, dget Nat.eqb f (st_funs s) = Some fn ->
    exists fn', dget Nat.eqb f (st_funs s') = Some fn' /\ ext_fn fn fn'.
