(** C01-C06: point and expression arithmetic, Gram representation, numbering.
    [v] ranges over all dimensions, leaf values and parameter values; [SY]
    over all implementations of sympy's services satisfying [sympy_ok]. *)
From Coq Require Import List Arith Bool String QArith Reals Qreals Lra Lia.
From Verif Require Import Prelude PreludeFacts Sympy SympyFacts AlgebraModel Denote AlgebraFacts
  FunctionModel CircuitModel CertSpec GramFacts SymFacts StateSpec SessionModel StateFacts CertFacts AlgebraProps.
Import ListNotations.
Local Open Scope R_scope.

(** ** C01 *)
Theorem c01_point_arithmetic SY : sympy_ok SY ->
  forall v p q c, wf_p p -> wf_p q ->
    den_p v (padd SY p q) = vadd (den_p v p) (den_p v q) /\
    den_p v (psub SY p q) = vsub (den_p v p) (den_p v q) /\
    den_p v (pneg SY p) = vopp (den_p v p) /\
    den_p v (pscale SY c p) = vscal (ev (v_env v) c) (den_p v p) /\
    (forall x, Qeq_bool x 0 = false ->
       exists p', pdiv SY p (Num x) = Ok p' /\ den_p v p' = vscal (/ Q2R x) (den_p v p)) /\
    (forall x, Qeq_bool x 0 = true -> pdiv SY p (Num x) = Err ZeroDivisionError) /\
    wf_p (padd SY p q) /\ wf_p (psub SY p q) /\ wf_p (pneg SY p) /\ wf_p (pscale SY c p).
Proof. exact (point_arithmetic SY). Qed.
Print Assumptions c01_point_arithmetic.
Example c01_case : exists p q : point, wf_p p /\ wf_p q /\ p <> q /\
  keys (pt_dict (padd sympy0 p q)) = [mkLeaf 0 0; mkLeaf 1 1].
Proof.
  exists (leaf_point (mkLeaf 0 0)), (pscale sympy0 (Sym "h") (leaf_point (mkLeaf 1 1))).
  repeat split; try (repeat constructor; simpl; intuition; discriminate); try discriminate.
Qed.

(** ** C02 *)
Theorem c02_inner_products SY : sympy_ok SY ->
  forall v p q, wf_p p -> wf_p q ->
    den_e v (pmul SY p q) = dot (v_dim v) (den_p v p) (den_p v q) /\
    den_e v (pmul SY q p) = den_e v (pmul SY p q) /\
    (exists e, ppow SY p 2 = Ok e /\ den_e v e = nsq (v_dim v) (den_p v p) /\ 0 <= den_e v e).
Proof. exact (inner_products SY). Qed.
Print Assumptions c02_inner_products.
Example c02_case : let p := psub sympy0 (leaf_point (mkLeaf 0 0)) (leaf_point (mkLeaf 1 1)) in
  wf_p p /\ List.length (ex_dict (pmul sympy0 p p)) = 4%nat.
Proof. split; [repeat constructor; simpl; intuition; discriminate|reflexivity]. Qed.

(** ** C03 *)
Theorem c03_expression_arithmetic SY : sympy_ok SY ->
  forall v a b c k, wf_e a -> wf_e b ->
    den_e v (eadd SY a b) = den_e v a + den_e v b /\
    den_e v (esub SY a b) = den_e v a - den_e v b /\
    den_e v (eneg SY a) = - den_e v a /\
    den_e v (escale SY c a) = ev (v_env v) c * den_e v a /\
    den_e v (eaddc SY a k) = den_e v a + Q2R k /\
    den_e v (esubc SY a k) = den_e v a - Q2R k /\
    den_e v (ersubc SY k a) = Q2R k - den_e v a /\
    (forall x, Qeq_bool x 0 = false ->
       exists e, ediv SY a (Num x) = Ok e /\ den_e v e = den_e v a / Q2R x) /\
    wf_e (eadd SY a b) /\ wf_e (esub SY a b) /\ wf_e (eneg SY a) /\ wf_e (escale SY c a) /\
    wf_e (eaddc SY a k) /\ wf_e (esubc SY a k) /\ wf_e (ersubc SY k a).
Proof. exact (expression_arithmetic SY). Qed.
Print Assumptions c03_expression_arithmetic.
Example c03_case : let a := leaf_expr (mkLeaf 0 0) in
  wf_e a /\ ersubc sympy0 3 a = mkExpr false [(KF (mkLeaf 0 0), Num (-1)); (KOne, Num 3)].
Proof. split; [repeat constructor; simpl; intuition|vm_compute; reflexivity]. Qed.

(** ** C04: the i-th leaf point (value) of the current problem is
    [nth i (st_plist s)] ([nth i (st_elist s)]). *)
Theorem c04_gram_representation SY : sympy_ok SY ->
  forall l e, let se := run SY session0 l in let s := se_st se in
    In e (se_exps se) -> no_const e -> plain SY e ->
    exists w, expression_to_matrix SY e (st_pctr s) (st_ectr s) = Ok w /\
      (forall a b, wG w a b = wG w b a) /\
      forall v, den_e v e =
        rsum (st_ectr s) (fun k => ev (v_env v) (wF w k) * v_fv v (nth k (st_elist s) dleaf)) +
        rsum (st_pctr s) (fun a => rsum (st_pctr s) (fun b => ev (v_env v) (wG w a b) *
          dot (v_dim v) (v_pt v (nth a (st_plist s) dleaf)) (v_pt v (nth b (st_plist s) dleaf)))).
Proof. exact (gram_representation SY). Qed.
Print Assumptions c04_gram_representation.
Definition c04_prog : list op :=
  [ONewProblem; OPoint; OConvex; OOracle 0 0; OPMul 0 1; OEScale (Sym "eta") 1; OESub 2 0].
Example c04_case : let se := run sympy0 session0 c04_prog in
  exists e, In e (se_exps se) /\ no_const e /\ plain sympy0 e /\ List.length (ex_dict e) = 2%nat.
Proof.
  eexists. split; [right; right; right; left; reflexivity|]. split; [|split; [|reflexivity]].
  - intros w r Hw; vm_compute in Hw; repeat destruct Hw as [Hw|Hw]; try discriminate Hw; destruct Hw.
  - unfold plain. intros k w [H|[H|[]]]; injection H; intros <- _; vm_compute; easy.
Qed.

(** ** C05: refuted.  Two expressions differing by a constant get the same
    matrices, so the constant is lost ... *)
Theorem c05_constants_lost SY : sympy_ok SY ->
  forall e k dimG dimF, ~ In KOne (keys (ex_dict e)) ->
    expression_to_matrix SY (eaddc SY e k) dimG dimF = expression_to_matrix SY e dimG dimF /\
    forall v, den_e v (eaddc SY e k) = den_e v e + Q2R k.
Proof. exact (constants_lost SY). Qed.
Print Assumptions c05_constants_lost.
(** ... and a certificate then proves a false bound: with the constraint
    x^2 - 1 <= 0 and the metric x^2, multiplier 1 satisfies all equations
    given to the solver, although x = 1 has metric 1. *)
Theorem c05_constants_survive_refuted :
  exists l sr s' wm r P v, let se := run sympy0 session0 l in
    symbolic sympy0 (se_pb se) (se_st se) = (Ok sr, s') /\ In (SObj, wm) (sr_exp sr) /\
    certificate r sr wm (st_pctr (se_st se)) (st_ectr (se_st se)) 1 P /\
    v_env v = r /\ constraints_hold v (se_pb se) /\ consistent v (fun _ => Spec.mkFun (fun _ => True) (fun _ => 0)) (se_st se) /\
    exists m, pr_metric (se_pb se) = Some m /\ den_e v m > 0.
Proof. exact constants_survive_refuted. Qed.
Print Assumptions c05_constants_survive_refuted.

(** ** C06 *)
Theorem c06_leaf_numbering SY :
  forall l, let s := se_st (run SY session0 l) in
    (forall i, (i < List.length (st_plist s))%nat -> lctr (nth i (st_plist s) dleaf) = i) /\
    st_pctr s = List.length (st_plist s) /\ NoDup (st_plist s) /\ NoDup (map lid (st_plist s)) /\
    (forall i, (i < List.length (st_elist s))%nat -> lctr (nth i (st_elist s) dleaf) = i) /\
    st_ectr s = List.length (st_elist s) /\ NoDup (st_elist s) /\ NoDup (map lid (st_elist s)) /\
    (* a new leaf gets the next index *)
    (exists x, fst (new_point s) = Ok (leaf_point x) /\ lctr x = List.length (st_plist s) /\
       ~ In (lid x) (map lid (st_plist s))) /\
    (exists x, fst (new_expr s) = Ok (leaf_expr x) /\ lctr x = List.length (st_elist s) /\
       ~ In (lid x) (map lid (st_elist s))) /\
    (* every object the program holds only uses leaves of this list *)
    (forall p x, In p (se_pts (run SY session0 l)) -> In x (keys (pt_dict p)) -> In x (st_plist s)).
Proof. exact (leaf_numbering SY). Qed.
Print Assumptions c06_leaf_numbering.
Example c06_case : let s := se_st (run sympy0 session0 ([OPoint; OPoint] ++ c04_prog)) in
  st_plist s = [mkLeaf 2 0; mkLeaf 5 1] /\ st_elist s = [mkLeaf 4 0].
Proof. vm_compute. easy. Qed.
