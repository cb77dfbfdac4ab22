(** Feasible points of the nonlinear program of solve_ipopt are certificates. *)
From Coq Require Import List Arith Bool String Ascii QArith Reals Qreals Lra Lia Permutation.
From Verif Require Import Prelude PreludeFacts Sympy SympyFacts AlgebraModel Denote AlgebraFacts FunctionModel CircuitModel SymSpec
  GramFacts SymFacts Spec ClassSpec CertSpec StateSpec SessionModel StateFacts CertFacts RepeatFacts SymbolFacts ParsingModel
  ParsingSpec SolverModel ParsingFacts SolverSpec SolverFacts IpoptFacts IpoptTail.
Import ListNotations.
Local Open Scope nat_scope.

(** * keys of the assembled table *)
Lemma number_nth {A} (l : list A) : forall i k a, In (k, a) (number i l) <-> (i <= k /\ nth_error l (k - i) = Some a).
Proof.
  induction l as [|b l IH]; intros i k a; simpl.
  - split; [easy|]. intros [_ H]. destruct (k - i); easy.
  - rewrite IH. split.
    + intros [[= -> ->]|[H1 H2]]; [split; [lia|]; rewrite Nat.sub_diag; easy|].
      split; [lia|]. replace (k - i) with (S (k - S i)) by lia. easy.
    + intros [H1 H2]. destruct (k - i) eqn:E; simpl in H2.
      * left. injection H2 as ->. f_equal. lia.
      * right. split; [lia|]. replace (k - S i) with n by lia. easy.
Qed.

Definition key_place (p : problem) (sizes : list nat) (f i j : nat) : Prop :=
  (f = 0 /\ j = 0 /\ i < List.length (ineqs p)) \/
  (exists k n, nth_error sizes k = Some n /\ f = k + shift_of p /\ i < n /\ j < n /\ i <> j).

Lemma table_keys SY p fns b f i j : In (SK b f i j) (map fst (constraint_table SY p fns)) <->
  (b = 0 /\ key_place p (map (fun fn => List.length (fn_pts fn)) fns) f i j) \/
  (b = 1 /\ f = 0 /\ j = 0 /\ i < List.length (eqs p)).
Proof.
  unfold constraint_table. rewrite !map_app, !in_app_iff. unfold extra_ineq_table, eq_table. rewrite !map_map. simpl.
  assert (N : forall (A : Type) (l : list A) (g : nat -> skey) x, In x (map (fun ie => g (fst ie)) (number 0 l)) <-> exists i, i < List.length l /\ g i = x).
  { intros A l g x. rewrite in_map_iff. split.
    - intros [[k a] [E H]]. apply number_nth in H as [_ H]. rewrite Nat.sub_0_r in H. exists k. split; [|exact E]. apply nth_error_Some. rewrite H. easy.
    - intros [k [H E]]. destruct (nth_error l k) as [a|] eqn:En; [|apply nth_error_None in En; lia].
      exists (k, a). split; [exact E|]. apply number_nth. rewrite Nat.sub_0_r. split; [lia|easy]. }
  rewrite (N expr (ineqs p) (fun i => SK 0 0 i 0)), (N expr (eqs p) (fun i => SK 1 0 i 0)).
  assert (C : In (SK b f i j) (map fst (class_table SY p fns)) <->
     b = 0 /\ exists k n, nth_error (map (fun fn => List.length (fn_pts fn)) fns) k = Some n /\ f = k + shift_of p /\ i < n /\ j < n /\ i <> j).
  { unfold class_table. rewrite in_map_iff. split.
    - intros [[k r] [E H]]. simpl in E. subst k. apply in_flat_map in H as [[k fn] [H1 H2]]. apply number_nth in H1 as [_ H1].
      rewrite Nat.sub_0_r in H1. unfold fun_table in H2. apply in_map_iff in H2 as [[i' j'] [E H2]]. simpl in E. injection E as <- <- <- <- <-.
      apply pairs_spec in H2. split; [easy|]. exists k, (List.length (fn_pts fn)).
      split; [apply (map_nth_error (fun fn => List.length (fn_pts fn)) _ _ H1)|]. easy.
    - intros [-> (k & n & H1 & -> & H2)]. destruct (nth_error fns k) as [fn|] eqn:En.
      2:{ apply nth_error_None in En. assert (Hs : nth_error (map (fun fn => List.length (fn_pts fn)) fns) k <> None) by (rewrite H1; easy).
          apply nth_error_Some in Hs. rewrite map_length in Hs. lia. }
      rewrite (map_nth_error (fun fn => List.length (fn_pts fn)) _ _ En) in H1. injection H1 as <-.
      eexists. split; [|apply in_flat_map; exists (k, fn); split; [apply number_nth; rewrite Nat.sub_0_r; split; [lia|exact En]|]].
      + instantiate (1 := (SK 0 (k + shift_of p) i j, interp SY fn i j)). easy.
      + unfold fun_table. apply in_map_iff. exists (i, j). split; [easy|]. apply pairs_spec. easy. }
  rewrite C. unfold key_place. split.
  - intros [[k [H E]]|[[-> H]|[k [H E]]]].
    + injection E as <- <- <- <-. left. split; [easy|]. left. easy.
    + left. split; [easy|]. right. exact H.
    + injection E as <- <- <- <-. right. easy.
  - intros [[-> [(-> & -> & H)|H]]|(-> & -> & -> & H)].
    + left. exists i. easy.
    + right. left. easy.
    + right. right. exists i. easy.
Qed.

Lemma eqs_ineqs_length p : List.length (ineqs p) + List.length (eqs p) = List.length (pr_cons p).
Proof.
  unfold ineqs, eqs. rewrite !map_length. induction (pr_cons p) as [|c l IH]; simpl; [easy|].
  destruct (is_ineq_kind (c_kind c)); simpl; lia.
Qed.
Lemma ineq_size_ok p sr : sr_E sr = List.length (eqs p) -> ineq_size_of p sr = List.length (ineqs p).
Proof.
  intros E. pose proof (eqs_ineqs_length p) as L. unfold ineq_size_of. destruct (pr_cons p) eqn:Ec; [simpl in L; lia|]. rewrite E. lia.
Qed.
Lemma eq_size_ok p sr : sr_E sr = List.length (eqs p) -> eq_size_of p sr = List.length (eqs p).
Proof.
  intros E. pose proof (eqs_ineqs_length p) as L. unfold eq_size_of. destruct (pr_cons p) eqn:Ec; [simpl in L; lia|]. rewrite E. easy.
Qed.
Lemma shift_ok p : (if Nat.leb 1 (List.length (ineqs p)) then 1 else 0) = shift_of p.
Proof. unfold shift_of. destruct (ineqs p); easy. Qed.

(** * change of the symbol assignment *)
Definition with_env (v : valuation) (r : env) : valuation := mkVal (v_dim v) (v_pt v) (v_fv v) r.
Definition env_on (r r' : env) (l : list string) : Prop := forall s, In s l -> r s = r' s.
Lemma den_p_env v r l p : env_on (v_env v) r l -> only_params l (pt_syms p) -> den_p (with_env v r) p = den_p v p.
Proof.
  intros H Hp. unfold den_p, den_pd. apply FunctionalExtensionality.functional_extensionality. intros k. simpl.
  apply lsum_ext. intros kv Hkv. f_equal. apply ev_free_ext. intros s Hs. symmetry. apply H, Hp. exists kv. easy.
Qed.
Lemma den_e_env v r l e : env_on (v_env v) r l -> only_params l (ex_syms e) -> den_e (with_env v r) e = den_e v e.
Proof.
  intros H Hp. unfold den_e, den_ed. simpl. apply lsum_ext. intros [k c] Hkv. simpl. f_equal.
  apply ev_free_ext. intros s Hs. symmetry. apply H, Hp. exists (k, c). easy.
Qed.
Lemma consistent_env v r p s phi : env_on (v_env v) r (pr_params p) -> declared p s -> consistent v phi s -> consistent (with_env v r) phi s.
Proof.
  intros H (_ & _ & D) C f fn Hf E El. destruct (C f fn Hf E El) as (A & B & S). split; [exact A|]. split; [exact B|].
  rewrite Forall_forall in *. intros t Ht. destruct (D f fn t Hf E El Ht) as (D1 & D2 & D3). specialize (S t Ht).
  unfold rec_sampled in *. rewrite !(den_p_env v r _ _ H) by assumption. rewrite (den_e_env v r _ _ H) by assumption. exact S.
Qed.
Lemma constraints_env v r p s : env_on (v_env v) r (pr_params p) -> declared p s -> constraints_hold v p -> constraints_hold (with_env v r) p.
Proof.
  intros H (_ & D & _) C c Hc. specialize (C c Hc). rewrite (den_e_env v r _ _ H (D c Hc)). exact C.
Qed.

Lemma param_names p : Forall good_param (pr_params p) -> forall n, In n (pr_params p) -> has_char us n = false.
Proof. intros H n Hn. rewrite Forall_forall in H. destruct (H n Hn) as (A & _). apply simple_has, A. Qed.

Lemma pt_all_params P p l : only_params l (pt_syms p) -> Forall P l -> pt_all P p.
Proof. intros H F. rewrite Forall_forall in F. intros kv s Hkv Hs. apply F, H. exists kv. easy. Qed.
Lemma ex_all_params P e l : only_params l (ex_syms e) -> Forall P l -> ex_all P e.
Proof. intros H F. rewrite Forall_forall in F. intros kv s Hkv Hs. apply F, H. exists kv. easy. Qed.

(* keeps tactics from running the concrete prefix of the head *)
Local Opaque ipopt_head.

Section Proof_.
  Context {SY : sympy} (OK : sympy_ok SY).

  (** everything known about the program after assembling it *)
  Definition tail_facts (p : problem) (s : state) (P : cavar) (o1 : opti) (sr : symres) (o : opti) (obj : cexpr)
      (o2 : opti) (w : fgw) (m : expr) : Prop :=
    let sizes := map (fun fn => List.length (fn_pts fn)) (funs_of s (leaf_funs (st_flist s) s)) in
    let dimG := st_pctr s in let dimF := st_ectr s in
      pr_metric p = Some m /\ In (SObj, w) (sr_exp sr) /\
      sr_E sr = List.length (eqs p) /\
      (forall f i j, In (SK 0 f i j) (keys (sr_exp sr)) <-> key_place p sizes f i j) /\
      ipopt_multipliers p sr sizes o1 = Ok (tt, o2) /\
      Good o1 /\ Good o2 /\ St o /\ hx o2 o /\
      (forall n, has_char us n = false -> dget String.eqb n (op_vars o) = dget String.eqb n (op_vars o2)) /\
      (forall a, feasible o a -> feasible o2 a /\
         match_F sr w dimF (base_env (op_vars o2) a) /\ match_G sr w dimG (base_env (op_vars o2) a) (P_val P a)) /\
      (forall a, feasible o2 a ->
         match_F sr w dimF (base_env (op_vars o2) a) -> match_G sr w dimG (base_env (op_vars o2) a) (P_val P a) ->
         exists a', agree (op_next o2) a a' /\ feasible o a') /\
      exists e, pr_obj p = Some e /\ forall a, feasible o a -> ceval a obj = (- ev (long (plain_env (op_vars o2) a)) e)%R.
  Lemma nlp_tail p s s1 P o1 sr obj o : Inv s -> Forall good_param (pr_params p) -> declared p s ->
    symbolic SY p s = (Ok sr, s1) ->
    ipopt_tail SY p sr (rec_sizes (leaf_funs (st_flist s) s) s1) (st_pctr s) (st_ectr s) P o1 = Ok (obj, o) ->
    Good o1 -> dget String.eqb "P"%string (op_vars o1) = Some P -> cv_rows P = st_pctr s -> cv_cols P = st_pctr s ->
    exists o2 w m, tail_facts p s P o1 sr o obj o2 w m.
  Proof using OK.
    intros I Hg Hd Es Et G1 EP Er Ec. set (funs := leaf_funs (st_flist s) s) in *.
    assert (Hnd : NoDup funs) by (apply leaf_funs_nodup, (inv_flist s I)).
    assert (Hin : forall f, In f funs -> In f (st_flist s)) by (intros f Hf; apply leaf_funs_in in Hf; easy).
    assert (Sizes : rec_sizes funs s1 = map (fun fn => List.length (fn_pts fn)) (funs_of s funs)).
    { assert (Q : forall f, In f funs -> exists fn fn', dget Nat.eqb f (st_funs s) = Some fn /\ dget Nat.eqb f (st_funs s1) = Some fn' /\ fn_pts fn' = fn_pts fn).
      { unfold symbolic in Es. fold funs in Es. unfold circuit_symbolic_matrices in Es.
        apply bind_ok in Es as [[t1 iq] [st1 [H1 Es]]]. apply lift_ok in H1 as [H1 ->].
        apply bind_ok in Es as [t2 [st2 [H2 Es]]].
        apply bind_ok in Es as [u [st3 [H3 Es]]]. apply assertM_ok in H3 as [H3 ->].
        destruct (pr_metric p) as [m|] eqn:Em; [|discriminate].
        apply bind_ok in Es as [wm [st4 [H4 Es]]]. apply lift_ok in H4 as [H4 ->]. injection Es as _ <-.
        destruct (fun_loop_state SY _ _ _ _ _ _ _ _ _ Hnd H2) as (_ & _ & _ & _ & P5).
        intros f Hf. destruct (P5 f Hf) as (fn & es & E1 & _ & _ & E2 & _). exists fn, (set_cons fn (fn_cons fn ++ es)). easy. }
      clear -Q. unfold rec_sizes, funs_of. induction funs as [|f l IH]; [easy|]. simpl.
      destruct (Q f (or_introl eq_refl)) as (fn & fn' & E1 & E2 & E3). rewrite E1, E2, E3. simpl. f_equal. apply IH.
      intros; apply Q; simpl; auto. }
    rewrite Sizes in Et. set (sizes := map (fun fn => List.length (fn_pts fn)) (funs_of s funs)) in *.
    assert (HF : Forall2 (fun f fn => dget Nat.eqb f (st_funs s) = Some fn /\ fresh_fun fn) funs (funs_of s funs)).
    { assert (G : forall l, (forall f, In f l -> In f (st_flist s)) ->
        Forall2 (fun f fn => dget Nat.eqb f (st_funs s) = Some fn /\ fresh_fun fn) l (funs_of s l)).
      { induction l as [|f l IH]; intros Hl; simpl; [constructor|].
        destruct (inv_funs s I f (Hl f (or_introl eq_refl))) as [fn [E Hok]]. rewrite E. constructor.
        - split; [easy|]. destruct Hok as (_ & _ & A & _ & _ & B). split; easy.
        - apply IH. intros; apply Hl; simpl; auto. }
      apply G, Hin. }
    assert (Es0 := Es). unfold symbolic in Es. fold funs in Es.
    destruct (csm_spec SY _ _ _ _ _ _ _ _ Es Hnd HF) as (W & m & wm & Em & Ew & Ex & F2 & Hsum & EE & _).
    assert (Kk : forall k, In k (keys (sr_exp sr)) <-> In k (map fst (constraint_table SY p (funs_of s funs))) \/ k = SObj).
    { intros k. rewrite Ex. unfold keys. rewrite map_app, in_app_iff, (stores_keys SY _ _ _ _ F2). simpl. split; intros [Q|Q]; auto.
      destruct Q as [<-|[]]; auto. }
    assert (Hobj : obj_weights sr = Ok wm).
    { unfold obj_weights. rewrite Ex.
      assert (Hno : ~ In SObj (keys W)).
      { unfold keys. rewrite (stores_keys SY _ _ _ _ F2). intros Hb. unfold constraint_table in Hb. rewrite !map_app, !in_app_iff in Hb.
        destruct Hb as [Hb|[Hb|Hb]].
        - unfold extra_ineq_table in Hb. rewrite map_map in Hb. apply in_map_iff in Hb as [? [? _]]. easy.
        - unfold class_table in Hb. apply in_map_iff in Hb as [x [E Hb]]. apply in_flat_map in Hb as [y [_ Hb]].
          unfold fun_table in Hb. apply in_map_iff in Hb as [z [<- _]]. easy.
        - unfold eq_table in Hb. rewrite map_map in Hb. apply in_map_iff in Hb as [? [? _]]. easy. }
      clear -Hno. induction W as [|[k w] W IH]; simpl; [easy|]. simpl in Hno.
      destruct k; simpl; [apply IH; tauto|tauto]. }
    assert (Simple : Forall simple_name (pr_params p)).
    { eapply Forall_impl; [|exact Hg]. intros a Ha. apply Ha. }
    destruct Hd as (D1 & D2 & D3).
    assert (Sw : simple_fg wm) by (eapply expression_to_matrix_all; [exact Ew|]; eapply ex_all_params; [exact (D1 m Em)|exact Simple]).
    assert (Ss : simple_fg (sr_sum sr)).
    { assert (Pl : forall f i j, simple_name (dual_name (lamb_prefix f) i j)).
      { intros f i j. apply simple_has. apply dual_nous. apply lamb_prefix_nous. }
      assert (Pn : forall i j, simple_name (dual_name "nu0" i j)).
      { intros i j. apply simple_has. apply dual_nous. reflexivity. }
      apply (csm_all OK simple_name _ _ Pl Pn p funs s sr s1 Es Hnd).
      - intros f Hf. destruct (inv_funs s I f (Hin f Hf)) as [fn [E Hok]]. exists fn. split; [exact E|].
        split; [apply Hok|]. intros t Ht. apply leaf_funs_in in Hf as [Hf [fn' [E' El]]]. rewrite E in E'. injection E' as <-.
        destruct (D3 f fn t Hf E El Ht) as (A & B & C). split; [|split]; eauto using pt_all_params, ex_all_params.
      - intros c Hc. eapply ex_all_params; [exact (D2 c Hc)|exact Simple]. }
    assert (PB := wfo_vars _ (proj1 G1) _ _ EP). rewrite Er, Ec in PB.
    destruct (tail_spec OK p sr sizes (st_pctr s) (st_ectr s) P o1 obj o wm G1 Er Ec PB Hobj Ss Sw Et)
      as (o2 & T1 & T2 & T3 & T4 & T5 & T6 & T7 & T8).
    exists o2, wm, m. unfold tail_facts. fold funs. fold sizes. split; [exact Em|].
    split; [rewrite Ex; apply in_or_app; right; simpl; auto|]. split; [exact EE|]. split.
    { intros f i j. rewrite Kk, table_keys. fold sizes. split.
      - intros [[[_ Q]|[Q _]]|Q]; [exact Q|discriminate|discriminate].
      - intros Q. left. left. easy. }
    split; [exact T1|]. split; [exact G1|]. split; [exact T2|]. split; [exact T3|]. split; [exact T4|]. split; [exact T5|]. split; [exact T6|].
    split; [exact T7|exact T8].
  Qed.

  Lemma nlp_split p b s n s' : Inv s -> Forall good_param (pr_params p) -> declared p s ->
    ipopt_nlp SY p b s = (Ok n, s') ->
    exists P o1 o2 w m,
      ipopt_head (pr_params p) b (st_pctr s) opti0 = Ok (P, o1) /\
      symbolic SY p s = (Ok (nlp_sym n), s') /\
      tail_facts p s P o1 (nlp_sym n) (nlp_opti n) (nlp_obj n) o2 w m.
  Proof using OK.
    intros I Hg Hd H. unfold ipopt_nlp in H.
    destruct (ipopt_head (pr_params p) b (st_pctr s) opti0) as [[P o1]|] eqn:Eh; [|discriminate].
    destruct (symbolic SY p s) as [[sr|] s1] eqn:Es; [|discriminate].
    destruct (ipopt_tail SY p sr (rec_sizes (leaf_funs (st_flist s) s) s1) (st_pctr s) (st_ectr s) P o1) as [[obj o]|] eqn:Et; [|discriminate].
    injection H as <- <-. cbn [nlp_sym nlp_opti nlp_obj].
    destruct (head_spec _ _ _ _ _ (param_names p Hg) Eh) as (G1 & Hps & EP & Er & Ec).
    destruct (nlp_tail p s s1 P o1 sr obj o I Hg Hd Es Et G1 EP Er Ec) as (o2 & w & m & T).
    exists P, o1, o2, w, m. split; [reflexivity|]. split; [reflexivity|exact T].
  Qed.

  (** values of the multipliers under [base_env] *)
  Lemma dual_value o a name r c i j : block_is o name r c -> is_dual name = true ->
    has_char "|"%char name = false -> is_dual (dual_name name i j) = true -> i < r -> j < c ->
    exists v, dget String.eqb name (op_vars o) = Some v /\ In (cv_at v i j) (cv_ids v) /\
      base_env (op_vars o) a (dual_name name i j) = a (cv_at v i j).
  Proof using Type.
    intros (v & E & Er & Ec) Hd Hb Hd2 Hi Hj. exists v. split; [exact E|]. subst r c. split; [apply at_in; easy|].
    unfold base_env. rewrite Hd2, (parse_dual_name name i j Hb), E.
    apply Nat.ltb_lt in Hi, Hj. rewrite Hi, Hj. easy.
  Qed.
  Lemma nonneg_block_is o name r c : nonneg_is o name r c -> block_is o name r c.
  Proof using Type. intros (v & A & B & C & _). exists v. easy. Qed.
  Lemma dual_is_dual f i j : is_dual (dual_name (lamb_prefix f) i j) = true.
  Proof using Type. unfold is_dual, dual_name, lamb_prefix. simpl. destruct (nat_str f); easy. Qed.
  Lemma nonneg_value o a f r c i j : nonneg_is o (lamb_prefix f) r c -> feasible o a -> i < r -> j < c ->
    (0 <= base_env (op_vars o) a (dual_name (lamb_prefix f) i j))%R.
  Proof using Type.
    intros Hn Ha Hi Hj.
    destruct (dual_value o a (lamb_prefix f) r c i j (nonneg_block_is _ _ _ _ Hn) (lamb_dual f) (lamb_prefix_nobar f) (dual_is_dual f i j) Hi Hj)
      as (v & E & Hin & ->).
    destruct Hn as (v' & E' & _ & _ & Hc). rewrite E in E'. injection E' as <-. apply Hc in Hin.
    unfold feasible in Ha. rewrite Forall_forall in Ha. apply Ha in Hin. simpl in Hin. rewrite Q2R_0' in Hin. lra.
  Qed.

  Theorem feasible_certificate p b s n s' a : Inv s -> Forall good_param (pr_params p) -> declared p s ->
    ipopt_nlp SY p b s = (Ok n, s') -> feasible (nlp_opti n) a ->
    symbolic SY p s = (Ok (nlp_sym n), s') /\
    exists w r L, In (SObj, w) (sr_exp (nlp_sym n)) /\
      certificate r (nlp_sym n) w (st_pctr s) (st_ectr s) (st_pctr s) L /\
      (forall x, In x (pr_params p) -> In (x, r x) (dict_parameters (nlp_opti n) a (pr_params p))) /\
      (forall e, pr_obj p = Some e -> only_params (pr_params p) (fun s => In s (free e)) ->
         ceval a (nlp_obj n) = (- ev r e)%R).
  Proof using OK.
    intros I Hg Hd H Ha.
    destruct (nlp_split p b s n s' I Hg Hd H) as (P & o1 & o2 & w & m & Eh & Es & T).
    destruct (head_spec _ _ _ _ _ (param_names p Hg) Eh) as (_ & Hps & EP & _ & _). clear Eh H.
    destruct T as (Em & Ew & EE & Kk & Emu & G1 & G2 & So & X & Hs & T1 & T2 & e0 & Eo & T3).
    split; [exact Es|]. exists w, (base_env (op_vars o2) a), (P_val P a). split; [exact Ew|].
    destruct (T1 a Ha) as (Ha2 & MF & MG).
    destruct (multipliers_spec _ _ _ _ _ _ Emu G1) as (_ & _ & M1 & M2 & M3 & M4).
    rewrite (ineq_size_ok _ _ EE) in *. rewrite shift_ok in M4.
    assert (Hpar : forall x, In x (pr_params p) -> exists v, dget String.eqb x (op_vars o2) = Some v /\ cv_rows v = 1 /\ cv_cols v = 1 /\
       base_env (op_vars o2) a x = a (cv_base v) /\ plain_env (op_vars o2) a x = a (cv_base v)).
    { intros x Hx. assert (Hgx := Hg). rewrite Forall_forall in Hgx. destruct (Hgx x Hx) as (Q1 & Q2 & Q3).
      destruct (Hps x Hx Q3) as (v & E & R & C). exists v. rewrite <- (M1 x Q2) in E. split; [exact E|]. split; [exact R|]. split; [exact C|].
      unfold base_env. rewrite Q2. unfold plain_env. rewrite E, R, C. easy. }
    split; [constructor|].
    - intros f i j Hk. apply Kk in Hk as [(-> & -> & Hi)|(k & sz & Hn & -> & Hi & Hj & _)].
      + eapply nonneg_value; [apply M2; lia|exact Ha2|exact Hi|lia].
      + rewrite Nat.add_comm. eapply nonneg_value; [apply (M4 k sz Hn)|exact Ha2|exact Hi|exact Hj].
    - exact MF.
    - exact MG.
    - split.
      + intros x Hx. destruct (Hpar x Hx) as (v & E & R & C & B & _). unfold dict_parameters. apply in_flat_map. exists x. split; [exact Hx|].
        rewrite Hs by (apply (param_names p Hg x Hx)). rewrite E, R, C, B. simpl. auto.
      + intros e He Hsy. rewrite He in Eo. injection Eo as <-. rewrite (T3 a Ha). f_equal. apply ev_free_ext. intros x Hx. apply Hsy in Hx.
        destruct (Hpar x Hx) as (v & E & R & C & B & B'). rewrite B.
        rewrite long_simple by (apply simple_has, (param_names p Hg x Hx)). exact B'.
  Qed.

  (** C23 *)
  Theorem ipopt_sound s p b n s' a v phi :
    Inv s -> own_pb s p -> Forall good_param (pr_params p) -> declared p s ->
    ipopt_nlp SY p b s = (Ok n, s') ->
    feasible (nlp_opti n) a ->
    (forall x q, In (x, q) (dict_parameters (nlp_opti n) a (pr_params p)) -> v_env v x = q) ->
    consistent v phi s -> constraints_hold v p -> constant_free p s ->
    exists e, pr_metric p = Some e /\ (den_e v e <= 0)%R.
  Proof using OK.
    intros I HB Hg Hd H Ha Hv Hc Hh Hcf.
    destruct (feasible_certificate p b s n s' a I Hg Hd H Ha) as (Es & w & r & L & Ew & C & Hr & _).
    assert (Hon : env_on (v_env v) r (pr_params p)) by (intros x Hx; apply Hv, Hr, Hx).
    destruct (certificate_sound SY OK s p (nlp_sym n) s' w (st_pctr s) L (with_env v r) phi I HB Es Ew C) as (e & Em & He).
    - eapply consistent_env; eauto.
    - eapply constraints_env; eauto.
    - exact Hcf.
    - exists e. split; [exact Em|]. rewrite <- (den_e_env v r (pr_params p)); [exact He|exact Hon|]. apply (proj1 Hd). exact Em.
  Qed.
End Proof_.
