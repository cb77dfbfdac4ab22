(** The constraints of the nonlinear program that involve the matrices. *)
From Coq Require Import List Arith Bool String Ascii QArith Reals Qreals Lra Lia Permutation.
From Verif Require Import Prelude PreludeFacts Sympy SympyFacts AlgebraModel FunctionModel CircuitModel SymSpec SymbolFacts ParsingModel
  ParsingSpec SolverModel ParsingFacts SolverSpec SolverFacts IpoptFacts.
Import ListNotations.
Local Open Scope nat_scope.

Definition agree (n : nat) (a a' : nat -> R) : Prop := forall i, i < n -> a' i = a i.

Lemma plain_agree o a a' n : wf_o o -> agree (op_next o) a a' -> plain_env (op_vars o) a' n = plain_env (op_vars o) a n.
Proof.
  intros W H. unfold plain_env. destruct (dget String.eqb n (op_vars o)) as [v|] eqn:E; [|easy].
  apply (wfo_vars _ W) in E. destruct (Nat.eqb (cv_rows v) 1) eqn:R, (Nat.eqb (cv_cols v) 1) eqn:C; simpl; try easy.
  apply Nat.eqb_eq in R, C. rewrite R, C in E. apply H. lia.
Qed.
Lemma base_agree o a a' n : wf_o o -> agree (op_next o) a a' -> base_env (op_vars o) a' n = base_env (op_vars o) a n.
Proof.
  intros W H. unfold base_env. rewrite (plain_agree o a a') by easy. destruct (is_dual n); [|easy].
  destruct (parse_dual n) as [[[p i] j]|]; [|easy]. destruct (dget String.eqb p (op_vars o)) as [v|] eqn:E; [|easy].
  apply (wfo_vars _ W) in E. destruct (Nat.ltb i (cv_rows v)) eqn:R, (Nat.ltb j (cv_cols v)) eqn:C; simpl; try easy.
  apply Nat.ltb_lt in R, C. apply H. unfold cv_at. nia.
Qed.

Lemma St_cons cs o : St o -> Forall (con_lt (op_next o)) cs -> St (add_cons cs o).
Proof.
  intros [[W1 W2] PN] H. split; [constructor|]; try easy.
  - simpl. apply Forall_app. easy.
  - intros a n v Ha. apply add_cons_feasible in Ha as [Ha _]. apply (PN a n v Ha).
Qed.

(** entries of [P] *)
Definition P_val (P : cavar) (a : nat -> R) (i c : nat) : R := ceval a (tril P i c).
Lemma csumn_eval a n f : ceval a (csumn n f) = rsum n (fun k => ceval a (f k)).
Proof.
  unfold csumn. induction n as [|n IH].
  - apply Q2R_0'.
  - rewrite seq_S, fold_left_app. simpl. rewrite IH. easy.
Qed.
Lemma PPt_eval a P dimG i j : ceval a (PPt P dimG i j) = rsum dimG (fun c => P_val P a i c * P_val P a j c)%R.
Proof. unfold PPt. rewrite csumn_eval. easy. Qed.
Lemma csumn_lt m n f : (forall k, k < n -> ids_lt m (f k)) -> ids_lt m (csumn n f).
Proof.
  unfold csumn. induction n as [|n IH]; intros H; [easy|]. rewrite seq_S, fold_left_app. simpl. split; [apply IH; auto|apply H; lia].
Qed.
Lemma tril_lt m P i j dimG : cv_rows P = dimG -> cv_cols P = dimG -> cv_base P + dimG * dimG <= m -> i < dimG -> j < dimG -> ids_lt m (tril P i j).
Proof. intros R C B Hi Hj. unfold tril. destruct (Nat.leb j i); simpl; [|easy]. unfold cv_at. rewrite C. nia. Qed.
Lemma PPt_lt m P i j dimG : cv_rows P = dimG -> cv_cols P = dimG -> cv_base P + dimG * dimG <= m -> i < dimG -> j < dimG -> ids_lt m (PPt P dimG i j).
Proof. intros R C B Hi Hj. apply csumn_lt. intros k Hk. split; eapply tril_lt; eauto. Qed.
Lemma P_agree P dimG o a a' i c : cv_rows P = dimG -> cv_cols P = dimG -> cv_base P + dimG * dimG <= op_next o ->
  agree (op_next o) a a' -> i < dimG -> c < dimG -> P_val P a' i c = P_val P a i c.
Proof. intros R C B H Hi Hc. unfold P_val. eapply ceval_ext; [eapply tril_lt; eauto|]. intros k Hk. apply H. easy. Qed.

Lemma grid_length n m : List.length (grid n m) = n * m.
Proof.
  unfold grid. assert (G : forall k s, List.length (flat_map (fun i => map (fun j => (i, j)) (seq 0 m)) (seq s k)) = k * m).
  { induction k as [|k IH]; intros s; simpl; [easy|]. rewrite app_length, map_length, seq_length, IH. easy. }
  apply G.
Qed.
Lemma grid_in n m i j : In (i, j) (grid n m) <-> i < n /\ j < m.
Proof.
  unfold grid. rewrite in_flat_map. split.
  - intros [x [Hx H]]. apply in_map_iff in H as [y [[= -> ->] Hy]]. apply in_seq in Hx, Hy. lia.
  - intros [A B]. exists i. rewrite in_seq. split; [lia|]. apply in_map_iff. exists j. rewrite in_seq. split; [easy|lia].
Qed.

Lemma Forall2_map_l {A B C} (f : A -> B) (R : B -> C -> Prop) l cs : Forall2 R (map f l) cs <-> Forall2 (fun x c => R (f x) c) l cs.
Proof.
  revert cs. induction l as [|x l IH]; intros cs; simpl; split; intros H; inversion H; subst; constructor; try easy; apply IH; easy.
Qed.
Lemma Forall2_combine {A C} (R : A -> C -> Prop) (Q : C -> A -> Prop) l cs : Forall2 R l cs ->
  (forall x c, R x c -> Q c x) -> Forall (fun cx => Q (fst cx) (snd cx)) (combine cs l).
Proof. intros H HR. induction H; simpl; constructor; auto. Qed.
Lemma Forall2_mono {A C} (R R' : A -> C -> Prop) l cs : Forall2 R l cs -> (forall x c, R x c -> R' x c) -> Forall2 R' l cs.
Proof. intros H HR. induction H; constructor; auto. Qed.

Section Tail.
  Context {SY : sympy} (OK : sympy_ok SY).

  (** the matching conditions *)
  Definition match_F (sr : symres) (w : fgw) (dimF : nat) (r : env) : Prop :=
    forall k, k < dimF -> (ev r (wF (sr_sum sr) k) = ev r (wF w k))%R.
  Definition match_G (sr : symres) (w : fgw) (dimG : nat) (r : env) (L : nat -> nat -> R) : Prop :=
    forall i j, i < dimG -> j < dimG ->
      (ev r (wG (sr_sum sr) i j) - ev r (wG w i j) = rsum dimG (fun c => L i c * L j c))%R.
  Definition simple_fg (w : fgw) : Prop := fg_all simple_name w.

  Lemma simple_ssub a b : simple_symbols a -> simple_symbols b -> simple_symbols (ssub a b).
  Proof using Type.
    intros A B s Hs. unfold ssub, sneg in Hs. apply sadd_free in Hs as [Hs|Hs]; [auto|]. apply smul_free in Hs as [[]|Hs]. auto.
  Qed.
  Lemma ev_lin r a b : simple_symbols a -> simple_symbols b ->
    ev (long r) (linearize_expression SY (ssub a b)) = (ev r a - ev r b)%R.
  Proof using OK. intros A B. rewrite (linearize_ev OK) by (apply simple_ssub; easy). apply ssub_ev. Qed.

  Lemma holds_z1 o l z a (f : (nat -> R) -> nat -> R) : feasible o a ->
    Forall2 (fun k c => value_is c o (fun a => f a k)) l z ->
    (Forall (holds a) (map (fun z => CEq z (CNum 0)) z) <-> forall k, In k l -> f a k = 0%R).
  Proof using Type.
    intros Ha H. induction H as [|k c l z [Hc1 Hc2] F IH]; simpl; [split; [easy|constructor]|].
    split.
    - intros G. inversion G as [|? ? G1 G2]; subst. simpl in G1. rewrite (Hc2 a Ha) in G1. rewrite Q2R_0' in G1.
      intros k' [<-|Hk']; [easy|]. apply IH; easy.
    - intros G. constructor; [simpl; rewrite (Hc2 a Ha), Q2R_0'; apply G; auto|]. apply IH. auto.
  Qed.
  Lemma holds_z2 o l z a (f : (nat -> R) -> nat * nat -> R) (g : nat * nat -> cexpr) : feasible o a ->
    Forall2 (fun ij c => value_is c o (fun a => f a ij)) l z ->
    (Forall (holds a) (map (fun zij => CEq (CSub (fst zij) (g (snd zij))) (CNum 0)) (combine z l)) <->
      forall ij, In ij l -> f a ij = ceval a (g ij)).
  Proof using Type.
    intros Ha H. induction H as [|k c l z [Hc1 Hc2] F IH]; simpl; [split; [easy|constructor]|].
    split.
    - intros G. inversion G as [|? ? G1 G2]; subst. simpl in G1. rewrite (Hc2 a Ha), Q2R_0' in G1.
      intros k' [<-|Hk']; [lra|]. apply IH; easy.
    - intros G. constructor; [simpl; rewrite (Hc2 a Ha), Q2R_0', (G k) by auto; lra|]. apply IH. auto.
  Qed.

  Lemma tail_spec p sr sizes dimG dimF P o1 obj o w :
    Good o1 -> cv_rows P = dimG -> cv_cols P = dimG -> cv_base P + dimG * dimG <= op_next o1 ->
    obj_weights sr = Ok w -> simple_fg (sr_sum sr) -> simple_fg w ->
    ipopt_tail SY p sr sizes dimG dimF P o1 = Ok (obj, o) ->
    exists o2, ipopt_multipliers p sr sizes o1 = Ok (tt, o2) /\ Good o2 /\ St o /\ hx o2 o /\
      (forall n, has_char us n = false -> dget String.eqb n (op_vars o) = dget String.eqb n (op_vars o2)) /\
      (forall a, feasible o a -> feasible o2 a /\
         match_F sr w dimF (base_env (op_vars o2) a) /\ match_G sr w dimG (base_env (op_vars o2) a) (P_val P a)) /\
      (forall a, feasible o2 a ->
         match_F sr w dimF (base_env (op_vars o2) a) -> match_G sr w dimG (base_env (op_vars o2) a) (P_val P a) ->
         exists a', agree (op_next o2) a a' /\ feasible o a') /\
      exists e, pr_obj p = Some e /\ forall a, feasible o a -> ceval a obj = (- ev (long (plain_env (op_vars o2) a)) e)%R.
  Proof using OK.
    intros G1 PR PC PB Hw Ss Sw H. unfold ipopt_tail in H.
    unfold obind at 1 in H. destruct (ipopt_multipliers p sr sizes o1) as [[[] o2]|] eqn:Em; [|discriminate].
    exists o2. split; [reflexivity|].
    destruct (multipliers_spec p sr sizes o1 tt o2 Em G1) as (G2 & X2 & _). split; [exact G2|].
    assert (S2 := good_St o2 G2).
    unfold obind at 1 in H. unfold olift in H. rewrite Hw in H.
    unfold obind at 1 in H. destruct (sympy_matrix_to_casadi SY (z1_entries SY sr w dimF) o2) as [[z1 o3]|] eqn:E3; [|discriminate].
    destruct (okO_matrix OK _ o2 S2 _ _ E3) as (S3 & X3 & V3).
    unfold obind at 1 in H. destruct (sympy_matrix_to_casadi SY (z2_entries SY sr w dimG) o3) as [[z2 o4]|] eqn:E4; [|discriminate].
    destruct (okO_matrix OK _ o3 S3 _ _ E4) as (S4 & X4 & V4).
    unfold obind at 1 in H. rewrite oiter_subject in H. unfold obind at 1 in H. rewrite oiter_subject, add_cons_app in H.
    set (c1 := map (fun z => CEq z (CNum 0)) z1) in H.
    set (c2 := map (fun zij => CEq (CSub (fst zij) (PPt P dimG (fst (snd zij)) (snd (snd zij)))) (CNum 0)) (combine z2 (grid dimG dimG))) in H.
    assert (X24 := ext_o_trans _ _ _ X3 X4).
    (* values of the entries *)
    set (fF := fun r k => (ev r (wF (sr_sum sr) k) - ev r (wF w k))%R).
    set (fG := fun r (ij : nat * nat) => (ev r (wG (sr_sum sr) (fst ij) (snd ij)) - ev r (wG w (fst ij) (snd ij)))%R).
    assert (W3 : Forall2 (fun k c => value_is c o4 (fun a => fF (base_env (op_vars o2) a) k)) (seq 0 dimF) z1).
    { unfold z1_entries in V3. apply Forall2_map_l in V3. eapply Forall2_mono; [exact V3|].
      intros k c Hc. apply (value_is_ext c o3 o4) in Hc; [|exact X4]. destruct Hc as [A B]. split; [exact A|].
      intros a Ha. rewrite (B a Ha). apply ev_lin.
      - intros s Hs. apply (proj1 Ss _ _ Hs).
      - intros s Hs. apply (proj1 Sw _ _ Hs). }
    assert (W4 : Forall2 (fun ij c => value_is c o4 (fun a => fG (base_env (op_vars o2) a) ij)) (grid dimG dimG) z2).
    { unfold z2_entries in V4. apply Forall2_map_l in V4. eapply Forall2_mono; [exact V4|].
      intros [i j] c [A B]. split; [exact A|].
      intros a Ha. rewrite (B a Ha). rewrite (ev_long_stable base_env o2 o3 a) by (try apply base_stable; exact X3). apply ev_lin.
      - intros s Hs. apply (proj2 Ss _ _ _ Hs).
      - intros s Hs. apply (proj2 Sw _ _ _ Hs). }
    assert (Hn4 : op_next o1 <= op_next o4) by (destruct X2 as [_ X2]; pose proof (xo_next _ _ X24); lia).
    assert (L1 : Forall (con_lt (op_next o4)) (c1 ++ c2)).
    { apply Forall_app. split.
      - unfold c1. clear -W3. induction W3 as [|k c l z [A _] F IH]; simpl; constructor; [simpl; easy|exact IH].
      - unfold c2. assert (Q : Forall (fun cx => ids_lt (op_next o4) (fst cx) /\ In (snd cx) (grid dimG dimG)) (combine z2 (grid dimG dimG))).
        { rewrite Forall_forall. intros [c ij] Hc. split; [|apply in_combine_r in Hc; exact Hc].
          assert (F := Forall2_combine _ (fun c _ => ids_lt (op_next o4) c) _ _ W4 (fun x c H => proj1 H)).
          rewrite Forall_forall in F. apply (F _ Hc). }
        rewrite Forall_forall in *. intros c Hc. apply in_map_iff in Hc as [[z [i j]] [<- Hz]].
        destruct (Q _ Hz) as [Q1 Q2]. apply grid_in in Q2. simpl in *. split; [split; [exact Q1|]|easy].
        apply PPt_lt; try easy. lia. }
    assert (S5 := St_cons _ _ S4 L1). set (o5 := add_cons (c1 ++ c2) o4) in *.
    assert (Z1 : forall a, feasible o4 a -> (Forall (holds a) c1 <-> match_F sr w dimF (base_env (op_vars o2) a))).
    { intros a Ha. unfold c1. rewrite (holds_z1 o4 (seq 0 dimF) z1 a _ Ha W3). unfold match_F, fF. split; intros A k Hk.
      - specialize (A k). rewrite in_seq in A. specialize (A ltac:(lia)). lra.
      - apply in_seq in Hk. rewrite (A k) by lia. lra. }
    assert (Z2 : forall a, feasible o4 a -> (Forall (holds a) c2 <-> match_G sr w dimG (base_env (op_vars o2) a) (P_val P a))).
    { intros a Ha. unfold c2. rewrite (holds_z2 o4 (grid dimG dimG) z2 a _ (fun ij => PPt P dimG (fst ij) (snd ij)) Ha W4). unfold match_G, fG. split.
      - intros A i j Hi Hj. specialize (A (i, j)). rewrite grid_in in A. specialize (A (conj Hi Hj)). simpl in A.
        rewrite A, PPt_eval. easy.
      - intros A [i j] Hk. apply grid_in in Hk. simpl. rewrite (A i j) by easy. rewrite PPt_eval. easy. }
    assert (HF : forall a, feasible o5 a <-> feasible o4 a /\ match_F sr w dimF (base_env (op_vars o2) a) /\
                match_G sr w dimG (base_env (op_vars o2) a) (P_val P a)).
    { intros a. unfold o5. rewrite add_cons_feasible, Forall_app.
      split.
      - intros [A [B C]]. split; [exact A|]. split; [apply Z1|apply Z2]; easy.
      - intros [A [B C]]. split; [exact A|]. split; [apply Z1|apply Z2]; easy. }
    destruct (pr_obj p) as [e|] eqn:Eo; [|discriminate H].
    unfold obind in H. destruct (sympy_expression_to_casadi SY e o5) as [[c o6]|] eqn:E6; [|discriminate].
    unfold oret in H. injection H as <- <-.
    destruct (okO_expr_plain OK o5 e S5 _ _ E6) as (S6 & X6 & V6).
    split; [exact S6|].
    assert (H45 : hx o4 o5) by (split; [exists (c1 ++ c2); easy|simpl; lia]).
    split; [apply (hx_trans o2 o4 o6); [apply ext_hx; exact X24|]; apply (hx_trans o4 o5 o6); [exact H45|apply ext_hx; exact X6]|].
    split; [intros n Hn; rewrite (xo_simple _ _ X6 n Hn); apply (xo_simple _ _ X24 n Hn)|].
    split; [|split].
    - intros a Ha. assert (Ha5 : feasible o5 a) by (eapply ext_feasible; eauto). apply HF in Ha5 as (A & B & C).
      split; [eapply ext_feasible; eauto|]. easy.
    - intros a Ha HFa HGa. destruct (xo_conserv _ _ X24 a Ha) as [a' [A1 A2]].
      assert (W2 := proj1 G2).
      assert (F5 : feasible o5 a').
      { apply HF. split; [exact A2|]. split.
        - intros k Hk. rewrite !(ev_free_ext (base_env (op_vars o2) a') (base_env (op_vars o2) a)) by (intros; apply base_agree; easy). auto.
        - intros i j Hi Hj. rewrite !(ev_free_ext (base_env (op_vars o2) a') (base_env (op_vars o2) a)) by (intros; apply base_agree; easy).
          rewrite (HGa i j Hi Hj). apply rsum_ext. intros k Hk. destruct X2 as [_ X2].
          rewrite !(P_agree P dimG o1 a a') by (try easy; intros ? ?; apply A1; lia). easy. }
      destruct (xo_conserv _ _ X6 a' F5) as [a'' [B1 B2]]. exists a''. split; [|exact B2].
      intros i Hi. rewrite B1, A1; [easy|easy|]. simpl. pose proof (xo_next _ _ X24). lia.
    - exists e. split; [reflexivity|]. intros a Ha. destruct V6 as [_ V6]. simpl. rewrite (V6 a Ha), Q2R_0'.
      simpl op_vars. rewrite (ev_long_stable plain_env o2 o4 a) by (try apply plain_stable; exact X24). lra.
  Qed.
End Tail.
