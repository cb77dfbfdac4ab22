(** Facts about the casadi translation. *)
From Coq Require Import List Arith Bool String Ascii QArith Reals Qreals Lra Lia Permutation.
From Verif Require Import Prelude PreludeFacts Sympy SympyFacts AlgebraModel FunctionModel CircuitModel ParsingModel
  ParsingSpec SolverModel ParsingFacts SolverSpec.
Import ListNotations.
Local Open Scope nat_scope.

(** * dictionaries with string keys *)
Lemma sget_set {V} n m (v : V) d :
  dget String.eqb n (dset String.eqb m v d) = if String.eqb n m then Some v else dget String.eqb n d.
Proof.
  induction d as [|[k w] d IH]; simpl.
  - destruct (String.eqb n m); easy.
  - destruct (String.eqb m k) eqn:E.
    + apply String.eqb_eq in E; subst k. simpl. destruct (String.eqb n m); easy.
    + simpl. rewrite IH. destruct (String.eqb n k) eqn:E1; [|easy].
      apply String.eqb_eq in E1; subst k. rewrite String.eqb_sym, E. easy.
Qed.
Lemma sget_set_eq {V} n (v : V) d : dget String.eqb n (dset String.eqb n v d) = Some v.
Proof. rewrite sget_set, String.eqb_refl. easy. Qed.
Lemma sget_set_ne {V} n m (v : V) d : n <> m -> dget String.eqb n (dset String.eqb m v d) = dget String.eqb n d.
Proof. intros H. rewrite sget_set. apply String.eqb_neq in H. rewrite H. easy. Qed.

(** * well-formed Opti objects *)
Lemma ids_lt_mono n m e : n <= m -> ids_lt n e -> ids_lt m e.
Proof. intros H. induction e; simpl; try easy; try lia; intros [A B]; auto. Qed.
Lemma con_lt_mono n m c : n <= m -> con_lt n c -> con_lt m c.
Proof. intros H. destruct c; simpl; intros [A B]; split; eapply ids_lt_mono; eauto. Qed.
Lemma ceval_ext n e a b : ids_lt n e -> (forall i, i < n -> a i = b i) -> ceval a e = ceval b e.
Proof. intros H E. induction e; simpl in *; try easy; try (apply E; easy); destruct H; rewrite IHe1, IHe2 by easy; easy. Qed.
Lemma holds_ext n c a b : con_lt n c -> (forall i, i < n -> a i = b i) -> holds a c -> holds b c.
Proof.
  intros H E. destruct c; simpl in *; destruct H as [H1 H2];
    rewrite (ceval_ext n _ a b H1 E), (ceval_ext n _ a b H2 E); easy.
Qed.

(** Every scalar variable with a long name equals the product of its parts. *)
Definition pinned (o : opti) : Prop := forall a n v, feasible o a ->
  dget String.eqb n (op_vars o) = Some v -> cv_rows v = 1 -> cv_cols v = 1 ->
  a (cv_base v) = prod_of (plain_env (op_vars o) a) (split_us n).

Record ext_o (o o' : opti) : Prop := mkExto {
  xo_keep : forall n v, dget String.eqb n (op_vars o) = Some v -> dget String.eqb n (op_vars o') = Some v;
  xo_simple : forall n, has_char us n = false -> dget String.eqb n (op_vars o') = dget String.eqb n (op_vars o);
  xo_cons : exists cs, op_cons o' = op_cons o ++ cs;
  xo_next : op_next o <= op_next o';
  xo_conserv : forall a, feasible o a -> exists a', (forall i, i < op_next o -> a' i = a i) /\ feasible o' a'
}.
Lemma ext_o_refl o : ext_o o o.
Proof. constructor; try easy. - exists []. rewrite app_nil_r. easy. - intros a H. exists a. easy. Qed.
Lemma ext_o_trans o1 o2 o3 : ext_o o1 o2 -> ext_o o2 o3 -> ext_o o1 o3.
Proof.
  intros [A1 B1 [c1 C1] D1 E1] [A2 B2 [c2 C2] D2 E2]. constructor.
  - auto.
  - intros n H. rewrite B2, B1 by easy. easy.
  - exists (c1 ++ c2). rewrite C2, C1, app_assoc. easy.
  - lia.
  - intros a H. destruct (E1 a H) as [a1 [H1 F1]]. destruct (E2 a1 F1) as [a2 [H2 F2]].
    exists a2. split; [|easy]. intros i Hi. rewrite H2, H1 by lia. easy.
Qed.
Lemma ext_feasible o o' a : ext_o o o' -> feasible o' a -> feasible o a.
Proof. intros [_ _ [cs E] _] H. unfold feasible in *. rewrite E in H. apply Forall_app in H. easy. Qed.
Lemma plain_simple o o' a n : ext_o o o' -> has_char us n = false ->
  plain_env (op_vars o') a n = plain_env (op_vars o) a n.
Proof. intros X H. unfold plain_env. rewrite (xo_simple _ _ X n H). easy. Qed.
Lemma parse_dual_nous n p i j : has_char us n = false -> parse_dual n = Ok (p, i, j) -> has_char us p = false.
Proof.
  intros H. unfold parse_dual. pose proof (split_nochar_d "|"%char us n H) as F.
  destruct (split "|"%char n) as [|x [|ab [|y [|]]]]; try easy.
  destruct (split "."%char ab) as [|u [|w [|]]]; try easy.
  destruct (parse_nat u); simpl; [|easy]. destruct (parse_nat w); simpl; [|easy].
  intros [= <- _ _]. inversion F; easy.
Qed.
Lemma base_simple o o' a n : ext_o o o' -> has_char us n = false ->
  base_env (op_vars o') a n = base_env (op_vars o) a n.
Proof.
  intros X H. unfold base_env. rewrite (plain_simple o o') by easy. destruct (is_dual n); [|easy].
  destruct (parse_dual n) as [[[p i] j]|] eqn:E; [|easy].
  rewrite (xo_simple _ _ X p) by (eapply parse_dual_nous; eauto). easy.
Qed.

Definition St (o : opti) : Prop := wf_o o /\ pinned o.

(** * Hoare triples *)
Definition okO {A} (m : OM A) (o : opti) (Q : A -> opti -> Prop) : Prop :=
  forall x o', m o = Ok (x, o') -> St o' /\ ext_o o o' /\ Q x o'.

Lemma okO_ret {A} (x : A) o (Q : A -> opti -> Prop) : St o -> Q x o -> okO (oret x) o Q.
Proof. intros S H y o' [= <- <-]. auto using ext_o_refl. Qed.
Lemma okO_raise {A} e o (Q : A -> opti -> Prop) : okO (oraise e) o Q.
Proof. intros y o' [=]. Qed.
Lemma okO_lift {A} (r : res A) o (Q : A -> opti -> Prop) : St o -> (forall x, r = Ok x -> Q x o) -> okO (olift r) o Q.
Proof. intros S H y o'. unfold olift. destruct r; [|easy]. intros [= <- <-]. auto using ext_o_refl. Qed.
Lemma okO_bind {A B} (m : OM A) (k : A -> OM B) o P Q :
  okO m o P -> (forall x o', St o' -> ext_o o o' -> P x o' -> okO (k x) o' Q) -> okO (obind m k) o Q.
Proof.
  intros Hm Hk y o'. unfold obind. destruct (m o) as [[x o1]|] eqn:E; [|easy]. intros H.
  destruct (Hm _ _ E) as (S1 & X1 & P1). destruct (Hk _ _ S1 X1 P1 _ _ H) as (S2 & X2 & Q2).
  split; [exact S2|]. split; [eapply ext_o_trans; eauto|exact Q2].
Qed.
Lemma okO_weaken {A} (m : OM A) o (P Q : A -> opti -> Prop) :
  okO m o P -> (forall x o', St o' -> ext_o o o' -> P x o' -> Q x o') -> okO m o Q.
Proof. intros H W x o' E. destruct (H _ _ E) as (S1 & X & HP). auto. Qed.
Lemma okO_get o n : St o -> okO (get_var n) o (fun v o' => o' = o /\ dget String.eqb n (op_vars o) = Some v).
Proof.
  intros S v o'. unfold get_var. destruct (dget String.eqb n (op_vars o)) eqn:E; [|easy].
  intros [= <- <-]. auto using ext_o_refl.
Qed.
Lemma okO_has o n : St o -> okO (has_var n) o (fun b o' => o' = o /\ b = dmem String.eqb n (op_vars o)).
Proof. intros S b o'. unfold has_var. intros [= <- <-]. auto using ext_o_refl. Qed.

Lemma scalar_ok v e : scalar v = Ok e -> cv_rows v = 1 /\ cv_cols v = 1 /\ e = CVar (cv_base v).
Proof.
  unfold scalar. destruct (Nat.eqb (cv_rows v) 1) eqn:A, (Nat.eqb (cv_cols v) 1) eqn:B; simpl; try easy.
  apply Nat.eqb_eq in A, B. intros [= <-]. easy.
Qed.

(** one new product variable *)
Definition pin_one (pre : list string) (x : string) : OM unit :=
  ado v <- opti_variable 1 1;
  ado _ <- set_var (join_us (pre ++ [x])) v;
  ado v1 <- get_var (join_us pre);
  ado e1 <- olift (scalar v1);
  ado v2 <- get_var x;
  ado e2 <- olift (scalar v2);
  subject_to (CEq (CVar (cv_base v)) (CMul e1 e2)).

Lemma nous_app l1 l2 : nous (l1 ++ l2) <-> nous l1 /\ nous l2.
Proof. apply Forall_app. Qed.

Lemma okO_pin_one o pre x :
  St o -> pre <> [] -> nous pre -> has_char us x = false ->
  dmem String.eqb (join_us (pre ++ [x])) (op_vars o) = false ->
  okO (pin_one pre x) o (fun _ _ => True).
Proof.
  intros [W PN] Hpre Np Nx Hm u o'. unfold pin_one.
  set (nv := join_us (pre ++ [x])) in *.
  assert (Nall : nous (pre ++ [x])) by (apply nous_app; split; [easy|constructor; [easy|constructor]]).
  assert (Hne : pre ++ [x] <> []) by (destruct pre; easy).
  assert (Hus : has_char us nv = true).
  { unfold nv. destruct pre as [|y [|z pre]]; [easy| |]; simpl app; apply join_has_us. }
  assert (N1 : join_us pre <> nv).
  { unfold nv. intros E. apply join_inj in E; try easy. apply (f_equal (@List.length _)) in E.
    rewrite app_length in E. simpl in E. lia. }
  assert (N2 : x <> nv) by (intros E; rewrite <- E in Hus; congruence).
  unfold obind, opti_variable, set_var, get_var, olift, subject_to. cbn [op_next op_cons op_vars cv_base].
  rewrite (sget_set_ne (join_us pre)) by easy.
  destruct (dget String.eqb (join_us pre) (op_vars o)) as [v1|] eqn:E1; [|easy].
  destruct (scalar v1) as [e1|] eqn:S1; [|easy]. apply scalar_ok in S1 as (R1 & C1 & ->).
  cbn [op_next op_cons op_vars cv_base]. rewrite (sget_set_ne x) by easy.
  destruct (dget String.eqb x (op_vars o)) as [v2|] eqn:E2; [|easy].
  destruct (scalar v2) as [e2|] eqn:S2; [|easy]. apply scalar_ok in S2 as (R2 & C2 & ->).
  intros [= <- <-].
  assert (B1 := wfo_vars _ W _ _ E1). assert (B2 := wfo_vars _ W _ _ E2). rewrite R1, C1 in B1. rewrite R2, C2 in B2.
  set (o1 := mkOpti _ _ _).
  assert (Hg : forall n, n <> nv -> dget String.eqb n (op_vars o1) = dget String.eqb n (op_vars o)).
  { intros n Hn. unfold o1. cbn [op_vars]. apply sget_set_ne. easy. }
  assert (Hfe : forall a, feasible o1 a <-> feasible o a /\ a (op_next o) = (a (cv_base v1) * a (cv_base v2))%R).
  { intros a. unfold feasible, o1. cbn [op_cons]. rewrite Forall_app. split; intros [H1 H2]; split; try easy.
    - inversion H2; subst. easy.
    - constructor; [easy|constructor]. }
  assert (X : ext_o o o1).
  { constructor.
    - intros n v H. destruct (String.eqb n nv) eqn:E.
      + apply String.eqb_eq in E; subst n. unfold dmem in Hm. rewrite H in Hm. easy.
      + apply String.eqb_neq in E. rewrite Hg by easy. easy.
    - intros n H. apply Hg. congruence.
    - unfold o1; simpl. eauto.
    - unfold o1; simpl. lia.
    - intros a Ha. exists (fun i => if Nat.eqb i (op_next o) then (a (cv_base v1) * a (cv_base v2))%R else a i).
      assert (Hag : forall i, i < op_next o -> a i = (if Nat.eqb i (op_next o) then (a (cv_base v1) * a (cv_base v2))%R else a i)).
      { intros i Hi. destruct (Nat.eqb_spec i (op_next o)); [lia|easy]. }
      split; [intros i Hi; symmetry; apply Hag; easy|]. apply Hfe. split.
      + unfold feasible in *. pose proof (wfo_cons _ W) as F. rewrite Forall_forall in *. intros c Hc.
        eapply holds_ext; [apply F; exact Hc|exact Hag|apply Ha; easy].
      + rewrite Nat.eqb_refl. rewrite <- !Hag by lia. easy. }
  split; [split|split; [exact X|easy]].
  - constructor.
    + unfold o1. cbn [op_next op_cons]. apply Forall_app. split.
      * eapply Forall_impl; [|apply (wfo_cons _ W)]. intros c. apply con_lt_mono. lia.
      * constructor; [|constructor]. simpl. lia.
    + intros n v H. destruct (String.eqb n nv) eqn:E.
      * apply String.eqb_eq in E; subst n. unfold o1 in H. cbn [op_vars] in H. rewrite sget_set_eq in H.
        injection H; intros <-. unfold o1. simpl. lia.
      * apply String.eqb_neq in E. rewrite Hg in H by easy. apply (wfo_vars _ W) in H. unfold o1. simpl. lia.
  - intros a n v Ha H Hr Hc. apply Hfe in Ha as [Ha Hv].
    assert (Hs : forall l, nous l -> prod_of (plain_env (op_vars o1) a) l = prod_of (plain_env (op_vars o) a) l).
    { intros l Hl. apply prod_ext. intros s Hs. apply plain_simple; [easy|]. unfold nous in Hl. rewrite Forall_forall in Hl. auto. }
    rewrite Hs by apply split_nochar.
    destruct (String.eqb n nv) eqn:E.
    + apply String.eqb_eq in E; subst n. unfold o1 in H. cbn [op_vars] in H. rewrite sget_set_eq in H.
      injection H; intros <-. simpl. unfold nv. rewrite split_join by easy. rewrite prod_app. simpl.
      rewrite Hv, (PN a _ _ Ha E1 R1 C1). rewrite split_join by easy.
      unfold plain_env at 3. rewrite E2, R2, C2. simpl. lra.
    + apply String.eqb_neq in E. rewrite Hg in H by easy. apply (PN a n v Ha H Hr Hc).
Qed.

Lemma okO_pin l : forall o pre, St o -> pre <> [] -> nous pre -> nous l -> okO (pin_prefixes pre l) o (fun _ _ => True).
Proof.
  induction l as [|x l IH]; intros o pre S Hp Np Nl; simpl.
  - apply okO_ret; easy.
  - inversion Nl as [|? ? Nx Nl']; subst.
    eapply okO_bind; [apply okO_has; easy|]. intros b o' S' X [-> Hb].
    eapply okO_bind with (P := fun _ _ => True).
    + destruct b; [apply okO_ret; easy|]. apply (okO_pin_one o pre x S Hp Np Nx). easy.
    + intros _ o2 S2 X2 _. apply IH; try easy.
      * destruct pre; easy.
      * apply nous_app. split; [easy|constructor; [easy|constructor]].
Qed.

(** value of an expression in every feasible assignment *)
Definition value_is (e : cexpr) (o : opti) (f : (nat -> R) -> R) : Prop :=
  ids_lt (op_next o) e /\ forall a, feasible o a -> ceval a e = f a.

Lemma okO_linearize o m : St o -> nous m ->
  okO (ca_linearize_monomial m) o (fun e o' => value_is e o' (fun a => prod_of (plain_env (op_vars o') a) m)).
Proof.
  intros S Nm. unfold ca_linearize_monomial. assert (Ns := nous_sort m Nm). pose proof (ssort_perm m) as Pm.
  destruct (ssort m) as [|x l] eqn:E.
  - apply okO_ret; [easy|]. apply Permutation_sym, Permutation_nil in Pm. subst m. split; [easy|].
    intros a _. simpl. apply Q2R_1'.
  - inversion Ns as [|? ? Nx Nl]; subst.
    eapply okO_bind; [apply okO_pin; try easy; constructor; [easy|constructor]|]. intros _ o1 S1 X1 _.
    eapply okO_bind; [apply okO_get; easy|]. intros v o2 S2 X2 [-> Hv].
    apply okO_lift; [easy|]. intros e He. apply scalar_ok in He as (R & C & ->). split.
    + destruct S1 as [W _]. apply (wfo_vars _ W) in Hv. simpl. rewrite R, C in Hv. lia.
    + intros a Ha. simpl. destruct S1 as [_ PN]. rewrite (PN a _ _ Ha Hv R C).
      rewrite split_join by easy. apply prod_perm. apply Permutation_sym. easy.
Qed.

(** * find_lambda_nu *)
Definition isL (v : string) : bool := String.prefix "lamb" v.
Definition isN (v : string) : bool := negb (String.prefix "lamb" v) && String.prefix "nu" v.
Definition cnt (f : string -> bool) (l : list string) : nat := List.length (filter f l).
Definition at_one (f : string -> bool) (l : list string) (k : nat) : Prop :=
  k < List.length l /\ f (nth k l ""%string) = true /\ forall s, In s (pop k l) -> f s = false.

Lemma cnt_zero f l : cnt f l = 0 <-> forall s, In s l -> f s = false.
Proof.
  unfold cnt. induction l as [|x l IH]; simpl; [easy|]. destruct (f x) eqn:E; simpl.
  - split; [easy|]. intros H. rewrite (H x) in E by auto. easy.
  - rewrite IH. split; intros H; [intros s [<-|Hs]; auto|intros; auto].
Qed.
Lemma at_one_S f x l k : f x = false -> at_one f l k -> at_one f (x :: l) (S k).
Proof.
  intros Hx (A & B & C). split; [simpl; lia|]. split; [easy|]. intros s Hs. unfold pop in *. simpl in Hs.
  destruct Hs as [<-|Hs]; [easy|auto].
Qed.
Lemma at_one_0 f x l : f x = true -> cnt f l = 0 -> at_one f (x :: l) 0.
Proof. intros Hx H. split; [simpl; lia|]. split; [easy|]. apply cnt_zero. easy. Qed.

Lemma find_spec l : forall i cl cn il iu cl' cn' il' iu',
  find_lambda_nu i l (cl, cn, il, iu) = (cl', cn', il', iu') ->
  cl' = cl + cnt isL l /\ cn' = cn + cnt isN l /\
  (cnt isL l = 0 -> il' = il) /\ (cnt isN l = 0 -> iu' = iu) /\
  (cnt isL l = 1 -> exists k, il' = i + k /\ at_one isL l k) /\
  (cnt isN l = 1 -> exists k, iu' = i + k /\ at_one isN l k).
Proof.
  induction l as [|x l IH]; intros i cl cn il iu cl' cn' il' iu' H.
  - simpl in H. injection H; intros <- <- <- <-. unfold cnt; simpl. repeat split; try lia.
  - simpl in H. destruct (String.prefix "lamb" x) eqn:EL.
    + apply IH in H as (A & B & C & D & E & F).
      assert (L1 : cnt isL (x :: l) = S (cnt isL l)) by (unfold cnt; simpl; unfold isL at 1; rewrite EL; easy).
      assert (N1 : cnt isN (x :: l) = cnt isN l) by (unfold cnt; simpl; unfold isN at 1; rewrite EL; easy).
      rewrite L1, N1. repeat split; try lia.
      * intros H1. assert (H0 : cnt isL l = 0) by lia. exists 0. split; [rewrite C; lia|]. apply at_one_0; easy.
      * intros H1. destruct (F H1) as [k [-> Hk]]. exists (S k). split; [lia|]. apply at_one_S; [|easy].
        unfold isN. rewrite EL. easy.
    + destruct (String.prefix "nu" x) eqn:EN.
      * apply IH in H as (A & B & C & D & E & F).
        assert (L1 : cnt isL (x :: l) = cnt isL l) by (unfold cnt; simpl; unfold isL at 1; rewrite EL; easy).
        assert (N1 : cnt isN (x :: l) = S (cnt isN l)) by (unfold cnt; simpl; unfold isN at 1; rewrite EL, EN; easy).
        rewrite L1, N1. repeat split; try lia.
        -- intros H1. destruct (E H1) as [k [-> Hk]]. exists (S k). split; [lia|]. apply at_one_S; easy.
        -- intros H1. assert (H0 : cnt isN l = 0) by lia. exists 0. split; [rewrite D; lia|]. apply at_one_0; [|easy].
           unfold isN. rewrite EL, EN. easy.
      * apply IH in H as (A & B & C & D & E & F).
        assert (L1 : cnt isL (x :: l) = cnt isL l) by (unfold cnt; simpl; unfold isL at 1; rewrite EL; easy).
        assert (N1 : cnt isN (x :: l) = cnt isN l) by (unfold cnt; simpl; unfold isN at 1; rewrite EL, EN; easy).
        rewrite L1, N1. repeat split; try assumption.
        -- intros H1. destruct (E H1) as [k [-> Hk]]. exists (S k). split; [lia|]. apply at_one_S; easy.
        -- intros H1. destruct (F H1) as [k [-> Hk]]. exists (S k). split; [lia|]. apply at_one_S; [|easy].
           unfold isN. rewrite EL, EN. easy.
Qed.

Lemma pop_perm {A} k (l : list A) d : k < List.length l -> Permutation (nth k l d :: pop k l) l.
Proof.
  revert k. induction l as [|x l IH]; intros [|k] H; simpl in *; try lia; try easy.
  unfold pop in *. simpl. rewrite perm_swap. constructor. apply IH. lia.
Qed.
Lemma pop_in {A} k (l : list A) s : In s (pop k l) -> In s l.
Proof.
  unfold pop. rewrite in_app_iff. intros [H|H].
  - rewrite <- (firstn_skipn k l), in_app_iff. auto.
  - rewrite <- (firstn_skipn (S k) l), in_app_iff. auto.
Qed.
Lemma is_dual_LN s : is_dual s = isL s || isN s.
Proof. unfold is_dual, isL, isN. destruct (String.prefix "lamb" s), (String.prefix "nu" s); easy. Qed.

Lemma nous_pop k l : nous l -> nous (pop k l).
Proof. unfold nous. rewrite !Forall_forall. intros H x Hx. apply H. eapply pop_in; eauto. Qed.

(** one dual factor times a product of scalars *)
Lemma okO_dual o vs k :
  St o -> nous vs -> k < List.length vs -> is_dual (nth k vs ""%string) = true ->
  (forall s, In s (pop k vs) -> is_dual s = false) ->
  okO (ado r <- olift (parse_dual (nth k vs ""%string));
       let '(prefix, a, b) := r in
       ado e <- get_entry prefix a b;
       ado m <- ca_linearize_monomial (pop k vs);
       oret (CMul e m)) o
      (fun e o' => value_is e o' (fun a => prod_of (base_env (op_vars o') a) vs)).
Proof.
  intros S Nv Hk Hd Hpop.
  eapply okO_bind with (P := fun r o' => o' = o /\ parse_dual (nth k vs ""%string) = Ok r).
  { apply okO_lift; [easy|]. auto. }
  intros [[p i] j] o' S' X' [-> Hp].
  eapply okO_bind with (P := fun e o' => o' = o /\ exists v, dget String.eqb p (op_vars o) = Some v /\ i < cv_rows v /\ j < cv_cols v /\ e = CVar (cv_at v i j) /\ ids_lt (op_next o) e).
  { unfold get_entry. eapply okO_bind; [apply okO_get; easy|]. intros v o2 S2 X2 [-> Hv].
    destruct (Nat.ltb i (cv_rows v)) eqn:Hi, (Nat.ltb j (cv_cols v)) eqn:Hj; simpl; try apply okO_raise.
    apply Nat.ltb_lt in Hi, Hj. apply okO_ret; [easy|]. split; [easy|]. exists v. repeat split; try easy.
    destruct S as [W _]. apply (wfo_vars _ W) in Hv. simpl. unfold cv_at. nia. }
  intros e o2 S2 X2 [-> (v & Hv & Hi & Hj & -> & Hlt)]. apply Nat.ltb_lt in Hi, Hj.
  eapply okO_bind; [apply okO_linearize; [easy|apply nous_pop; easy]|].
  intros m o3 S3 X3 [Hm1 Hm2]. apply okO_ret; [easy|]. split.
  - simpl. split; [|easy]. apply (ids_lt_mono _ _ _ (xo_next _ _ X3) Hlt).
  - intros a Ha. simpl. rewrite (Hm2 a Ha).
    rewrite <- (prod_perm _ _ _ (pop_perm k vs ""%string Hk)). simpl. f_equal.
    + unfold base_env. rewrite Hd, Hp, (xo_keep _ _ X3 _ _ Hv), Hi, Hj. easy.
    + apply prod_ext. intros s Hs. unfold base_env. rewrite (Hpop s Hs). easy.
Qed.

Lemma okO_monomial_lamb o vs : St o -> nous vs ->
  okO (casadi_monomial_lamb vs) o (fun e o' => value_is e o' (fun a => prod_of (base_env (op_vars o') a) vs)).
Proof.
  intros S Nv. unfold casadi_monomial_lamb. destruct vs as [|v0 vs0]; [apply okO_ret; [easy|]; split; [easy|]; intros; apply Q2R_1'|].
  set (vs := v0 :: vs0) in *.
  destruct (find_lambda_nu 0 vs (0, 0, 0, 0)) as [[[cl cn] il] iu] eqn:E.
  apply find_spec in E as (A & B & C & D & F & G). simpl in A, B.
  destruct (Nat.leb (cn + cl) 1) eqn:Ele; [|apply okO_raise]. apply Nat.leb_le in Ele.
  destruct (Nat.ltb 0 cl) eqn:E1.
  - apply Nat.ltb_lt in E1. destruct F as [k [Hk (K1 & K2 & K3)]]; [lia|]. simpl in Hk. subst il.
    assert (Z : cnt isN vs = 0) by lia. rewrite cnt_zero in Z.
    apply okO_dual; try easy.
    + rewrite is_dual_LN, K2. easy.
    + intros s Hs. rewrite is_dual_LN, (K3 s Hs), (Z s); [easy|]. eapply pop_in; eauto.
  - apply Nat.ltb_ge in E1. assert (Z : cnt isL vs = 0) by lia. rewrite cnt_zero in Z.
    destruct (Nat.ltb 0 cn) eqn:E2.
    + apply Nat.ltb_lt in E2. destruct G as [k [Hk (K1 & K2 & K3)]]; [lia|]. simpl in Hk. subst iu.
      apply okO_dual; try easy.
      * rewrite is_dual_LN, K2. rewrite orb_true_r. easy.
      * intros s Hs. rewrite is_dual_LN, (K3 s Hs), (Z s); [easy|]. eapply pop_in; eauto.
    + apply Nat.ltb_ge in E2. assert (Z2 : cnt isN vs = 0) by lia. rewrite cnt_zero in Z2.
      eapply okO_weaken; [apply okO_linearize; easy|]. intros e o' S' X' [H1 H2]. split; [easy|].
      intros a Ha. rewrite (H2 a Ha). apply prod_ext. intros s Hs. unfold base_env.
      rewrite is_dual_LN, (Z s Hs), (Z2 s Hs). easy.
Qed.
Lemma okO_monomial o vs : St o -> nous vs ->
  okO (casadi_monomial vs) o (fun e o' => value_is e o' (fun a => prod_of (plain_env (op_vars o') a) vs)).
Proof.
  intros S Nv. unfold casadi_monomial. destruct vs as [|v0 vs0]; [|apply okO_linearize; easy].
  apply okO_ret; [easy|]. split; [easy|]. intros. apply Q2R_1'.
Qed.

Lemma mono_vars_nous gens ex : nous (mono_vars split_us gens ex).
Proof.
  unfold nous. rewrite Forall_forall. intros x Hx. apply mono_vars_in in Hx as [g [_ H]].
  pose proof (split_nochar us g) as F. rewrite Forall_forall in F. auto.
Qed.

(** Environments that do not change on simple names. *)
Definition stable (E : list (string * cavar) -> (nat -> R) -> env) : Prop :=
  forall o o' a n, ext_o o o' -> has_char us n = false -> E (op_vars o') a n = E (op_vars o) a n.
Lemma base_stable : stable base_env. Proof. intros o o' a n. apply base_simple. Qed.
Lemma plain_stable : stable plain_env. Proof. intros o o' a n. apply plain_simple. Qed.
Lemma long_stable E o o' a n : stable E -> ext_o o o' -> long (E (op_vars o') a) n = long (E (op_vars o) a) n.
Proof.
  intros HE X. unfold long. apply prod_ext. intros s Hs. apply HE; [easy|].
  pose proof (split_nochar us n) as F. rewrite Forall_forall in F. auto.
Qed.

Section Trans.
  Context {SY : sympy} (OK : sympy_ok SY).

  Lemma okO_terms E mono gens :
    stable E ->
    (forall o vs, St o -> nous vs -> okO (mono vs) o (fun e o' => value_is e o' (fun a => prod_of (E (op_vars o') a) vs))) ->
    forall l o acc f, St o -> value_is acc o f ->
    okO (casadi_terms mono gens l acc) o
      (fun e o' => value_is e o' (fun a => (f a + lsum (fun t => Q2R (snd t) * mono_val (long (E (op_vars o) a)) gens (fst t)) l)%R)).
  Proof using Type.
    intros HE Hmono. induction l as [|[ex q] l IH]; intros o acc f S Hacc; simpl.
    - apply okO_ret; [easy|]. destruct Hacc as [A1 A2]. split; [easy|]. intros a Ha. rewrite A2 by easy. lra.
    - eapply okO_bind; [apply Hmono; [easy|apply mono_vars_nous]|]. intros m o' S' X' [M1 M2].
      destruct Hacc as [A1 A2].
      eapply okO_weaken.
      + apply (IH o' _ (fun a => f a + Q2R q * mono_val (long (E (op_vars o) a)) gens ex)%R); [easy|]. split.
        * simpl. repeat split; try easy. apply (ids_lt_mono _ _ _ (xo_next _ _ X') A1).
        * intros a Ha. simpl. rewrite A2 by (eapply ext_feasible; eauto). rewrite (M2 a Ha), mono_vars_prod.
          do 2 f_equal. apply mono_val_ext. intros g _. apply (long_stable E o o' a g HE X').
      + intros e o2 S2 X2 [H1 H2]. split; [easy|]. intros a Ha. rewrite (H2 a Ha). cbn [fst snd].
        rewrite (lsum_ext _ (fun t => Q2R (snd t) * mono_val (long (E (op_vars o) a)) gens (fst t))%R).
        * lra.
        * intros t _. f_equal. apply mono_val_ext. intros g _. apply long_stable; easy.
  Qed.

  Lemma okO_expr E mono :
    stable E ->
    (forall o vs, St o -> nous vs -> okO (mono vs) o (fun e o' => value_is e o' (fun a => prod_of (E (op_vars o') a) vs))) ->
    forall o e, St o ->
    okO (casadi_expr SY mono e) o (fun c o' => value_is c o' (fun a => ev (long (E (op_vars o) a)) e)).
  Proof using OK.
    intros HE Hmono o e S. unfold casadi_expr. destruct (numeric SY e) eqn:N.
    - destruct (numeric_float OK _ N) as [q [Hq Hv]]. rewrite Hq.
      eapply okO_bind with (P := fun x o' => o' = o /\ x = q); [apply okO_lift; [easy|]; intros x [= ->]; easy|].
      intros x o' S' X' [-> ->]. apply okO_ret; [easy|]. split; [easy|]. intros a _. simpl. rewrite Hv. easy.
    - eapply okO_weaken; [apply (okO_terms E mono _ HE Hmono _ o (CNum 0) (fun _ => 0%R)); [easy|split; [easy|intros; apply Q2R_0']]|].
      intros c o' S' X' [H1 H2]. split; [easy|]. intros a Ha. rewrite (H2 a Ha).
      fold (poly_val (long (E (op_vars o) a)) (poly SY (simp SY e))). rewrite (poly_ev _ OK), (simp_ev _ OK). lra.
  Qed.

  Lemma okO_expr_lamb o e : St o ->
    okO (sympy_expression_to_casadi_lamb SY e) o (fun c o' => value_is c o' (fun a => ev (long (base_env (op_vars o) a)) e)).
  Proof using OK. apply okO_expr; [apply base_stable|]. intros. apply okO_monomial_lamb; easy. Qed.
  Lemma okO_expr_plain o e : St o ->
    okO (sympy_expression_to_casadi SY e) o (fun c o' => value_is c o' (fun a => ev (long (plain_env (op_vars o) a)) e)).
  Proof using OK. apply okO_expr; [apply plain_stable|]. intros. apply okO_monomial; easy. Qed.

  Lemma value_is_ext c o o' f : ext_o o o' -> value_is c o f -> value_is c o' f.
  Proof using Type.
    intros X [A B]. split; [apply (ids_lt_mono _ _ _ (xo_next _ _ X) A)|]. intros a Ha. apply B. eapply ext_feasible; eauto.
  Qed.
  Lemma ev_long_stable E o o' a e : stable E -> ext_o o o' -> ev (long (E (op_vars o') a)) e = ev (long (E (op_vars o) a)) e.
  Proof using Type. intros. apply ev_free_ext. intros s _. apply long_stable; easy. Qed.

  Lemma okO_matrix l : forall o, St o ->
    okO (sympy_matrix_to_casadi SY l) o
      (fun cs o' => Forall2 (fun e c => value_is c o' (fun a => ev (long (base_env (op_vars o) a)) e)) l cs).
  Proof using OK.
    unfold sympy_matrix_to_casadi. induction l as [|e l IH]; intros o S; simpl; [apply okO_ret; [easy|constructor]|].
    eapply okO_bind; [apply okO_expr_lamb; easy|]. intros c o1 S1 X1 H1.
    eapply okO_bind; [apply IH; easy|]. intros cs o2 S2 X2 H2. apply okO_ret; [easy|]. constructor.
    - eapply value_is_ext; eauto.
    - assert (G : forall e' c', value_is c' o2 (fun a => ev (long (base_env (op_vars o1) a)) e') ->
                   value_is c' o2 (fun a => ev (long (base_env (op_vars o) a)) e')).
      { intros e' c' [A B]. split; [easy|]. intros a Ha. rewrite (B a Ha). apply ev_long_stable; [apply base_stable|easy]. }
      clear -H2 G. induction H2; constructor; auto.
  Qed.
End Trans.
