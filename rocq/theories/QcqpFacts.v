(** The constraints emitted by the two QCQP builders. *)
From Coq Require Import List Arith Bool String Ascii QArith Reals Qreals Lra Lia Permutation.
From Verif Require Import Prelude PreludeFacts Sympy SympyFacts AlgebraModel FunctionModel CircuitModel ParsingModel
  ParsingSpec SolverModel ParsingFacts CoeffFacts SolverSpec SolverFacts IpoptFacts IpoptTail SolverProps QcqpModel QcqpSpec.
Import ListNotations.
Local Open Scope nat_scope.

(** * sums *)
Lemma qsum_R n f : Q2R (qsum n f) = rsum n (fun k => Q2R (f k)).
Proof. induction n; simpl; [apply Q2R_0'|]. rewrite (Qeq_eqR _ _ (Qred_correct _)), Qreals.Q2R_plus, IHn. easy. Qed.
Lemma fold_csum a (f : nat -> cexpr) : forall l acc, ceval a (fold_left (fun acc k => CAdd acc (f k)) l acc) = (ceval a acc + lsum (fun k => ceval a (f k)) l)%R.
Proof. induction l as [|x l IH]; intros acc; simpl; [lra|]. rewrite IH. simpl. lra. Qed.
Lemma csumn_val a n f : ceval a (csumn n f) = rsum n (fun k => ceval a (f k)).
Proof. unfold csumn. rewrite fold_csum, lsum_seq. simpl. rewrite Q2R_0'. lra. Qed.
Lemma fold_csum_lt N (f : nat -> cexpr) : forall l acc, ids_lt N acc -> (forall k, In k l -> ids_lt N (f k)) -> ids_lt N (fold_left (fun acc k => CAdd acc (f k)) l acc).
Proof. induction l as [|x l IH]; intros acc H1 H2; simpl; [exact H1|]. apply IH; [simpl; split; [exact H1|apply H2; simpl; auto]|intros; apply H2; simpl; auto]. Qed.
Lemma csumn_lt N n f : (forall k, k < n -> ids_lt N (f k)) -> ids_lt N (csumn n f).
Proof. intros H. unfold csumn. apply fold_csum_lt; [exact I|]. intros k Hk. apply in_seq in Hk. apply H. lia. Qed.

(** * values of matrices *)
Definition cis (A : cmatrix) (r c : nat) (V : nat -> nat -> R) : Prop :=
  cm_rows A = r /\ cm_cols A = c /\ forall i j, i < r -> j < c -> Q2R (cm_at A i j) = V i j.
Definition xis (N : nat) (A : xmat) (r c : nat) (V : (nat -> R) -> nat -> nat -> R) : Prop :=
  xm_rows A = r /\ xm_cols A = c /\ (forall i j, i < r -> j < c -> ids_lt N (xm_at A i j)) /\
  forall a i j, i < r -> j < c -> ceval a (xm_at A i j) = V a i j.

Lemma cis_ext A r c V W : cis A r c V -> (forall i j, i < r -> j < c -> V i j = W i j) -> cis A r c W.
Proof. intros (A1 & A2 & A3) H. split; [easy|]. split; [easy|]. intros. rewrite A3 by assumption. auto. Qed.
Lemma cis_T A r c V : cis A r c V -> cis (cm_T A) c r (fun i j => V j i).
Proof. intros (A1 & A2 & A3). split; [exact A2|]. split; [exact A1|]. intros. apply A3; assumption. Qed.
Lemma cis_mul A B r k c V W : cis A r k V -> cis B k c W ->
  exists C, cm_mul A B = Ok C /\ cis C r c (fun i j => rsum k (fun l => V i l * W l j)%R).
Proof.
  intros (A1 & A2 & A3) (B1 & B2 & B3). unfold cm_mul. rewrite A2, B1, Nat.eqb_refl. eexists. split; [reflexivity|].
  split; [exact A1|]. split; [exact B2|]. intros i j Hi Hj. simpl. rewrite qsum_R. apply rsum_ext. intros l Hl.
  rewrite Qreals.Q2R_mult, A3, B3 by assumption. easy.
Qed.
Lemma cis_add A B r c V W : cis A r c V -> cis B r c W -> exists C, cm_add A B = Ok C /\ cis C r c (fun i j => V i j + W i j)%R.
Proof.
  intros (A1 & A2 & A3) (B1 & B2 & B3). unfold cm_add. rewrite A1, A2, B1, B2, !Nat.eqb_refl. simpl. eexists. split; [reflexivity|].
  split; [easy|]. split; [easy|]. intros i j Hi Hj. simpl. rewrite Qreals.Q2R_plus, A3, B3 by assumption. easy.
Qed.
Lemma cis_scale q A r c V : cis A r c V -> cis (cm_scale q A) r c (fun i j => Q2R q * V i j)%R.
Proof. intros (A1 & A2 & A3). split; [easy|]. split; [easy|]. intros. simpl. rewrite Qreals.Q2R_mult, A3 by assumption. easy. Qed.
Lemma cis_row k A r c V : cis A r c V -> k < r -> cis (cm_row k A) 1 c (fun _ j => V k j).
Proof. intros (A1 & A2 & A3) H. split; [easy|]. split; [easy|]. intros. apply A3; assumption. Qed.
Lemma cis_one_hot n i : i < n -> cis (one_hot n i) n 1 (fun r _ => if Nat.eqb r i then 1%R else 0%R).
Proof.
  intros H. split; [easy|]. split; [simpl; apply Nat.ltb_lt in H; rewrite H; easy|]. intros r j Hr Hj. simpl.
  destruct (Nat.eqb r i); [apply Q2R_1'|apply Q2R_0'].
Qed.
Lemma symm_prod_value n i j : i < n -> j < n -> exists M, symm_prod_one_hot n i j = Ok M /\
  cis M n n (fun r c => /2 * ((if Nat.eqb r i then 1 else 0) * (if Nat.eqb c j then 1 else 0) + (if Nat.eqb r j then 1 else 0) * (if Nat.eqb c i then 1 else 0)))%R.
Proof.
  intros Hi Hj. unfold symm_prod_one_hot, symm_prod.
  pose proof (cis_one_hot n i Hi) as A. pose proof (cis_one_hot n j Hj) as B.
  destruct (cis_mul _ _ _ _ _ _ _ A (cis_T _ _ _ _ B)) as (AB & E1 & C1). rewrite E1. cbn [bindr].
  destruct (cis_mul _ _ _ _ _ _ _ B (cis_T _ _ _ _ A)) as (BA & E2 & C2). rewrite E2. cbn [bindr].
  destruct (cis_add _ _ _ _ _ _ C1 C2) as (S0 & E3 & C3). rewrite E3. cbn [bindr]. eexists. split; [reflexivity|].
  eapply cis_ext; [apply cis_scale; exact C3|]. intros r c Hr Hc. simpl.
  replace (Q2R (1 # 2)) with (/2)%R by (unfold Q2R; simpl; lra). lra.
Qed.
Lemma selection_value r c1 n : c1 + r <= n -> exists A, selection_matrix r c1 n = Ok A /\
  cis A r n (fun i j => if Nat.eqb j (c1 + i) then 1%R else 0%R).
Proof.
  intros H. unfold selection_matrix. apply Nat.leb_le in H. rewrite H. eexists. split; [reflexivity|].
  split; [easy|]. split; [easy|]. intros i j Hi Hj. simpl. destruct (Nat.eqb j (c1 + i)); [apply Q2R_1'|apply Q2R_0'].
Qed.

Section X.
  Variable N : nat.
  Notation xis := (xis N).
  Lemma xis_ext A r c V W : xis A r c V -> (forall a i j, i < r -> j < c -> V a i j = W a i j) -> xis A r c W.
  Proof. intros (A1 & A2 & A3 & A4) H. split; [easy|]. split; [easy|]. split; [easy|]. intros. rewrite A4 by assumption. auto. Qed.
  Lemma xis_num A r c V : cis A r c V -> xis (xm_num A) r c (fun _ => V).
  Proof. intros (A1 & A2 & A3). split; [easy|]. split; [easy|]. split; [easy|]. intros. apply A3; assumption. Qed.
  Lemma xis_T A r c V : xis A r c V -> xis (xm_T A) c r (fun a i j => V a j i).
  Proof. intros (A1 & A2 & A3 & A4). split; [easy|]. split; [easy|]. split; intros; [apply A3|apply A4]; assumption. Qed.
  Lemma xis_mul A B r k c V W : xis A r k V -> xis B k c W ->
    exists C, xm_mul A B = Ok C /\ xis C r c (fun a i j => rsum k (fun l => V a i l * W a l j)%R).
  Proof.
    intros (A1 & A2 & A3 & A4) (B1 & B2 & B3 & B4). unfold xm_mul. rewrite A2, B1, Nat.eqb_refl. eexists. split; [reflexivity|].
    split; [exact A1|]. split; [exact B2|]. split.
    - intros i j Hi Hj. simpl. apply csumn_lt. intros l Hl. split; auto.
    - intros a i j Hi Hj. simpl. rewrite csumn_val. apply rsum_ext. intros l Hl. simpl. rewrite A4, B4 by assumption. easy.
  Qed.
  Lemma xis_add A B r c V W : xis A r c V -> xis B r c W -> exists C, xm_add A B = Ok C /\ xis C r c (fun a i j => V a i j + W a i j)%R.
  Proof.
    intros (A1 & A2 & A3 & A4) (B1 & B2 & B3 & B4). unfold xm_add, xm_zip. rewrite A1, A2, B1, B2, !Nat.eqb_refl. simpl. eexists. split; [reflexivity|].
    split; [easy|]. split; [easy|]. split; intros; simpl; [split; auto|]. rewrite A4, B4 by assumption. easy.
  Qed.
  Lemma xis_sub A B r c V W : xis A r c V -> xis B r c W -> exists C, xm_sub A B = Ok C /\ xis C r c (fun a i j => V a i j - W a i j)%R.
  Proof.
    intros (A1 & A2 & A3 & A4) (B1 & B2 & B3 & B4). unfold xm_sub, xm_zip. rewrite A1, A2, B1, B2, !Nat.eqb_refl. simpl. eexists. split; [reflexivity|].
    split; [easy|]. split; [easy|]. split; intros; simpl; [split; auto|]. rewrite A4, B4 by assumption. easy.
  Qed.
  Lemma xis_trace A r V : xis A r r V -> exists C, xm_trace A = Ok C /\ xis C 1 1 (fun a _ _ => rsum r (fun i => V a i i)).
  Proof.
    intros (A1 & A2 & A3 & A4). unfold xm_trace. rewrite A1, A2, Nat.eqb_refl. eexists. split; [reflexivity|]. split; [easy|]. split; [easy|].
    split; intros; simpl; [apply csumn_lt; auto|]. rewrite csumn_val. apply rsum_ext. auto.
  Qed.
  Lemma xis_slice A r c V lo hi : xis A r c V -> hi <= r -> xis (xm_slice lo hi A) (hi - lo) c (fun a i j => V a (lo + i) j).
  Proof.
    intros (A1 & A2 & A3 & A4) H. unfold xm_slice. split; [simpl; rewrite A1; lia|]. split; [easy|].
    split; intros; simpl; [apply A3|apply A4]; try assumption; lia.
  Qed.

  (** * emitted constraints *)
  Definition emits (m : OM unit) (C : (nat -> R) -> Prop) : Prop :=
    forall o, exists cs, m o = Ok (tt, add_cons cs o) /\ Forall (con_lt N) cs /\ forall a, Forall (holds a) cs <-> C a.
  Lemma emits_ext m C D : emits m C -> (forall a, C a <-> D a) -> emits m D.
  Proof. intros H E o. destruct (H o) as (cs & A & B & K). exists cs. split; [exact A|]. split; [exact B|]. intros a. rewrite K. apply E. Qed.
  Lemma emits_ret : emits (oret tt) (fun _ => True).
  Proof. intros o. exists []. rewrite add_cons_nil. split; [easy|]. split; [constructor|]. intros a; split; constructor. Qed.
  Lemma emits_seq m (k : OM unit) C D : emits m C -> emits k D -> emits (ado _ <- m; k) (fun a => C a /\ D a).
  Proof.
    intros Hm Hk o. destruct (Hm o) as (c1 & E1 & F1 & K1). destruct (Hk (add_cons c1 o)) as (c2 & E2 & F2 & K2).
    exists (c1 ++ c2)%list. unfold obind. rewrite E1, E2, add_cons_app. split; [easy|]. split; [apply Forall_app; easy|].
    intros a. rewrite Forall_app, K1, K2. easy.
  Qed.
  Lemma emits_lift {A} (r : res A) x (k : A -> OM unit) C : r = Ok x -> emits (k x) C -> emits (obind (olift r) k) C.
  Proof. intros -> H o. destruct (H o) as (cs & E & F). exists cs. unfold obind, olift. rewrite E. easy. Qed.
  Lemma emits_iter {A} (f : A -> OM unit) C : forall l, (forall x, In x l -> emits (f x) (C x)) -> emits (oiter f l) (fun a => forall x, In x l -> C x a).
  Proof.
    induction l as [|x l IH]; intros H; simpl.
    - eapply emits_ext; [apply emits_ret|]. intros a. split; [intros _ ? []|easy].
    - eapply emits_ext; [apply emits_seq; [apply H; simpl; auto|apply IH; intros; apply H; simpl; auto]|].
      intros a. split; [intros [H1 H2] y [<-|Hy]; auto|]. intros Q. split; intros; apply Q; simpl; auto.
  Qed.
  Lemma emits_to c : con_lt N c -> emits (subject_to c) (fun a => holds a c).
  Proof.
    intros H o. exists [c]. split; [easy|]. split; [constructor; [exact H|constructor]|]. intros a. split; [intros Q; inversion Q; easy|].
    intros Q. constructor; [exact Q|constructor].
  Qed.
  Lemma grid_in n m i j : In (i, j) (grid n m) <-> i < n /\ j < m.
  Proof.
    unfold grid. rewrite in_flat_map. split.
    - intros (k & Hk & H). apply in_map_iff in H as (l & [= <- <-] & Hl). apply in_seq in Hk, Hl. lia.
    - intros [H1 H2]. exists i. split; [apply in_seq; lia|]. apply in_map_iff. exists j. split; [easy|]. apply in_seq. lia.
  Qed.
  Lemma emits_eq A r c V q : xis A r c V -> emits (subject_eq A q) (fun a => forall i j, i < r -> j < c -> V a i j = Q2R q).
  Proof.
    intros (A1 & A2 & A3 & A4). unfold subject_eq, subject_all. rewrite A1, A2.
    eapply emits_ext; [apply (emits_iter _ (fun ij a => V a (fst ij) (snd ij) = Q2R q))|].
    - intros [i j] Hij. apply grid_in in Hij as [Hi Hj]. simpl. eapply emits_ext; [apply emits_to; simpl; split; auto|].
      intros a. simpl. rewrite A4 by assumption. easy.
    - intros a. split.
      + intros H i j Hi Hj. apply (H (i, j)). apply grid_in. easy.
      + intros H [i j] Hij. apply grid_in in Hij as [Hi Hj]. apply H; assumption.
  Qed.
  Lemma emits_ge A r c V q : xis A r c V -> emits (subject_ge A q) (fun a => forall i j, i < r -> j < c -> (Q2R q <= V a i j)%R).
  Proof.
    intros (A1 & A2 & A3 & A4). unfold subject_ge, subject_all. rewrite A1, A2.
    eapply emits_ext; [apply (emits_iter _ (fun ij a => (Q2R q <= V a (fst ij) (snd ij))%R))|].
    - intros [i j] Hij. apply grid_in in Hij as [Hi Hj]. simpl. eapply emits_ext; [apply emits_to; simpl; split; auto|].
      intros a. simpl. rewrite A4 by assumption. split; intros; lra.
    - intros a. split.
      + intros H i j Hi Hj. apply (H (i, j)). apply grid_in. easy.
      + intros H [i j] Hij. apply grid_in in Hij as [Hi Hj]. apply H; assumption.
  Qed.
End X.
