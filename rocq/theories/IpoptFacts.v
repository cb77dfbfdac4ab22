(** The nonlinear program of solve_ipopt, phase by phase. *)
From Coq Require Import List Arith Bool String Ascii QArith Reals Qreals Lra Lia Permutation.
From Verif Require Import Prelude PreludeFacts Sympy SympyFacts AlgebraModel FunctionModel CircuitModel SymSpec ParsingModel
  ParsingSpec SolverModel ParsingFacts SolverSpec SolverFacts.
Import ListNotations.
Local Open Scope nat_scope.

(** * state after the elementary commands *)
Definition add_block (name : string) (r c : nat) (o : opti) : opti :=
  mkOpti (op_next o + r * c) (op_cons o) (dset String.eqb name (mkCV r c (op_next o)) (op_vars o)).
Definition add_cons (cs : list ccon) (o : opti) : opti :=
  mkOpti (op_next o) (op_cons o ++ cs) (op_vars o).

Lemma add_cons_nil o : add_cons [] o = o.
Proof. destruct o. unfold add_cons. simpl. rewrite app_nil_r. easy. Qed.
Lemma add_cons_app c1 c2 o : add_cons c2 (add_cons c1 o) = add_cons (c1 ++ c2) o.
Proof. unfold add_cons. simpl. rewrite app_assoc. easy. Qed.
Lemma add_cons_feasible cs o a : feasible (add_cons cs o) a <-> feasible o a /\ Forall (holds a) cs.
Proof. unfold feasible, add_cons. simpl. apply Forall_app. Qed.

Lemma oiter_subject {A} (f : A -> ccon) l o : oiter (fun x => subject_to (f x)) l o = Ok (tt, add_cons (map f l) o).
Proof.
  revert o. induction l as [|x l IH]; intros o; simpl.
  - rewrite add_cons_nil. easy.
  - unfold obind, subject_to. rewrite IH. unfold add_cons. simpl. rewrite <- app_assoc. easy.
Qed.
Lemma new_scalar_run n o : new_scalar n o = Ok (tt, add_block n 1 1 o).
Proof. easy. Qed.
Lemma nonneg_block_run n r c o : nonneg_block n r c o =
  Ok (tt, add_cons (map (fun i => CGe (CVar i) (CNum 0)) (seq (op_next o) (r * c))) (add_block n r c o)).
Proof. unfold nonneg_block, obind, opti_variable, set_var. rewrite oiter_subject. easy. Qed.
Lemma add_reciprocal_run n o : add_reciprocal n o =
  Ok (tt, add_cons [CEq (CMul (CVar (op_next o)) (CVar (op_next o + 1))) (CNum 1); CGe (CVar (op_next o)) (CNum tiny)]
            (add_block ("inv" ++ n) 1 1 (add_block n 1 1 o))).
Proof.
  unfold add_reciprocal, obind, opti_variable, set_var, subject_to, add_cons, add_block. simpl.
  rewrite <- app_assoc. easy.
Qed.

(** * invariant *)
Definition Good (o : opti) : Prop := wf_o o /\ simple_keys o.
Definition hx (o o' : opti) : Prop := (exists cs, op_cons o' = op_cons o ++ cs) /\ op_next o <= op_next o'.

Lemma hx_refl o : hx o o. Proof. split; [exists []; rewrite app_nil_r; easy|lia]. Qed.
Lemma hx_trans o1 o2 o3 : hx o1 o2 -> hx o2 o3 -> hx o1 o3.
Proof. intros [[c1 E1] L1] [[c2 E2] L2]. split; [|lia]. exists (c1 ++ c2). rewrite E2, E1, app_assoc. easy. Qed.
Lemma hx_feasible o o' a : hx o o' -> feasible o' a -> feasible o a.
Proof. intros [[cs E] _] H. unfold feasible in *. rewrite E in H. apply Forall_app in H. easy. Qed.
Lemma ext_hx o o' : ext_o o o' -> hx o o'.
Proof. intros [_ _ A B _]. split; easy. Qed.

Lemma good0 : Good opti0.
Proof. split; [constructor|]; simpl; easy. Qed.
Lemma good_St o : Good o -> St o.
Proof.
  intros [W K]. split; [exact W|]. intros a n v _ H Hr Hc. assert (Hn := K _ _ H).
  unfold split_us. rewrite split_none by easy. simpl. unfold plain_env. rewrite H, Hr, Hc. simpl. lra.
Qed.
Lemma good_block n r c o : Good o -> has_char us n = false -> Good (add_block n r c o) /\ hx o (add_block n r c o).
Proof.
  intros [[W1 W2] K] Hn. split; [split; [constructor|]|].
  - simpl. eapply Forall_impl; [|exact W1]. intros x. apply con_lt_mono. lia.
  - intros m v. unfold add_block. cbn [op_vars op_next]. rewrite sget_set. destruct (String.eqb m n).
    + intros [= <-]. simpl. lia.
    + intros H. apply W2 in H. lia.
  - intros m v. unfold add_block. cbn [op_vars]. rewrite sget_set. destruct (String.eqb m n) eqn:E.
    + apply String.eqb_eq in E; subst m. easy.
    + apply K.
  - split; [exists []; simpl; rewrite app_nil_r; easy|]. simpl. lia.
Qed.
Lemma good_cons cs o : Good o -> Forall (con_lt (op_next o)) cs -> Good (add_cons cs o) /\ hx o (add_cons cs o).
Proof.
  intros [[W1 W2] K] H. split; [split; [constructor|]|]; try easy.
  - simpl. apply Forall_app. easy.
  - split; [exists cs; easy|simpl; lia].
Qed.
Lemma block_at n r c o : dget String.eqb n (op_vars (add_block n r c o)) = Some (mkCV r c (op_next o)).
Proof. apply sget_set_eq. Qed.
Lemma block_other n m r c o : m <> n -> dget String.eqb m (op_vars (add_block n r c o)) = dget String.eqb m (op_vars o).
Proof. apply sget_set_ne. Qed.

Lemma ids_in v i : In i (cv_ids v) <-> cv_base v <= i < cv_base v + cv_rows v * cv_cols v.
Proof. apply in_seq. Qed.
Lemma at_in v i j : i < cv_rows v -> j < cv_cols v -> In (cv_at v i j) (cv_ids v).
Proof. intros A B. apply ids_in. unfold cv_at. nia. Qed.

(** * names *)
Lemma substring_has c s : forall n m, has_char c s = false -> has_char c (String.substring n m s) = false.
Proof.
  induction s as [|a s IH]; intros n m H; simpl in *.
  - destruct n, m; easy.
  - apply orb_false_iff in H as [H1 H2]. destruct n as [|n]; [destruct m as [|m]|]; simpl; auto.
    rewrite H1, (IH 0 m) by easy. easy.
Qed.
Lemma inv_simple n l : (forall m, In m l -> has_char us m = false) -> In n (inv_discr_params l) -> has_char us n = false.
Proof.
  intros H Hin. unfold inv_discr_params in Hin. apply in_map_iff in Hin as [m [<- Hm]]. apply filter_In in Hm as [Hm _].
  apply substring_has. auto.
Qed.

(** * bounds *)
Lemma bounds_spec b : forall this o u o', ca_add_bounds_loop b [] this o = Ok (u, o') -> Good o ->
  (forall ids, this = Some ids -> Forall (fun i => i < op_next o) ids) ->
  exists cs, o' = add_cons cs o /\ Good o'.
Proof.
  induction b as [|[name [ub lb]] b IH]; intros this o u o' H G Ht; simpl in H.
  - injection H; intros <- _. exists []. rewrite add_cons_nil. easy.
  - unfold obind at 1, has_var in H. unfold obind at 1 in H.
    set (this' := if dmem String.eqb name (op_vars o) then _ else this) in H || idtac.
    assert (E : exists this', (forall ids, this' = Some ids -> Forall (fun i => i < op_next o) ids) /\
      (if dmem String.eqb name (op_vars o) then (ado v <- get_var name; oret (Some (cv_ids v))) else oret this) o = Ok (this', o)).
    { unfold dmem. destruct (dget String.eqb name (op_vars o)) as [v|] eqn:Ev.
      - unfold obind, get_var. rewrite Ev. exists (Some (cv_ids v)). split; [|easy]. intros ids [= <-].
        rewrite Forall_forall. intros i Hi. apply ids_in in Hi. apply (wfo_vars _ (proj1 G)) in Ev. lia.
      - exists this. split; easy. }
    destruct E as (this' & Hids & E). rewrite E in H. clear E.
    assert (S1 : forall (q : option Q) (g : Q -> nat -> ccon) o1 o2 u1, Good o1 -> op_next o1 = op_next o ->
      (forall q i, i < op_next o -> con_lt (op_next o) (g q i)) ->
      (match q with None => oret tt | Some q => match this' with None => oraise UnboundLocalError
         | Some ids => oiter (fun i => subject_to (g q i)) ids end end) o1 = Ok (u1, o2) ->
      exists cs, o2 = add_cons cs o1 /\ Good o2).
    { intros q g o1 o2 u1 G1 En Hg Hq. destruct q as [q|].
      - destruct this' as [ids|]; [|easy]. rewrite oiter_subject in Hq. injection Hq; intros <- _. eexists. split; [reflexivity|].
        apply good_cons; [easy|]. rewrite En. rewrite Forall_forall. intros c Hc. apply in_map_iff in Hc as [i [<- Hi]]. apply Hg.
        specialize (Hids ids eq_refl). rewrite Forall_forall in Hids. auto.
      - injection Hq; intros <- _. exists []. rewrite add_cons_nil. easy. }
    unfold obind at 1 in H.
    destruct ((match ub with None => oret tt | Some q => match this' with None => oraise UnboundLocalError
         | Some ids => oiter (fun i => subject_to (CGe (CNum q) (CVar i))) ids end end) o) as [[u1 o1]|] eqn:E1; [|easy].
    apply (S1 ub (fun q i => CGe (CNum q) (CVar i))) in E1; try easy. destruct E1 as (c1 & -> & G1).
    unfold obind at 1 in H.
    destruct ((match lb with None => oret tt | Some q => match this' with None => oraise UnboundLocalError
         | Some ids => oiter (fun i => subject_to (CGe (CVar i) (CNum q))) ids end end) (add_cons c1 o)) as [[u2 o2]|] eqn:E2; [|easy].
    apply (S1 lb (fun q i => CGe (CVar i) (CNum q))) in E2; try easy. destruct E2 as (c2 & -> & G2).
    rewrite add_cons_app in *. apply IH in H; [|easy|easy]. destruct H as (c3 & -> & G3).
    rewrite add_cons_app in *. eauto.
Qed.

(** * head *)
Definition all_scalar (o : opti) : Prop :=
  forall n v, dget String.eqb n (op_vars o) = Some v -> n = "P"%string \/ (cv_rows v = 1 /\ cv_cols v = 1).
Definition mem (n : string) (o : opti) : Prop := exists v, dget String.eqb n (op_vars o) = Some v.

Lemma block_scalar n o : all_scalar o -> all_scalar (add_block n 1 1 o).
Proof.
  intros H m v. unfold add_block. cbn [op_vars]. rewrite sget_set. destruct (String.eqb m n); [|apply H].
  intros [= <-]. auto.
Qed.
Lemma block_mem n m r c o : mem m o -> mem m (add_block n r c o).
Proof.
  intros [v H]. unfold mem, add_block. cbn [op_vars]. rewrite sget_set. destruct (String.eqb m n); eauto.
Qed.
Lemma block_mem_new n r c o : mem n (add_block n r c o).
Proof. eexists. apply block_at. Qed.

Definition HI (o o' : opti) : Prop := Good o' /\ hx o o' /\ all_scalar o' /\ forall n, mem n o -> mem n o'.
Lemma HI_refl o : Good o -> all_scalar o -> HI o o.
Proof. intros A B. repeat split; try easy; try apply A; try apply hx_refl. Qed.
Lemma HI_trans a b c : HI a b -> HI b c -> HI a c.
Proof. intros (A & B & C & D) (A' & B' & C' & D'). split; [easy|]. split; [eapply hx_trans; eauto|]. split; [easy|]. auto. Qed.
Lemma HI_block n o : Good o -> all_scalar o -> has_char us n = false -> HI o (add_block n 1 1 o).
Proof.
  intros A B C. destruct (good_block n 1 1 o A C) as [G1 G2].
  split; [easy|]. split; [easy|]. split; [apply block_scalar; easy|]. intros m. apply block_mem.
Qed.
Lemma HI_cons cs o : Good o -> all_scalar o -> Forall (con_lt (op_next o)) cs -> HI o (add_cons cs o).
Proof. intros A B C. destruct (good_cons cs o A C) as [G1 G2]. split; [easy|]. split; [easy|]. split; easy. Qed.

Lemma HI_iter {A} (f : A -> OM unit) (l : list A) (good : A -> Prop) :
  (forall x o u o', good x -> Good o -> all_scalar o -> f x o = Ok (u, o') -> HI o o') ->
  forall o u o', (forall x, In x l -> good x) -> Good o -> all_scalar o -> oiter f l o = Ok (u, o') -> HI o o'.
Proof.
  intros Hf. induction l as [|x l IH]; intros o u o' Hl G S H; simpl in H.
  - injection H; intros <- _. apply HI_refl; easy.
  - unfold obind in H. destruct (f x o) as [[u1 o1]|] eqn:E; [|easy].
    assert (H1 : HI o o1) by (eapply Hf; [apply Hl; simpl; auto|exact G|exact S|exact E]).
    destruct H1 as (A1 & A2 & A3 & A4). eapply HI_trans; [split; [exact A1|]; split; [exact A2|]; split; [exact A3|exact A4]|].
    eapply IH; [|exact A1|exact A3|exact H]. intros; apply Hl; simpl; auto.
Qed.
Lemma new_scalars_HI l o u o' : (forall n, In n l -> has_char us n = false) -> Good o -> all_scalar o ->
  oiter new_scalar l o = Ok (u, o') -> HI o o'.
Proof.
  apply (HI_iter new_scalar l (fun n => has_char us n = false)). intros x o1 u1 o1' Hx G S H.
  rewrite new_scalar_run in H. injection H; intros <- _. apply HI_block; easy.
Qed.
Lemma reciprocal_HI n o : has_char us n = false -> Good o -> all_scalar o ->
  HI o (add_cons [CEq (CMul (CVar (op_next o)) (CVar (op_next o + 1))) (CNum 1); CGe (CVar (op_next o)) (CNum tiny)]
            (add_block ("inv" ++ n) 1 1 (add_block n 1 1 o))).
Proof.
  intros Hx G S. assert (A := HI_block n o G S Hx). destruct A as (A1 & A2 & A3 & A4).
  assert (B := HI_block ("inv" ++ n) _ A1 A3 ltac:(simpl; easy)). destruct B as (B1 & B2 & B3 & B4).
  eapply HI_trans; [split; [exact A1|split; [exact A2|split; [exact A3|exact A4]]]|].
  eapply HI_trans; [split; [exact B1|split; [exact B2|split; [exact B3|exact B4]]]|].
  apply HI_cons; try easy. repeat constructor; simpl; lia.
Qed.
Lemma reciprocals_HI l o u o' : (forall n, In n l -> has_char us n = false) -> Good o -> all_scalar o ->
  oiter add_reciprocal l o = Ok (u, o') -> HI o o'.
Proof.
  apply (HI_iter add_reciprocal l (fun n => has_char us n = false)). intros x o1 u1 o1' Hx G S H.
  rewrite add_reciprocal_run in H. injection H; intros <- _. apply reciprocal_HI; easy.
Qed.
Lemma declare_run n o : declare_param n o = Ok (tt, if dmem String.eqb n (op_vars o) then o else add_block n 1 1 o).
Proof. unfold declare_param, obind, has_var. destruct (dmem String.eqb n (op_vars o)); easy. Qed.
Lemma declares_HI l o u o' : (forall n, In n l -> has_char us n = false) -> Good o -> all_scalar o ->
  oiter declare_param l o = Ok (u, o') -> HI o o'.
Proof.
  apply (HI_iter declare_param l (fun n => has_char us n = false)). intros x o1 u1 o1' Hx G S H.
  rewrite declare_run in H. injection H; intros <- _. destruct (dmem String.eqb x (op_vars o1)); [apply HI_refl|apply HI_block]; easy.
Qed.
Lemma declares_mem l : forall o u o', (forall n, In n l -> has_char us n = false) -> Good o -> all_scalar o ->
  oiter declare_param l o = Ok (u, o') -> forall n, In n l -> mem n o'.
Proof.
  induction l as [|x l IH]; intros o u o' Hl G S H n Hn; [easy|]. simpl in H. unfold obind in H. rewrite declare_run in H.
  set (o1 := if dmem String.eqb x (op_vars o) then o else add_block x 1 1 o) in H.
  assert (H1 : HI o o1).
  { unfold o1. destruct (dmem String.eqb x (op_vars o)); [apply HI_refl|apply HI_block]; try easy. apply Hl; simpl; auto. }
  destruct H1 as (A1 & A2 & A3 & A4). assert (Hl' : forall m, In m l -> has_char us m = false) by (intros; apply Hl; simpl; auto).
  destruct Hn as [<-|Hn]; [|eapply IH; eauto].
  assert (B := declares_HI l o1 u o' Hl' A1 A3 H). apply B. unfold o1, dmem.
  destruct (dget String.eqb x (op_vars o)) eqn:E; [exists c; easy|apply block_mem_new].
Qed.

Lemma nonneg_var_run n o u o' : nonneg_var n o = Ok (u, o') ->
  exists v, dget String.eqb n (op_vars o) = Some v /\ o' = add_cons (map (fun i => CGe (CVar i) (CNum 0)) (cv_ids v)) o.
Proof.
  unfold nonneg_var, obind, get_var. destruct (dget String.eqb n (op_vars o)) as [v|]; [|easy]. rewrite oiter_subject.
  intros [= _ <-]. eauto.
Qed.

Definition base_names : list string := ["eta"; "rho"; "h"; "gamma"; "delta"; "alpha"; "beta"]%string.

(** The names of the head before the sign constraints: state after
    circuit_opt.py:193. *)
Definition head_rest (params : list string) (dimG : nat) : OM unit :=
  ado P0 <- opti_variable dimG dimG;
  ado _ <- set_var "P" P0;
  ado _ <- oiter add_reciprocal (inv_discr_params params);
  oiter declare_param params.
Definition head_vars (params : list string) (dimG : nat) : OM unit :=
  ado _ <- oiter new_scalar base_names; head_rest params dimG.

Lemma block_P_scalar dimG o : all_scalar o -> all_scalar (add_block "P" dimG dimG o).
Proof.
  intros A3 m v. unfold add_block. cbn [op_vars]. rewrite sget_set. destruct (String.eqb m "P") eqn:E.
  - apply String.eqb_eq in E. auto.
  - apply A3.
Qed.
Lemma head_rest_spec params dimG o0 u o : (forall n, In n params -> has_char us n = false) ->
  Good o0 -> all_scalar o0 ->
  head_rest params dimG o0 = Ok (u, o) ->
  Good o /\ all_scalar o /\ (forall n, In n params -> mem n o).
Proof.
  intros Hp A1 A3 H. unfold head_rest in H.
  assert (H' : (ado _ <- oiter add_reciprocal (inv_discr_params params); oiter declare_param params) (add_block "P" dimG dimG o0) = Ok (u, o)) by exact H.
  clear H. rename H' into H.
  destruct (good_block "P" dimG dimG o0 A1 eq_refl) as [B1 B2].
  assert (B3 := block_P_scalar dimG o0 A3).
  set (o1 := add_block "P" dimG dimG o0) in *. clearbody o1.
  unfold obind at 1 in H. destruct (oiter add_reciprocal (inv_discr_params params) o1) as [[u2 o2]|] eqn:E2; [|easy].
  assert (X2 := reciprocals_HI _ _ _ _ (fun n => inv_simple n params Hp) B1 B3 E2). destruct X2 as (C1 & C2 & C3 & C4).
  assert (D := declares_HI params o2 u o Hp C1 C3 H). destruct D as (D1 & D2 & D3 & D4).
  split; [exact D1|]. split; [exact D3|]. exact (declares_mem params o2 u o Hp C1 C3 H).
Qed.
Lemma head_vars_gen bn params dimG o0 u o : (forall n, In n params -> has_char us n = false) ->
  (forall n, In n bn -> has_char us n = false) -> Good o0 -> all_scalar o0 ->
  (ado _ <- oiter new_scalar bn; head_rest params dimG) o0 = Ok (u, o) ->
  Good o /\ all_scalar o /\ (forall n, In n params -> mem n o).
Proof.
  intros Hp Hb G0 Hs0 H.
  unfold obind at 1 in H. destruct (oiter new_scalar bn o0) as [[u1 o1]|] eqn:E1; [|discriminate].
  destruct (new_scalars_HI bn o0 u1 o1 Hb G0 Hs0 E1) as (A1 & A2 & A3 & A4).
  exact (head_rest_spec params dimG o1 u o Hp A1 A3 H).
Qed.
Lemma all_scalar0 : all_scalar opti0. Proof. intros n v; discriminate. Qed.
Lemma base_names_simple : forall n, In n base_names -> has_char us n = false.
Proof. apply Forall_forall. unfold base_names. repeat apply Forall_cons; try reflexivity. constructor. Qed.
Lemma head_vars_spec params dimG u o : (forall n, In n params -> has_char us n = false) ->
  head_vars params dimG opti0 = Ok (u, o) ->
  Good o /\ all_scalar o /\ (forall n, In n params -> mem n o).
Proof.
  intros Hp. pose proof base_names_simple as Hb. pose proof good0 as G0. pose proof all_scalar0 as S0. unfold head_vars.
  revert Hb G0 S0. generalize base_names opti0. intros bn o0 Hb G0 S0. apply head_vars_gen; assumption.
Qed.

(** circuit_opt.py:195-199 *)
Definition head_signs (b : option bounds) (dimG : nat) : OM cavar :=
  ado P <- get_var "P";
  if Nat.eqb (cv_rows P) dimG && Nat.eqb (cv_cols P) dimG then
    ado _ <- oiter (fun k => subject_to (CGe (tril P k k) (CNum 0))) (seq 0 dimG);
    ado _ <- ca_add_bounds b [];
    ado _ <- nonneg_var "eta"; ado _ <- nonneg_var "rho"; ado _ <- nonneg_var "h";
    oret P
  else oraise TypeError.
Lemma head_split params b dimG o : ipopt_head params b dimG o =
  match head_vars params dimG o with Ok (_, o1) => head_signs b dimG o1 | Err e => Err e end.
Proof.
  unfold ipopt_head, head_vars. fold base_names. fold (head_signs b dimG). generalize (head_signs b dimG). generalize base_names. intros bn hs.
  unfold head_rest, obind. destruct (oiter new_scalar bn o) as [[u1 o1]|]; [|reflexivity].
  destruct (opti_variable dimG dimG o1) as [[P0 o2]|]; [|reflexivity].
  destruct (set_var "P" P0 o2) as [[u3 o3]|]; [|reflexivity].
  destruct (oiter add_reciprocal (inv_discr_params params) o3) as [[u4 o4]|]; [|reflexivity].
  destruct (oiter declare_param params o4) as [[u5 o5]|]; reflexivity.
Qed.

Lemma head_signs_spec b dimG o P o1 : Good o -> head_signs b dimG o = Ok (P, o1) ->
  exists cs, o1 = add_cons cs o /\ Good o1 /\ dget String.eqb "P"%string (op_vars o) = Some P /\ cv_rows P = dimG /\ cv_cols P = dimG /\
    (forall k, k < dimG -> In (CGe (CVar (cv_at P k k)) (CNum 0)) cs) /\
    (forall n, In n ["eta"; "rho"; "h"]%string -> exists v, dget String.eqb n (op_vars o) = Some v /\
       forall i, In i (cv_ids v) -> In (CGe (CVar i) (CNum 0)) cs).
Proof.
  intros G H. unfold head_signs, obind at 1, get_var in H. destruct (dget String.eqb "P"%string (op_vars o)) as [P0|] eqn:EP; [|easy].
  destruct (Nat.eqb (cv_rows P0) dimG) eqn:Er; [|easy]. destruct (Nat.eqb (cv_cols P0) dimG) eqn:Ec; [|easy].
  apply Nat.eqb_eq in Er, Ec. simpl in H. unfold obind at 1 in H. rewrite oiter_subject in H.
  set (c1 := map (fun k => CGe (tril P0 k k) (CNum 0)) (seq 0 dimG)) in H.
  assert (Wb := wfo_vars _ (proj1 G) _ _ EP). rewrite Er, Ec in Wb.
  assert (G1 : Good (add_cons c1 o)).
  { apply good_cons; [easy|]. rewrite Forall_forall. intros c Hc. apply in_map_iff in Hc as [k [<- Hk]]. apply in_seq in Hk.
    unfold tril. rewrite Nat.leb_refl. simpl. unfold cv_at. rewrite Ec. nia. }
  unfold obind at 1 in H. destruct (ca_add_bounds b [] (add_cons c1 o)) as [[u2 o2]|] eqn:E2; [|easy].
  assert (B : exists c2, o2 = add_cons c2 (add_cons c1 o) /\ Good o2).
  { destruct b as [b|]; simpl in E2.
    - apply bounds_spec in E2; try easy.
    - injection E2; intros <- _. exists []. rewrite add_cons_nil. easy. }
  destruct B as (c2 & -> & G2). rewrite add_cons_app in *.
  assert (NN : forall n c o3 u, Good (add_cons c o) -> nonneg_var n (add_cons c o) = Ok (u, o3) ->
    exists v, dget String.eqb n (op_vars o) = Some v /\ o3 = add_cons (c ++ map (fun i => CGe (CVar i) (CNum 0)) (cv_ids v)) o /\ Good o3).
  { intros n c o3 u Gc Hn. apply nonneg_var_run in Hn as (v & Ev & ->). simpl in Ev. exists v. rewrite add_cons_app. split; [easy|]. split; [easy|].
    rewrite <- add_cons_app. apply good_cons; [easy|]. rewrite Forall_forall. intros x Hx. apply in_map_iff in Hx as [i [<- Hi]].
    apply ids_in in Hi. apply (wfo_vars _ (proj1 G)) in Ev. simpl. lia. }
  unfold obind at 1 in H. destruct (nonneg_var "eta" _) as [[u3 o3]|] eqn:E3; [|easy]. apply NN in E3 as (v3 & V3 & -> & G3); [|easy].
  unfold obind at 1 in H. destruct (nonneg_var "rho" _) as [[u4 o4]|] eqn:E4; [|easy]. apply NN in E4 as (v4 & V4 & -> & G4); [|easy].
  unfold obind at 1 in H. destruct (nonneg_var "h" _) as [[u5 o5]|] eqn:E5; [|easy]. apply NN in E5 as (v5 & V5 & -> & G5); [|easy].
  unfold oret in H. injection H; intros <- <-. eexists. split; [reflexivity|]. split; [easy|]. split; [easy|]. split; [easy|]. split; [easy|]. split.
  - intros k Hk. do 4 (apply in_or_app; left). unfold c1. apply in_map_iff. exists k. split; [|apply in_seq; lia].
    unfold tril. rewrite Nat.leb_refl. easy.
  - intros n [<-|[<-|[<-|[]]]].
    + exists v3. split; [easy|]. intros i Hi. do 2 (apply in_or_app; left). apply in_or_app; right. apply in_map_iff. eauto.
    + exists v4. split; [easy|]. intros i Hi. apply in_or_app; left. apply in_or_app; right. apply in_map_iff. eauto.
    + exists v5. split; [easy|]. intros i Hi. apply in_or_app; right. apply in_map_iff. eauto.
Qed.

Lemma head_spec params b dimG P o1 : (forall n, In n params -> has_char us n = false) ->
  ipopt_head params b dimG opti0 = Ok (P, o1) ->
  Good o1 /\ (forall n, In n params -> n <> "P"%string -> exists v, dget String.eqb n (op_vars o1) = Some v /\ cv_rows v = 1 /\ cv_cols v = 1) /\
  dget String.eqb "P"%string (op_vars o1) = Some P /\ cv_rows P = dimG /\ cv_cols P = dimG.
Proof.
  intros Hp H. rewrite head_split in H. destruct (head_vars params dimG opti0) as [[u o]|] eqn:E; [|easy].
  apply head_vars_spec in E; [|easy]. destruct E as (A & B & C).
  apply head_signs_spec in H; [|easy]. destruct H as (cs & -> & G & EP & Er & Ec & _). split; [easy|]. split; [|easy].
  intros n Hn Hne. destruct (C n Hn) as [v Hv]. exists v. split; [easy|]. destruct (B n v Hv); easy.
Qed.

(** * multipliers *)
(** A non-negative block under a name. *)
Definition block_is (o : opti) (name : string) (r c : nat) : Prop :=
  exists v, dget String.eqb name (op_vars o) = Some v /\ cv_rows v = r /\ cv_cols v = c.
Definition nonneg_is (o : opti) (name : string) (r c : nat) : Prop :=
  exists v, dget String.eqb name (op_vars o) = Some v /\ cv_rows v = r /\ cv_cols v = c /\
    forall i, In i (cv_ids v) -> In (CGe (CVar i) (CNum 0)) (op_cons o).

Definition nonneg_block_state (n : string) (r c : nat) (o : opti) : opti :=
  add_cons (map (fun i => CGe (CVar i) (CNum 0)) (seq (op_next o) (r * c))) (add_block n r c o).
Lemma nonneg_block_good n r c o : Good o -> has_char us n = false ->
  Good (nonneg_block_state n r c o) /\ hx o (nonneg_block_state n r c o).
Proof.
  intros G Hn. destruct (good_block n r c o G Hn) as [A B].
  assert (C := good_cons (map (fun i => CGe (CVar i) (CNum 0)) (seq (op_next o) (r * c))) _ A).
  destruct C as [C D].
  { rewrite Forall_forall. intros x Hx. apply in_map_iff in Hx as [i [<- Hi]]. apply in_seq in Hi. simpl. lia. }
  split; [easy|]. eapply hx_trans; eauto.
Qed.
Lemma nonneg_block_new n r c o : nonneg_is (nonneg_block_state n r c o) n r c.
Proof.
  exists (mkCV r c (op_next o)). split; [apply block_at|]. split; [easy|]. split; [easy|]. intros i Hi.
  simpl. apply in_or_app. right. apply in_map_iff. eauto.
Qed.
Lemma nonneg_block_keep n m r c r' c' o : m <> n -> nonneg_is o m r' c' -> nonneg_is (nonneg_block_state n r c o) m r' c'.
Proof.
  intros H (v & E & A & B & C). exists v. split; [unfold nonneg_block_state, add_cons; cbn [op_vars]; rewrite block_other; easy|].
  split; [easy|]. split; [easy|]. intros i Hi. simpl. apply in_or_app. auto.
Qed.

Lemma fun_blocks_spec sizes : forall idx o u o', ipopt_fun_blocks idx sizes o = Ok (u, o') -> Good o ->
  Good o' /\ hx o o' /\
  (forall n, (forall f, n <> lamb_prefix f) -> dget String.eqb n (op_vars o') = dget String.eqb n (op_vars o)) /\
  (forall n r c, (forall f, idx <= f -> n <> lamb_prefix f) -> nonneg_is o n r c -> nonneg_is o' n r c) /\
  (forall k n, nth_error sizes k = Some n -> nonneg_is o' (lamb_prefix (idx + k)) n n).
Proof.
  induction sizes as [|n sizes IH]; intros idx o u o' H G; simpl in H.
  - injection H; intros <- _. split; [easy|]. split; [apply hx_refl|]. split; [easy|]. split; [easy|]. intros [|k] n; easy.
  - unfold obind in H. rewrite nonneg_block_run in H. fold (nonneg_block_state (lamb_prefix idx) n n o) in H.
    destruct (nonneg_block_good (lamb_prefix idx) n n o G (lamb_prefix_nous idx)) as [A B].
    apply IH in H; [|easy]. destruct H as (C & D & E & F & K). split; [easy|]. split; [eapply hx_trans; eauto|]. split.
    { intros m Hm. rewrite E by easy. unfold nonneg_block_state, add_cons; cbn [op_vars]. apply block_other. apply Hm. }
    split.
    { intros m r c Hm Hi. apply F; [intros f Hf; apply Hm; lia|]. apply nonneg_block_keep; [apply Hm; lia|easy]. }
    intros [|k] m Hk; simpl in Hk.
    + injection Hk; intros <-. rewrite Nat.add_0_r. apply F; [|apply nonneg_block_new].
      intros f Hf Eq. apply lamb_prefix_inj in Eq. lia.
    + replace (idx + S k) with (S idx + k) by lia. apply K. easy.
Qed.

Definition ineq_size_of (p : problem) (sr : symres) : nat :=
  match pr_cons p with [] => 0 | _ => List.length (pr_cons p) - sr_E sr end.
Definition eq_size_of (p : problem) (sr : symres) : nat := match pr_cons p with [] => 0 | _ => sr_E sr end.

Lemma lamb_not_nu f : lamb_prefix f <> "nu0"%string.
Proof. unfold lamb_prefix. simpl. easy. Qed.
Lemma lamb_dual f : is_dual (lamb_prefix f) = true.
Proof. unfold is_dual, lamb_prefix. simpl. destruct (nat_str f); easy. Qed.
Lemma lamb0 : lamb_prefix 0 = "lamb0"%string. Proof. easy. Qed.

Lemma multipliers_spec p sr sizes o u o' : ipopt_multipliers p sr sizes o = Ok (u, o') -> Good o ->
  Good o' /\ hx o o' /\
  (forall n, is_dual n = false -> dget String.eqb n (op_vars o') = dget String.eqb n (op_vars o)) /\
  (1 <= ineq_size_of p sr -> nonneg_is o' (lamb_prefix 0) (ineq_size_of p sr) 1) /\
  (1 <= eq_size_of p sr -> block_is o' "nu0" (eq_size_of p sr) 1) /\
  (forall k n, nth_error sizes k = Some n ->
     nonneg_is o' (lamb_prefix ((if Nat.leb 1 (ineq_size_of p sr) then 1 else 0) + k)) n n).
Proof.
  intros H G. unfold ipopt_multipliers in H. fold (ineq_size_of p sr) in H. fold (eq_size_of p sr) in H.
  set (I := ineq_size_of p sr) in *. set (E := eq_size_of p sr) in *.
  assert (H1 : exists o1, Good o1 /\ hx o o1 /\
     (forall n, is_dual n = false -> dget String.eqb n (op_vars o1) = dget String.eqb n (op_vars o)) /\
     (1 <= I -> nonneg_is o1 (lamb_prefix 0) I 1) /\
     (if Nat.leb 1 I then nonneg_block "lamb0" I 1 else oret tt) o = Ok (tt, o1)).
  { destruct (Nat.leb 1 I) eqn:L.
    - exists (nonneg_block_state (lamb_prefix 0) I 1 o). rewrite nonneg_block_run.
      destruct (nonneg_block_good (lamb_prefix 0) I 1 o G (lamb_prefix_nous 0)) as [A B].
      split; [easy|]. split; [easy|]. split; [|split; [intros _; apply nonneg_block_new|reflexivity]].
      intros n Hn. unfold nonneg_block_state, add_cons; cbn [op_vars]. apply block_other. intros ->. easy.
    - apply Nat.leb_gt in L. exists o. split; [easy|]. split; [apply hx_refl|]. split; [easy|]. split; [lia|easy]. }
  destruct H1 as (o1 & G1 & X1 & K1 & N1 & E1). unfold obind at 1 in H. rewrite E1 in H. clear E1.
  assert (H2 : exists o2, Good o2 /\ hx o1 o2 /\
     (forall n, n <> "nu0"%string -> dget String.eqb n (op_vars o2) = dget String.eqb n (op_vars o1)) /\
     op_cons o2 = op_cons o1 /\
     (1 <= E -> block_is o2 "nu0" E 1) /\
     (if Nat.leb 1 E then (ado v <- opti_variable E 1; set_var "nu0" v) else oret tt) o1 = Ok (tt, o2)).
  { destruct (Nat.leb 1 E) eqn:L.
    - exists (add_block "nu0" E 1 o1). destruct (good_block "nu0" E 1 o1 G1 eq_refl) as [A B].
      split; [easy|]. split; [easy|]. split; [intros n Hn; apply block_other; easy|]. split; [easy|].
      split; [|easy]. intros _. eexists. split; [apply block_at|]. easy.
    - apply Nat.leb_gt in L. exists o1. split; [easy|]. split; [apply hx_refl|]. split; [easy|]. split; [easy|]. split; [lia|easy]. }
  destruct H2 as (o2 & G2 & X2 & K2 & C2 & N2 & E2). unfold obind at 1 in H. rewrite E2 in H. clear E2.
  apply fun_blocks_spec in H; [|easy]. destruct H as (G3 & X3 & K3 & F3 & N3).
  split; [easy|]. split; [eapply hx_trans; [|eapply hx_trans]; eauto|]. split.
  { intros n Hn. rewrite K3 by (intros f ->; rewrite lamb_dual in Hn; discriminate Hn). rewrite K2 by (intros ->; discriminate Hn). apply K1. exact Hn. }
  split.
  { intros HI. apply F3.
    - intros f Hf Eq. apply lamb_prefix_inj in Eq. apply Nat.leb_le in HI. rewrite HI in Hf. lia.
    - destruct (N1 HI) as (v & A & B & C & D). exists v. split; [rewrite K2; [easy|apply lamb_not_nu]|]. rewrite C2. easy. }
  split.
  { intros HE. destruct (N2 HE) as (v & A & B). exists v. split; [|easy]. rewrite K3; [easy|]. intros f Eq. symmetry in Eq. apply lamb_not_nu in Eq. easy. }
  exact N3.
Qed.
