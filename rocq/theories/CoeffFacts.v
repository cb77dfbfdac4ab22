(** [sp_v_coeff_matrix]: coefficient matrices and the table of monomials. *)
From Coq Require Import List Arith Bool String Ascii QArith Reals Qreals Lra Lia Permutation.
From Verif Require Import Prelude PreludeFacts Sympy SympyFacts ParsingModel ParsingSpec ParsingFacts.
Import ListNotations.
Local Open Scope nat_scope.

Lemma bindr_ok' {A B} (m : res A) (k : A -> res B) b : bindr m k = Ok b -> exists a, m = Ok a /\ k a = Ok b.
Proof. destruct m as [a|e]; simpl; intros H; [eauto|discriminate]. Qed.

Lemma vname_eqb_eq a b : vname_eqb a b = true <-> a = b.
Proof.
  destruct a, b; simpl; split; intros H; try easy.
  - apply String.eqb_eq in H. congruence.
  - injection H as ->. apply String.eqb_refl.
Qed.

(** * the numbering *)
Lemma combine_dget (l : list vname) : forall k i n, dget vname_eqb n (combine l (seq k (List.length l))) = Some i ->
  nth_error l (i - k) = Some n /\ k <= i.
Proof.
  induction l as [|v l IH]; intros k i n; simpl; [easy|].
  destruct (vname_eqb n v) eqn:E.
  - intros [= ->]. apply vname_eqb_eq in E. subst. rewrite Nat.sub_diag. split; [easy|lia].
  - intros H. apply IH in H as [H1 H2]. split; [|lia]. replace (i - k) with (S (i - S k)) by lia. easy.
Qed.
Lemma combine_dget_some (l : list vname) : forall k i n, NoDup l -> nth_error l i = Some n ->
  dget vname_eqb n (combine l (seq k (List.length l))) = Some (k + i).
Proof.
  induction l as [|v l IH]; intros k i n Hn H; [destruct i; easy|]. inversion Hn as [|? ? Hv Hl]; subst. simpl.
  destruct i as [|i]; simpl in H.
  - injection H as ->. assert (E : vname_eqb n n = true) by (apply vname_eqb_eq; easy). rewrite E. f_equal. lia.
  - destruct (vname_eqb n v) eqn:E.
    + apply vname_eqb_eq in E. subst. apply nth_error_In in H. easy.
    + rewrite (IH (S k) i n Hl H). f_equal. lia.
Qed.
Lemma combine_keys (l : list vname) k : keys (combine l (seq k (List.length l))) = l.
Proof. unfold keys. revert k; induction l as [|v l IH]; intros k; simpl; [easy|]. rewrite IH. easy. Qed.
Lemma combine_snoc (l : list vname) v k : combine (l ++ [v]) (seq k (List.length (l ++ [v]))) =
  combine l (seq k (List.length l)) ++ [(v, k + List.length l)].
Proof.
  revert k; induction l as [|w l IH]; intros k; simpl; [rewrite Nat.add_0_r; easy|]. rewrite IH. simpl. f_equal. f_equal. f_equal. f_equal. lia.
Qed.

Lemma numbered_get nm n i : numbered nm -> dget vname_eqb n (nm_idx nm) = Some i -> nth_error (nm_list nm) i = Some n.
Proof. intros [_ E] H. rewrite E in H. apply combine_dget in H as [H _]. rewrite Nat.sub_0_r in H. exact H. Qed.
Lemma numbered_nth nm n i : numbered nm -> nth_error (nm_list nm) i = Some n -> dget vname_eqb n (nm_idx nm) = Some i.
Proof. intros [Hn E] H. rewrite E. rewrite (combine_dget_some _ 0 i n Hn H). easy. Qed.
Lemma numbered_len nm : numbered nm -> List.length (nm_idx nm) = List.length (nm_list nm).
Proof. intros [_ E]. rewrite E, combine_length, seq_length. lia. Qed.
Lemma numbered_in nm n : numbered nm -> (In n (keys (nm_idx nm)) <-> In n (nm_list nm)).
Proof. intros [_ E]. rewrite E, combine_keys. easy. Qed.

Definition add_name (n : vname) (nm : names) : names :=
  mkNames (nm_list nm ++ [n]) (dset vname_eqb n (List.length (nm_idx nm)) (nm_idx nm)).
Lemma numbered_add n nm : numbered nm -> ~ In n (nm_list nm) -> numbered (add_name n nm).
Proof.
  intros H Hn. assert (L := numbered_len _ H). assert (K := numbered_in nm n H). destruct H as [Hd E]. split; simpl.
  - apply (Permutation_NoDup (l := n :: nm_list nm)); [apply Permutation_cons_append|]. constructor; easy.
  - rewrite (dset_notin vname_eqb vname_eqb_eq) by (rewrite K; exact Hn). rewrite L, E, combine_snoc. easy.
Qed.

Lemma numbered_init params : NoDup params -> numbered (init_names params).
Proof.
  intros H. unfold init_names. set (l := VOne :: map VStr params).
  assert (Hl : NoDup l).
  { constructor; [|apply FinFun.Injective_map_NoDup; [intros a b; congruence|exact H]]. rewrite in_map_iff. intros [x [E _]]. easy. }
  split; simpl; [exact Hl|].
  assert (G : forall l' k d, NoDup (keys d ++ l') -> enum_idx k l' d = d ++ combine l' (seq k (List.length l'))).
  { induction l' as [|v l' IH]; intros k d Hd; simpl; [rewrite app_nil_r; easy|].
    assert (Hv : ~ In v (keys d)).
    { intros Hv. apply NoDup_remove_2 in Hd. apply Hd. apply in_or_app. auto. }
    rewrite (dset_notin vname_eqb vname_eqb_eq) by exact Hv. rewrite IH.
    - rewrite <- app_assoc. easy.
    - unfold keys in *. rewrite map_app. simpl. rewrite <- app_assoc. simpl. exact Hd. }
  apply (G l 0 []). exact Hl.
Qed.

(** * adding the prefixes of a monomial *)
Definition grows (nm nm' : names) : Prop := exists ext, nm_list nm' = nm_list nm ++ ext.
Lemma grows_refl nm : grows nm nm.
Proof. exists []. rewrite app_nil_r. easy. Qed.
Lemma grows_trans a b c : grows a b -> grows b c -> grows a c.
Proof. intros [x E] [y F]. exists (x ++ y). rewrite F, E, app_assoc. easy. Qed.

(** names added from [nm] to [nm'] satisfy [P] (given the final list) *)
Definition added (P : list vname -> string -> Prop) (nm nm' : names) : Prop :=
  exists ext, nm_list nm' = nm_list nm ++ map VStr ext /\ Forall (P (nm_list nm')) ext.
Definition mono_P (P : list vname -> string -> Prop) : Prop := forall l l' s, P l s -> P (l ++ l') s.
Lemma added_refl P nm : added P nm nm.
Proof. exists []. rewrite app_nil_r. split; [easy|constructor]. Qed.
Lemma added_trans P a b c : mono_P P -> added P a b -> added P b c -> added P a c.
Proof.
  intros M (x & E & Hx) (y & F & Hy). exists (x ++ y). rewrite map_app, app_assoc, <- E. split; [exact F|].
  apply Forall_app. split; [|exact Hy]. rewrite F. eapply Forall_impl; [|exact Hx]. intros s. apply M.
Qed.
Lemma added_grows P a b : added P a b -> grows a b.
Proof. intros (x & E & _). eexists. exact E. Qed.
Lemma grows_nth a b i d : grows a b -> i < List.length (nm_list a) -> nth i (nm_list b) d = nth i (nm_list a) d.
Proof. intros [x E] H. rewrite E, app_nth1; easy. Qed.
Lemma grows_nth_error a b i n : grows a b -> nth_error (nm_list a) i = Some n -> nth_error (nm_list b) i = Some n.
Proof. intros [x E] H. rewrite E, nth_error_app1; [exact H|]. apply nth_error_Some. congruence. Qed.
Lemma grows_len a b : grows a b -> List.length (nm_list a) <= List.length (nm_list b).
Proof. intros [x E]. rewrite E, app_length. lia. Qed.

(** what an added name looks like: the join of at least two symbols from [S],
    and its own prefix is in the list (or is one symbol) *)
Definition is_mono (S : string -> Prop) (l : list vname) (s : string) : Prop :=
  exists pre x, pre <> [] /\ nous (pre ++ [x]) /\ Forall S (pre ++ [x]) /\ s = join_us (pre ++ [x]) /\
    (In (VStr (join_us pre)) l \/ exists y, pre = [y]).
Lemma is_mono_mono S : mono_P (is_mono S).
Proof.
  intros l l' s (pre & x & A & B & C & D & E). exists pre, x. repeat (split; [assumption|]).
  destruct E as [E|E]; [left; apply in_or_app; auto|right; exact E].
Qed.

Lemma add_prefixes_spec S l : forall pre nm pre' nm',
  numbered nm -> pre <> [] -> nous (pre ++ l) -> Forall S (pre ++ l) ->
  (In (VStr (join_us pre)) (nm_list nm) \/ exists y, pre = [y]) ->
  add_prefixes (join_us pre) l nm = (pre', nm') ->
  pre' = join_us (pre ++ l) /\ numbered nm' /\ added (is_mono S) nm nm' /\
  (l <> [] -> In (VStr pre') (nm_list nm')).
Proof.
  induction l as [|x l IH]; intros pre nm pre' nm' N Hp Hn HS Hin H; cbn [add_prefixes] in H.
  - injection H as <- <-. rewrite app_nil_r. split; [easy|]. split; [exact N|]. split; [apply added_refl|easy].
  - assert (EJ : (join_us pre ++ "_" ++ x)%string = join_us (pre ++ [x])) by (symmetry; apply join_snoc; exact Hp).
    rewrite EJ in H.
    assert (Hn1 : nous (pre ++ [x])).
    { unfold nous in *. rewrite Forall_forall in *. intros y Hy. apply Hn. rewrite in_app_iff in *. simpl in *. tauto. }
    assert (HS1 : Forall S (pre ++ [x])).
    { rewrite Forall_forall in *. intros y Hy. apply HS. rewrite in_app_iff in *. simpl in *. tauto. }
    set (nm1 := if dmem vname_eqb (VStr (join_us (pre ++ [x]))) (nm_idx nm) then nm else add_name (VStr (join_us (pre ++ [x]))) nm).
    assert (G : numbered nm1 /\ added (is_mono S) nm nm1 /\ In (VStr (join_us (pre ++ [x]))) (nm_list nm1)).
    { unfold nm1. destruct (dmem vname_eqb (VStr (join_us (pre ++ [x]))) (nm_idx nm)) eqn:Em.
      - apply (dmem_true vname_eqb vname_eqb_eq) in Em. apply (numbered_in nm _ N) in Em. split; [exact N|]. split; [apply added_refl|exact Em].
      - assert (Hni : ~ In (VStr (join_us (pre ++ [x]))) (nm_list nm)).
        { rewrite <- (numbered_in nm _ N). apply (dmem_false vname_eqb vname_eqb_eq). exact Em. }
        split; [apply numbered_add; assumption|]. split; [|simpl; apply in_or_app; simpl; auto].
        exists [join_us (pre ++ [x])]. split; [easy|]. constructor; [|constructor].
        exists pre, x. repeat (split; [assumption|]). split; [easy|].
        destruct Hin as [Hin|Hin]; [left; simpl; apply in_or_app; auto|right; exact Hin]. }
    destruct G as (N1 & A1 & I1).
    destruct (IH (pre ++ [x]) nm1 pre' nm') as (E & N' & A' & I').
    + exact N1.
    + destruct pre; easy.
    + rewrite <- app_assoc. exact Hn.
    + rewrite <- app_assoc. exact HS.
    + left. exact I1.
    + exact H.
    + rewrite <- app_assoc in E. split; [exact E|]. split; [exact N'|].
      split; [eapply added_trans; [apply is_mono_mono|exact A1|exact A']|]. intros _. destruct l as [|y l].
      * cbn [add_prefixes] in H. injection H as <- <-. exact I1.
      * apply I'. easy.
Qed.

(** * one monomial *)
Definition term_name (gens : list string) (t : list nat * Q) : vname := mono_name (ssort (mono_vars (fun g => [g]) gens (fst t))).

Lemma nous_gens gens ex : Forall (fun g => has_char us g = false) gens -> nous (mono_vars (fun g => [g]) gens ex).
Proof.
  intros H. unfold nous. rewrite Forall_forall in *. intros x Hx. apply mono_vars_in in Hx as (g & Hg & [<-|[]]). auto.
Qed.
Lemma existsb_false gens : existsb (has_char us) gens = false -> Forall (fun g => has_char us g = false) gens.
Proof.
  intros H. apply Forall_forall. intros g Hg. destruct (has_char us g) eqn:E; [|easy].
  assert (K : existsb (has_char us) gens = true) by (apply existsb_exists; eauto). congruence.
Qed.
Lemma mono_name_val r vs : nous vs -> vname_val r (mono_name vs) = prod_of r vs.
Proof. intros H. destruct vs as [|v vs]; [easy|]. unfold mono_name, vname_val. apply long_join; easy. Qed.
Lemma term_name_val r gens t : Forall (fun g => has_char us g = false) gens ->
  vname_val r (term_name gens t) = mono_val r gens (fst t).
Proof.
  intros H. unfold term_name. rewrite mono_name_val by (apply nous_sort, nous_gens, H).
  rewrite (prod_perm _ _ (mono_vars (fun g => [g]) gens (fst t))) by (apply Permutation_sym, ssort_perm).
  rewrite mono_vars_prod. apply mono_val_ext. intros g _. simpl. apply Rmult_1_r.
Qed.

Definition old (A : cmatrix) (i j : nat) : Q := if Nat.ltb j (cm_cols A) then cm_at A i j else 0%Q.

Lemma coeff_term_spec gens row t nm A nm' A' : numbered nm -> cm_cols A = List.length (nm_list nm) ->
  coeff_term gens row t nm A = Ok (nm', A') ->
  Forall (fun g => has_char us g = false) gens /\ row < cm_rows A /\
  numbered nm' /\ cm_cols A' = List.length (nm_list nm') /\ cm_rows A' = cm_rows A /\
  added (is_mono (fun s => In s gens)) nm nm' /\
  exists i, nth_error (nm_list nm') i = Some (term_name gens t) /\
    forall a b, b < cm_cols A' -> cm_at A' a b = if Nat.eqb a row && Nat.eqb b i then snd t else old A a b.
Proof.
  intros N Ec H. unfold coeff_term in H. destruct (existsb (has_char us) gens) eqn:Eg; [discriminate|].
  apply existsb_false in Eg. split; [exact Eg|].
  set (vs := ssort (mono_vars (fun g => [g]) gens (fst t))) in *. assert (Nv : nous vs) by (apply nous_sort, nous_gens, Eg).
  assert (Gv : Forall (fun s => In s gens) vs).
  { apply Forall_forall. intros x Hx. apply (Permutation_in _ (Permutation_sym (ssort_perm _))) in Hx.
    apply mono_vars_in in Hx as (g & Hg & [<-|[]]). exact Hg. }
  apply bindr_ok' in H as [[[nm1 A1] i] [H1 H2]]. apply bindr_ok' in H2 as [A2 [H2 H3]].
  destruct (Nat.eqb (cm_cols A2) (List.length (nm_idx nm1))) eqn:El; [|discriminate]. injection H3 as -> ->.
  assert (K : numbered nm' /\ cm_cols A1 = List.length (nm_list nm') /\ cm_rows A1 = cm_rows A /\
     added (is_mono (fun s => In s gens)) nm nm' /\ nth_error (nm_list nm') i = Some (mono_name vs) /\
     forall a b, b < cm_cols A1 -> cm_at A1 a b = old A a b).
  { destruct (dget vname_eqb (mono_name vs) (nm_idx nm)) as [i0|] eqn:Ed.
    - injection H1 as -> -> ->. split; [exact N|]. split; [exact Ec|]. split; [easy|]. split; [apply added_refl|].
      split; [apply numbered_get; assumption|]. intros a b Hb. unfold old. apply Nat.ltb_lt in Hb. rewrite Hb. easy.
    - destruct vs as [|v0 vs0] eqn:Ev.
      + exfalso. simpl in H1. discriminate.
      + assert (Sp : ssort (split_us (join_us (v0 :: vs0))) = v0 :: vs0).
        { rewrite split_join by (easy || exact Nv). rewrite <- Ev. unfold vs. apply ssort_ssort. }
        rewrite Sp in H1. destruct vs0 as [|v1 vs1]; [discriminate|].
        destruct (add_prefixes v0 (v1 :: vs1) nm) as [pre nm2] eqn:Ep.
        destruct (vname_eqb (VStr pre) (mono_name (v0 :: v1 :: vs1))) eqn:Ee; [|discriminate].
        destruct (dget vname_eqb (mono_name (v0 :: v1 :: vs1)) (nm_idx nm2)) as [i0|] eqn:E2; [|discriminate].
        apply bindr_ok' in H1 as [A3 [H1 H4]]. injection H4 as -> -> ->.
        destruct (add_prefixes_spec (fun s => In s gens) (v1 :: vs1) [v0] nm pre nm') as (E3 & N3 & A4 & I4); try assumption; try easy.
        { right. exists v0. easy. }
        unfold cm_widen in H1. destruct (Nat.leb (cm_cols A) (List.length (nm_idx nm'))) eqn:El2; [|discriminate]. injection H1 as <-. simpl.
        rewrite (numbered_len _ N3). split; [exact N3|]. split; [easy|]. split; [easy|]. split; [exact A4|].
        split; [apply numbered_get; assumption|]. intros a b _. easy. }
  destruct K as (N' & Ec' & Er' & Ad & Hi & Hat).
  unfold cm_set in H2. destruct (Nat.ltb row (cm_rows A1) && Nat.ltb i (cm_cols A1)) eqn:Eb; [|discriminate]. injection H2 as <-. simpl in *.
  apply andb_true_iff in Eb as [Eb1 Eb2]. apply Nat.ltb_lt in Eb1. rewrite Er' in Eb1. split; [exact Eb1|]. split; [exact N'|]. split; [exact Ec'|]. split; [exact Er'|].
  split; [exact Ad|]. exists i. split; [exact Hi|]. intros a b Hb. unfold upd2. destruct (Nat.eqb a row && Nat.eqb b i); [easy|]. apply Hat, Hb.
Qed.

(** * rows *)
Local Open Scope R_scope.

Lemma row_old r nm nm' A A' i : grows nm nm' -> cm_cols A = List.length (nm_list nm) -> cm_cols A' = List.length (nm_list nm') ->
  (forall b, (b < cm_cols A')%nat -> cm_at A' i b = old A i b) ->
  row_times r (nm_list nm') A' i = row_times r (nm_list nm) A i.
Proof.
  intros G Ec Ec' H. unfold row_times. assert (L := grows_len _ _ G). rewrite <- Ec, <- Ec' in L.
  replace (cm_cols A') with (cm_cols A + (cm_cols A' - cm_cols A))%nat by lia. rewrite rsum_split.
  rewrite (rsum_zero (cm_cols A' - cm_cols A)).
  - rewrite Rplus_0_r. apply rsum_ext. intros b Hb. rewrite H by lia. unfold old.
    assert (Hb' := Hb). apply Nat.ltb_lt in Hb'. rewrite Hb'. rewrite (grows_nth nm nm') by (assumption || lia). easy.
  - intros b Hb. rewrite H by lia. unfold old. destruct (Nat.ltb_spec (cm_cols A + b) (cm_cols A)); [lia|]. rewrite Q2R_0'. lra.
Qed.

Lemma row_new r nm nm' A A' i k q : grows nm nm' -> cm_cols A = List.length (nm_list nm) -> cm_cols A' = List.length (nm_list nm') ->
  (k < cm_cols A')%nat -> old A i k = 0%Q ->
  (forall b, (b < cm_cols A')%nat -> cm_at A' i b = if Nat.eqb b k then q else old A i b) ->
  row_times r (nm_list nm') A' i = row_times r (nm_list nm) A i + Q2R q * vname_val r (nth k (nm_list nm') VOne).
Proof.
  intros G Ec Ec' Hk Ho H.
  set (A0 := mkCM (cm_rows A') (cm_cols A') (fun a b => old A a b)).
  rewrite <- (row_old r nm nm' A A0 i G Ec Ec') by easy.
  assert (E := rsum_single (cm_cols A') k (Q2R q * vname_val r (nth k (nm_list nm') VOne)) Hk).
  rewrite <- E at 1. unfold row_times. simpl cm_cols. rewrite <- rsum_plus. apply rsum_ext. intros b Hb. rewrite H by exact Hb.
  unfold A0. simpl. destruct (Nat.eqb_spec b k) as [->|Hne]; [rewrite Ho, Q2R_0'; lra|lra].
Qed.

(** other rows *)
Definition same_rows (P : nat -> Prop) (A A' : cmatrix) : Prop :=
  forall i b, P i -> (b < cm_cols A')%nat -> cm_at A' i b = old A i b.
Lemma same_rows_trans (P : nat -> Prop) A B C : (cm_cols A <= cm_cols B)%nat -> (cm_cols B <= cm_cols C)%nat ->
  same_rows P A B -> same_rows P B C -> same_rows P A C.
Proof.
  intros L1 L2 H1 H2 i b Hi Hb. rewrite H2 by assumption. unfold old at 1. destruct (Nat.ltb_spec b (cm_cols B)) as [Hl|Hl].
  - apply H1; assumption.
  - unfold old. destruct (Nat.ltb_spec b (cm_cols A)); [lia|easy].
Qed.

Lemma coeff_terms_spec r gens row : forall l nm A nm' A', numbered nm -> cm_cols A = List.length (nm_list nm) ->
  NoDup (map (term_name gens) l) ->
  (forall t i, In t l -> nth_error (nm_list nm) i = Some (term_name gens t) -> cm_at A row i = 0%Q) ->
  coeff_terms gens row l nm A = Ok (nm', A') ->
  numbered nm' /\ cm_cols A' = List.length (nm_list nm') /\ cm_rows A' = cm_rows A /\
  added (is_mono (fun s => In s gens)) nm nm' /\
  row_times r (nm_list nm') A' row = row_times r (nm_list nm) A row + lsum (fun t => Q2R (snd t) * mono_val r gens (fst t)) l /\
  same_rows (fun i => i <> row) A A'.
Proof.
  induction l as [|t l IH]; intros nm A nm' A' N Ec Nd Hz H.
  - simpl in H. injection H as <- <-. split; [exact N|]. split; [exact Ec|]. split; [easy|]. split; [apply added_refl|].
    split; [simpl; lra|]. intros i b _ Hb. unfold old. apply Nat.ltb_lt in Hb. rewrite Hb. easy.
  - simpl in H. apply bindr_ok' in H as [[nm1 A1] [H1 H2]]. simpl in H2.
    destruct (coeff_term_spec gens row t nm A nm1 A1 N Ec H1) as (Hg & Hr & N1 & Ec1 & Er1 & Ad1 & k & Hk & Hat).
    inversion Nd as [|? ? Ht Nd']; subst.
    assert (G1 := added_grows _ _ _ Ad1).
    assert (Hkl : (k < cm_cols A1)%nat) by (rewrite Ec1; apply nth_error_Some; congruence).
    assert (Hok : old A row k = 0%Q).
    { unfold old. destruct (Nat.ltb_spec k (cm_cols A)) as [Hl|]; [|easy]. apply (Hz t k); [simpl; auto|].
      rewrite Ec in Hl. destruct (nth_error (nm_list nm) k) as [n|] eqn:En; [|apply nth_error_None in En; lia].
      rewrite (grows_nth_error _ _ _ _ G1 En) in Hk. exact Hk. }
    destruct (IH nm1 A1 nm' A' N1 Ec1 Nd') as (N' & Ec' & Er' & Ad' & Hrow & Hsame).
    + intros t' i Ht' Hi. assert (Hil : (i < cm_cols A1)%nat) by (rewrite Ec1; apply nth_error_Some; congruence).
      rewrite Hat by exact Hil. rewrite Nat.eqb_refl. simpl. destruct (Nat.eqb_spec i k) as [->|Hne].
      * rewrite Hk in Hi. injection Hi as Hi. exfalso. apply Ht. rewrite Hi. apply in_map. exact Ht'.
      * unfold old. destruct (Nat.ltb_spec i (cm_cols A)) as [Hl|]; [|easy]. apply (Hz t' i); [simpl; auto|].
        rewrite Ec in Hl. destruct (nth_error (nm_list nm) i) as [n|] eqn:En; [|apply nth_error_None in En; lia].
        rewrite (grows_nth_error _ _ _ _ G1 En) in Hi. exact Hi.
    + exact H2.
    + split; [exact N'|]. split; [exact Ec'|]. split; [congruence|].
      split; [eapply added_trans; [apply is_mono_mono|exact Ad1|exact Ad']|]. split.
      * rewrite Hrow. rewrite (row_new r nm nm1 A A1 row k (snd t) G1 Ec Ec1 Hkl Hok).
        -- rewrite (nth_error_nth _ _ VOne Hk), (term_name_val r gens t Hg). simpl. lra.
        -- intros b Hb. rewrite Hat by exact Hb. rewrite Nat.eqb_refl. easy.
      * apply (same_rows_trans _ A A1 A').
        -- rewrite Ec, Ec1. apply grows_len, G1.
        -- rewrite Ec', Ec1. apply grows_len, (added_grows _ _ _ Ad').
        -- intros i b Hi Hb. rewrite Hat by exact Hb. apply Nat.eqb_neq in Hi. rewrite Hi. easy.
        -- exact Hsame.
Qed.

(** distinct monomials have distinct names *)
Lemma count_times (g h : string) n : count_occ string_dec (times n [g]) h = if string_dec g h then n else 0%nat.
Proof. induction n as [|n IH]; simpl; [destruct (string_dec g h); easy|]. destruct (string_dec g h); lia. Qed.
Lemma count_mono_notin gens ex g : ~ In g gens -> count_occ string_dec (mono_vars (fun g => [g]) gens ex) g = 0%nat.
Proof. intros H. apply count_occ_not_In. intros Hi. apply mono_vars_in in Hi as (h & Hh & [<-|[]]). easy. Qed.
Lemma mono_vars_inj gens : forall e1 e2, NoDup gens -> List.length e1 = List.length gens -> List.length e2 = List.length gens ->
  Permutation (mono_vars (fun g => [g]) gens e1) (mono_vars (fun g => [g]) gens e2) -> e1 = e2.
Proof.
  intros e1 e2 Hn L1 L2 P.
  assert (C : forall g, count_occ string_dec (mono_vars (fun g => [g]) gens e1) g = count_occ string_dec (mono_vars (fun g => [g]) gens e2) g).
  { intros g. apply (Permutation_count_occ string_dec). exact P. }
  clear P. revert e1 e2 Hn L1 L2 C. induction gens as [|g gens IH]; intros [|n1 e1] [|n2 e2] Hn L1 L2 C; simpl in *; try lia; [easy|].
  inversion Hn as [|? ? Hg Hn']; subst.
  assert (E : n1 = n2).
  { specialize (C g). rewrite !count_occ_app, !count_times, !count_mono_notin in C by exact Hg. destruct (string_dec g g); [lia|easy]. }
  subst n2. f_equal. apply IH; [easy|lia|lia|]. intros h. specialize (C h). rewrite !count_occ_app in C. lia.
Qed.
Lemma mono_name_inj l1 l2 : nous l1 -> nous l2 -> mono_name l1 = mono_name l2 -> l1 = l2.
Proof.
  intros H1 H2. destruct l1 as [|a l1], l2 as [|b l2]; try easy. unfold mono_name. intros [= E]. apply join_inj in E; easy.
Qed.

Section Rows.
  Context {SY : sympy} (OK : sympy_ok SY).

  Lemma poly_names e : Forall (fun g => has_char us g = false) (p_gens (poly SY e)) ->
    NoDup (map (term_name (p_gens (poly SY e))) (p_terms (poly SY e))).
  Proof using OK.
    intros Hg. pose proof (poly_mono_nodup SY OK e) as Nd. pose proof (poly_len SY OK e) as Pl. pose proof (poly_gens_nodup SY OK e) as Ng.
    set (gens := p_gens (poly SY e)) in *. induction (p_terms (poly SY e)) as [|t l IH]; simpl in *; [constructor|].
    inversion Nd as [|? ? Ht Nd']; subst. constructor; [|apply IH; auto].
    rewrite in_map_iff. intros [t' [E Ht']]. apply Ht. apply in_map_iff. exists t'. split; [|exact Ht'].
    unfold term_name in E. apply mono_name_inj in E; try (apply nous_sort, nous_gens, Hg).
    apply (mono_vars_inj gens); [exact Ng|apply Pl; auto|apply Pl; auto|].
    rewrite (ssort_perm (mono_vars _ gens (fst t'))), E. apply Permutation_sym, ssort_perm.
  Qed.

  Definition uses (l : list sexpr) (s : string) : Prop := exists e, In e l /\ In s (free e).
  Lemma is_mono_weaken (S T : string -> Prop) l s : (forall x, S x -> T x) -> is_mono S l s -> is_mono T l s.
  Proof using Type.
    intros H (pre & x & A & B & C & D). exists pre, x. split; [exact A|]. split; [exact B|]. split; [|exact D].
    eapply Forall_impl; [|exact C]. exact H.
  Qed.
  Lemma added_weaken (S T : string -> Prop) a b : (forall x, S x -> T x) -> added (is_mono S) a b -> added (is_mono T) a b.
  Proof using Type.
    intros H (ext & E & F). exists ext. split; [exact E|]. eapply Forall_impl; [|exact F]. intros s. apply is_mono_weaken, H.
  Qed.

  Lemma coeff_rows_spec r : forall l row nm A nm' A', numbered nm -> nth_error (nm_list nm) 0 = Some VOne ->
    cm_cols A = List.length (nm_list nm) ->
    (forall i b, (row <= i)%nat -> (b < cm_cols A)%nat -> cm_at A i b = 0%Q) ->
    coeff_rows SY row l nm A = Ok (nm', A') ->
    numbered nm' /\ cm_cols A' = List.length (nm_list nm') /\ cm_rows A' = cm_rows A /\
    added (is_mono (uses l)) nm nm' /\
    (forall k e, nth_error l k = Some e -> row_times r (nm_list nm') A' (row + k) = ev r e) /\
    same_rows (fun i => (i < row)%nat \/ (row + List.length l <= i)%nat) A A'.
  Proof using OK.
    induction l as [|e l IH]; intros row nm A nm' A' N H0 Ec Hz H.
    - simpl in H. injection H as <- <-. split; [exact N|]. split; [exact Ec|]. split; [easy|]. split; [apply added_refl|].
      split; [intros k e Hk; destruct k; easy|]. intros i b _ Hb. unfold old. apply Nat.ltb_lt in Hb. rewrite Hb. easy.
    - cbn [coeff_rows] in H. apply bindr_ok' in H as [[nm1 A1] [H1 H2]]. cbn [fst snd] in H2.
      assert (S1 : numbered nm1 /\ cm_cols A1 = List.length (nm_list nm1) /\ cm_rows A1 = cm_rows A /\
        added (is_mono (uses [e])) nm nm1 /\ row_times r (nm_list nm1) A1 row = ev r e /\ same_rows (fun i => i <> row) A A1).
      { destruct (numeric SY e) eqn:En.
        - destruct (numeric_float OK e En) as [q [Hq Hv]]. rewrite Hq in H1. simpl in H1. apply bindr_ok' in H1 as [A2 [H1 H3]].
          injection H3 as -> ->. unfold cm_set in H1. destruct (Nat.ltb row (cm_rows A) && Nat.ltb 0 (cm_cols A)) eqn:Eb; [|discriminate].
          injection H1 as <-. cbn [cm_cols cm_rows]. apply andb_true_iff in Eb as [Eb1 Eb2]. apply Nat.ltb_lt in Eb1, Eb2.
          split; [exact N|]. split; [exact Ec|]. split; [easy|]. split; [apply added_refl|]. split.
          + set (A1 := mkCM (cm_rows A) (cm_cols A) (upd2 (cm_at A) row 0 q)).
            rewrite (row_new r nm1 nm1 A A1 row 0 q (grows_refl nm1) Ec Ec).
            * rewrite (nth_error_nth _ _ VOne H0). unfold row_times. rewrite rsum_zero.
              -- rewrite Hv. simpl. lra.
              -- intros b Hb. rewrite Hz by lia. rewrite Q2R_0'. lra.
            * exact Eb2.
            * unfold old. assert (Eb3 := Eb2). apply Nat.ltb_lt in Eb3. rewrite Eb3. apply Hz; lia.
            * intros b Hb. unfold A1, old. simpl in *. unfold upd2. rewrite Nat.eqb_refl. simpl.
              apply Nat.ltb_lt in Hb. rewrite Hb. easy.
          + intros i b Hi Hb. simpl in *. unfold upd2, old. apply Nat.eqb_neq in Hi. rewrite Hi. simpl. apply Nat.ltb_lt in Hb. rewrite Hb. easy.
        - set (pl := poly SY (simp SY e)) in *.
          destruct (existsb (has_char us) (p_gens pl)) eqn:Ee.
          + destruct (p_terms pl) as [|t ts] eqn:Et.
            * simpl in H1. injection H1 as -> ->. split; [exact N|]. split; [exact Ec|]. split; [easy|]. split; [apply added_refl|]. split.
              -- unfold row_times. rewrite rsum_zero.
                 ++ rewrite <- (simp_ev _ OK), <- (poly_ev _ OK). fold pl. unfold poly_val. rewrite Et. simpl. easy.
                 ++ intros b Hb. rewrite Hz by lia. rewrite Q2R_0'. lra.
              -- intros i b _ Hb. unfold old. apply Nat.ltb_lt in Hb. rewrite Hb. easy.
            * exfalso. cbn [coeff_terms] in H1. unfold coeff_term in H1. rewrite Ee in H1. discriminate.
          + apply existsb_false in Ee.
            destruct (coeff_terms_spec r (p_gens pl) row (p_terms pl) nm A nm1 A1 N Ec (poly_names (simp SY e) Ee)) as (B1 & B2 & B3 & B4 & B5 & B6).
            * intros t i _ Hi. apply Hz; [lia|]. rewrite Ec. apply nth_error_Some. congruence.
            * exact H1.
            * split; [exact B1|]. split; [exact B2|]. split; [exact B3|]. split; [|split; [|exact B6]].
              -- eapply added_weaken; [|exact B4]. intros x Hx. exists e. split; [simpl; auto|].
                 apply (simp_free _ OK). apply (poly_gens_free _ OK). exact Hx.
              -- rewrite B5. unfold row_times. rewrite rsum_zero.
                 ++ rewrite Rplus_0_l. rewrite <- (simp_ev _ OK), <- (poly_ev _ OK). reflexivity.
                 ++ intros b Hb. rewrite Hz by lia. rewrite Q2R_0'. lra. }
      destruct S1 as (N1 & Ec1 & Er1 & Ad1 & Hrow1 & Sm1). assert (G1 := added_grows _ _ _ Ad1).
      assert (L1 : (cm_cols A <= cm_cols A1)%nat) by (rewrite Ec, Ec1; apply grows_len, G1).
      destruct (IH (S row) nm1 A1 nm' A' N1 (grows_nth_error _ _ _ _ G1 H0) Ec1) as (N' & Ec' & Er' & Ad' & Hrow' & Sm').
      + intros i b Hi Hb. rewrite Sm1 by (lia || exact Hb). unfold old. destruct (Nat.ltb_spec b (cm_cols A)); [apply Hz; lia|easy].
      + exact H2.
      + assert (G' := added_grows _ _ _ Ad').
        assert (L' : (cm_cols A1 <= cm_cols A')%nat) by (rewrite Ec1, Ec'; apply grows_len, G').
        split; [exact N'|]. split; [exact Ec'|]. split; [congruence|]. split; [|split].
        * eapply added_trans; [apply is_mono_mono| |].
          -- eapply added_weaken; [|exact Ad1]. intros x (e' & [<-|[]] & Hx). exists e. simpl. auto.
          -- eapply added_weaken; [|exact Ad']. intros x (e' & He' & Hx). exists e'. simpl. auto.
        * intros [|k] e' Hk; simpl in Hk.
          -- injection Hk as <-. rewrite Nat.add_0_r. rewrite <- Hrow1. apply (row_old r nm1 nm' A1 A' row G' Ec1 Ec').
             intros b Hb. apply Sm'; [left; lia|exact Hb].
          -- rewrite <- (Hrow' k e' Hk). f_equal. lia.
        * apply (same_rows_trans _ A A1 A' L1 L').
          -- intros i b Hi Hb. apply Sm1; [simpl in Hi; lia|exact Hb].
          -- intros i b Hi Hb. apply Sm'; [simpl in Hi; lia|exact Hb].
  Qed.

  Lemma coeff_matrix_spec l nm nm' A : numbered nm -> nth_error (nm_list nm) 0 = Some VOne ->
    coeff_matrix SY l nm = Ok (nm', A) ->
    numbered nm' /\ added (is_mono (uses l)) nm nm' /\ represents (nm_list nm') l A.
  Proof using OK.
    intros N H0 H. unfold coeff_matrix in H.
    assert (K := fun r => coeff_rows_spec r l 0 nm (cm_zero (List.length l) (List.length (nm_list nm))) nm' A N H0 eq_refl (fun _ _ _ _ => eq_refl) H).
    destruct (K (fun _ => 0)) as (N' & Ec & Er & Ad & _). split; [exact N'|]. split; [exact Ad|].
    split; [exact Er|]. split; [lia|]. intros r. destruct (K r) as (_ & _ & _ & _ & Hr & _). exact Hr.
  Qed.
  Lemma represents_grow names ext l A : represents names l A -> represents (names ++ ext) l A.
  Proof using Type.
    intros (A1 & A2 & A3). split; [exact A1|]. split; [rewrite app_length; lia|]. intros r k e Hk. rewrite <- (A3 r k e Hk).
    unfold row_times. apply rsum_ext. intros j Hj. rewrite app_nth1 by lia. easy.
  Qed.

  Definition uses_fg (l : list (list sexpr * list sexpr)) (s : string) : Prop :=
    exists F G, In (F, G) l /\ (uses F s \/ uses G s).
  Lemma coeff_matrices_spec : forall l nm aF aG Fs Gs nm', numbered nm -> nth_error (nm_list nm) 0 = Some VOne ->
    coeff_matrices SY l nm aF aG = Ok (Fs, Gs, nm') ->
    numbered nm' /\ added (is_mono (uses_fg l)) nm nm' /\
    exists F' G', Fs = aF ++ F' /\ Gs = aG ++ G' /\
      Forall2 (represents (nm_list nm')) (map fst l) F' /\ Forall2 (represents (nm_list nm')) (map snd l) G'.
  Proof using OK.
    induction l as [|[F G] l IH]; intros nm aF aG Fs Gs nm' N H0 H; cbn [coeff_matrices] in H.
    - injection H as <- <- <-. split; [exact N|]. split; [apply added_refl|]. exists [], []. rewrite !app_nil_r. repeat split; constructor.
    - apply bindr_ok' in H as [[n1 A1] [H1 H]]. apply bindr_ok' in H as [[n2 A2] [H2 H]]. cbn [fst snd] in *.
      destruct (coeff_matrix_spec _ _ _ _ N H0 H1) as (N1 & Ad1 & R1). assert (G1 := added_grows _ _ _ Ad1).
      assert (H01 := grows_nth_error _ _ _ _ G1 H0).
      destruct (coeff_matrix_spec _ _ _ _ N1 H01 H2) as (N2 & Ad2 & R2). assert (G2 := added_grows _ _ _ Ad2).
      assert (H02 := grows_nth_error _ _ _ _ G2 H01).
      destruct (IH _ _ _ _ _ _ N2 H02 H) as (N' & Ad' & F' & G' & -> & -> & HF & HG). assert (G3 := added_grows _ _ _ Ad').
      split; [exact N'|]. split.
      + eapply added_trans; [apply is_mono_mono| |eapply added_trans; [apply is_mono_mono| |]].
        * eapply added_weaken; [|exact Ad1]. intros x Hx. exists F, G. simpl. auto.
        * eapply added_weaken; [|exact Ad2]. intros x Hx. exists F, G. simpl. auto.
        * eapply added_weaken; [|exact Ad']. intros x (F0 & G0 & Hi & Hx). exists F0, G0. simpl. auto.
      + exists (A1 :: F'), (A2 :: G'). rewrite <- !app_assoc. split; [easy|]. split; [easy|]. split; (constructor; [|assumption]).
        * destruct (grows_trans _ _ _ G2 G3) as [ext E]. rewrite E. apply represents_grow, R1.
        * destruct G3 as [ext E]. rewrite E. apply represents_grow, R2.
  Qed.

  Theorem coefficients l params Fs Gs nm : NoDup params -> sp_v_coeff_matrix SY l params = Ok (Fs, Gs, nm) ->
    numbered nm /\ added (is_mono (uses_fg l)) (init_names params) nm /\
    Forall2 (represents (nm_list nm)) (map fst l) Fs /\ Forall2 (represents (nm_list nm)) (map snd l) Gs.
  Proof using OK.
    intros Hn H. destruct (coeff_matrices_spec l (init_names params) [] [] Fs Gs nm (numbered_init _ Hn) eq_refl H)
      as (A & B & F' & G' & -> & -> & C & D). auto.
  Qed.
End Rows.

(** * success *)
Section Total.
  Context {SY : sympy} (OK : sympy_ok SY).
  Local Open Scope nat_scope.

  Lemma coeff_term_total gens row t nm A : numbered nm -> cm_cols A = List.length (nm_list nm) -> row < cm_rows A ->
    Forall (fun g => has_char us g = false) gens -> Forall (fun g => In (VStr g) (nm_list nm)) gens -> In VOne (nm_list nm) ->
    exists r, coeff_term gens row t nm A = Ok r.
  Proof using Type.
    intros N Ec Hr Hg Hin H1. unfold coeff_term.
    assert (Eg : existsb (has_char us) gens = false).
    { destruct (existsb (has_char us) gens) eqn:E; [|easy]. apply existsb_exists in E as (g & Hgi & E).
      rewrite Forall_forall in Hg. rewrite (Hg g Hgi) in E. discriminate. }
    rewrite Eg. set (vs := ssort (mono_vars (fun g => [g]) gens (fst t))).
    assert (Nv : nous vs) by (apply nous_sort, nous_gens, Hg).
    assert (Gv : Forall (fun s => In s gens) vs).
    { apply Forall_forall. intros x Hx. apply (Permutation_in _ (Permutation_sym (ssort_perm _))) in Hx.
      apply mono_vars_in in Hx as (g & Hgi & [<-|[]]). exact Hgi. }
    assert (Get : forall n nm0, numbered nm0 -> In n (nm_list nm0) -> exists i, dget vname_eqb n (nm_idx nm0) = Some i /\ i < List.length (nm_list nm0)).
    { intros n nm0 N0 Hi. apply In_nth_error in Hi as [i Hi]. exists i. split; [apply numbered_nth; assumption|]. apply nth_error_Some. congruence. }
    assert (Fin : forall nm1 A1 i, numbered nm1 -> cm_cols A1 = List.length (nm_list nm1) -> cm_rows A1 = cm_rows A -> i < List.length (nm_list nm1) ->
       exists r, (let? A'' := cm_set row i (snd t) A1 in if Nat.eqb (cm_cols A'') (List.length (nm_idx nm1)) then Ok (nm1, A'') else Err AssertionError) = Ok r).
    { intros nm1 A1 i N1 E1 E2 Hi. unfold cm_set. rewrite E1, E2. apply Nat.ltb_lt in Hr, Hi. rewrite Hr, Hi. simpl.
      rewrite (numbered_len _ N1), Nat.eqb_refl. eauto. }
    destruct (dget vname_eqb (mono_name vs) (nm_idx nm)) as [i|] eqn:Ed.
    - simpl. apply Fin; try easy. apply nth_error_Some. rewrite (numbered_get _ _ _ N Ed). easy.
    - assert (Hn : ~ In (mono_name vs) (nm_list nm)).
      { intros Hi. destruct (Get _ _ N Hi) as (i & Hi' & _). congruence. }
      destruct vs as [|v0 [|v1 vs1]] eqn:Ev.
      + contradiction.
      + exfalso. apply Hn. simpl. inversion Gv as [|? ? Hv _]; subst. rewrite Forall_forall in Hin. apply Hin, Hv.
      + assert (Sp : ssort (split_us (join_us (v0 :: v1 :: vs1))) = v0 :: v1 :: vs1).
        { rewrite split_join by (easy || exact Nv). rewrite <- Ev. unfold vs. apply ssort_ssort. }
        rewrite Sp. destruct (add_prefixes v0 (v1 :: vs1) nm) as [pre nm2] eqn:Ep.
        destruct (add_prefixes_spec (fun s => In s gens) (v1 :: vs1) [v0] nm pre nm2) as (E3 & N3 & A4 & I4); try assumption; try easy.
        { right. exists v0. easy. }
        assert (Ee : vname_eqb (VStr pre) (mono_name (v0 :: v1 :: vs1)) = true) by (apply vname_eqb_eq; rewrite E3; easy).
        rewrite Ee. apply vname_eqb_eq in Ee. destruct (Get (VStr pre) nm2 N3 (I4 ltac:(easy))) as (i & Hi & Hl). rewrite <- Ee, Hi.
        unfold cm_widen. rewrite (numbered_len _ N3), Ec. assert (L := grows_len _ _ (added_grows _ _ _ A4)). apply Nat.leb_le in L. rewrite L.
        cbn [bindr]. rewrite <- (numbered_len _ N3). apply Fin; try easy. apply (numbered_len _ N3).
  Qed.

  Lemma grows_in a b n : grows a b -> In n (nm_list a) -> In n (nm_list b).
  Proof using Type. intros [x E] H. rewrite E. apply in_or_app. auto. Qed.

  Lemma coeff_terms_total gens row : forall l nm A, numbered nm -> cm_cols A = List.length (nm_list nm) -> row < cm_rows A ->
    Forall (fun g => has_char us g = false) gens -> Forall (fun g => In (VStr g) (nm_list nm)) gens -> In VOne (nm_list nm) ->
    exists nm' A', coeff_terms gens row l nm A = Ok (nm', A') /\ numbered nm' /\ cm_cols A' = List.length (nm_list nm') /\ cm_rows A' = cm_rows A /\ grows nm nm'.
  Proof using Type.
    induction l as [|t l IH]; intros nm A N Ec Hr Hg Hin H1; cbn [coeff_terms].
    - exists nm, A. repeat (split; [easy|]). apply grows_refl.
    - destruct (coeff_term_total gens row t nm A N Ec Hr Hg Hin H1) as [[nm1 A1] E]. rewrite E. simpl.
      destruct (coeff_term_spec gens row t nm A nm1 A1 N Ec E) as (_ & _ & N1 & Ec1 & Er1 & Ad1 & _). assert (G1 := added_grows _ _ _ Ad1).
      destruct (IH nm1 A1 N1 Ec1) as (nm' & A' & E' & N' & Ec' & Er' & G'); try lia; try assumption.
      + eapply Forall_impl; [|exact Hin]. intros g. apply grows_in, G1.
      + eapply grows_in; eauto.
      + exists nm', A'. split; [exact E'|]. split; [exact N'|]. split; [exact Ec'|]. split; [congruence|]. eapply grows_trans; eauto.
  Qed.

  Lemma coeff_rows_total : forall l row nm A, numbered nm -> cm_cols A = List.length (nm_list nm) -> row + List.length l <= cm_rows A ->
    (forall e s, In e l -> In s (free e) -> In (VStr s) (nm_list nm) /\ simple_name s) -> In VOne (nm_list nm) ->
    exists nm' A', coeff_rows SY row l nm A = Ok (nm', A') /\ numbered nm' /\ cm_cols A' = List.length (nm_list nm') /\ cm_rows A' = cm_rows A /\ grows nm nm'.
  Proof using OK.
    induction l as [|e l IH]; intros row nm A N Ec Hr Hd H1; cbn [coeff_rows].
    - exists nm, A. repeat (split; [easy|]). apply grows_refl.
    - simpl in Hr. assert (S1 : exists nm1 A1, (if numeric SY e then let? q := float_simp SY e in let? A' := cm_set row 0 q A in Ok (nm, A')
          else coeff_terms (p_gens (poly SY (simp SY e))) row (p_terms (poly SY (simp SY e))) nm A) = Ok (nm1, A1) /\
          numbered nm1 /\ cm_cols A1 = List.length (nm_list nm1) /\ cm_rows A1 = cm_rows A /\ grows nm nm1).
      { destruct (numeric SY e) eqn:En.
        - destruct (numeric_float OK e En) as [q [Hq _]]. rewrite Hq. simpl. unfold cm_set.
          assert (L0 : 0 < cm_cols A) by (rewrite Ec; destruct (nm_list nm); [destruct H1|simpl; lia]).
          assert (Hr0 : row < cm_rows A) by lia. apply Nat.ltb_lt in L0, Hr0. rewrite Hr0, L0. simpl. eexists. eexists. split; [reflexivity|].
          split; [exact N|]. split; [exact Ec|]. split; [easy|]. apply grows_refl.
        - assert (Hf : forall g, In g (p_gens (poly SY (simp SY e))) -> In g (free e)).
          { intros g Hg. apply (simp_free _ OK), (poly_gens_free _ OK). exact Hg. }
          apply coeff_terms_total; try assumption; try lia.
          + apply Forall_forall. intros g Hg. apply simple_has. apply (Hd e g); simpl; auto.
          + apply Forall_forall. intros g Hg. apply (Hd e g); simpl; auto. }
      destruct S1 as (nm1 & A1 & E1 & N1 & Ec1 & Er1 & G1). cbv zeta. rewrite E1. cbn [bindr fst snd].
      destruct (IH (S row) nm1 A1 N1 Ec1) as (nm' & A' & E' & N' & Ec' & Er' & G').
      + lia.
      + intros e' x He Hx. destruct (Hd e' x) as [Q1 Q2]; simpl; auto. split; [|exact Q2]. eapply grows_in; eauto.
      + eapply grows_in; eauto.
      + exists nm', A'. split; [exact E'|]. split; [exact N'|]. split; [exact Ec'|]. split; [congruence|]. eapply grows_trans; eauto.
  Qed.

  Theorem coefficients_total params l : NoDup params -> declared_fg params l -> exists Fs Gs nm, sp_v_coeff_matrix SY l params = Ok (Fs, Gs, nm).
  Proof using OK.
    intros Hn Hd. unfold sp_v_coeff_matrix.
    assert (G : forall nm aF aG, numbered nm -> In VOne (nm_list nm) -> (forall s, In s params -> In (VStr s) (nm_list nm)) ->
      exists Fs Gs nm', coeff_matrices SY l nm aF aG = Ok (Fs, Gs, nm')).
    { induction l as [|[F G] l' IH]; intros nm aF aG N H1 Hp; cbn [coeff_matrices]; [eauto|].
      assert (T : forall es nm0, (forall e s, In e es -> In s (free e) -> In s params /\ simple_name s) -> numbered nm0 -> In VOne (nm_list nm0) ->
         (forall s, In s params -> In (VStr s) (nm_list nm0)) -> exists nm1 A1, coeff_matrix SY es nm0 = Ok (nm1, A1) /\ numbered nm1 /\ grows nm0 nm1).
      { intros es nm0 Hes N0 H10 Hp0. unfold coeff_matrix.
        destruct (coeff_rows_total es 0 nm0 (cm_zero (List.length es) (List.length (nm_list nm0))) N0) as (nm1 & A1 & E & N1 & _ & _ & G1); try easy.
        - intros e s He Hs. destruct (Hes e s He Hs). auto.
        - exists nm1, A1. auto. }
      destruct (T F nm) as (nm1 & A1 & E1 & N1 & G1); try assumption.
      { intros e s He Hs. apply (Hd F G e s); simpl; auto. }
      destruct (T G nm1) as (nm2 & A2 & E2 & N2 & G2); try assumption.
      { intros e s He Hs. apply (Hd F G e s); simpl; auto. }
      { eapply grows_in; eauto. }
      { intros s Hs. eapply grows_in; [exact G1|auto]. }
      rewrite E1. cbn [bindr fst snd]. rewrite E2. cbn [bindr fst snd]. apply IH.
      - intros F0 G0 e s Hi. apply Hd. simpl; auto.
      - exact N2.
      - eapply grows_in; [exact G2|]. eapply grows_in; eauto.
      - intros s Hs. eapply grows_in; [exact G2|]. eapply grows_in; [exact G1|auto]. }
    apply G; [apply numbered_init, Hn|simpl; auto|]. intros s Hs. simpl. right. apply in_map. exact Hs.
  Qed.
End Total.
