(** The coefficients read off linear expressions. *)
From Coq Require Import List Arith Bool String Ascii QArith Reals Qreals Lra Lia Permutation.
From Verif Require Import Prelude PreludeFacts Sympy SympyFacts ParsingModel ParsingSpec ParsingFacts CoeffFacts.
Import ListNotations.
Local Open Scope nat_scope.

Lemma mono_vars_zero gens : forall ex, fold_right plus 0 ex = 0 -> mono_vars (fun g => [g]) gens ex = [].
Proof. induction gens as [|g gens IH]; intros [|n ex] H; simpl in *; try reflexivity. assert (n = 0) by lia. subst. simpl. apply IH. lia. Qed.
Lemma mono_vars_one gens : forall ex, fold_right plus 0 ex <= 1 ->
  mono_vars (fun g => [g]) gens ex = [] \/ exists g, In g gens /\ mono_vars (fun g => [g]) gens ex = [g].
Proof.
  induction gens as [|g gens IH]; intros [|n ex] H; simpl in *; auto.
  destruct n as [|[|n]]; [|right|lia].
  - simpl. destruct (IH ex) as [E|(h & Hh & E)]; [lia|auto|right; eauto].
  - exists g. split; [auto|]. simpl. rewrite mono_vars_zero by lia. reflexivity.
Qed.
Lemma join_one g : join_us [g] = g.
Proof. reflexivity. Qed.
Lemma lin_name_cases gens t : fold_right plus 0 (fst t) <= 1 ->
  (term_name gens t = VOne /\ mono_vars (fun g => [g]) gens (fst t) = []) \/
  exists g, In g gens /\ term_name gens t = VStr g /\ mono_vars (fun g => [g]) gens (fst t) = [g].
Proof.
  intros H. unfold term_name. destruct (mono_vars_one gens (fst t) H) as [E|(g & Hg & E)]; rewrite E; [left; auto|right].
  exists g. split; [exact Hg|]. split; reflexivity.
Qed.
Lemma lin_name_val r gens t : fold_right plus 0 (fst t) <= 1 -> vname_val r (term_name gens t) = mono_val (long r) gens (fst t).
Proof.
  intros H. assert (E : mono_val (long r) gens (fst t) = prod_of (long r) (mono_vars (fun g => [g]) gens (fst t))).
  { rewrite mono_vars_prod. apply mono_val_ext. intros g _. simpl. lra. }
  rewrite E. destruct (lin_name_cases gens t H) as [[-> ->]|(g & _ & -> & ->)]; simpl; lra.
Qed.
Lemma lin_name_inj gens t t' : fold_right plus 0 (fst t) <= 1 -> fold_right plus 0 (fst t') <= 1 ->
  term_name gens t = term_name gens t' -> mono_vars (fun g => [g]) gens (fst t) = mono_vars (fun g => [g]) gens (fst t').
Proof.
  intros H H' E. destruct (lin_name_cases gens t H) as [[E1 ->]|(g & _ & E1 & ->)]; destruct (lin_name_cases gens t' H') as [[E2 ->]|(g' & _ & E2 & ->)]; congruence.
Qed.

Definition linear_terms (l : list (list nat * Q)) : Prop := forall t, In t l -> fold_right plus 0 (fst t) <= 1.
Lemma lin_names SY e : sympy_ok SY -> linear_terms (p_terms (poly SY e)) -> NoDup (map (term_name (p_gens (poly SY e))) (p_terms (poly SY e))).
Proof.
  intros OK. pose proof (poly_mono_nodup SY OK e) as Nd. pose proof (poly_len SY OK e) as Pl. pose proof (poly_gens_nodup SY OK e) as Ng.
  set (gens := p_gens (poly SY e)) in *. induction (p_terms (poly SY e)) as [|t l IH]; intros Hl; simpl in *; [constructor|].
  inversion Nd as [|? ? Ht Nd']; subst. constructor; [|apply IH; auto; intros u Hu; apply Hl; simpl; auto].
  rewrite in_map_iff. intros [t' [E Ht']]. apply Ht. apply in_map_iff. exists t'. split; [|exact Ht'].
  apply (mono_vars_inj gens); [exact Ng|apply Pl; auto|apply Pl; auto|].
  rewrite (lin_name_inj gens t' t); [apply Permutation_refl|apply Hl; simpl; auto|apply Hl; simpl; auto|exact E].
Qed.

Local Open Scope R_scope.
(** Changing an entry that was zero adds one product. *)
Lemma rsum_upd n (row : nat -> Q) i q w : (i < n)%nat -> Q2R (row i) = 0 ->
  rsum n (fun j => Q2R (upd1 row i q j) * w j) = rsum n (fun j => Q2R (row j) * w j) + Q2R q * w i.
Proof.
  intros Hi H0. rewrite <- (rsum_single n i (Q2R q * w i) Hi), <- rsum_plus. apply rsum_ext. intros k _. unfold upd1.
  destruct (Nat.eqb_spec k i) as [->|]; [rewrite H0; lra|lra].
Qed.

Section Lin.
  Context (nm : names) (HN : numbered nm).
  Let n := List.length (nm_list nm).
  Let value (r : env) (j : nat) : R := vname_val r (nth j (nm_list nm) VOne).

  Lemma known_idx v : In v (nm_list nm) -> exists i, dget vname_eqb v (nm_idx nm) = Some i /\ (i < n)%nat /\ nth_error (nm_list nm) i = Some v.
  Proof using HN.
    intros H. apply In_nth_error in H as [i Hi]. exists i. split; [apply numbered_nth; assumption|]. split; [|exact Hi].
    apply nth_error_Some. rewrite Hi. discriminate.
  Qed.
  Lemma idx_value r v i : dget vname_eqb v (nm_idx nm) = Some i -> (i < n)%nat /\ value r i = vname_val r v.
  Proof using HN.
    intros H. apply (numbered_get nm v i HN) in H. split; [apply nth_error_Some; rewrite H; discriminate|]. unfold value.
    rewrite (nth_error_nth _ _ VOne H). reflexivity.
  Qed.
  Lemma idx_inj v w i : dget vname_eqb v (nm_idx nm) = Some i -> dget vname_eqb w (nm_idx nm) = Some i -> v = w.
  Proof using HN. intros H1 H2. apply (numbered_get nm _ _ HN) in H1. apply (numbered_get nm _ _ HN) in H2. congruence. Qed.

  Lemma const_terms_ok gens : forall l idx row row', const_terms gens l (nm_idx nm) idx row = Ok row' ->
    NoDup (map (term_name gens) l) -> (forall t, In t l -> In (term_name gens t) (nm_list nm)) ->
    (forall t i, In t l -> dget vname_eqb (term_name gens t) (nm_idx nm) = Some i -> Q2R (row i) = 0) ->
    linear_terms l /\
    forall r, rsum n (fun j => Q2R (row' j) * value r j) = rsum n (fun j => Q2R (row j) * value r j) + lsum (fun t => Q2R (snd t) * vname_val r (term_name gens t)) l.
  Proof using HN.
    induction l as [|[ex q] l IH]; intros idx row row' H Nd Hk H0.
    - simpl in H. injection H as <-. split; [intros ? []|]. intros r. simpl. lra.
    - cbn -[Nat.leb Nat.ltb] in H. destruct (Nat.leb (fold_right plus 0%nat ex) 1) eqn:El; [|discriminate]. apply Nat.leb_le in El.
      change (mono_name (ssort (mono_vars (fun g => [g]) gens ex))) with (term_name gens (ex, q)) in H.
      destruct (known_idx (term_name gens (ex, q))) as (i & Hi & Hin & Hnth); [apply Hk; simpl; auto|]. rewrite Hi in H.
      destruct (Nat.ltb i (List.length (nm_idx nm))); [|discriminate]. inversion Nd as [|? ? Ht Nd']; subst.
      destruct (IH (Some i) (upd1 row i q) row' H Nd') as [L1 L2].
      + intros t Ht'. apply Hk. simpl. auto.
      + intros t j Ht' Hj. unfold upd1. destruct (Nat.eqb_spec j i) as [->|]; [|apply (H0 t j); [simpl; auto|exact Hj]].
        exfalso. apply Ht. rewrite (idx_inj _ _ _ Hi Hj). apply in_map, Ht'.
      + split; [intros t [<-|Ht']; [exact El|apply L1, Ht']|]. intros r. rewrite L2, rsum_upd by first [exact Hin | apply (H0 (ex, q) i); [simpl; auto|exact Hi]].
        simpl. destruct (idx_value r _ _ Hi) as [_ ->]. lra.
  Qed.
  Lemma const_terms_total gens : forall l idx row, linear_terms l -> (forall t, In t l -> In (term_name gens t) (nm_list nm)) ->
    exists row', const_terms gens l (nm_idx nm) idx row = Ok row'.
  Proof using HN.
    induction l as [|[ex q] l IH]; intros idx row Hl Hk; [simpl; eauto|]. cbn -[Nat.leb Nat.ltb].
    assert (El : Nat.leb (fold_right plus 0%nat ex) 1 = true) by (apply Nat.leb_le; apply (Hl (ex, q)); simpl; auto). rewrite El.
    change (mono_name (ssort (mono_vars (fun g => [g]) gens ex))) with (term_name gens (ex, q)).
    destruct (known_idx (term_name gens (ex, q))) as (i & Hi & Hin & Hnth); [apply Hk; simpl; auto|]. rewrite Hi.
    assert (Eb : Nat.ltb i (List.length (nm_idx nm)) = true) by (apply Nat.ltb_lt; rewrite (numbered_len nm HN); exact Hin). rewrite Eb.
    apply IH; [intros t Ht; apply Hl; simpl; auto|intros t Ht; apply Hk; simpl; auto].
  Qed.

  Lemma lin_terms_ok gens row : forall l A A', lin_terms gens row l (nm_idx nm) A = Ok A' -> cm_cols A = n ->
    NoDup (map (term_name gens) l) ->
    (forall t i, In t l -> dget vname_eqb (term_name gens t) (nm_idx nm) = Some i -> Q2R (cm_at A row i) = 0) ->
    cm_rows A' = cm_rows A /\ cm_cols A' = n /\ linear_terms l /\ (forall i j, i <> row -> cm_at A' i j = cm_at A i j) /\
    (forall t, In t l -> In (term_name gens t) (nm_list nm)) /\
    forall r, rsum n (fun j => Q2R (cm_at A' row j) * value r j) = rsum n (fun j => Q2R (cm_at A row j) * value r j) + lsum (fun t => Q2R (snd t) * vname_val r (term_name gens t)) l.
  Proof using HN.
    induction l as [|[ex q] l IH]; intros A A' H Hc Nd H0.
    - simpl in H. injection H as <-. split; [reflexivity|]. split; [exact Hc|]. split; [intros ? []|]. split; [reflexivity|]. split; [intros ? []|]. intros r. simpl. lra.
    - cbn -[Nat.leb Nat.ltb] in H. destruct (Nat.leb (fold_right plus 0%nat ex) 1) eqn:El; [|discriminate]. apply Nat.leb_le in El.
      change (mono_name (ssort (mono_vars (fun g => [g]) gens ex))) with (term_name gens (ex, q)) in H.
      destruct (dget vname_eqb (term_name gens (ex, q)) (nm_idx nm)) as [i|] eqn:Hi; [|discriminate].
      apply bindr_ok' in H as (A1 & E1 & H). unfold cm_set in E1. destruct (Nat.ltb row (cm_rows A) && Nat.ltb i (cm_cols A)) eqn:Eb; [|discriminate]. injection E1 as <-.
      inversion Nd as [|? ? Ht Nd']; subst. destruct (IH _ _ H) as (K1 & K2 & K3 & K4 & K5 & K6).
      + exact Hc.
      + exact Nd'.
      + intros t j Ht' Hj. cbn. unfold upd2. rewrite Nat.eqb_refl. cbn. destruct (Nat.eqb_spec j i) as [->|]; [|apply (H0 t j); [simpl; auto|exact Hj]].
        exfalso. apply Ht. rewrite (idx_inj _ _ _ Hi Hj). apply in_map, Ht'.
      + cbn in K1. split; [exact K1|]. split; [exact K2|]. split; [intros t [<-|Ht']; [exact El|apply K3, Ht']|]. split; [|split].
        * intros a j Ha. rewrite K4 by exact Ha. cbn. unfold upd2. destruct (Nat.eqb_spec a row); [contradiction|]. reflexivity.
        * intros t [<-|Ht']; [|apply K5, Ht']. apply (numbered_get nm _ _ HN) in Hi. apply nth_error_In in Hi. exact Hi.
        * intros r. rewrite K6. cbn [cm_at]. destruct (idx_value r _ _ Hi) as [Hin Ev]. 
          rewrite (rsum_ext n _ (fun j => Q2R (upd1 (cm_at A row) i q j) * value r j)).
          -- rewrite rsum_upd by first [exact Hin | apply (H0 (ex, q) i); [simpl; auto|exact Hi]]. simpl. rewrite Ev. lra.
          -- intros j _. unfold upd2, upd1. rewrite Nat.eqb_refl. reflexivity.
  Qed.
  Lemma lin_terms_total gens row : forall l A, cm_cols A = n -> (row < cm_rows A)%nat -> linear_terms l -> (forall t, In t l -> In (term_name gens t) (nm_list nm)) ->
    exists A', lin_terms gens row l (nm_idx nm) A = Ok A'.
  Proof using HN.
    induction l as [|[ex q] l IH]; intros A Hc Hr Hl Hk; [simpl; eauto|]. cbn -[Nat.leb Nat.ltb].
    assert (El : Nat.leb (fold_right plus 0%nat ex) 1 = true) by (apply Nat.leb_le; apply (Hl (ex, q)); simpl; auto). rewrite El.
    change (mono_name (ssort (mono_vars (fun g => [g]) gens ex))) with (term_name gens (ex, q)).
    destruct (known_idx (term_name gens (ex, q))) as (i & Hi & Hin & Hnth); [apply Hk; simpl; auto|]. rewrite Hi. unfold cm_set.
    apply Nat.ltb_lt in Hr as Er. rewrite <- Hc in Hin. apply Nat.ltb_lt in Hin. rewrite Er, Hin. cbn -[Nat.leb Nat.ltb].
    apply IH; [exact Hc|exact Hr|intros t Ht; apply Hl; simpl; auto|intros t Ht; apply Hk; simpl; auto].
  Qed.

  Context {SY : sympy} (OK : sympy_ok SY) (H1 : nth_error (nm_list nm) 0 = Some VOne).
  (** every symbol of [e] is in the table *)
  Definition known (e : sexpr) : Prop := forall s, In s (free e) -> In (VStr s) (nm_list nm).

  Lemma one_value r : (0 < n)%nat /\ value r 0%nat = 1.
  Proof using H1. split; [apply nth_error_Some; rewrite H1; discriminate|]. unfold value. rewrite (nth_error_nth _ _ VOne H1). reflexivity. Qed.
  Lemma known_terms e : known e -> linear_terms (p_terms (poly SY (simp SY e))) ->
    forall t, In t (p_terms (poly SY (simp SY e))) -> In (term_name (p_gens (poly SY (simp SY e))) t) (nm_list nm).
  Proof using OK H1.
    intros Hk Hl t Ht. destruct (lin_name_cases (p_gens (poly SY (simp SY e))) t (Hl t Ht)) as [[-> _]|(g & Hg & -> & _)].
    - apply nth_error_In in H1. exact H1.
    - apply Hk, (simp_free SY OK), (poly_gens_free SY OK), Hg.
  Qed.
  Lemma lin_poly_ev r e : linear_terms (p_terms (poly SY (simp SY e))) ->
    lsum (fun t => Q2R (snd t) * vname_val r (term_name (p_gens (poly SY (simp SY e))) t)) (p_terms (poly SY (simp SY e))) = ev (long r) e.
  Proof using OK.
    intros Hl. rewrite <- (simp_ev SY OK), <- (poly_ev SY OK). unfold poly_val. apply lsum_ext. intros t Ht. rewrite lin_name_val by (apply Hl, Ht). reflexivity.
  Qed.

  (** [const_terms] stops at a term that is not linear *)
  Lemma const_terms_linear gens tbl : forall l idx row row', const_terms gens l tbl idx row = Ok row' -> linear_terms l.
  Proof using Type.
    clear. induction l as [|[ex q] l IH]; intros idx row row' H; [intros ? []|]. cbn -[Nat.leb Nat.ltb] in H.
    destruct (Nat.leb (fold_right plus 0%nat ex) 1) eqn:El; [|discriminate]. apply Nat.leb_le in El.
    destruct (match dget vname_eqb _ tbl with Some i => Some i | None => idx end) as [i|]; [|discriminate].
    destruct (Nat.ltb i _); [|discriminate]. intros t [<-|Ht]; [exact El|]. apply (IH _ _ _ H), Ht.
  Qed.

  Lemma const_coeff_ok e x_size v : const_coeff_expr SY e (nm_idx nm) x_size = Ok v -> known e ->
    List.length v = x_size /\ (n <= x_size)%nat /\
    (forall j, (n <= j)%nat -> Q2R (nth j v 0%Q) = 0) /\
    forall r, rsum n (fun j => Q2R (nth j v 0%Q) * value r j) = ev (long r) e.
  Proof using HN OK H1.
    intros H Hk. unfold const_coeff_expr in H. apply bindr_ok' in H as (row & E & H).
    rewrite (numbered_len nm HN) in *. fold n in E, H. destruct (Nat.leb n x_size) eqn:En; [|discriminate]. apply Nat.leb_le in En. injection H as <-.
    assert (Hlen : List.length (map row (seq 0 n)) = n) by (rewrite map_length, seq_length; reflexivity).
    assert (Hnth : forall j, (j < n)%nat -> nth j (map row (seq 0 n) ++ repeat 0%Q (x_size - n))%list 0%Q = row j).
    { intros j Hj. rewrite app_nth1 by (rewrite Hlen; exact Hj). rewrite (nth_indep _ 0%Q (row 0%nat)) by (rewrite Hlen; exact Hj). rewrite map_nth, seq_nth by exact Hj. reflexivity. }
    split; [rewrite app_length, Hlen, repeat_length; lia|]. split; [exact En|]. split.
    - intros j Hj. rewrite app_nth2 by (rewrite Hlen; exact Hj). rewrite nth_repeat. apply Q2R_0'.
    - intros r. rewrite (rsum_ext n _ (fun j => Q2R (row j) * value r j)) by (intros j Hj; rewrite Hnth by exact Hj; reflexivity).
      destruct (numeric SY e) eqn:Hnum.
      + destruct (numeric_float OK e Hnum) as (q & Eq & Hq). rewrite Eq in E. cbn -[Nat.ltb] in E. destruct (Nat.ltb 0 n) eqn:E0; [|discriminate]. injection E as <-.
        apply Nat.ltb_lt in E0. rewrite rsum_upd by first [exact E0 | apply Q2R_0']. rewrite rsum_zero by (intros; rewrite Q2R_0'; ring). destruct (one_value r) as [_ ->]. rewrite Hq. lra.
      + pose proof (const_terms_linear _ _ _ _ _ _ E) as Hl.
        destruct (const_terms_ok _ _ _ _ _ E (lin_names SY _ OK Hl) (known_terms e Hk Hl)) as [_ Hs]; [intros; apply Q2R_0'|].
        rewrite Hs, rsum_zero by (intros; rewrite Q2R_0'; ring). rewrite lin_poly_ev by exact Hl. lra.
  Qed.
  Lemma const_coeff_total e x_size : check_linear_expression SY e = true -> known e -> (n <= x_size)%nat -> exists v, const_coeff_expr SY e (nm_idx nm) x_size = Ok v.
  Proof using HN OK H1.
    intros H Hk Hx. assert (Hl : linear_terms (p_terms (poly SY (simp SY e)))).
    { intros t Ht. unfold check_linear_expression in H. rewrite forallb_forall in H. apply Nat.leb_le, H, Ht. }
    unfold const_coeff_expr. rewrite (numbered_len nm HN). fold n. apply Nat.leb_le in Hx. rewrite Hx. destruct (one_value (fun _ => 0)) as [H0 _].
    destruct (numeric SY e) eqn:Hnum.
    - destruct (numeric_float OK e Hnum) as (q & Eq & _). rewrite Eq. cbn -[Nat.ltb]. apply Nat.ltb_lt in H0. rewrite H0. cbn. eauto.
    - destruct (const_terms_total (p_gens (poly SY (simp SY e))) (p_terms (poly SY (simp SY e))) None (fun _ => 0%Q) Hl (known_terms e Hk Hl)) as [row ->]. cbn. eauto.
  Qed.

  Lemma lin_rows_ok : forall l row A A', lin_rows SY row l (nm_idx nm) A = Ok A' -> cm_cols A = n ->
    (forall i j, (row <= i)%nat -> Q2R (cm_at A i j) = 0) ->
    cm_rows A' = cm_rows A /\ cm_cols A' = n /\ (forall i j, (i < row)%nat -> cm_at A' i j = cm_at A i j) /\
    forall k e, nth_error l k = Some e -> forall r, rsum n (fun j => Q2R (cm_at A' (row + k)%nat j) * value r j) = ev (long r) e.
  Proof using HN OK H1.
    induction l as [|e l IH]; intros row A A' H Hc H0.
    - simpl in H. injection H as <-. split; [reflexivity|]. split; [exact Hc|]. split; [reflexivity|]. intros [|k]; easy.
    - simpl in H. apply bindr_ok' in H as (A1 & E1 & H).
      assert (S1 : cm_rows A1 = cm_rows A /\ cm_cols A1 = n /\ (forall i j, i <> row -> cm_at A1 i j = cm_at A i j) /\
        forall r, rsum n (fun j => Q2R (cm_at A1 row j) * value r j) = ev (long r) e).
      { destruct (numeric SY e) eqn:Hnum.
        - destruct (numeric_float OK e Hnum) as (q & Eq & Hq). rewrite Eq in E1. cbn -[Nat.ltb] in E1. unfold cm_set in E1. destruct (Nat.ltb row (cm_rows A) && Nat.ltb 0 (cm_cols A)); [|discriminate].
          injection E1 as <-. cbn [cm_rows cm_cols cm_at]. split; [reflexivity|]. split; [exact Hc|]. split.
          + intros i j Hi. unfold upd2. destruct (Nat.eqb_spec i row); [contradiction|]. reflexivity.
          + intros r. destruct (one_value r) as [Hp Hv]. rewrite (rsum_ext n _ (fun j => Q2R (upd1 (cm_at A row) 0 q j) * value r j)).
            * rewrite rsum_upd by first [exact Hp | apply H0; lia]. rewrite rsum_zero by (intros; rewrite H0 by lia; ring). rewrite Hv, Hq. lra.
            * intros j _. unfold upd2, upd1. rewrite Nat.eqb_refl. reflexivity.
        - assert (Hl : linear_terms (p_terms (poly SY (simp SY e)))).
          { clear - E1. revert A E1. induction (p_terms (poly SY (simp SY e))) as [|[ex q] tl IHt]; intros A E1; [intros ? []|]. cbn -[Nat.leb Nat.ltb] in E1.
            destruct (Nat.leb (fold_right plus 0%nat ex) 1) eqn:El; [|discriminate]. apply Nat.leb_le in El. destruct (dget vname_eqb _ _); [|discriminate].
            apply bindr_ok' in E1 as (A2 & _ & E1). intros t [<-|Ht]; [exact El|]. apply (IHt _ E1), Ht. }
          destruct (lin_terms_ok _ _ _ _ _ E1 Hc (lin_names SY _ OK Hl)) as (K1 & K2 & _ & K4 & K5 & K6); [intros; apply H0; lia|].
          split; [exact K1|]. split; [exact K2|]. split; [exact K4|]. intros r. rewrite K6, rsum_zero by (intros; rewrite H0 by lia; ring). rewrite lin_poly_ev by exact Hl. lra. }
      destruct S1 as (S1 & S2 & S3 & S4). destruct (IH (S row) A1 A' H S2) as (T1 & T2 & T3 & T4).
      { intros i j Hi. rewrite S3 by lia. apply H0. lia. }
      split; [congruence|]. split; [exact T2|]. split.
      + intros i j Hi. rewrite T3 by lia. apply S3. lia.
      + intros [|k] e' He r; simpl in He.
        * injection He as <-. rewrite Nat.add_0_r. rewrite <- (S4 r). apply rsum_ext. intros j _. rewrite T3 by lia. reflexivity.
        * replace (row + S k)%nat with (S row + k)%nat by lia. apply T4, He.
  Qed.
  Lemma lin_rows_total : forall l row A, cm_cols A = n -> (row + List.length l <= cm_rows A)%nat ->
    (forall e, In e l -> check_linear_expression SY e = true /\ known e) -> exists A', lin_rows SY row l (nm_idx nm) A = Ok A'.
  Proof using HN OK H1.
    induction l as [|e l IH]; intros row A Hc Hr Hl; [simpl; eauto|]. cbn [lin_rows]. simpl in Hr.
    destruct (Hl e) as [He Hk]; [simpl; auto|].
    assert (Hlin : linear_terms (p_terms (poly SY (simp SY e)))).
    { intros t Ht. unfold check_linear_expression in He. rewrite forallb_forall in He. apply Nat.leb_le, He, Ht. }
    assert (S1 : exists A1, (if numeric SY e then let? q := float_simp SY e in cm_set row 0 q A else lin_terms (p_gens (poly SY (simp SY e))) row (p_terms (poly SY (simp SY e))) (nm_idx nm) A) = Ok A1).
    { destruct (numeric SY e) eqn:Hnum.
      - destruct (numeric_float OK e Hnum) as (q & Eq & _). rewrite Eq. cbn -[Nat.ltb]. unfold cm_set. destruct (one_value (fun _ => 0)) as [H0 _]. rewrite <- Hc in H0.
        assert (Er : Nat.ltb row (cm_rows A) = true) by (apply Nat.ltb_lt; lia). apply Nat.ltb_lt in H0. rewrite Er, H0. cbn. eauto.
      - apply lin_terms_total; [exact Hc|lia|exact Hlin|apply known_terms; assumption]. }
    destruct S1 as [A1 E1]. cbn zeta. rewrite E1. cbn [bindr].
    assert (Sh : cm_rows A1 = cm_rows A /\ cm_cols A1 = n).
    { clear IH Hl He Hlin. destruct (numeric SY e).
      - destruct (float_simp SY e); [|discriminate]. cbn -[Nat.ltb] in E1. unfold cm_set in E1. destruct (_ && _); [|discriminate]. injection E1 as <-. cbn. auto.
      - revert A Hc Hr E1. induction (p_terms (poly SY (simp SY e))) as [|[ex q] tl IHt]; intros A Hc Hr E1; [injection E1 as <-; auto|]. cbn -[Nat.leb Nat.ltb] in E1.
        destruct (Nat.leb _ 1); [|discriminate]. destruct (dget vname_eqb _ _); [|discriminate]. apply bindr_ok' in E1 as (A2 & E2 & E1).
        unfold cm_set in E2. destruct (_ && _); [|discriminate]. injection E2 as <-. destruct (fun X Y => IHt _ X Y E1) as [I1 I2]; [exact Hc|exact Hr|]. cbn in I1. auto. }
    destruct Sh as [Sr Sc]. apply IH; [exact Sc|lia|intros; apply Hl; simpl; auto].
  Qed.
End Lin.
