(** Facts about splitting, joining and linearising names. *)
From Coq Require Import List Arith Bool String Ascii QArith Reals Qreals Lra Lia Permutation Sorted.
From Coq Require Import Decimal DecimalString DecimalFacts Numbers.DecimalNat.
From Verif Require Import Prelude PreludeFacts Sympy SympyFacts CircuitModel ParsingModel ParsingSpec SolverModel.
Import ListNotations.
Local Open Scope nat_scope.

(** * strings *)
Lemma has_char_in c s : has_char c s = true <-> In c (list_ascii_of_string s).
Proof.
  induction s as [|a s IH]; simpl; [easy|]. rewrite orb_true_iff, IH, Ascii.eqb_eq. easy.
Qed.
Lemma simple_has s : simple_name s <-> has_char us s = false.
Proof.
  unfold simple_name. rewrite <- has_char_in. destruct (has_char us s); split; easy.
Qed.

Lemma split_none c s : has_char c s = false -> split c s = [s].
Proof.
  induction s as [|a s IH]; simpl; [easy|]. intros H. apply orb_false_iff in H as [H1 H2].
  rewrite H1, IH by easy. easy.
Qed.
Lemma split_app c s t : has_char c s = false -> split c (s ++ String c t) = s :: split c t.
Proof.
  induction s as [|a s IH]; simpl; intros H; [rewrite Ascii.eqb_refl; easy|].
  apply orb_false_iff in H as [H1 H2]. rewrite H1, IH by easy. easy.
Qed.
Lemma split_nonnil c s : split c s <> [].
Proof. destruct s as [|a s]; simpl; [easy|]. destruct (Ascii.eqb a c); [easy|]. destruct (split c s); easy. Qed.
Lemma split_nochar c s : Forall (fun t => has_char c t = false) (split c s).
Proof.
  induction s as [|a s IH]; simpl; [constructor; [easy|constructor]|].
  destruct (Ascii.eqb a c) eqn:E; [constructor; [easy|exact IH]|].
  destruct (split c s) as [|h t]; [constructor; simpl; [rewrite E; easy|constructor]|].
  inversion IH; subst. constructor; [simpl; rewrite E; easy|easy].
Qed.
Lemma split_nochar_d c d s : has_char d s = false -> Forall (fun t => has_char d t = false) (split c s).
Proof.
  induction s as [|a s IH]; simpl; intros H; [constructor; [easy|constructor]|].
  apply orb_false_iff in H as [H1 H2]. specialize (IH H2).
  destruct (Ascii.eqb a c) eqn:E; [constructor; [easy|exact IH]|].
  destruct (split c s) as [|h t]; [constructor; simpl; [rewrite H1; easy|constructor]|].
  inversion IH; subst. constructor; [simpl; rewrite H1; easy|easy].
Qed.

Definition nous (l : list string) : Prop := Forall (fun t => has_char us t = false) l.

Lemma join_cons x y l : join_us (x :: y :: l) = (x ++ String us (join_us (y :: l)))%string.
Proof. easy. Qed.
Lemma split_join l : l <> [] -> nous l -> split_us (join_us l) = l.
Proof.
  induction l as [|x l IH]; [easy|]. intros _ H. inversion H as [|? ? Hx Hl]; subst.
  destruct l as [|y l].
  - apply split_none. exact Hx.
  - rewrite join_cons. unfold split_us. rewrite split_app by easy. f_equal. apply IH; [easy|exact Hl].
Qed.
Lemma join_split s : join_us (split_us s) = s.
Proof.
  induction s as [|a s IH]; simpl; [easy|]. unfold split_us in *. simpl.
  destruct (Ascii.eqb a us) eqn:E.
  - apply Ascii.eqb_eq in E; subst a. pose proof (split_nonnil us s) as Hn.
    destruct (split us s) as [|h t] eqn:Es; [easy|]. rewrite join_cons, IH. easy.
  - pose proof (split_nonnil us s) as Hn. destruct (split us s) as [|h t] eqn:Es; [easy|].
    destruct t as [|h' t].
    + unfold join_us in *. simpl in *. congruence.
    + rewrite join_cons in *. rewrite <- IH. easy.
Qed.
Lemma join_inj l1 l2 : l1 <> [] -> l2 <> [] -> nous l1 -> nous l2 -> join_us l1 = join_us l2 -> l1 = l2.
Proof. intros. rewrite <- (split_join l1), <- (split_join l2) by easy. congruence. Qed.

Lemma has_char_app c s t : has_char c (s ++ t) = has_char c s || has_char c t.
Proof. induction s as [|a s IH]; simpl; [easy|]. rewrite IH, orb_assoc. easy. Qed.
Lemma join_has_us x y l : has_char us (join_us (x :: y :: l)) = true.
Proof. rewrite join_cons, has_char_app. apply orb_true_iff. right. easy. Qed.
Lemma string_app_assoc (a b c : string) : ((a ++ b) ++ c = a ++ (b ++ c))%string.
Proof. induction a as [|x a IH]; simpl; [easy|rewrite IH; easy]. Qed.
Lemma join_snoc l x : l <> [] -> join_us (l ++ [x]) = (join_us l ++ "_" ++ x)%string.
Proof.
  induction l as [|y l IH]; [easy|]. intros _. destruct l as [|z l]; [easy|].
  change ((y :: z :: l) ++ [x]) with (y :: z :: (l ++ [x])). rewrite !join_cons.
  change (z :: l ++ [x]) with ((z :: l) ++ [x]). rewrite IH by easy.
  change (String us (join_us (z :: l) ++ "_" ++ x)) with ((String us (join_us (z :: l))) ++ ("_" ++ x))%string.
  rewrite string_app_assoc. easy.
Qed.

(** * products *)
Local Open Scope R_scope.
Lemma prod_mval r l : prod_of r l = mval r l.
Proof. induction l; simpl; [easy|]. rewrite IHl. easy. Qed.
Lemma prod_perm r l1 l2 : Permutation l1 l2 -> prod_of r l1 = prod_of r l2.
Proof. intros. rewrite !prod_mval. apply mval_perm. easy. Qed.
Lemma prod_app r l1 l2 : prod_of r (l1 ++ l2) = prod_of r l1 * prod_of r l2.
Proof. rewrite !prod_mval. apply mval_app. Qed.
Lemma prod_ext r1 r2 l : (forall s, In s l -> r1 s = r2 s) -> prod_of r1 l = prod_of r2 l.
Proof. induction l; simpl; intros H; [easy|]. rewrite H, IHl by auto. easy. Qed.
Lemma prod_times r n l : prod_of r (times n l) = rpow (prod_of r l) n.
Proof. induction n; simpl; [easy|]. rewrite prod_app, IHn. easy. Qed.
Lemma mono_vars_prod r f gens ex :
  prod_of r (mono_vars f gens ex) = mono_val (fun g => prod_of r (f g)) gens ex.
Proof.
  revert ex. induction gens as [|g gens IH]; intros [|n ex]; simpl; try easy.
  rewrite prod_app, prod_times, IH. easy.
Qed.
Lemma mono_val_ext r1 r2 gens ex : (forall g, In g gens -> r1 g = r2 g) -> mono_val r1 gens ex = mono_val r2 gens ex.
Proof.
  revert ex. induction gens as [|g gens IH]; intros [|n ex] H; simpl in *; try easy.
  rewrite H, IH by auto. easy.
Qed.
Lemma times_in {A} n (l : list A) x : In x (times n l) -> In x l.
Proof. induction n; simpl; [easy|]. rewrite in_app_iff. tauto. Qed.
Lemma mono_vars_in f gens ex x : In x (mono_vars f gens ex) -> exists g, In g gens /\ In x (f g).
Proof.
  revert ex. induction gens as [|g gens IH]; intros [|n ex]; simpl; try easy.
  rewrite in_app_iff. intros [H|H]; [apply times_in in H; eauto|].
  apply IH in H as [g' [H1 H2]]; eauto.
Qed.

Lemma long_simple r s : simple_name s -> long r s = r s.
Proof. intros H. apply simple_has in H. unfold long, split_us. rewrite split_none by easy. simpl. lra. Qed.
Lemma long_join r l : l <> [] -> nous l -> long r (join_us l) = prod_of r l.
Proof. intros. unfold long. rewrite split_join by easy. easy. Qed.
Lemma nous_perm l1 l2 : Permutation l1 l2 -> nous l1 -> nous l2.
Proof. intros H H1. unfold nous in *. rewrite Forall_forall in *. intros x Hx. apply H1. eapply Permutation_in; [apply Permutation_sym; exact H|exact Hx]. Qed.
Lemma nous_sort l : nous l -> nous (ssort l).
Proof. apply nous_perm, ssort_perm. Qed.
Lemma ssort_nonnil l : l <> [] -> ssort l <> [].
Proof. intros H E. apply H. apply Permutation_nil. rewrite <- E. apply Permutation_sym, ssort_perm. Qed.
Lemma ssort_ssort l : ssort (ssort l) = ssort l.
Proof. apply ssort_idem, ssort_sorted. Qed.

Section Lin.
  Context {SY : sympy} (OK : sympy_ok SY).

  Lemma numeric_float e : numeric SY e = true -> exists q, float_simp SY e = Ok q /\ forall r, ev r e = Q2R q.
  Proof.
    intros H. destruct (closed_to_float _ H) as [q Hq]. exists q. split; [easy|]. intros r.
    rewrite <- (simp_ev _ OK). apply to_float_ev. easy.
  Qed.

  Lemma long_symbol_ev r vs : nous vs -> ev (long r) (long_symbol vs) = prod_of r vs.
  Proof.
    intros H. destruct vs as [|v vs]; [simpl; apply Q2R_1'|].
    set (l := v :: vs) in *. assert (Hl : l <> []) by easy. unfold long_symbol. fold l.
    change (match l with [] => Num 1 | _ :: _ => ?x end) with x.
    rewrite split_join by (auto using ssort_nonnil, nous_sort). rewrite ssort_ssort. cbn [ev].
    rewrite long_join by (auto using ssort_nonnil, nous_sort). apply prod_perm, Permutation_sym, ssort_perm.
  Qed.
  Lemma linearize_terms_ev r gens l acc :
    Forall (fun g => has_char us g = false) gens ->
    ev (long r) (linearize_terms gens l acc) =
    ev (long r) acc + lsum (fun t => Q2R (snd t) * mono_val r gens (fst t)) l.
  Proof.
    intros Hg. revert acc. induction l as [|[ex q] l IH]; intros acc; simpl.
    - lra.
    - rewrite IH, sadd_ev, smul_ev, long_symbol_ev.
      + rewrite mono_vars_prod. cbn [ev].
        rewrite (mono_val_ext _ r) by (intros g _; simpl; lra). simpl. lra.
      + unfold nous. rewrite Forall_forall in *. intros x Hx. apply mono_vars_in in Hx as [g [H1 [<-|[]]]]. auto.
  Qed.

  Lemma poly_gens_simple e : simple_symbols e -> Forall (fun g => has_char us g = false) (p_gens (poly SY (simp SY e))).
  Proof.
    intros H. apply Forall_forall. intros g Hg. apply simple_has, H.
    apply (poly_gens_free _ OK) in Hg. apply (simp_free _ OK). easy.
  Qed.

  Lemma linearize_ev r e : simple_symbols e -> ev (long r) (linearize_expression SY e) = ev r e.
  Proof.
    intros H. unfold linearize_expression. destruct (numeric SY e) eqn:E.
    - apply ev_free_ext. intros s Hs. apply long_simple. auto.
    - rewrite (simp_ev _ OK), linearize_terms_ev by (apply poly_gens_simple; easy).
      cbn [ev]. rewrite Q2R_0'. fold (poly_val r (poly SY (simp SY e))). rewrite (poly_ev _ OK), (simp_ev _ OK). lra.
  Qed.

  (** symbols of the linearised expression *)
  Lemma linearize_terms_free gens l acc s :
    In s (free (linearize_terms gens l acc)) ->
    In s (free acc) \/ exists ex, In ex (map fst l) /\ mono_vars (fun g => [g]) gens ex <> [] /\
       In s (free (long_symbol (mono_vars (fun g => [g]) gens ex))).
  Proof.
    revert acc. induction l as [|[ex q] l IH]; intros acc H; simpl in *; [auto|].
    apply IH in H as [H|(ex' & H1 & H2)]; [|right; eauto].
    apply sadd_free in H as [H|H]; [auto|]. apply smul_free in H as [[]|H].
    right. exists ex. repeat split; auto. intros E. rewrite E in H. easy.
  Qed.
  Lemma linearize_parts e s : simple_symbols e -> In s (free (linearize_expression SY e)) ->
    Forall (fun x => In x (free e)) (split_us s).
  Proof.
    intros H. unfold linearize_expression. destruct (numeric SY e) eqn:E.
    - intros Hs. unfold split_us. rewrite split_none by (apply simple_has; auto). auto.
    - intros Hs. apply (simp_free _ OK) in Hs. apply linearize_terms_free in Hs as [[]|(ex & H1 & H2 & H3)].
      remember (mono_vars (fun g => [g]) (p_gens (poly SY (simp SY e))) ex) as vs eqn:Ev.
      assert (Hn : nous vs).
      { unfold nous. rewrite Forall_forall. intros x Hx. rewrite Ev in Hx. apply mono_vars_in in Hx as [g [Hg [<-|[]]]].
        pose proof (poly_gens_simple e H) as HG. rewrite Forall_forall in HG. auto. }
      assert (El : long_symbol vs = Sym (join_us (ssort (split_us (join_us (ssort vs)))))) by (destruct vs; easy).
      rewrite El in H3. cbn [free] in H3.
      rewrite split_join in H3 by (auto using ssort_nonnil, nous_sort). rewrite ssort_ssort in H3.
      destruct H3 as [<-|[]]. rewrite split_join by (auto using ssort_nonnil, nous_sort).
      apply Forall_forall. intros x Hx. apply (Permutation_in _ (Permutation_sym (ssort_perm _))) in Hx.
      rewrite Ev in Hx. apply mono_vars_in in Hx as [g [Hg [<-|[]]]]. apply (simp_free _ OK), (poly_gens_free _ OK). easy.
  Qed.

  Lemma symbol_product_ev r vs : ev r (symbol_product vs) = prod_of r vs.
  Proof. induction vs; simpl; [apply Q2R_1'|]. rewrite smul_ev, IHvs. easy. Qed.
  Lemma collapse_terms_ev r gens l acc :
    ev r (collapse_terms gens l acc) =
    ev r acc + lsum (fun t => Q2R (snd t) * mono_val (long r) gens (fst t)) l.
  Proof.
    revert acc. induction l as [|[ex q] l IH]; intros acc; simpl; [lra|].
    rewrite IH, sadd_ev, smul_ev, symbol_product_ev, mono_vars_prod. cbn [ev]. unfold long. simpl. lra.
  Qed.
  Lemma collapse_ev r e e' : collapse_expression SY e = Ok e' -> ev r e' = ev (long r) e.
  Proof.
    unfold collapse_expression. destruct (numeric SY e) eqn:E.
    - destruct (numeric_float _ E) as [q [Hq Hv]]. rewrite Hq. intros [= <-]. rewrite Hv. easy.
    - intros [= <-]. rewrite collapse_terms_ev. cbn [ev]. rewrite Q2R_0'.
      fold (poly_val (long r) (poly SY (simp SY e))). rewrite (poly_ev _ OK), (simp_ev _ OK). lra.
  Qed.
  Lemma collapse_total e : exists e', collapse_expression SY e = Ok e'.
  Proof.
    unfold collapse_expression. destruct (numeric SY e) eqn:E; [|eauto].
    destruct (numeric_float _ E) as [q [Hq _]]. rewrite Hq. simpl. eauto.
  Qed.
  Lemma collapse_linearize r e : simple_symbols e ->
    exists e', collapse_expression SY (linearize_expression SY e) = Ok e' /\ ev r e' = ev r e.
  Proof.
    intros H. destruct (collapse_total (linearize_expression SY e)) as [e' He]. exists e'. split; [easy|].
    rewrite (collapse_ev _ _ _ He). apply linearize_ev. easy.
  Qed.
End Lin.

(** * decimal numbers and multiplier names *)
Local Open Scope nat_scope.
Lemma to_uint_nonnil n : Nat.to_uint n <> Nil.
Proof.
  intros E. pose proof (Unsigned.of_to n) as H.
  assert (Hn : n = 0) by (rewrite <- H, E; easy). subst n. easy.
Qed.
Lemma nat_str_empty n : nat_str n = NilEmpty.string_of_uint (Nat.to_uint n).
Proof. unfold nat_str, NilZero.string_of_uint. pose proof (to_uint_nonnil n). destruct (Nat.to_uint n); easy. Qed.
Lemma parse_nat_str n : parse_nat (nat_str n) = Ok n.
Proof.
  unfold parse_nat. rewrite nat_str_empty, NilEmpty.usu. pose proof (to_uint_nonnil n) as H.
  destruct (NilEmpty.string_of_uint (Nat.to_uint n)) eqn:E.
  - destruct (Nat.to_uint n); easy.
  - rewrite Unsigned.of_to. easy.
Qed.
Lemma uint_nochar c d : In c ["|"; "."; "_"]%char -> has_char c (NilEmpty.string_of_uint d) = false.
Proof.
  intros H. induction d; simpl; try (rewrite IHd; rewrite orb_false_r); try easy;
    destruct H as [<-|[<-|[<-|[]]]]; easy.
Qed.
Lemma nat_str_nochar c n : In c ["|"; "."; "_"]%char -> has_char c (nat_str n) = false.
Proof. rewrite nat_str_empty. apply uint_nochar. Qed.

Lemma parse_dual_name p i j : has_char "|"%char p = false -> parse_dual (dual_name p i j) = Ok (p, i, j).
Proof.
  intros H. unfold parse_dual, dual_name.
  change (p ++ "|" ++ nat_str i ++ "." ++ nat_str j ++ "|")%string
    with (p ++ String "|" (nat_str i ++ String "." (nat_str j ++ "|")))%string.
  rewrite split_app by easy.
  assert (E : (nat_str i ++ String "." (nat_str j ++ "|") = (nat_str i ++ String "." (nat_str j)) ++ String "|" "")%string).
  { rewrite string_app_assoc. easy. }
  rewrite E, split_app.
  2:{ rewrite has_char_app. simpl. rewrite !nat_str_nochar by (simpl; auto). easy. }
  simpl split. rewrite split_app by (apply nat_str_nochar; simpl; auto).
  rewrite split_none by (apply nat_str_nochar; simpl; auto).
  rewrite !parse_nat_str. easy.
Qed.
Lemma lamb_prefix_nobar f : has_char "|"%char (lamb_prefix f) = false.
Proof. unfold lamb_prefix. rewrite has_char_app, nat_str_nochar by (simpl; auto). easy. Qed.
Lemma lamb_prefix_nous f : has_char us (lamb_prefix f) = false.
Proof. unfold lamb_prefix. rewrite has_char_app, nat_str_nochar by (simpl; auto). easy. Qed.
Lemma nat_str_inj n m : nat_str n = nat_str m -> n = m.
Proof. intros H. assert (E : Ok n = Ok m) by (rewrite <- !parse_nat_str; congruence). congruence. Qed.
Lemma string_app_inj_l p a b : (p ++ a = p ++ b)%string -> a = b.
Proof. induction p; simpl; intros H; [easy|]. apply IHp. congruence. Qed.
Lemma lamb_prefix_inj f g : lamb_prefix f = lamb_prefix g -> f = g.
Proof. intros H. apply nat_str_inj, (string_app_inj_l "lamb"). exact H. Qed.
Lemma dual_nous p i j : has_char us p = false -> has_char us (dual_name p i j) = false.
Proof.
  intros H. unfold dual_name. rewrite !has_char_app, H, !nat_str_nochar by (simpl; auto). easy.
Qed.
