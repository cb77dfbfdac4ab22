(** Points of the QCQP programs are certificates, and conversely. *)
From Coq Require Import List Arith Bool String Ascii QArith Reals Qreals Lra Lia Permutation.
From Verif Require Import Prelude PreludeFacts Sympy SympyFacts AlgebraModel Denote AlgebraFacts FunctionModel CircuitModel SymSpec
  GramFacts SymFacts Spec ClassSpec CertSpec StateSpec SessionModel StateFacts CertFacts ClassProps RepeatFacts SymbolFacts ParsingModel
  ParsingSpec SolverModel ParsingFacts CoeffFacts SolverSpec SolverFacts IpoptFacts IpoptTail IpoptProof IpoptComplete SolverProps
  QcqpModel QcqpSpec QcqpFacts QcqpFacts2 QcqpBuild.
Import ListNotations.
Local Open Scope nat_scope.

Lemma lsum_nth {A} (f : A -> R) l d : lsum f l = rsum (List.length l) (fun i => f (nth i l d)).
Proof.
  induction l as [|a l IH]; [easy|]. rewrite lsum_cons, IH. cbn [List.length]. rewrite rsum_S_l. easy.
Qed.

Lemma Forall2_length {A B} (R : A -> B -> Prop) l l' : Forall2 R l l' -> List.length l = List.length l'.
Proof. induction 1; simpl; congruence. Qed.

(** * the assembled table, entry by entry *)
Section Table.
  Context {SY : sympy} (OK : sympy_ok SY).

  Definition table_facts (p : problem) (s : state) (sr : symres) (W : list (skey * fgw)) (wm : fgw) : Prop :=
    sr_exp sr = W ++ [(SObj, wm)] /\ NoDup (map dual_of (map fst W)) /\ sr_I sr + sr_E sr = List.length W /\
    (forall k, In k (map fst W) -> exists b f i j, k = SK b f i j /\ b <= 1) /\
    (forall i k, nth_error (map fst W) i = Some k -> (i < sr_I sr <-> exists f a b, k = SK 0 f a b)) /\
    (forall r k, k < st_ectr s -> ev r (wF (sr_sum sr) k) = lsum (fun kw => r (dual_of (fst kw)) * ev r (wF (snd kw) k))%R W) /\
    (forall r i j, i < st_pctr s -> j < st_pctr s ->
       ev r (wG (sr_sum sr) i j) = lsum (fun kw => r (dual_of (fst kw)) * ev r (wG (snd kw) i j))%R W) /\
    (declared p s -> forall kw, In kw (sr_exp sr) -> fg_all (fun x => In x (pr_params p)) (snd kw)).

  Lemma assembled p s sr s' : Inv s -> symbolic SY p s = (Ok sr, s') -> exists W wm, table_facts p s sr W wm.
  Proof using OK.
    intros I HS. destruct (multiplier_names SY s p sr s' I HS) as (T0 & ET0 & Hdual). destruct (assembled_keys SY s p sr s' I HS) as (T & ET & Hnd & Hk).
    assert (T0 = T) as -> by (rewrite ET in ET0; apply app_inj_tail in ET0; easy). clear ET0.
    assert (HS0 := HS). unfold symbolic in HS. set (funs := leaf_funs (st_flist s) s) in *.
    assert (Hin : forall f, In f funs -> In f (st_flist s)) by (intros f Hf; apply leaf_funs_in in Hf; apply Hf).
    destruct (csm_spec SY _ _ p funs (funs_of s funs) s sr s' HS) as (W & m & wm & Em & Ew & Ex & F2 & Hsum & HE & HI).
    { apply leaf_funs_nodup, (inv_flist s I). }
    { apply fresh_funs; assumption. }
    assert (ETW : T = map fst W).
    { rewrite Ex in ET. unfold keys in ET. rewrite map_app in ET. simpl in ET. apply app_inj_tail in ET as [ET _]. easy. }
    subst T. exists W, wm. split; [exact Ex|]. split; [exact Hdual|]. split; [exact HI|]. split; [exact Hk|]. split; [|split; [|split]].
    - intros i k Hi. assert (Hlen : List.length (map fst W) = sr_I sr + sr_E sr) by (rewrite map_length; lia).
      rewrite (stores_keys SY _ _ _ _ F2) in Hi, Hlen. unfold constraint_table in Hi, Hlen. rewrite app_assoc, map_app in Hi, Hlen.
      rewrite app_length in Hlen.
      assert (L2 : List.length (map fst (eq_table p)) = sr_E sr).
      { rewrite HE. unfold eq_table. rewrite !map_length. generalize (eqs p) at 1 2. generalize 0.
        intros n l; revert n. induction l as [|a l IH]; intros n; simpl; [easy|]. rewrite IH. easy. }
      destruct (Nat.lt_ge_cases i (sr_I sr)) as [Hl|Hl].
      + split; [intros _|intros _; exact Hl]. rewrite nth_error_app1 in Hi by lia. apply nth_error_In in Hi.
        rewrite map_app, in_app_iff in Hi. destruct Hi as [Hi|Hi].
        * unfold extra_ineq_table in Hi. rewrite map_map in Hi. apply in_map_iff in Hi as [x [<- _]]. simpl. eauto.
        * unfold class_table in Hi. apply in_map_iff in Hi as [x [<- Hi]]. apply in_flat_map in Hi as [y [_ Hi]].
          unfold fun_table in Hi. apply in_map_iff in Hi as [z [<- _]]. simpl. eauto.
      + split; [lia|]. intros (f & a & b & ->). rewrite nth_error_app2 in Hi by lia. apply nth_error_In in Hi.
        unfold eq_table in Hi. rewrite map_map in Hi. apply in_map_iff in Hi as [x [E _]]. discriminate E.
    - intros r k Hk'. assert (Q := Hsum r (fun i => if Nat.eqb i k then 1 else 0)%R (fun _ _ => 0%R)).
      rewrite fg_val_zero, fg_val_F in Q by exact Hk'. rewrite Q, Rplus_0_l. apply lsum_ext. intros kw _. rewrite fg_val_F by exact Hk'. easy.
    - intros r i j Hi Hj. assert (Q := Hsum r (fun _ => 0%R) (fun a b => (if Nat.eqb a i then 1 else 0) * (if Nat.eqb b j then 1 else 0))%R).
      rewrite fg_val_zero, fg_val_G in Q by assumption. rewrite Q, Rplus_0_l. apply lsum_ext. intros kw _. rewrite fg_val_G by assumption. easy.
    - intros Hd kw Hkw. rewrite Ex in Hkw. apply in_app_or in Hkw as [Hkw|[<-|[]]].
      + assert (Tt : forall kt, In kt (constraint_table SY p (funs_of s funs)) -> forall e, snd kt = Ok e -> ex_all (fun x => In x (pr_params p)) e).
        { intros kt Hkt e He. eapply (table_syms OK); eauto. }
        clear -F2 Tt Hkw. revert kw Hkw. induction F2 as [|kt kw T0 W0 [E1 [e [E2 E3]]] F IH]; intros x Hx; [destruct Hx|].
        destruct Hx as [<-|Hx].
        * eapply expression_to_matrix_all; [exact E3|]. apply (Tt kt); simpl; auto.
        * apply IH; [intros kt' Hkt'; apply Tt; simpl; auto|exact Hx].
      + eapply expression_to_matrix_all; [exact Ew|]. eapply ex_all_params; [apply (proj1 Hd); exact Em|]. rewrite Forall_forall; easy.
  Qed.

  (** ** the coefficient matrices of the assembled table *)
  Definition names_facts (params : list string) (nm : names) : Prop :=
    numbered nm /\ (exists ext, nm_list nm = VOne :: map VStr (params ++ ext) /\
      forall s, In s ext -> exists pre x, split_us s = pre ++ [x] /\ pre <> [] /\ In x params /\ Forall (fun y => In y params) pre /\
        In (VStr (join_us pre)) (nm_list nm)).

  Lemma declared_lists p s sr W wm : table_facts p s sr W wm -> Forall good_param (pr_params p) -> declared p s ->
    declared_fg (pr_params p) (fg_lists sr (st_ectr s) (st_pctr s)).
  Proof using Type.
    intros (_ & _ & _ & _ & _ & _ & _ & D) Hg Hd F G e x Hin He Hx. unfold fg_lists in Hin. apply in_map_iff in Hin as [kw [E Hkw]].
    injection E as <- <-. destruct (D Hd kw Hkw) as [A B].
    assert (Hp : In x (pr_params p)).
    { destruct He as [He|He]; apply in_map_iff in He as [y [<- _]]; eauto. }
    split; [exact Hp|]. rewrite Forall_forall in Hg. apply Hg, Hp.
  Qed.

  Definition good_coeffs (params : list string) (dimF dimG : nat) (exp : list (skey * fgw)) (Fs Gs : list cmatrix) (nm : names) : Prop :=
    names_facts params nm /\
    Forall (shaped dimF (List.length (nm_list nm))) Fs /\ Forall (shaped (dimG * dimG) (List.length (nm_list nm))) Gs /\
    List.length Fs = List.length exp /\ List.length Gs = List.length exp /\
    (forall r i kw, nth_error exp i = Some kw ->
       (forall k, k < dimF -> rsum (List.length (nm_list nm)) (fun j => coef (nth i Fs dummy_cm) k j * vname_val r (nth j (nm_list nm) VOne))%R = ev r (wF (snd kw) k)) /\
       (forall a b, a < dimG -> b < dimG ->
         rsum (List.length (nm_list nm)) (fun j => coef (nth i Gs dummy_cm) (a * dimG + b) j * vname_val r (nth j (nm_list nm) VOne))%R = ev r (wG (snd kw) a b))).

  Lemma coef_row r l A k : cm_cols A <= List.length l ->
    rsum (List.length l) (fun j => coef A k j * vname_val r (nth j l VOne))%R = row_times r l A k.
  Proof using Type.
    intros H. unfold row_times. replace (List.length l) with (cm_cols A + (List.length l - cm_cols A)) by lia. rewrite rsum_split.
    rewrite (rsum_zero (List.length l - cm_cols A)).
    - rewrite Rplus_0_r. apply rsum_ext. intros j Hj. unfold coef. apply Nat.ltb_lt in Hj. rewrite Hj. easy.
    - intros j Hj. unfold coef. destruct (Nat.ltb_spec (cm_cols A + j) (cm_cols A)); [lia|]. lra.
  Qed.
  Lemma Forall2_nth_err {A B} (R : A -> B -> Prop) l l' i a : Forall2 R l l' -> nth_error l i = Some a -> exists b, nth_error l' i = Some b /\ R a b.
  Proof using Type. intros H; revert i. induction H; intros [|i]; simpl; intros E; try easy; [injection E as <-; eauto|eauto]. Qed.
  Lemma grid_nth m : forall n i j, i < n -> j < m -> nth_error (grid n m) (i * m + j) = Some (i, j).
  Proof using Type.
    intros n i j Hi Hj. unfold grid.
    assert (G : forall (k : nat) (l : list nat) i, nth_error l i = Some k -> nth_error (flat_map (fun i => map (fun j => (i, j)) (seq 0 m)) l) (i * m + j) = Some (k, j)).
    { intros k l. induction l as [|a l IH]; intros [|q] E; try discriminate E; cbn [nth_error] in E.
      - injection E as ->. simpl. rewrite nth_error_app1 by (rewrite map_length, seq_length; exact Hj).
        apply map_nth_error with (f := fun j => (k, j)). rewrite nth_error_nth' with (d := 0) by (rewrite seq_length; exact Hj). rewrite seq_nth by exact Hj. easy.
      - cbn [flat_map]. rewrite nth_error_app2 by (rewrite map_length, seq_length; nia).
        rewrite map_length, seq_length. replace (S q * m + j - m) with (q * m + j) by nia. apply IH. exact E. }
    apply G. rewrite nth_error_nth' with (d := 0) by (rewrite seq_length; exact Hi). rewrite seq_nth by exact Hi. easy.
  Qed.
  Lemma grid_length n m : List.length (grid n m) = n * m.
  Proof using Type.
    unfold grid. assert (G : forall k, List.length (flat_map (fun i => map (fun j => (i, j)) (seq 0 m)) (seq k n)) = n * m); [|apply G].
    induction n as [|n IH]; intros k; [easy|]. cbn [seq flat_map]. rewrite app_length, map_length, seq_length, IH. lia.
  Qed.

  Lemma coeff_setup p s sr W wm Fs Gs nm : table_facts p s sr W wm -> NoDup (pr_params p) -> Forall good_param (pr_params p) -> declared p s ->
    sp_v_coeff_matrix SY (fg_lists sr (st_ectr s) (st_pctr s)) (pr_params p) = Ok (Fs, Gs, nm) ->
    good_coeffs (pr_params p) (st_ectr s) (st_pctr s) (sr_exp sr) Fs Gs nm.
  Proof using OK.
    intros T Nd Hg Hd H. assert (D := declared_lists p s sr W wm T Hg Hd).
    destruct (coefficients OK _ _ _ _ _ Nd H) as (N & (ext & El & Hext) & RF & RG).
    assert (EL : nm_list nm = VOne :: map VStr (pr_params p ++ ext)) by (rewrite El; unfold init_names; simpl; rewrite map_app; easy).
    split; [split; [exact N|]|].
    { exists ext. split; [exact EL|]. intros x Hx. rewrite Forall_forall in Hext. destruct (Hext x Hx) as (pre & y & Hp & Hn & Hu & -> & Hpre).
      assert (Hpar : Forall (fun y => In y (pr_params p)) (pre ++ [y])).
      { eapply Forall_impl; [|exact Hu]. intros z (F & G & Hin & Hz). destruct Hz as [(e & He & Hz)|(e & He & Hz)]; eapply D; eauto. }
      apply Forall_app in Hpar as [P1 P2]. inversion P2 as [|? ? P3 _]; subst.
      exists pre, y. split; [apply split_join; [destruct pre; easy|exact Hn]|]. split; [exact Hp|]. split; [exact P3|]. split; [exact P1|].
      destruct Hpre as [Hpre|[z ->]]; [exact Hpre|]. rewrite EL. right. apply in_map, in_or_app. left. inversion P1; subst. exact H2. }
    assert (Sh : forall (f : list sexpr * list sexpr -> list sexpr) n Ms, (forall kw, List.length (f kw) = n \/ ~ In kw (fg_lists sr (st_ectr s) (st_pctr s))) ->
       Forall2 (represents (nm_list nm)) (map f (fg_lists sr (st_ectr s) (st_pctr s))) Ms -> Forall (shaped n (List.length (nm_list nm))) Ms).
    { intros f n Ms Hf HR. rewrite Forall_forall. intros A HA. apply In_nth_error in HA as [i Hi].
      assert (Hx : exists e, nth_error (map f (fg_lists sr (st_ectr s) (st_pctr s))) i = Some e).
      { destruct (nth_error (map f (fg_lists sr (st_ectr s) (st_pctr s))) i) eqn:E; [eauto|]. apply nth_error_None in E.
        rewrite (Forall2_length _ _ _ HR) in E. apply nth_error_None in E. congruence. }
      destruct Hx as [e He]. destruct (Forall2_nth_err _ _ _ _ _ HR He) as (B & EB & R1 & R2 & _). rewrite Hi in EB. injection EB as <-.
      split; [|exact R2]. rewrite R1. apply nth_error_In in He. apply in_map_iff in He as [kw [<- Hkw]]. destruct (Hf kw) as [Q|Q]; [exact Q|]. contradiction. }
    split; [|split; [|split; [|split]]].
    - eapply Sh; [|exact RF]. intros kw. destruct (Classical_Prop.classic (In kw (fg_lists sr (st_ectr s) (st_pctr s)))) as [Hk|Hk]; [left|right; exact Hk].
      unfold fg_lists in Hk; apply in_map_iff in Hk as [x [<- _]]; simpl; rewrite map_length, seq_length; easy.
    - eapply Sh; [|exact RG]. intros kw.
      destruct (Classical_Prop.classic (In kw (fg_lists sr (st_ectr s) (st_pctr s)))) as [Hk|Hk]; [left|right; exact Hk].
      unfold fg_lists in Hk; apply in_map_iff in Hk as [x [<- _]]; simpl; rewrite map_length, grid_length; easy.
    - rewrite <- (Forall2_length _ _ _ RF). unfold fg_lists. rewrite !map_length. easy.
    - rewrite <- (Forall2_length _ _ _ RG). unfold fg_lists. rewrite !map_length. easy.
    - intros r i kw Hkw.
      assert (EF : nth_error (map fst (fg_lists sr (st_ectr s) (st_pctr s))) i = Some (map (wF (snd kw)) (seq 0 (st_ectr s)))).
      { unfold fg_lists. rewrite map_map. rewrite (map_nth_error _ _ _ Hkw). easy. }
      assert (EG : nth_error (map snd (fg_lists sr (st_ectr s) (st_pctr s))) i = Some (map (fun ij => wG (snd kw) (fst ij) (snd ij)) (grid (st_pctr s) (st_pctr s)))).
      { unfold fg_lists. rewrite map_map. rewrite (map_nth_error _ _ _ Hkw). easy. }
      destruct (Forall2_nth_err _ _ _ _ _ RF EF) as (A & EA & A1 & A2 & A3). destruct (Forall2_nth_err _ _ _ _ _ RG EG) as (B & EB & B1 & B2 & B3).
      split.
      + intros k Hk. rewrite (nth_error_nth _ _ dummy_cm EA), coef_row by exact A2. apply A3.
        apply map_nth_error. rewrite nth_error_nth' with (d := 0) by (rewrite seq_length; exact Hk). rewrite seq_nth by exact Hk. easy.
      + intros a b Ha Hb. rewrite (nth_error_nth _ _ dummy_cm EB), coef_row by exact B2. apply B3.
        change (wG (snd kw) a b) with ((fun ij => wG (snd kw) (fst ij) (snd ij)) (a, b)). apply (map_nth_error (fun ij => wG (snd kw) (fst ij) (snd ij))). apply grid_nth; assumption.
  Qed.
End Table.

(** * values of the monomials are determined by the values of the parameters *)
Section Names.
  Variables (params : list string) (nm : names).
  Hypothesis HNM : names_facts params nm.
  Hypothesis Hsim : Forall (fun s => has_char us s = false) params.

  Lemma nf_head : exists l, nm_list nm = VOne :: map VStr l.
  Proof using HNM. destruct HNM as [_ (ext & E & _)]. eauto. Qed.
  Lemma nf_cases s : In (VStr s) (nm_list nm) -> In s params \/
    exists pre x, split_us s = pre ++ [x] /\ pre <> [] /\ In x params /\ Forall (fun y => In y params) pre /\ In (VStr (join_us pre)) (nm_list nm).
  Proof using HNM.
    destruct HNM as [_ (ext & E & H)]. rewrite E at 1. intros [Q|Q]; [discriminate|]. apply in_map_iff in Q as (x & [= ->] & Q).
    apply in_app_or in Q as [Q|Q]; [auto|]. right. apply H, Q.
  Qed.
  Lemma nf_param x : In x params -> In (VStr x) (nm_list nm).
  Proof using HNM. intros H. destruct HNM as [_ (ext & E & _)]. rewrite E. right. apply in_map, in_or_app. auto. Qed.
  Lemma split_param x : In x params -> split_us x = [x].
  Proof using Hsim. intros H. rewrite Forall_forall in Hsim. apply split_none, Hsim, H. Qed.
  Lemma nf_closed s : In (VStr s) (nm_list nm) -> List.length (split_us s) <> 1 ->
    In (VStr (last (split_us s) ""%string)) (nm_list nm) /\ In (VStr (join_us (removelast (split_us s)))) (nm_list nm).
  Proof using HNM Hsim.
    intros Hs Hl. destruct (nf_cases s Hs) as [Hp|(pre & x & E & Hp & Hx & _ & Hpre)].
    - rewrite (split_param s Hp) in Hl. easy.
    - rewrite E, last_last, removelast_last. split; [apply nf_param, Hx|exact Hpre].
  Qed.
  Lemma at_name_nth y i s : nth_error (nm_list nm) i = Some (VStr s) -> at_name nm y s = y i.
  Proof using HNM. intros H. unfold at_name. rewrite (numbered_nth _ _ _ (proj1 HNM) H). easy. Qed.

  Lemma prod_app r l1 l2 : prod_of r (l1 ++ l2) = (prod_of r l1 * prod_of r l2)%R.
  Proof using Type. induction l1 as [|a l IH]; simpl; [lra|rewrite IH; lra]. Qed.

  Lemma determined (y : nat -> R) (r : env) :
    (forall s pre x, In (VStr s) (nm_list nm) -> split_us s = (pre ++ [x])%list -> pre <> [] ->
        at_name nm y s = (at_name nm y (join_us pre) * at_name nm y x)%R) ->
    (forall x, In x params -> r x = at_name nm y x) ->
    forall s, In (VStr s) (nm_list nm) -> at_name nm y s = long r s.
  Proof using HNM Hsim.
    intros Hm Hr. assert (G : forall n s, List.length (split_us s) <= n -> In (VStr s) (nm_list nm) -> at_name nm y s = long r s).
    { induction n as [|n IH]; intros s Hn Hs.
      - assert (Q := split_nonnil us s). change (split us s) with (split_us s) in Q. destruct (split_us s); [easy|simpl in Hn; lia].
      - destruct (nf_cases s Hs) as [Hp|(pre & x & E & Hp & Hx & Hpp & Hpre)].
        + unfold long. rewrite (split_param s Hp). simpl. rewrite (Hr s Hp). lra.
        + rewrite (Hm s pre x Hs E Hp). unfold long. rewrite E, prod_app. simpl. rewrite <- (Hr x Hx), Rmult_1_r. f_equal.
          assert (Nu : nous pre) by (unfold nous; rewrite Forall_forall in *; auto).
          rewrite IH; [unfold long; rewrite split_join by assumption; easy| |exact Hpre].
          rewrite split_join by assumption. rewrite E, app_length in Hn. simpl in Hn. lia. }
    intros s. apply (G _ s (le_n _)).
  Qed.

  Lemma v_values (y : nat -> R) (r : env) : y 0 = 1%R ->
    (forall s pre x, In (VStr s) (nm_list nm) -> split_us s = (pre ++ [x])%list -> pre <> [] ->
        at_name nm y s = (at_name nm y (join_us pre) * at_name nm y x)%R) ->
    (forall x, In x params -> r x = at_name nm y x) ->
    forall i, i < List.length (nm_list nm) -> y i = vname_val r (nth i (nm_list nm) VOne).
  Proof using HNM Hsim.
    intros H0 Hm Hr i Hi. destruct (nth_error (nm_list nm) i) as [v|] eqn:E; [|apply nth_error_None in E; lia].
    rewrite (nth_error_nth _ _ _ E). destruct v as [|s].
    - destruct nf_head as [l El]. assert (i = 0); [|subst; exact H0].
      rewrite El in E. destruct i; [easy|]. simpl in E. apply nth_error_In in E. apply in_map_iff in E as (? & ? & _). discriminate.
    - simpl. rewrite <- (at_name_nth y i s E). apply determined; [exact Hm|exact Hr|]. eapply nth_error_In, E.
  Qed.
End Names.

(** * packed lower triangular matrices *)
Fixpoint unpack (m : nat) : nat * nat :=
  match m with
  | 0 => (0, 0)
  | S m => let '(i, c) := unpack m in if Nat.eqb c i then (S i, 0) else (i, S c)
  end.
Lemma unpack_start i : forall c, c <= i -> unpack (start_idx i + c) = (i, c).
Proof.
  induction i as [|i IH]; intros c Hc.
  - replace c with 0 by lia. reflexivity.
  - rewrite start_S. induction c as [|c IHc].
    + replace (start_idx i + S i + 0) with (S (start_idx i + i)) by lia. simpl. rewrite IH by lia. rewrite Nat.eqb_refl. easy.
    + replace (start_idx i + S i + S c) with (S (start_idx i + S i + c)) by lia. simpl unpack. rewrite IHc by lia.
      destruct (Nat.eqb_spec c (S i)); [lia|easy].
Qed.
Definition pack (L : nat -> nat -> R) (m : nat) : R := L (fst (unpack m)) (snd (unpack m)).
Lemma tri_pack L i c : c <= i -> tri (pack L) i c = L i c.
Proof.
  intros H. unfold tri. apply Nat.leb_le in H as H'. rewrite H'. fold (start_idx i). unfold pack. rewrite unpack_start by exact H. easy.
Qed.

(** * multipliers by position *)
Fixpoint sindex (x : string) (l : list string) : option nat :=
  match l with [] => None | a :: l' => if String.eqb a x then Some 0 else option_map S (sindex x l') end.
Lemma sindex_nth l : NoDup l -> forall i x, nth_error l i = Some x -> sindex x l = Some i.
Proof.
  induction 1 as [|a l Ha Hn IH]; intros [|i] x E; simpl in E; try discriminate.
  - injection E as ->. simpl. rewrite String.eqb_refl. easy.
  - simpl. destruct (String.eqb_spec a x) as [->|_]; [exfalso; apply Ha; eapply nth_error_In; eauto|]. rewrite (IH i x E). easy.
Qed.
Lemma dual_of_dual b f i j : b <= 1 -> is_dual (dual_of (SK b f i j)) = true.
Proof.
  intros Hb. destruct b as [|[|b]]; [apply dual_is_dual| |lia]. unfold is_dual, dual_of, dual_name. simpl. destruct (nat_str f); easy.
Qed.

Section Points.
  Context {SY : sympy} (OK : sympy_ok SY).
  Variables (p : problem) (s : state) (sr : symres) (W : list (skey * fgw)) (wm : fgw) (Fs Gs : list cmatrix) (nm : names).
  Hypothesis HT : table_facts p s sr W wm.
  Hypothesis HC : good_coeffs (pr_params p) (st_ectr s) (st_pctr s) (sr_exp sr) Fs Gs nm.
  Hypothesis Hg : Forall good_param (pr_params p).
  Notation nv := (List.length (nm_list nm)).
  Notation nI := (sr_I sr).
  Notation nE := (sr_E sr).
  Notation dimF := (st_ectr s).
  Notation dimG := (st_pctr s).

  Lemma params_nous : Forall (fun s => has_char us s = false) (pr_params p).
  Proof using Hg. rewrite Forall_forall. apply param_names, Hg. Qed.
  Lemma len_W : List.length (sr_exp sr) = S (nI + nE).
  Proof using HT. destruct HT as (E & _ & L & _). rewrite E, app_length, L. simpl. lia. Qed.
  Lemma obj_last : last_is_obj sr = true.
  Proof using HT. destruct HT as (E & _). unfold last_is_obj. rewrite E, rev_app_distr. easy. Qed.
  Lemma last_nth (Ms : list cmatrix) : List.length Ms = List.length (sr_exp sr) -> last Ms dummy_cm = nth (nI + nE) Ms dummy_cm.
  Proof using HT.
    rewrite len_W. intros L. destruct (exists_last (l := Ms)) as (l & a & ->); [destruct Ms; easy|]. rewrite last_last.
    rewrite app_length in L. simpl in L. rewrite app_nth2 by lia. replace (nI + nE - List.length l) with 0 by lia. easy.
  Qed.
  Lemma obj_nth : nth_error (sr_exp sr) (nI + nE) = Some (SObj, wm).
  Proof using HT. destruct HT as (E & _ & L & _). rewrite E, nth_error_app2 by lia. replace (nI + nE - List.length W) with 0 by lia. easy. Qed.
  Lemma W_nth i kw : nth_error W i = Some kw -> nth_error (sr_exp sr) i = Some kw.
  Proof using HT. intros H. destruct HT as (E & _). rewrite E, nth_error_app1; [exact H|]. apply nth_error_Some. congruence. Qed.

  Lemma sum_as_index (r : env) (y : nat -> R) (h : fgw -> R) (g : nat -> R) :
    (forall i kw, nth_error W i = Some kw -> r (dual_of (fst kw)) = y (nv + i) /\ h (snd kw) = g i) ->
    lsum (fun kw => r (dual_of (fst kw)) * h (snd kw))%R W = rsum (nI + nE) (fun i => y (nv + i)%nat * g i)%R.
  Proof using HT.
    intros H. destruct HT as (_ & _ & L & _). rewrite L, (lsum_nth _ W (SObj, wm)). apply rsum_ext. intros i Hi.
    destruct (nth_error W i) as [kw|] eqn:E; [|apply nth_error_None in E; lia]. rewrite (nth_error_nth _ _ _ E). destruct (H i kw E) as [-> ->]. easy.
  Qed.

  (** shared: with v = the monomials and lambda = the multipliers, the linear
      and the quadratic equations are those of the certificate *)
  Lemma point_equations (r : env) (y : nat -> R) :
    (forall i, i < nv -> y i = vname_val r (nth i (nm_list nm) VOne)) ->
    (forall i kw, nth_error W i = Some kw -> r (dual_of (fst kw)) = y (nv + i)) ->
    (forall k, k < dimF ->
      rsum nv (fun j => coef (last Fs dummy_cm) k j * y j)%R = ev r (wF wm k) /\
      rsum (nI + nE) (fun i => y (nv + i)%nat * rsum nv (fun j => coef (nth i Fs dummy_cm) k j * y j))%R = ev r (wF (sr_sum sr) k)) /\
    (forall a b, a < dimG -> b < dimG ->
      rsum nv (fun j => coef (last Gs dummy_cm) (a * dimG + b) j * y j)%R = ev r (wG wm a b) /\
      rsum (nI + nE) (fun i => y (nv + i)%nat * rsum nv (fun j => coef (nth i Gs dummy_cm) (a * dimG + b) j * y j))%R = ev r (wG (sr_sum sr) a b)).
  Proof using HT HC.
    intros Hv Hl. destruct HC as (_ & _ & _ & LF & LG & HR).
    assert (EV : forall A k, rsum nv (fun j => coef A k j * y j)%R = rsum nv (fun j => coef A k j * vname_val r (nth j (nm_list nm) VOne))%R).
    { intros A k. apply rsum_ext. intros j Hj. rewrite (Hv j Hj). easy. }
    split.
    - intros k Hk. split.
      + rewrite EV, (last_nth Fs LF). apply (proj1 (HR r _ _ obj_nth) k Hk).
      + assert (Q := HT). destruct Q as (_ & _ & _ & _ & _ & SF & _). rewrite (SF r k Hk). symmetry.
        apply (sum_as_index r y (fun w => ev r (wF w k))). intros i kw E. split; [apply Hl, E|]. rewrite EV. symmetry. apply (proj1 (HR r _ _ (W_nth _ _ E)) k Hk).
    - intros a b Ha Hb. split.
      + rewrite EV, (last_nth Gs LG). apply (proj2 (HR r _ _ obj_nth) a b Ha Hb).
      + assert (Q := HT). destruct Q as (_ & _ & _ & _ & _ & _ & SG & _). rewrite (SG r a b Ha Hb). symmetry.
        apply (sum_as_index r y (fun w => ev r (wG w a b))). intros i kw E. split; [apply Hl, E|]. rewrite EV. symmetry. apply (proj2 (HR r _ _ (W_nth _ _ E)) a b Ha Hb).
  Qed.

  Definition key_env (y : nat -> R) : env := fun x =>
    if is_dual x then match sindex x (map dual_of (map fst W)) with Some k => y (nv + k) | None => 0%R end else at_name nm y x.
  Lemma key_env_param y x : In x (pr_params p) -> key_env y x = at_name nm y x.
  Proof using Hg. intros H. unfold key_env. rewrite Forall_forall in Hg. destruct (Hg x H) as (_ & -> & _). easy. Qed.
  Lemma key_env_dual y i kw : nth_error W i = Some kw -> key_env y (dual_of (fst kw)) = y (nv + i).
  Proof using HT.
    intros E. destruct HT as (_ & Nd & _ & Hk & _). unfold key_env.
    assert (E1 : nth_error (map fst W) i = Some (fst kw)) by (apply map_nth_error; exact E).
    destruct (Hk (fst kw)) as (b & f & a & c & Ek & Hb); [eapply nth_error_In; exact E1|]. rewrite Ek at 1. rewrite dual_of_dual by exact Hb.
    rewrite (sindex_nth _ Nd i); [easy|]. apply map_nth_error. exact E1.
  Qed.

  Theorem point_certificate (y : nat -> R) : qcqp_point (pr_params p) nm Fs Gs nI nE dimF dimG y ->
    exists r, (forall x, In x (pr_params p) -> r x = at_name nm y x) /\
      certificate r sr wm dimG dimF dimG (tri (fun i => y (nv + nI + nE + i))).
  Proof using HT HC Hg.
    intros [Q0 QF QG QM QR QL QD]. exists (key_env y). split; [intros x Hx; apply key_env_param, Hx|].
    assert (HN : names_facts (pr_params p) nm) by apply HC.
    destruct (point_equations (key_env y) y) as [PF PG].
    { apply (v_values (pr_params p) nm HN params_nous); [exact Q0|exact QM|]. intros x Hx. apply key_env_param, Hx. }
    { intros i kw E. apply key_env_dual, E. }
    constructor.
    - intros f i j Hk. destruct HT as (Ex & _ & _ & _ & HI & _). unfold keys in Hk. rewrite Ex, map_app in Hk. apply in_app_or in Hk as [Hk|[Hk|[]]]; [|discriminate].
      apply In_nth_error in Hk as [q Hq]. destruct (nth_error W q) as [kw|] eqn:E.
      2:{ apply nth_error_None in E. assert (Z : nth_error (map fst W) q <> None) by congruence. apply nth_error_Some in Z. rewrite map_length in Z. lia. }
      assert (Ek := map_nth_error fst _ _ E). rewrite Hq in Ek. injection Ek as Ek.
      change (dual_name (lamb_prefix f) i j) with (dual_of (SK 0 f i j)). rewrite Ek, (key_env_dual y q kw E). apply QL.
      apply (HI q _ Hq). eauto.
    - intros k Hk. destruct (PF k Hk) as [<- <-]. symmetry. apply QF. exact Hk.
    - intros a b Ha Hb. destruct (PG a b Ha Hb) as [<- <-]. specialize (QG a b Ha Hb). cbv zeta in QG. lra.
  Qed.

  (** conversely *)
  Definition point_of (r : env) (L : nat -> nat -> R) (i : nat) : R :=
    if Nat.ltb i nv then vname_val r (nth i (nm_list nm) VOne)
    else if Nat.ltb (i - nv) (nI + nE) then r (dual_of (fst (nth (i - nv) W (SObj, wm)))) else pack L (i - nv - (nI + nE)).
  Lemma point_of_name r L x : In (VStr x) (nm_list nm) -> at_name nm (point_of r L) x = long r x.
  Proof using HC.
    intros H. assert (HN : names_facts (pr_params p) nm) by apply HC. apply In_nth_error in H as [i Hi]. rewrite (at_name_nth _ _ HN _ i x Hi).
    unfold point_of. assert (Hl : i < nv) by (apply nth_error_Some; congruence). apply Nat.ltb_lt in Hl. rewrite Hl. rewrite (nth_error_nth _ _ _ Hi). easy.
  Qed.
  Lemma point_of_param r L x : In x (pr_params p) -> at_name nm (point_of r L) x = r x.
  Proof using HC Hg.
    intros H. rewrite point_of_name; [|apply (nf_param (pr_params p) nm (proj1 HC)); exact H].
    unfold long. rewrite (split_param (pr_params p) params_nous x H). simpl. lra.
  Qed.
  Theorem certificate_point r L :
    (forall x, In x (inv_discr_params (pr_params p)) -> In x (pr_params p) /\ In ("inv" ++ x)%string (pr_params p)) ->
    (forall x, In x (inv_discr_params (pr_params p)) -> (r x * r ("inv" ++ x)%string = 1)%R /\ (Q2R tiny <= r x)%R) ->
    certificate r sr wm dimG dimF dimG L -> lower_tri dimG L ->
    qcqp_point (pr_params p) nm Fs Gs nI nE dimF dimG (point_of r L).
  Proof using HT HC Hg.
    intros Hin Hrec [CN CF CG] [L1 L2]. assert (HN : names_facts (pr_params p) nm) by apply HC.
    destruct (point_equations r (point_of r L)) as [PF PG].
    { intros i Hi. unfold point_of. apply Nat.ltb_lt in Hi. rewrite Hi. easy. }
    { intros i kw E. assert (Hi : i < nI + nE) by (destruct HT as (_ & _ & -> & _); apply nth_error_Some; congruence).
      unfold point_of. destruct (Nat.ltb_spec (nv + i) nv); [lia|]. replace (nv + i - nv) with i by lia. apply Nat.ltb_lt in Hi. rewrite Hi.
      rewrite (nth_error_nth _ _ _ E). easy. }
    assert (Etri : forall i c, i < dimG -> c < dimG -> tri (fun m => point_of r L (nv + nI + nE + m)) i c = L i c).
    { intros i c Hi Hc. assert (E : forall m, point_of r L (nv + nI + nE + m) = pack L m).
      { intros m. unfold point_of. destruct (Nat.ltb_spec (nv + nI + nE + m) nv); [lia|]. destruct (Nat.ltb_spec (nv + nI + nE + m - nv) (nI + nE)); [lia|].
        f_equal. lia. }
      unfold tri. rewrite E. destruct (Nat.leb_spec c i) as [Hci|Hci].
      - assert (T := tri_pack L i c Hci). unfold tri in T. apply Nat.leb_le in Hci. rewrite Hci in T. exact T.
      - symmetry. apply L1; assumption. }
    constructor.
    - unfold point_of. destruct (nf_head _ _ HN) as [l El]. rewrite El. simpl. easy.
    - intros k Hk. cbv zeta. destruct (PF k Hk) as [-> ->]. symmetry. apply CF, Hk.
    - intros a b Ha Hb. cbv zeta. destruct (PG a b Ha Hb) as [-> ->].
      rewrite (rsum_ext dimG _ (fun c => L a c * L b c)%R); [rewrite <- (CG a b Ha Hb); lra|].
      intros c Hc. rewrite !Etri by assumption. easy.
    - intros x pre z Hx E Hp. rewrite (point_of_name r L x Hx).
      destruct (nf_cases _ _ HN x Hx) as [Hq|(pre' & z' & E' & Hp' & Hz & Hpp & Hpre)].
      { rewrite (split_param _ params_nous x Hq) in E. destruct pre as [|? [|? ?]]; try easy. }
      rewrite E in E'. apply app_inj_tail in E' as [<- <-].
      rewrite (point_of_name r L _ Hpre), (point_of_param r L z Hz). unfold long. rewrite E, prod_app.
      rewrite split_join; [simpl; lra|exact Hp|]. unfold nous. assert (PN := params_nous). rewrite Forall_forall in *. auto.
    - intros x Hx. destruct (Hin x Hx) as [H1 H2]. rewrite !point_of_param by assumption. apply Hrec, Hx.
    - intros i Hi. unfold point_of. destruct (Nat.ltb_spec (nv + i) nv); [lia|]. replace (nv + i - nv) with i by lia.
      destruct (Nat.ltb_spec i (nI + nE)) as [Hl|Hl]; [|lia].
      destruct HT as (Ex & _ & HL & _ & HI & _). rewrite HL in Hl. destruct (nth_error W i) as [kw|] eqn:E; [|apply nth_error_None in E; lia].
      rewrite (nth_error_nth _ _ _ E). assert (Ek := map_nth_error fst _ _ E). destruct (proj1 (HI i _ Ek) Hi) as (f & a & b & EK). rewrite EK.
      apply CN. rewrite <- EK, Ex. unfold keys. rewrite map_app. apply in_or_app. left. apply nth_error_In in Ek. exact Ek.
    - intros i Hi. rewrite Etri by assumption. apply L2, Hi.
  Qed.
End Points.
