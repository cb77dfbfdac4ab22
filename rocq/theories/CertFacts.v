(** A dual certificate proves the metric is non-positive on every consistent
    interpretation. *)
From Coq Require Import List Arith Bool String QArith Reals Lra Lia.
From Verif Require Import Prelude PreludeFacts Sympy SympyFacts AlgebraModel Denote AlgebraFacts
  FunctionModel CircuitModel SymSpec GramFacts SymFacts Spec ClassSpec ClassFacts CertSpec
  StateSpec SessionModel StateFacts.
Import ListNotations.
Local Open Scope R_scope.

(** leaves by counter *)
Lemma nth_ctr (l : list leaf) n x d : map lctr l = seq 0 n -> In x l -> (lctr x < n)%nat /\ nth (lctr x) l d = x.
Proof.
  intros H Hin. assert (L : List.length l = n) by (rewrite <- (map_length lctr), H, seq_length; easy).
  apply In_nth with (d := d) in Hin as [i [Hi E]].
  assert (Ec : lctr (nth i l d) = i).
  { rewrite <- (map_nth lctr), H, seq_nth by lia. easy. }
  rewrite E in Ec. split; [lia|]. rewrite Ec. easy.
Qed.

(** the leaf functions *)
Lemma leaf_funs_in l s f : In f (leaf_funs l s) <->
  In f l /\ exists fn, dget Nat.eqb f (st_funs s) = Some fn /\ fn_leaf fn = true.
Proof.
  induction l as [|g l IH]; simpl; [easy|].
  destruct (dget Nat.eqb g (st_funs s)) as [fn|] eqn:E; [destruct (fn_leaf fn) eqn:El|]; simpl; rewrite ?IH.
  - split.
    + intros [<-|[H1 H2]]; [split; [auto|eauto]|split; [auto|easy]].
    + intros [[<-|H1] H2]; auto.
  - split; [intros [H1 H2]; auto|]. intros [[<-|H1] [fn' [H2 H3]]]; [congruence|]. split; [easy|eauto].
  - split; [intros [H1 H2]; auto|]. intros [[<-|H1] [fn' [H2 H3]]]; [congruence|]. split; [easy|eauto].
Qed.
Lemma leaf_funs_nodup l s : NoDup l -> NoDup (leaf_funs l s).
Proof.
  induction l as [|g l IH]; simpl; intros H; [constructor|]. inversion H as [|? ? Hg Hn]; subst.
  destruct (dget Nat.eqb g (st_funs s)) as [fn|]; [|auto]. destruct (fn_leaf fn); [|auto].
  constructor; [|auto]. rewrite leaf_funs_in. tauto.
Qed.

(** the Function objects of a list of identities *)
Definition funs_of (s : state) (l : list nat) : list func :=
  flat_map (fun f => match dget Nat.eqb f (st_funs s) with Some fn => [fn] | None => [] end) l.
Lemma funs_of_spec s l : (forall f, In f l -> exists fn, dget Nat.eqb f (st_funs s) = Some fn) ->
  Forall2 (fun f fn => dget Nat.eqb f (st_funs s) = Some fn) l (funs_of s l).
Proof.
  induction l as [|f l IH]; simpl; intros H; [constructor|].
  destruct (H f (or_introl eq_refl)) as [fn Hf]. rewrite Hf. constructor; [easy|]. apply IH; auto.
Qed.

(** Constants in the generated inequalities only come from the recorded values. *)
Section NoConst.
  Variable SY : sympy.
  Hypothesis OK : sympy_ok SY.
  Lemma dset_in {K V} (eqb : K -> K -> bool) k (v : V) d kv : In kv (dset eqb k v d) -> kv = (k, v) \/ In kv d \/ eqb k (fst kv) = true /\ snd kv = v.
  Proof using Type.
    induction d as [|[k' v'] d IH]; simpl; [intros [<-|[]]; auto|]. destruct (eqb k k') eqn:E; simpl.
    - intros [<-|H]; [right; right; auto|auto].
    - intros [<-|H]; [auto|]. destruct (IH H) as [H1|[H1|H1]]; auto.
  Qed.
  Lemma no_const_eadd a b : no_const a -> no_const b -> no_const (eadd SY a b).
  Proof using OK.
    unfold no_const. simpl. generalize (ex_dict a) (ex_dict b). intros da db Ha. unfold merge_dict.
    set (P := fun d : edict => forall w r, In (KOne, w) d -> ev r w = 0). fold (P db). change (P da) in Ha.
    assert (G : forall acc, P acc -> P db -> P (fold_left (fun merged kv => let '(k, v) := kv in if dmem ekey_eqb k da then
          match dget ekey_eqb k merged with Some old => dset ekey_eqb k (simp SY (sadd old v)) merged | None => merged end
        else dset ekey_eqb k v merged) db acc)).
    { induction db as [|[k v] db IH]; intros acc H1 H2; [exact H1|]. cbn [fold_left]. apply IH; [|intros w r Hw; apply H2; right; exact Hw].
      assert (Hv : k = KOne -> forall r, ev r v = 0) by (intros -> r; apply H2; left; reflexivity).
      destruct (dmem ekey_eqb k da).
      - destruct (dget ekey_eqb k acc) as [old|] eqn:E; [|exact H1]. apply (dget_in ekey_eqb ekey_eqb_eq) in E.
        assert (Hs : k = KOne -> forall r, ev r (simp SY (sadd old v)) = 0).
        { intros -> r. rewrite (simp_ev SY OK), sadd_ev, (H1 old r E), (Hv eq_refl r). lra. }
        intros w r Hw. apply dset_in in Hw as [Hw|[Hw|[Hw Hw']]]; [injection Hw as Hk ->; auto|apply H1; exact Hw|].
        cbn [fst snd] in Hw, Hw'. apply ekey_eqb_eq in Hw. subst w. auto.
      - intros w r Hw. apply dset_in in Hw as [Hw|[Hw|[Hw Hw']]]; [injection Hw as Hk ->; auto|apply H1; exact Hw|].
        cbn [fst snd] in Hw, Hw'. apply ekey_eqb_eq in Hw. subst w. auto. }
    apply (G da Ha).
  Qed.
  Lemma no_const_escale c a : no_const a -> no_const (escale SY c a).
  Proof using OK.
    intros H w r Hw. simpl in Hw. apply in_map_iff in Hw as [[k u] [E Hu]]. injection E as -> <-. simpl.
    rewrite (simp_ev SY OK), smul_ev, (H u r Hu). lra.
  Qed.
  Lemma no_const_pmul p q : no_const (pmul SY p q).
  Proof using Type.
    intros w r H. simpl in H. apply (in_map fst) in H. apply multiply_keys in H as (x & y & E & _). easy.
  Qed.
  Lemma no_const_class c ti tj e : class_constraint SY c ti tj = Ok e ->
    no_const (t_f ti) -> no_const (t_f tj) -> no_const e.
  Proof using OK.
    intros H Hi Hj.
    assert (Hc : no_const (conv_part SY ti tj)).
    { unfold conv_part. apply no_const_eadd; [|apply no_const_pmul]. apply no_const_eadd; [easy|].
      apply no_const_escale; easy. }
    destruct c as [| |mu L|mu]; cbn [class_constraint] in H; [easy| | |].
    - injection H; intros <-; easy.
    - apply bindr_ok in H as [c1 [_ H]]. apply bindr_ok in H as [ml [_ H]].
      apply bindr_ok in H as [c2 [_ H]]. apply bindr_ok in H as [il [_ H]]. injection H; intros <-.
      apply no_const_eadd; [apply no_const_eadd; [easy|]|]; apply no_const_escale, no_const_pmul.
    - injection H; intros <-. apply no_const_eadd; [easy|]. apply no_const_escale, no_const_pmul.
  Qed.

  Lemma own_class s c ti tj e : class_constraint SY c ti tj = Ok e -> own_t s ti -> own_t s tj -> own_e s e.
  Proof using Type.
    intros H (Xi & Gi & Fi) (Xj & Gj & Fj).
    assert (Hc : own_e s (conv_part SY ti tj)).
    { unfold conv_part. apply own_eadd; [apply own_esub; easy|]. apply own_pmul; [easy|apply own_psub; easy]. }
    destruct c as [| |mu L|mu]; cbn [class_constraint] in H; [easy| | |].
    - injection H; intros <-; easy.
    - apply bindr_ok in H as [c1 [_ H]]. apply bindr_ok in H as [ml [_ H]].
      apply bindr_ok in H as [c2 [_ H]]. apply bindr_ok in H as [il [_ H]]. injection H; intros <-.
      assert (D : own_p s (psub SY (t_g ti) (t_g tj))) by (apply own_psub; easy).
      apply own_eadd; [apply own_eadd; [easy|]|]; apply own_escale, own_pmul; try easy;
        apply own_psub; try (apply own_psub; easy); apply own_pscale; easy.
    - injection H; intros <-. apply own_eadd; [easy|]. apply own_escale, own_pmul; apply own_psub; easy.
  Qed.
End NoConst.

Lemma number_in {A} (l : list A) i k a : In (k, a) (number i l) -> In a l.
Proof. revert i; induction l as [|b l IH]; intros i; simpl; [easy|]. intros [E|H]; [injection E; auto|eauto]. Qed.

Section Cert.
  Variable SY : sympy.
  Hypothesis OK : sympy_ok SY.

  (** Every table entry of a reachable problem: owned, and satisfied by every
      consistent interpretation. *)
  Lemma table_entry s p v phi funs kt :
    Inv s -> own_pb s p -> consistent v phi s -> constraints_hold v p ->
    (forall f, In f funs -> In f (st_flist s)) ->
    Forall (fun f => exists fn, dget Nat.eqb f (st_funs s) = Some fn /\ fn_leaf fn = true) funs ->
    In kt (constraint_table SY p (funs_of s funs)) -> forall e, snd kt = Ok e ->
    own_e s e /\ (constant_free p s -> no_const e) /\
    (exists b f i j, fst kt = SK b f i j /\ (b = 0%nat /\ den_e v e <= 0 \/ b = 1%nat /\ den_e v e = 0)).
  Proof using OK.
    intros I [HB1 HB2] HC HH Hin Hleaf Hkt e He.
    rewrite Forall_forall in HB1.
    assert (CK : forall b e', In e' (map c_expr (filter (fun c => Bool.eqb (is_ineq_kind (c_kind c)) b) (pr_cons p))) ->
        own_e s e' /\ (constant_free p s -> no_const e') /\ (if b then den_e v e' <= 0 else den_e v e' = 0)).
    { intros b e' H. apply in_map_iff in H as [c [<- H]]. apply filter_In in H as [Hc Hk].
      split; [apply HB1; easy|]. split.
      - intros (_ & K & _). rewrite Forall_forall in K. apply K; easy.
      - specialize (HH c Hc). destruct (c_kind c), b; simpl in *; easy. }
    unfold constraint_table in Hkt. rewrite !in_app_iff in Hkt. destruct Hkt as [Hkt|[Hkt|Hkt]].
    - apply in_map_iff in Hkt as [[i e'] [<- Hkt]]. simpl in *. injection He; intros ->.
      apply number_in in Hkt. 
      destruct (CK true e) as (A & B & C).
      { unfold ineqs in Hkt. erewrite filter_ext; [exact Hkt|]. intros c; simpl. destruct (is_ineq_kind (c_kind c)); easy. }
      split; [easy|]. split; [easy|]. exists 0%nat, 0%nat, i, 0%nat. auto.
    - unfold class_table in Hkt. apply in_flat_map in Hkt as [[idx fn] [Hn Hkt]].
      apply number_in in Hn. unfold funs_of in Hn. apply in_flat_map in Hn as [f [Hf Hn]].
      destruct (dget Nat.eqb f (st_funs s)) as [fn'|] eqn:Ef; [|easy]. destruct Hn as [->|[]].
      assert (Hfl := Hin f Hf).
      rewrite Forall_forall in Hleaf. destruct (Hleaf f Hf) as [fn2 [E2 El]]. rewrite Ef in E2; injection E2; intros <-; clear E2.
      destruct (inv_funs s I f Hfl) as [fn3 [E3 Hok]]. rewrite Ef in E3; injection E3; intros <-; clear E3.
      destruct Hok as (_ & Hown & _). rewrite Forall_forall in Hown.
      destruct (HC f fn Hfl Ef El) as (Hpar & Hcl & Hsm). rewrite Forall_forall in Hsm.
      unfold fun_table in Hkt. apply in_map_iff in Hkt as [[i j] [<- Hij]]. simpl in *.
      apply pairs_spec in Hij as (Hi & Hj & Hne).
      assert (Ti := nth_In (fn_pts fn) dummy_trip Hi). assert (Tj := nth_In (fn_pts fn) dummy_trip Hj).
      unfold interp in He.
      assert (W : forall t, own_t s t -> wf_t t) by (intros t (A & B & C); repeat split; [apply A|apply B|apply C]).
      split; [eapply own_class; eauto|]. split.
      + intros (_ & _ & K). specialize (K f fn Hfl Ef El). rewrite Forall_forall in K.
        eapply no_const_class; eauto.
      + exists 0%nat, (idx + shift_of p)%nat, i, j. split; [easy|]. left. split; [easy|].
        eapply (class_constraint_sound SY OK v (fn_class fn) (phi f)); eauto.
    - apply in_map_iff in Hkt as [[i e'] [<- Hkt]]. simpl in *. injection He; intros ->.
      apply number_in in Hkt.
      destruct (CK false e) as (A & B & C).
      { unfold eqs in Hkt. erewrite filter_ext; [exact Hkt|]. intros c; simpl. destruct (is_ineq_kind (c_kind c)); easy. }
      split; [easy|]. split; [easy|]. exists 1%nat, 0%nat, i, 0%nat. auto.
  Qed.

  Definition dleaf : leaf := mkLeaf 0 0.

  Lemma own_leaf_vals s v e : Inv s -> own_e s e ->
    leaf_vals_ok v (fun i => v_pt v (nth i (st_plist s) dleaf)) (fun i => v_fv v (nth i (st_elist s) dleaf)) (ex_dict e).
  Proof using Type.
    intros I [_ H] k Hk. specialize (H k Hk). destruct k; simpl in *; [| |easy].
    - destruct (nth_ctr _ _ f dleaf (inv_ectr s I) H) as [_ E]. rewrite E. easy.
    - destruct H as [H1 H2]. destruct (nth_ctr _ _ x dleaf (inv_pctr s I) H1) as [_ E1].
      destruct (nth_ctr _ _ y dleaf (inv_pctr s I) H2) as [_ E2]. rewrite E1, E2. easy.
  Qed.

  Lemma own_bounds s e k : Inv s -> own_e s e -> In k (keys (ex_dict e)) ->
    match k with KF f => (lctr f < st_ectr s)%nat | KG x y => (lctr x < st_pctr s)%nat /\ (lctr y < st_pctr s)%nat | KOne => True end.
  Proof using Type.
    intros I [_ H] Hk. specialize (H k Hk). destruct k; simpl in *; [| |easy].
    - apply (nth_ctr _ _ f dleaf (inv_ectr s I) H).
    - destruct H as [H1 H2]. split; [apply (nth_ctr _ _ x dleaf (inv_pctr s I) H1)|apply (nth_ctr _ _ y dleaf (inv_pctr s I) H2)].
  Qed.

  (** The certificate theorem on a well-formed state. *)
  Theorem certificate_sound s p sr s' wm m P v phi :
    Inv s -> own_pb s p ->
    symbolic SY p s = (Ok sr, s') ->
    In (SObj, wm) (sr_exp sr) ->
    certificate (v_env v) sr wm (st_pctr s) (st_ectr s) m P ->
    consistent v phi s -> constraints_hold v p -> constant_free p s ->
    exists e, pr_metric p = Some e /\ den_e v e <= 0.
  Proof using OK.
    intros I HB HS Hwm HC Hcons Hh Hcf. unfold symbolic in HS.
    set (funs := leaf_funs (st_flist s) s) in *.
    assert (Hin : forall f, In f funs -> In f (st_flist s)) by (intros f Hf; apply leaf_funs_in in Hf; easy).
    assert (Hleaf : Forall (fun f => exists fn, dget Nat.eqb f (st_funs s) = Some fn /\ fn_leaf fn = true) funs).
    { rewrite Forall_forall. intros f Hf. apply leaf_funs_in in Hf as [_ H]. easy. }
    assert (HF : Forall2 (fun f fn => dget Nat.eqb f (st_funs s) = Some fn /\ fresh_fun fn) funs (funs_of s funs)).
    { assert (G : forall l, (forall f, In f l -> In f (st_flist s)) ->
        Forall2 (fun f fn => dget Nat.eqb f (st_funs s) = Some fn /\ fresh_fun fn) l (funs_of s l)).
      { induction l as [|f l IH]; intros Hl; simpl; [constructor|].
        destruct (inv_funs s I f (Hl f (or_introl eq_refl))) as [fn [E Hok]]. rewrite E. constructor.
        - split; [easy|]. destruct Hok as (_ & _ & A & _ & _ & B). split; easy.
        - apply IH. intros; apply Hl; simpl; auto. }
      apply G, Hin. }
    apply (csm_spec SY) with (fns := funs_of s funs) in HS; [|apply leaf_funs_nodup, (inv_flist s I)|easy].
    destruct HS as (W & e & wm' & Em & Ew & Ex & F2 & Hsum & _ & _).
    exists e. split; [easy|].
    set (X := fun i => v_pt v (nth i (st_plist s) dleaf)).
    set (Fv := fun i => v_fv v (nth i (st_elist s) dleaf)).
    set (Gm := fun a b => dot (v_dim v) (X a) (X b)).
    assert (Kin : forall k w, In (k, w) W -> exists b f i j, k = SK b f i j).
    { clear -F2 I HB Hcons Hh Hin Hleaf OK.
      assert (T : forall kt, In kt (constraint_table SY p (funs_of s funs)) ->
        forall e', snd kt = Ok e' -> exists b f i j, fst kt = SK b f i j).
      { intros kt Hkt e' He'. destruct (table_entry s p v phi funs kt I HB Hcons Hh Hin Hleaf Hkt e' He') as (_ & _ & b & f & i & j & E & _).
        exists b, f, i, j; easy. }
      revert T. induction F2 as [|kt kw T0 W0 [E1 [e' [E2 E3]]] F IH]; [easy|]. intros T k w [->|Hk].
      - simpl in E1. rewrite <- E1. eapply T; [simpl; auto|exact E2].
      - eapply IH; [|exact Hk]. intros; eapply T; simpl; eauto. }
    assert (wm = wm').
    { rewrite Ex in Hwm. apply in_app_or in Hwm as [H|[H|[]]]; [|injection H; auto].
      destruct (Kin _ _ H) as (b & f & i & j & E). easy. }
    subst wm'.
    assert (Hm : own_e s e) by (destruct HB as [_ HB]; rewrite Em in HB; easy).
    (* the metric *)
    assert (Vm : fg_val (v_env v) (st_pctr s) (st_ectr s) wm Fv Gm = den_e v e).
    { destruct Hcf as (K & _). specialize (K e Em).
      rewrite <- (expression_to_matrix_val SY (v_env v) v X Fv eq_refl (st_pctr s) (st_ectr s) e wm Ew (own_leaf_vals s v e I Hm)).
      rewrite (no_const_part (v_env v) e K). unfold Gm. lra. }
    (* the sum *)
    assert (Vs : fg_val (v_env v) (st_pctr s) (st_ectr s) (sr_sum sr) Fv Gm <= 0).
    { rewrite (Hsum (v_env v) Fv Gm), fg_val_zero.
      assert (L : lsum (fun kw => v_env v (dual_of (fst kw)) * fg_val (v_env v) (st_pctr s) (st_ectr s) (snd kw) Fv Gm) W <= 0); [|lra].
      assert (HN : forall f i j w, In (SK 0 f i j, w) W -> 0 <= v_env v (dual_name (lamb_prefix f) i j)).
      { intros f i j w Hk. apply (cert_nonneg _ _ _ _ _ _ _ HC). rewrite Ex. unfold keys. rewrite map_app, in_app_iff. left.
        apply in_map_iff. exists (SK 0 f i j, w); easy. }
      assert (T := fun kt => table_entry s p v phi funs kt I HB Hcons Hh Hin Hleaf).
      clear -F2 HN T I Hcf. revert HN T.
      induction F2 as [|kt [k w] T0 W0 [E1 [e' [E2 E3]]] F IH]; intros HN T; [simpl; lra|].
      rewrite lsum_cons. cbn [fst snd] in *.
      assert (L2 : lsum (fun kw => v_env v (dual_of (fst kw)) * fg_val (v_env v) (st_pctr s) (st_ectr s) (snd kw) Fv Gm) W0 <= 0).
      { apply IH.
        - intros f i j w' Hk. apply (HN f i j w'). simpl; auto.
        - intros kt' Hkt'. apply T. simpl; auto. }
      destruct (T kt (or_introl eq_refl) e' E2) as (Ho & Hnc & b & f & i & j & Ek & Hd).
      specialize (Hnc Hcf).
      assert (Ve : fg_val (v_env v) (st_pctr s) (st_ectr s) w Fv Gm = den_e v e').
      { rewrite <- (expression_to_matrix_val SY (v_env v) v X Fv eq_refl (st_pctr s) (st_ectr s) e' w E3 (own_leaf_vals s v e' I Ho)).
        rewrite (no_const_part (v_env v) e' Hnc). unfold Gm. lra. }
      rewrite Ve.
      rewrite Ek in E1. subst k. destruct Hd as [[-> Hd]|[-> Hd]].
      - assert (Hl : 0 <= v_env v (dual_name (lamb_prefix f) i j)) by (apply (HN f i j w); simpl; auto).
        change (dual_of (SK 0 f i j)) with (dual_name (lamb_prefix f) i j).
        assert (v_env v (dual_name (lamb_prefix f) i j) * den_e v e' <= 0) by nra. lra.
      - rewrite Hd, Rmult_0_r. lra. }
    (* the difference is the slack *)
    assert (Vd : fg_val (v_env v) (st_pctr s) (st_ectr s) (sr_sum sr) Fv Gm - fg_val (v_env v) (st_pctr s) (st_ectr s) wm Fv Gm
       = rsum (st_pctr s) (fun a => rsum (st_pctr s) (fun b => rsum m (fun c => P a c * P b c) * dot (v_dim v) (X a) (X b)))).
    { unfold fg_val. destruct HC as [_ CF CG].
      rewrite (rsum_ext (st_ectr s) (fun k => ev (v_env v) (wF (sr_sum sr) k) * Fv k) (fun k => ev (v_env v) (wF wm k) * Fv k)).
      2:{ intros k Hk. rewrite (CF k Hk). easy. }
      assert (A : forall x y z u : R, y - z = u -> x + y - (x + z) = u) by (intros; lra). apply A. clear A.
      rewrite <- rsum_minus. apply rsum_ext. intros a Ha. rewrite <- rsum_minus. apply rsum_ext. intros b Hb.
      rewrite <- (CG a b Ha Hb). unfold Gm. lra. }
    assert (Hp := ppt_gram_nonneg (v_dim v) (st_pctr s) m P X). lra.
  Qed.

  (** Totality of the assembly on well-formed states. *)
  Definition plain (e : expr) : Prop := forall k w, In (k, w) (ex_dict e) -> free (simp SY w) = [] -> free w = [].

  Lemma own_convertible s e : Inv s -> own_e s e -> plain e -> convertible SY (st_pctr s) (st_ectr s) e.
  Proof using Type.
    intros I Ho Hp. apply to_matrix_total; [exact Hp|]. intros k Hk. apply (own_bounds s e k I Ho Hk).
  Qed.

  Theorem symbolic_total s p m :
    Inv s -> own_pb s p -> pr_metric p = Some m -> plain m ->
    Forall (fun c => plain (c_expr c)) (pr_cons p) ->
    (forall f fn, In f (st_flist s) -> dget Nat.eqb f (st_funs s) = Some fn -> fn_leaf fn = true ->
       class_params_ok (fn_class fn) /\
       forall ti tj e, In ti (fn_pts fn) -> In tj (fn_pts fn) -> class_constraint SY (fn_class fn) ti tj = Ok e -> plain e) ->
    exists sr s', symbolic SY p s = (Ok sr, s').
  Proof using Type.
    intros I [HB1 HB2] Hm Hpm Hpc Hf. unfold symbolic.
    apply (csm_total SY (st_pctr s) (st_ectr s) p _ (funs_of s (leaf_funs (st_flist s) s)) s m).
    - apply leaf_funs_nodup, (inv_flist s I).
    - easy.
    - apply own_convertible; try easy. rewrite Hm in HB2; easy.
    - rewrite Forall_forall in *. intros c Hc. apply own_convertible; auto.
    - assert (G : forall l, (forall f, In f l -> In f (leaf_funs (st_flist s) s)) ->
        Forall2 (fun f fn => dget Nat.eqb f (st_funs s) = Some fn /\ fresh_fun fn /\ fn_class fn <> CBase /\
          (forall ti tj, exists e, class_constraint SY (fn_class fn) ti tj = Ok e) /\
          (forall ti tj e, In ti (fn_pts fn) -> In tj (fn_pts fn) ->
             class_constraint SY (fn_class fn) ti tj = Ok e -> convertible SY (st_pctr s) (st_ectr s) e)) l (funs_of s l)).
      { induction l as [|f l IH]; intros Hl; simpl; [constructor|].
        assert (Hfl := Hl f (or_introl eq_refl)). apply leaf_funs_in in Hfl as [Hin [fn [E El]]].
        rewrite E. constructor; [|apply IH; intros; apply Hl; simpl; auto].
        destruct (inv_funs s I f Hin) as [fn' [E' Hok]]. rewrite E in E'; injection E'; intros <-.
        destruct Hok as (K1 & K2 & K3 & K4 & K5 & K6). rewrite El in K1. destruct K1 as [_ Kb].
        destruct (Hf f fn Hin E El) as [Hpar Hpl].
        split; [easy|]. split; [split; easy|]. split; [easy|]. split.
        - intros ti tj. apply class_constraint_total; easy.
        - intros ti tj e Hi Hj He. apply own_convertible; [easy| |exact (Hpl ti tj e Hi Hj He)].
          rewrite Forall_forall in K2. eapply own_class; [exact He|apply K2; easy|apply K2; easy]. }
      apply G; easy.
  Qed.
End Cert.
