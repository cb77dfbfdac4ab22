(** Which symbols can occur in the assembled matrices. *)
From Coq Require Import List Arith Bool String QArith Lia.
From Verif Require Import Prelude PreludeFacts Sympy SympyFacts AlgebraModel AlgebraFacts FunctionModel CircuitModel SymSpec SymFacts
  StateFacts RepeatFacts.
Import ListNotations.

Definition dall {K} (P : string -> Prop) (d : list (K * sexpr)) : Prop :=
  forall kv s, In kv d -> In s (free (snd kv)) -> P s.
Definition fg_all (P : string -> Prop) (w : fgw) : Prop :=
  (forall k s, In s (free (wF w k)) -> P s) /\ (forall i j s, In s (free (wG w i j)) -> P s).

Section Syms.
  Context {SY : sympy} (OK : sympy_ok SY).
  Variable P : string -> Prop.

  Lemma dall_dset {K} (eqb : K -> K -> bool) k v d : (forall s, In s (free v) -> P s) -> dall P d -> dall P (dset eqb k v d).
  Proof using Type.
    intros Hv. induction d as [|[k' v'] d IH]; intros Hd kv s H; simpl in H.
    - destruct H as [<-|[]]. apply Hv.
    - destruct (eqb k k'); simpl in H; destruct H as [<-|H].
      + apply Hv.
      + apply Hd. simpl; auto.
      + apply (Hd (k', v')). simpl; auto.
      + apply IH; [|easy]. intros kv' s' H'. apply Hd. simpl; auto.
  Qed.
  Lemma dget_dall {K} (eqb : K -> K -> bool) k v (d : list (K * sexpr)) :
    dget eqb k d = Some v -> dall P d -> forall s, In s (free v) -> P s.
  Proof using Type.
    induction d as [|[k' v'] d IH]; simpl; [easy|]. destruct (eqb k k').
    - intros [= ->] H s Hs. apply (H (k', v)); simpl; auto.
    - intros H Hd. apply IH; [easy|]. intros kv s Hkv. apply Hd. simpl; auto.
  Qed.
  Lemma dall_merge {K} (eqb : K -> K -> bool) d1 d2 : dall P d1 -> dall P d2 -> dall P (merge_dict SY eqb d1 d2).
  Proof using OK.
    unfold merge_dict. intros H1 H2. assert (G : forall acc, dall P acc ->
      dall P (fold_left (fun merged kv => let '(k, v) := kv in
        if dmem eqb k d1 then match dget eqb k merged with Some old => dset eqb k (simp SY (sadd old v)) merged | None => merged end
        else dset eqb k v merged) d2 acc)).
    2:{ apply G, H1. }
    induction d2 as [|[k v] d2 IH]; intros acc Ha; simpl; [easy|]. apply IH.
    - intros kv s Hkv. apply H2. simpl; auto.
    - assert (Hv : forall s, In s (free v) -> P s) by (intros s; apply (H2 (k, v)); simpl; auto).
      destruct (dmem eqb k d1); [destruct (dget eqb k acc) as [old|] eqn:E; [|easy]|]; apply dall_dset; try easy.
      intros s Hs. apply (simp_free SY OK) in Hs. apply sadd_free in Hs as [Hs|Hs]; [|auto]. apply (dget_dall eqb k _ acc E Ha s Hs).
  Qed.
  Lemma dall_prune {K} (d : list (K * sexpr)) : dall P d -> dall P (prune_dict d).
  Proof using Type. intros H kv s Hk. apply filter_In in Hk as [Hk _]. apply H. easy. Qed.
  Lemma dall_scale {K} c (d : list (K * sexpr)) : (forall s, In s (free c) -> P s) -> dall P d -> dall P (scale_dict SY c d).
  Proof using OK.
    intros Hc H kv s Hk Hs. apply in_map_iff in Hk as [[k v] [<- Hk]]. simpl in Hs. apply (simp_free SY OK) in Hs.
    apply smul_free in Hs as [Hs|Hs]; [|auto]. apply (H (k, v)); easy.
  Qed.
  Lemma dall_multiply d1 d2 : dall P d1 -> dall P d2 -> dall P (multiply_dicts SY d1 d2).
  Proof using OK.
    unfold multiply_dicts. intros H1 H2. assert (G : forall acc, dall P acc -> dall P
      (fold_left (fun acc kv1 => fold_left (fun acc' kv2 =>
        let k := KG (fst kv1) (fst kv2) in let v := simp SY (smul (snd kv1) (snd kv2)) in
        match dget ekey_eqb k acc' with Some old => dset ekey_eqb k (sadd old v) acc' | None => dset ekey_eqb k v acc' end) d2 acc) d1 acc)).
    2:{ apply G. easy. }
    induction d1 as [|kv1 d1 IH]; intros acc Ha; simpl; [easy|]. apply IH; [intros kv s Hkv; apply H1; simpl; auto|].
    assert (Hv1 : forall s, In s (free (snd kv1)) -> P s) by (intros s; apply (H1 kv1); simpl; auto). clear IH H1.
    revert acc Ha. induction d2 as [|kv2 d2 IH]; intros acc Ha; simpl; [easy|].
    assert (Hv2 : forall s, In s (free (snd kv2)) -> P s) by (intros s; apply (H2 kv2); simpl; auto).
    apply IH; [intros kv s Hkv; apply H2; simpl; auto|].
    assert (Hm : forall s, In s (free (simp SY (smul (snd kv1) (snd kv2)))) -> P s).
    { intros s Hs. apply (simp_free SY OK) in Hs. apply smul_free in Hs as [Hs|Hs]; auto. }
    destruct (dget ekey_eqb (KG (fst kv1) (fst kv2)) acc) as [old|] eqn:E; apply dall_dset; try easy.
    intros s Hs. apply sadd_free in Hs as [Hs|Hs]; [|auto]. apply (dget_dall _ _ _ _ E Ha s Hs).
  Qed.

  Definition pt_all (p : point) : Prop := dall P (pt_dict p).
  Definition ex_all (e : expr) : Prop := dall P (ex_dict e).
  Definition trip_all (t : trip) : Prop := pt_all (t_x t) /\ pt_all (t_g t) /\ ex_all (t_f t).

  Lemma pscale_all c p : (forall s, In s (free c) -> P s) -> pt_all p -> pt_all (pscale SY c p).
  Proof using OK. apply dall_scale. Qed.
  Lemma psub_all p q : pt_all p -> pt_all q -> pt_all (psub SY p q).
  Proof using OK. intros A B. apply dall_prune, dall_merge; [easy|]. apply dall_scale; easy. Qed.
  Lemma pmul_all p q : pt_all p -> pt_all q -> ex_all (pmul SY p q).
  Proof using OK. apply dall_multiply. Qed.
  Lemma eadd_all a b : ex_all a -> ex_all b -> ex_all (eadd SY a b).
  Proof using OK. apply dall_merge. Qed.
  Lemma escale_all c a : (forall s, In s (free c) -> P s) -> ex_all a -> ex_all (escale SY c a).
  Proof using OK. apply dall_scale. Qed.
  Lemma esub_all a b : ex_all a -> ex_all b -> ex_all (esub SY a b).
  Proof using OK. intros A B. apply eadd_all; [easy|]. apply escale_all; easy. Qed.

  Lemma conv_part_all ti tj : trip_all ti -> trip_all tj -> ex_all (conv_part SY ti tj).
  Proof using OK. intros (A & B & C) (A' & B' & C'). apply eadd_all; [apply esub_all; easy|apply pmul_all; [easy|apply psub_all; easy]]. Qed.
  Lemma class_all c ti tj e : class_constraint SY c ti tj = Ok e -> trip_all ti -> trip_all tj -> ex_all e.
  Proof using OK.
    intros H Hi Hj. assert (Hc := conv_part_all ti tj Hi Hj). destruct Hi as (A & B & C), Hj as (A' & B' & C').
    destruct c; simpl in H.
    - easy.
    - injection H; intros <-. easy.
    - destruct (qdiv 1 (Qred (2 * L))) as [c1|]; [|easy]. destruct (qdiv mu L) as [ml|]; [|easy]. simpl in H.
      destruct (qdiv mu (Qred (2 * (1 - ml)))) as [c2|]; [|easy]. destruct (qdiv 1 L) as [il|]; [|easy]. simpl in H.
      injection H; intros <-. assert (D := psub_all _ _ B B').
      apply eadd_all; [apply eadd_all; [easy|]|]; (apply escale_all; [easy|]); apply pmul_all; auto;
        apply psub_all; auto using psub_all; apply pscale_all; easy.
    - injection H; intros <-. apply eadd_all; [easy|]. apply escale_all; [easy|]. apply pmul_all; apply psub_all; easy.
  Qed.

  Lemma norm_weight_all w w' : norm_weight SY w = Ok w' -> (forall s, In s (free w) -> P s) -> forall s, In s (free w') -> P s.
  Proof using Type.
    intros H Hw. unfold norm_weight in H.
    assert (G : (if closed (simp SY w) then let? q := to_float w in Ok (Num q) else Ok w) = Ok w' -> forall s, In s (free w') -> P s).
    { clear H. destruct (closed (simp SY w)); [destruct (to_float w); simpl; [intros [= <-]|]; easy|intros [= <-]; easy]. }
    destruct w; [injection H; intros <-; easy| | |]; apply G, H.
  Qed.
  Lemma to_matrix_all dimG dimF d : forall acc w, to_matrix SY dimG dimF d acc = Ok w -> dall P d -> fg_all P acc -> fg_all P w.
  Proof using Type.
    induction d as [|[k w0] d IH]; intros acc w H Hd Ha; simpl in H; [injection H; intros <-; easy|].
    destruct (norm_weight SY w0) as [w1|] eqn:Ew; [|easy]. simpl in H.
    assert (Hw : forall s, In s (free w1) -> P s).
    { apply (norm_weight_all w0 w1 Ew). intros s. apply (Hd (k, w0)). simpl; auto. }
    assert (Hd' : dall P d) by (intros kv s Hk; apply Hd; simpl; auto). destruct Ha as [HF HG].
    destruct k as [f|x y|].
    - destruct (Nat.ltb (lctr f) dimF); [|easy]. apply IH in H; try easy. split; [|easy].
      intros k s Hs. simpl in Hs. unfold upd1 in Hs. destruct (Nat.eqb k (lctr f)); [|eapply HF; eauto].
      apply sadd_free in Hs as [Hs|Hs]; [eapply HF; eauto|auto].
    - destruct (Nat.ltb (lctr x) dimG && Nat.ltb (lctr y) dimG); [|easy]. apply IH in H; try easy. split; [easy|].
      assert (Hh : forall s, In s (free (smul w1 (Num (1 # 2)))) -> P s).
      { intros s Hs. apply smul_free in Hs as [Hs|Hs]; [auto|easy]. }
      assert (G1 : forall i j s, In s (free (upd2 (wG acc) (lctr x) (lctr y) (sadd (wG acc (lctr x) (lctr y)) (smul w1 (Num (1 # 2)))) i j)) -> P s).
      { intros i j s Hs. unfold upd2 in Hs. destruct (Nat.eqb i (lctr x) && Nat.eqb j (lctr y)); [|eapply HG; eauto].
        apply sadd_free in Hs as [Hs|Hs]; [eapply HG; eauto|auto]. }
      intros i j s Hs. cbn [wG] in Hs. unfold upd2 at 1 in Hs. destruct (Nat.eqb i (lctr y) && Nat.eqb j (lctr x)).
      + apply sadd_free in Hs as [Hs|Hs]; [apply G1 in Hs; easy|auto].
      + apply G1 in Hs. easy.
    - apply IH in H; easy.
  Qed.
  Lemma zero_fg_all : fg_all P zero_fg. Proof using Type. split; easy. Qed.
  Lemma expression_to_matrix_all dimG dimF e w : expression_to_matrix SY e dimG dimF = Ok w -> ex_all e -> fg_all P w.
  Proof using Type. intros H He. eapply to_matrix_all; [exact H|exact He|apply zero_fg_all]. Qed.
  Lemma accum_all nm w sums : P nm -> fg_all P w -> fg_all P sums -> fg_all P (accum nm w sums).
  Proof using Type.
    intros Hn [A B] [C D]. split; intros; simpl in *;
      match goal with H : In _ (free (sadd _ _)) |- _ => apply sadd_free in H as [H|H]; [eauto|apply smul_free in H as [[<-|[]]|H]; eauto] end.
  Qed.

  Variables dimG dimF : nat.
  Hypothesis Pl : forall f i j, P (dual_name (lamb_prefix f) i j).
  Hypothesis Pn : forall i j, P (dual_name "nu0" i j).

  Lemma extra_loop_all l : forall iq ie s s' iq', extra_loop SY dimG dimF l iq ie s = Ok (s', iq') ->
    (forall c, In c l -> ex_all (c_expr c)) -> fg_all P (ss_sum s) -> fg_all P (ss_sum s').
  Proof using Pl Pn.
    induction l as [|c l IH]; intros iq ie s s' iq' H Hl Hs; simpl in H; [injection H; intros _ <-; easy|].
    destruct (expression_to_matrix SY (c_expr c) dimG dimF) as [w|] eqn:Ew; [|easy]. simpl in H.
    assert (Hw : fg_all P w) by (eapply expression_to_matrix_all; [exact Ew|apply Hl; simpl; auto]).
    destruct (c_kind c); (apply IH in H; [easy|intros c' Hc'; apply Hl; simpl; auto|]); simpl; apply accum_all; try easy.
    apply (Pl 0).
  Qed.
  Lemma class_loop_all f l : forall cons s s', class_loop SY dimG dimF f l cons s = Ok s' ->
    (forall e, In e cons -> ex_all e) -> fg_all P (ss_sum s) -> fg_all P (ss_sum s').
  Proof using Pl.
    induction l as [|[i j] l IH]; intros cons s s' H Hc Hs; simpl in H; [injection H; intros <-; easy|].
    destruct cons as [|e cons]; [easy|]. destruct (expression_to_matrix SY e dimG dimF) as [w|] eqn:Ew; [|easy]. simpl in H.
    apply IH in H; [easy|intros e' He'; apply Hc; simpl; auto|]. simpl. apply accum_all; try easy.
    eapply expression_to_matrix_all; [exact Ew|]. apply Hc; simpl; auto.
  Qed.
  Lemma row_all c ti l r : row SY c ti l = Ok r -> trip_all ti -> (forall t, In t l -> trip_all t) -> forall e, In e r -> ex_all e.
  Proof using OK.
    revert r. induction l as [|tj l IH]; intros r H Hi Hl e He; simpl in H; [injection H; intros <-; easy|].
    destruct (Nat.eqb (t_id ti) (t_id tj)); [apply IH with (r := r); auto; intros; apply Hl; simpl; auto|].
    destruct (class_constraint SY c ti tj) as [e0|] eqn:E; [|easy]. simpl in H. destruct (row SY c ti l) as [r0|]; [|easy]. simpl in H.
    injection H; intros <-. destruct He as [<-|He].
    - eapply class_all; [exact E|easy|]. apply Hl; simpl; auto.
    - apply (IH r0); auto. intros; apply Hl; simpl; auto.
  Qed.
  Lemma rows_all c li l r : rows SY c li l = Ok r -> (forall t, In t li -> trip_all t) -> (forall t, In t l -> trip_all t) -> forall e, In e r -> ex_all e.
  Proof using OK.
    revert r. induction li as [|ti li IH]; intros r H Hi Hl e He; simpl in H; [injection H; intros <-; easy|].
    destruct (row SY c ti l) as [a|] eqn:E; [|easy]. simpl in H. destruct (rows SY c li l) as [b|]; [|easy]. simpl in H. injection H; intros <-.
    apply in_app_iff in He as [He|He].
    - eapply row_all; [exact E| | |exact He]; [apply Hi; simpl; auto|easy].
    - apply (IH b); auto. intros; apply Hi; simpl; auto.
  Qed.
  Lemma fun_loop_all shift l : forall idx ss s ss' s', NoDup l -> fun_loop SY dimG dimF shift idx l ss s = (Ok ss', s') ->
    (forall f, In f l -> exists fn, dget Nat.eqb f (st_funs s) = Some fn /\ fn_cons fn = [] /\ forall t, In t (fn_pts fn) -> trip_all t) ->
    fg_all P (ss_sum ss) -> fg_all P (ss_sum ss').
  Proof using OK Pl.
    induction l as [|f l IH]; intros idx ss s ss' s' Hn H Hf Hs; simpl in H; [unfold ret in H; injection H; intros _ <-; easy|].
    inversion Hn as [|? ? Hf' Hn']; subst. apply bind_ok in H as [u [s1 [H1 H]]].
    apply add_class_run in H1 as (fn & es & E & Hb & Hr & ->).
    apply bind_ok in H as [fn1 [s2 [H2 H]]]. apply get_fun_ok in H2 as [H2 ->]. simpl in H2.
    rewrite (dget_dset_same Nat.eqb nat_eqb_iff) in H2. injection H2; intros <-; clear H2.
    apply bind_ok in H as [ss1 [s3 [H3 H]]]. apply lift_ok in H3 as [H3 ->].
    apply bind_ok in H as [[] [s4 [H4 H]]]. apply assertM_ok in H4 as [H4 ->].
    destruct (Hf f (or_introl eq_refl)) as (fn2 & E2 & Ec & Ht). rewrite E in E2. injection E2; intros <-; clear E2.
    apply IH in H; [easy|easy| |].
    - intros g Hg. destruct (Hf g (or_intror Hg)) as (fg & A & B & C). exists fg. split; [|easy]. simpl.
      rewrite (dget_dset_other Nat.eqb nat_eqb_iff); [easy|]. intros ->. easy.
    - eapply class_loop_all; [exact H3| |exact Hs]. simpl. rewrite Ec. simpl. intros e He. eapply rows_all; eauto.
  Qed.
  Lemma csm_all p funs s sr s' : circuit_symbolic_matrices SY p funs dimG dimF s = (Ok sr, s') -> NoDup funs ->
    (forall f, In f funs -> exists fn, dget Nat.eqb f (st_funs s) = Some fn /\ fn_cons fn = [] /\ forall t, In t (fn_pts fn) -> trip_all t) ->
    (forall c, In c (pr_cons p) -> ex_all (c_expr c)) ->
    fg_all P (sr_sum sr).
  Proof using OK Pl Pn.
    intros H Hn Hf Hc. unfold circuit_symbolic_matrices in H.
    apply bind_ok in H as [[s1 iq] [t1 [H1 H]]]. apply lift_ok in H1 as [H1 ->].
    apply bind_ok in H as [s2 [t2 [H2 H]]]. apply bind_ok in H as [[] [t3 [H3 H]]]. apply assertM_ok in H3 as [H3 ->].
    destruct (pr_metric p) as [m|]; [|easy]. apply bind_ok in H as [w [t4 [H4 H]]]. unfold ret in H. injection H; intros _ <-. simpl.
    eapply fun_loop_all; [exact Hn|exact H2|exact Hf|].
    eapply extra_loop_all; [exact H1|exact Hc|]. apply zero_fg_all.
  Qed.
End Syms.
