(** Executing a builder step by step: the judgement [T] says that the rest of
    a builder succeeds and that the values its metric can take are described
    by a predicate over the values of the objects created so far. *)
From Coq Require Import List Arith Bool String QArith Reals Qreals Lia Lra FunctionalExtensionality.
From Verif Require Import Prelude PreludeFacts Sympy SympyFacts AlgebraModel Denote AlgebraFacts FunctionModel CircuitModel
  Spec SpecFacts ClassSpec CertSpec StateSpec StateFacts CertFacts FunctionSpec FunctionFacts FunctionFacts2
  SymbolFacts SolverSpec BuilderModel BuilderSpec BuilderLogic.
Import ListNotations.
Local Open Scope R_scope.

Definition rfun0 : rfun := mkFun (fun _ => True) (fun _ => 0).

(** Objects known to the builder, and their values. *)
Record ctx := mkCtx { cf : list nat; cs : list (nat * list nat); cx : list point; ce : list expr;
                      cl : list (list point); cm : list (list expr) }.
Record senv := mkSE { vf : list rfun; vx : list vec; ve : list R; vl : list (list vec); vm : list (list R) }.
Definition addf f c := mkCtx (cf c ++ [f]) (cs c) (cx c) (ce c) (cl c) (cm c).
Definition adds F is c := mkCtx (cf c) ((F, is) :: cs c) (cx c) (ce c) (cl c) (cm c).
Definition addx x c := mkCtx (cf c) (cs c) (x :: cx c) (ce c) (cl c) (cm c).
Definition adde x c := mkCtx (cf c) (cs c) (cx c) (x :: ce c) (cl c) (cm c).
Definition addl x c := mkCtx (cf c) (cs c) (cx c) (ce c) (x :: cl c) (cm c).
Definition addm x c := mkCtx (cf c) (cs c) (cx c) (ce c) (cl c) (x :: cm c).
Definition pushf f c := mkSE (vf c ++ [f]) (vx c) (ve c) (vl c) (vm c).
Definition pushx x c := mkSE (vf c) (x :: vx c) (ve c) (vl c) (vm c).
Definition pushe x c := mkSE (vf c) (vx c) (x :: ve c) (vl c) (vm c).
Definition pushl x c := mkSE (vf c) (vx c) (ve c) (x :: vl c) (vm c).
Definition pushm x c := mkSE (vf c) (vx c) (ve c) (vl c) (x :: vm c).
Definition ctx0 := mkCtx [] [] [] [] [] [].
Definition senv0 := mkSE [] [] [] [] [].

Definition vals (v : valuation) (phi : nat -> rfun) (c : ctx) (en : senv) : Prop :=
  map phi (cf c) = vf en /\ map (den_p v) (cx c) = vx en /\ map (den_e v) (ce c) = ve en /\
  map (map (den_p v)) (cl c) = vl en /\ map (map (den_e v)) (cm c) = vm en.

Definition holds (v : valuation) (l : list constr) : Prop :=
  forall c, In c l -> match c_kind c with Inequality => den_e v (c_expr c) <= 0 | Equality => den_e v (c_expr c) = 0 end.

Section T.
  Context {SY : sympy} (OK : sympy_ok SY).
  Variable P : list string.
  Let okp := okp P.
  Let oke := oke P.
  Let St := St P.

  Definition okc (s : state) (c : ctx) : Prop :=
    Forall (isf s) (cf c) /\ NoDup (cf c) /\ Forall (okp s) (cx c) /\ Forall (oke s) (ce c) /\
    Forall (Forall (okp s)) (cl c) /\ Forall (Forall (oke s)) (cm c) /\
    Forall (fun Fi => sums s (fst Fi) (map (fun i => nth i (cf c) 0%nat) (snd Fi)) /\
                      Forall (fun i => (i < List.length (cf c))%nat) (snd Fi) /\ NoDup (snd Fi)) (cs c).

  Definition metric_is (p : problem) (v : valuation) (q : R) : Prop :=
    exists m, pr_metric p = Some m /\ den_e v m = q.

  Definition T (k : M problem) (s : state) (pb : problem) (c : ctx) (A : nat -> env -> senv -> R -> Prop) : Prop :=
    St s -> okc s c ->
    exists p sf l, k s = (Ok p, sf) /\ ext s sf /\ St sf /\ pr_params p = pr_params pb /\ pr_cons p = pr_cons pb ++ l /\
      Forall (fun c => oke sf (c_expr c)) l /\ (exists m, pr_metric p = Some m /\ oke sf m) /\ pr_obj p = Some (Sym "eta") /\
      forall d r q,
        (forall v phi en, space d r v -> consistent v phi sf -> vals v phi c en -> holds v l -> metric_is p v q -> A d r en q) /\
        (forall v phi en, space d r v -> consistent v phi s -> vals v phi c en -> A d r en q ->
           exists v' phi', space d r v' /\ agree s v v' /\ consistent v' phi' sf /\ holds v' l /\ metric_is p v' q).

  Lemma T_iff k s pb c (A A' : nat -> env -> senv -> R -> Prop) :
    (forall d r en q, A d r en q <-> A' d r en q) -> T k s pb c A -> T k s pb c A'.
  Proof using Type.
    intros H HT HS Hc. destruct (HT HS Hc) as (p & sf & l & H1 & H2 & H3 & H4 & H5 & H6 & H7 & H8 & H9).
    exists p, sf, l. repeat (split; [easy|]). intros d r q. destruct (H9 d r q) as [B W]. split.
    - intros v phi en. rewrite <- H. apply B.
    - intros v phi en. rewrite <- H. apply W.
  Qed.

  (** ** Transport of the context *)
  Lemma okc_ext s s' c : ext s s' -> okc s c -> okc s' c.
  Proof using Type.
    intros E (A & B & C & D & F & G & H). split; [|split; [easy|split; [|split; [|split; [|split]]]]].
    - eapply Forall_impl; [|exact A]. intros a. apply isf_ext; easy.
    - eapply Forall_impl; [|exact C]. intros a. apply okp_ext; easy.
    - eapply Forall_impl; [|exact D]. intros a. apply oke_ext; easy.
    - eapply Forall_impl; [|exact F]. intros a Ha. eapply Forall_impl; [|exact Ha]. intros b. apply okp_ext; easy.
    - eapply Forall_impl; [|exact G]. intros a Ha. eapply Forall_impl; [|exact Ha]. intros b. apply oke_ext; easy.
    - eapply Forall_impl; [|exact H]. intros [F0 is] (H1 & H2 & H3). simpl in *. split; [|easy].
      eapply sums_ext; [exact E| |exact H1]. rewrite Forall_forall in *. intros f Hf. apply in_map_iff in Hf as (i & <- & Hi).
      apply A, nth_In, H2. easy.
  Qed.
  Lemma vals_agree s v v' phi c en : okc s c -> agree s v v' -> vals v phi c en -> vals v' phi c en.
  Proof using Type.
    intros (_ & _ & C & D & F & G & _) Ha (V1 & V2 & V3 & V4 & V5). rewrite Forall_forall in C, D, F, G.
    split; [easy|]. rewrite <- V2, <- V3, <- V4, <- V5. split; [|split; [|split]].
    - apply map_ext_in. intros a Hin. apply (agree_p s); [easy|apply C; easy].
    - apply map_ext_in. intros a Hin. apply (agree_e s); [easy|apply D; easy].
    - apply map_ext_in. intros a Hin. apply map_ext_in. intros b Hb. apply (agree_p s); [easy|]. specialize (F a Hin).
      rewrite Forall_forall in F. apply F; easy.
    - apply map_ext_in. intros a Hin. apply map_ext_in. intros b Hb. apply (agree_e s); [easy|]. specialize (G a Hin).
      rewrite Forall_forall in G. apply G; easy.
  Qed.
  Lemma okc_addx s c x : okc s c -> okp s x -> okc s (addx x c).
  Proof using Type. intros (A & B & C & D) H. repeat (split; try easy). constructor; easy. Qed.
  Lemma okc_adde s c x : okc s c -> oke s x -> okc s (adde x c).
  Proof using Type. intros (A & B & C & D & E) H. repeat (split; try easy). constructor; easy. Qed.
  Lemma okc_addl s c x : okc s c -> Forall (okp s) x -> okc s (addl x c).
  Proof using Type. intros (A & B & C & D & E & F) H. repeat (split; try easy). constructor; easy. Qed.
  Lemma okc_addm s c x : okc s c -> Forall (oke s) x -> okc s (addm x c).
  Proof using Type. intros (A & B & C & D & E & F & G) H. repeat (split; try easy). constructor; easy. Qed.
  Lemma okc_addf s c f : okc s c -> isf s f -> ~ In f (cf c) -> okc s (addf f c).
  Proof using Type.
    intros (A & B & C & D & E & F & G) H N. split; [|split; [|repeat (split; try easy)]].
    - apply Forall_app; split; [easy|]. constructor; easy.
    - simpl. apply NoDup_rev in B. rewrite <- (rev_involutive (_ ++ _)). apply NoDup_rev. rewrite rev_app_distr. simpl.
      constructor; [rewrite <- in_rev; easy|easy].
    - simpl. eapply Forall_impl; [|exact G]. intros [F0 is] (H1 & H2 & H3). simpl in *. split; [|split; [|easy]].
      + rewrite (map_ext_in _ (fun i => nth i (cf c) 0%nat)); [easy|]. intros i Hi. rewrite Forall_forall in H2.
        apply app_nth1. apply H2; easy.
      + eapply Forall_impl; [|exact H2]. intros i Hi. simpl in *. rewrite app_length. simpl. lia.
  Qed.
  Lemma vals_addx v phi c en x X : vals v phi c en -> den_p v x = X -> vals v phi (addx x c) (pushx X en).
  Proof using Type. intros (A & B & C & D) <-. repeat (split; try easy). simpl. congruence. Qed.
  Lemma vals_adde v phi c en x X : vals v phi c en -> den_e v x = X -> vals v phi (adde x c) (pushe X en).
  Proof using Type. intros (A & B & C & D) <-. repeat (split; try easy). simpl. congruence. Qed.
  Lemma vals_addl v phi c en x X : vals v phi c en -> map (den_p v) x = X -> vals v phi (addl x c) (pushl X en).
  Proof using Type. intros (A & B & C & D & E) <-. repeat (split; try easy). simpl. congruence. Qed.
  Lemma vals_addm v phi c en x X : vals v phi c en -> map (den_e v) x = X -> vals v phi (addm x c) (pushm X en).
  Proof using Type. intros (A & B & C & D & E) <-. repeat (split; try easy). simpl. congruence. Qed.
  Lemma vals_addf v phi c en f F : vals v phi c en -> phi f = F -> vals v phi (addf f c) (pushf F en).
  Proof using Type. intros (A & B & C & D & E) <-. repeat (split; try easy). simpl. rewrite map_app. simpl. congruence. Qed.
  Lemma vals_f v phi c en i f : vals v phi c en -> nth_error (cf c) i = Some f -> nth i (vf en) rfun0 = phi f.
  Proof using Type.
    intros (A & _) H. rewrite <- A. apply nth_error_nth.
    rewrite nth_error_map, H. easy.
  Qed.

  (** ** Sequencing *)
  Lemma T_bind {B} (m : M B) (k : B -> M problem) s pb c b s' c' (R : nat -> env -> senv -> senv -> Prop) A' :
    Inv s -> m s = (Ok b, s') -> ext s s' -> St s' -> okc s' c' ->
    (forall d r v phi en, space d r v -> consistent v phi s' -> vals v phi c en ->
       exists en', R d r en en' /\ vals v phi c' en') ->
    (forall d r v phi en en', space d r v -> consistent v phi s -> vals v phi c en -> R d r en en' ->
       exists v' phi', space d r v' /\ agree s v v' /\ consistent v' phi' s' /\ vals v' phi' c' en') ->
    T (k b) s' pb c' A' ->
    T (bind m k) s pb c (fun d r en q => exists en', R d r en en' /\ A' d r en' q).
  Proof using Type.
    intros I Hm E S' Oc' HB HF HT HS Hc. destruct (HT S' Oc') as (p & sf & l & H1 & H2 & H3 & H4 & H5 & H6 & H7 & H8 & H9).
    exists p, sf, l. split; [rewrite (bind_ok _ _ _ _ _ Hm); easy|]. split; [eapply ext_trans; eauto|]. repeat (split; [easy|]).
    intros d r q. destruct (H9 d r q) as [BB WW]. split.
    - intros v phi en Hv Hcs Hvs Hh Hq. destruct (HB d r v phi en Hv) as (en' & HR & Hvs'); [|easy|].
      { eapply consistent_ext; [apply S'|exact H2|easy]. }
      exists en'. split; [easy|]. eapply BB; eauto.
    - intros v phi en Hv Hcs Hvs (en' & HR & HA). destruct (HF d r v phi en en' Hv Hcs Hvs HR) as (v1 & phi1 & Hv1 & Ha1 & Hc1 & Hvs1).
      destruct (WW v1 phi1 en' Hv1 Hc1 Hvs1 HA) as (v2 & phi2 & Hv2 & Ha2 & R2). exists v2, phi2. split; [easy|]. split; [|easy].
      exact (agree_trans s s' v v1 v2 E Ha1 Ha2).
  Qed.

  (** ** Points and expressions computed from known ones *)
  Definition derp (c : ctx) (p : point) (X : env -> senv -> vec) : Prop :=
    forall s, okc s c -> okp s p /\ forall v phi en, vals v phi c en -> den_p v p = X (v_env v) en.
  Definition dere (c : ctx) (e : expr) (X : nat -> env -> senv -> R) : Prop :=
    forall s, okc s c -> oke s e /\ forall v phi en, vals v phi c en -> den_e v e = X (v_dim v) (v_env v) en.
  Definition derl (c : ctx) (l : list point) (X : env -> senv -> list vec) : Prop :=
    forall s, okc s c -> Forall (okp s) l /\ forall v phi en, vals v phi c en -> map (den_p v) l = X (v_env v) en.
  Definition derm (c : ctx) (l : list expr) (X : nat -> env -> senv -> list R) : Prop :=
    forall s, okc s c -> Forall (oke s) l /\ forall v phi en, vals v phi c en -> map (den_e v) l = X (v_dim v) (v_env v) en.

  Lemma nth_map_eq {A B} (f : A -> B) l i a d : nth_error l i = Some a -> nth i (map f l) d = f a.
  Proof using Type. intros H. apply nth_error_nth. rewrite nth_error_map, H. easy. Qed.

  Lemma derp_var i c p : nth_error (cx c) i = Some p -> derp c p (fun _ en => nth i (vx en) vzero).
  Proof using Type.
    intros H s (_ & _ & C & _). split.
    - rewrite Forall_forall in C. apply C. eapply nth_error_In; eauto.
    - intros v phi en (_ & V & _). rewrite <- V. symmetry. apply nth_map_eq; easy.
  Qed.
  Lemma dere_var i c p : nth_error (ce c) i = Some p -> dere c p (fun _ _ en => nth i (ve en) 0).
  Proof using Type.
    intros H s (_ & _ & _ & C & _). split.
    - rewrite Forall_forall in C. apply C. eapply nth_error_In; eauto.
    - intros v phi en (_ & _ & V & _). rewrite <- V. symmetry. apply nth_map_eq; easy.
  Qed.
  Lemma derl_var i c p : nth_error (cl c) i = Some p -> derl c p (fun _ en => nth i (vl en) []).
  Proof using Type.
    intros H s (_ & _ & _ & _ & C & _). split.
    - rewrite Forall_forall in C. apply C. eapply nth_error_In; eauto.
    - intros v phi en (_ & _ & _ & V & _). rewrite <- V. symmetry. apply nth_map_eq; easy.
  Qed.
  Lemma derm_var i c p : nth_error (cm c) i = Some p -> derm c p (fun _ _ en => nth i (vm en) []).
  Proof using Type.
    intros H s (_ & _ & _ & _ & _ & C & _). split.
    - rewrite Forall_forall in C. apply C. eapply nth_error_In; eauto.
    - intros v phi en (_ & _ & _ & _ & V). rewrite <- V. symmetry. apply nth_map_eq; easy.
  Qed.
  Lemma padd_all p q : pt_all (fun x => In x P) p -> pt_all (fun x => In x P) q -> pt_all (fun x => In x P) (padd SY p q).
  Proof using OK. intros A B. unfold pt_all. simpl. apply dall_prune. apply (dall_merge OK); easy. Qed.
  Lemma okp_padd s p q : okp s p -> okp s q -> okp s (padd SY p q).
  Proof using OK. intros A B. split; [apply own_padd; [apply A|apply B]|apply padd_all; [apply A|apply B]]. Qed.
  Lemma okp_pscale s a p : symok P a -> okp s p -> okp s (pscale SY a p).
  Proof using OK. intros A B. split; [apply own_pscale, B|apply (pscale_all OK); [easy|apply B]]. Qed.
  Lemma symok_num q : symok P (Num q). Proof using Type. intros x []. Qed.
  Lemma okp_psub s p q : okp s p -> okp s q -> okp s (psub SY p q).
  Proof using OK. intros A B. apply okp_padd; [easy|]. apply okp_pscale; [apply symok_num|easy]. Qed.
  Lemma okp_wf s p : okp s p -> wf_p p. Proof using Type. intros [[H _] _]. easy. Qed.
  Lemma oke_wf s p : oke s p -> wf_e p. Proof using Type. intros [[H _] _]. easy. Qed.

  Lemma derp_zero c : derp c zero_point (fun _ _ => vzero).
  Proof using Type. intros s _. split; [apply okp_zero|]. intros. apply zero_point_den. Qed.
  Lemma derp_add c p q X Y : derp c p X -> derp c q Y -> derp c (padd SY p q) (fun r en => vadd (X r en) (Y r en)).
  Proof using OK.
    intros H K s Hc. destruct (H s Hc) as [H1 H2], (K s Hc) as [K1 K2]. split; [apply okp_padd; easy|].
    intros v phi en Hv. rewrite (padd_den SY OK) by (eapply okp_wf; eauto). erewrite H2, K2 by eauto. easy.
  Qed.
  Lemma derp_sub c p q X Y : derp c p X -> derp c q Y -> derp c (psub SY p q) (fun r en => vsub (X r en) (Y r en)).
  Proof using OK.
    intros H K s Hc. destruct (H s Hc) as [H1 H2], (K s Hc) as [K1 K2]. split; [apply okp_psub; easy|].
    intros v phi en Hv. rewrite (psub_den SY OK) by (eapply okp_wf; eauto). erewrite H2, K2 by eauto. easy.
  Qed.
  Lemma derp_scale c a p X : symok P a -> derp c p X -> derp c (pscale SY a p) (fun r en => vscal (ev r a) (X r en)).
  Proof using OK.
    intros Ha H s Hc. destruct (H s Hc) as [H1 H2]. split; [apply okp_pscale; easy|].
    intros v phi en Hv. rewrite (pscale_den SY OK). erewrite H2 by eauto. easy.
  Qed.
  Lemma derp_neg c p X : derp c p X -> derp c (pneg SY p) (fun r en => vopp (X r en)).
  Proof using OK.
    intros H s Hc. destruct (H s Hc) as [H1 H2]. split; [apply okp_pscale; [apply symok_num|easy]|].
    intros v phi en Hv. rewrite (pneg_den SY OK). erewrite H2 by eauto. easy.
  Qed.
  Lemma derp_divq c p q X : derp c p X -> derp c (pdivq SY p q) (fun r en => vscal (Q2R (Qred (/ q))) (X r en)).
  Proof using OK. intros H. apply (derp_scale c (Num (Qred (/ q))) p X); [apply symok_num|easy]. Qed.

  Lemma oke_eadd s a b : oke s a -> oke s b -> oke s (eadd SY a b).
  Proof using OK.
    intros A B. split; [apply own_eadd; [apply A|apply B]|]. split; [apply (eadd_all OK); [apply A|apply B]|].
    apply (no_const_eadd SY OK); [apply A|apply B].
  Qed.
  Lemma oke_escale s a b : symok P a -> oke s b -> oke s (escale SY a b).
  Proof using OK.
    intros A B. split; [apply own_escale, B|]. split; [apply (escale_all OK); [apply A|apply B]|]. apply (no_const_escale SY OK), B.
  Qed.
  Lemma oke_pmul s p q : okp s p -> okp s q -> oke s (pmul SY p q).
  Proof using OK.
    intros A B. split; [apply own_pmul; [apply A|apply B]|]. split; [apply (pmul_all OK); [apply A|apply B]|apply no_const_pmul].
  Qed.
  Lemma dere_add c a b X Y : dere c a X -> dere c b Y -> dere c (eadd SY a b) (fun d r en => X d r en + Y d r en).
  Proof using OK.
    intros H K s Hc. destruct (H s Hc) as [H1 H2], (K s Hc) as [K1 K2]. split; [apply oke_eadd; easy|].
    intros v phi en Hv. rewrite (eadd_den SY OK) by (eapply oke_wf; eauto). erewrite H2, K2 by eauto. easy.
  Qed.
  Lemma dere_sub c a b X Y : dere c a X -> dere c b Y -> dere c (esub SY a b) (fun d r en => X d r en - Y d r en).
  Proof using OK.
    intros H K s Hc. destruct (H s Hc) as [H1 H2], (K s Hc) as [K1 K2]. split.
    - apply oke_eadd; [easy|]. apply oke_escale; [apply symok_num|easy].
    - intros v phi en Hv. rewrite (esub_den SY OK) by (eapply oke_wf; eauto). erewrite H2, K2 by eauto. easy.
  Qed.
  Lemma dere_scale c a b X : symok P a -> dere c b X -> dere c (escale SY a b) (fun d r en => ev r a * X d r en).
  Proof using OK.
    intros Ha H s Hc. destruct (H s Hc) as [H1 H2]. split; [apply oke_escale; easy|].
    intros v phi en Hv. rewrite (escale_den SY OK). erewrite H2 by eauto. easy.
  Qed.
  Lemma dere_mul c p q X Y : derp c p X -> derp c q Y -> dere c (pmul SY p q) (fun d r en => dot d (X r en) (Y r en)).
  Proof using OK.
    intros H K s Hc. destruct (H s Hc) as [H1 H2], (K s Hc) as [K1 K2]. split; [apply oke_pmul; easy|].
    intros v phi en Hv. rewrite (pmul_den SY OK) by (eapply okp_wf; eauto). erewrite H2, K2 by eauto. easy.
  Qed.
  Lemma dere_sq c p X : derp c p X -> dere c (psq SY p) (fun d r en => nsq d (X r en)).
  Proof using OK. intros H. exact (dere_mul c p p X X H H). Qed.

  Lemma symok_mul a b : symok P a -> symok P b -> symok P (smul a b).
  Proof using Type. intros A B x Hx. apply smul_free in Hx as [Hx|Hx]; [apply A|apply B]; easy. Qed.
  Lemma symok_add a b : symok P a -> symok P b -> symok P (sadd a b).
  Proof using Type. intros A B x Hx. apply sadd_free in Hx as [Hx|Hx]; [apply A|apply B]; easy. Qed.
  Lemma symok_neg a : symok P a -> symok P (sneg a).
  Proof using Type. intros A. apply symok_mul; [apply symok_num|easy]. Qed.
  Lemma symok_sub a b : symok P a -> symok P b -> symok P (ssub a b).
  Proof using Type. intros A B. apply symok_add; [easy|]. apply symok_neg; easy. Qed.
  Lemma symok_div a q : symok P a -> symok P (sdivq a q).
  Proof using Type. intros A. apply symok_mul; [easy|apply symok_num]. Qed.
  Lemma symok_sym x : In x P -> symok P (Sym x).
  Proof using Type. intros H y [<-|[]]. easy. Qed.
  (** ** Rules *)
  Lemma T_point (k : point -> M problem) s pb c A' :
    (forall x s', pruned x -> T (k x) s' pb (addx x c) A') ->
    T (bind set_initial_point k) s pb c (fun d r en q => exists x, in_Rd d x /\ A' d r (pushx x en) q).
  Proof using Type.
    intros H HS Hc. destruct (rule_point P s HS) as (x & s' & R & S' & E & Ox & K & Nx).
    refine (T_iff _ _ _ _ _ _ _ (T_bind set_initial_point k s pb c (leaf_point x) s' (addx (leaf_point x) c)
      (fun d r en en' => exists X, in_Rd d X /\ en' = pushx X en) A' (proj1 HS) R E S' _ _ _ (H _ _ (leaf_point_pruned x))) HS Hc).
    - intros d r en q. split; [intros (en' & (X & HX & ->) & HA); eauto|intros (X & HX & HA); eauto].
    - apply okc_addx; [eapply okc_ext; eauto|easy].
    - intros d r v phi en Hv Hcs Hvs. eexists. split; [exists (den_p v (leaf_point x)); split; [eapply space_p; eauto|reflexivity]|].
      apply vals_addx; easy.
    - intros d r v phi en en' Hv Hcs Hvs (X & HX & ->). exists (set_pt v x X), phi. split; [apply set_pt_space; easy|].
      assert (Ha : agree s v (set_pt v x X)) by (apply set_pt_agree; easy). split; [easy|]. split.
      + apply (consistent_keepf s s' _ phi K). eapply consistent_agree; eauto. apply HS.
      + apply vals_addx; [eapply vals_agree; eauto|apply set_pt_get].
  Qed.

  Lemma T_def mu L (k : nat -> M problem) s pb c A' : good_class mu L ->
    (forall f s', T (k f) s' pb (addf f c) A') ->
    T (bind (def_function mu L) k) s pb c (fun d r en q => exists phi, function_class d mu L phi /\ A' d r (pushf phi en) q).
  Proof using Type.
    intros HC H HS Hc. destruct (rule_def P s mu L HS HC) as (f & s' & R & S' & E & F & Ho & Hf & Nf & B & W).
    assert (Nc : ~ In f (cf c)).
    { intros Hin. destruct Hc as (A & _). rewrite Forall_forall in A. apply Nf, (A f Hin). }
    refine (T_iff _ _ _ _ _ _ _ (T_bind (def_function mu L) k s pb c f s' (addf f c)
      (fun d r en en' => exists X, function_class d mu L X /\ en' = pushf X en) A' (proj1 HS) R E S' _ _ _ (H _ _)) HS Hc).
    - intros d r en q. split; [intros (en' & (X & HX & ->) & HA); eauto|intros (X & HX & HA); eauto].
    - apply okc_addf; [eapply okc_ext; eauto|easy|easy].
    - intros d r v phi en Hv Hcs Hvs. eexists. split; [exists (phi f); split; [|reflexivity]|].
      + rewrite <- (proj1 Hv). apply B; easy.
      + apply vals_addf; easy.
    - intros d r v phi en en' Hv Hcs Hvs (X & HX & ->). exists v, (fun h => if Nat.eqb h f then X else phi h). split; [easy|]. split; [apply agree_refl|]. split.
      + apply W; [easy|]. rewrite (proj1 Hv). easy.
      + apply vals_addf; [|rewrite Nat.eqb_refl; easy]. destruct Hvs as (V1 & V2). split; [|easy]. rewrite <- V1.
        apply map_ext_in. intros h Hh. destruct (Nat.eqb h f) eqn:Eh; [|easy]. apply Nat.eqb_eq in Eh. subst h. easy.
  Qed.

  Lemma T_oracle i f p X (k : point * expr -> M problem) s pb c A' :
    nth_error (cf c) i = Some f -> derp c p X -> pruned p ->
    (forall y e s', T (k (y, e)) s' pb (adde e (addx y c)) A') ->
    T (bind (oracle SY f p) k) s pb c (fun d r en q => exists g z, query d (nth i (vf en) rfun0) (X r en) g z /\
                                                    A' d r (pushe z (pushx g en)) q).
  Proof using OK.
    intros Hi HX Hp H HS Hc.
    assert (Hf : isf s f). { destruct Hc as (A & _). rewrite Forall_forall in A. apply A. eapply nth_error_In; eauto. }
    destruct (HX s Hc) as [Op Dp].
    destruct (rule_oracle OK P s f p HS Hf Op Hp) as (g & e & s' & R & S' & E & F & _ & Og & Oe & B & W).
    refine (T_iff _ _ _ _ _ _ _ (T_bind (oracle SY f p) k s pb c (g, e) s' (adde e (addx g c))
      (fun d r en en' => exists G Z, query d (nth i (vf en) rfun0) (X r en) G Z /\ en' = pushe Z (pushx G en)) A' (proj1 HS) R E S' _ _ _ (H _ _ _)) HS Hc).
    - intros d r en q. split; [intros (en' & (G & Z & HQ & ->) & HA); eauto|intros (G & Z & HQ & HA); eauto 6].
    - apply okc_adde; [apply okc_addx; [eapply okc_ext; eauto|easy]|easy].
    - intros d r v phi en Hv Hcs Hvs. eexists. split; [exists (den_p v g), (den_e v e); split; [|reflexivity]|].
      + rewrite (vals_f v phi c en i f Hvs Hi). rewrite <- (proj1 (proj2 Hv)). rewrite <- (Dp v phi en Hvs). apply (B d r); easy.
      + apply vals_adde; [apply vals_addx; easy|easy].
    - intros d r v phi en en' Hv Hcs Hvs (G & Z & HQ & ->).
      rewrite (vals_f v phi c en i f Hvs Hi), <- (proj1 (proj2 Hv)), <- (Dp v phi en Hvs) in HQ.
      destruct (W d r v phi G Z Hv Hcs HQ) as (v' & Hv' & Ha & Hc' & HG & HZ). exists v', phi. split; [easy|]. split; [easy|]. split; [easy|].
      apply vals_adde; [apply vals_addx; [eapply vals_agree; eauto|easy]|easy].
  Qed.

  Lemma T_stat i f (k : point * point * expr -> M problem) s pb c A' :
    nth_error (cf c) i = Some f ->
    (forall x e s', pruned x -> T (k (x, zero_point, e)) s' pb (adde e (addx x c)) A') ->
    T (bind (stationary_point SY f) k) s pb c (fun d r en q => exists x z, in_Rd d x /\ query d (nth i (vf en) rfun0) x vzero z /\
                                                    A' d r (pushe z (pushx x en)) q).
  Proof using OK.
    intros Hi H HS Hc.
    assert (Hf : isf s f). { destruct Hc as (A & _). rewrite Forall_forall in A. apply A. eapply nth_error_In; eauto. }
    destruct (rule_stationary OK P s f HS Hf) as (x & e & s' & R & S' & E & F & Og & Oe & _ & B & W).
    refine (T_iff _ _ _ _ _ _ _ (T_bind (stationary_point SY f) k s pb c (leaf_point x, zero_point, e) s' (adde e (addx (leaf_point x) c))
      (fun d r en en' => exists G Z, (in_Rd d G /\ query d (nth i (vf en) rfun0) G vzero Z) /\ en' = pushe Z (pushx G en)) A' (proj1 HS) R E S' _ _ _ (H _ _ _ (leaf_point_pruned x))) HS Hc).
    - intros d r en q. split; [intros (en' & (G & Z & [H1 H2] & ->) & HA); eauto 6|intros (G & Z & H1 & H2 & HA)].
      eexists. split; [exists G, Z; split; [split; easy|reflexivity]|easy].
    - apply okc_adde; [apply okc_addx; [eapply okc_ext; eauto|easy]|easy].
    - intros d r v phi en Hv Hcs Hvs. eexists. split; [exists (den_p v (leaf_point x)), (den_e v e); split; [|reflexivity]|].
      + rewrite (vals_f v phi c en i f Hvs Hi). apply (B d r); easy.
      + apply vals_adde; [apply vals_addx; easy|easy].
    - intros d r v phi en en' Hv Hcs Hvs (G & Z & [HG0 HQ] & ->).
      rewrite (vals_f v phi c en i f Hvs Hi) in HQ.
      destruct (W d r v phi G Z Hv Hcs HG0 HQ) as (v' & Hv' & Ha & Hc' & HG & HZ). exists v', phi. split; [easy|]. split; [easy|]. split; [easy|].
      apply vals_adde; [apply vals_addx; [eapply vals_agree; eauto|easy]|easy].
  Qed.

  Lemma T_prox i f p a X (k : point * point * expr -> M problem) s pb c A' :
    nth_error (cf c) i = Some f -> derp c p X -> symok P a ->
    (forall x g e s', pruned x -> T (k (x, g, e)) s' pb (adde e (addx g (addx x c))) A') ->
    T (bind (proximal_step SY p f a) k) s pb c (fun d r en q =>
      exists x g z, proxed d (nth i (vf en) rfun0) (ev r a) (X r en) x g z /\ A' d r (pushe z (pushx g (pushx x en))) q).
  Proof using OK.
    intros Hi HX Ha0 H HS Hc.
    assert (Hf : isf s f). { destruct Hc as (A & _). rewrite Forall_forall in A. apply A. eapply nth_error_In; eauto. }
    destruct (HX s Hc) as [Op Dp].
    destruct (rule_prox OK P s f p a HS Hf Op Ha0) as (x & g & e & s' & R & S' & E & F & Ox & Og & Oe & Px & B & W).
    refine (T_iff _ _ _ _ _ _ _ (T_bind (proximal_step SY p f a) k s pb c (x, g, e) s' (adde e (addx g (addx x c)))
      (fun d r en en' => exists Y G Z, proxed d (nth i (vf en) rfun0) (ev r a) (X r en) Y G Z /\ en' = pushe Z (pushx G (pushx Y en))) A' (proj1 HS) R E S' _ _ _ (H _ _ _ _ Px)) HS Hc).
    - intros d r en q. split; [intros (en' & (Y & G & Z & HQ & ->) & HA); eauto|intros (Y & G & Z & HQ & HA); eauto 8].
    - apply okc_adde; [apply okc_addx; [apply okc_addx; [eapply okc_ext; eauto|easy]|easy]|easy].
    - intros d r v phi en Hv Hcs Hvs. eexists. split; [exists (den_p v x), (den_p v g), (den_e v e); split; [|reflexivity]|].
      + rewrite (vals_f v phi c en i f Hvs Hi). rewrite <- (proj1 (proj2 Hv)) at 2. rewrite <- (Dp v phi en Hvs). apply (B d r); easy.
      + apply vals_adde; [apply vals_addx; [apply vals_addx|]; easy|easy].
    - intros d r v phi en en' Hv Hcs Hvs (Y & G & Z & HQ & ->).
      rewrite (vals_f v phi c en i f Hvs Hi) in HQ. rewrite <- (proj1 (proj2 Hv)) in HQ at 2. rewrite <- (Dp v phi en Hvs) in HQ.
      destruct (W d r v phi Y G Z Hv Hcs HQ) as (v' & Hv' & Ha & Hc' & HY & HG & HZ). exists v', phi. split; [easy|]. split; [easy|]. split; [easy|].
      apply vals_adde; [apply vals_addx; [apply vals_addx; [eapply vals_agree; eauto|easy]|easy]|easy].
  Qed.

  (** sums of functions *)
  Lemma idx_sums s c (is : list nat) : okc s c -> Forall (fun i => (i < List.length (cf c))%nat) is -> NoDup is ->
    Forall (isf s) (map (fun i => nth i (cf c) 0%nat) is) /\ NoDup (map (fun i => nth i (cf c) 0%nat) is).
  Proof using Type.
    intros (A & B & _) Hi Hn. rewrite Forall_forall in Hi, A. split.
    - apply Forall_forall. intros f Hf. apply in_map_iff in Hf as (i & <- & Hf). apply A, nth_In, Hi, Hf.
    - induction is as [|i is IH]; [constructor|]. inversion_clear Hn as [|? ? N1 N2]. simpl. constructor.
      + intros H. apply in_map_iff in H as (j & E & Hj). apply N1. replace i with j; [easy|].
        apply (proj1 (NoDup_nth (cf c) 0%nat) B); [apply Hi; simpl; auto|apply Hi; simpl; auto|easy].
      + apply IH; [|easy]. intros j Hj. apply Hi. simpl; auto.
  Qed.
  Lemma nth_err i (l : list nat) f : nth_error l i = Some f -> nth i l 0%nat = f /\ (i < List.length l)%nat.
  Proof using Type. intros H. split; [apply nth_error_nth; easy|]. apply nth_error_Some. congruence. Qed.

  Lemma T_fn_add F f (is : list nat) j (k : nat -> M problem) s pb c A' :
    nth_error (cf c) j = Some f ->
    (exists i, nth_error (cf c) i = Some F /\ is = [i]) \/ (exists n, nth_error (cs c) n = Some (F, is)) ->
    ~ In j is ->
    (forall G s', T (k G) s' pb (adds G (is ++ [j]) c) A') ->
    T (bind (fn_add SY F f) k) s pb c A'.
  Proof using Type.
    intros Hj HF Hn H HS Hc. destruct (nth_err _ _ _ Hj) as [Hj1 Hj2].
    assert (Hf : isf s f). { destruct Hc as (A & _). rewrite Forall_forall in A. apply A. eapply nth_error_In; eauto. }
    assert (HF' : sums s F (map (fun i => nth i (cf c) 0%nat) is) /\ Forall (fun i => (i < List.length (cf c))%nat) is /\ NoDup is).
    { destruct HF as [(i & Hi & ->)|(n & Hi)].
      - destruct (nth_err _ _ _ Hi) as [Hi1 Hi2]. split; [|split; [constructor; [easy|constructor]|constructor; [intros []|constructor]]].
        left. simpl. rewrite Hi1. split; [|easy]. destruct Hc as (A & _). rewrite Forall_forall in A. apply A. eapply nth_error_In; eauto.
      - destruct Hc as (_ & _ & _ & _ & _ & _ & C). rewrite Forall_forall in C. apply (C (F, is)). eapply nth_error_In; eauto. }
    destruct HF' as (F1 & F2 & F3). destruct (idx_sums s c is Hc F2 F3) as [G1 G2].
    destruct (rule_fn_add (SY:=SY) P s F _ f HS F1 G1 Hf G2) as (G & s' & R & S' & E & HG & NG & C).
    { intros Hin. apply in_map_iff in Hin as (i & Ei & Hi). apply Hn. replace j with i; [easy|].
      rewrite Forall_forall in F2. destruct Hc as (_ & B & _). apply (proj1 (NoDup_nth (cf c) 0%nat) B); [apply F2; easy|easy|congruence]. }
    refine (T_iff _ _ _ _ _ _ _ (T_bind (fn_add SY F f) k s pb c G s' (adds G (is ++ [j]) c)
      (fun d r en en' => en' = en) A' (proj1 HS) R E S' _ _ _ (H _ _)) HS Hc).
    - intros d r en q. split; [intros (en' & -> & HA); easy|eauto].
    - assert (Hc' : okc s' c) by (eapply okc_ext; eauto). destruct Hc' as (A1 & A2 & A3 & A4 & A5 & A6 & A7).
      repeat (split; [easy|]). simpl. constructor; [|easy]. simpl. split; [right|split].
      + rewrite map_app. simpl. rewrite Hj1. easy.
      + apply Forall_app. split; [easy|]. constructor; [easy|constructor].
      + apply NoDup_rev in F3. rewrite <- (rev_involutive (_ ++ _)). apply NoDup_rev. rewrite rev_app_distr. simpl.
        constructor; [rewrite <- in_rev; easy|easy].
    - intros d r v phi en Hv Hcs Hvs. exists en. split; [easy|]. exact Hvs.
    - intros d r v phi en en' Hv Hcs Hvs ->. exists v, phi. split; [easy|]. split; [apply agree_refl|]. split; [apply C; easy|exact Hvs].
  Qed.

  Lemma vals_fs v phi c en (is : list nat) : vals v phi c en -> Forall (fun i => (i < List.length (cf c))%nat) is ->
    map phi (map (fun i => nth i (cf c) 0%nat) is) = map (fun i => nth i (vf en) rfun0) is.
  Proof using Type.
    intros (A & _) H. rewrite map_map. apply map_ext_in. intros i Hi. rewrite <- A. rewrite Forall_forall in H.
    symmetry. rewrite (nth_indep _ rfun0 (phi 0%nat)) by (rewrite map_length; apply H; easy). apply map_nth.
  Qed.

  Lemma T_stat_sum F is n (k : point * point * expr -> M problem) s pb c A' :
    nth_error (cs c) n = Some (F, is) -> (2 <= List.length is)%nat ->
    (forall x e s', pruned x -> T (k (x, zero_point, e)) s' pb (adde e (addx x c)) A') ->
    T (bind (stationary_point SY F) k) s pb c (fun d r en q =>
      exists x z, optimal d (map (fun i => nth i (vf en) rfun0) is) x z /\ A' d r (pushe z (pushx x en)) q).
  Proof using OK.
    intros Hi H2 H HS Hc.
    assert (HF' : sums s F (map (fun i => nth i (cf c) 0%nat) is) /\ Forall (fun i => (i < List.length (cf c))%nat) is /\ NoDup is).
    { destruct Hc as (_ & _ & _ & _ & _ & _ & C). rewrite Forall_forall in C. apply (C (F, is)). eapply nth_error_In; eauto. }
    destruct HF' as (F1 & F2 & F3). destruct (idx_sums s c is Hc F2 F3) as [G1 G2].
    destruct F1 as [[_ F1]|F1]. { apply (f_equal (@List.length nat)) in F1. rewrite map_length in F1. simpl in F1. lia. }
    destruct (rule_stationary_sum OK P s F _ HS F1 G1) as (x & e & s' & R & S' & E & F0 & Og & Oe & B & W).
    { destruct is; simpl in *; [lia|easy]. }
    refine (T_iff _ _ _ _ _ _ _ (T_bind (stationary_point SY F) k s pb c (leaf_point x, zero_point, e) s' (adde e (addx (leaf_point x) c))
      (fun d r en en' => exists G Z, optimal d (map (fun i => nth i (vf en) rfun0) is) G Z /\ en' = pushe Z (pushx G en)) A' (proj1 HS) R E S' _ _ _ (H _ _ _ (leaf_point_pruned x))) HS Hc).
    - intros d r en q. split; [intros (en' & (G & Z & HQ & ->) & HA); eauto|intros (G & Z & HQ & HA); eauto 6].
    - apply okc_adde; [apply okc_addx; [eapply okc_ext; eauto|easy]|easy].
    - intros d r v phi en Hv Hcs Hvs. eexists. split; [exists (den_p v (leaf_point x)), (den_e v e); split; [|reflexivity]|].
      + rewrite <- (vals_fs v phi c en is Hvs F2). apply (B d r); easy.
      + apply vals_adde; [apply vals_addx; easy|easy].
    - intros d r v phi en en' Hv Hcs Hvs (G & Z & HQ & ->).
      rewrite <- (vals_fs v phi c en is Hvs F2) in HQ.
      destruct (W d r v phi G Z Hv Hcs HQ) as (v' & Hv' & Ha & Hc' & HG & HZ). exists v', phi. split; [easy|]. split; [easy|]. split; [easy|].
      apply vals_adde; [apply vals_addx; [eapply vals_agree; eauto|easy]|easy].
  Qed.

  (** local definitions *)
  Lemma T_same (k : M problem) s pb c c' (R : nat -> env -> senv -> senv -> Prop) A' :
    (okc s c -> okc s c') ->
    (forall d r v phi en, okc s c -> space d r v -> vals v phi c en -> exists en', R d r en en' /\ vals v phi c' en') ->
    (forall d r v phi en en', okc s c -> space d r v -> vals v phi c en -> R d r en en' -> vals v phi c' en') ->
    T k s pb c' A' -> T k s pb c (fun d r en q => exists en', R d r en en' /\ A' d r en' q).
  Proof using Type.
    intros Oc HB HF HT HS Hc. destruct (HT HS (Oc Hc)) as (p & sf & l & H1 & H2 & H3 & H4 & H5 & H6 & H7 & H8 & H9).
    exists p, sf, l. repeat (split; [easy|]). intros d r q. destruct (H9 d r q) as [BB WW]. split.
    - intros v phi en Hv Hcs Hvs Hh Hq. destruct (HB d r v phi en Hc Hv Hvs) as (en' & HR & Hvs'). exists en'. split; [easy|]. eapply BB; eauto.
    - intros v phi en Hv Hcs Hvs (en' & HR & HA). eapply WW; eauto.
  Qed.
  Lemma T_let (k : point -> M problem) e X s pb c A' : derp c e X ->
    (forall x, x = e -> T (k x) s pb (addx x c) A') ->
    T (k e) s pb c (fun d r en q => exists x, x = X r en /\ A' d r (pushx x en) q).
  Proof using Type.
    intros HX H.
    refine (T_iff _ _ _ _ _ _ _ (T_same (k e) s pb c (addx e c) (fun d r en en' => en' = pushx (X r en) en) A' _ _ _ (H e eq_refl))).
    - intros d r en q. split; [intros (en' & -> & HA); eauto|intros (x & -> & HA); eauto].
    - intros Hc. apply okc_addx; [easy|]. apply HX; easy.
    - intros d r v phi en Hc Hv Hvs. eexists. split; [reflexivity|]. apply vals_addx; [easy|].
      rewrite (proj2 (HX s Hc) v phi en Hvs), (proj1 (proj2 Hv)). easy.
    - intros d r v phi en en' Hc Hv Hvs ->. apply vals_addx; [easy|].
      rewrite (proj2 (HX s Hc) v phi en Hvs), (proj1 (proj2 Hv)). easy.
  Qed.
  Lemma T_lete (k : expr -> M problem) e X s pb c A' : dere c e X ->
    (forall x, T (k x) s pb (adde x c) A') ->
    T (k e) s pb c (fun d r en q => exists x, x = X d r en /\ A' d r (pushe x en) q).
  Proof using Type.
    intros HX H.
    refine (T_iff _ _ _ _ _ _ _ (T_same (k e) s pb c (adde e c) (fun d r en en' => en' = pushe (X d r en) en) A' _ _ _ (H e))).
    - intros d r en q. split; [intros (en' & -> & HA); eauto|intros (x & -> & HA); eauto].
    - intros Hc. apply okc_adde; [easy|]. apply HX; easy.
    - intros d r v phi en Hc Hv Hvs. eexists. split; [reflexivity|]. apply vals_adde; [easy|].
      rewrite (proj2 (HX s Hc) v phi en Hvs), (proj1 (proj2 Hv)), (proj1 Hv). easy.
    - intros d r v phi en en' Hc Hv Hvs ->. apply vals_adde; [easy|].
      rewrite (proj2 (HX s Hc) v phi en Hvs), (proj1 (proj2 Hv)), (proj1 Hv). easy.
  Qed.
  Lemma T_letl (k : list point -> M problem) e X s pb c A' : derl c e X ->
    (forall x, x = e -> T (k x) s pb (addl x c) A') ->
    T (k e) s pb c (fun d r en q => exists x, x = X r en /\ A' d r (pushl x en) q).
  Proof using Type.
    intros HX H.
    refine (T_iff _ _ _ _ _ _ _ (T_same (k e) s pb c (addl e c) (fun d r en en' => en' = pushl (X r en) en) A' _ _ _ (H e eq_refl))).
    - intros d r en q. split; [intros (en' & -> & HA); eauto|intros (x & -> & HA); eauto].
    - intros Hc. apply okc_addl; [easy|]. apply HX; easy.
    - intros d r v phi en Hc Hv Hvs. eexists. split; [reflexivity|]. apply vals_addl; [easy|].
      rewrite (proj2 (HX s Hc) v phi en Hvs), (proj1 (proj2 Hv)). easy.
    - intros d r v phi en en' Hc Hv Hvs ->. apply vals_addl; [easy|].
      rewrite (proj2 (HX s Hc) v phi en Hvs), (proj1 (proj2 Hv)). easy.
  Qed.

  (** [problem.add_constraint(Constraint((p)**2, "equality"))] *)
  Lemma T_equality (k : problem -> M problem) p X s pb c A' : derp c p X ->
    T (k (add_constraint pb (mkConstr (psq SY p) Equality))) s (add_constraint pb (mkConstr (psq SY p) Equality)) c A' ->
    T (bind (add_equality pb (psq SY p)) k) s pb c (fun d r en q => X r en = vzero /\ A' d r en q).
  Proof using OK.
    intros HX HT HS Hc. destruct (HT HS Hc) as (p0 & sf & l & H1 & H2 & H3 & H4 & H5 & H6 & H7 & H8 & H9).
    destruct (HX s Hc) as [Op Dp]. set (e := psq SY p) in *.
    assert (He : forall d r v phi en, space d r v -> vals v phi c en -> (den_e v e = 0 <-> X r en = vzero)).
    { intros d r v phi en Hv Hvs. unfold e, psq. rewrite (pmul_den SY OK) by apply (okp_wf s p Op).
      rewrite (Dp v phi en Hvs), (proj1 (proj2 Hv)), (proj1 Hv).
      assert (Hin : in_Rd d (X r en)).
      { rewrite <- (proj1 (proj2 Hv)), <- (Dp v phi en Hvs). eapply space_p; eauto. }
      split; [apply in_Rd_nsq0; easy|]. intros ->. rewrite dot_zero_l. easy. }
    assert (Oe : oke s e) by (apply oke_pmul; easy).
    exists p0, sf, (mkConstr e Equality :: l). split; [exact H1|]. split; [easy|]. split; [easy|]. split; [exact H4|].
    split; [rewrite H5; simpl; rewrite <- app_assoc; easy|].
    split; [constructor; [eapply oke_ext; eauto|easy]|]. split; [easy|]. split; [easy|].
    intros d r q. destruct (H9 d r q) as [BB WW]. split.
    - intros v phi en Hv Hcs Hvs Hh Hq. split.
      + apply (He d r v phi en Hv Hvs). apply (Hh (mkConstr e Equality)). simpl; auto.
      + apply (BB v phi en); try easy. intros c0 Hc0. apply Hh. simpl; auto.
    - intros v phi en Hv Hcs Hvs [Hz HA]. destruct (WW v phi en Hv Hcs Hvs HA) as (v' & phi' & V1 & Va & V2 & V3 & V4).
      exists v', phi'. split; [easy|]. split; [easy|]. split; [easy|]. split; [|easy]. intros c0 [<-|Hc0]; [|apply V3; easy]. simpl.
      rewrite (agree_e s v v' e Va (proj1 Oe)). apply (He d r v phi en Hv Hvs). easy.
  Qed.

  (** the metric *)
  Lemma T_ret e X s pb c : dere c e X ->
    T (ret (set_performance_metric pb e)) s pb c (fun d r en q => q = X d r en).
  Proof using Type.
    intros HX HS Hc. destruct (HX s Hc) as [Oe De]. exists (set_performance_metric pb e), s, []. split; [easy|]. split; [apply ext_refl|].
    split; [easy|]. split; [easy|]. split; [simpl; rewrite app_nil_r; easy|]. split; [constructor|]. split; [exists e; easy|].
    split; [easy|]. intros d r q. split.
    - intros v phi en Hv Hcs Hvs _ (m & [= <-] & <-). rewrite (De v phi en Hvs), (proj1 Hv), (proj1 (proj2 Hv)). easy.
    - intros v phi en Hv Hcs Hvs ->. exists v, phi. split; [easy|]. split; [apply agree_refl|]. split; [easy|]. split; [intros c0 []|].
      exists e. split; [easy|]. rewrite (De v phi en Hvs), (proj1 Hv), (proj1 (proj2 Hv)). easy.
  Qed.
End T.
