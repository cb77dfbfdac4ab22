(** Strictly feasible data for dual decomposition. *)
From Coq Require Import List Arith Bool String QArith Reals Qreals Lia Lra FunctionalExtensionality.
From Verif Require Import Prelude PreludeFacts Sympy SympyFacts AlgebraModel Denote AlgebraFacts FunctionModel CircuitModel SymSpec
  Spec SpecFacts ClassSpec CertSpec StateSpec StateFacts CertFacts FunctionSpec FunctionFacts FunctionFacts2
  SymbolFacts SolverSpec BuilderModel BuilderSpec BuildsSpec BuilderLogic BuilderT BuilderRun BuilderList BuilderProof BuilderListProof Examples BuilderExamples
  DualitySpec DualityProps DualityExamples StrictSpec StrictProps StrictSum StrictBuild StrictMulti StrictNet StrictLoop.
Import ListNotations.
Local Open Scope R_scope.

(** one more point for each of the functions [is] *)
Fixpoint appends {A} (is : list nat) (xs : list A) (rho : list (list A)) : list (list A) :=
  match is, xs with i :: is', x :: xs' => appends is' xs' (upd i (fun l => l ++ [x]) rho) | _, _ => rho end.
Lemma upd_app {A} (g : A -> A) a : forall l m, upd (List.length l) g (l ++ a :: m) = l ++ g a :: m.
Proof. induction l as [|b l IH]; intros m; [reflexivity|]. simpl. rewrite IH. reflexivity. Qed.
Lemma appends_app {A} : forall (r2 : list (list A)) r1 xs, List.length xs = List.length r2 ->
  appends (seq (List.length r1) (List.length r2)) xs (r1 ++ r2) = r1 ++ map2 (fun l x => l ++ [x]) r2 xs.
Proof.
  induction r2 as [|a r2 IH]; intros r1 [|x xs] H; try discriminate H; [reflexivity|]. simpl. rewrite upd_app.
  specialize (IH (r1 ++ [a ++ [x]]) xs ltac:(simpl in H; lia)). rewrite app_length in IH. simpl in IH. rewrite Nat.add_1_r, <- !app_assoc in IH. exact IH.
Qed.
Lemma appends_seq {A} n (rho : list (list A)) xs : List.length rho = n -> List.length xs = n ->
  appends (seq 0 n) xs rho = map2 (fun l x => l ++ [x]) rho xs.
Proof. intros <- H. exact (appends_app rho [] xs H). Qed.

Section D.
  Context {SY : sympy} (OK : sympy_ok SY).
  Variable P : list string.
  Notation U := (U P).

  Lemma U_imp_v bs k s c (A A' : env -> senv -> list (list vec) -> Prop) :
    (forall r v phi en rho, okc P s c -> space 1 r v -> vals v phi c en -> A' r en rho -> A r en rho) -> U bs k s c A -> U bs k s c A'.
  Proof using Type.
    intros H HU HS Hc Hv Hb. destruct (HU HS Hc Hv Hb) as (p & sf & K1 & K2 & K3 & K4). exists p, sf. repeat (split; [assumption|]).
    intros r v phi en Sv Cs Cu Vs HA. exact (K4 r v phi en Sv Cs Cu Vs (H _ _ _ _ _ Hc Sv Vs HA)).
  Qed.
  Lemma U_letl bs (k : list point -> M problem) e X s c A' : derl P c e X ->
    (forall x, x = e -> U bs (k x) s (addl x c) A') ->
    U bs (k e) s c (fun r en rho => A' r (pushl (X r en) en) rho).
  Proof using Type.
    intros HX H HS Hc Hv Hb. destruct (HX s Hc) as [Op Dp]. destruct (H e eq_refl HS) as (p0 & sf & K1 & K2 & K3 & K4).
    { apply okc_addl; assumption. } { exact Hv. } { exact Hb. }
    exists p0, sf. split; [exact K1|]. split; [exact K2|]. split; [exact K3|].
    intros r v phi en Sv Cs Cu Vs HA. apply (K4 r v phi (pushl (X r en) en) Sv Cs Cu); [|exact HA].
    apply vals_addl; [exact Vs|]. rewrite (Dp v phi en Vs), (proj1 (proj2 Sv)). reflexivity.
  Qed.
  Lemma xrecs_conj s f g x s' : St P s -> isf s f -> okp P s g -> subgrad_conjugate SY g f s = (Ok x, s') ->
    (forall h v, h <> f -> xrecs v s' h = xrecs v s h) /\ forall v, xrecs v s' f = xrecs v s f ++ [den_p v x].
  Proof using OK.
    intros HS Hf Og R. destruct (two_new_ok P s HS) as (x0 & y0 & s1 & s2 & R1 & R2 & S2 & E2 & K2 & Ox & Oy & Nx & Ny).
    assert (Hf2 := isf_ext s s2 f E2 Hf). assert (Og2 := okp_ext P s s2 g E2 Og).
    destruct (rule_add OK P s2 f (leaf_point x0) g (leaf_expr y0) S2 Hf2 Ox Og2 Oy) as (s3 & R3 & _).
    unfold subgrad_conjugate in R. rewrite (bind_ok _ _ _ _ _ R1), (bind_ok _ _ _ _ _ R2), (bind_ok _ _ _ _ _ R3) in R. injection R as <- <-.
    destruct (xrecs_add s2 f _ _ _ _ Hf2 R3) as [X1 X2]. split.
    - intros h v Hh. rewrite X1 by exact Hh. apply xrecs_keepf. exact K2.
    - intros v. rewrite X2. rewrite (xrecs_keepf s s2 f v K2). reflexivity.
  Qed.
  Lemma U_conj bs i f p X (k : point -> M problem) s c A' :
    nth_error (cf c) i = Some f -> derp P c p X ->
    (forall x s', U bs (k x) s' (addx x c) A') ->
    U bs (bind (subgrad_conjugate SY p f) k) s c (fun r en rho =>
      exists x, conjugated 1 (nth i (vf en) rfun0) (X r en) x /\ A' r (pushx x en) (upd i (fun l => l ++ [x]) rho)).
  Proof using OK.
    intros Hi HX H HS Hc Hv Hb.
    assert (Hf : isf s f). { destruct Hc as (A & _). rewrite Forall_forall in A. apply A. eapply nth_error_In; eauto. }
    destruct (HX s Hc) as [Op Dp].
    destruct (rule_conj OK P s f p HS Hf Op) as (x & s' & R & S' & E & F & Ox & B & W).
    destruct (xrecs_conj s f p _ s' HS Hf Op R) as [Y1 Y2].
    destruct (H (leaf_point x) s') as (p0 & sf & K1 & K2 & K3 & K4).
    { exact S'. } { apply okc_addx; [eapply okc_ext; eauto|exact Ox]. } { apply (stay s s' _ (fun _ => rfun0) (proj1 HS) E F). exact Hv. } { exact (eq_trans (bits_ext P s s' c Hc E) Hb). }
    exists p0, sf. split; [rewrite (bind_ok _ _ _ _ _ R); exact K1|]. split; [exact K2|]. split; [exact K3|].
    intros r v phi en Sv Cs Cu Vs (Y & HQ & HA).
    rewrite (vals_f v phi c en i f Vs Hi) in HQ. rewrite <- (proj1 (proj2 Sv)) in HQ. rewrite <- (Dp v phi en Vs) in HQ.
    destruct (W 1%nat r v phi Y Sv Cs HQ) as (v' & Sv' & Ha & Cs' & HY).
    apply (K4 r v' phi (pushx Y en) Sv' Cs').
    - apply (stay s s' c phi (proj1 HS) E F). exact Cu.
    - apply vals_addx; [eapply vals_agree; eauto|exact HY].
    - simpl cf. rewrite (xrecs_upd P s s' v v' c i f Y (proj1 HS) Hc Ha Hi); [exact HA|intros h Hh; apply Y1; exact Hh|].
      rewrite Y2, HY. reflexivity.
  Qed.

  Lemma U_oracles_known fs : forall is gs p X bs (k : list point -> M problem) s c A', at_is c is fs -> Forall (fun i => nth_error bs i = Some true) is ->
    derp P c p X -> Forall2 (fun f g => recorded s f p g) fs gs ->
    U bs (k gs) s (addl gs c) A' ->
    U bs (bind (oracle_loop SY fs p) k) s c (fun r en rho =>
      exists ys zs, queries 1 (X r en) (funs_at en is) ys zs /\ A' r (pushl ys en) rho).
  Proof using OK.
    induction fs as [|f fs IH]; intros is gs p X bs k s c A' Hat Hbs HX Hr Hk; inversion Hat as [|i ? is' ? H1 H3]; subst; inversion Hr as [|? g ? gs' R1 R3]; subst.
    - simpl. refine (U_imp P _ _ _ _ (fun r en rho => A' r (pushl [] en) rho) _ _ (U_drop P bs _ s c (addl [] c) (pushl []) A' eq_refl _ _ Hk)).
      + intros r en rho (gs & zs & HQ & HA). inversion HQ; subst. exact HA.
      + intros s0 H0. apply okc_addl; [easy|constructor].
      + intros v phi en Hv. apply vals_addl; easy.
    - cbn [oracle_loop]. apply U_assoc. inversion_clear Hbs as [|? ? B1 B2].
      refine (U_imp P _ _ _ _ _ _ _ (U_oracle_known OK P bs i f p g X _ s c (fun r en rho => exists ys zs, queries 1 (X r (mkSE (vf en) (tl (vx en)) (tl (ve en)) (vl en) (vm en))) (funs_at en is') ys zs /\
          A' r (gather_x (pushl ys en)) rho) H1 B1 HX R1 _)).
      + intros r en rho (ys & zs & HQ & HA). inversion HQ as [|phi y z phis ys' zs' HQ1 HQ2]; subst.
        exists y, z. split; [exact HQ1|]. exists ys', zs'. split; [destruct en; exact HQ2|destruct en; exact HA].
      + intros e. apply U_assoc.
        refine (IH is' gs' p (fun r en => X r (mkSE (vf en) (tl (vx en)) (tl (ve en)) (vl en) (vm en))) bs _ s (adde e (addx g c)) (fun r en rho => A' r (gather_x en) rho) _ B2 _ R3 _).
        * exact H3.
        * apply (derp_weak P c _ p X (fun en => mkSE (vf en) (tl (vx en)) (tl (ve en)) (vl en) (vm en))); [| |exact HX].
          -- intros s0 H0. eapply okc_split_x, okc_split_e; eauto.
          -- intros v phi en (V1 & V2 & V3 & V4 & V5). simpl in *. unfold vals; simpl. rewrite <- V2, <- V3. easy.
        * apply (U_drop P _ _ _ _ (addl (g :: gs') c) gather_x); [reflexivity| | |].
          -- intros s0 H0. apply okc_addl; [eapply okc_split_x, okc_split_e, okc_split_l; eauto|].
             constructor; [eapply okc_x, okc_split_e, okc_split_l; eauto|eapply okc_l; eauto].
          -- intros v phi en (V1 & V2 & V3 & V4 & V5). simpl in *. unfold vals, gather_x; simpl. rewrite <- V2, <- V3, <- V4. easy.
          -- exact Hk.
  Qed.

  Lemma U_conjs fs : forall is zs X bs (k : list point -> M problem) s c A', at_is c is fs -> derl P c zs X -> List.length zs = List.length fs ->
    (forall xs s', List.length xs = List.length fs -> U bs (k xs) s' (addl xs c) A') ->
    U bs (bind (conj_loop SY fs zs) k) s c (fun r en rho =>
      exists xs, conjs 1 (funs_at en is) (X r en) xs /\ A' r (pushl xs en) (appends is xs rho)).
  Proof using OK.
    induction fs as [|f fs IH]; intros is zs X bs k s c A' Hat HX Hlz Hk; inversion Hat as [|i ? is' ? H1 H3]; subst.
    - simpl. refine (U_imp P _ _ _ _ (fun r en rho => A' r (pushl [] en) rho) _ _ (U_drop P bs _ s c (addl [] c) (pushl []) A' eq_refl _ _ (Hk [] s eq_refl))).
      + intros r en rho (gs & HQ & HA). inversion HQ; subst. exact HA.
      + intros s0 H0. apply okc_addl; [easy|constructor].
      + intros v phi en Hv. apply vals_addl; easy.
    - destruct zs as [|z zs]; [easy|]. cbn [conj_loop]. apply U_assoc.
      refine (U_imp_v _ _ _ _ _ _ _ (U_conj bs i f z (fun r en => hd vzero (X r en)) _ s c (fun r en rho => exists xs, conjs 1 (funs_at en is') (tl (X r (drop_x en))) xs /\
          A' r (gather_c (pushl xs en)) (appends is' xs rho)) H1 (derl_hd _ _ _ _ _ HX) _)).
      + intros r v phi en rho Hc Hv Hvs.
        assert (E : X r en = den_p v z :: map (den_p v) zs) by (rewrite <- (proj1 (proj2 Hv)), <- (proj2 (HX s Hc) v phi en Hvs); easy).
        unfold drop_x; simpl. replace (mkSE (vf en) (vx en) (ve en) (vl en) (vm en)) with en by (destruct en; easy). rewrite E. simpl.
        intros (gs & HQ & HA). inversion HQ; subst. exists x. split; [easy|]. exists xs. split; [easy|exact HA].
      + intros y s1. apply U_assoc.
        refine (IH is' zs (fun r en => tl (X r (drop_x en))) bs _ s1 (addx y c) (fun r en rho => A' r (gather_c en) rho) _ _ _ _).
        * exact H3.
        * apply (derl_weak P c _ zs (fun r en => tl (X r en)) drop_x); [| |eapply derl_tl; exact HX].
          -- intros s0 H0. eapply okc_split_x; eauto.
          -- intros v phi en (V1 & V2 & V3 & V4 & V5). unfold vals, drop_x in *; simpl in *. rewrite <- V2. easy.
        * simpl in Hlz. lia.
        * intros ys s' Hl. apply (U_drop P _ _ _ _ (addl (y :: ys) c) gather_c); [reflexivity| | |].
          -- intros s0 H0. apply okc_addl; [eapply okc_split_x, okc_split_l; eauto|].
             constructor; [eapply okc_x, okc_split_l; eauto|eapply okc_l; eauto].
          -- intros v phi en (V1 & V2 & V3 & V4 & V5). unfold vals, gather_c in *; simpl in *. rewrite <- V2, <- V4. easy.
          -- apply Hk. simpl. congruence.
  Qed.

  Lemma U_dual_some fs : forall is l X bs (k : list point * list point -> M problem) s c A', at_is c is fs -> fs <> [] -> derp P c l X ->
    (forall ys xs s', List.length ys = List.length fs -> List.length xs = List.length fs -> U bs (k (ys, xs)) s' (addl xs (addl ys c)) A') ->
    U bs (bind (dual_init SY fs (Some l)) k) s c (fun r en rho =>
      exists ys, (List.length ys = List.length fs /\ Forall (in_Rd 1) ys /\ vsum ys = X r en) /\
      exists xs, conjs 1 (funs_at en is) ys xs /\ A' r (pushl xs (pushl ys en)) (appends is xs rho)).
  Proof using OK.
    induction fs as [|f fs IH]; intros is l X bs k s c A' Hat Hne HX Hk; [easy|]. inversion Hat as [|i ? is' ? H1 H3]; subst. destruct fs as [|f' fs].
    - cbn [dual_init]. inversion H3; subst. clear IH. apply U_assoc.
      refine (U_imp P _ _ _ _ _ _ _ (U_conj bs i f l X _ s c (fun r en rho => A' r (pushl [hd vzero (vx en)] (pushl [X r (drop_x en)] (drop_x en))) rho) H1 HX _)).
      + intros r en rho. unfold drop_x; simpl. replace (mkSE (vf en) (vx en) (ve en) (vl en) (vm en)) with en by (destruct en; easy).
        intros (ys & (Hl & Hin & Hs) & xs & HQ & HA). destruct ys as [|y [|]]; try easy. inversion HQ as [|? ? x ? ? xs' Q1 Q2]; subst. inversion Q2; subst. inversion_clear Hin.
        simpl in Hs. rewrite vadd_zero_r in Hs. subst y. exists x. split; [easy|]. exact HA.
      + intros x s1. cbn [bind ret].
        refine (U_imp P _ _ _ _ _ _ _ (U_letl bs (fun y => k (y, [x])) [l] (fun r en => [X r (drop_x en)]) s1 (addx x c)
          (fun r en rho => A' r (drop_x (pushl [hd vzero (vx en)] en)) rho) _ _)).
        * intros r en rho HA. exact HA.
        * apply derl_cons; [|apply derl_nil]. apply (derp_weak P c _ l X drop_x); [| |exact HX].
          -- intros s0 H0. eapply okc_split_x; eauto.
          -- intros v phi en (V1 & V2 & V3 & V4 & V5). unfold vals, drop_x in *; simpl in *. rewrite <- V2. easy.
        * intros y ->.
          refine (U_letl bs (fun z => k ([l], z)) [x] (fun r en => [hd vzero (vx en)]) s1 (addl [l] (addx x c)) (fun r en rho => A' r (drop_x en) rho) _ _).
          -- apply derl_cons; [|apply derl_nil]. intros s0 H0. split; [eapply okc_x, okc_split_l; eauto|].
             intros v phi en (V1 & V2 & V3 & V4 & V5). simpl in *. rewrite <- V2. easy.
          -- intros z ->. apply (U_drop P _ _ _ _ (addl [x] (addl [l] c)) drop_x); [reflexivity| | |].
             ++ intros s0 H0. apply okc_addl; [apply okc_addl; [eapply okc_split_x, okc_split_l, okc_split_l; eauto|eapply okc_l, okc_split_l; eauto]|].
                eapply okc_l; eauto.
             ++ intros v phi en (V1 & V2 & V3 & V4 & V5). unfold vals, drop_x in *; simpl in *. rewrite <- V2. easy.
             ++ apply Hk; easy.
    - remember (f' :: fs) as fs1 eqn:Ef.
      assert (Eq : dual_init SY (f :: fs1) (Some l) = bind set_initial_point (fun y => bind (subgrad_conjugate SY y f) (fun x =>
         bind (dual_init SY fs1 (Some (psub SY l y))) (fun p => let '(ys, xs) := p in ret (y :: ys, x :: xs))))) by (subst fs1; reflexivity).
      rewrite Eq. clear Eq. apply U_assoc.
      refine (U_imp P _ _ _ _ _ _ _ (U_point P bs _ s c (fun r en rho => exists x, conjugated 1 (nth i (vf en) rfun0) (hd vzero (vx en)) x /\
         exists ys, (List.length ys = List.length fs1 /\ Forall (in_Rd 1) ys /\ vsum ys = vsub (X r (drop_x (drop_x (pushx x en)))) (nth 1 (vx (pushx x en)) vzero)) /\
         exists xs, conjs 1 (funs_at en is') ys xs /\ A' r (gather_d (pushl xs (pushl ys (pushx x en)))) (appends is' xs (upd i (fun l => l ++ [x]) rho))) _)).
      + intros r en rho. unfold drop_x; simpl. replace (mkSE (vf en) (vx en) (ve en) (vl en) (vm en)) with en by (destruct en; easy).
        intros (ys & (L1 & L2 & L3) & xs & Hxs & HA). inversion Hxs as [|? g x ? gs xs0 Q1 Q2]; subst. inversion_clear L2. simpl in L1, L3. exists g. split; [easy|]. exists x. split; [easy|].
        exists gs. split; [split; [simpl in *; lia|split; [easy|symmetry; apply vsub_add_eq; easy]]|]. exists xs0. split; [easy|]. exact HA.
      + intros y s1 _. apply U_assoc.
        refine (U_conj bs i f y (fun r en => hd vzero (vx en)) _ s1 (addx y c) (fun r en rho =>
         exists ys, (List.length ys = List.length fs1 /\ Forall (in_Rd 1) ys /\ vsum ys = vsub (X r (drop_x (drop_x en))) (nth 1 (vx en) vzero)) /\
         exists xs, conjs 1 (funs_at en is') ys xs /\ A' r (gather_d (pushl xs (pushl ys en))) (appends is' xs rho)) H1 _ _).
        * intros s0 H0. split; [eapply okc_x; eauto|]. intros v phi en (V1 & V2 & V3 & V4 & V5). simpl in *. rewrite <- V2. easy.
        * intros x s2. apply U_assoc.
          refine (IH is' (psub SY l y) (fun r en => vsub (X r (drop_x (drop_x en))) (nth 1 (vx en) vzero)) bs _ s2 (addx x (addx y c)) (fun r en rho => A' r (gather_d en) rho) H3 _ _ _).
          -- subst fs1. easy.
          -- apply (derp_sub OK).
             ++ apply (derp_weak P c _ l X (fun en => drop_x (drop_x en))); [| |exact HX].
                ** intros s0 H0. eapply okc_split_x, okc_split_x; eauto.
                ** intros v phi en (V1 & V2 & V3 & V4 & V5). unfold vals, drop_x in *; simpl in *. rewrite <- V2. easy.
             ++ apply (derp_var P 1). easy.
          -- intros ys xs s' L1 L2. apply (U_drop P _ _ _ _ (addl (x :: xs) (addl (y :: ys) c)) gather_d); [reflexivity| | |].
             ++ intros s0 H0. assert (K2 := okc_split_l _ _ _ _ H0). assert (K3 := okc_split_l _ _ _ _ K2).
                assert (K5 := okc_split_x _ _ _ _ K3). assert (K6 := okc_split_x _ _ _ _ K5).
                apply okc_addl; [apply okc_addl|]; [easy| |]; (constructor; [eapply okc_x; eauto|eapply okc_l; eauto]).
             ++ intros v phi en (V1 & V2 & V3 & V4 & V5). unfold vals, gather_d in *; simpl in *. rewrite <- V2, <- V4. easy.
             ++ apply Hk; simpl; congruence.
  Qed.
  Lemma U_dual_none f fs : forall is bs (k : list point * list point -> M problem) s c A', at_is c is (f :: fs) -> fs <> [] ->
    (forall ys xs s', List.length ys = S (List.length fs) -> List.length xs = S (List.length fs) -> U bs (k (ys, xs)) s' (addl xs (addl ys c)) A') ->
    U bs (bind (dual_init SY (f :: fs) None) k) s c (fun r en rho =>
      exists ys, (List.length ys = S (List.length fs) /\ Forall (in_Rd 1) ys /\ vsum ys = vzero) /\
      exists xs, conjs 1 (funs_at en is) ys xs /\ A' r (pushl xs (pushl ys en)) (appends is xs rho)).
  Proof using OK.
    intros is bs k s c A' Hat Hne Hk. inversion Hat as [|i ? is' ? H1 H3]; subst.
      assert (Eq : dual_init SY (f :: fs) None = bind set_initial_point (fun y => bind (subgrad_conjugate SY y f) (fun x =>
         bind (dual_init SY fs (Some (pneg SY y))) (fun p => let '(ys, xs) := p in ret (y :: ys, x :: xs))))) by (destruct fs; easy).
      rewrite Eq. clear Eq. apply U_assoc.
      refine (U_imp P _ _ _ _ _ _ _ (U_point P bs _ s c (fun r en rho => exists x, conjugated 1 (nth i (vf en) rfun0) (hd vzero (vx en)) x /\
         exists ys, (List.length ys = List.length fs /\ Forall (in_Rd 1) ys /\ vsum ys = vopp (nth 1 (vx (pushx x en)) vzero)) /\
         exists xs, conjs 1 (funs_at en is') ys xs /\ A' r (gather_d (pushl xs (pushl ys (pushx x en)))) (appends is' xs (upd i (fun l => l ++ [x]) rho))) _)).
      + intros r en rho (ys & (L1 & L2 & L3) & xs & Hxs & HA). inversion Hxs as [|? g x ? gs xs0 Q1 Q2]; subst. inversion_clear L2. simpl in L1, L3. exists g. split; [easy|]. exists x. split; [easy|].
        exists gs. split; [split; [lia|split; [easy|symmetry; apply vneg_add_eq; easy]]|]. exists xs0. split; [easy|]. exact HA.
      + intros y s1 _. apply U_assoc.
        refine (U_conj bs i f y (fun r en => hd vzero (vx en)) _ s1 (addx y c) (fun r en rho =>
         exists ys, (List.length ys = List.length fs /\ Forall (in_Rd 1) ys /\ vsum ys = vopp (nth 1 (vx en) vzero)) /\
         exists xs, conjs 1 (funs_at en is') ys xs /\ A' r (gather_d (pushl xs (pushl ys en))) (appends is' xs rho)) H1 _ _).
        * intros s0 H0. split; [eapply okc_x; eauto|]. intros v phi en (V1 & V2 & V3 & V4 & V5). simpl in *. rewrite <- V2. easy.
        * intros x s2. apply U_assoc.
          refine (U_dual_some fs is' (pneg SY y) (fun r en => vopp (nth 1 (vx en) vzero)) bs _ s2 (addx x (addx y c)) (fun r en rho => A' r (gather_d en) rho) H3 Hne _ _).
          -- apply (derp_neg OK). apply (derp_var P 1). easy.
          -- intros ys xs s' L1 L2. apply (U_drop P _ _ _ _ (addl (x :: xs) (addl (y :: ys) c)) gather_d); [reflexivity| | |].
             ++ intros s0 H0. assert (K2 := okc_split_l _ _ _ _ H0). assert (K3 := okc_split_l _ _ _ _ K2).
                assert (K5 := okc_split_x _ _ _ _ K3). assert (K6 := okc_split_x _ _ _ _ K5).
                apply okc_addl; [apply okc_addl|]; [easy| |]; (constructor; [eapply okc_x; eauto|eapply okc_l; eauto]).
             ++ intros v phi en (V1 & V2 & V3 & V4 & V5). unfold vals, gather_d in *; simpl in *. rewrite <- V2, <- V4. easy.
             ++ apply Hk; simpl; congruence.
  Qed.
End D.

Section B.
  Context {SY : sympy} (OK : sympy_ok SY).
  Lemma U_dual_n P n fs bs (k : list point * list point -> M problem) s c A' : at_is c (seq 0 n) fs -> List.length fs = n -> (2 <= n)%nat ->
    (forall ys xs s', List.length ys = n -> List.length xs = n -> U P bs (k (ys, xs)) s' (addl xs (addl ys c)) A') ->
    U P bs (bind (dual_init SY fs None) k) s c (fun r en rho =>
      exists ys, (List.length ys = n /\ Forall (in_Rd 1) ys /\ vsum ys = vzero) /\
      exists xs, conjs 1 (funs_at en (seq 0 n)) ys xs /\ A' r (pushl xs (pushl ys en)) (appends (seq 0 n) xs rho)).
  Proof using OK.
    intros Ha Hl Hn Hk. destruct fs as [|f fs]; [simpl in *; lia|].
    pose proof (U_dual_none OK P f fs (seq 0 n) bs k s c A' Ha) as G. simpl in Hl. rewrite Hl in G. apply G; [|easy]. destruct fs; simpl in *; [lia|easy].
  Qed.
  Lemma U_conjs_n P n fs zs X bs (k : list point -> M problem) s c A' : at_is c (seq 0 n) fs -> List.length fs = n -> derl P c zs X -> List.length zs = n ->
    (forall xs s', List.length xs = n -> U P bs (k xs) s' (addl xs c) A') ->
    U P bs (bind (conj_loop SY fs zs) k) s c (fun r en rho =>
      exists xs, conjs 1 (funs_at en (seq 0 n)) (X r en) xs /\ A' r (pushl xs en) (appends (seq 0 n) xs rho)).
  Proof using OK. intros Ha Hl HX Hz Hk. subst n. apply (U_conjs OK); easy. Qed.
End B.

Ltac dustep OK q Iq := lazymatch goal with
  | |- U _ _ (bind (stationary_of _ _) _) _ _ _ => eapply (U_stat_of OK _ _ _ 0); [reflexivity|rewrite seq_length; lia|intros ? ? ? ? ? ? ?; after]
  | |- U _ _ (bind (dual_init _ _ _) _) _ _ _ => eapply (U_dual_n OK); [at_n|eassumption|lia|intros ? ? ? ? ?; after]
  | |- U _ _ (bind (conj_loop _ _ _) _) _ _ _ => eapply (U_conjs_n OK); [at_n|eassumption|derl OK|zlen|intros ? ? ?; after]
  | |- U ?P ?bs (let x : list point := ?e in @?k x) ?s ?c ?A => change (U P bs (k e) s c A); eapply (U_letl P bs k e); [derl OK|intros ? ?; after]
  | |- U ?P ?bs (let x : Q := ?e in @?k x) ?s ?c ?A => change (U P bs (k e) s c A); after
  | |- U _ _ (bind (oracle_loop _ _ _) _) _ _ _ => fail
  | _ => lustep OK q Iq
  end.

Section C.
  Context {SY : sympy} (OK : sympy_ok SY).
  Lemma recorded_n s (x : point) fs gs n : List.length fs = n ->
    Forall2 (fun i g => recorded s (nth i fs 0%nat) x g /\ wf_p g) (seq 0 n) gs -> Forall2 (fun f g => recorded s f x g) fs gs.
  Proof using Type.
    intros <- H. replace fs with (map (fun i => nth i fs 0%nat) (seq 0 (List.length fs))) at 1.
    - remember (seq 0 (List.length fs)) as is eqn:Ei. clear Ei. induction H as [|i g is gs [H _] _ IH]; simpl; constructor; assumption.
    - apply nth_ext with (d := 0%nat) (d' := 0%nat); [rewrite map_length, seq_length; reflexivity|]. intros i Hi. rewrite map_length, seq_length in Hi.
      rewrite (nth_indep _ _ (nth 0 fs 0%nat)) by (rewrite map_length, seq_length; exact Hi). rewrite (map_nth (fun i => nth i fs 0%nat)), seq_nth by exact Hi. reflexivity.
  Qed.
  Lemma bits_n n : Forall (fun i => nth_error (repeat true n) i = Some true) (seq 0 n).
  Proof using Type. apply Forall_forall. intros i Hi. apply in_seq in Hi. apply nth_error_repeat. lia. Qed.
  Lemma conjugated_qf q a : 0 < q -> conjugated 1 (qf q) (pt a) (pt (a / q)).
  Proof using Type.
    intros H. split; [apply in_R1_pt|]. destruct (qf_query_pt q (a / q) (Rlt_le _ _ H)) as (_ & S & _).
    replace a with (q * (a / q)) at 2 by (field; lra). exact S.
  Qed.
  Lemma conjs_qf q l : 0 < q -> conjs 1 (repeat (qf q) (List.length l)) (map pt l) (map (fun a => pt (a / q)) l).
  Proof using Type. intros H. induction l as [|a l IH]; simpl; constructor; [apply conjugated_qf; exact H|exact IH]. Qed.
  Lemma vsum_pts l : vsum (map pt l) = pt (rsuml l).
  Proof using Type.
    induction l as [|a l IH]; [apply functional_extensionality; intros [|j]; reflexivity|].
    change (vsum (map pt (a :: l))) with (vadd (pt a) (vsum (map pt l))). rewrite IH. change (rsuml (a :: l)) with (a + rsuml l).
    apply functional_extensionality; intros [|j]; unfold vadd, pt; simpl; ring.
  Qed.
  Lemma rsuml_div q l : rsuml (map (fun a => a / q) l) = rsuml l / q.
  Proof using Type. induction l as [|a l IH]; [unfold rsuml; simpl; unfold Rdiv; ring|]. unfold rsuml in *. simpl. rewrite IH. unfold Rdiv. ring. Qed.
  Lemma map2_maps {A B C D} (f : B -> C -> D) (g : A -> B) (h : A -> C) l : map2 f (map g l) (map h l) = map (fun a => f (g a) (h a)) l.
  Proof using Type. induction l as [|a l IH]; [reflexivity|]. simpl. rewrite IH. reflexivity. Qed.
  Lemma records_map {A B} (z : B) (f g : A -> B) l :
    map2 (fun l x => l ++ [x]) (map2 (fun l x => l ++ [x]) (repeat [z] (List.length l)) (map f l)) (map g l) = map (fun a => [z; f a; g a]) l.
  Proof using Type. induction l as [|a l IH]; [reflexivity|]. simpl. rewrite IH. reflexivity. Qed.

  Lemma dual_decomposition_strict s0 n mu l Ind : good_class mu (Fin l) -> Q2R Ind <> 0 -> (2 <= n)%nat -> Inv s0 ->
    forall p s r q currents, dual_decomposition SY None n mu (Fin l) Ind s0 = (Ok p, s) ->
    inside mu (Fin l) q -> List.length currents = n -> rsuml currents = 0 ->
    Forall (fun a => NoDup (dual_points (Q2R Ind) (r "h"%string) (r "alpha"%string) q a)) currents ->
    exists v, v_env v = r /\ strictly_feasible v p s.
  Proof.
    intros HC NI Hn HI p s r q cur E Iq Hl Hs Nd. revert E. cbv delta [dual_decomposition]; cbv beta. intros E. assert (Hnz := n_nz n ltac:(lia)).
    refine (U_start default_params None _ _ s0 _ I HI _ p s r E _).
    - repeat dustep OK q Iq.
      eapply (U_oracles_known OK); [at_n|apply bits_n|derp' OK|eapply recorded_n; [eassumption|match goal with H : (_ <= _)%nat -> Forall2 _ _ _ |- _ => apply H; rewrite seq_length; lia end]|after].
      repeat dustep OK q Iq.
    - clear E. lsemantics. cbv beta iota delta [funs_at vf].
      assert (Hq : 0 < q) by (destruct HC, Iq; lra). assert (Hq0 := Rlt_le _ _ Hq).
      assert (Ef := funs_n n (repeat (qf q) n) (repeat_length _ _)). rewrite !Ef.
      split; [reflexivity|]. split; [reflexivity|]. exists (pt 0), 0. split; [apply optimal_repeat; exact Hq0|].
      eexists _, _. split; [apply queries_repeat; exact Hq0|].
      exists (map pt cur). split.
      { split; [rewrite map_length; exact Hl|]. split; [apply Forall_forall; intros y Hy; apply in_map_iff in Hy as (a & <- & _); apply in_R1_pt|].
        rewrite vsum_pts, Hs. apply functional_extensionality; intros [|j]; reflexivity. }
      subst n. exists (map (fun a => pt (a / q)) cur). split; [apply conjs_qf; exact Hq|].
      assert (Es : vsum (map (fun a => pt (a / q)) cur) = pt 0).
      { rewrite <- (map_map (fun a => a / q) pt), vsum_pts, rsuml_div, Hs. f_equal. unfold Rdiv. ring. }
      rewrite Es, map2_maps. set (b := fun a => a - r "alpha"%string * r "h"%string / Q2R Ind * (a / q)).
      match goal with |- context [conjs 1 _ (map ?f cur)] => assert (Em : map f cur = map pt (map b cur)) end.
      { rewrite map_map. apply map_ext. intros a. unfold b. generalize (a / q). intros w. pteq. }
      rewrite Em. exists (map (fun a => pt (a / q)) (map b cur)). split; [rewrite <- (map_length b cur); apply conjs_qf; exact Hq|].
      rewrite upds_repeat. cbn [app]. rewrite (appends_seq _ (repeat _ _)) by (rewrite ?map_length, ?repeat_length; reflexivity).
      assert (El : forall A B (f : list A -> B -> list A) (l : list (list A)) m, List.length m = List.length l -> List.length (map2 f l m) = List.length l) by (intros; apply BuilderList.map2_length; assumption).
      rewrite appends_seq by (rewrite ?El; rewrite ?map_length, ?repeat_length; reflexivity).
      rewrite (map_map b), records_map. apply Forall_forall. intros y Hy. apply in_map_iff in Hy as (a & <- & Ha). rewrite Forall_forall in Nd.
      exact (nodup_pt _ (Nd a Ha)).
  Qed.
End C.

(** * When dual decomposition moves *)
Lemma dual_moves n mu l Ind h alpha : good_class mu (Fin l) -> (2 <= n)%nat -> Ind <> 0 -> h <> 0 -> alpha <> 0 ->
  exists q currents, inside mu (Fin l) q /\ List.length currents = n /\ rsuml currents = 0 /\ Forall (fun a => NoDup (dual_points Ind h alpha q a)) currents.
Proof.
  intros G Hn HI Hh Ha. destruct n as [|n]; [lia|]. destruct G as [G0 G1].
  destruct (avoid [alpha * h / Ind] (Q2R mu) (Q2R l) G1) as (q & Hq & Nq). exists q, (- INR n :: repeat 1 n).
  split; [exact Hq|]. split; [simpl; rewrite repeat_length; reflexivity|]. split.
  { change (- INR n + rsuml (repeat 1 n) = 0). replace (rsuml (repeat 1 n)) with (INR n); [ring|]. clear. induction n as [|n IH]; [reflexivity|]. rewrite S_INR, IH. unfold rsuml. simpl. ring. }
  set (k := alpha * h / Ind). assert (Hq0 : q <> 0) by lra.
  assert (Hk : k <> 0).
  { unfold k, Rdiv. repeat apply Rmult_integral_contrapositive_currified; try assumption. apply Rinv_neq_0_compat. exact HI. }
  assert (Hkq : k <> q) by (intros X; apply Nq; left; exact X).
  assert (D : forall a, a <> 0 -> NoDup (dual_points Ind h alpha q a)).
  { intros a Na. unfold dual_points. fold k. set (w := a / q). set (u := (a - k * w) / q).
    assert (Ew : a = q * w) by (unfold w; field; exact Hq0). assert (Nw : w <> 0) by (intros X; rewrite X in Ew; lra).
    assert (Eu : q * u = (q - k) * w) by (unfold u; rewrite Ew at 1; field; exact Hq0).
    assert (Nu : u <> 0). { intros X. rewrite X, Rmult_0_r in Eu. symmetry in Eu. apply Rmult_integral in Eu as [Eu|Eu]; [apply Hkq; lra|contradiction]. }
    assert (Nwu : u <> w). { intros X. rewrite X in Eu. assert (X' : k * w = 0) by lra. apply Rmult_integral in X' as [X'|X']; contradiction. }
    repeat constructor; simpl; intros J; decompose [or] J; try congruence; contradiction. }
  apply Forall_cons; [apply D; assert (INR n <> 0) by (apply not_0_INR; lia); lra|]. apply forall_repeat. apply D. lra.
Qed.

Lemma moves_strict SY (OK : sympy_ok SY) r k s0 p s : moves SY r k -> Inv s0 -> k None s0 = (Ok p, s) ->
  exists v, v_env v = r /\ strictly_feasible v p s.
Proof.
  intros M HI E. destruct M.
  - exact (gradient_flow_strict OK s0 mu L C H H0 HI p s r q x1 E H1 H2).
  - exact (tuneC_strict OK s0 mu L H HI p s r q x1 E H0 H1).
  - exact (accelerated_strict OK s0 mu L Rs C Ind H H0 H1 HI p s r q v1 i1 E H2 H3).
  - exact (tuneRLC_strict OK s0 mu L H HI p s r q v1 i1 E H0 H1).
  - exact (ppm_strict OK s0 mu L C Rs H H0 H1 HI p s r q x1 E H2 H3 H4).
  - exact (example_strict OK s0 mu L C Rs H H0 H1 HI p s r q z1 e1 E H2 H3 H4).
  - exact (prox_gradient_strict OK s0 mu l Rs C H H0 H1 HI p s r q1 q2 x1 E H2 H3 H4 H5).
  - exact (douglas_rachford_strict OK s0 mu l Rs Ind H H0 HI p s r q1 q2 i0 x0 E H1 H2 H3 H4 H5).
  - exact (davis_yin_strict OK s0 mu l Rs Ind H H0 H1 HI p s r q1 q2 q3 i0 x0 E H2 H3 H4 H5 H6 H7).
  - exact (primal_decomposition_strict OK s0 n mu L C H H0 H1 HI p s r q x1 E H2 H3).
  - exact (dual_decomposition_strict OK s0 n mu l Ind H H0 H1 HI p s r q currents E H2 H3 H4 H5).
  - exact (consensus_proof_strict OK s0 mu l Rs H H0 HI p s r E).
  - exact (pg_extra_strict OK s0 mu lh lf Rs W H H0 H1 HI p s r E).
  - exact (cycle4_strict OK s0 mu l Rs Ind H HI p s r E).
  - exact (graph6_strict OK s0 mu l Rs Ind H HI p s r E).
  - exact (C_graph6_strict OK s0 mu0 mu1 l0 l1 Rs C Ind H H0 HI p s r E).
Qed.
