(** Rules of the judgement [T] for the loops of the builders with [n_func] functions. *)
From Coq Require Import List Arith Bool String QArith Reals Qreals Lia Lra FunctionalExtensionality.
From Verif Require Import Prelude PreludeFacts Sympy SympyFacts AlgebraModel Denote AlgebraFacts FunctionModel CircuitModel
  Spec SpecFacts ClassSpec CertSpec StateSpec StateFacts CertFacts FunctionSpec FunctionFacts FunctionFacts2
  SymbolFacts SolverSpec BuilderModel BuilderSpec BuilderLogic BuilderT.
Import ListNotations.
Local Open Scope R_scope.

Lemma zip_with_map2 {A B C} (f : A -> B -> C) : forall l m, zip_with f l m = map2 f l m.
Proof. induction l as [|a l IH]; intros [|b m]; try easy. unfold zip_with in *. simpl. f_equal. apply IH. Qed.
Lemma zip3_map3 {A B C D} (f : A -> B -> C -> D) : forall l m n, zip3 f l m n = map3 f l m n.
Proof.
  induction l as [|a l IH]; intros [|b m] n; try easy. destruct n as [|c n]; [easy|]. unfold zip3, zip_with in *. simpl. f_equal. apply IH.
Qed.
Lemma zip4_map5 {A B C D E X} (f : A * B -> C -> D -> E -> X) : forall l m n o p,
  List.length m = List.length l -> List.length n = List.length l ->
  zip4 f (combine l m) n o p = map5 (fun a b => f (a, b)) l m n o p.
Proof.
  induction l as [|a l IH]; intros [|b m] [|c n] o p H K; try easy. destruct o as [|i o]; [easy|]. destruct p as [|y p]; [easy|].
  unfold zip4, zip_with in *. simpl. f_equal. apply IH; simpl in *; lia.
Qed.
Lemma map2_length {A B C} (f : A -> B -> C) : forall l m, List.length m = List.length l -> List.length (map2 f l m) = List.length l.
Proof. induction l as [|a l IH]; intros [|b m] H; try easy. simpl in *. rewrite IH by lia. easy. Qed.
Lemma map3_length {A B C D} (f : A -> B -> C -> D) : forall l m n, List.length m = List.length l -> List.length n = List.length l ->
  List.length (map3 f l m n) = List.length l.
Proof. induction l as [|a l IH]; intros [|b m] [|c n] H K; try easy. simpl in *. rewrite IH by lia. easy. Qed.
Lemma map2_ext {A B C} (f g : A -> B -> C) l m : (forall a b, f a b = g a b) -> map2 f l m = map2 g l m.
Proof. intros H. revert m. induction l as [|a l IH]; intros [|b m]; try easy. simpl. rewrite IH, H. easy. Qed.
Lemma map3_ext {A B C D} (f g : A -> B -> C -> D) l m n : (forall a b c, f a b c = g a b c) -> map3 f l m n = map3 g l m n.
Proof. intros H. revert m n. induction l as [|a l IH]; intros [|b m] [|c n]; try easy. simpl. rewrite IH, H. easy. Qed.
Lemma map5_ext {A B C D E X} (f g : A -> B -> C -> D -> E -> X) l m n o p : (forall a b c d e, f a b c d e = g a b c d e) ->
  map5 f l m n o p = map5 g l m n o p.
Proof. intros H. revert m n o p. induction l as [|a l IH]; intros [|b m] [|c n] [|i o] [|y p]; try easy. simpl. rewrite IH, H. easy. Qed.
Lemma queries_length d x phis gs zs : queries d x phis gs zs -> List.length gs = List.length phis /\ List.length zs = List.length phis.
Proof. induction 1 as [|phi g z phis gs zs H K [IH1 IH2]]; [easy|]. simpl. lia. Qed.
Lemma proxes_length d c phis az xs gs zs : proxes d c phis az xs gs zs ->
  List.length az = List.length phis /\ List.length xs = List.length phis /\ List.length gs = List.length phis /\ List.length zs = List.length phis.
Proof. induction 1 as [|phi a x g z phis azs xs gs zs H K IH]; [easy|]. simpl. lia. Qed.
Lemma conjs_length d phis gs xs : conjs d phis gs xs -> List.length gs = List.length phis /\ List.length xs = List.length phis.
Proof. induction 1 as [|phi g x phis gs xs H K [IH1 IH2]]; [easy|]. simpl. lia. Qed.
Lemma vsum_app l m : vsum (l ++ m) = vadd (vsum l) (vsum m).
Proof.
  induction l as [|a l IH]; simpl; [|rewrite IH]; apply functional_extensionality; intros k; unfold vadd, vzero; ring.
Qed.

Section L.
  Context {SY : sympy} (OK : sympy_ok SY).
  Variable P : list string.
  Notation okp := (okp P). Notation oke := (oke P). Notation St := (St P). Notation T := (T P).
  Notation okc := (okc P). Notation derp := (derp P). Notation dere := (dere P). Notation derl := (derl P). Notation derm := (derm P).

  Lemma T_eq (k k' : M problem) s pb c A : k s = k' s -> T k s pb c A -> T k' s pb c A.
  Proof using Type. intros E H HS Hc. destruct (H HS Hc) as (p & sf & l & H1 & R). exists p, sf, l. rewrite <- E. split; [easy|exact R]. Qed.
  Lemma bind_assoc {A B C} (m : M A) (f : A -> M B) (g : B -> M C) s : bind m (fun a => bind (f a) g) s = bind (bind m f) g s.
  Proof using Type. unfold bind. destruct (m s) as [[a|e] s']; easy. Qed.
  Lemma T_assoc {A B} (m : M A) (f : A -> M B) (g : B -> M problem) s pb c R :
    T (bind m (fun a => bind (f a) g)) s pb c R -> T (bind (bind m f) g) s pb c R.
  Proof using Type. apply T_eq. apply bind_assoc. Qed.
  Lemma T_drop (k : M problem) s pb c c' (m : senv -> senv) A' :
    (forall s, okc s c -> okc s c') -> (forall v phi en, vals v phi c en -> vals v phi c' (m en)) ->
    T k s pb c' A' -> T k s pb c (fun d r en q => A' d r (m en) q).
  Proof using Type.
    intros Ho Hv HT.
    refine (T_iff _ _ _ _ _ _ _ _ (T_same P k s pb c c' (fun d r en en' => en' = m en) A' (Ho s) _ _ HT)).
    - intros d r en q. split; [intros (en' & -> & HA); easy|eauto].
    - intros d r v phi en _ _ Hvs. exists (m en). split; [easy|]. apply Hv; easy.
    - intros d r v phi en en' _ _ Hvs ->. apply Hv; easy.
  Qed.
  Lemma derp_weak c c' p X (m : senv -> senv) :
    (forall s, okc s c' -> okc s c) -> (forall v phi en, vals v phi c' en -> vals v phi c (m en)) ->
    derp c p X -> derp c' p (fun r en => X r (m en)).
  Proof using Type. intros Ho Hv H s Hc. destruct (H s (Ho s Hc)) as [A B]. split; [easy|]. intros v phi en Hvs. apply (B v phi). apply Hv; easy. Qed.
  Lemma derl_weak c c' p X (m : senv -> senv) :
    (forall s, okc s c' -> okc s c) -> (forall v phi en, vals v phi c' en -> vals v phi c (m en)) ->
    derl c p X -> derl c' p (fun r en => X r (m en)).
  Proof using Type. intros Ho Hv H s Hc. destruct (H s (Ho s Hc)) as [A B]. split; [easy|]. intros v phi en Hvs. apply (B v phi). apply Hv; easy. Qed.

  (** values of points lie in R^d *)
  Lemma T_inRd (k : M problem) s pb c p X A : derp c p X -> T k s pb c A ->
    T k s pb c (fun d r en q => in_Rd d (X r en) /\ A d r en q).
  Proof using Type.
    intros HX HT HS Hc. destruct (HT HS Hc) as (p0 & sf & l & H1 & H2 & H3 & H4 & H5 & H6 & H7 & H8 & H9).
    exists p0, sf, l. repeat (split; [easy|]). intros d r q. destruct (H9 d r q) as [B W]. split.
    - intros v phi en Hv Hcs Hvs Hh Hq. split; [|eapply B; eauto].
      destruct (HX s Hc) as [_ Dp]. rewrite <- (proj1 (proj2 Hv)), <- (Dp v phi en Hvs). eapply space_p; eauto.
    - intros v phi en Hv Hcs Hvs [_ HA]. eapply W; eauto.
  Qed.

  (** ** Contexts *)
  Lemma okc_split_x s x c : okc s (addx x c) -> okc s c.
  Proof using Type. intros (A & B & C & D). split; [easy|]. split; [easy|]. split; [inversion C; easy|easy]. Qed.
  Lemma okc_split_e s x c : okc s (adde x c) -> okc s c.
  Proof using Type. intros (A & B & C & D & E). split; [easy|]. split; [easy|]. split; [easy|]. split; [inversion D; easy|easy]. Qed.
  Lemma okc_split_l s x c : okc s (addl x c) -> okc s c.
  Proof using Type. intros (A & B & C & D & E & F). repeat (split; [easy|]). split; [inversion E; easy|easy]. Qed.
  Lemma okc_split_m s x c : okc s (addm x c) -> okc s c.
  Proof using Type. intros (A & B & C & D & E & F & G). repeat (split; [easy|]). split; [inversion F; easy|easy]. Qed.
  Lemma okc_x s x c : okc s (addx x c) -> okp s x.
  Proof using Type. intros (A & B & C & D). inversion C; easy. Qed.
  Lemma okc_e s x c : okc s (adde x c) -> oke s x.
  Proof using Type. intros (A & B & C & D & E). inversion D; easy. Qed.
  Lemma okc_l s x c : okc s (addl x c) -> Forall (okp s) x.
  Proof using Type. intros (A & B & C & D & E & F). inversion E; easy. Qed.
  Lemma okc_m s x c : okc s (addm x c) -> Forall (oke s) x.
  Proof using Type. intros (A & B & C & D & E & F & G). inversion F; easy. Qed.

  (** ** Lists computed from known ones *)
  Lemma derl_nil c : derl c [] (fun _ _ => []).
  Proof using Type. intros s _. split; [constructor|easy]. Qed.
  Lemma derl_cons c p l X Y : derp c p X -> derl c l Y -> derl c (p :: l) (fun r en => X r en :: Y r en).
  Proof using Type.
    intros H K s Hc. destruct (H s Hc) as [A B], (K s Hc) as [C D]. split; [constructor; easy|].
    intros v phi en Hv. simpl. rewrite (B v phi en Hv), (D v phi en Hv). easy.
  Qed.
  Lemma derl_app c l m X Y : derl c l X -> derl c m Y -> derl c (l ++ m) (fun r en => X r en ++ Y r en).
  Proof using Type.
    intros H K s Hc. destruct (H s Hc) as [A B], (K s Hc) as [C D]. split; [apply Forall_app; easy|].
    intros v phi en Hv. rewrite map_app, (B v phi en Hv), (D v phi en Hv). easy.
  Qed.
  Lemma derl_hd c p l X : derl c (p :: l) X -> derp c p (fun r en => hd vzero (X r en)).
  Proof using Type.
    intros H s Hc. destruct (H s Hc) as [A B]. split; [inversion A; easy|]. intros v phi en Hv. rewrite <- (B v phi en Hv). easy.
  Qed.
  Lemma derl_tl c p l X : derl c (p :: l) X -> derl c l (fun r en => tl (X r en)).
  Proof using Type.
    intros H s Hc. destruct (H s Hc) as [A B]. split; [inversion A; easy|]. intros v phi en Hv. rewrite <- (B v phi en Hv). easy.
  Qed.
  Lemma derl_map c l X f G : derl c l X -> (forall p, derp (addx p c) (f p) G) ->
    derl c (map f l) (fun r en => map (fun a => G r (pushx a en)) (X r en)).
  Proof using Type.
    intros H K s Hc. destruct (H s Hc) as [A B]. split.
    - apply Forall_map. eapply Forall_impl; [|exact A]. intros p Hp. apply (K p s). apply okc_addx; easy.
    - intros v phi en Hv. rewrite <- (B v phi en Hv). clear B H X. rewrite !map_map. apply map_ext_in. intros p Hin. rewrite Forall_forall in A.
      apply (proj2 (K p s (okc_addx P s c p Hc (A p Hin))) v phi). apply vals_addx; easy.
  Qed.
  Lemma derl_zip c l m X Y f G : derl c l X -> derl c m Y -> (forall p q, derp (addx q (addx p c)) (f p q) G) ->
    derl c (zip_with f l m) (fun r en => map2 (fun a b => G r (pushx b (pushx a en))) (X r en) (Y r en)).
  Proof using Type.
    intros H H' K s Hc. destruct (H s Hc) as [A B], (H' s Hc) as [A' B']. rewrite zip_with_map2.
    enough (E : Forall (okp s) (map2 f l m) /\ forall v phi en, vals v phi c en ->
      map (den_p v) (map2 f l m) = map2 (fun a b => G (v_env v) (pushx b (pushx a en))) (map (den_p v) l) (map (den_p v) m)).
    { split; [easy|]. intros v phi en Hv. rewrite <- (B v phi en Hv), <- (B' v phi en Hv). apply (proj2 E v phi); easy. }
    clear B B' H H' X Y. revert m A'. induction l as [|p l IH]; intros [|q m] A'; try (split; [constructor|easy]).
    inversion A; subst. inversion A'; subst. destruct (IH H2 m H4) as [I1 I2].
    destruct (K p q s (okc_addx P s _ q (okc_addx P s c p Hc H1) H3)) as [K1 K2]. split; [constructor; easy|].
    intros v phi en Hv. simpl. rewrite (I2 v phi en Hv). f_equal. apply (K2 v phi). apply vals_addx; [apply vals_addx|]; easy.
  Qed.
  Lemma derl_zip3 c l m n X Y Z f G : derl c l X -> derl c m Y -> derl c n Z ->
    (forall p q t, derp (addx t (addx q (addx p c))) (f p q t) G) ->
    derl c (zip3 f l m n) (fun r en => map3 (fun a b e => G r (pushx e (pushx b (pushx a en)))) (X r en) (Y r en) (Z r en)).
  Proof using Type.
    intros H H' H'' K s Hc. destruct (H s Hc) as [A B], (H' s Hc) as [A' B'], (H'' s Hc) as [A'' B'']. rewrite zip3_map3.
    enough (E : Forall (okp s) (map3 f l m n) /\ forall v phi en, vals v phi c en ->
      map (den_p v) (map3 f l m n) = map3 (fun a b e => G (v_env v) (pushx e (pushx b (pushx a en)))) (map (den_p v) l) (map (den_p v) m) (map (den_p v) n)).
    { split; [easy|]. intros v phi en Hv. rewrite <- (B v phi en Hv), <- (B' v phi en Hv), <- (B'' v phi en Hv). apply (proj2 E v phi); easy. }
    clear B B' B'' H H' H'' X Y Z. revert m n A' A''. induction l as [|p l IH]; intros [|q m] [|t n] A' A''; try (split; [constructor|easy]).
    inversion A; subst. inversion A'; subst. inversion A''; subst. destruct (IH H2 m n H4 H6) as [I1 I2].
    destruct (K p q t s (okc_addx P s _ t (okc_addx P s _ q (okc_addx P s c p Hc H1) H3) H5)) as [K1 K2]. split; [constructor; easy|].
    intros v phi en Hv. simpl. rewrite (I2 v phi en Hv). f_equal. apply (K2 v phi). apply vals_addx; [apply vals_addx; [apply vals_addx|]|]; easy.
  Qed.
  Lemma derm_zip c l m X Y f G : derl c l X -> derl c m Y -> (forall p q, dere (addx q (addx p c)) (f p q) G) ->
    derm c (zip_with f l m) (fun d r en => map2 (fun a b => G d r (pushx b (pushx a en))) (X r en) (Y r en)).
  Proof using Type.
    intros H H' K s Hc. destruct (H s Hc) as [A B], (H' s Hc) as [A' B']. rewrite zip_with_map2.
    enough (E : Forall (oke s) (map2 f l m) /\ forall v phi en, vals v phi c en ->
      map (den_e v) (map2 f l m) = map2 (fun a b => G (v_dim v) (v_env v) (pushx b (pushx a en))) (map (den_p v) l) (map (den_p v) m)).
    { split; [easy|]. intros v phi en Hv. rewrite <- (B v phi en Hv), <- (B' v phi en Hv). apply (proj2 E v phi); easy. }
    clear B B' H H' X Y. revert m A'. induction l as [|p l IH]; intros [|q m] A'; try (split; [constructor|easy]).
    inversion A; subst. inversion A'; subst. destruct (IH H2 m H4) as [I1 I2].
    destruct (K p q s (okc_addx P s _ q (okc_addx P s c p Hc H1) H3)) as [K1 K2]. split; [constructor; easy|].
    intros v phi en Hv. simpl. rewrite (I2 v phi en Hv). f_equal. apply (K2 v phi). apply vals_addx; [apply vals_addx|]; easy.
  Qed.
  Lemma derm_zip3 c l m n X Y Z f G : derl c l X -> derl c m Y -> derl c n Z ->
    (forall p q t, dere (addx t (addx q (addx p c))) (f p q t) G) ->
    derm c (zip3 f l m n) (fun d r en => map3 (fun a b e => G d r (pushx e (pushx b (pushx a en)))) (X r en) (Y r en) (Z r en)).
  Proof using Type.
    intros H H' H'' K s Hc. destruct (H s Hc) as [A B], (H' s Hc) as [A' B'], (H'' s Hc) as [A'' B'']. rewrite zip3_map3.
    enough (E : Forall (oke s) (map3 f l m n) /\ forall v phi en, vals v phi c en ->
      map (den_e v) (map3 f l m n) = map3 (fun a b e => G (v_dim v) (v_env v) (pushx e (pushx b (pushx a en)))) (map (den_p v) l) (map (den_p v) m) (map (den_p v) n)).
    { split; [easy|]. intros v phi en Hv. rewrite <- (B v phi en Hv), <- (B' v phi en Hv), <- (B'' v phi en Hv). apply (proj2 E v phi); easy. }
    clear B B' B'' H H' H'' X Y Z. revert m n A' A''. induction l as [|p l IH]; intros [|q m] [|t n] A' A''; try (split; [constructor|easy]).
    inversion A; subst. inversion A'; subst. inversion A''; subst. destruct (IH H2 m n H4 H6) as [I1 I2].
    destruct (K p q t s (okc_addx P s _ t (okc_addx P s _ q (okc_addx P s c p Hc H1) H3) H5)) as [K1 K2]. split; [constructor; easy|].
    intros v phi en Hv. simpl. rewrite (I2 v phi en Hv). f_equal. apply (K2 v phi). apply vals_addx; [apply vals_addx; [apply vals_addx|]|]; easy.
  Qed.
  Lemma derm_zip4 c l m n o u X Y Z O U f G : derl c l X -> derl c m Y -> derm c n Z -> derl c o O -> derl c u U ->
    List.length m = List.length l -> List.length n = List.length l ->
    (forall p q e t w, dere (addx w (addx t (adde e (addx q (addx p c))))) (f (p, q) e t w) G) ->
    derm c (zip4 f (combine l m) n o u)
      (fun d r en => map5 (fun a b z i y => G d r (pushx y (pushx i (pushe z (pushx b (pushx a en)))))) (X r en) (Y r en) (Z d r en) (O r en) (U r en)).
  Proof using Type.
    intros H1 H2 H3 H4 H5 L1 L2 K s Hc. destruct (H1 s Hc) as [A1 B1], (H2 s Hc) as [A2 B2], (H3 s Hc) as [A3 B3], (H4 s Hc) as [A4 B4], (H5 s Hc) as [A5 B5].
    rewrite (zip4_map5 f) by easy.
    enough (E : Forall (oke s) (map5 (fun a b => f (a, b)) l m n o u) /\ forall v phi en, vals v phi c en ->
      map (den_e v) (map5 (fun a b => f (a, b)) l m n o u) = map5 (fun a b z i y => G (v_dim v) (v_env v) (pushx y (pushx i (pushe z (pushx b (pushx a en))))))
        (map (den_p v) l) (map (den_p v) m) (map (den_e v) n) (map (den_p v) o) (map (den_p v) u)).
    { split; [easy|]. intros v phi en Hv. rewrite <- (B1 v phi en Hv), <- (B2 v phi en Hv), <- (B3 v phi en Hv), <- (B4 v phi en Hv), <- (B5 v phi en Hv).
      apply (proj2 E v phi); easy. }
    clear B1 B2 B3 B4 B5 H1 H2 H3 H4 H5 X Y Z O U L1 L2. revert m n o u A2 A3 A4 A5.
    induction l as [|p l IH]; intros [|q m] [|e n] [|t o] [|w u] A2 A3 A4 A5; try (split; [constructor|easy]).
    inversion A1; subst. inversion A2; subst. inversion A3; subst. inversion A4; subst. inversion A5; subst.
    destruct (IH H2 m n o u H4 H6 H8 H10) as [I1 I2].
    destruct (K p q e t w s) as [K1 K2].
    { apply okc_addx; [apply okc_addx; [apply okc_adde; [apply okc_addx; [apply okc_addx|]|]|]|]; easy. }
    split; [constructor; easy|].
    intros v phi en Hv. simpl. rewrite (I2 v phi en Hv). f_equal. apply (K2 v phi).
    apply vals_addx; [apply vals_addx; [apply vals_adde; [apply vals_addx; [apply vals_addx|]|]|]|]; easy.
  Qed.

  Lemma vadd_zero_r x : vadd x vzero = x.
  Proof using Type. apply functional_extensionality. intros k. unfold vadd, vzero. ring. Qed.
  Lemma vadd_assoc x y z : vadd (vadd x y) z = vadd x (vadd y z).
  Proof using Type. apply functional_extensionality. intros k. unfold vadd. ring. Qed.
  Lemma derp_sum c l X : derl c l X -> derp c (sum_points SY l) (fun r en => vsum (X r en)).
  Proof using OK.
    intros H s Hc. destruct (H s Hc) as [A B].
    enough (E : okp s (sum_points SY l) /\ forall v, den_p v (sum_points SY l) = vsum (map (den_p v) l)).
    { split; [apply E|]. intros v phi en Hv. rewrite (proj2 E), (B v phi en Hv). easy. }
    clear H B. destruct l as [|p l]; simpl. { split; [apply okp_zero|intros; apply zero_point_den]. }
    inversion_clear A as [|? ? Hp Hl]. revert p Hp. induction l as [|q l IH]; intros p Hp; simpl.
    - split; [easy|]. intros v. rewrite vadd_zero_r. easy.
    - inversion_clear Hl as [|? ? Hq Hl']. destruct (IH Hl' (padd SY p q)) as [I1 I2]. { apply (okp_padd OK P); easy. } split; [easy|].
      intros v. rewrite I2, (padd_den SY OK) by (eapply okp_wf; eauto). apply vadd_assoc.
  Qed.
  Lemma fold_eadd s l : forall e, oke s e -> Forall (oke s) l -> oke s (fold_left (eadd SY) l e) /\
    forall v, den_e v (fold_left (eadd SY) l e) = den_e v e + rsuml (map (den_e v) l).
  Proof using OK.
    induction l as [|a l IH]; intros e He Hl; simpl. { split; [easy|]. intros v. lra. }
    inversion Hl; subst. destruct (IH (eadd SY e a)) as [I1 I2]; [apply (oke_eadd OK P); easy|easy|]. split; [easy|].
    intros v. rewrite I2, (eadd_den SY OK) by (eapply oke_wf; eauto). unfold rsuml. lra.
  Qed.
  Lemma dere_sum_from c e l X Y : dere c e X -> derm c l Y -> dere c (sum_from SY e l) (fun d r en => X d r en + rsuml (Y d r en)).
  Proof using OK.
    intros H K s Hc. destruct (H s Hc) as [A B], (K s Hc) as [C D]. destruct (fold_eadd s l e A C) as [E F]. split; [easy|].
    intros v phi en Hv. unfold sum_from. rewrite F, (B v phi en Hv), (D v phi en Hv). easy.
  Qed.
  Lemma dere_sum0 c l Y : derm c l Y -> dere c (sum_from_zero SY l) (fun d r en => rsuml (Y d r en)).
  Proof using OK.
    intros K s Hc. destruct (K s Hc) as [C D].
    enough (E : oke s (sum_from_zero SY l) /\ forall v, den_e v (sum_from_zero SY l) = rsuml (map (den_e v) l)).
    { split; [apply E|]. intros v phi en Hv. rewrite (proj2 E), (D v phi en Hv). easy. }
    clear K D. destruct l as [|a l]; simpl.
    { split; [|intros; apply zero_expr_den]. split; [apply own_zero_e|]. split; [intros ? ? []|intros w r []]. }
    inversion C; subst.
    assert (Ha : oke s (eaddc SY a 0)).
    { split; [apply own_eaddc; apply H1|].
      assert (E : eaddc SY a 0 = eadd SY a (mkExpr false [(KOne, Num 0)])) by reflexivity. rewrite E. split.
      - apply (eadd_all OK); [apply H1|]. intros kv x [<-|[]] [].
      - apply (no_const_eadd SY OK); [apply H1|]. intros w r [[= <-]|[]]. simpl. apply Q2R_0'. }
    destruct (fold_eadd s l _ Ha H2) as [I1 I2]. split; [easy|]. intros v. rewrite I2, (eaddc_den SY OK), Q2R_0'. unfold rsuml. simpl. lra.
  Qed.

  (** ** Loops *)
  Definition addfs (fs : list nat) (F : nat) (c : ctx) : ctx := mkCtx (cf c ++ fs) [(F, seq 0 (List.length (cf c ++ fs)))] (cx c) (ce c) (cl c) (cm c).
  Definition pushfs (phis : list rfun) (en : senv) : senv := mkSE (vf en ++ phis) (vx en) (ve en) (vl en) (vm en).
  Lemma T_define_gen mu L n : good_class mu L -> forall (k : list nat * option nat -> M problem) s pb c F A', (1 <= List.length (cf c))%nat ->
    In (F, seq 0 (List.length (cf c))) (cs c) \/ cf c = [F] ->
    (forall fs G s', List.length fs = n -> T (k (cf c ++ fs, Some G)) s' pb (addfs fs G c) A') ->
    T (bind (define_loop SY mu L n (cf c) (Some F)) k) s pb c (fun d r en q => exists phis, List.length phis = n /\
       Forall (function_class d mu L) phis /\ A' d r (pushfs phis en) q).
  Proof using Type.
    intros HC. induction n as [|n IH]; intros k s pb c F A' H1 HF Hk.
    - simpl. refine (T_iff P _ _ _ _ (fun d r en q => A' d r (pushfs [] en) q) _ _ (T_drop _ _ _ _ (addfs [] F c) (pushfs []) A' _ _ _)).
      + intros d r en q. split; [intros HA; exists []; easy|intros (phis & Hl & _ & HA)]. destruct phis; easy.
      + intros s0 (B1 & B2 & B3 & B4 & B5 & B6 & B7). unfold addfs, BuilderT.okc; simpl. rewrite app_nil_r. repeat (split; [easy|]).
        constructor; [|constructor]. destruct HF as [HF|HF]; [rewrite Forall_forall in B7; apply B7; easy|]. simpl. rewrite HF in *. simpl.
        split; [|split; [repeat constructor|repeat constructor; intros []]]. left. split; [inversion B1; easy|easy].
      + intros v phi en (V1 & V2). split; [simpl; rewrite !app_nil_r; easy|easy].
      + specialize (Hk [] F s eq_refl). rewrite app_nil_r in Hk. apply Hk.
    - cbn [define_loop]. apply T_assoc.
      refine (T_iff P _ _ _ _ _ _ _ (T_def P mu L _ s pb c (fun d r en q => exists phis, List.length phis = n /\
         Forall (function_class d mu L) phis /\ A' d r (pushfs phis en) q) HC _)).
      + intros d r en q. split.
        * intros (phi & Hphi & phis & Hl & Hc & HA). exists (phi :: phis). split; [simpl; congruence|]. split; [constructor; easy|].
          unfold pushfs in *. simpl in HA. rewrite <- app_assoc in HA. exact HA.
        * intros ([|phi phis] & Hl & Hc & HA); [easy|]. inversion Hc; subst. exists phi. split; [easy|]. exists phis. split; [simpl in Hl; lia|].
          split; [easy|]. unfold pushfs in *. simpl. rewrite <- app_assoc. exact HA.
      + intros fi s1. apply T_assoc. apply (T_fn_add P F fi (seq 0 (List.length (cf c))) (List.length (cf c))).
        * unfold addf. cbn [cf]. rewrite nth_error_app2, Nat.sub_diag by lia. easy.
        * destruct HF as [HF|HF].
          -- right. apply In_nth_error in HF as [j Hj]. exists j. exact Hj.
          -- left. exists O. simpl. rewrite HF. easy.
        * rewrite in_seq. lia.
        * intros G s2.
          refine (IH k s2 pb (adds G _ (addf fi c)) G A' _ _ _).
          -- simpl. rewrite app_length. simpl. lia.
          -- left. simpl. left. f_equal. rewrite app_length. simpl. rewrite Nat.add_1_r, seq_S. easy.
          -- intros fs G' s' Hl. specialize (Hk (fi :: fs) G' s'). unfold addfs in *. simpl. rewrite <- app_assoc. simpl. apply Hk. simpl. lia.
  Qed.
  Lemma T_define mu L n (k : list nat * option nat -> M problem) s pb c A' : good_class mu L -> cf c = [] -> (1 <= n)%nat ->
    (forall fs G s', List.length fs = n -> T (k (fs, Some G)) s' pb (addfs fs G c) A') ->
    T (bind (define_loop SY mu L n [] None) k) s pb c (fun d r en q => exists phis, List.length phis = n /\
       Forall (function_class d mu L) phis /\ A' d r (pushfs phis en) q).
  Proof using Type.
    intros HC H0 Hn Hk. destruct n as [|n]; [lia|]. cbn [define_loop]. apply T_assoc.
    refine (T_iff P _ _ _ _ _ _ _ (T_def P mu L _ s pb c (fun d r en q => exists phis, List.length phis = n /\
         Forall (function_class d mu L) phis /\ A' d r (pushfs phis en) q) HC _)).
    - intros d r en q. split.
      + intros (phi & Hphi & phis & Hl & Hc & HA). exists (phi :: phis). split; [simpl; congruence|]. split; [constructor; easy|].
        unfold pushfs in *. simpl in HA. rewrite <- app_assoc in HA. exact HA.
      + intros ([|phi phis] & Hl & Hc & HA); [easy|]. inversion Hc; subst. exists phi. split; [easy|]. exists phis. split; [simpl in Hl; lia|].
        split; [easy|]. unfold pushfs in *. simpl. rewrite <- app_assoc. exact HA.
    - intros fi s1. apply T_assoc.
      assert (E : forall X (g : nat -> M X) st, bind (ret fi) g st = g fi st) by reflexivity.
      eapply T_eq; [symmetry; apply E|]. cbv beta.
      pose proof (T_define_gen mu L n HC k s1 pb (addf fi c) fi A') as G. simpl in G. rewrite H0 in G. simpl in G. simpl. apply G; [lia|auto|].
      intros fs F s' Hl. specialize (Hk (fi :: fs) F s'). unfold addfs in *. rewrite H0 in *. simpl in *. rewrite H0. apply Hk. lia.
  Qed.

  Lemma T_iff_v k s pb c (A A' : nat -> env -> senv -> R -> Prop) :
    (forall d r v phi en q, okc s c -> space d r v -> vals v phi c en -> (A d r en q <-> A' d r en q)) -> T k s pb c A -> T k s pb c A'.
  Proof using Type.
    intros H HT HS Hc. destruct (HT HS Hc) as (p & sf & l & H1 & H2 & H3 & H4 & H5 & H6 & H7 & H8 & H9).
    exists p, sf, l. repeat (split; [easy|]). intros d r q. destruct (H9 d r q) as [B W]. split.
    - intros v phi en Hv Hcs Hvs Hh Hq. rewrite <- (H d r v phi en q Hc Hv Hvs). eapply B; eauto.
    - intros v phi en Hv Hcs Hvs HA. rewrite <- (H d r v phi en q Hc Hv Hvs) in HA. eapply W; eauto.
  Qed.

  (** [fs] are the functions with the indices [is] *)
  Definition at_is (c : ctx) (is fs : list nat) : Prop := Forall2 (fun i f => nth_error (cf c) i = Some f) is fs.
  Definition funs_at (en : senv) (is : list nat) : list rfun := map (fun i => nth i (vf en) rfun0) is.

  Lemma T_stat_of F is n (k : point * point * expr -> M problem) s pb c A' :
    nth_error (cs c) n = Some (F, is) -> (1 <= List.length is)%nat ->
    (forall x e s', pruned x -> T (k (x, zero_point, e)) s' pb (adde e (addx x c)) A') ->
    T (bind (stationary_of SY (Some F)) k) s pb c (fun d r en q =>
      exists x z, optimal d (funs_at en is) x z /\ A' d r (pushe z (pushx x en)) q).
  Proof using OK.
    intros Hn Hl Hk. unfold funs_at. simpl. intros HS Hc.
    assert (HF' : sums s F (map (fun i => nth i (cf c) 0%nat) is) /\ Forall (fun i => (i < List.length (cf c))%nat) is /\ NoDup is).
    { destruct Hc as (_ & _ & _ & _ & _ & _ & C). rewrite Forall_forall in C. apply (C (F, is)). eapply nth_error_In; eauto. }
    destruct (Nat.le_gt_cases 2 (List.length is)) as [H2|H2]. { revert HS Hc. eapply (T_stat_sum OK); eauto. }
    destruct is as [|i [|]]; simpl in Hl, H2; try lia. destruct HF' as (F1 & F2 & _). inversion_clear F2 as [|? ? F3 _].
    assert (E : forall d phi x z, optimal d [phi] x z <-> in_Rd d x /\ query d phi x vzero z).
    { intros d phi x z. split.
      - intros (Hx & gs & zs & HQ & Hs & ->). split; [easy|]. inversion HQ; subst. inversion H5; subst. simpl in *. rewrite vadd_zero_r in Hs. subst g.
        rewrite Rplus_0_r. easy.
      - intros (Hx & HQ). split; [easy|]. exists [vzero], [z]. split; [constructor; [easy|constructor]|]. simpl. rewrite vadd_zero_r. split; [easy|]. lra. }
    destruct F1 as [[F1 E1]|F1].
    - simpl in E1. injection E1 as E1. revert HS Hc.
      refine (T_iff P _ _ _ _ _ _ _ (T_stat OK P i F k s pb c A' _ Hk)).
      + intros d r en q. simpl. split; [intros (x & z & H & K & HA); exists x, z; split; [apply E; easy|easy]|].
        intros (x & z & H & HA). apply E in H as [H K]. eauto 6.
      + rewrite <- E1. apply nth_error_nth'. easy.
    - destruct (rule_stationary_sum OK P s F _ HS F1) as (x & e & s' & R & S' & E' & F0 & Og & Oe & B & W).
      { constructor; [|constructor]. destruct Hc as (C & _). rewrite Forall_forall in C. apply C, nth_In, F3. }
      { easy. }
      refine (T_iff P _ _ _ _ _ _ _ (T_bind P (stationary_point SY F) k s pb c (leaf_point x, zero_point, e) s' (adde e (addx (leaf_point x) c))
        (fun d r en en' => exists G Z, optimal d (map (fun i => nth i (vf en) rfun0) [i]) G Z /\ en' = pushe Z (pushx G en)) A' (proj1 HS) R E' S' _ _ _ (Hk _ _ _ (leaf_point_pruned x))) HS Hc).
      + intros d r en q. split; [intros (en' & (G & Z & HQ & ->) & HA); eauto|intros (G & Z & HQ & HA); eauto 6].
      + apply okc_adde; [apply okc_addx; [eapply okc_ext; eauto|easy]|easy].
      + intros d r v phi en Hv Hcs Hvs. eexists. split; [exists (den_p v (leaf_point x)), (den_e v e); split; [|reflexivity]|].
        * rewrite <- (vals_fs v phi c en [i] Hvs) by (repeat constructor; easy). apply (B d r); easy.
        * apply vals_adde; [apply vals_addx; easy|easy].
      + intros d r v phi en en' Hv Hcs Hvs (G & Z & HQ & ->).
        rewrite <- (vals_fs v phi c en [i] Hvs) in HQ by (repeat constructor; easy).
        destruct (W d r v phi G Z Hv Hcs HQ) as (v' & Hv' & Ha & Hc' & HG & HZ). exists v', phi. split; [easy|]. split; [easy|]. split; [easy|].
        apply vals_adde; [apply vals_addx; [eapply vals_agree; eauto|easy]|easy].
  Qed.

  Lemma T_conj i f p X (k : point -> M problem) s pb c A' :
    nth_error (cf c) i = Some f -> derp c p X ->
    (forall x s', T (k x) s' pb (addx x c) A') ->
    T (bind (subgrad_conjugate SY p f) k) s pb c (fun d r en q =>
      exists x, conjugated d (nth i (vf en) rfun0) (X r en) x /\ A' d r (pushx x en) q).
  Proof using OK.
    intros Hi HX H HS Hc.
    assert (Hf : isf s f). { destruct Hc as (A & _). rewrite Forall_forall in A. apply A. eapply nth_error_In; eauto. }
    destruct (HX s Hc) as [Op Dp].
    destruct (rule_conj OK P s f p HS Hf Op) as (x & s' & R & S' & E & F & Ox & B & W).
    refine (T_iff P _ _ _ _ _ _ _ (T_bind P (subgrad_conjugate SY p f) k s pb c (leaf_point x) s' (addx (leaf_point x) c)
      (fun d r en en' => exists Y, conjugated d (nth i (vf en) rfun0) (X r en) Y /\ en' = pushx Y en) A' (proj1 HS) R E S' _ _ _ (H _ _)) HS Hc).
    - intros d r en q. split; [intros (en' & (Y & HQ & ->) & HA); eauto|intros (Y & HQ & HA); eauto 8].
    - apply okc_addx; [eapply okc_ext; eauto|easy].
    - intros d r v phi en Hv Hcs Hvs. eexists. split; [exists (den_p v (leaf_point x)); split; [|reflexivity]|].
      + rewrite (vals_f v phi c en i f Hvs Hi), <- (proj1 (proj2 Hv)), <- (Dp v phi en Hvs). apply (B d r); easy.
      + apply vals_addx; easy.
    - intros d r v phi en en' Hv Hcs Hvs (Y & HQ & ->).
      rewrite (vals_f v phi c en i f Hvs Hi), <- (proj1 (proj2 Hv)), <- (Dp v phi en Hvs) in HQ.
      destruct (W d r v phi Y Hv Hcs HQ) as (v' & Hv' & Ha & Hc' & HY). exists v', phi. split; [easy|]. split; [easy|]. split; [easy|].
      apply vals_addx; [eapply vals_agree; eauto|easy].
  Qed.


  Definition gather_x (en : senv) : senv :=
    mkSE (vf en) (tl (vx en)) (tl (ve en)) ((hd vzero (vx en) :: hd [] (vl en)) :: tl (vl en)) (vm en).
  Lemma T_oracles fs : forall is p X (k : list point -> M problem) s pb c A', at_is c is fs -> derp c p X -> pruned p ->
    (forall ys s', List.length ys = List.length fs -> T (k ys) s' pb (addl ys c) A') ->
    T (bind (oracle_loop SY fs p) k) s pb c (fun d r en q =>
      exists gs zs, queries d (X r en) (funs_at en is) gs zs /\ A' d r (pushl gs en) q).
  Proof using OK.
    induction fs as [|f fs IH]; intros is p X k s pb c A' Hat HX Hp Hk; inversion Hat as [|i ? is' ? H1 H3]; subst.
    - simpl. refine (T_iff P _ _ _ _ (fun d r en q => A' d r (pushl [] en) q) _ _ (T_drop _ _ _ _ (addl [] c) (pushl []) A' _ _ (Hk [] s eq_refl))).
      + intros d r en q. split; [intros HA; exists [], []; split; [constructor|easy]|]. intros (gs & zs & HQ & HA). inversion HQ; subst. easy.
      + intros s0 H0. apply okc_addl; [easy|constructor].
      + intros v phi en Hv. apply vals_addl; easy.
    - cbn [oracle_loop]. apply T_assoc.
      refine (T_iff P _ _ _ _ _ _ _ (T_oracle OK P i f p X _ s pb c (fun d r en q => exists gs zs, queries d (X r (mkSE (vf en) (tl (vx en)) (tl (ve en)) (vl en) (vm en))) (funs_at en is') gs zs /\
          A' d r (gather_x (pushl gs en)) q) H1 HX Hp _)).
      + intros d r en q. split.
        * intros (g & z & HQ & gs & zs & HQs & HA). exists (g :: gs), (z :: zs). split; [|exact HA].
          constructor; [easy|]. destruct en; exact HQs.
        * intros (gs & zs & HQ & HA). inversion HQ; subst. exists g, z. split; [easy|]. exists gs0, zs0. split; [|exact HA]. destruct en; easy.
      + intros y e s1. apply T_assoc.
        refine (IH is' p (fun r en => X r (mkSE (vf en) (tl (vx en)) (tl (ve en)) (vl en) (vm en))) _ s1 pb (adde e (addx y c)) (fun d r en q => A' d r (gather_x en) q) _ _ Hp _).
        * exact H3.
        * apply (derp_weak c _ p X (fun en => mkSE (vf en) (tl (vx en)) (tl (ve en)) (vl en) (vm en))); [| |exact HX].
          -- intros s0 H0. eapply okc_split_x, okc_split_e; eauto.
          -- intros v phi en (V1 & V2 & V3 & V4 & V5). simpl in *. unfold vals; simpl. rewrite <- V2, <- V3. easy.
        * intros ys s' Hl. apply (T_drop _ _ _ _ (addl (y :: ys) c) gather_x).
          -- intros s0 H0. apply okc_addl; [eapply okc_split_x, okc_split_e, okc_split_l; eauto|].
             constructor; [eapply okc_x, okc_split_e, okc_split_l; eauto|eapply okc_l; eauto].
          -- intros v phi en (V1 & V2 & V3 & V4 & V5). simpl in *. unfold vals, gather_x; simpl. rewrite <- V2, <- V3, <- V4. easy.
          -- apply Hk. simpl. congruence.
  Qed.

  Definition drop_x (en : senv) : senv := mkSE (vf en) (tl (vx en)) (ve en) (vl en) (vm en).
  Definition gather_c (en : senv) : senv :=
    mkSE (vf en) (tl (vx en)) (ve en) ((hd vzero (vx en) :: hd [] (vl en)) :: tl (vl en)) (vm en).
  Lemma T_conjs fs : forall is zs X (k : list point -> M problem) s pb c A', at_is c is fs -> derl c zs X -> List.length zs = List.length fs ->
    (forall xs s', List.length xs = List.length fs -> T (k xs) s' pb (addl xs c) A') ->
    T (bind (conj_loop SY fs zs) k) s pb c (fun d r en q =>
      exists xs, conjs d (funs_at en is) (X r en) xs /\ A' d r (pushl xs en) q).
  Proof using OK.
    induction fs as [|f fs IH]; intros is zs X k s pb c A' Hat HX Hlz Hk; inversion Hat as [|i ? is' ? H1 H3]; subst.
    - simpl. destruct zs; [|easy]. refine (T_iff_v _ _ _ _ (fun d r en q => A' d r (pushl [] en) q) _ _ (T_drop _ _ _ _ (addl [] c) (pushl []) A' _ _ (Hk [] s eq_refl))).
      + intros d r v phi en q Hc Hv Hvs. split; [intros HA; exists []; split; [|easy]|].
        * rewrite <- (proj1 (proj2 Hv)), <- (proj2 (HX s Hc) v phi en Hvs). constructor.
        * intros (gs & HQ & HA). inversion HQ; subst. easy.
      + intros s0 H0. apply okc_addl; [easy|constructor].
      + intros v phi en Hv. apply vals_addl; easy.
    - destruct zs as [|z zs]; [easy|]. cbn [conj_loop]. apply T_assoc.
      refine (T_iff_v _ _ _ _ _ _ _ (T_conj i f z (fun r en => hd vzero (X r en)) _ s pb c (fun d r en q => exists xs, conjs d (funs_at en is') (tl (X r (drop_x en))) xs /\
          A' d r (gather_c (pushl xs en)) q) H1 (derl_hd _ _ _ _ HX) _)).
      + intros d r v phi en q Hc Hv Hvs.
        assert (E : X r en = den_p v z :: map (den_p v) zs) by (rewrite <- (proj1 (proj2 Hv)), <- (proj2 (HX s Hc) v phi en Hvs); easy).
        unfold drop_x; simpl. replace (mkSE (vf en) (vx en) (ve en) (vl en) (vm en)) with en by (destruct en; easy). rewrite E. simpl. split.
        * intros (g & HQ & gs & HQs & HA). exists (g :: gs). split; [|exact HA]. constructor; easy.
        * intros (gs & HQ & HA). inversion HQ; subst. exists x. split; [easy|]. exists xs. split; [|exact HA]. easy.
      + intros y s1. apply T_assoc.
        refine (IH is' zs (fun r en => tl (X r (drop_x en))) _ s1 pb (addx y c) (fun d r en q => A' d r (gather_c en) q) _ _ _ _).
        * exact H3.
        * apply (derl_weak c _ zs (fun r en => tl (X r en)) drop_x); [| |eapply derl_tl; exact HX].
          -- intros s0 H0. eapply okc_split_x; eauto.
          -- intros v phi en (V1 & V2 & V3 & V4 & V5). unfold vals, drop_x in *; simpl in *. rewrite <- V2. easy.
        * simpl in Hlz. lia.
        * intros ys s' Hl. apply (T_drop _ _ _ _ (addl (y :: ys) c) gather_c).
          -- intros s0 H0. apply okc_addl; [eapply okc_split_x, okc_split_l; eauto|].
             constructor; [eapply okc_x, okc_split_l; eauto|eapply okc_l; eauto].
          -- intros v phi en (V1 & V2 & V3 & V4 & V5). unfold vals, gather_c in *; simpl in *. rewrite <- V2, <- V4. easy.
          -- apply Hk. simpl. congruence.
  Qed.

  Definition drop_xxe (en : senv) : senv := mkSE (vf en) (tl (tl (vx en))) (tl (ve en)) (vl en) (vm en).
  (** x :: g :: ..., e :: ..., [gs; xs], [es] *)
  Definition gather_p (en : senv) : senv :=
    mkSE (vf en) (tl (tl (vx en))) (tl (ve en))
      ((nth 0 (vx en) vzero :: nth 0 (vl en) []) :: (nth 1 (vx en) vzero :: nth 1 (vl en) []) :: tl (tl (vl en)))
      ((hd 0 (ve en) :: hd [] (vm en)) :: tl (vm en)).
  Lemma T_proxes a fs : forall is zs X (k : list point * list point * list expr -> M problem) s pb c A', at_is c is fs -> derl c zs X ->
    List.length zs = List.length fs ->
    (forall xs gs es s', List.length xs = List.length fs -> List.length gs = List.length fs -> List.length es = List.length fs ->
       T (k (xs, gs, es)) s' pb (addm es (addl gs (addl xs c))) A') ->
    T (bind (prox_loop SY fs zs a) k) s pb c (fun d r en q =>
      exists xs gs es, proxes d (Q2R a) (funs_at en is) (X r en) xs gs es /\ A' d r (pushm es (pushl gs (pushl xs en))) q).
  Proof using OK.
    induction fs as [|f fs IH]; intros is zs X k s pb c A' Hat HX Hlz Hk; inversion Hat as [|i ? is' ? H1 H3]; subst.
    - simpl. destruct zs; [|easy].
      refine (T_iff_v _ _ _ _ (fun d r en q => A' d r (pushm [] (pushl [] (pushl [] en))) q) _ _ (T_drop _ _ _ _ (addm [] (addl [] (addl [] c))) (fun en => pushm [] (pushl [] (pushl [] en))) A' _ _ (Hk [] [] [] s eq_refl eq_refl eq_refl))).
      + intros d r v phi en q Hc Hv Hvs. split; [intros HA; exists [], [], []; split; [|easy]|].
        * rewrite <- (proj1 (proj2 Hv)), <- (proj2 (HX s Hc) v phi en Hvs). constructor.
        * intros (xs & gs & es & HQ & HA). inversion HQ; subst. easy.
      + intros s0 H0. apply okc_addm; [apply okc_addl; [apply okc_addl|]|]; easy || constructor.
      + intros v phi en Hv. apply vals_addm; [apply vals_addl; [apply vals_addl|]|]; easy.
    - destruct zs as [|z zs]; [easy|]. cbn [prox_loop]. apply T_assoc.
      refine (T_iff_v _ _ _ _ _ _ _ (T_prox OK P i f z (Num a) (fun r en => hd vzero (X r en)) _ s pb c (fun d r en q => exists xs gs es, proxes d (Q2R a) (funs_at en is') (tl (X r (drop_xxe en))) xs gs es /\
          A' d r (gather_p (pushm es (pushl gs (pushl xs en)))) q) H1 (derl_hd _ _ _ _ HX) (symok_num P a) _)).
      + intros d r v phi en q Hc Hv Hvs.
        assert (E : X r en = den_p v z :: map (den_p v) zs) by (rewrite <- (proj1 (proj2 Hv)), <- (proj2 (HX s Hc) v phi en Hvs); easy).
        unfold drop_xxe; simpl. replace (mkSE (vf en) (vx en) (ve en) (vl en) (vm en)) with en by (destruct en; easy). rewrite E. simpl. split.
        * intros (x & g & e & HQ & xs & gs & es & HQs & HA). exists (x :: xs), (g :: gs), (e :: es). split; [|exact HA]. constructor; easy.
        * intros (xs & gs & es & HQ & HA). inversion HQ; subst. exists x, g, z0. split; [easy|]. exists xs0, gs0, zs0. split; [|exact HA]. easy.
      + intros x g e s1 _. apply T_assoc.
        refine (IH is' zs (fun r en => tl (X r (drop_xxe en))) _ s1 pb (adde e (addx g (addx x c))) (fun d r en q => A' d r (gather_p en) q) _ _ _ _).
        * exact H3.
        * apply (derl_weak c _ zs (fun r en => tl (X r en)) drop_xxe); [| |eapply derl_tl; exact HX].
          -- intros s0 H0. eapply okc_split_x, okc_split_x, okc_split_e; eauto.
          -- intros v phi en (V1 & V2 & V3 & V4 & V5). unfold vals, drop_xxe in *; simpl in *. rewrite <- V2, <- V3. easy.
        * simpl in Hlz. lia.
        * intros xs gs es s' L1 L2 L3. apply (T_drop _ _ _ _ (addm (e :: es) (addl (g :: gs) (addl (x :: xs) c))) gather_p).
          -- intros s0 H0.
             assert (K1 := okc_split_m _ _ _ H0). assert (K2 := okc_split_l _ _ _ K1). assert (K3 := okc_split_l _ _ _ K2).
             assert (K4 := okc_split_e _ _ _ K3). assert (K5 := okc_split_x _ _ _ K4). assert (K6 := okc_split_x _ _ _ K5).
             apply okc_addm; [apply okc_addl; [apply okc_addl|]|]; [easy| | |].
             ++ constructor; [eapply okc_x; eauto|eapply okc_l; eauto].
             ++ constructor; [eapply okc_x; eauto|eapply okc_l; eauto].
             ++ constructor; [eapply okc_e; eauto|eapply okc_m; eauto].
          -- intros v phi en (V1 & V2 & V3 & V4 & V5). unfold vals, gather_p in *; simpl in *. rewrite <- V2, <- V3, <- V4, <- V5. easy.
          -- apply Hk; simpl; congruence.
  Qed.

  (** currents summing to a given point, and the conjugate subgradients there *)
  Definition gather_d (en : senv) : senv :=
    mkSE (vf en) (tl (tl (vx en))) (ve en)
      ((nth 0 (vx en) vzero :: nth 0 (vl en) []) :: (nth 1 (vx en) vzero :: nth 1 (vl en) []) :: tl (tl (vl en))) (vm en).
  Lemma vsub_add_eq x y z : vsub x y = z <-> vadd y z = x.
  Proof using Type.
    split; [intros <-|intros <-]; apply functional_extensionality; intros k; unfold vsub, vadd; ring.
  Qed.
  Lemma T_dual_some fs : forall is l X (k : list point * list point -> M problem) s pb c A', at_is c is fs -> fs <> [] -> derp c l X ->
    (forall ys xs s', List.length ys = List.length fs -> List.length xs = List.length fs -> T (k (ys, xs)) s' pb (addl xs (addl ys c)) A') ->
    T (bind (dual_init SY fs (Some l)) k) s pb c (fun d r en q =>
      exists ys, (List.length ys = List.length fs /\ Forall (in_Rd d) ys /\ vsum ys = X r en) /\
      exists xs, conjs d (funs_at en is) ys xs /\ A' d r (pushl xs (pushl ys en)) q).
  Proof using OK.
    induction fs as [|f fs IH]; intros is l X k s pb c A' Hat Hne HX Hk; [easy|]. inversion Hat as [|i ? is' ? H1 H3]; subst. destruct fs as [|f' fs].
    - cbn [dual_init]. inversion H3; subst. clear IH. apply T_assoc.
      refine (T_iff P _ _ _ _ _ _ _ (T_inRd _ s pb c l X _ HX (T_conj i f l X _ s pb c (fun d r en q => A' d r (pushl [hd vzero (vx en)] (pushl [X r (drop_x en)] (drop_x en))) q) H1 HX _))).
      + intros d r en q. unfold drop_x; simpl. replace (mkSE (vf en) (vx en) (ve en) (vl en) (vm en)) with en by (destruct en; easy). split.
        * intros (Hin & x & HQ & HA). exists [X r en]. split; [split; [easy|split; [constructor; [easy|constructor]|apply vadd_zero_r]]|]. exists [x].
          split; [constructor; [easy|constructor]|exact HA].
        * intros (ys & (Hl & Hin & Hs) & xs & HQ & HA). destruct ys as [|y [|]]; try easy. inversion HQ; subst. inversion H7; subst. inversion_clear Hin.
          simpl in Hs. rewrite vadd_zero_r in Hs. subst y. split; [easy|]. exists x. split; [easy|]. exact HA.
      + intros x s1. cbn [bind ret].
        refine (T_iff P _ _ _ _ _ _ _ (T_letl P (fun y => k (y, [x])) [l] (fun r en => [X r (drop_x en)]) s1 pb (addx x c)
          (fun d r en q => exists z, z = [hd vzero (vx en)] /\ A' d r (drop_x (pushl z en)) q) _ _)).
        * intros d r en q. split; [intros (y & -> & z & -> & HA); exact HA|intros HA; eexists; split; [reflexivity|]; eexists; split; [reflexivity|]; exact HA].
        * apply derl_cons; [|apply derl_nil]. apply (derp_weak c _ l X drop_x); [| |exact HX].
          -- intros s0 H0. eapply okc_split_x; eauto.
          -- intros v phi en (V1 & V2 & V3 & V4 & V5). unfold vals, drop_x in *; simpl in *. rewrite <- V2. easy.
        * intros y ->.
          refine (T_letl P (fun z => k ([l], z)) [x] (fun r en => [hd vzero (vx en)]) s1 pb (addl [l] (addx x c)) (fun d r en q => A' d r (drop_x en) q) _ _).
          -- apply derl_cons; [|apply derl_nil]. intros s0 H0. split; [eapply okc_x, okc_split_l; eauto|].
             intros v phi en (V1 & V2 & V3 & V4 & V5). simpl in *. rewrite <- V2. easy.
          -- intros z ->. apply (T_drop _ _ _ _ (addl [x] (addl [l] c)) drop_x).
             ++ intros s0 H0. apply okc_addl; [apply okc_addl; [eapply okc_split_x, okc_split_l, okc_split_l; eauto|eapply okc_l, okc_split_l; eauto]|].
                eapply okc_l; eauto.
             ++ intros v phi en (V1 & V2 & V3 & V4 & V5). unfold vals, drop_x in *; simpl in *. rewrite <- V2. easy.
             ++ apply Hk; easy.
    - remember (f' :: fs) as fs1 eqn:Ef.
      assert (Eq : dual_init SY (f :: fs1) (Some l) = bind set_initial_point (fun y => bind (subgrad_conjugate SY y f) (fun x =>
         bind (dual_init SY fs1 (Some (psub SY l y))) (fun p => let '(ys, xs) := p in ret (y :: ys, x :: xs))))) by (subst fs1; reflexivity).
      rewrite Eq. clear Eq. apply T_assoc.
      refine (T_iff P _ _ _ _ _ _ _ (T_point P _ s pb c (fun d r en q => exists x, conjugated d (nth i (vf en) rfun0) (hd vzero (vx en)) x /\
         exists ys, (List.length ys = List.length fs1 /\ Forall (in_Rd d) ys /\ vsum ys = vsub (X r (drop_x (drop_x (pushx x en)))) (nth 1 (vx (pushx x en)) vzero)) /\
         exists xs, conjs d (funs_at en is') ys xs /\ A' d r (gather_d (pushl xs (pushl ys (pushx x en)))) q) _)).
      + intros d r en q. unfold drop_x; simpl. replace (mkSE (vf en) (vx en) (ve en) (vl en) (vm en)) with en by (destruct en; easy). split.
        * intros (y & Hy & x & Hx & ys & (L1 & L2 & L3) & xs & Hxs & HA). exists (y :: ys). split; [split; [simpl; lia|split; [constructor; easy|]]|].
          -- simpl. apply vsub_add_eq. easy.
          -- exists (x :: xs). split; [constructor; easy|]. exact HA.
        * intros (ys & (L1 & L2 & L3) & xs & Hxs & HA). inversion Hxs; subst. inversion_clear L2. simpl in L1, L3. exists g. split; [easy|]. exists x. split; [easy|].
          exists gs. split; [split; [simpl in *; lia|split; [easy|symmetry; apply vsub_add_eq; easy]]|]. exists xs0. split; [easy|]. exact HA.
      + intros y s1 _. apply T_assoc.
        refine (T_conj i f y (fun r en => hd vzero (vx en)) _ s1 pb (addx y c) (fun d r en q =>
         exists ys, (List.length ys = List.length fs1 /\ Forall (in_Rd d) ys /\ vsum ys = vsub (X r (drop_x (drop_x en))) (nth 1 (vx en) vzero)) /\
         exists xs, conjs d (funs_at en is') ys xs /\ A' d r (gather_d (pushl xs (pushl ys en))) q) H1 _ _).
        * intros s0 H0. split; [eapply okc_x; eauto|]. intros v phi en (V1 & V2 & V3 & V4 & V5). simpl in *. rewrite <- V2. easy.
        * intros x s2. apply T_assoc.
          refine (IH is' (psub SY l y) (fun r en => vsub (X r (drop_x (drop_x en))) (nth 1 (vx en) vzero)) _ s2 pb (addx x (addx y c)) (fun d r en q => A' d r (gather_d en) q) H3 _ _ _).
          -- subst fs1. easy.
          -- apply (derp_sub OK).
             ++ apply (derp_weak c _ l X (fun en => drop_x (drop_x en))); [| |exact HX].
                ** intros s0 H0. eapply okc_split_x, okc_split_x; eauto.
                ** intros v phi en (V1 & V2 & V3 & V4 & V5). unfold vals, drop_x in *; simpl in *. rewrite <- V2. easy.
             ++ apply (derp_var P 1). easy.
          -- intros ys xs s' L1 L2. apply (T_drop _ _ _ _ (addl (x :: xs) (addl (y :: ys) c)) gather_d).
             ++ intros s0 H0. assert (K2 := okc_split_l _ _ _ H0). assert (K3 := okc_split_l _ _ _ K2).
                assert (K5 := okc_split_x _ _ _ K3). assert (K6 := okc_split_x _ _ _ K5).
                apply okc_addl; [apply okc_addl|]; [easy| |]; (constructor; [eapply okc_x; eauto|eapply okc_l; eauto]).
             ++ intros v phi en (V1 & V2 & V3 & V4 & V5). unfold vals, gather_d in *; simpl in *. rewrite <- V2, <- V4. easy.
             ++ apply Hk; simpl; congruence.
  Qed.
  Lemma vneg_add_eq y z : vopp y = z <-> vadd y z = vzero.
  Proof using Type.
    split; intros H; apply functional_extensionality; intros k; apply (f_equal (fun g => g k)) in H; unfold vopp, vadd, vzero in *; lra.
  Qed.
  Lemma T_dual_none f fs : forall is (k : list point * list point -> M problem) s pb c A', at_is c is (f :: fs) -> fs <> [] ->
    (forall ys xs s', List.length ys = S (List.length fs) -> List.length xs = S (List.length fs) -> T (k (ys, xs)) s' pb (addl xs (addl ys c)) A') ->
    T (bind (dual_init SY (f :: fs) None) k) s pb c (fun d r en q =>
      exists ys, (List.length ys = S (List.length fs) /\ Forall (in_Rd d) ys /\ vsum ys = vzero) /\
      exists xs, conjs d (funs_at en is) ys xs /\ A' d r (pushl xs (pushl ys en)) q).
  Proof using OK.
    intros is k s pb c A' Hat Hne Hk. inversion Hat as [|i ? is' ? H1 H3]; subst.
      assert (Eq : dual_init SY (f :: fs) None = bind set_initial_point (fun y => bind (subgrad_conjugate SY y f) (fun x =>
         bind (dual_init SY fs (Some (pneg SY y))) (fun p => let '(ys, xs) := p in ret (y :: ys, x :: xs))))) by (destruct fs; easy).
      rewrite Eq. clear Eq. apply T_assoc.
      refine (T_iff P _ _ _ _ _ _ _ (T_point P _ s pb c (fun d r en q => exists x, conjugated d (nth i (vf en) rfun0) (hd vzero (vx en)) x /\
         exists ys, (List.length ys = List.length fs /\ Forall (in_Rd d) ys /\ vsum ys = vopp (nth 1 (vx (pushx x en)) vzero)) /\
         exists xs, conjs d (funs_at en is') ys xs /\ A' d r (gather_d (pushl xs (pushl ys (pushx x en)))) q) _)).
      + intros d r en q. split.
        * intros (y & Hy & x & Hx & ys & (L1 & L2 & L3) & xs & Hxs & HA). exists (y :: ys). split; [split; [simpl; lia|split; [constructor; easy|]]|].
          -- simpl. apply vneg_add_eq. easy.
          -- exists (x :: xs). split; [constructor; easy|]. exact HA.
        * intros (ys & (L1 & L2 & L3) & xs & Hxs & HA). inversion Hxs; subst. inversion_clear L2. simpl in L1, L3. exists g. split; [easy|]. exists x. split; [easy|].
          exists gs. split; [split; [lia|split; [easy|symmetry; apply vneg_add_eq; easy]]|]. exists xs0. split; [easy|]. exact HA.
      + intros y s1 _. apply T_assoc.
        refine (T_conj i f y (fun r en => hd vzero (vx en)) _ s1 pb (addx y c) (fun d r en q =>
         exists ys, (List.length ys = List.length fs /\ Forall (in_Rd d) ys /\ vsum ys = vopp (nth 1 (vx en) vzero)) /\
         exists xs, conjs d (funs_at en is') ys xs /\ A' d r (gather_d (pushl xs (pushl ys en))) q) H1 _ _).
        * intros s0 H0. split; [eapply okc_x; eauto|]. intros v phi en (V1 & V2 & V3 & V4 & V5). simpl in *. rewrite <- V2. easy.
        * intros x s2. apply T_assoc.
          refine (T_dual_some fs is' (pneg SY y) (fun r en => vopp (nth 1 (vx en) vzero)) _ s2 pb (addx x (addx y c)) (fun d r en q => A' d r (gather_d en) q) H3 Hne _ _).
          -- apply (derp_neg OK). apply (derp_var P 1). easy.
          -- intros ys xs s' L1 L2. apply (T_drop _ _ _ _ (addl (x :: xs) (addl (y :: ys) c)) gather_d).
             ++ intros s0 H0. assert (K2 := okc_split_l _ _ _ H0). assert (K3 := okc_split_l _ _ _ K2).
                assert (K5 := okc_split_x _ _ _ K3). assert (K6 := okc_split_x _ _ _ K5).
                apply okc_addl; [apply okc_addl|]; [easy| |]; (constructor; [eapply okc_x; eauto|eapply okc_l; eauto]).
             ++ intros v phi en (V1 & V2 & V3 & V4 & V5). unfold vals, gather_d in *; simpl in *. rewrite <- V2, <- V4. easy.
             ++ apply Hk; simpl; congruence.
  Qed.

  (** currents, and minus their sum *)
  Definition gather_i (en : senv) : senv :=
    mkSE (vf en) (hd vzero (vx en) :: tl (tl (vx en))) (ve en) ((nth 1 (vx en) vzero :: hd [] (vl en)) :: tl (vl en)) (vm en).
  Lemma T_init_some n : forall l X (k : list point * option point -> M problem) s pb c A', derp c l X ->
    (forall ys l' s', List.length ys = n -> T (k (ys, Some l')) s' pb (addx l' (addl ys c)) A') ->
    T (bind (init_currents SY n (Some l)) k) s pb c (fun d r en q =>
      exists ys, (List.length ys = n /\ Forall (in_Rd d) ys) /\ A' d r (pushx (vsub (X r en) (vsum ys)) (pushl ys en)) q).
  Proof using OK.
    induction n as [|n IH]; intros l X k s pb c A' HX Hk.
    - cbn [init_currents bind ret].
      refine (T_iff P _ _ _ _ _ _ _ (T_letl P (fun z => k (z, Some l)) [] (fun _ _ => []) s pb c (fun d r en q => exists y, y = X r (mkSE (vf en) (vx en) (ve en) (tl (vl en)) (vm en)) /\ A' d r (pushx y en) q) (derl_nil c) _)).
      + intros d r en q. simpl. replace (mkSE (vf en) (vx en) (ve en) (vl en) (vm en)) with en by (destruct en; easy). split.
        * intros (y & -> & z & -> & HA). exists []. split; [split; [easy|constructor]|]. simpl. rewrite (proj2 (vsub_add_eq (X r en) vzero (X r en))); [exact HA|].
          apply functional_extensionality; intros k0; unfold vadd, vzero; ring.
        * intros (ys & [L1 L2] & HA). destruct ys; [|easy]. exists []. split; [easy|]. exists (X r en). split; [easy|]. simpl in HA.
          rewrite (proj2 (vsub_add_eq (X r en) vzero (X r en))) in HA; [exact HA|].
          apply functional_extensionality; intros k0; unfold vadd, vzero; ring.
      + intros z ->.
        refine (T_let P (fun z => k ([], Some z)) l (fun r en => X r (mkSE (vf en) (vx en) (ve en) (tl (vl en)) (vm en))) s pb (addl [] c) A' _ _).
        * apply (derp_weak c _ l X (fun en => mkSE (vf en) (vx en) (ve en) (tl (vl en)) (vm en))); [| |exact HX].
          -- intros s0 H0. eapply okc_split_l; eauto.
          -- intros v phi en (V1 & V2 & V3 & V4 & V5). unfold vals in *; simpl in *. rewrite <- V4. easy.
        * intros z _. apply Hk. easy.
    - cbn [init_currents]. apply T_assoc.
      refine (T_iff P _ _ _ _ _ _ _ (T_point P _ s pb c (fun d r en q => exists ys, (List.length ys = n /\ Forall (in_Rd d) ys) /\
          A' d r (gather_i (pushx (vsub (vsub (X r (drop_x en)) (hd vzero (vx en))) (vsum ys)) (pushl ys en))) q) _)).
      + intros d r en q. unfold drop_x; simpl. replace (mkSE (vf en) (vx en) (ve en) (vl en) (vm en)) with en by (destruct en; easy).
        assert (E : forall y ys, vsub (vsub (X r en) y) (vsum ys) = vsub (X r en) (vsum (y :: ys))).
        { intros y ys. apply functional_extensionality. intros k0. unfold vsub; simpl; unfold vadd. ring. }
        split.
        * intros (y & Hy & ys & (L1 & L2) & HA). exists (y :: ys). split; [split; [simpl; lia|constructor; easy]|]. rewrite <- E. exact HA.
        * intros (ys & (L1 & L2) & HA). destruct ys as [|y ys]; [easy|]. inversion_clear L2. exists y. split; [easy|]. exists ys. split; [split; [simpl in L1; lia|easy]|].
          rewrite E. exact HA.
      + intros y s1 _. apply T_assoc.
        refine (IH (psub SY l y) (fun r en => vsub (X r (drop_x en)) (hd vzero (vx en))) _ s1 pb (addx y c) (fun d r en q => A' d r (gather_i en) q) _ _).
        * apply (derp_sub OK).
          -- apply (derp_weak c _ l X drop_x); [| |exact HX].
             ++ intros s0 H0. eapply okc_split_x; eauto.
             ++ intros v phi en (V1 & V2 & V3 & V4 & V5). unfold vals, drop_x in *; simpl in *. rewrite <- V2. easy.
          -- intros s0 H0. split; [eapply okc_x; eauto|]. intros v phi en (V1 & V2 & V3 & V4 & V5). simpl in *. rewrite <- V2. easy.
        * intros ys l' s' L1. cbn [bind ret]. apply (T_drop _ _ _ _ (addx l' (addl (y :: ys) c)) gather_i).
          -- intros s0 H0. assert (K2 := okc_split_x _ _ _ H0). assert (K3 := okc_split_l _ _ _ K2). assert (K4 := okc_split_x _ _ _ K3).
             apply okc_addx; [apply okc_addl|]; [easy| |eapply okc_x; eauto]. constructor; [eapply okc_x; eauto|eapply okc_l; eauto].
          -- intros v phi en (V1 & V2 & V3 & V4 & V5). unfold vals, gather_i in *; simpl in *. rewrite <- V2, <- V4. easy.
          -- apply Hk; simpl; congruence.
  Qed.
  Lemma T_init_none n (k : list point * option point -> M problem) s pb c A' : (1 <= n)%nat ->
    (forall ys l' s', List.length ys = n -> T (k (ys, Some l')) s' pb (addx l' (addl ys c)) A') ->
    T (bind (init_currents SY n None) k) s pb c (fun d r en q =>
      exists ys, (List.length ys = n /\ Forall (in_Rd d) ys) /\ A' d r (pushx (vopp (vsum ys)) (pushl ys en)) q).
  Proof using OK.
    intros Hn Hk. destruct n as [|n]; [lia|]. cbn [init_currents]. apply T_assoc.
    refine (T_iff P _ _ _ _ _ _ _ (T_point P _ s pb c (fun d r en q => exists ys, (List.length ys = n /\ Forall (in_Rd d) ys) /\
        A' d r (gather_i (pushx (vsub (vopp (hd vzero (vx en))) (vsum ys)) (pushl ys en))) q) _)).
    - intros d r en q.
      assert (E : forall y ys, vsub (vopp y) (vsum ys) = vopp (vsum (y :: ys))).
      { intros y ys. apply functional_extensionality. intros k0. unfold vsub, vopp; simpl; unfold vadd. ring. }
      split.
      + intros (y & Hy & ys & (L1 & L2) & HA). exists (y :: ys). split; [split; [simpl; lia|constructor; easy]|]. rewrite <- E. exact HA.
      + intros (ys & (L1 & L2) & HA). destruct ys as [|y ys]; [easy|]. inversion_clear L2. exists y. split; [easy|]. exists ys. split; [split; [simpl in L1; lia|easy]|].
        simpl. rewrite E. exact HA.
    - intros y s1 _. apply T_assoc.
      refine (T_init_some n (pneg SY y) (fun r en => vopp (hd vzero (vx en))) _ s1 pb (addx y c) (fun d r en q => A' d r (gather_i en) q) _ _).
      + apply (derp_neg OK). intros s0 H0. split; [eapply okc_x; eauto|]. intros v phi en (V1 & V2 & V3 & V4 & V5). simpl in *. rewrite <- V2. easy.
      + intros ys l' s' L1. cbn [bind ret]. apply (T_drop _ _ _ _ (addx l' (addl (y :: ys) c)) gather_i).
        * intros s0 H0. assert (K2 := okc_split_x _ _ _ H0). assert (K3 := okc_split_l _ _ _ K2). assert (K4 := okc_split_x _ _ _ K3).
          apply okc_addx; [apply okc_addl|]; [easy| |eapply okc_x; eauto]. constructor; [eapply okc_x; eauto|eapply okc_l; eauto].
        * intros v phi en (V1 & V2 & V3 & V4 & V5). unfold vals, gather_i in *; simpl in *. rewrite <- V2, <- V4. easy.
        * apply Hk; simpl; congruence.
  Qed.

  (** ** With [n] functions *)
  Definition ctxn (n : nat) (fs : list nat) (F : nat) : ctx := mkCtx fs [(F, seq 0 n)] [] [] [] [].
  Lemma at_is_n n c fs : cf c = fs -> List.length fs = n -> at_is c (seq 0 n) fs.
  Proof using Type.
    intros E <-. unfold at_is. rewrite E. clear E.
    enough (H : forall l1, Forall2 (fun i f => nth_error (l1 ++ fs) i = Some f) (seq (List.length l1) (List.length fs)) fs) by apply (H []).
    induction fs as [|f fs IH]; intros l1; [constructor|]. simpl. constructor.
    - rewrite nth_error_app2, Nat.sub_diag by lia. easy.
    - specialize (IH (l1 ++ [f])). rewrite app_length in IH. simpl in IH. rewrite Nat.add_1_r, <- app_assoc in IH. exact IH.
  Qed.
  Lemma funs_n n (phis : list rfun) : List.length phis = n -> map (fun i => nth i phis rfun0) (seq 0 n) = phis.
  Proof using Type.
    intros <-. apply nth_ext with (d := rfun0) (d' := rfun0); [rewrite map_length, seq_length; easy|].
    intros i Hi. rewrite map_length, seq_length in Hi. rewrite (nth_indep _ _ (nth 0 phis rfun0)) by (rewrite map_length, seq_length; easy).
    rewrite (map_nth (fun i => nth i phis rfun0)), seq_nth by easy. easy.
  Qed.
  Lemma T_define_n mu L n (k : list nat * option nat -> M problem) s pb A' : good_class mu L -> (1 <= n)%nat ->
    (forall fs G s', List.length fs = n -> T (k (fs, Some G)) s' pb (ctxn n fs G) A') ->
    T (bind (define_loop SY mu L n [] None) k) s pb ctx0 (fun d r en q => exists phis, List.length phis = n /\
       Forall (function_class d mu L) phis /\ A' d r (mkSE phis [] [] [] []) q).
  Proof using Type.
    intros HC Hn Hk. refine (T_iff_v _ _ _ _ _ _ _ (T_define mu L n k s pb ctx0 A' HC eq_refl Hn _)).
    - intros d r v phi en q Hc Hv (V1 & V2 & V3 & V4 & V5). destruct en as [e1 e2 e3 e4 e5]. simpl in *. subst. easy.
    - intros fs G s' Hl. replace (addfs fs G ctx0) with (ctxn n fs G); [apply Hk; easy|]. unfold addfs, ctxn. simpl. rewrite Hl. easy.
  Qed.
  Lemma T_dual_n n fs (k : list point * list point -> M problem) s pb c A' : at_is c (seq 0 n) fs -> List.length fs = n -> (2 <= n)%nat ->
    (forall ys xs s', List.length ys = n -> List.length xs = n -> T (k (ys, xs)) s' pb (addl xs (addl ys c)) A') ->
    T (bind (dual_init SY fs None) k) s pb c (fun d r en q =>
      exists ys, balanced d n ys /\ exists xs, conjs d (funs_at en (seq 0 n)) ys xs /\ A' d r (pushl xs (pushl ys en)) q).
  Proof using OK.
    intros Ha Hl Hn Hk. destruct fs as [|f fs]; [simpl in *; lia|].
    pose proof (T_dual_none f fs (seq 0 n) k s pb c A' Ha) as G. simpl in Hl. rewrite Hl in G. apply G; [|easy]. destruct fs; simpl in *; [lia|easy].
  Qed.
  Lemma T_oracles_n n fs p X (k : list point -> M problem) s pb c A' : at_is c (seq 0 n) fs -> List.length fs = n -> derp c p X -> pruned p ->
    (forall ys s', List.length ys = n -> T (k ys) s' pb (addl ys c) A') ->
    T (bind (oracle_loop SY fs p) k) s pb c (fun d r en q =>
      exists gs zs, queries d (X r en) (funs_at en (seq 0 n)) gs zs /\ A' d r (pushl gs en) q).
  Proof using OK. intros Ha Hl HX Hp Hk. subst n. apply T_oracles; easy. Qed.
  Lemma T_conjs_n n fs zs X (k : list point -> M problem) s pb c A' : at_is c (seq 0 n) fs -> List.length fs = n -> derl c zs X -> List.length zs = n ->
    (forall xs s', List.length xs = n -> T (k xs) s' pb (addl xs c) A') ->
    T (bind (conj_loop SY fs zs) k) s pb c (fun d r en q =>
      exists xs, conjs d (funs_at en (seq 0 n)) (X r en) xs /\ A' d r (pushl xs en) q).
  Proof using OK. intros Ha Hl HX Hz Hk. subst n. apply T_conjs; easy. Qed.
  Lemma T_proxes_n n a fs zs X (k : list point * list point * list expr -> M problem) s pb c A' : at_is c (seq 0 n) fs -> List.length fs = n -> derl c zs X ->
    List.length zs = n ->
    (forall xs gs es s', List.length xs = n -> List.length gs = n -> List.length es = n ->
       T (k (xs, gs, es)) s' pb (addm es (addl gs (addl xs c))) A') ->
    T (bind (prox_loop SY fs zs a) k) s pb c (fun d r en q =>
      exists xs gs es, proxes d (Q2R a) (funs_at en (seq 0 n)) (X r en) xs gs es /\ A' d r (pushm es (pushl gs (pushl xs en))) q).
  Proof using OK. intros Ha Hl HX Hz Hk. subst n. apply T_proxes; easy. Qed.
  Lemma balanced_split d n (Q : list vec -> Prop) : (1 <= n)%nat ->
    (exists ys, (List.length ys = (n - 1)%nat /\ Forall (in_Rd d) ys) /\ exists z, z = ys ++ [vopp (vsum ys)] /\ Q z) <-> exists i, balanced d n i /\ Q i.
  Proof using Type.
    intros Hn. split.
    - intros (ys & (L1 & L2) & z & -> & HA). exists (ys ++ [vopp (vsum ys)]). split; [|easy]. split; [rewrite app_length; simpl; lia|]. split.
      + apply Forall_app. split; [easy|]. constructor; [|constructor].
        clear - L2. induction L2 as [|y ys Hy Hys IH]; intros k Hk; simpl.
        * unfold vopp, vzero. ring.
        * specialize (IH k Hk). specialize (Hy k Hk). unfold vopp, vadd in *. lra.
      + rewrite vsum_app. simpl. apply functional_extensionality; intros k; unfold vadd, vopp, vzero; ring.
    - intros (i & (L1 & L2 & L3) & HA). destruct i as [|y i0] using rev_ind; [simpl in L1; lia|]. clear IHi0. rewrite app_length in L1. simpl in L1.
      apply Forall_app in L2 as [L2 _]. exists i0. split; [split; [lia|easy]|]. eexists. split; [|exact HA]. f_equal. f_equal.
      rewrite vsum_app in L3. simpl in L3. apply functional_extensionality; intros k. apply (f_equal (fun f => f k)) in L3. unfold vadd, vopp, vzero in *. lra.
  Qed.
End L.
