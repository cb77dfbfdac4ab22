(** Histories do not matter: the objects created after CircuitOpt() behave as in
    a fresh interpreter, with identities shifted by a constant. *)
From Coq Require Import List Arith Bool String QArith Lia.
From Verif Require Import Prelude PreludeFacts Sympy AlgebraModel FunctionModel CircuitModel SessionModel StateSpec StateFacts.
Import ListNotations.
Open Scope nat_scope.

(** ** Dictionaries under an injective renaming of keys *)
Section Dicts.
  Context {K V : Type}.
  Variable eqb : K -> K -> bool.
  Variable h : K -> K.
  Hypothesis Hh : forall a b, eqb (h a) (h b) = eqb a b.
  Definition rn (d : list (K * V)) : list (K * V) := map (fun kv => (h (fst kv), snd kv)) d.
  Lemma dget_rn k d : dget eqb (h k) (rn d) = dget eqb k d.
  Proof. induction d as [|[k' v] d IH]; simpl; [easy|]. rewrite Hh. destruct (eqb k k'); easy. Qed.
  Lemma dmem_rn k d : dmem eqb (h k) (rn d) = dmem eqb k d.
  Proof. unfold dmem. rewrite dget_rn. easy. Qed.
  Lemma dset_rn k v d : dset eqb (h k) v (rn d) = rn (dset eqb k v d).
  Proof. induction d as [|[k' v'] d IH]; simpl; [easy|]. rewrite Hh. destruct (eqb k k'); simpl; [easy|]. rewrite IH. easy. Qed.
  Lemma rn_app a b : rn (a ++ b) = rn a ++ rn b.
  Proof. apply map_app. Qed.
  Lemma rn_length d : List.length (rn d) = List.length d.
  Proof. apply map_length. Qed.
End Dicts.

Section SDicts.
  Variable SY : sympy.
  Context {K : Type}.
  Variable eqb : K -> K -> bool.
  Variable h : K -> K.
  Hypothesis Hh : forall a b, eqb (h a) (h b) = eqb a b.
  Lemma merge_rn d1 d2 : merge_dict SY eqb (rn h d1) (rn h d2) = rn h (merge_dict SY eqb d1 d2).
  Proof.
    unfold merge_dict. assert (G : forall m, fold_left (fun merged kv => let '(k, v) := kv in
        if dmem eqb k (rn h d1) then match dget eqb k merged with Some old => dset eqb k (simp SY (sadd old v)) merged | None => merged end
        else dset eqb k v merged) (rn h d2) (rn h m)
      = rn h (fold_left (fun merged kv => let '(k, v) := kv in
        if dmem eqb k d1 then match dget eqb k merged with Some old => dset eqb k (simp SY (sadd old v)) merged | None => merged end
        else dset eqb k v merged) d2 m)); [|apply G].
    induction d2 as [|[k v] d2 IH]; intros m; [easy|]. simpl. rewrite (dmem_rn eqb h Hh). destruct (dmem eqb k d1).
    - rewrite (dget_rn eqb h Hh). destruct (dget eqb k m); [rewrite (dset_rn eqb h Hh)|]; apply IH.
    - rewrite (dset_rn eqb h Hh). apply IH.
  Qed.
  Lemma prune_rn (d : list (K * sexpr)) : prune_dict (rn h d) = rn h (prune_dict d).
  Proof. unfold prune_dict. induction d as [|[k v] d IH]; [easy|]. simpl. destruct (is_num 0 v); simpl; rewrite IH; easy. Qed.
  Lemma scale_rn c (d : list (K * sexpr)) : scale_dict SY c (rn h d) = rn h (scale_dict SY c d).
  Proof. unfold scale_dict, rn. rewrite !map_map. easy. Qed.
  Lemma dict_eqb_rn d1 d2 : dict_eqb eqb (rn h d1) (rn h d2) = dict_eqb eqb d1 d2.
  Proof.
    unfold dict_eqb. rewrite !rn_length. f_equal. induction d1 as [|[k v] d1 IH]; [easy|]. simpl.
    rewrite (dget_rn eqb h Hh), IH. easy.
  Qed.
End SDicts.

Section Shift.
  Variable SY : sympy.
  Variable k : nat.
  Variable old : list (nat * func).
  Hypothesis Hold : forall f, In f (keys old) -> f < k.

  Definition shl (l : leaf) : leaf := mkLeaf (lid l + k) (lctr l).
  Definition she (e : ekey) : ekey := match e with KF f => KF (shl f) | KG x y => KG (shl x) (shl y) | KOne => KOne end.
  Definition shn (f : nat) : nat := f + k.
  Definition shp (p : point) : point := mkPoint (pt_leaf p) (rn shl (pt_dict p)).
  Definition shx (e : expr) : expr := mkExpr (ex_leaf e) (rn she (ex_dict e)).
  Definition sht (t : trip) : trip := mkTrip (t_id t + k) (shp (t_x t)) (shp (t_g t)) (shx (t_f t)).
  Definition shf (f : func) : func := mkFunc (fn_leaf f) (fn_reuse f) (fn_class f) (rn shn (fn_dict f)) (fn_ctr f)
    (map sht (fn_stat f)) (map sht (fn_pts f)) (map shx (fn_cons f)).
  Definition shs (s : state) : state := mkState (st_next s + k) (st_pctr s) (st_ectr s) (st_fctr s)
    (old ++ map (fun kv => (fst kv + k, shf (snd kv))) (st_funs s)) (map shn (st_flist s)) (map shl (st_plist s)) (map shl (st_elist s)).
  Definition shr {A} (f : A -> A) (r : res A) : res A := match r with Ok a => Ok (f a) | Err e => Err e end.

  Lemma shl_eqb a b : leaf_eqb (shl a) (shl b) = leaf_eqb a b.
  Proof using Type.
    unfold leaf_eqb, shl; simpl. f_equal. apply eq_true_iff_eq. rewrite !Nat.eqb_eq. lia.
  Qed.
  Lemma shn_eqb a b : Nat.eqb (shn a) (shn b) = Nat.eqb a b.
  Proof using Type. unfold shn. apply eq_true_iff_eq. rewrite !Nat.eqb_eq. lia. Qed.
  Lemma she_eqb a b : ekey_eqb (she a) (she b) = ekey_eqb a b.
  Proof using Type. destruct a, b; simpl; rewrite ?shl_eqb; easy. Qed.

  Lemma padd_sh p q : padd SY (shp p) (shp q) = shp (padd SY p q).
  Proof using Type. unfold padd, shp; simpl. rewrite (merge_rn SY leaf_eqb shl shl_eqb), prune_rn. easy. Qed.
  Lemma pscale_sh c p : pscale SY c (shp p) = shp (pscale SY c p).
  Proof using Type. unfold pscale, shp; simpl. rewrite scale_rn. easy. Qed.
  Lemma psub_sh p q : psub SY (shp p) (shp q) = shp (psub SY p q).
  Proof using Type. unfold psub, pneg. rewrite pscale_sh, padd_sh. easy. Qed.
  Lemma pdiv_sh p c : pdiv SY (shp p) c = shr shp (pdiv SY p c).
  Proof using Type. unfold pdiv. destruct (recip c); simpl; [rewrite pscale_sh|]; easy. Qed.
  Lemma mulrow_sh l v1 d2 : forall acc,
    fold_left (fun acc' kv2 => let key := KG (shl l) (fst kv2) in let v := simp SY (smul v1 (snd kv2)) in
        match dget ekey_eqb key acc' with Some o => dset ekey_eqb key (sadd o v) acc' | None => dset ekey_eqb key v acc' end) (rn shl d2) (rn she acc)
    = rn she (fold_left (fun acc' kv2 => let key := KG l (fst kv2) in let v := simp SY (smul v1 (snd kv2)) in
        match dget ekey_eqb key acc' with Some o => dset ekey_eqb key (sadd o v) acc' | None => dset ekey_eqb key v acc' end) d2 acc).
  Proof using Type.
    induction d2 as [|[l2 v2] d2 IH]; intros acc; [easy|]. simpl.
    change (KG (shl l) (shl l2)) with (she (KG l l2)). rewrite (dget_rn ekey_eqb she she_eqb).
    destruct (dget ekey_eqb (KG l l2) acc); rewrite (dset_rn ekey_eqb she she_eqb); apply IH.
  Qed.
  Lemma pmul_sh p q : pmul SY (shp p) (shp q) = shx (pmul SY p q).
  Proof using Type.
    unfold pmul, shx; simpl. f_equal. unfold multiply_dicts.
    change (@nil (ekey * sexpr)) with (rn (V := sexpr) she []) at 1. generalize (@nil (ekey * sexpr)).
    induction (pt_dict p) as [|[l v] d IH]; intros acc; [easy|]. simpl. rewrite mulrow_sh. apply IH.
  Qed.
  Lemma ppow_sh p n : ppow SY (shp p) n = shr shx (ppow SY p n).
  Proof using Type. unfold ppow. destruct (Nat.eqb n 2); simpl; [rewrite pmul_sh|]; easy. Qed.
  Lemma eadd_sh p q : eadd SY (shx p) (shx q) = shx (eadd SY p q).
  Proof using Type. unfold eadd, shx; simpl. rewrite (merge_rn SY ekey_eqb she she_eqb). easy. Qed.
  Lemma eaddc_sh p c : eaddc SY (shx p) c = shx (eaddc SY p c).
  Proof using Type. unfold eaddc, shx; simpl. rewrite <- (merge_rn SY ekey_eqb she she_eqb). easy. Qed.
  Lemma escale_sh c p : escale SY c (shx p) = shx (escale SY c p).
  Proof using Type. unfold escale, shx; simpl. rewrite scale_rn. easy. Qed.
  Lemma esub_sh p q : esub SY (shx p) (shx q) = shx (esub SY p q).
  Proof using Type. unfold esub, eneg. rewrite escale_sh, eadd_sh. easy. Qed.
  Lemma ediv_sh p c : ediv SY (shx p) c = shr shx (ediv SY p c).
  Proof using Type. unfold ediv. destruct (recip c); simpl; [rewrite escale_sh|]; easy. Qed.
  Lemma prune_p_sh p : prune_p (shp p) = shp (prune_p p).
  Proof using Type. unfold prune_p, shp; simpl. rewrite prune_rn. easy. Qed.
  Lemma prune_e_sh p : prune_e (shx p) = shx (prune_e p).
  Proof using Type. unfold prune_e, shx; simpl. rewrite prune_rn. easy. Qed.
  Lemma prune_t_sh t : prune_t (sht t) = sht (prune_t t).
  Proof using Type. unfold prune_t, sht; simpl. rewrite !prune_p_sh, prune_e_sh. easy. Qed.
  Lemma same_point_sh p q : same_point (shp p) (shp q) = same_point p q.
  Proof using Type. unfold same_point; simpl. apply (dict_eqb_rn leaf_eqb shl shl_eqb). Qed.
  Lemma evaluated_sh l p : evaluated_at (map sht l) (shp p) = match evaluated_at l p with Some ge => Some (shp (fst ge), shx (snd ge)) | None => None end.
  Proof using Type.
    unfold evaluated_at. induction l as [|t l IH]; [easy|]. simpl. rewrite same_point_sh. destruct (same_point (t_x t) p); easy.
  Qed.

  (** ** Computations *)
  Definition sim {A B} (f : A -> B) (m : M A) (m' : M B) : Prop :=
    forall s, m' (shs s) = (match fst (m s) with Ok a => Ok (f a) | Err e => Err e end, shs (snd (m s))).
  Lemma sim_bind {A B C D} (f : A -> B) (g : C -> D) m m' c c' : sim f m m' -> (forall a, sim g (c a) (c' (f a))) -> sim g (bind m c) (bind m' c').
  Proof using Type.
    intros H1 H2 s. unfold bind. rewrite (H1 s). destruct (m s) as [[a|e] s1]; simpl; [apply H2|easy].
  Qed.
  Lemma sim_ret {A B} (f : A -> B) a b : b = f a -> sim f (ret a) (ret b).
  Proof using Type. intros -> s. easy. Qed.
  Lemma sim_raise {A B} (f : A -> B) e : sim f (raise e) (raise e).
  Proof using Type. intros s. easy. Qed.
  Lemma sim_lift {A B} (f : A -> B) r r' : r' = match r with Ok a => Ok (f a) | Err e => Err e end -> sim f (lift r) (lift r').
  Proof using Type. intros -> s. easy. Qed.
  Lemma sim_assert b : sim (fun u : unit => u) (assertM b) (assertM b).
  Proof using Type. destruct b; [apply sim_ret; easy|apply sim_raise]. Qed.
  Lemma sim_fresh : sim shn fresh_id fresh_id.
  Proof using Type. intros s. unfold fresh_id, shs, shn; simpl. easy. Qed.
  Lemma sim_point : sim shp new_point new_point.
  Proof using Type. intros s. unfold new_point, shs, shp, leaf_point; simpl. rewrite map_app. easy. Qed.
  Lemma sim_expr : sim shx new_expr new_expr.
  Proof using Type. intros s. unfold new_expr, shs, shx, leaf_expr; simpl. rewrite map_app. easy. Qed.

  Lemma dget_old f (l : list (nat * func)) : dget Nat.eqb (shn f) (old ++ l) = dget Nat.eqb (shn f) l.
  Proof using Hold.
    unfold shn. revert Hold. induction old as [|[g v] o IH]; intros Ho; [easy|]. simpl.
    assert (H := Ho g (or_introl eq_refl)). destruct (Nat.eqb_spec (f + k) g); [lia|]. apply IH. intros x Hx; apply Ho; right; easy.
  Qed.
  Lemma dset_old f v (l : list (nat * func)) : dset Nat.eqb (shn f) v (old ++ l) = old ++ dset Nat.eqb (shn f) v l.
  Proof using Hold.
    unfold shn. revert Hold. induction old as [|[g w] o IH]; intros Ho; [easy|]. simpl.
    assert (H := Ho g (or_introl eq_refl)). destruct (Nat.eqb_spec (f + k) g); [lia|]. f_equal. apply IH. intros x Hx; apply Ho; right; easy.
  Qed.
  Lemma dget_map f (l : list (nat * func)) : dget Nat.eqb (shn f) (map (fun kv => (fst kv + k, shf (snd kv))) l) = match dget Nat.eqb f l with Some x => Some (shf x) | None => None end.
  Proof using Type.
    induction l as [|[g v] l IH]; [easy|]. simpl. change (g + k) with (shn g). rewrite shn_eqb. destruct (Nat.eqb f g); easy.
  Qed.
  Lemma dset_map f v (l : list (nat * func)) : dset Nat.eqb (shn f) (shf v) (map (fun kv => (fst kv + k, shf (snd kv))) l) = map (fun kv => (fst kv + k, shf (snd kv))) (dset Nat.eqb f v l).
  Proof using Type.
    induction l as [|[g w] l IH]; [easy|]. simpl. change (g + k) with (shn g). rewrite shn_eqb. destruct (Nat.eqb f g); simpl; [easy|]. rewrite IH. easy.
  Qed.
  Lemma dget_shs f s : dget Nat.eqb (shn f) (st_funs (shs s)) = match dget Nat.eqb f (st_funs s) with Some x => Some (shf x) | None => None end.
  Proof using Hold. simpl. rewrite dget_old, dget_map. easy. Qed.
  Lemma sim_get f : sim shf (get_fun f) (get_fun (shn f)).
  Proof using Hold. intros s. unfold get_fun. rewrite dget_shs. destruct (dget Nat.eqb f (st_funs s)); easy. Qed.
  Lemma sim_set f v : sim (fun u : unit => u) (set_fun f v) (set_fun (shn f) (shf v)).
  Proof using Hold. intros s. unfold set_fun, shs; simpl. rewrite dset_old, dset_map. easy. Qed.
  Lemma sim_leaf c b : sim shn (new_leaf_fun c b) (new_leaf_fun c b).
  Proof using Type. intros s. unfold new_leaf_fun, shs; simpl. rewrite !map_app, app_assoc. easy. Qed.
  Lemma sim_comp d b : sim shn (new_comp_fun d b) (new_comp_fun (rn shn d) b).
  Proof using Type. intros s. unfold new_comp_fun, shs; simpl. rewrite !map_app, app_assoc. easy. Qed.

  Lemma sim_smooth mu L : sim shn (new_smooth_sc mu L) (new_smooth_sc mu L).
  Proof using Type.
    destruct L; simpl; [apply sim_leaf|]. eapply sim_bind; [apply sim_leaf|]. intros a. apply sim_raise.
  Qed.
  Lemma sim_def mu L : sim shn (def_function mu L) (def_function mu L).
  Proof using Type. unfold def_function. destruct L, (negb (Qeq_bool mu 0)); first [apply sim_smooth|apply sim_leaf]. Qed.

  Lemma sim_fn_add a b : sim shn (fn_add SY a b) (fn_add SY (shn a) (shn b)).
  Proof using Hold.
    unfold fn_add. eapply sim_bind; [apply sim_get|]. intros fa. eapply sim_bind; [apply sim_get|]. intros fb.
    simpl. rewrite (merge_rn SY Nat.eqb shn shn_eqb). apply sim_comp.
  Qed.
  Lemma sim_fn_scale c a : sim shn (fn_scale c a) (fn_scale c (shn a)).
  Proof using Hold.
    unfold fn_scale. eapply sim_bind; [apply sim_get|]. intros fa. simpl.
    replace (map (fun kv => (fst kv, smul (snd kv) c)) (rn shn (fn_dict fa))) with (rn shn (map (fun kv => (fst kv, smul (snd kv) c)) (fn_dict fa))).
    - apply sim_comp.
    - unfold rn. rewrite !map_map. easy.
  Qed.
  Lemma sim_fn_sub a b : sim shn (fn_sub SY a b) (fn_sub SY (shn a) (shn b)).
  Proof using Hold. unfold fn_sub. eapply sim_bind; [apply sim_fn_scale|]. intros g. apply sim_fn_add. Qed.
  Lemma sim_fn_div a c : sim shn (fn_div a c) (fn_div (shn a) c).
  Proof using Hold.
    unfold fn_div. eapply (sim_bind (fun r => r)); [apply sim_lift; destruct (recip c); easy|]. intros r. apply sim_fn_scale.
  Qed.

  Definition sh3 (r : list (nat * sexpr) * list (nat * sexpr) * list (nat * sexpr)) :=
    (rn shn (fst (fst r)), rn shn (snd (fst r)), rn shn (snd r)).
  Lemma sim_separate d p : sim sh3 (separate d p) (separate (rn shn d) (shp p)).
  Proof using Hold.
    induction d as [|[f w] d IH]; simpl; [apply sim_ret; easy|].
    eapply sim_bind; [apply sim_get|]. intros fn. eapply sim_bind; [apply IH|]. intros [[a b] c]. simpl.
    rewrite evaluated_sh. destruct (evaluated_at (fn_pts fn) p); [destruct (fn_reuse fn)|]; apply sim_ret; easy.
  Qed.

  Definition shge (r : point * expr) : point * expr := (shp (fst r), shx (snd r)).
  Record msim (sub : meths) : Prop := mkMsim {
    ms_add : forall f t, sim (fun u : unit => u) (m_add sub f t) (m_add sub (shn f) (sht t));
    ms_oracle : forall f p, sim shge (m_oracle sub f p) (m_oracle sub (shn f) (shp p));
    ms_value : forall f p, sim shx (m_value sub f p) (m_value sub (shn f) (shp p));
    ms_grad : forall f p, sim shp (m_grad sub f p) (m_grad sub (shn f) (shp p)) }.

  Lemma sim_distribute sub : msim sub -> forall l n p g f,
    sim (fun u : unit => u) (distribute SY sub l n p g f) (distribute SY sub (rn shn l) n (shp p) (shp g) (shx f)).
  Proof using Type.
    intros Hs. induction l as [|[fi w] l IH]; intros n p g f; simpl; [apply sim_ret; easy|]. destruct n as [|n].
    - eapply sim_bind; [apply sim_lift; rewrite pdiv_sh; destruct (pdiv SY g w); easy|]. intros g'.
      eapply sim_bind; [apply sim_lift; rewrite ediv_sh; destruct (ediv SY f w); easy|]. intros f'.
      eapply sim_bind; [apply sim_fresh|]. intros i.
      eapply sim_bind; [apply (ms_add sub Hs fi (mkTrip i p g' f'))|]. intros _. apply IH.
    - eapply sim_bind; [apply (ms_oracle sub Hs)|]. intros [gv fv]. simpl. rewrite pscale_sh, psub_sh, escale_sh, esub_sh. apply IH.
  Qed.

  Lemma sim_add sub : msim sub -> forall f t, sim (fun u : unit => u) (add_body SY sub f t) (add_body SY sub (shn f) (sht t)).
  Proof using Hold.
    intros Hs f t. unfold add_body. rewrite prune_t_sh. set (t' := prune_t t).
    eapply sim_bind; [apply sim_get|]. intros fn. simpl fn_leaf. simpl fn_dict.
    set (dict := if fn_leaf fn then fn_dict fn else prune_dict (fn_dict fn)).
    replace (if fn_leaf fn then rn shn (fn_dict fn) else prune_dict (rn shn (fn_dict fn))) with (rn shn dict)
      by (unfold dict; destruct (fn_leaf fn); [|rewrite prune_rn]; easy).
    eapply (sim_bind (fun u : unit => u)).
    { match goal with |- sim _ (set_fun f ?v) (set_fun _ ?w) => replace w with (shf v); [apply sim_set|] end.
      unfold shf; simpl. rewrite map_app. destruct (prune_dict (pt_dict (t_g t))); simpl; rewrite ?map_app; easy. }
    intros _. destruct (fn_leaf fn); [apply sim_ret; easy|].
    eapply sim_bind; [apply sim_separate|]. intros [[a b] c]. simpl. rewrite <- rn_app.
    destruct (b ++ c) as [|x y] eqn:E; simpl; [apply sim_ret; easy|].
    match goal with |- sim _ _ (distribute _ _ ?l _ _ _ _) => replace l with (rn shn (a ++ x :: y)) by (rewrite rn_app; easy) end.
    rewrite rn_length. apply sim_distribute; easy.
  Qed.

  Lemma sim_sum_values sub : msim sub -> forall d p acc, sim shx (sum_values SY sub d p acc) (sum_values SY sub (rn shn d) (shp p) (shx acc)).
  Proof using Type.
    intros Hs. induction d as [|[f w] d IH]; intros p acc; simpl; [apply sim_ret; easy|].
    eapply sim_bind; [apply (ms_value sub Hs)|]. intros v. rewrite escale_sh, eadd_sh. apply IH.
  Qed.
  Lemma sim_sum_grads sub : msim sub -> forall d p acc, sim shp (sum_grads SY sub d p acc) (sum_grads SY sub (rn shn d) (shp p) (shp acc)).
  Proof using Type.
    intros Hs. induction d as [|[f w] d IH]; intros p acc; simpl; [apply sim_ret; easy|].
    eapply sim_bind; [apply (ms_grad sub Hs)|]. intros v. rewrite pscale_sh, padd_sh. apply IH.
  Qed.

  Lemma sim_oracle_body sub : msim sub -> forall f p, sim shge (oracle_body SY sub f p) (oracle_body SY sub (shn f) (shp p)).
  Proof using Hold.
    intros Hs f p. unfold oracle_body. eapply sim_bind; [apply sim_get|]. intros fn. simpl fn_pts. simpl fn_reuse. simpl fn_dict.
    rewrite evaluated_sh.
    assert (Rest : sim shge
      (do r <- separate (fn_dict fn) p; let '(nothing, gonly, both) := r in
       do f0 <- match evaluated_at (fn_pts fn) p with Some gf => ret (snd gf) | None => match both with [] => sum_values SY sub (fn_dict fn) p zero_expr | _ => new_expr end end;
       do g <- match both, gonly with [], [] => sum_grads SY sub (fn_dict fn) p zero_point | _, _ => new_point end;
       do i <- fresh_id; add_body SY sub f (mkTrip i p g f0) ;; ret (prune_p g, prune_e f0))
      (do r <- separate (rn shn (fn_dict fn)) (shp p); let '(nothing, gonly, both) := r in
       do f0 <- match match evaluated_at (fn_pts fn) p with Some ge => Some (shp (fst ge), shx (snd ge)) | None => None end with
                Some gf => ret (snd gf) | None => match both with [] => sum_values SY sub (rn shn (fn_dict fn)) (shp p) zero_expr | _ => new_expr end end;
       do g <- match both, gonly with [], [] => sum_grads SY sub (rn shn (fn_dict fn)) (shp p) zero_point | _, _ => new_point end;
       do i <- fresh_id; add_body SY sub (shn f) (mkTrip i (shp p) g f0) ;; ret (prune_p g, prune_e f0))).
    { eapply sim_bind; [apply sim_separate|]. intros [[a b] c]. unfold sh3. simpl fst; simpl snd. cbv iota beta.
      eapply (sim_bind shx).
      { destruct (evaluated_at (fn_pts fn) p); [apply sim_ret; easy|]. destruct c; [apply (sim_sum_values sub Hs _ _ zero_expr)|apply sim_expr]. }
      intros f0. eapply (sim_bind shp).
      { destruct c; simpl; [|apply sim_point]. destruct b; simpl; [apply (sim_sum_grads sub Hs _ _ zero_point)|apply sim_point]. }
      intros g. eapply sim_bind; [apply sim_fresh|]. intros i. eapply sim_bind; [apply (sim_add sub Hs f (mkTrip i p g f0))|].
      intros _. apply sim_ret. unfold shge; simpl. rewrite prune_p_sh, prune_e_sh. easy. }
    destruct (evaluated_at (fn_pts fn) p) as [ge|]; [|exact Rest]. destruct (fn_reuse fn); [apply sim_ret; easy|exact Rest].
  Qed.
  Lemma sim_value_body sub : msim sub -> forall f p, sim shx (value_body SY sub f p) (value_body SY sub (shn f) (shp p)).
  Proof using Hold.
    intros Hs f p. unfold value_body. eapply sim_bind; [apply sim_get|]. intros fn. simpl fn_pts. rewrite evaluated_sh.
    destruct (evaluated_at (fn_pts fn) p); [apply sim_ret; easy|]. eapply sim_bind; [apply sim_oracle_body; easy|]. intros [g e]. apply sim_ret; easy.
  Qed.
  Lemma sim_bodies sub : msim sub -> msim (bodies SY sub).
  Proof using Hold.
    intros Hs. constructor; simpl; intros.
    - apply sim_add; easy.
    - apply sim_oracle_body; easy.
    - apply sim_value_body; easy.
    - unfold grad_body. eapply sim_bind; [apply sim_oracle_body; easy|]. intros [g e]. apply sim_ret; easy.
  Qed.
  Lemma sim_methods n : msim (methods SY n).
  Proof using Hold.
    induction n; simpl; [|apply sim_bodies; easy]. constructor; simpl; intros; apply sim_raise.
  Qed.

  Lemma sim_triplet f x g e : sim (fun u : unit => u) (add_triplet SY f x g e) (add_triplet SY (shn f) (shp x) (shp g) (shx e)).
  Proof using Hold.
    unfold add_triplet. eapply sim_bind; [apply sim_fresh|]. intros i. apply (ms_add _ (sim_methods 2) f (mkTrip i x g e)).
  Qed.
  Definition sh_pge (r : point * point * expr) := (shp (fst (fst r)), shp (snd (fst r)), shx (snd r)).
  Lemma sim_stationary f : sim sh_pge (stationary_point SY f) (stationary_point SY (shn f)).
  Proof using Hold.
    unfold stationary_point. eapply sim_bind; [apply sim_point|]. intros x. eapply sim_bind; [apply sim_expr|]. intros e.
    eapply sim_bind; [apply (sim_triplet f x zero_point e)|]. intros _. apply sim_ret. easy.
  Qed.
  Lemma sim_prox x0 f c : sim sh_pge (proximal_step SY x0 f c) (proximal_step SY (shp x0) (shn f) c).
  Proof using Hold.
    unfold proximal_step. eapply sim_bind; [apply sim_point|]. intros x. eapply sim_bind; [apply sim_expr|]. intros e.
    rewrite pscale_sh, psub_sh. eapply sim_bind; [apply sim_triplet|]. intros _. apply sim_ret. unfold sh_pge; simpl. rewrite prune_p_sh. easy.
  Qed.
  Lemma sim_conj g f : sim shp (subgrad_conjugate SY g f) (subgrad_conjugate SY (shp g) (shn f)).
  Proof using Hold.
    unfold subgrad_conjugate. eapply sim_bind; [apply sim_point|]. intros x. eapply sim_bind; [apply sim_expr|]. intros e.
    eapply sim_bind; [apply sim_triplet|]. intros _. apply sim_ret; easy.
  Qed.

  (** ** Sessions *)
  Definition shc (c : constr) : constr := mkConstr (shx (c_expr c)) (c_kind c).
  Definition shpb (p : problem) : problem := mkProblem (pr_params p) (map shc (pr_cons p)) (option_map shx (pr_metric p)) (pr_obj p).
  Definition shse (se : session) : session := mkSession (shs (se_st se)) (map shp (se_pts se)) (map shx (se_exps se)) (map shn (se_fns se)) (shpb (se_pb se)).
  Definition sho (o : out) : out := (map shp (fst (fst o)), map shx (snd (fst o)), map shn (snd o)).

  Lemma sim_at {A} (h : A -> A) l i : sim h (at_ l i) (at_ (map h l) i).
  Proof using Type. unfold at_. rewrite nth_error_map. destruct (nth_error l i); [apply sim_ret; easy|apply sim_raise]. Qed.

  Lemma sim_call se o : sim sho (call SY se o) (call SY (shse se) o).
  Proof using Hold.
    destruct o; cbn [call];
      repeat match goal with
      | |- sim _ (bind (at_ (se_pts se) _) _) _ => eapply (sim_bind shp); [apply (sim_at shp)|intros ?]
      | |- sim _ (bind (at_ (se_exps se) _) _) _ => eapply (sim_bind shx); [apply (sim_at shx)|intros ?]
      | |- sim _ (bind (at_ (se_fns se) _) _) _ => eapply (sim_bind shn); [apply (sim_at shn)|intros ?]
      | |- sim _ (bind new_point _) _ => eapply (sim_bind shp); [apply sim_point|intros ?]
      | |- sim _ (bind new_expr _) _ => eapply (sim_bind shx); [apply sim_expr|intros ?]
      | |- sim _ (bind new_convex _) _ => eapply (sim_bind shn); [apply sim_leaf|intros ?]
      | |- sim _ (bind (new_strongly _) _) _ => eapply (sim_bind shn); [apply sim_leaf|intros ?]
      | |- sim _ (bind (new_smooth_sc _ _) _) _ => eapply (sim_bind shn); [apply sim_smooth|intros ?]
      | |- sim _ (bind (new_smooth _) _) _ => eapply (sim_bind shn); [apply sim_smooth|intros ?]
      | |- sim _ (bind (def_function _ _) _) _ => eapply (sim_bind shn); [apply sim_def|intros ?]
      | |- sim _ (bind (fn_add _ _ _) _) _ => eapply (sim_bind shn); [apply sim_fn_add|intros ?]
      | |- sim _ (bind (fn_sub _ _ _) _) _ => eapply (sim_bind shn); [apply sim_fn_sub|intros ?]
      | |- sim _ (bind (fn_neg _) _) _ => eapply (sim_bind shn); [apply sim_fn_scale|intros ?]
      | |- sim _ (bind (fn_scale _ _) _) _ => eapply (sim_bind shn); [apply sim_fn_scale|intros ?]
      | |- sim _ (bind (fn_div _ _) _) _ => eapply (sim_bind shn); [apply sim_fn_div|intros ?]
      | |- sim _ (bind (oracle _ _ _) _) _ => eapply (sim_bind shge); [apply (ms_oracle _ (sim_methods 2))|intros ?]
      | |- sim _ (bind (value _ _ _) _) _ => eapply (sim_bind shx); [apply (ms_value _ (sim_methods 2))|intros ?]
      | |- sim _ (bind (gradient _ _ _) _) _ => eapply (sim_bind shp); [apply (ms_grad _ (sim_methods 2))|intros ?]
      | |- sim _ (bind (stationary_point _ _) _) _ => eapply (sim_bind sh_pge); [apply sim_stationary|intros ?]
      | |- sim _ (bind (proximal_step _ _ _ _) _) _ => eapply (sim_bind sh_pge); [apply sim_prox|intros ?]
      | |- sim _ (bind (subgrad_conjugate _ _ _) _) _ => eapply (sim_bind shp); [apply sim_conj|intros ?]
      | |- sim _ (bind (add_triplet _ _ _ _ _) _) _ => eapply (sim_bind (fun u : unit => u)); [apply sim_triplet|intros ?]
      | |- sim _ (bind (lift (pdiv _ _ _)) _) _ => eapply (sim_bind shp); [apply sim_lift; rewrite pdiv_sh; reflexivity|intros ?]
      | |- sim _ (bind (lift (ppow _ _ _)) _) _ => eapply (sim_bind shx); [apply sim_lift; rewrite ppow_sh; reflexivity|intros ?]
      | |- sim _ (bind (lift (ediv _ _ _)) _) _ => eapply (sim_bind shx); [apply sim_lift; rewrite ediv_sh; reflexivity|intros ?]
      end;
      apply sim_ret; unfold sho, outp, oute, outf, esubc, ersubc, esubc, pneg, eneg;
      rewrite ?padd_sh, ?psub_sh, ?pscale_sh, ?pmul_sh, ?eadd_sh, ?esub_sh, ?eaddc_sh, ?escale_sh; reflexivity.
  Qed.

  Lemma step_sh se o : o <> ONewProblem -> step SY (shse se) o = shse (step SY se o).
  Proof using Hold.
    intros Hn. assert (G : match call SY (shse se) o (se_st (shse se)) with
        | (Ok (ps, es, fs), s') => mkSession s' (se_pts (shse se) ++ ps) (se_exps (shse se) ++ es) (se_fns (shse se) ++ fs) (se_pb (shse se))
        | (Err _, s') => mkSession s' (se_pts (shse se)) (se_exps (shse se)) (se_fns (shse se)) (se_pb (shse se)) end
      = shse (match call SY se o (se_st se) with
        | (Ok (ps, es, fs), s') => mkSession s' (se_pts se ++ ps) (se_exps se ++ es) (se_fns se ++ fs) (se_pb se)
        | (Err _, s') => mkSession s' (se_pts se) (se_exps se) (se_fns se) (se_pb se) end)).
    { change (se_st (shse se)) with (shs (se_st se)). rewrite (sim_call se o (se_st se)).
      destruct (call SY se o (se_st se)) as [[[[ps es] fs]|e] s']; simpl; unfold shse; simpl; rewrite ?map_app; easy. }
    destruct o; try exact G; try easy.
    - simpl. rewrite nth_error_map. destruct (nth_error (se_exps se) e); easy.
    - simpl. rewrite nth_error_map. destruct (nth_error (se_exps se) e); [|easy]. simpl. unfold new_constraint.
      destruct (String.eqb kind "equality"); [unfold shse, shpb, add_constraint; simpl; rewrite map_app; easy|].
      destruct (String.eqb kind "inequality"); [unfold shse, shpb, add_constraint; simpl; rewrite map_app; easy|easy].
  Qed.
  Lemma run_sh l : forall se, ~ In ONewProblem l -> run SY (shse se) l = shse (run SY se l).
  Proof using Hold.
    induction l as [|o l IH]; intros se Hn; [easy|]. simpl. rewrite step_sh; [apply IH|].
    - intros H; apply Hn; right; easy.
    - intros ->; apply Hn; left; easy.
  Qed.

  (** ** The symbolic matrices do not see identities *)
  Lemma to_matrix_sh dG dF d : forall acc, to_matrix SY dG dF (rn she d) acc = to_matrix SY dG dF d acc.
  Proof using Type.
    induction d as [|[key w] d IH]; intros acc; [easy|]. simpl. destruct (norm_weight SY w); simpl; [|easy].
    destruct key; simpl; rewrite ?IH; easy.
  Qed.
  Lemma e2m_sh e dG dF : expression_to_matrix SY (shx e) dG dF = expression_to_matrix SY e dG dF.
  Proof using Type. apply to_matrix_sh. Qed.
  Lemma extra_sh dG dF l : forall iq ie s, extra_loop SY dG dF (map shc l) iq ie s = extra_loop SY dG dF l iq ie s.
  Proof using Type.
    induction l as [|c l IH]; intros; [easy|]. simpl. rewrite e2m_sh. destruct (expression_to_matrix SY (c_expr c) dG dF); simpl; [|easy].
    destruct (c_kind c); apply IH.
  Qed.
  Lemma class_loop_sh dG dF f l : forall cons s, class_loop SY dG dF f l (map shx cons) s = class_loop SY dG dF f l cons s.
  Proof using Type.
    induction l as [|[i j] l IH]; intros cons s; [easy|]. simpl. destruct cons as [|e cons]; simpl; [easy|].
    rewrite e2m_sh. destruct (expression_to_matrix SY e dG dF); simpl; [apply IH|easy].
  Qed.
  Lemma conv_part_sh a b : conv_part SY (sht a) (sht b) = shx (conv_part SY a b).
  Proof using Type. unfold conv_part; simpl. rewrite psub_sh, pmul_sh, esub_sh, eadd_sh. easy. Qed.
  Lemma constraint_sh c a b : class_constraint SY c (sht a) (sht b) = shr shx (class_constraint SY c a b).
  Proof using Type.
    destruct c; cbn [class_constraint]; rewrite ?conv_part_sh; try reflexivity.
    - destruct (qdiv 1 (Qred (2 * L))); cbn [bindr]; [|easy]. destruct (qdiv mu L) as [ml|]; cbn [bindr]; [|easy].
      destruct (qdiv mu (Qred (2 * (1 - ml)))); cbn [bindr]; [|easy]. destruct (qdiv 1 L); cbn [bindr]; [|easy].
      cbn [sht t_g t_x]. unfold psq. rewrite !psub_sh, pscale_sh, !psub_sh, !pmul_sh, !escale_sh, !eadd_sh. easy.
    - cbn [sht t_g t_x]. unfold psq. rewrite !psub_sh, !pmul_sh, !escale_sh, !eadd_sh. easy.
  Qed.
  Lemma row_sh c a l : row SY c (sht a) (map sht l) = shr (map shx) (row SY c a l).
  Proof using Type.
    induction l as [|b l IH]; [easy|]. simpl. change (t_id a + k) with (shn (t_id a)). change (t_id b + k) with (shn (t_id b)). rewrite shn_eqb.
    destruct (Nat.eqb (t_id a) (t_id b)); [easy|]. rewrite constraint_sh, IH. destruct (class_constraint SY c a b); simpl; [|easy].
    destruct (row SY c a l); easy.
  Qed.
  Lemma rows_sh c li l : rows SY c (map sht li) (map sht l) = shr (map shx) (rows SY c li l).
  Proof using Type.
    induction li as [|a li IH]; [easy|]. simpl. rewrite row_sh, IH. destruct (row SY c a l); simpl; [|easy].
    destruct (rows SY c li l); simpl; [rewrite map_app|]; easy.
  Qed.
  Lemma sim_add_cons f : sim (fun u : unit => u) (add_class_constraints SY f) (add_class_constraints SY (shn f)).
  Proof using Hold.
    unfold add_class_constraints. eapply sim_bind; [apply sim_get|]. intros fn. simpl.
    assert (G : forall c, sim (fun u : unit => u)
      (do l <- lift (rows SY c (fn_pts fn) (fn_pts fn)); set_fun f (mkFunc (fn_leaf fn) (fn_reuse fn) (fn_class fn) (fn_dict fn) (fn_ctr fn) (fn_stat fn) (fn_pts fn) (fn_cons fn ++ l)))
      (do l <- lift (rows SY c (map sht (fn_pts fn)) (map sht (fn_pts fn))); set_fun (shn f) (mkFunc (fn_leaf fn) (fn_reuse fn) (fn_class fn) (rn shn (fn_dict fn)) (fn_ctr fn) (map sht (fn_stat fn)) (map sht (fn_pts fn)) (map shx (fn_cons fn) ++ l)))).
    { intros c. eapply (sim_bind (map shx)).
      - apply sim_lift. rewrite rows_sh. destruct (rows SY c (fn_pts fn) (fn_pts fn)); easy.
      - intros l. rewrite <- map_app. apply (sim_set f (mkFunc (fn_leaf fn) (fn_reuse fn) (fn_class fn) (fn_dict fn) (fn_ctr fn) (fn_stat fn) (fn_pts fn) (fn_cons fn ++ l))). }
    destruct (fn_class fn); [apply sim_raise|apply G|apply G|apply G].
  Qed.
  Lemma sim_fun_loop dG dF sft l : forall idx s, sim (fun x : symstate => x) (fun_loop SY dG dF sft idx l s) (fun_loop SY dG dF sft idx (map shn l) s).
  Proof using Hold.
    induction l as [|f l IH]; intros idx s; simpl; [apply sim_ret; easy|].
    eapply sim_bind; [apply sim_add_cons|]. intros _. eapply sim_bind; [apply sim_get|]. intros fn. simpl. rewrite !map_length, class_loop_sh.
    eapply (sim_bind (fun x => x)); [apply sim_lift; destruct (class_loop SY dG dF (idx + sft) (pairs (List.length (fn_pts fn))) (fn_cons fn) s); easy|].
    intros s'. eapply sim_bind; [apply sim_assert|]. intros _. apply IH.
  Qed.
  Lemma sim_matrices p funs dG dF : sim (fun x : symres => x) (circuit_symbolic_matrices SY p funs dG dF) (circuit_symbolic_matrices SY (shpb p) (map shn funs) dG dF).
  Proof using Hold.
    unfold circuit_symbolic_matrices. simpl. rewrite extra_sh.
    eapply (sim_bind (fun x => x)); [apply sim_lift; destruct (extra_loop SY dG dF (pr_cons p) 0 0 (mkSS [] [] zero_fg 0 0)); easy|].
    intros [s1 iq]. eapply sim_bind; [apply sim_fun_loop|]. intros s2. eapply sim_bind; [apply sim_assert|]. intros _.
    destruct (pr_metric p); simpl; [|apply sim_raise]. rewrite e2m_sh.
    eapply (sim_bind (fun x => x)); [apply sim_lift; destruct (expression_to_matrix SY e dG dF); easy|]. intros w. apply sim_ret; easy.
  Qed.
  Lemma leaf_funs_sh s l : leaf_funs (map shn l) (shs s) = map shn (leaf_funs l s).
  Proof using Hold.
    induction l as [|f l IH]; [easy|]. cbn [map leaf_funs]. rewrite dget_shs. destruct (dget Nat.eqb f (st_funs s)) as [fn|]; [|easy].
    simpl. destruct (fn_leaf fn); simpl; rewrite IH; easy.
  Qed.
  Lemma sim_symbolic p : sim (fun x : symres => x) (symbolic SY p) (symbolic SY (shpb p)).
  Proof using Hold. intros s. unfold symbolic. simpl. rewrite leaf_funs_sh. apply sim_matrices. Qed.
End Shift.

(** Everything up to the last [ONewProblem] is irrelevant. *)
Lemma history1 SY l l' : ~ In ONewProblem l' ->
  let a := run SY session0 (l ++ ONewProblem :: l') in
  let b := run SY session0 (ONewProblem :: l') in
  fst (symbolic SY (se_pb a) (se_st a)) = fst (symbolic SY (se_pb b) (se_st b)) /\ pr_params (se_pb a) = pr_params (se_pb b).
Proof.
  intros Hn a b. set (s := run SY session0 l). set (k := st_next (se_st s)). set (old := st_funs (se_st s)).
  assert (Hold : forall f, In f (keys old) -> f < k).
  { intros f Hf. assert (SI : SInv s) by apply reachable_inv. assert (A := inv_fid (se_st s) (si_inv s SI)). rewrite Forall_forall in A. apply A. easy. }
  assert (E : a = shse k old b).
  { unfold a, b. unfold run. rewrite fold_left_app. fold (run SY session0 l). fold s. simpl fold_left.
    change (fold_left (step SY) l') with (fun se => run SY se l'). cbv beta.
    rewrite <- (run_sh SY k old Hold l' _ Hn). f_equal. unfold shse, shs; simpl. rewrite app_nil_r. easy. }
  rewrite E. split; [|easy]. simpl. rewrite (sim_symbolic SY k old Hold (se_pb b) (se_st b)). simpl.
  destruct (symbolic SY (se_pb b) (se_st b)) as [[r|e] s']; easy.
Qed.

Lemma last_new (l : list op) : ~ In ONewProblem l \/ exists a b, l = a ++ ONewProblem :: b /\ ~ In ONewProblem b.
Proof.
  induction l as [|o l IH]; [left; easy|]. destruct IH as [IH|(a & b & -> & H)].
  - destruct o; try (left; intros [E|E]; [discriminate E|exact (IH E)]). right. exists [], l. easy.
  - right. exists (o :: a), b. easy.
Qed.

Lemma history SY l l' :
  let a := run SY session0 (l ++ ONewProblem :: l') in
  let b := run SY session0 (ONewProblem :: l') in
  fst (symbolic SY (se_pb a) (se_st a)) = fst (symbolic SY (se_pb b) (se_st b)) /\ pr_params (se_pb a) = pr_params (se_pb b).
Proof.
  destruct (last_new l') as [H|(l1 & l2 & -> & H)]; [apply history1; easy|]. cbv zeta.
  assert (A := history1 SY (l ++ ONewProblem :: l1) l2 H). assert (B := history1 SY (ONewProblem :: l1) l2 H). cbv zeta in A, B.
  rewrite <- app_assoc in A. simpl app in A, B.
  destruct A as [A1 A2]. destruct B as [B1 B2]. rewrite A1, A2, <- B1, <- B2. easy.
Qed.

(** ** Using the first problem after a second constructor call (C08) *)
Definition mentions_leaf (e : expr) : Prop := exists k w, In (k, w) (ex_dict e) /\ k <> KOne.

Lemma to_matrix_00 SY d : (exists k w, In (k, w) d /\ k <> KOne) -> forall acc, exists e, to_matrix SY 0 0 d acc = Err e.
Proof.
  induction d as [|[k w] d IH]; intros (k0 & w0 & Hin & Hk) acc; [easy|]. simpl.
  destruct (norm_weight SY w); simpl; [|eauto]. destruct k; simpl; eauto.
  apply IH. destruct Hin as [E|E]; [injection E; intros; congruence|]. exists k0, w0; easy.
Qed.

Lemma second_problem SY s p : (exists m, pr_metric p = Some m /\ mentions_leaf m) ->
  exists e, fst (symbolic SY p (snd (circuit_opt s))) = Err e.
Proof.
  intros (m & Hm & Hl). simpl. unfold symbolic; simpl. unfold circuit_symbolic_matrices, bind, lift. simpl.
  destruct (extra_loop SY 0 0 (pr_cons p) 0 0 (mkSS [] [] zero_fg 0 0)) as [[s1 iq]|e]; simpl; [|eauto].
  unfold assertM, raise. destruct (Nat.eqb _ _); simpl; [|eauto]. rewrite Hm.
  destruct (to_matrix_00 SY (ex_dict m) Hl zero_fg) as (e & E). unfold expression_to_matrix. rewrite E. simpl. eauto.
Qed.
