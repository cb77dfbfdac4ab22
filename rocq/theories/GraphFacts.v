From Coq Require Import List Arith Bool Reals Lia Lra.
From Verif Require Import Prelude PreludeFacts Spec BuilderSpec MethodModel MethodSpec.
Import ListNotations.
Local Open Scope R_scope.

Lemma mem_in v l : mem v l = true <-> In v l.
Proof.
  unfold mem. rewrite existsb_exists. split.
  - intros (x & Hx & E). apply Nat.eqb_eq in E. subst. easy.
  - intros H. exists v. split; [easy|apply Nat.eqb_refl].
Qed.
Lemma mem_false v l : mem v l = false <-> ~ In v l.
Proof. rewrite <- mem_in. destruct (mem v l); split; congruence. Qed.

(** networkx graphs *)
Lemma dget_app_l {V} k (g h : list (nat * V)) : dmem Nat.eqb k g = true -> dget Nat.eqb k (g ++ h) = dget Nat.eqb k g.
Proof.
  unfold dmem. induction g as [|[u l] g IH]; simpl; [easy|]. destruct (Nat.eqb k u); [easy|]. apply IH.
Qed.
Lemma dget_app_r {V} k (g h : list (nat * V)) : dget Nat.eqb k g = None -> dget Nat.eqb k (g ++ h) = dget Nat.eqb k h.
Proof. induction g as [|[u l] g IH]; simpl; [easy|]. destruct (Nat.eqb k u); [easy|]. apply IH. Qed.
Lemma nbrs_add_node g u v : nbrs (add_node g u) v = nbrs g v.
Proof.
  unfold add_node. destruct (dmem Nat.eqb u g) eqn:E; [easy|]. unfold nbrs.
  destruct (dget Nat.eqb v g) eqn:G.
  - rewrite dget_app_l; [rewrite G; easy|]. unfold dmem. rewrite G. easy.
  - rewrite dget_app_r by easy. simpl. destruct (Nat.eqb v u); easy.
Qed.
Lemma dget_add_nbr u v g w : dget Nat.eqb w (add_nbr u v g) =
  match dget Nat.eqb w g with
  | None => None
  | Some l => Some (if Nat.eqb w u then if mem v l then l else l ++ [v] else l)
  end.
Proof.
  unfold add_nbr. induction g as [|[a l] g IH]; simpl; [easy|].
  destruct (Nat.eqb a u) eqn:E; simpl; destruct (Nat.eqb w a) eqn:E2; rewrite ?IH; try easy.
  - apply Nat.eqb_eq in E, E2. subst. rewrite Nat.eqb_refl. easy.
  - apply Nat.eqb_eq in E2. subst. rewrite E. easy.
Qed.
Definition has (g : graph) u := dmem Nat.eqb u g = true.
Lemma has_add_node g u v : has (add_node g u) v <-> has g v \/ v = u.
Proof.
  unfold add_node, has. destruct (dmem Nat.eqb u g) eqn:E.
  - split; [tauto|]. intros [H|H]; subst; easy.
  - unfold dmem in *. destruct (dget Nat.eqb v g) eqn:G.
    + rewrite dget_app_l by (unfold dmem; rewrite G; easy). rewrite G. tauto.
    + rewrite dget_app_r by easy. simpl. destruct (Nat.eqb v u) eqn:E2.
      * apply Nat.eqb_eq in E2. tauto.
      * apply Nat.eqb_neq in E2. split; [easy|]. intros [H|H]; easy.
Qed.
Lemma has_add_nbr u v g w : has (add_nbr u v g) w <-> has g w.
Proof. unfold has, dmem. rewrite dget_add_nbr. destruct (dget Nat.eqb w g); easy. Qed.
Lemma has_add_edge g e w : has (add_edge g e) w <-> has g w \/ w = fst e \/ w = snd e.
Proof. unfold add_edge. rewrite !has_add_nbr, !has_add_node. tauto. Qed.

Lemma nbrs_add_nbr u v g w x : has g u ->
  In x (nbrs (add_nbr u v g) w) <-> In x (nbrs g w) \/ (w = u /\ x = v).
Proof.
  unfold has, dmem, nbrs. intros H. rewrite dget_add_nbr.
  destruct (dget Nat.eqb w g) as [l|] eqn:E.
  - destruct (Nat.eqb w u) eqn:E2.
    + apply Nat.eqb_eq in E2. destruct (mem v l) eqn:M.
      * apply mem_in in M. split; [tauto|]. intros [K|[_ K]]; subst; easy.
      * rewrite in_app_iff. simpl. intuition.
    + apply Nat.eqb_neq in E2. tauto.
  - split; [easy|]. intros [K|[K _]]; [easy|]. subst. rewrite E in H. easy.
Qed.
Lemma nodup_add_nbr u v g w : NoDup (nbrs g w) -> NoDup (nbrs (add_nbr u v g) w).
Proof.
  unfold nbrs. rewrite dget_add_nbr. destruct (dget Nat.eqb w g) as [l|]; [|easy]. intros H.
  destruct (Nat.eqb w u); [|easy]. destruct (mem v l) eqn:M; [easy|]. apply mem_false in M.
  apply NoDup_rev in H. apply NoDup_rev in H. rewrite rev_involutive in H.
  rewrite <- (rev_involutive (l ++ [v])). apply NoDup_rev. rewrite rev_app_distr. simpl. constructor.
  - rewrite <- in_rev. easy.
  - apply NoDup_rev. easy.
Qed.
Lemma nbrs_add_edge g e w x : In x (nbrs (add_edge g e) w) <->
  In x (nbrs g w) \/ (w = fst e /\ x = snd e) \/ (w = snd e /\ x = fst e).
Proof.
  unfold add_edge. rewrite nbrs_add_nbr by (rewrite has_add_nbr, has_add_node; tauto).
  rewrite nbrs_add_nbr by (rewrite !has_add_node; tauto). rewrite !nbrs_add_node. tauto.
Qed.
Lemma nodup_add_edge g e w : NoDup (nbrs g w) -> NoDup (nbrs (add_edge g e) w).
Proof. intros H. unfold add_edge. do 2 apply nodup_add_nbr. rewrite !nbrs_add_node. easy. Qed.

Lemma nbrs_nodes nodes : forall g w, nbrs (fold_left add_node nodes g) w = nbrs g w.
Proof. induction nodes as [|u nodes IH]; simpl; intros g w; [easy|]. rewrite IH, nbrs_add_node. easy. Qed.
Lemma has_nodes nodes : forall g w, has (fold_left add_node nodes g) w <-> has g w \/ In w nodes.
Proof.
  induction nodes as [|u nodes IH]; simpl; intros g w; [tauto|]. rewrite IH, has_add_node. intuition.
Qed.
Lemma nbrs_edges es : forall g w x, In x (nbrs (fold_left add_edge es g) w) <-> In x (nbrs g w) \/ In (w, x) es \/ In (x, w) es.
Proof.
  induction es as [|[a b] es IH]; simpl; intros g w x; [tauto|]. rewrite IH, nbrs_add_edge. simpl.
  split; [intuition; subst; auto|]. intros [H|[[H|H]|[H|H]]]; try tauto; injection H; intros; subst; tauto.
Qed.
Lemma has_edges es : forall g w, has (fold_left add_edge es g) w <-> has g w \/ exists v, In (w, v) es \/ In (v, w) es.
Proof.
  induction es as [|[a b] es IH]; simpl; intros g w.
  - split; [tauto|]. intros [H|(v & [H|H])]; easy.
  - rewrite IH, has_add_edge. simpl. split.
    + intros [[H|[H|H]]|(v & H)]; [tauto| | |]; right; subst; eauto. exists v. tauto.
    + intros [H|(v & [[H|H]|[H|H]])]; [tauto| | | |]; try (injection H; intros; subst); try tauto; right; exists v; tauto.
Qed.
Lemma nodup_edges es : forall g w, NoDup (nbrs g w) -> NoDup (nbrs (fold_left add_edge es g) w).
Proof. induction es as [|e es IH]; simpl; intros g w H; [easy|]. apply IH, nodup_add_edge, H. Qed.

Lemma nbrs_mk nodes es w x : In x (nbrs (mk_graph nodes es) w) <-> In (w, x) es \/ In (x, w) es.
Proof. unfold mk_graph. rewrite nbrs_edges, nbrs_nodes. unfold nbrs. simpl. tauto. Qed.
Lemma has_mk nodes es w : has (mk_graph nodes es) w <-> In w nodes \/ exists v, In (w, v) es \/ In (v, w) es.
Proof.
  unfold mk_graph. rewrite has_edges, has_nodes. unfold has, dmem. simpl.
  split; [intros [[H|H]|H]; [easy|tauto|tauto]|tauto].
Qed.
Lemma nodup_mk nodes es w : NoDup (nbrs (mk_graph nodes es) w).
Proof. unfold mk_graph. apply nodup_edges. rewrite nbrs_nodes. unfold nbrs. simpl. constructor. Qed.

Lemma keys_add_nbr u v g : keys (add_nbr u v g) = keys g.
Proof.
  unfold keys, add_nbr. rewrite map_map. apply map_ext. intros [a l]. simpl. destruct (Nat.eqb a u); easy.
Qed.
Lemma nodup_keys_add_node g u : NoDup (keys g) -> NoDup (keys (add_node g u)).
Proof.
  unfold add_node. destruct (dmem Nat.eqb u g) eqn:E; [easy|]. intros H. unfold keys. rewrite map_app. simpl.
  unfold dmem in E. destruct (dget Nat.eqb u g) eqn:G; [easy|].
  apply (dget_none Nat.eqb Nat.eqb_eq) in G.
  rewrite <- (rev_involutive (map fst g ++ [u])). apply NoDup_rev. rewrite rev_app_distr. simpl. constructor.
  - rewrite <- in_rev. easy.
  - apply NoDup_rev. easy.
Qed.
Lemma nodup_keys_mk nodes es : NoDup (keys (mk_graph nodes es)).
Proof.
  unfold mk_graph. assert (H0 : NoDup (keys (fold_left add_node nodes []))).
  { assert (H : NoDup (keys (@nil (nat * list nat)))) by constructor. revert H. generalize (@nil (nat * list nat)).
    induction nodes as [|u nodes IH]; simpl; intros g H; [easy|]. apply IH, nodup_keys_add_node, H. }
  revert H0. generalize (fold_left add_node nodes []).
  induction es as [|e es IH]; simpl; intros g H; [easy|]. apply IH. unfold add_edge. rewrite !keys_add_nbr.
  do 2 apply nodup_keys_add_node. easy.
Qed.

(** networks *)
Section Network.
  Variables (n : nat) (es : list (nat * nat)) (g : graph).
  Hypothesis net : network n es g.

  Lemma linked_sym j l : linked es j l -> linked es l j.
  Proof. unfold linked. tauto. Qed.
  Lemma linked_lt j l : linked es j l -> (j < n)%nat.
  Proof.
    destruct net as (nodes & _ & Hn & _). intros H.
    assert (1 <= S j <= n)%nat; [|lia]. apply Hn. right. exists (S l). unfold linked in H. tauto.
  Qed.
  Lemma linked_irrefl j : ~ linked es j j.
  Proof. destruct net as (nodes & _ & _ & Hl). intros [H|H]; apply Hl in H; congruence. Qed.
  Lemma nbrs_pos u v : In v (nbrs g u) -> (1 <= v <= n)%nat.
  Proof.
    destruct net as (nodes & -> & Hn & _). rewrite nbrs_mk. intros H. apply Hn. right. exists u. tauto.
  Qed.
  Lemma in_adj j l : In l (adj_of g j) <-> linked es j l.
  Proof.
    unfold adj_of. rewrite in_map_iff. split.
    - intros (v & <- & H). pose proof (nbrs_pos _ _ H) as Hv. destruct net as (nodes & -> & _). apply nbrs_mk in H.
      unfold linked. replace (S (pred v)) with v by lia. tauto.
    - intros H. exists (S l). split; [easy|]. destruct net as (nodes & -> & _). apply nbrs_mk. unfold linked in H. tauto.
  Qed.
  Lemma nodup_adj j : NoDup (adj_of g j).
  Proof.
    unfold adj_of. assert (H : NoDup (nbrs g (S j))) by (destruct net as (nodes & -> & _); apply nodup_mk).
    assert (Hp : forall v, In v (nbrs g (S j)) -> (1 <= v)%nat) by (intros v Hv; apply nbrs_pos in Hv; lia).
    induction (nbrs g (S j)) as [|a l IH]; simpl; [constructor|]. inversion H as [|? ? Ha Hl]; subst. constructor.
    - rewrite in_map_iff. intros (v & E & Hv). apply Ha. pose proof (Hp a (or_introl eq_refl)). pose proof (Hp v (or_intror Hv)).
      replace a with v by lia. easy.
    - apply IH; [easy|]. intros v Hv. apply Hp. right. easy.
  Qed.
  Lemma deg_adj j : deg_of g j = length (adj_of g j).
  Proof.
    unfold deg_of, degree, adj_of. rewrite map_length. destruct (mem (S j) (nbrs g (S j))) eqn:E; [|lia].
    apply mem_in in E. exfalso. apply (linked_irrefl j). apply in_adj. unfold adj_of. apply in_map_iff. exists (S j). easy.
  Qed.
  Lemma adj_lt j l : In l (adj_of g j) -> (l < n)%nat.
  Proof. intros H. apply in_adj, linked_sym, linked_lt in H. easy. Qed.

  Lemma index_nth l : forall j a, nth_error l a = Some j -> NoDup l -> index j l = a.
  Proof.
    induction l as [|b l IH]; intros j a H Hn; [destruct a; easy|]. inversion Hn as [|? ? Hb Hl]; subst.
    destruct a as [|a]; simpl in *.
    - injection H; intros; subst. rewrite Nat.eqb_refl. easy.
    - destruct (Nat.eqb b j) eqn:E.
      + apply Nat.eqb_eq in E. subst. exfalso. apply Hb. eapply nth_error_In; eassumption.
      + rewrite (IH j a); easy.
  Qed.
  Lemma nth_index l j : In j l -> nth_error l (index j l) = Some j.
  Proof.
    induction l as [|b l IH]; simpl; [easy|]. intros [H|H].
    - subst. rewrite Nat.eqb_refl. easy.
    - destruct (Nat.eqb b j) eqn:E; [apply Nat.eqb_eq in E; subst; easy|]. simpl. apply IH. easy.
  Qed.
  Lemma rsum_index l (f : nat -> R) : NoDup l -> rsum (length l) f = lsum (fun j => f (index j l)) l.
  Proof.
    revert f. induction l as [|b l IH]; intros f Hn; [easy|]. inversion Hn as [|? ? Hb Hl]; subst.
    simpl length. rewrite rsum_S_l. simpl. rewrite Nat.eqb_refl. f_equal. rewrite (IH (fun k => f (S k))) by easy.
    apply lsum_ext. intros j Hj. destruct (Nat.eqb b j) eqn:E; [|easy].
    apply Nat.eqb_eq in E. subst. easy.
  Qed.

  (** adjacency matrix *)
  Definition A (j l : nat) : R := if mem l (adj_of g j) then 1 else 0.
  Lemma A_link j l : linked es j l -> A j l = 1.
  Proof. intros H. unfold A. rewrite (proj2 (mem_in _ _)); [easy|]. apply in_adj. easy. Qed.
  Lemma A_not j l : ~ linked es j l -> A j l = 0.
  Proof. intros H. unfold A. rewrite (proj2 (mem_false _ _)); [easy|]. rewrite in_adj. easy. Qed.
  Lemma linked_dec j l : linked es j l \/ ~ linked es j l.
  Proof. rewrite <- in_adj. destruct (mem l (adj_of g j)) eqn:E; [apply mem_in in E|apply mem_false in E]; tauto. Qed.
  Lemma A_sym j l : A j l = A l j.
  Proof.
    destruct (linked_dec j l) as [H|H].
    - rewrite !A_link; auto using linked_sym.
    - rewrite !A_not; auto using linked_sym.
  Qed.
  Lemma A_01 j l : A j l = 0 \/ A j l = 1.
  Proof. unfold A. destruct (mem l (adj_of g j)); auto. Qed.
  Lemma A_nonneg j l : 0 <= A j l.
  Proof. destruct (A_01 j l); lra. Qed.

  Lemma lsum_mem l f : NoDup l -> (forall a, In a l -> (a < n)%nat) -> lsum f l = rsum n (fun a => (if mem a l then 1 else 0) * f a).
  Proof.
    induction l as [|b l IH]; intros Hn Hlt; [symmetry; simpl; apply rsum_zero; intros; lra|].
    inversion Hn as [|? ? Hb Hl]; subst. simpl lsum. rewrite IH by auto with datatypes.
    assert (Hbn : (b < n)%nat) by (apply Hlt; simpl; auto).
    rewrite <- (rsum_single n b (f b)) by easy. rewrite <- rsum_plus. apply rsum_ext. intros k Hk.
    unfold mem; simpl. change (existsb (Nat.eqb k) l) with (mem k l).
    destruct (Nat.eqb k b) eqn:E; simpl; [|lra]. apply Nat.eqb_eq in E. subst.
    rewrite (proj2 (mem_false _ _) Hb). lra.
  Qed.
  Lemma lsum_adj j f : lsum f (adj_of g j) = rsum n (fun l => A j l * f l).
  Proof. apply lsum_mem; [apply nodup_adj|]. intros a. apply adj_lt. Qed.
  Lemma sum_slots j (f : nat -> R) : rsum (deg_of g j) f = rsum n (fun l => A j l * f (index l (adj_of g j))).
  Proof. rewrite deg_adj, rsum_index by apply nodup_adj. apply lsum_adj. Qed.
  Lemma deg_sum j : INR (deg_of g j) = rsum n (A j).
  Proof.
    replace (INR (deg_of g j)) with (rsum (deg_of g j) (fun _ => 1)) by (rewrite rsum_const; lra).
    rewrite sum_slots. apply rsum_ext. intros; lra.
  Qed.
  Lemma slot_lt j l : linked es j l -> (index l (adj_of g j) < deg_of g j)%nat.
  Proof.
    intros H. apply in_adj in H. apply nth_index in H. rewrite deg_adj. apply nth_error_Some. congruence.
  Qed.
  Lemma slot_nth j l : linked es j l -> nth_error (adj_of g j) (index l (adj_of g j)) = Some l.
  Proof. intros H. apply nth_index, in_adj, H. Qed.
  Lemma slot_of j a : (a < deg_of g j)%nat -> exists l, linked es j l /\ index l (adj_of g j) = a.
  Proof.
    intros H. rewrite deg_adj in H. destruct (nth_error (adj_of g j) a) as [l|] eqn:E.
    - exists l. split; [apply in_adj; eapply nth_error_In; eassumption|]. apply index_nth; [easy|apply nodup_adj].
    - apply nth_error_None in E. lia.
  Qed.

  (** sums over the ordered pairs of neighbours *)
  Definition esum (f : nat -> nat -> R) : R := rsum n (fun j => rsum n (fun l => A j l * f j l)).
  Lemma esum_ext f h : (forall j l, linked es j l -> f j l = h j l) -> esum f = esum h.
  Proof.
    intros H. unfold esum. apply rsum_ext. intros j Hj. apply rsum_ext. intros l Hl.
    destruct (linked_dec j l) as [K|K]; [rewrite H by easy; easy|rewrite A_not by easy; lra].
  Qed.
  Lemma esum_swap f : esum f = esum (fun j l => f l j).
  Proof.
    unfold esum. rewrite rsum_swap. apply rsum_ext. intros j Hj. apply rsum_ext. intros l Hl. rewrite A_sym. easy.
  Qed.
  Lemma esum_plus f h : esum (fun j l => f j l + h j l) = esum f + esum h.
  Proof.
    unfold esum. rewrite <- rsum_plus. apply rsum_ext. intros j Hj. rewrite <- rsum_plus. apply rsum_ext. intros; lra.
  Qed.
  Lemma esum_scal c f : esum (fun j l => c * f j l) = c * esum f.
  Proof.
    unfold esum. rewrite <- rsum_scal. apply rsum_ext. intros j Hj. rewrite <- rsum_scal. apply rsum_ext. intros; lra.
  Qed.
  Lemma esum_zero f : (forall j l, linked es j l -> f j l = 0) -> esum f = 0.
  Proof.
    intros H. rewrite (esum_ext f (fun _ _ => 0)) by easy. unfold esum. apply rsum_zero. intros. apply rsum_zero. intros; lra.
  Qed.
  Lemma esum_nonneg f : (forall j l, linked es j l -> 0 <= f j l) -> 0 <= esum f.
  Proof.
    intros H. unfold esum. apply rsum_nonneg. intros j Hj. apply rsum_nonneg. intros l Hl.
    destruct (linked_dec j l) as [K|K]; [rewrite A_link by easy; specialize (H j l K); lra|rewrite A_not by easy; lra].
  Qed.
  Lemma esum_le f h : (forall j l, linked es j l -> f j l <= h j l) -> esum f <= esum h.
  Proof.
    intros H. assert (0 <= esum (fun j l => h j l + (-1) * f j l)).
    { apply esum_nonneg. intros j l K. specialize (H j l K). lra. }
    rewrite esum_plus, esum_scal in H0. lra.
  Qed.
  Lemma rsum_ge_term m f k : (forall i, (i < m)%nat -> 0 <= f i) -> (k < m)%nat -> f k <= rsum m f.
  Proof.
    induction m as [|m IH]; intros H Hk; [lia|]. simpl. assert (0 <= rsum m f) by (apply rsum_nonneg; auto).
    assert (0 <= f m) by auto. destruct (Nat.eq_dec k m) as [->|]; [lra|]. specialize (IH ltac:(auto) ltac:(lia)). lra.
  Qed.
  Lemma esum_ge_term f j l : (forall j l, linked es j l -> 0 <= f j l) -> linked es j l -> f j l <= esum f.
  Proof.
    intros H K. assert (P : forall j l, 0 <= A j l * f j l).
    { intros a b. destruct (linked_dec a b) as [K'|K']; [rewrite A_link by easy; specialize (H a b K'); lra|rewrite A_not by easy; lra]. }
    apply Rle_trans with (rsum n (fun l => A j l * f j l)).
    - apply Rle_trans with (A j l * f j l); [rewrite A_link by easy; lra|].
      apply (rsum_ge_term n (fun l => A j l * f j l)); [easy|]. apply linked_lt with j. apply linked_sym, K.
    - apply (rsum_ge_term n (fun j => rsum n (fun l => A j l * f j l))).
      + intros i Hi. apply rsum_nonneg. auto.
      + apply linked_lt with l. easy.
  Qed.
  Lemma esum_antisym f : (forall j l, linked es j l -> f j l = - f l j) -> esum f = 0.
  Proof.
    intros H. assert (E : esum f = (-1) * esum f); [|lra].
    rewrite <- esum_scal. rewrite (esum_swap (fun j l => -1 * f j l)). apply esum_ext. intros j l K. rewrite H by easy. lra.
  Qed.
  Lemma esum_row (f : nat -> R) (h : nat -> nat -> R) : rsum n (fun j => f j * rsum n (fun l => A j l * h j l)) = esum (fun j l => f j * h j l).
  Proof. unfold esum. apply rsum_ext. intros j Hj. rewrite <- rsum_scal. apply rsum_ext. intros; lra. Qed.

  Lemma reach_const {X} (f : nat -> X) : (forall j l, linked es j l -> f j = f l) -> forall j l, reach es j l -> f j = f l.
  Proof. intros H j l R. induction R as [|j l m K _ IH]; [easy|]. rewrite (H j l K). easy. Qed.
  Lemma reach_trans j l m : reach es j l -> reach es l m -> reach es j m.
  Proof. induction 1 as [|a b c K _ IH]; [easy|]. intros H. econstructor; eauto. Qed.
  Lemma reach_lt j l : reach es j l -> (j < n)%nat -> (l < n)%nat.
  Proof. induction 1 as [|a b c K _ IH]; [easy|]. intros H. apply IH. apply linked_sym, linked_lt in K. easy. Qed.
  Lemma degree_pos : connected n es -> (2 <= n)%nat -> forall j, (j < n)%nat -> (0 < deg_of g j)%nat.
  Proof.
    intros Hc Hn j Hj. assert (exists l, (l < n)%nat /\ l <> j) as (l & Hl & Hne).
    { destruct j; [exists 1%nat|exists 0%nat]; lia. }
    specialize (Hc j l Hj Hl). inversion Hc as [|? m ? K _]; subst; [congruence|].
    pose proof (slot_lt j m K). lia.
  Qed.
End Network.
