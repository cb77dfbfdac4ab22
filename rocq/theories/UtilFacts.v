(** Facts about the packing helpers. *)
From Coq Require Import List Arith Bool String QArith Reals Qreals Lra Lia.
From Verif Require Import Prelude PreludeFacts Sympy SympyFacts AlgebraModel FunctionModel CircuitModel SymSpec SymFacts GramFacts
  StateSpec StateFacts CertFacts ParsingModel ParsingSpec SolverModel SolverSpec SolverFacts IpoptFacts IpoptProof IpoptComplete SolverProps
  QcqpModel QcqpSpec QcqpFacts QcqpFacts2 QcqpProof UtilModel UtilSpec.
Import ListNotations.
Local Open Scope nat_scope.

Lemma pairs_offdiag n : pairs n = offdiag n.
Proof.
  unfold pairs, offdiag, loop2.
  assert (G : forall m l, flat_map (fun i => flat_map (fun j => if Nat.eqb i j then [] else [(i, j)]) m) l =
    filter (fun ij => negb (Nat.eqb (fst ij) (snd ij))) (flat_map (fun i => map (fun j => (i, j)) m) l)); [|apply G].
  intros m. induction l as [|i l IH]; [easy|].
  cbn [flat_map]. rewrite filter_app, IH. f_equal. clear IH. induction m as [|j m IHm]; [easy|]. simpl.
  destruct (Nat.eqb i j); simpl; rewrite IHm; easy.
Qed.
Lemma offdiag_in n i j : In (i, j) (offdiag n) <-> i < n /\ j < n /\ i <> j.
Proof. rewrite <- pairs_offdiag. apply pairs_spec. Qed.
Lemma loop2_in n i j : In (i, j) (loop2 n) <-> i < n /\ j < n.
Proof.
  unfold loop2. rewrite in_flat_map. split.
  - intros (a & Ha & H). apply in_map_iff in H as (b & [= <- <-] & Hb). apply in_seq in Ha, Hb. lia.
  - intros [H1 H2]. exists i. split; [apply in_seq; lia|]. apply in_map_iff. exists j. split; [easy|]. apply in_seq. lia.
Qed.
Lemma row_len i n : forall k, List.length (filter (fun j => negb (Nat.eqb i j)) (seq k n)) = n - (if Nat.leb k i && Nat.ltb i (k + n) then 1 else 0).
Proof.
  induction n as [|n IH]; intros k; [simpl; lia|]. cbn [seq filter]. destruct (Nat.eqb_spec i k) as [->|Hne].
  - cbn [negb]. rewrite IH. destruct (Nat.leb_spec (S k) k), (Nat.leb_spec k k), (Nat.ltb_spec k (k + S n)); simpl; try lia.
  - cbn [negb List.length]. rewrite IH.
    destruct (Nat.leb_spec (S k) i), (Nat.leb_spec k i), (Nat.ltb_spec i (S k + n)), (Nat.ltb_spec i (k + S n)); simpl; lia.
Qed.
Lemma offdiag_length n : List.length (offdiag n) = n * (n - 1).
Proof.
  unfold offdiag, loop2.
  assert (G : forall l, (forall i, In i l -> i < n) -> List.length (filter (fun ij => negb (Nat.eqb (fst ij) (snd ij))) (flat_map (fun i => map (fun j => (i, j)) (seq 0 n)) l)) = List.length l * (n - 1)).
  { induction l as [|i l IH]; intros Hl; [easy|]. cbn [flat_map]. rewrite filter_app, app_length, IH by (intros; apply Hl; simpl; auto).
    assert (E : List.length (filter (fun ij => negb (Nat.eqb (fst ij) (snd ij))) (map (fun j => (i, j)) (seq 0 n))) = n - 1).
    { transitivity (List.length (filter (fun j => negb (Nat.eqb i j)) (seq 0 n))).
      - clear. induction (seq 0 n) as [|j m IHm]; [easy|]. simpl. destruct (Nat.eqb i j); simpl; lia.
      - rewrite row_len. assert (Hi := Hl i (or_introl eq_refl)). apply Nat.ltb_lt in Hi. simpl. rewrite Hi. easy. }
    rewrite E. simpl. lia. }
  rewrite G; [rewrite seq_length; easy|]. intros i Hi. apply in_seq in Hi. lia.
Qed.

Section Pack.
  Context {A : Type} (zero : A).

  Lemma flatten_spec (M : arr2 A) : a2_rows M <= a2_cols M ->
    flatten_lamb M = Ok (map (fun ij => a2_at M (fst ij) (snd ij)) (offdiag (a2_rows M))).
  Proof using Type.
    intros Hc. unfold flatten_lamb, offdiag.
    assert (G : forall l acc, (forall ij, In ij l -> fst ij < a2_rows M /\ snd ij < a2_rows M) ->
      foldr (fun ij acc => if Nat.eqb (fst ij) (snd ij) then Ok acc else let? x := a2_get M (fst ij) (snd ij) in Ok (acc ++ [x])) l acc =
      Ok (acc ++ map (fun ij => a2_at M (fst ij) (snd ij)) (filter (fun ij => negb (Nat.eqb (fst ij) (snd ij))) l))).
    { induction l as [|ij l IH]; intros acc Hl; [simpl; rewrite app_nil_r; easy|]. cbn [foldr filter].
      assert (H := Hl ij (or_introl eq_refl)). destruct (Nat.eqb (fst ij) (snd ij)); cbn [negb bindr].
      - apply IH. intros; apply Hl; simpl; auto.
      - unfold a2_get. destruct H as [H1 H2]. assert (H3 : snd ij < a2_cols M) by lia. apply Nat.ltb_lt in H1, H3. rewrite H1, H3. cbn [andb bindr].
        rewrite IH by (intros; apply Hl; simpl; auto). rewrite <- app_assoc. easy. }
    rewrite G; [easy|]. intros [i j] Hij. apply loop2_in in Hij. exact Hij.
  Qed.

  Lemma sqrt_size n : 1 <= n -> Nat.sqrt (n * (n - 1)) + 1 = n.
  Proof using Type. intros H. replace (Nat.sqrt (n * (n - 1))) with (n - 1); [lia|]. symmetry. apply Nat.sqrt_unique. nia. Qed.

  Lemma reshape_spec n (f : nat -> nat -> A) : 1 <= n ->
    exists M, reshape_lamb_2d zero (map (fun ij => f (fst ij) (snd ij)) (offdiag n)) = Ok M /\ a2_rows M = n /\ a2_cols M = n /\
      forall i j, i < n -> j < n -> a2_at M i j = if Nat.eqb i j then zero else f i j.
  Proof using Type.
    intros Hn. unfold reshape_lamb_2d. rewrite map_length, offdiag_length, sqrt_size by exact Hn.
    set (lamb := map _ (offdiag n)).
    assert (G : forall l M c, a2_rows M = n -> a2_cols M = n -> (forall ij, In ij l -> fst ij < n /\ snd ij < n) ->
      (forall k ij, nth_error (filter (fun ij => negb (Nat.eqb (fst ij) (snd ij))) l) k = Some ij -> nth_error lamb (c + k) = Some (f (fst ij) (snd ij))) ->
      exists M' c', foldr (fun ij st => if Nat.eqb (fst ij) (snd ij) then Ok st
          else match nth_error lamb (snd st) with None => Err IndexError
               | Some x => let? M := a2_set (fst st) (fst ij) (snd ij) x in Ok (M, snd st + 1) end) l (M, c) = Ok (M', c') /\
        a2_rows M' = n /\ a2_cols M' = n /\
        forall i j, (In (i, j) l /\ i <> j -> a2_at M' i j = f i j) /\ (~ (In (i, j) l /\ i <> j) -> a2_at M' i j = a2_at M i j)).
    { induction l as [|[i0 j0] l IH]; intros M c R C Hl Hk.
      - exists M, c. split; [easy|]. split; [exact R|]. split; [exact C|]. intros i j. split; [intros [[] _]|easy].
      - cbn [foldr]. assert (Hb := Hl (i0, j0) (or_introl eq_refl)). cbn [fst snd] in *. cbn [filter fst snd] in Hk. destruct (Nat.eqb_spec i0 j0) as [E|E].
        + cbn [bindr negb] in *. destruct (IH M c R C) as (M' & c' & E1 & R1 & C1 & V1); [intros; apply Hl; simpl; auto|exact Hk|].
          exists M', c'. split; [exact E1|]. split; [exact R1|]. split; [exact C1|]. intros i j. destruct (V1 i j) as [V2 V3]. split.
          * intros [[[= -> ->]|H] Hne]; [easy|]. apply V2. easy.
          * intros H. apply V3. intros [H1 H2]. apply H. split; [right; exact H1|exact H2].
        + cbn [negb bindr] in *. specialize (Hk 0 (i0, j0) eq_refl) as H0. rewrite Nat.add_0_r in H0. cbn [fst snd] in H0. rewrite H0.
          unfold a2_set. destruct Hb as [Hb1 Hb2]. apply Nat.ltb_lt in Hb1, Hb2. rewrite R, C, Hb1, Hb2. cbn [andb bindr].
          match goal with |- context [foldr _ l (?M1, _)] => destruct (IH M1 (c + 1)) as (M' & c' & E1 & R1 & C1 & V1) end; try easy.
          * intros; apply Hl; simpl; auto.
          * intros k ij Hij. replace (c + 1 + k) with (c + S k) by lia. apply Hk. exact Hij.
          * exists M', c'. split; [exact E1|]. split; [exact R1|]. split; [exact C1|]. intros i j. destruct (V1 i j) as [V2 V3]. cbn [a2_at] in V3.
            assert (Dec : (In (i, j) l /\ i <> j) \/ ~ (In (i, j) l /\ i <> j)).
            { destruct (in_dec (fun x y : nat * nat => ltac:(decide equality; apply Nat.eq_dec) : {x = y} + {x <> y}) (i, j) l); destruct (Nat.eq_dec i j); tauto. }
            split.
            -- intros [H Hne]. destruct Dec as [D|D]; [apply V2, D|]. rewrite (V3 D). destruct H as [[= -> ->]|H]; [rewrite !Nat.eqb_refl; easy|]. tauto.
            -- intros H. rewrite V3 by (intros [H1 H2]; apply H; split; [right; exact H1|exact H2]).
               destruct (Nat.eqb_spec i i0), (Nat.eqb_spec j j0); subst; try easy. exfalso. apply H. split; [left; easy|exact E]. }
    destruct (G (loop2 n) (mkA2 n n (fun _ _ => zero)) 0 eq_refl eq_refl) as (M' & c' & E1 & R1 & C1 & V1).
    { intros [i j] H. apply loop2_in in H. exact H. }
    { intros k ij H. unfold lamb. apply (map_nth_error (fun ij => f (fst ij) (snd ij)) _ _ H). }
    rewrite E1. cbn [bindr fst]. exists M'. split; [easy|]. split; [exact R1|]. split; [exact C1|]. intros i j Hi Hj. destruct (V1 i j) as [V2 V3].
    destruct (Nat.eqb_spec i j) as [E|E]; [apply V3; tauto|]. apply V2. split; [apply loop2_in; easy|exact E].
  Qed.

  Lemma flatten_tri_spec (P : arr2 A) : List.length (flatten_lower_tri zero P) = start_idx (a2_rows P) /\
    forall i j, i < a2_rows P -> j <= i -> nth_error (flatten_lower_tri zero P) (start_idx i + j) = Some (a2_at P i j).
  Proof using Type.
    unfold flatten_lower_tri. fold (start_idx (a2_rows P)). rewrite map_length, seq_length. split; [easy|]. intros i j Hi Hj.
    assert (B := start_lt i (a2_rows P) Hi).
    rewrite nth_error_map, (nth_error_nth' _ 0) by (rewrite seq_length; lia). cbn [option_map]. f_equal. rewrite seq_nth by lia. simpl (0 + _).
    assert (G : forall n (r : nat -> A), fold_left (fun (r : nat -> A) i0 => let lo := Nat.div (i0 * (i0 + 1)) 2 in
        fun k => if Nat.leb lo k && Nat.ltb k (lo + i0 + 1) then a2_at P i0 (k - lo) else r k) (seq 0 n) r (start_idx i + j) =
        if Nat.ltb i n then a2_at P i j else r (start_idx i + j)).
    { induction n as [|n IH]; intros r; [easy|]. rewrite seq_S, fold_left_app. cbn [fold_left]. cbv zeta. rewrite (Nat.add_0_l n). fold (start_idx n). rewrite IH.
      destruct (Nat.ltb_spec i n) as [H|H].
      - assert (Q := start_lt i n H). destruct (Nat.leb_spec (start_idx n) (start_idx i + j)); [lia|]. cbn [andb]. destruct (Nat.ltb_spec i (S n)); [easy|lia].
      - destruct (Nat.ltb_spec i (S n)) as [H1|H1].
        + assert (i = n) by lia. subst n. destruct (Nat.leb_spec (start_idx i) (start_idx i + j)); [|lia]. destruct (Nat.ltb_spec (start_idx i + j) (start_idx i + i + 1)); [|lia].
          cbn [andb]. f_equal. lia.
        + assert (Q := start_lt n i H1). destruct (Nat.leb_spec (start_idx n) (start_idx i + j)); [|easy]. cbn [andb].
          destruct (Nat.ltb_spec (start_idx i + j) (start_idx n + n + 1)); [lia|easy]. }
    rewrite G. apply Nat.ltb_lt in Hi. rewrite Hi. easy.
  Qed.
End Pack.

(** * any casadi matrix *)
Lemma ids_bounded e : exists N, ids_lt N e.
Proof.
  induction e as [q|i|a [n Ha] b [m Hb]|a [n Ha] b [m Hb]|a [n Ha] b [m Hb]];
    [exists 0; easy|exists (S i); simpl; lia|..]; exists (n + m); simpl; split; eapply ids_lt_mono; try eassumption; lia.
Qed.
Lemma row_bounded (f : nat -> cexpr) c : exists N, forall j, j < c -> ids_lt N (f j).
Proof.
  induction c as [|c [N H]]; [exists 0; lia|]. destruct (ids_bounded (f c)) as [M HM]. exists (N + M). intros j Hj.
  destruct (Nat.eq_dec j c) as [->|]; [apply (ids_lt_mono M); [lia|exact HM]|]. apply (ids_lt_mono N); [lia|]. apply H. lia.
Qed.
Lemma xis_any x : exists N, xis N x (xm_rows x) (xm_cols x) (fun a i j => ceval a (xm_at x i j)).
Proof.
  assert (G : forall r, exists N, forall i j, i < r -> j < xm_cols x -> ids_lt N (xm_at x i j)).
  { induction r as [|r [N H]]; [exists 0; lia|]. destruct (row_bounded (xm_at x r) (xm_cols x)) as [M HM]. exists (N + M). intros i j Hi Hj.
    destruct (Nat.eq_dec i r) as [->|]; [apply (ids_lt_mono M); [lia|]; apply HM, Hj|]. apply (ids_lt_mono N); [lia|]. apply H; lia. }
  destruct (G (xm_rows x)) as [N H]. exists N. split; [easy|]. split; [easy|]. split; [exact H|]. easy.
Qed.

(** * products of rows of the packed triangle *)
Lemma ppt_element vec n k1 k2 : xm_rows vec = start_idx n -> xm_cols vec = 1 -> k1 < n -> k2 < n ->
  exists A, get_PPt_element vec k1 k2 = Ok A /\ xm_rows A = 1 /\ xm_cols A = 1 /\
    forall a, let z := fun i => ceval a (xm_at vec i 0) in
      ceval a (xm_at A 0 0) = rsum n (fun c => tri z k1 c * tri z k2 c)%R.
Proof.
  intros R C H1 H2. destruct (xis_any vec) as [N X]. rewrite R, C in X. unfold get_PPt_element.
  assert (B1 := start_lt k1 n H1). assert (B2 := start_lt k2 n H2).
  assert (X1 := xis_slice N _ _ _ _ (start_idx k1) (start_idx k1 + Nat.min k1 k2 + 1) X ltac:(lia)).
  assert (X2 := xis_slice N _ _ _ _ (start_idx k2) (start_idx k2 + Nat.min k1 k2 + 1) X ltac:(lia)).
  replace (start_idx k1 + Nat.min k1 k2 + 1 - start_idx k1) with (Nat.min k1 k2 + 1) in X1 by lia.
  replace (start_idx k2 + Nat.min k1 k2 + 1 - start_idx k2) with (Nat.min k1 k2 + 1) in X2 by lia.
  destruct (xis_mul N _ _ _ _ _ _ _ (xis_T N _ _ _ _ X1) X2) as (A & EA & (RA & CA & _ & XA)). exists A. split; [exact EA|].
  split; [exact RA|]. split; [exact CA|]. intros a. cbv zeta. rewrite XA by lia. cbv beta. rewrite <- (tri_rows (fun i => ceval a (xm_at vec i 0)) n k1 k2 H1 H2). easy.
Qed.
Lemma ppt_matrix x P0 n k1 k2 : P0 + start_idx n <= xm_rows x -> k1 < n -> k2 < n ->
  exists S1 S2 M, get_PPt_matrix x P0 k1 k2 = Ok (S1, S2) /\ cm_mul (cm_T S1) S2 = Ok M /\
    cm_rows M = xm_rows x /\ cm_cols M = xm_rows x /\
    forall z : nat -> R, rsum (xm_rows x) (fun i => rsum (xm_rows x) (fun j => Q2R (cm_at M i j) * (z i * z j)))%R =
      rsum n (fun c => tri (fun i => z (P0 + i)%nat) k1 c * tri (fun i => z (P0 + i)%nat) k2 c)%R.
Proof.
  intros R H1 H2. assert (B1 := start_lt k1 n H1). assert (B2 := start_lt k2 n H2). set (r := Nat.min k1 k2 + 1). set (X := xm_rows x) in *.
  destruct (selection_value r (P0 + start_idx k1) X ltac:(unfold r; lia)) as (S1 & E1 & C1).
  destruct (selection_value r (P0 + start_idx k2) X ltac:(unfold r; lia)) as (S2 & E2 & C2).
  destruct (cis_mul _ _ _ _ _ _ _ (cis_T _ _ _ _ C1) C2) as (M & EM & (RM & CM & VM)). exists S1, S2, M.
  unfold get_PPt_matrix. fold r. fold X. rewrite E1, E2. cbn [bindr]. split; [easy|]. split; [exact EM|]. split; [exact RM|]. split; [exact CM|].
  intros z. rewrite <- (tri_rows (fun i => z (P0 + i)%nat) n k1 k2 H1 H2). fold r.
  assert (Hw1 : P0 + start_idx k1 + r <= X) by (unfold r; lia). assert (Hw2 : P0 + start_idx k2 + r <= X) by (unfold r; lia).
  rewrite (rsum_ext X _ (fun i => rsum r (fun m => (ind i (P0 + start_idx k1 + m) * (z (P0 + start_idx k2 + m)%nat * z i))%R))).
  - rewrite rsum_window by exact Hw1. apply rsum_ext. intros m Hm. rewrite !Nat.add_assoc. lra.
  - intros i Hi.
    rewrite (rsum_ext X _ (fun l => rsum r (fun m => (ind l (P0 + start_idx k2 + m) * (ind i (P0 + start_idx k1 + m) * (z l * z i)))%R))).
    + rewrite rsum_window by exact Hw2. easy.
    + intros l Hl. rewrite VM by assumption. rewrite <- rsum_scal_r. apply rsum_ext. intros m Hm. unfold ind.
      destruct (Nat.eqb l (P0 + start_idx k2 + m)), (Nat.eqb i (P0 + start_idx k1 + m)); lra.
Qed.

(** * selection matrices *)
Lemma selection_slice x lo hi : xm_cols x = 1 -> lo <= hi + 1 -> hi < xm_rows x ->
  exists A B, get_vec_matrix x (lo, hi) = Ok A /\ xm_mul (xm_num A) x = Ok B /\
    xm_rows B = xm_rows (get_vec_var x (lo, hi)) /\ xm_cols B = xm_cols (get_vec_var x (lo, hi)) /\ xm_rows B = hi + 1 - lo /\
    forall a i, i < hi + 1 - lo -> ceval a (xm_at B i 0) = ceval a (xm_at (get_vec_var x (lo, hi)) i 0) /\
      ceval a (xm_at B i 0) = ceval a (xm_at x (lo + i) 0).
Proof.
  intros C H1 H2. destruct (xis_any x) as [N X]. rewrite C in X. unfold get_vec_matrix, get_vec_var. cbn [fst snd].
  destruct (selection_value (hi + 1 - lo) lo (xm_rows x) ltac:(lia)) as (A & EA & CA). exists A.
  destruct (xis_mul N _ _ _ _ _ _ _ (xis_num N _ _ _ _ CA) X) as (B & EB & (RB & CB & _ & VB)). exists B.
  split; [exact EA|]. split; [exact EB|]. unfold xm_slice. cbn [xm_rows xm_cols xm_at]. rewrite C. split; [lia|]. split; [exact CB|]. split; [exact RB|].
  intros a i Hi. rewrite VB by lia. cbv beta. assert (E : rsum (xm_rows x) (fun l => ((if Nat.eqb l (lo + i) then 1 else 0) * ceval a (xm_at x l 0))%R) = ceval a (xm_at x (lo + i) 0)).
  { apply (rsum_ind (xm_rows x) (lo + i) (fun l => ceval a (xm_at x l 0))). lia. }
  rewrite E. easy.
Qed.

(** * order of the generated constraints *)
Lemma number_map {A B} (g : nat -> B) (l : list A) : forall i, map (fun ia => g (fst ia)) (number i l) = map g (seq i (List.length l)).
Proof. induction l as [|a l IH]; intros i; simpl; [easy|]. rewrite IH. easy. Qed.

Lemma key_order SY p s sr s' : Inv s -> symbolic SY p s = (Ok sr, s') ->
  keys (sr_exp sr) = constraint_order (List.length (ineqs p)) (List.length (eqs p))
     (map (fun fn => List.length (fn_pts fn)) (funs_of s (leaf_funs (st_flist s) s))) ++ [SObj].
Proof.
  intros I HS. unfold symbolic in HS. set (funs := leaf_funs (st_flist s) s) in *.
  assert (Hin : forall f, In f funs -> In f (st_flist s)) by (intros f Hf; apply leaf_funs_in in Hf; apply Hf).
  destruct (csm_spec SY _ _ p funs (funs_of s funs) s sr s' HS) as (W & m & wm & Em & Ew & Ex & F2 & Hsum & HE & HI).
  { apply leaf_funs_nodup, (inv_flist s I). }
  { apply fresh_funs; assumption. }
  rewrite Ex. unfold keys. rewrite map_app. f_equal. rewrite (stores_keys SY _ _ _ _ F2). unfold constraint_table, constraint_order. rewrite !map_app.
  f_equal; [|f_equal].
  - unfold extra_ineq_table. rewrite map_map. simpl. apply (number_map (fun i => SK 0 0 i 0)).
  - unfold class_table.
    assert (Es : shift_of p = if Nat.eqb (List.length (ineqs p)) 0 then 0 else 1) by (unfold shift_of; destruct (ineqs p); easy).
    rewrite Es. generalize (if Nat.eqb (List.length (ineqs p)) 0 then 0 else 1). intros sh.
    assert (G : forall fns k, map fst (flat_map (fun kf => fun_table SY (fst kf + sh) (snd kf)) (number k fns)) =
      class_order (k + sh) (map (fun fn => List.length (fn_pts fn)) fns)); [|apply (G _ 0)].
    induction fns as [|fn l IH]; intros k; [easy|]. cbn [number flat_map map class_order fst snd]. rewrite map_app, IH. f_equal.
    unfold fun_table. rewrite map_map. simpl. rewrite pairs_offdiag. easy.
  - unfold eq_table. rewrite map_map. simpl. apply (number_map (fun i => SK 1 0 i 0)).
Qed.

(** * the diagonal *)
Lemma diag_rows (y : nat -> R) n i : i < n ->
  rsum (cm_cols (diag_selector n)) (fun j => (Q2R (cm_at (diag_selector n) i j) * y j)%R) = tri y i i.
Proof.
  intros Hi. unfold diag_selector. cbn [cm_cols cm_at]. assert (B := start_lt i n Hi).
  rewrite (rsum_ext _ _ (fun j => (ind j (start_idx i + i) * y j)%R)).
  - rewrite rsum_ind by lia. unfold tri. rewrite Nat.leb_refl. easy.
  - intros j Hj. rewrite diag_idx_spec by exact Hi. unfold ind. destruct (Nat.eqb j (start_idx i + i)); [rewrite Q2R_1'|rewrite Q2R_0']; easy.
Qed.

(** * reshaping and flattening again *)
Lemma NoDup_app_intro {A} (l m : list A) : NoDup l -> NoDup m -> (forall x, In x l -> In x m -> False) -> NoDup (l ++ m).
Proof.
  intros H1 H2 H. induction H1 as [|x l Hx _ IH]; [exact H2|]. simpl. constructor; [|apply IH; intros; eapply H; simpl; eauto].
  intros Q. apply in_app_or in Q as [Q|Q]; [easy|]. apply (H x); simpl; auto.
Qed.
Lemma reshape_flatten {A} (zero : A) (l : list A) n : 1 <= n -> List.length l = n * (n - 1) ->
  exists M, reshape_lamb_2d zero l = Ok M /\ a2_rows M = n /\ a2_cols M = n /\ flatten_lamb M = Ok l.
Proof.
  intros Hn Hl.
  assert (Hx : exists f : nat -> nat -> A, l = map (fun ij => f (fst ij) (snd ij)) (offdiag n)).
  { assert (Nd : NoDup (offdiag n)).
    { unfold offdiag. apply NoDup_filter. clear. generalize (seq_NoDup n 0). generalize (seq 0 n) at 1 3. intros l0 H. induction H as [|i l0 Hi _ IH]; [constructor|].
      cbn [flat_map]. apply NoDup_app_intro; [|exact IH|].
      - apply FinFun.Injective_map_NoDup; [intros a b [=]; easy|apply seq_NoDup].
      - intros [a b] H1 H2. apply in_map_iff in H1 as (? & [= <- <-] & _). apply in_flat_map in H2 as (k & Hk & H2).
        apply in_map_iff in H2 as (? & [= <- <-] & _). easy. }
    rewrite <- offdiag_length in Hl. revert l Hl. induction Nd as [|[i j] q Hq _ IH]; intros [|x l] Hl; try discriminate Hl.
    - exists (fun _ _ => zero). easy.
    - destruct (IH l) as [f Hf]; [simpl in Hl; lia|]. exists (fun a b => if Nat.eqb a i && Nat.eqb b j then x else f a b).
      simpl. rewrite !Nat.eqb_refl. simpl. f_equal. rewrite Hf. apply map_ext_in. intros [a b] Hab. simpl.
      destruct (Nat.eqb_spec a i) as [->|]; [|easy]. destruct (Nat.eqb_spec b j) as [->|]; [|easy]. contradiction. }
  destruct Hx as [f ->]. destruct (reshape_spec zero n f Hn) as (M & E & R & C & V). exists M. split; [exact E|]. split; [exact R|]. split; [exact C|].
  rewrite flatten_spec by lia. f_equal. rewrite R. apply map_ext_in. intros [i j] Hij. apply offdiag_in in Hij as (H1 & H2 & H3). simpl.
  rewrite V by assumption. destruct (Nat.eqb_spec i j); easy.
Qed.
