(** The two QCQP programs: their feasible points are certificates and
    conversely, and both describe the same points. *)
From Coq Require Import List Arith Bool String Ascii QArith Reals Qreals Lra Lia.
From Verif Require Import Prelude PreludeFacts Sympy SympyFacts AlgebraModel Denote AlgebraFacts FunctionModel CircuitModel SymSpec
  GramFacts SymFacts Spec ClassSpec CertSpec StateSpec SessionModel StateFacts CertFacts ParsingModel
  ParsingSpec SolverModel ParsingFacts CoeffFacts SolverSpec SolverFacts IpoptFacts IpoptProof IpoptComplete SolverProps
  QcqpModel QcqpSpec QcqpFacts QcqpFacts2 QcqpBuild QcqpProof.
Import ListNotations.
Local Open Scope nat_scope.

(** * the variables of the objective *)
Lemma name_vars_get nm n : dget String.eqb n (name_vars 0 nm) = option_map (fun i => mkCV 1 1 i) (dget vname_eqb (VStr n) (nm_idx nm)).
Proof.
  unfold name_vars. induction (nm_idx nm) as [|[v i] l IH]; [easy|]. destruct v as [|s]; simpl; [exact IH|].
  destruct (String.eqb n s); [easy|exact IH].
Qed.
Lemma plain_name nm a x : plain_env (name_vars 0 nm) a x = at_name nm a x.
Proof. unfold plain_env, at_name. rewrite name_vars_get. destruct (dget vname_eqb (VStr x) (nm_idx nm)); easy. Qed.

(** the size of x *)
Definition x_len (nm : names) (sr : symres) (dimG : nat) : nat := List.length (nm_list nm) + sr_I sr + sr_E sr + start_idx dimG.

Section Main.
  Context {SY : sympy} (OK : sympy_ok SY).

  (** What both builders do: [signs] tells them apart. *)
  Record vec_prog (signs : bool) (p : problem) (b : option bounds) (s s' : state) (n : nlp) (W : list (skey * fgw)) (wm : fgw)
      (Fs Gs : list cmatrix) (nm : names) (cb all : list ccon) (N : nat) : Prop := mkVP {
    vp_sym : symbolic SY p s = (Ok (nlp_sym n), s');
    vp_tab : table_facts p s (nlp_sym n) W wm;
    vp_run : sp_v_coeff_matrix SY (fg_lists (nlp_sym n) (st_ectr s) (st_pctr s)) (pr_params p) = Ok (Fs, Gs, nm);
    vp_coef : good_coeffs (pr_params p) (st_ectr s) (st_pctr s) (sr_exp (nlp_sym n)) Fs Gs nm;
    vp_dual : 1 <= sr_I (nlp_sym n) + sr_E (nlp_sym n);
    vp_recip : recips_in p nm;
    vp_signs : signs = true -> signs_in nm;
    vp_lt : Forall (con_lt (x_len nm (nlp_sym n) (st_pctr s))) all;
    vp_N : x_len nm (nlp_sym n) (st_pctr s) <= N;
    vp_min : minimize SY p (mkOpti N all (name_vars 0 nm)) = Ok (nlp_obj n, nlp_opti n);
    vp_all : forall a, Forall (holds a) all <-> Forall (holds a) cb /\ (signs = true -> x_signs nm a) /\
       qcqp_point (pr_params p) nm Fs Gs (sr_I (nlp_sym n)) (sr_E (nlp_sym n)) (st_ectr s) (st_pctr s) a;
    vp_run_b : ca_add_bounds b (nm_idx nm) (mkOpti 0 [] (xvars (x_len nm (nlp_sym n) (st_pctr s)))) =
       Ok (tt, mkOpti 0 cb (xvars (x_len nm (nlp_sym n) (st_pctr s))));
    vp_bounds : known_bounds b nm -> forall a, Forall (holds a) cb <-> x_bounds b nm (x_len nm (nlp_sym n) (st_pctr s)) a
  }.

  Section Setup.
    Variables (p : problem) (b : option bounds) (s : state).
    Hypothesis I : Inv s.
    Hypothesis Nd : NoDup (pr_params p).
    Hypothesis Hg : Forall good_param (pr_params p).
    Hypothesis Hd : declared p s.

    Lemma qcqp_prog extra n s' : qcqp_nlp SY p b extra s = (Ok n, s') ->
      exists W wm Fs Gs nm cb all N, vec_prog true p b s s' n W wm Fs Gs nm cb all N.
    Proof using OK I Nd Hg Hd.
      unfold qcqp_nlp. destruct (symbolic SY p s) as [[sr|] s1] eqn:Es; [|discriminate].
      destruct (sp_v_coeff_matrix SY (fg_lists sr (st_ectr s) (st_pctr s)) (pr_params p)) as [[[Fs Gs] nm]|] eqn:Ec; [|discriminate].
      cbn [bindr]. destruct (qcqp_build SY p b extra sr (st_ectr s) (st_pctr s) Fs Gs nm opti0) as [[obj o]|] eqn:Eb; [|discriminate].
      intros [= <- <-]. destruct (assembled OK p s sr s1 I Es) as (W & wm & T).
      assert (C := coeff_setup OK p s sr W wm Fs Gs nm T Nd Hg Hd Ec). assert (HN := proj1 C).
      assert (C0 := C). destruct C0 as (_ & SF & SG & LF & LG & _). rewrite (len_W p s sr W wm T) in LF, LG.
      assert (Sm := params_nous p Hg). assert (Hhd := nf_head _ _ HN). assert (Hcl := nf_closed _ _ HN Sm). assert (Ho := obj_last p s sr W wm T).
      destruct (qcqp_needs p b sr _ _ Fs Gs nm (proj1 HN) Hhd Hcl SF SG LF LG Ho extra _ Eb) as (N1 & N2 & N3).
      destruct (qcqp_build_eq (SY := SY) p b sr _ _ Fs Gs nm (proj1 HN) Hhd Hcl SF SG LF LG Ho extra N1 N2 N3) as [(cb & all & B1 & B2 & B3 & B4 & B5)|(_ & e & B)]; [|congruence].
      exists W, wm, Fs, Gs, nm, cb, all, (x_len nm sr (st_pctr s) + extra). constructor; cbn [nlp_sym nlp_obj nlp_opti]; try assumption.
      - auto.
      - lia.
      - rewrite <- Eb. symmetry. exact B2.
      - intros a. rewrite B3. tauto.
    Qed.
    Lemma matrix_prog n s' : qcqp_matrix_nlp SY p b s = (Ok n, s') ->
      exists W wm Fs Gs nm cb all N, vec_prog false p b s s' n W wm Fs Gs nm cb all N.
    Proof using OK I Nd Hg Hd.
      unfold qcqp_matrix_nlp. destruct (symbolic SY p s) as [[sr|] s1] eqn:Es; [|discriminate].
      destruct (sp_v_coeff_matrix SY (fg_lists sr (st_ectr s) (st_pctr s)) (pr_params p)) as [[[Fs Gs] nm]|] eqn:Ec; [|discriminate].
      cbn [bindr]. destruct (matrix_build SY p b sr (st_ectr s) (st_pctr s) Fs Gs nm opti0) as [[obj o]|] eqn:Eb; [|discriminate].
      intros [= <- <-]. destruct (assembled OK p s sr s1 I Es) as (W & wm & T).
      assert (C := coeff_setup OK p s sr W wm Fs Gs nm T Nd Hg Hd Ec). assert (HN := proj1 C).
      assert (C0 := C). destruct C0 as (_ & SF & SG & LF & LG & _). rewrite (len_W p s sr W wm T) in LF, LG.
      assert (Sm := params_nous p Hg). assert (Hhd := nf_head _ _ HN). assert (Hcl := nf_closed _ _ HN Sm). assert (Ho := obj_last p s sr W wm T).
      destruct (matrix_needs p b sr _ _ Fs Gs nm (proj1 HN) Hhd Hcl SF SG LF LG Ho _ Eb) as (N1 & N3).
      destruct (matrix_build_eq (SY := SY) p b sr _ _ Fs Gs nm (proj1 HN) Hhd Hcl SF SG LF LG Ho N1 N3) as [(cb & all & B1 & B2 & B3 & B4 & B5)|(_ & e & B)]; [|congruence].
      exists W, wm, Fs, Gs, nm, cb, all, (x_len nm sr (st_pctr s) + 100). constructor; cbn [nlp_sym nlp_obj nlp_opti]; try assumption.
      - discriminate.
      - lia.
      - rewrite <- Eb. symmetry. exact B2.
      - intros a. rewrite B3. intuition discriminate.
    Qed.
  End Setup.

  Section Prog.
    Variables (signs : bool) (p : problem) (b : option bounds) (s s' : state) (n : nlp) (W : list (skey * fgw)) (wm : fgw)
      (Fs Gs : list cmatrix) (nm : names) (cb all : list ccon) (N : nat).
    Hypothesis V : vec_prog signs p b s s' n W wm Fs Gs nm cb all N.
    Hypothesis Hg : Forall good_param (pr_params p).
    Notation sr := (nlp_sym n).
    Notation o0 := (mkOpti N all (name_vars 0 nm)).
    Notation xsz := (x_len nm sr (st_pctr s)).

    Let HN : names_facts (pr_params p) nm := proj1 (vp_coef _ _ _ _ _ _ _ _ _ _ _ _ _ _ V).
    Let Sm := params_nous p Hg.

    Lemma names_bound x i : dget vname_eqb (VStr x) (nm_idx nm) = Some i -> i < List.length (nm_list nm).
    Proof using V. intros H. apply (numbered_get _ _ _ (proj1 HN)) in H. apply nth_error_Some. congruence. Qed.

    Lemma start_ok : St o0.
    Proof using V Hg.
      split.
      - constructor; cbn [op_next op_cons op_vars].
        + eapply Forall_impl; [|exact (vp_lt _ _ _ _ _ _ _ _ _ _ _ _ _ _ V)]. intros c. apply con_lt_mono, (vp_N _ _ _ _ _ _ _ _ _ _ _ _ _ _ V).
        + intros x v. rewrite name_vars_get. destruct (dget vname_eqb (VStr x) (nm_idx nm)) as [i|] eqn:E; [|discriminate].
          intros [= <-]. simpl. apply names_bound in E. assert (Q := vp_N _ _ _ _ _ _ _ _ _ _ _ _ _ _ V). unfold x_len in Q. lia.
      - intros a x v Ha Hx _ _. cbn [op_vars] in *. rewrite name_vars_get in Hx.
        destruct (dget vname_eqb (VStr x) (nm_idx nm)) as [i|] eqn:E; [|discriminate]. injection Hx as <-. simpl.
        assert (Hin : In (VStr x) (nm_list nm)) by (apply (numbered_get _ _ _ (proj1 HN)) in E; eapply nth_error_In; exact E).
        apply (vp_all _ _ _ _ _ _ _ _ _ _ _ _ _ _ V) in Ha as (_ & _ & Q).
        assert (D := determined _ _ HN Sm a (plain_env (name_vars 0 nm) a) (qp_mono _ _ _ _ _ _ _ _ _ Q)).
        specialize (D (fun y _ => plain_name nm a y) x Hin). unfold at_name in D. rewrite E in D. exact D.
    Qed.
    Lemma program_ext : exists e c, pr_obj p = Some e /\ nlp_obj n = CSub (CNum 0) c /\ ext_o o0 (nlp_opti n) /\
      value_is c (nlp_opti n) (fun a => ev (long (plain_env (name_vars 0 nm) a)) e).
    Proof using OK V Hg.
      assert (Q := vp_min _ _ _ _ _ _ _ _ _ _ _ _ _ _ V). unfold minimize in Q. destruct (pr_obj p) as [e|]; [|discriminate].
      apply obind_ok in Q as (c & o1 & Q1 & Q2). injection Q2 as <- <-. exists e, c. split; [easy|]. split; [easy|].
      destruct (okO_expr_plain OK o0 e start_ok c _ Q1) as (_ & X & VI). split; [exact X|exact VI].
    Qed.
    Lemma feasible_all a : feasible (nlp_opti n) a -> Forall (holds a) all.
    Proof using OK V Hg. intros H. destruct program_ext as (e & c & _ & _ & X & _). apply (ext_feasible _ _ _ X H). Qed.
    Lemma all_feasible a : Forall (holds a) all -> exists a', (forall i, i < N -> a' i = a i) /\ feasible (nlp_opti n) a'.
    Proof using OK V Hg. intros H. destruct program_ext as (e & c & _ & _ & X & _). apply (xo_conserv _ _ X a H). Qed.

    Lemma returned a : dict_parameters (nlp_opti n) a (pr_params p) = map (fun x => (x, at_name nm a x)) (pr_params p).
    Proof using OK V Hg.
      destruct program_ext as (e & c & _ & _ & X & _). unfold dict_parameters.
      assert (G : forall l, (forall x, In x l -> In x (pr_params p)) ->
        flat_map (fun n0 => match dget String.eqb n0 (op_vars (nlp_opti n)) with
           | Some v => if Nat.eqb (cv_rows v) 1 && Nat.eqb (cv_cols v) 1 then [(n0, a (cv_base v))] else [] | None => [] end) l =
        map (fun x => (x, at_name nm a x)) l); [|apply G; auto].
      induction l as [|x l IH]; intros Hl; [easy|]. cbn [flat_map map]. rewrite IH by (intros; apply Hl; simpl; auto).
      assert (Hx := Hl x (or_introl eq_refl)). assert (Hn : has_char us x = false) by (assert (Q := Sm); rewrite Forall_forall in Q; auto).
      rewrite (xo_simple _ _ X x Hn). cbn [op_vars]. rewrite name_vars_get. unfold at_name.
      destruct (In_nth_error _ _ (nf_param _ _ HN x Hx)) as [i Hi]. rewrite (numbered_nth _ _ _ (proj1 HN) Hi). easy.
    Qed.
    Lemma objective a e r : feasible (nlp_opti n) a -> pr_obj p = Some e -> only_params (pr_params p) (fun x => In x (free e)) ->
      (forall x, In x (pr_params p) -> r x = at_name nm a x) -> ceval a (nlp_obj n) = (- ev r e)%R.
    Proof using OK V Hg.
      intros Ha He Hs Hr. destruct program_ext as (e' & c & E & -> & X & [_ HV]). rewrite He in E. injection E as <-.
      simpl. rewrite (HV a Ha), Q2R_0'. rewrite (ev_free_ext (long (plain_env (name_vars 0 nm) a)) r); [lra|].
      intros x Hx. apply Hs in Hx. rewrite long_simple by (apply simple_has, (param_names p Hg x Hx)). rewrite plain_name. symmetry. apply Hr, Hx.
    Qed.

    Lemma prog_certificate a : feasible (nlp_opti n) a -> exists r L, In (SObj, wm) (sr_exp sr) /\
      certificate r sr wm (st_pctr s) (st_ectr s) (st_pctr s) L /\ forall x, In x (pr_params p) -> r x = at_name nm a x.
    Proof using OK V Hg.
      intros Ha. apply feasible_all in Ha. apply (vp_all _ _ _ _ _ _ _ _ _ _ _ _ _ _ V) in Ha as (_ & _ & Q).
      destruct (point_certificate p s sr W wm Fs Gs nm (vp_tab _ _ _ _ _ _ _ _ _ _ _ _ _ _ V) (vp_coef _ _ _ _ _ _ _ _ _ _ _ _ _ _ V) Hg a Q) as (r & Hr & C).
      exists r. eexists. split; [|split; [exact C|exact Hr]]. rewrite (proj1 (vp_tab _ _ _ _ _ _ _ _ _ _ _ _ _ _ V)). apply in_or_app. right. simpl. auto.
    Qed.

    Lemma obj_unique w : In (SObj, w) (sr_exp sr) -> w = wm.
    Proof using V.
      destruct (vp_tab _ _ _ _ _ _ _ _ _ _ _ _ _ _ V) as (-> & _ & _ & K & _). intros H. apply in_app_or in H as [H|[[= <-]|[]]]; [|easy].
      apply (in_map fst) in H. destruct (K _ H) as (? & ? & ? & ? & [=] & _).
    Qed.
    Lemma name_is_param x : In (VStr x) (nm_list nm) -> List.length (split_us x) = 1 -> In x (pr_params p).
    Proof using V.
      intros H L. destruct (nf_cases _ _ HN x H) as [Q|(pre & y & E & Hp & _)]; [exact Q|]. rewrite E, app_length in L. simpl in L.
      destruct pre; [easy|simpl in L; lia].
    Qed.

    Lemma certificate_prog r w m P : In (SObj, w) (sr_exp sr) -> certificate r sr w (st_pctr s) (st_ectr s) m P -> vec_side_ok signs p b r ->
      (forall x, In x (inv_discr_params (pr_params p)) -> has_char us x = false) ->
      exists a, feasible (nlp_opti n) a /\ forall x, In x (pr_params p) -> at_name nm a x = r x.
    Proof using OK V Hg.
      intros Hw C (S1 & S2 & S3) Hi. rewrite (obj_unique w Hw) in C. destruct (certificate_lower _ _ _ _ _ _ _ C) as (L & CL & HL).
      assert (Tf := vp_tab _ _ _ _ _ _ _ _ _ _ _ _ _ _ V). assert (Cf := vp_coef _ _ _ _ _ _ _ _ _ _ _ _ _ _ V).
      set (y := point_of sr W wm nm r L).
      assert (Py : forall x, In x (pr_params p) -> at_name nm y x = r x) by (intros x Hx; apply (point_of_param p s sr W wm Fs Gs nm Cf Hg); exact Hx).
      assert (Hone : forall x, has_char us x = false -> In (VStr x) (nm_list nm) -> In x (pr_params p)).
      { intros x Hx Hin. apply name_is_param; [exact Hin|]. rewrite (split_none us x Hx : split_us x = [x]). easy. }
      assert (Q : qcqp_point (pr_params p) nm Fs Gs (sr_I sr) (sr_E sr) (st_ectr s) (st_pctr s) y).
      { apply certificate_point; try assumption. intros x Hx. destruct (vp_recip _ _ _ _ _ _ _ _ _ _ _ _ _ _ V x Hx) as [R1 R2].
        split; apply Hone; try assumption; [apply Hi, Hx|]. simpl. apply Hi, Hx. }
      assert (HA : Forall (holds y) all).
      { apply (vp_all _ _ _ _ _ _ _ _ _ _ _ _ _ _ V). split; [|split; [|exact Q]].
        - assert (KB : known_bounds b nm).
          { unfold known_bounds. destruct b as [bb|]; [|easy]. intros x ub lb Hx. right. apply (nf_param _ _ HN), (S2 x ub lb Hx). }
          apply (vp_bounds _ _ _ _ _ _ _ _ _ _ _ _ _ _ V KB). unfold x_bounds. destruct b as [bb|]; [|easy].
          intros x ub lb Hx i Hix. destruct (S2 x ub lb Hx) as (P1 & P2 & P3). destruct (String.eqb_spec x "x"); [easy|].
          specialize (Py x P1). unfold at_name in Py. rewrite Hix in Py. rewrite Py. exact P3.
        - intros E x Hx. rewrite Py; [apply (S3 E x Hx)|]. apply Hone; [|apply (vp_signs _ _ _ _ _ _ _ _ _ _ _ _ _ _ V E x Hx)].
          simpl in Hx. repeat (destruct Hx as [<-|Hx]; [reflexivity|]). destruct Hx. }
      destruct (all_feasible y HA) as (a & Ha & Hf). exists a. split; [exact Hf|]. intros x Hx. rewrite <- (Py x Hx).
      unfold at_name. destruct (dget vname_eqb (VStr x) (nm_idx nm)) as [i|] eqn:E; [|easy]. apply Ha. apply names_bound in E.
      assert (Q' := vp_N _ _ _ _ _ _ _ _ _ _ _ _ _ _ V). unfold x_len in Q'. lia.
    Qed.
  End Prog.
End Main.

(** * the theorems about one program *)
Section Final.
  Context {SY : sympy} (OK : sympy_ok SY).
  Variables (signs : bool) (p : problem) (b : option bounds) (s s' : state) (n : nlp).
  Hypothesis I : Inv s.
  Hypothesis Hg : Forall good_param (pr_params p).
  Hypothesis Hd : declared p s.
  Hypothesis HV : exists W wm Fs Gs nm cb all N, @vec_prog SY signs p b s s' n W wm Fs Gs nm cb all N.

  Lemma vec_sound a v phi : own_pb s p -> feasible (nlp_opti n) a ->
    (forall x q, In (x, q) (dict_parameters (nlp_opti n) a (pr_params p)) -> v_env v x = q) ->
    consistent v phi s -> constraints_hold v p -> constant_free p s ->
    exists e, pr_metric p = Some e /\ (den_e v e <= 0)%R.
  Proof using OK I Hg Hd HV.
    intros HB Ha Hv Hc Hh Hcf. destruct HV as (W & wm & Fs & Gs & nm & cb & all & N & V).
    destruct (prog_certificate OK _ _ _ _ _ _ _ _ _ _ _ _ _ _ V Hg a Ha) as (r & L & Ew & C & Hr).
    assert (Hon : env_on (v_env v) r (pr_params p)).
    { intros x Hx. apply Hv. rewrite (returned OK _ _ _ _ _ _ _ _ _ _ _ _ _ _ V Hg a). apply in_map_iff. exists x. rewrite (Hr x Hx). easy. }
    destruct (certificate_sound SY OK s p (nlp_sym n) s' wm (st_pctr s) L (with_env v r) phi I HB (vp_sym _ _ _ _ _ _ _ _ _ _ _ _ _ _ V) Ew C) as (e & Em & He).
    - eapply consistent_env; eauto.
    - eapply constraints_env; eauto.
    - exact Hcf.
    - exists e. split; [exact Em|]. rewrite <- (den_e_env v r (pr_params p)); [exact He|exact Hon|]. apply (proj1 Hd). exact Em.
  Qed.
  Lemma vec_returned a : feasible (nlp_opti n) a ->
    map fst (dict_parameters (nlp_opti n) a (pr_params p)) = pr_params p /\
    forall e r, pr_obj p = Some e -> only_params (pr_params p) (fun x => In x (free e)) ->
      (forall x q, In (x, q) (dict_parameters (nlp_opti n) a (pr_params p)) -> r x = q) ->
      ceval a (nlp_obj n) = (- ev r e)%R.
  Proof using OK Hg HV.
    intros Ha. destruct HV as (W & wm & Fs & Gs & nm & cb & all & N & V). rewrite (returned OK _ _ _ _ _ _ _ _ _ _ _ _ _ _ V Hg a). split.
    - rewrite map_map. simpl. apply map_id.
    - intros e r He Hs Hr. apply (objective OK _ _ _ _ _ _ _ _ _ _ _ _ _ _ V Hg a e r Ha He Hs). intros x Hx. apply Hr. apply in_map_iff. exists x. easy.
  Qed.
  Lemma vec_complete r w m P : In (SObj, w) (sr_exp (nlp_sym n)) -> certificate r (nlp_sym n) w (st_pctr s) (st_ectr s) m P ->
    vec_side_ok signs p b r ->
    exists a, feasible (nlp_opti n) a /\ dict_parameters (nlp_opti n) a (pr_params p) = map (fun x => (x, r x)) (pr_params p).
  Proof using OK Hg HV.
    intros Hw C S. destruct HV as (W & wm & Fs & Gs & nm & cb & all & N & V).
    destruct (certificate_prog OK _ _ _ _ _ _ _ _ _ _ _ _ _ _ V Hg r w m P Hw C S) as (a & Ha & Hx).
    { intros x Hx. eapply inv_simple; [|exact Hx]. intros y Hy. apply (param_names p Hg y Hy). }
    exists a. split; [exact Ha|]. rewrite (returned OK _ _ _ _ _ _ _ _ _ _ _ _ _ _ V Hg a). apply map_ext_in. intros x Hin. rewrite (Hx x Hin). easy.
  Qed.
  Lemma vec_optimal a e : pr_obj p = Some e -> only_params (pr_params p) (fun x => In x (free e)) -> feasible (nlp_opti n) a ->
    (forall a', feasible (nlp_opti n) a' -> (ceval a (nlp_obj n) <= ceval a' (nlp_obj n))%R) ->
    forall r0, (forall x q, In (x, q) (dict_parameters (nlp_opti n) a (pr_params p)) -> r0 x = q) ->
    forall r w m P, In (SObj, w) (sr_exp (nlp_sym n)) ->
      certificate r (nlp_sym n) w (st_pctr s) (st_ectr s) m P -> vec_side_ok signs p b r -> (ev r e <= ev r0 e)%R.
  Proof using OK Hg HV.
    intros He Hs Ha Hm r0 Hr0 r w m P Hw C S. destruct (vec_complete r w m P Hw C S) as (a' & Ha' & Hd').
    destruct (vec_returned a Ha) as [_ O1]. destruct (vec_returned a' Ha') as [_ O2]. specialize (Hm a' Ha').
    rewrite (O1 e r0 He Hs Hr0), (O2 e r He Hs) in Hm; [lra|].
    intros x q Hq. rewrite Hd' in Hq. apply in_map_iff in Hq as (y & [= <- <-] & _). easy.
  Qed.
  (** A feasible point meets the side conditions. *)
  Lemma vec_side a r : feasible (nlp_opti n) a ->
    (forall x q, In (x, q) (dict_parameters (nlp_opti n) a (pr_params p)) -> r x = q) ->
    (forall x, In x (inv_discr_params (pr_params p)) -> (r x * r ("inv" ++ x)%string = 1 /\ Q2R tiny <= r x)%R) /\
    (signs = true -> forall x, In x ["eta"; "h"; "rho"; "gamma"]%string -> In x (pr_params p) /\ (Q2R tiny <= r x)%R) /\
    (match b with
     | None => True
     | Some b => (forall x ub lb, In (x, (ub, lb)) b -> In x (pr_params p) /\ x <> "x"%string) ->
         forall x ub lb, In (x, (ub, lb)) b -> in_bounds (r x) ub lb
     end).
  Proof using OK Hg HV.
    intros Ha Hr. destruct HV as (W & wm & Fs & Gs & nm & cb & all & N & V).
    rewrite (returned OK _ _ _ _ _ _ _ _ _ _ _ _ _ _ V Hg a) in Hr.
    assert (HN : names_facts (pr_params p) nm) by apply (vp_coef _ _ _ _ _ _ _ _ _ _ _ _ _ _ V).
    assert (Er : forall x, In x (pr_params p) -> r x = at_name nm a x) by (intros x Hx; apply Hr, in_map_iff; exists x; easy).
    assert (Hone : forall x, has_char us x = false -> In (VStr x) (nm_list nm) -> In x (pr_params p)).
    { intros x Hx Hin. apply (name_is_param _ _ _ _ _ _ _ _ _ _ _ _ _ _ V); [exact Hin|]. rewrite (split_none us x Hx : split_us x = [x]). easy. }
    destruct (proj1 (vp_all _ _ _ _ _ _ _ _ _ _ _ _ _ _ V a) (feasible_all OK _ _ _ _ _ _ _ _ _ _ _ _ _ _ V Hg a Ha)) as (H1 & H2 & Q).
    assert (Hi : forall x, In x (inv_discr_params (pr_params p)) -> has_char us x = false).
    { intros x Hx. eapply inv_simple; [|exact Hx]. intros y Hy. apply (param_names p Hg y Hy). }
    split; [|split].
    - intros x Hx. destruct (vp_recip _ _ _ _ _ _ _ _ _ _ _ _ _ _ V x Hx) as [R1 R2].
      rewrite !Er; [apply (qp_recip _ _ _ _ _ _ _ _ _ Q x Hx)| |]; apply Hone; try assumption; [simpl|]; apply Hi, Hx.
    - intros E x Hx. assert (Hp : In x (pr_params p)).
      { apply Hone; [|apply (vp_signs _ _ _ _ _ _ _ _ _ _ _ _ _ _ V E x Hx)].
        simpl in Hx. repeat (destruct Hx as [<-|Hx]; [reflexivity|]). destruct Hx. }
      split; [exact Hp|]. rewrite (Er x Hp). apply (H2 E x Hx).
    - destruct b as [bb|] eqn:Eb; [|easy]. intros Hb x ub lb Hx. destruct (Hb x ub lb Hx) as [P1 P2].
      assert (KB : known_bounds (Some bb) nm) by (intros y u l Hy; right; apply (nf_param _ _ HN), (Hb y u l Hy)).
      assert (H3 := proj1 (vp_bounds _ _ _ _ _ _ _ _ _ _ _ _ _ _ V KB a) H1). clear H1. assert (H1 := H3).
      destruct (In_nth_error _ _ (nf_param _ _ HN x P1)) as [i Hix]. apply (numbered_nth _ _ _ (proj1 HN)) in Hix.
      specialize (H1 x ub lb Hx i). destruct (String.eqb_spec x "x"); [easy|]. specialize (H1 Hix).
      rewrite (Er x P1). unfold at_name. rewrite Hix. exact H1.
  Qed.
End Final.

(** * both programs *)
Section Both.
  Context {SY : sympy} (OK : sympy_ok SY).
  Variables (p : problem) (b : option bounds) (s : state).
  Hypothesis I : Inv s.
  Hypothesis Nd : NoDup (pr_params p).
  Hypothesis Hg : Forall good_param (pr_params p).
  Hypothesis Hd : declared p s.

  Lemma holds_lt n cs a a' : Forall (con_lt n) cs -> (forall i, i < n -> a i = a' i) -> Forall (holds a) cs -> Forall (holds a') cs.
  Proof using Type.
    intros H1 H2 H3. rewrite Forall_forall in *. intros c Hc. eapply holds_ext; [apply H1, Hc|exact H2|apply H3, Hc].
  Qed.
  Lemma prog_points signs n s' W wm Fs Gs nm cb all N : @vec_prog SY signs p b s s' n W wm Fs Gs nm cb all N ->
    forall y, (exists a, feasible (nlp_opti n) a /\ forall i, i < x_len nm (nlp_sym n) (st_pctr s) -> a i = y i) <-> Forall (holds y) all.
  Proof using OK Hg.
    intros V y. split.
    - intros (a & Ha & Hy). apply (feasible_all OK _ _ _ _ _ _ _ _ _ _ _ _ _ _ V Hg) in Ha. eapply holds_lt; [exact (vp_lt _ _ _ _ _ _ _ _ _ _ _ _ _ _ V)|exact Hy|exact Ha].
    - intros H. destruct (all_feasible OK _ _ _ _ _ _ _ _ _ _ _ _ _ _ V Hg y H) as (a & Ha & Hf). exists a. split; [exact Hf|].
      intros i Hi. apply Ha. assert (Q := vp_N _ _ _ _ _ _ _ _ _ _ _ _ _ _ V). lia.
  Qed.

  Lemma same_programs extra nq sq nm_ sm : qcqp_nlp SY p b extra s = (Ok nq, sq) -> qcqp_matrix_nlp SY p b s = (Ok nm_, sm) ->
    nlp_sym nq = nlp_sym nm_ /\ sq = sm /\
    exists Fs Gs nm, sp_v_coeff_matrix SY (fg_lists (nlp_sym nq) (st_ectr s) (st_pctr s)) (pr_params p) = Ok (Fs, Gs, nm) /\
      forall y, (exists a, feasible (nlp_opti nq) a /\ forall i, i < x_len nm (nlp_sym nq) (st_pctr s) -> a i = y i) <->
                ((exists a, feasible (nlp_opti nm_) a /\ forall i, i < x_len nm (nlp_sym nq) (st_pctr s) -> a i = y i) /\ x_signs nm y).
  Proof using OK I Nd Hg Hd.
    intros Hq Hm. destruct (qcqp_prog OK p b s I Nd Hg Hd extra nq sq Hq) as (W & wm & Fs & Gs & nm & cb & all & N & V).
    destruct (matrix_prog OK p b s I Nd Hg Hd nm_ sm Hm) as (W' & wm' & Fs' & Gs' & nm' & cb' & all' & N' & V').
    assert (E := vp_sym _ _ _ _ _ _ _ _ _ _ _ _ _ _ V). rewrite (vp_sym _ _ _ _ _ _ _ _ _ _ _ _ _ _ V') in E. injection E as Es Est.
    split; [congruence|]. split; [congruence|].
    assert (E := vp_run _ _ _ _ _ _ _ _ _ _ _ _ _ _ V'). rewrite Es, (vp_run _ _ _ _ _ _ _ _ _ _ _ _ _ _ V) in E. injection E as <- <- <-.
    assert (E := vp_run_b _ _ _ _ _ _ _ _ _ _ _ _ _ _ V'). rewrite Es, (vp_run_b _ _ _ _ _ _ _ _ _ _ _ _ _ _ V) in E. injection E as <-.
    exists Fs, Gs, nm. split; [exact (vp_run _ _ _ _ _ _ _ _ _ _ _ _ _ _ V)|]. intros y.
    rewrite (prog_points _ _ _ _ _ _ _ _ _ _ _ V y). assert (Q := prog_points _ _ _ _ _ _ _ _ _ _ _ V' y). rewrite Es in Q. rewrite Q.
    rewrite (vp_all _ _ _ _ _ _ _ _ _ _ _ _ _ _ V), (vp_all _ _ _ _ _ _ _ _ _ _ _ _ _ _ V'), Es. intuition discriminate.
  Qed.
  Lemma same_objective extra nq sq nm_ sm a a' e : qcqp_nlp SY p b extra s = (Ok nq, sq) -> qcqp_matrix_nlp SY p b s = (Ok nm_, sm) ->
    feasible (nlp_opti nq) a -> feasible (nlp_opti nm_) a' -> pr_obj p = Some e -> only_params (pr_params p) (fun x => In x (free e)) ->
    dict_parameters (nlp_opti nq) a (pr_params p) = dict_parameters (nlp_opti nm_) a' (pr_params p) ->
    ceval a (nlp_obj nq) = ceval a' (nlp_obj nm_).
  Proof using OK I Nd Hg Hd.
    intros Hq Hm Ha Ha' He Hs Hdp.
    destruct (qcqp_prog OK p b s I Nd Hg Hd extra nq sq Hq) as (W & wm & Fs & Gs & nm & cb & all & N & V).
    destruct (vec_returned OK _ p b s sq nq Hg ltac:(eauto 10) a Ha) as [_ O1].
    destruct (vec_returned OK _ p b s sm nm_ Hg (matrix_prog OK p b s I Nd Hg Hd nm_ sm Hm) a' Ha') as [_ O2].
    rewrite (returned OK _ _ _ _ _ _ _ _ _ _ _ _ _ _ V Hg a) in *.
    rewrite (O1 e (at_name nm a) He Hs), (O2 e (at_name nm a) He Hs); [easy|rewrite <- Hdp|]; intros x q Hx; apply in_map_iff in Hx as (z & [= <- <-] & _); easy.
  Qed.
End Both.

(** * the names, for any matrices *)
Lemma names_general {SY} (OK : sympy_ok SY) l params Fs Gs nm : NoDup params -> declared_fg params l ->
  sp_v_coeff_matrix SY l params = Ok (Fs, Gs, nm) -> names_facts params nm.
Proof.
  intros Nd D H. destruct (coefficients OK _ _ _ _ _ Nd H) as (N & (ext & El & Hext) & _).
  assert (EL : nm_list nm = VOne :: map VStr (params ++ ext)) by (rewrite El; unfold init_names; simpl; rewrite map_app; easy).
  split; [exact N|].
  exists ext. split; [exact EL|]. intros x Hx. rewrite Forall_forall in Hext. destruct (Hext x Hx) as (pre & y & Hp & Hn & Hu & -> & Hpre).
  assert (Hpar : Forall (fun y => In y params) (pre ++ [y])).
  { eapply Forall_impl; [|exact Hu]. intros z (F & G & Hin & Hz). destruct Hz as [(e & He & Hz)|(e & He & Hz)]; eapply D; eauto. }
  apply Forall_app in Hpar as [P1 P2]. inversion P2 as [|? ? P3 _]; subst.
  exists pre, y. split; [apply split_join; [destruct pre; easy|exact Hn]|]. split; [exact Hp|]. split; [exact P3|]. split; [exact P1|].
  destruct Hpre as [Hpre|[z ->]]; [exact Hpre|]. rewrite EL. right. apply in_map, in_or_app. left. inversion P1; subst. assumption.
Qed.

(** * exactly the constraints of the specification *)
Lemma qcqp_points {SY} (OK : sympy_ok SY) p b s (I : Inv s) (Nd : NoDup (pr_params p)) (Hg : Forall good_param (pr_params p)) (Hd : declared p s)
  (signs : bool) n s' :
  (if signs then exists extra, qcqp_nlp SY p b extra s = (Ok n, s') else qcqp_matrix_nlp SY p b s = (Ok n, s')) ->
  exists Fs Gs nm, sp_v_coeff_matrix SY (fg_lists (nlp_sym n) (st_ectr s) (st_pctr s)) (pr_params p) = Ok (Fs, Gs, nm) /\
    let size := List.length (nm_list nm) + sr_I (nlp_sym n) + sr_E (nlp_sym n) + start_idx (st_pctr s) in
    (match b with None => True | Some l => forall x ub lb, In (x, (ub, lb)) l -> x = "x"%string \/ In (VStr x) (nm_list nm) end ->
     forall y, (exists a, feasible (nlp_opti n) a /\ forall i, i < size -> a i = y i) <->
       qcqp_point (pr_params p) nm Fs Gs (sr_I (nlp_sym n)) (sr_E (nlp_sym n)) (st_ectr s) (st_pctr s) y /\
       x_bounds b nm size y /\ (if signs then x_signs nm y else True)).
Proof.
  intros H. assert (HV : exists W wm Fs Gs nm cb all N, @vec_prog SY signs p b s s' n W wm Fs Gs nm cb all N).
  { destruct signs; [destruct H as [extra H]; exact (qcqp_prog OK p b s I Nd Hg Hd extra n s' H)|exact (matrix_prog OK p b s I Nd Hg Hd n s' H)]. }
  destruct HV as (W & wm & Fs & Gs & nm & cb & all & N & V). exists Fs, Gs, nm. split; [exact (vp_run _ _ _ _ _ _ _ _ _ _ _ _ _ _ V)|].
  cbv zeta. intros HB y. rewrite (prog_points OK p b s Hg _ _ _ _ _ _ _ _ _ _ _ V y), (vp_all _ _ _ _ _ _ _ _ _ _ _ _ _ _ V y).
  rewrite (vp_bounds _ _ _ _ _ _ _ _ _ _ _ _ _ _ V HB y). unfold x_len. destruct signs; split; intros (A & B & C).
  - split; [exact C|]. split; [exact A|]. apply B. easy.
  - split; [exact B|]. split; [intros _; exact C|exact A].
  - split; [exact C|]. split; [exact A|easy].
  - split; [exact B|]. split; [easy|exact A].
Qed.
