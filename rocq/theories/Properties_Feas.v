(** Properties C26, C27, C36: the standard problem has the feasible points, the
    objective and the optima of the model. *)
From Verif Require Import Base Num Node NodeInd NodeDiff NodeStd Constraint Matrix Problem ModelStd Model
     ExprSpec World MapProofs Properties_Diff StdPropProofs EvalProofs DiffProofs GradProofs CompProofs PanicProofs OccProofs ConstrProofs PartsProofs ConstrSpec ConstrEquiv
     MatSpec MatrixProofs ProblemProofs BuildProofs BuildMain ModelSpec PointProofs EvalRun SlotProofs ConstrPanic
     Api ApiProofs ModelApi StdMain HistProofs ModelExample Properties_Constr StdFacts HistAff Properties_Std.
From Coq Require Import Reals Lra.

(** The problem can be evaluated at every point of the right size, after any
    calls of [evaluate] and [combine_h]. *)
Lemma run_evaluate {T} `{Num T} `{HashOrd} nsq k S (m : model T) k' S' eo ke obj ko ps ar jr q x :
  std_run nsq k S m k' S' eo ke obj ko ps ar jr ->
  evolves (base_of (p_problem k' (md_init m) obj (cat ps))) q ->
  length x = length (problem_vars k' obj (cat ps)) ->
  exists q', minlp_evaluate q x = Ok q' /\ m_bufs q' = bufs_at k' obj (cat ps) x /\
             same_but_bufs (base_of (p_problem k' (md_init m) obj (cat ps))) q'.
Proof.
  intros R Hq Hx. pose proof (sr_comp _ _ _ _ _ _ _ _ _ _ _ _ _ R) as Ec.
  pose proof (std_components_ok _ _ _ _ Ec) as (_ & _ & _ & Hv & _).
  apply (evaluate_any k' (md_init m) obj (cat ps)); auto.
  - exact (run_vars_nodup _ _ _ _ _ _ _ _ _ _ _ _ _ R).
  - rewrite Hv. eapply pnodup_perm; [apply Permutation_map, Permutation_sym, ord_perm|]. apply keys_nodup.
  - apply Forall_forall. intros ge Hge. apply (run_vars_in _ _ _ _ _ _ _ _ _ _ _ _ _ _ R). left. apply keys_occur.
    apply (gphi_keys _ _ _ _ Ec). apply in_map. exact Hge.
  - pose proof (sr_rows _ _ _ _ _ _ _ _ _ _ _ _ _ R) as [R1 R2 R3 R4 R5 R6 R7]. exact R6.
Qed.

Section Feas.
  Context `{HashOrd}.
  Variables (st : mstate X) (m : model X) (sp : std_prob X) (k' : nat).
  Hypothesis Hh : hist any_op st.
  Hypothesis Hm : In m (st_models st).
  Hypothesis E : std_problem m (st_k st) = Ok (sp, k').

  Lemma nx_len : m_nx (base_of (sp_prob sp)) = length (sp_var2index sp).
  Proof.
    destruct (C24_bijection st m sp k' Hh Hm E x_nm1) as (B & _).
    apply (f_equal (@length nat)) in B. rewrite map_length, seq_length in B. auto.
  Qed.

  (** Each index has its variable, and each variable its value. *)
  Lemma var_at i : (i < m_nx (base_of (sp_prob sp)))%nat -> exists v, In (v, i) (sp_var2index sp).
  Proof.
    intros Hi. destruct (C24_bijection st m sp k' Hh Hm E x_nm1) as (B & _).
    assert (In i (map snd (sp_var2index sp))) by (rewrite B; apply in_seq; lia).
    apply in_map_iff in H0 as ([v j] & <- & Hin). eauto.
  Qed.
  Lemma value_at (x : list X) v i : In (v, i) (sp_var2index sp) -> evaluate (at_point sp x) v = nth i x n0.
  Proof.
    intros Hv.
    destruct (hist_run st m sp k' Hh Hm E) as (S & obj & S' & eo & ke & ko & ps & ar & jr & uc & lc & Hi & Mi & HW & Em & R & Esp & _).
    rewrite Esp in *. cbn [sp_var2index] in *. unfold at_point. cbn [sp_var2index].
    apply (point_eval (problem_vars k' obj (cat ps))).
    - exact (run_vars_nodup _ _ _ _ _ _ _ _ _ _ _ _ _ R).
    - apply Forall_forall. intros w Hw. apply (run_vars_world _ _ _ _ _ _ _ _ _ _ _ _ _ w R Hw).
    - apply enum_in in Hv. exact Hv.
  Qed.
  Lemma value_real (x : list R) v i : length x = m_nx (base_of (sp_prob sp)) -> In (v, i) (sp_var2index sp) ->
    exists r, nth_error x i = Some r /\ evaluate (at_point sp (pt x)) v = Some r.
  Proof.
    intros Hx Hv. destruct (C24_bijection st m sp k' Hh Hm E x_nm1) as (B & _).
    assert (Hi : In i (map snd (sp_var2index sp))) by (apply in_map_iff; exists (v, i); auto).
    rewrite B in Hi. apply in_seq in Hi.
    destruct (nth_error x i) as [r|] eqn:En; [|apply nth_error_None in En; lia]. exists r. split; [reflexivity|].
    rewrite (value_at _ v i Hv). unfold pt. rewrite (nth_map_default _ _ _ r) by auto. reflexivity.
  Qed.

  (** ** C27 Objective *)
  Theorem C27_objective :
    exists shift : X,
      (class_of (sp_prob sp) = ClNlp \/ class_of (sp_prob sp) = ClMinlp -> shift = Some 0%R) /\
      (md_objective m = EmptyObj -> shift = Some 0%R) /\
      forall x, length x = m_nx (base_of (sp_prob sp)) ->
        exists phi, prob_value (sp_prob sp) x phi /\
          obj_value m (at_point sp (pt x)) = x2 Rplus phi shift /\
          match sp_prob sp with
          | PLp q => phi = xsum (map (fun cx => x2 Rmult (fst cx) (snd cx)) (combine (milp_c (lp_milp q)) (pt x)))
          | PMilp q => phi = xsum (map (fun cx => x2 Rmult (fst cx) (snd cx)) (combine (milp_c q) (pt x)))
          | _ => True
          end.
  Proof.
    destruct (hist_run st m sp k' Hh Hm E) as (S & obj & S' & eo & ke & ko & ps & ar & jr & uc & lc & Hi & Mi & HW & Em & R & Esp & _).
    pose proof (sr_comp _ _ _ _ _ _ _ _ _ _ _ _ _ R) as Ec.
    pose proof (std_components_ok _ _ _ _ Ec) as (_ & Ephi & Eprop & _).
    pose proof (sr_obj _ _ _ _ _ _ _ _ _ _ _ _ _ R) as Eo.
    assert (Hval : forall vs, evaluate vs eo = obj_value m vs).
    { intros vs. unfold obj_value. destruct (md_objective m) as [f|f|]; cbn [obj_exp] in Eo.
      - inversion Eo; subst; reflexivity.
      - exact (neg_n_exact vs f _ _ _ Eo).
      - inversion Eo; subst. reflexivity. }
    destruct (sr_w1 _ _ _ _ _ _ _ _ _ _ _ _ _ R) as (S1 & _ & _ & W1 & Se).
    set (vars := problem_vars k' obj (cat ps)) in *.
    destruct (base_shape k' (md_init m) obj (cat ps)) as (_ & _ & _ & _ & _ & _ & En). fold vars in En.
    exists (if p_linear obj (cat ps) then p_b (std_properties eo) else Some 0%R).
    split; [|split].
    - rewrite Esp. cbn [sp_prob]. unfold p_problem.
      destruct (p_linear obj (cat ps)), (no_int k' obj (cat ps)); cbn [class_of]; intros [|]; congruence.
    - intros Hemp. rewrite Hemp in Eo. cbn [obj_exp] in Eo. unfold mk_const in Eo. inversion Eo; subst eo.
      destruct (p_linear obj (cat ps)); reflexivity.
    - intros x Hx. rewrite Esp in Hx. cbn [sp_prob] in Hx. rewrite En in Hx.
      destruct (run_evaluate _ _ _ _ _ _ _ _ _ _ _ _ _ _ (pt x) R (ev_start _)) as (q' & Eq & Ebf & _).
      { unfold pt. rewrite map_length. exact Hx. }
      exists (b_phi (bufs_at k' obj (cat ps) (pt x))). split; [|split].
      + rewrite Esp. exists q'. cbn [sp_prob]. rewrite Ebf. auto.
      + rewrite <- Hval. rewrite Esp. change (at_point _ (pt x)) with (point_vals vars (pt x)).
        unfold bufs_at. destruct (p_linear obj (cat ps)) eqn:El.
        * cbn [b_phi]. unfold p_linear in El. apply andb_true_iff in El as [Ha _]. rewrite Eprop in Ha.
          rewrite (affine_value false ke S1 (point_vals vars (pt x)) eo W1 Se Ha). f_equal.
          unfold p_cvec. fold vars. rewrite Eprop. symmetry. apply dot_val_lin; auto.
          -- exact (run_vars_nodup _ _ _ _ _ _ _ _ _ _ _ _ _ R).
          -- apply Forall_forall. intros w Hw. apply (run_vars_world _ _ _ _ _ _ _ _ _ _ _ _ _ w R Hw).
          -- apply keys_nodup.
          -- apply Forall_forall. intros kv Hkv. apply (run_vars_in _ _ _ _ _ _ _ _ _ _ _ _ _ _ R). left.
             apply keys_occur. apply in_map. exact Hkv.
        * cbn [b_phi]. rewrite Ephi. fold vars. symmetry. apply xplus_0_r.
      + rewrite Esp. cbn [sp_prob]. unfold p_problem, bufs_at.
        destruct (p_linear obj (cat ps)) eqn:El, (no_int k' obj (cat ps)); auto;
          cbn [b_phi lp_milp milp_c]; unfold dot_val, xsum; generalize (combine (p_cvec k' obj (cat ps)) (pt x)); intros l;
          change (@n0 X _) with (Some 0%R); generalize (Some 0%R);
          induction l as [|[a b] l IH]; intros acc; cbn [map fold_left fst snd]; auto; apply IH.
  Qed.

  (** ** C26 Feasible set *)
  (** Feasible points of the standard problem satisfy the model. *)
  Theorem C26_sound (x : list R) :
    Forall meaningful (md_constraints m) ->
    feasible (sp_prob sp) x -> model_feasible m (at_point sp (pt x)).
  Proof.
    intros Hmean (Hx & Hrow & (q & Eq & Hf) & Hb).
    destruct (placed_all st m sp k' Hh Hm E) as (obj0 & cs0 & slots & Em0 & Hp & _).
    pose proof (tightest_of st m sp k' obj0 cs0 slots Hh Hm E Em0 Hp) as Ht.
    destruct (C24_bijection st m sp k' Hh Hm E x_nm1) as (_ & _ & HA & _).
    destruct (hist_run st m sp k' Hh Hm E) as (S & obj & S' & eo & ke & ko & ps & ar & jr & uc & lc & Hi & Mi & HW & Em & R & Esp & _).
    rewrite Em0 in Em. inversion Em; subst obj0 cs0; clear Em.
    set (vars := problem_vars k' obj (cat ps)) in *.
    assert (Hnd : nodupk ptr_eq vars) by exact (run_vars_nodup _ _ _ _ _ _ _ _ _ _ _ _ _ R).
    assert (Hat : at_point sp (pt x) = point_vals vars (pt x)) by (rewrite Esp; reflexivity).
    destruct (sr_w2 _ _ _ _ _ _ _ _ _ _ _ _ _ R) as (S2 & I2 & _ & W2 & _).
    assert (Hc : Forall (fun c => S2 (clhs c) /\ S2 (crhs c)) (md_constraints m)).
    { eapply Forall_impl; [|apply mi_cons with (1 := Mi)]. intros c []; auto. }
    assert (Hkey : forall v, In v (prop_keys (cat ps)) -> exists i, In (v, i) (sp_var2index sp)).
    { intros v Hv. assert (Hin : In v vars) by (apply (run_vars_in _ _ _ _ _ _ _ _ _ _ _ _ _ v R); auto).
      apply In_nth_error in Hin as [i Hin]. exists i. rewrite Esp. cbn [sp_var2index]. apply enum_in. exact Hin. }
    pose proof (sr_in _ _ _ _ _ _ _ _ _ _ _ _ _ R) as [_ _ _ _ _ Pu Pl]. rewrite Forall_forall in Pu, Pl.
    (* every listed bound is a number *)
    assert (Hdef : forall c s, In (c, s) (combine (md_constraints m) slots) ->
              match s with SBound _ b => exists r, b = Some r | _ => True end).
    { intros c s Hin. destruct s as [v b| |]; auto.
      assert (Hcs : slot_ok (st_k st) (cat ps) sp c (SBound v b)).
      { pose proof (pl_slots _ _ _ _ _ Hp) as F2. clear -F2 Hin. induction F2; cbn in Hin; [destruct Hin|].
        destruct Hin as [Hin|Hin]; [inversion Hin; subst; auto|auto]. }
      destruct Hcs as (_ & _ & Hd). rewrite Forall_forall in Hmean.
      destruct (Hmean c (in_combine_l _ _ _ _ Hin)) as (vs & a & b' & Ea & Eb). specialize (Hd vs). unfold diff in Hd.
      rewrite Ea, Eb in Hd. destruct b as [r|]; [eauto|]. destruct (evaluate vs v); discriminate. }
    assert (Hu : forall v b c, In (v, b, c) (cs_u (cat ps)) -> exists r, b = Some r).
    { intros v b c Hin. rewrite (pl_uppers _ _ _ _ _ Hp) in Hin. apply in_flat_map in Hin as ([c' s] & Hin & Hup).
      specialize (Hdef _ _ Hin). unfold upper_of in Hup. cbn [fst snd] in Hup.
      destruct (ckd c'), s as [v' b'|r [sl|]|r [sl|]]; cbn [In] in Hup; try contradiction; destruct Hup as [Hup|[]]; inversion Hup; subst; solve [eauto|eexists; reflexivity]. }
    assert (Hl : forall v b c, In (v, b, c) (cs_l (cat ps)) -> exists r, b = Some r).
    { intros v b c Hin. rewrite (pl_lowers _ _ _ _ _ Hp) in Hin. apply in_flat_map in Hin as ([c' s] & Hin & Hup).
      specialize (Hdef _ _ Hin). unfold lower_of in Hup. cbn [fst snd] in Hup.
      destruct (ckd c'), s as [v' b'|r [sl|]|r [sl|]]; cbn [In] in Hup; try contradiction; destruct Hup as [Hup|[]]; inversion Hup; subst; solve [eauto|eexists; reflexivity]. }
    split.
    - intros v Hv. apply HA in Hv. apply in_map_iff in Hv as ([w i] & <- & Hv). cbn [fst].
      destruct (value_real x w i Hx Hv) as (r & Er & Ev). exists r. split; [exact Ev|]. intros Hint.
      destruct (Hb i r Er) as (_ & Hint'). apply Hint'. rewrite (C28_mask st m sp k' w i Hh Hm E Hv), Hint. reflexivity.
    - apply (parts_sound false S2 (md_constraints m) 0 0 ko ps ar jr k' _ W2 Hc (sr_parts _ _ _ _ _ _ _ _ _ _ _ _ _ R)).
      rewrite Hat. repeat split.
      + intros i b Hb'. rewrite Nat.add_0_l. unfold vars. rewrite <- (ax_row_lin _ _ _ _ _ _ _ _ _ _ _ _ _ i (pt x) R).
        rewrite Esp in Hrow. apply Hrow. cbn [sp_prob].
        destruct (base_shape k' (md_init m) obj (cat ps)) as (_ & -> & _). exact Hb'.
      + rewrite Esp in Eq, Hx. cbn [sp_prob] in Eq, Hx. destruct (base_shape k' (md_init m) obj (cat ps)) as (_ & _ & _ & _ & _ & _ & En).
        rewrite En in Hx.
        destruct (run_evaluate _ _ _ _ _ _ _ _ _ _ _ _ _ _ (pt x) R (ev_start _)) as (q' & Eq' & Ebf & _).
        { unfold pt. rewrite map_length. exact Hx. }
        rewrite Eq in Eq'. inversion Eq'; subst q'. rewrite Ebf in Hf. unfold bufs_at in Hf.
        destruct (p_linear obj (cat ps)) eqn:El.
        * unfold p_linear in El. apply andb_true_iff in El as [_ El]. apply Nat.eqb_eq in El.
          destruct (cs_f (cat ps)); [constructor|discriminate].
        * cbn [b_f] in Hf. rewrite Forall_map in Hf. exact Hf.
      + apply Forall_forall. intros [[v b] c] Hin. cbn [fst snd].
        destruct (Hkey v (Pu _ Hin)) as [i Hvi]. destruct (Hu v b c Hin) as [rb ->].
        destruct (Ht v i Hvi) as ((u & Eu & _ & Hub & _) & _).
        destruct (value_real x v i Hx Hvi) as (r & Er & Ev). rewrite <- Hat.
        exists r, rb. split; [exact Ev|]. split; [reflexivity|].
        destruct (Hb i r Er) as ((l' & u' & _ & Eu' & _ & (r1 & r2 & E1 & E2 & Hle)) & _).
        rewrite Eu in Eu'. injection Eu' as <-. injection E1 as <-. injection E2 as <-.
        rewrite (pl_uppers _ _ _ _ _ Hp) in Hin. specialize (Hub rb c Hin). lra.
      + apply Forall_forall. intros [[v b] c] Hin. cbn [fst snd].
        destruct (Hkey v (Pl _ Hin)) as [i Hvi]. destruct (Hl v b c Hin) as [rb ->].
        destruct (Ht v i Hvi) as (_ & (u & Eu & _ & Hub & _)).
        destruct (value_real x v i Hx Hvi) as (r & Er & Ev). rewrite <- Hat.
        exists rb, r. split; [reflexivity|]. split; [exact Ev|].
        destruct (Hb i r Er) as ((l' & u' & El' & _ & (r1 & r2 & E1 & E2 & Hle) & _) & _).
        rewrite Eu in El'. injection El' as <-. injection E1 as <-. injection E2 as <-.
        rewrite (pl_lowers _ _ _ _ _ Hp) in Hin. specialize (Hub rb c Hin). lra.
  Qed.

  (** All variables of feasible points are within +-1e8. *)
  Theorem C26_box (x : list R) v :
    feasible (sp_prob sp) x -> In v (map fst (sp_var2index sp)) ->
    exists r, evaluate (at_point sp (pt x)) v = Some r /\ (Rabs r <= 100000000)%R.
  Proof.
    intros (Hx & _ & _ & Hb) Hv. apply in_map_iff in Hv as ([w i] & <- & Hv). cbn [fst].
    destruct (value_real x w i Hx Hv) as (r & Er & Ev). exists r. split; [exact Ev|].
    destruct (placed_all st m sp k' Hh Hm E) as (obj0 & cs0 & slots & Em0 & Hp & _).
    destruct (tightest_of st m sp k' obj0 cs0 slots Hh Hm E Em0 Hp w i Hv) as ((u & Eu & Hu & _) & (l & El & Hl & _)).
    destruct (Hb i r Er) as ((l' & u' & El' & Eu' & (r1 & r2 & E1 & E2 & Hle1) & (r3 & r4 & E3 & E4 & Hle2)) & _).
    rewrite Eu in Eu'. rewrite El in El'. injection Eu' as <-. injection El' as <-.
    injection E1 as <-. injection E2 as <-. injection E3 as <-. injection E4 as <-.
    apply Rabs_le. lra.
  Qed.

  (** Valuations satisfying the model extend to feasible points, if they are
      within +-1e8 and so are the differences of the sides of the constraints. *)
  Lemma complete_box (vs : valsX) B : (B <= 100000000)%R ->
    model_feasible m vs -> in_box B m vs ->
    exists x, feasible (sp_prob sp) x /\
      (forall v, model_var m v -> evaluate (at_point sp (pt x)) v = evaluate vs v) /\
      forall i xi, nth_error x i = Some xi -> (Rabs xi <= B)%R.
  Proof.
    intros HB8 [Hmv Hhold] [Bv Bc].
    destruct (placed_all st m sp k' Hh Hm E) as (obj0 & cs0 & slots & Em0 & Hp & _).
    pose proof (tightest_of st m sp k' obj0 cs0 slots Hh Hm E Em0 Hp) as Ht.
    destruct (C24_bijection st m sp k' Hh Hm E x_nm1) as (HB0 & _ & HA & HB & _).
    pose proof nx_len as Hnx.
    destruct (hist_run st m sp k' Hh Hm E) as (S & obj & S' & eo & ke & ko & ps & ar & jr & uc & lc & Hi & Mi & HW & Em & R & Esp & _).
    rewrite Em0 in Em. inversion Em; subst obj0 cs0; clear Em.
    set (vars := problem_vars k' obj (cat ps)) in *.
    assert (Hnd : nodupk ptr_eq vars) by exact (run_vars_nodup _ _ _ _ _ _ _ _ _ _ _ _ _ R).
    assert (Hvar : Forall (fun v => is_var v = true) vars).
    { apply Forall_forall. intros w Hw. apply (run_vars_world _ _ _ _ _ _ _ _ _ _ _ _ _ w R Hw). }
    destruct (sr_w2 _ _ _ _ _ _ _ _ _ _ _ _ _ R) as (S2 & I2 & _ & W2 & _).
    assert (Hc : Forall (fun c => S2 (clhs c) /\ S2 (crhs c)) (md_constraints m)).
    { eapply Forall_impl; [|apply mi_cons with (1 := Mi)]. intros c []; auto. }
    destruct (parts_complete false S2 (md_constraints m) 0 0 ko ps ar jr k' vs W2 Hc (sr_parts _ _ _ _ _ _ _ _ _ _ _ _ _ R) Hhold)
      as (vs' & Hsame & (Hrow & Hf & Hu & Hl) & Hslack).
    pose proof (sr_le _ _ _ _ _ _ _ _ _ _ _ _ _ R) as Hle.
    assert (Hold : forall v, model_var m v -> is_var v = true /\ nid v < st_k st).
    { intros v [Hv|(c & Hc' & Hv)].
      - assert (Ho : exists f, S f /\ occurs v f).
        { destruct Mi as [Mo _ _]. destruct (md_objective m); [eauto|eauto|destruct Hv]. }
        destruct Ho as (f & Sf & [Hv1 Hv2]). split; [exact Hv1|]. apply (w_lt _ _ _ HW). exact (world_sub _ _ _ _ _ HW Sf Hv2).
      - pose proof (mi_cons _ _ Mi) as Mc. rewrite Forall_forall in Mc. destruct (Mc c Hc') as [Sl Sr].
        destruct Hv as [[Hv1 Hv2]|[Hv1 Hv2]]; (split; [exact Hv1|]); apply (w_lt _ _ _ HW);
          [exact (world_sub _ _ _ _ _ HW Sl Hv2)|exact (world_sub _ _ _ _ _ HW Sr Hv2)]. }
    assert (Hkeep : forall v, model_var m v -> evaluate vs' v = evaluate vs v).
    { intros v Hv. destruct (Hold v Hv) as [H1 H2]. symmetry. apply Hsame; [exact H1|lia]. }
    (* every variable has a value within the box *)
    assert (Hin : forall v, In v vars -> exists r, evaluate vs' v = Some r /\ (Rabs r <= B)%R /\
                            (is_integer v = true -> exists z, r = IZR z)).
    { intros v Hv. assert (Hv' : In v (map fst (sp_var2index sp))) by (rewrite Esp; cbn [sp_var2index]; rewrite enum_keys; exact Hv).
      destruct (HB v Hv') as [Hmod|((Hk1 & Hk2) & nm & Env)].
      - destruct (Hmv v Hmod) as (r & Er & Hint). exists r. rewrite (Hkeep v Hmod). split; [exact Er|]. split; [|exact Hint].
        exact (Bv v r Hmod Er).
      - assert (Hpk : In v (prop_keys (cat ps)) /\ ko <= nid v).
        { destruct (proj1 (run_vars_in _ _ _ _ _ _ _ _ _ _ _ _ _ v R) Hv) as [Ho|Hpk].
          - exfalso. assert (Hmv' : model_var m v).
            { left. apply (obj_exp_occurs v _ _ _ _ x_nm1 (sr_obj _ _ _ _ _ _ _ _ _ _ _ _ _ R)) in Ho. exact Ho. }
            destruct (Hold v Hmv'). lia.
          - split; [exact Hpk|].
            destruct (parts_keys false S2 _ 0 0 ko ps ar jr k' v W2 Hc (sr_parts _ _ _ _ _ _ _ _ _ _ _ _ _ R) Hpk) as [Hk|[Hk _]]; [|lia].
            exfalso. destruct (Hold v (or_intror Hk)). lia. }
        destruct Hpk as [Hpk Hko]. destruct (Hslack v Hpk Hko) as (c & Hc' & Ev).
        rewrite Forall_forall in Hhold, Bc. destruct (Hhold c Hc') as (a & b & Ea & Eb & _).
        rewrite Ea, Eb in Ev. exists (a - b)%R. split; [exact Ev|]. split; [exact (Bc c Hc' a b Ea Eb)|].
        rewrite Env. discriminate. }
    set (val := fun v => match evaluate vs' v with Some r => r | None => 0%R end).
    set (x := map val vars).
    assert (Hpt : pt x = map (fun v => evaluate vs' v) vars).
    { unfold pt, x. rewrite map_map. apply map_ext_in. intros v Hv. unfold val.
      destruct (Hin v Hv) as (r & -> & _). reflexivity. }
    assert (Hev : forall v, In v vars -> evaluate (point_vals vars (pt x)) v = evaluate vs' v).
    { intros v Hv. rewrite Hpt. apply point_of_vals; auto. }
    assert (Hat : at_point sp (pt x) = point_vals vars (pt x)) by (rewrite Esp; reflexivity).
    assert (Hxl : length x = m_nx (base_of (sp_prob sp))).
    { rewrite Hnx, Esp. cbn [sp_var2index]. rewrite v2i_len. apply map_length. }
    destruct (base_shape k' (md_init m) obj (cat ps)) as (_ & Eb0 & _ & _ & _ & _ & En).
    exists x. split; [|split].
    - split; [exact Hxl|]. split; [|split].
      + intros r b Hb. rewrite Esp in Hb |- *. cbn [sp_prob] in *. rewrite Eb0 in Hb.
        rewrite (ax_row_lin _ _ _ _ _ _ _ _ _ _ _ _ _ r (pt x) R). specialize (Hrow r b Hb). rewrite Nat.add_0_l in Hrow.
        replace (lin (point_vals vars (pt x)) (lrow r (cs_a (cat ps)))) with (lin vs' (lrow r (cs_a (cat ps)))); [exact Hrow|].
        unfold lin. f_equal. apply map_ext_in. intros kv Hkv. f_equal. symmetry. apply Hev.
        pose proof (sr_in _ _ _ _ _ _ _ _ _ _ _ _ _ R) as [_ Pa _ _ _ _ _]. rewrite Forall_forall in Pa.
        apply (run_vars_in _ _ _ _ _ _ _ _ _ _ _ _ _ _ R). right. unfold lrow in Hkv.
        apply in_map_iff in Hkv as (e & <- & Hin'). apply filter_In in Hin' as [Hin' _]. apply (Pa e Hin').
      + assert (Hlen : length (pt x) = length vars) by (unfold pt, x; rewrite !map_length; reflexivity).
        destruct (run_evaluate _ _ _ _ _ _ _ _ _ _ _ _ _ _ (pt x) R (ev_start _) Hlen) as (q' & Eq' & Ebf & _).
        exists q'. rewrite Esp. cbn [sp_prob]. split; [exact Eq'|]. rewrite Ebf. unfold bufs_at.
        destruct (p_linear obj (cat ps)); cbn [b_f]; [constructor|]. fold vars. rewrite Forall_map.
        rewrite Forall_forall in Hf |- *. intros f Hfin. rewrite <- (Hf f Hfin). apply evaluate_ext. intros v Hv. apply Hev.
        pose proof (sr_in _ _ _ _ _ _ _ _ _ _ _ _ _ R) as [_ _ Pf _ _ _ _]. rewrite Forall_forall in Pf.
        apply (run_vars_in _ _ _ _ _ _ _ _ _ _ _ _ _ _ R). right. apply (proj2 (Pf f Hfin)). exact Hv.
      + intros i r Hr. unfold x in Hr. rewrite nth_error_map in Hr.
        destruct (nth_error vars i) as [v|] eqn:Ev; [|discriminate]. cbn in Hr. inversion Hr; subst r; clear Hr.
        assert (Hvin : In v vars) by (eapply nth_error_In; eauto).
        assert (Hvi : In (v, i) (sp_var2index sp)) by (rewrite Esp; cbn [sp_var2index]; apply enum_in; exact Ev).
        destruct (Hin v Hvin) as (r & Er & Hbox & Hint). unfold val. rewrite Er.
        assert (Hbox' : (-100000000 <= r <= 100000000)%R) by (revert Hbox; unfold Rabs; destruct (Rcase_abs r); lra).
        destruct (Ht v i Hvi) as ((u & Eu & _ & _ & Hcu) & (l & El & _ & _ & Hcl)).
        split.
        * exists (Some l), (Some u). split; [exact El|]. split; [exact Eu|]. split.
          -- exists l, r. split; [reflexivity|]. split; [reflexivity|].
             destruct (hget Nat.eqb i (sp_lcons sp)) as [c|].
             ++ destruct Hcl as (l1 & l2 & Els & _). rewrite Forall_forall in Hl.
                destruct (Hl (v, Some l, c)) as (a & b & Ea & Eb & Hab).
                { rewrite (pl_lowers _ _ _ _ _ Hp), Els. apply in_or_app; cbn; auto. }
                cbn [fst snd] in *. rewrite Er in Eb. inversion Ea; inversion Eb; subst. exact Hab.
             ++ destruct Hcl as [-> _]. lra.
          -- exists r, u. split; [reflexivity|]. split; [reflexivity|].
             destruct (hget Nat.eqb i (sp_ucons sp)) as [c|].
             ++ destruct Hcu as (l1 & l2 & Els & _). rewrite Forall_forall in Hu.
                destruct (Hu (v, Some u, c)) as (a & b & Ea & Eb & Hab).
                { rewrite (pl_uppers _ _ _ _ _ Hp), Els. apply in_or_app; cbn; auto. }
                cbn [fst snd] in *. rewrite Er in Ea. inversion Ea; inversion Eb; subst. exact Hab.
             ++ destruct Hcu as [-> _]. lra.
        * intros Hmask. rewrite (C28_mask st m sp k' v i Hh Hm E Hvi) in Hmask. inversion Hmask. apply Hint. auto.
    - intros v Hv. rewrite Hat, Hev; [apply Hkeep; exact Hv|].
      apply HA in Hv. rewrite Esp in Hv. cbn [sp_var2index] in Hv. rewrite enum_keys in Hv. exact Hv.
    - intros i xi Hr. unfold x in Hr. rewrite nth_error_map in Hr. destruct (nth_error vars i) as [v|] eqn:Ev; [|discriminate].
      cbn in Hr. injection Hr as <-. destruct (Hin v (nth_error_In _ _ Ev)) as (r & Er & Hbox & _). unfold val. rewrite Er. exact Hbox.
  Qed.
  Theorem C26_complete (vs : valsX) :
    model_feasible m vs -> in_box 100000000 m vs ->
    exists x, feasible (sp_prob sp) x /\
      forall v, model_var m v -> evaluate (at_point sp (pt x)) v = evaluate vs v.
  Proof.
    intros Hf Hb. destruct (complete_box vs _ (Rle_refl _) Hf Hb) as (x & Hx & Hv & _). eauto.
  Qed.

  (** ** C36 (point form) Optimal points of the standard problem are optimal for the model *)
  Theorem C36_optimal (x : list R) :
    Forall meaningful (md_constraints m) -> optimal (sp_prob sp) x ->
    model_feasible m (at_point sp (pt x)) /\
    forall vs b, model_feasible m vs -> in_box 100000000 m vs -> obj_value m vs = Some b ->
      exists a, obj_value m (at_point sp (pt x)) = Some a /\ (a <= b)%R.
  Proof.
    intros Hmean (Hf & a & Ha & Hopt). split; [exact (C26_sound x Hmean Hf)|].
    intros vs b Hvs Hbox Hb. destruct (C26_complete vs Hvs Hbox) as (y & Hy & Hag).
    assert (Eo : obj_value m (at_point sp (pt y)) = Some b).
    { rewrite <- Hb. unfold obj_value. assert (G : forall f, (forall v, occurs v f -> model_var m v) ->
        evaluate (at_point sp (pt y)) f = evaluate vs f).
      { intros f Hocc. apply evaluate_ext. intros v Hv. apply Hag. auto. }
      unfold model_var in G. destruct (md_objective m) as [f|f|]; [apply G; auto|f_equal; apply G; auto|reflexivity]. }
    destruct C27_objective as (shift & _ & _ & Hobj).
    destruct (Hobj x (proj1 Hf)) as (phx & Px & Ex & _). destruct (Hobj y (proj1 Hy)) as (phy & Py & Ey & _).
    assert (phx = Some a).
    { destruct Px as (q1 & Q1 & <-). destruct Ha as (q2 & Q2 & <-). rewrite Q1 in Q2. inversion Q2. reflexivity. }
    subst phx. rewrite Ey in Eo. destruct phy as [b'|]; [|discriminate]. destruct shift as [s|]; [|discriminate].
    cbn in Eo. inversion Eo; subst b. exists (a + s)%R. rewrite Ex. split; [reflexivity|].
    specialize (Hopt y b' Hy Py). lra.
  Qed.
  (** Conversely, an optimum of the model within the box is found among the
      optimal points of the standard problem. *)
  Theorem C36_attained (vs : valsX) b :
    Forall meaningful (md_constraints m) ->
    model_feasible m vs -> in_box 100000000 m vs -> obj_value m vs = Some b ->
    (forall vs' b', model_feasible m vs' -> obj_value m vs' = Some b' -> (b <= b')%R) ->
    exists x, optimal (sp_prob sp) x /\ forall v, model_var m v -> evaluate (at_point sp (pt x)) v = evaluate vs v.
  Proof.
    intros Hmean Hvs Hbox Hb Hopt. destruct (C26_complete vs Hvs Hbox) as (x & Hx & Hag). exists x. split; [|exact Hag].
    assert (Eo : obj_value m (at_point sp (pt x)) = Some b).
    { rewrite <- Hb. unfold obj_value. assert (G : forall f, (forall v, occurs v f -> model_var m v) ->
        evaluate (at_point sp (pt x)) f = evaluate vs f).
      { intros f Hocc. apply evaluate_ext. intros v Hv. apply Hag. auto. }
      unfold model_var in G. destruct (md_objective m) as [f|f|]; [apply G; auto|f_equal; apply G; auto|reflexivity]. }
    destruct C27_objective as (shift & _ & _ & Hobj).
    destruct (Hobj x (proj1 Hx)) as (phx & Px & Ex & _). rewrite Eo in Ex.
    destruct phx as [a|]; [|discriminate]. destruct shift as [s|]; [|discriminate]. cbn in Ex. injection Ex as Ex.
    split; [exact Hx|]. exists a. split; [exact Px|]. intros y c Hy Py.
    destruct (Hobj y (proj1 Hy)) as (phy & Py' & Ey & _).
    assert (phy = Some c).
    { destruct Py as (q1 & Q1 & <-). destruct Py' as (q2 & Q2 & <-). rewrite Q1 in Q2. inversion Q2. reflexivity. }
    subst phy. cbn in Ey. specialize (Hopt _ _ (C26_sound y Hmean Hy) Ey). lra.
  Qed.
End Feas.

(** ** Concrete models: minimise x subject to x >= B *)
Definition lc (B : R) : constraint X := mk_constraint 2 cx GreaterEqual (NConst 1 (Some B)) "lc"%string.
Definition lm (B : R) : model X := mk_model (Minimize cx) [lc B] [] None [] [].
Definition lst (B : R) : mstate X := mk_mstate 3 [cx] [lc B] [lm B].

Lemma lst_hist B : @hist X _ any_op (lst B).
Proof.
  apply (@mrun_hist X _ ord_id [CExpr (OVar "x"%string VarContinuous); CCmpNS 0 GreaterEqual (Some B) "lc"%string; CNewModel;
           CSetObj 0 Minimise 0; CAddConstr 0 0] mstart); [constructor|reflexivity].
Qed.
Lemma lm_std B : (B <> 0)%R -> exists sp k', @std_problem X _ ord_id (lm B) 3 = Ok (sp, k').
Proof.
  intros HB. destruct (@hist_inv X _ false (lst B) (lst_hist B)) as (S & Hi).
  pose proof (hi_models _ _ _ Hi) as G. inversion G as [|? ? (Mi & _) _]; subst.
  pose proof (hi_world _ _ _ Hi) as HW. cbn [st_k lst] in HW.
  destruct Mi as [Mo Mc Mini Min_in]. cbn [md_objective lm] in Mo.
  destruct (@std_components X _ ord_id cx 3) as [[obj ko]|p] eqn:Eo.
  2:{ exfalso. destruct (@std_components_panic X _ ord_id false 3 S cx p HW Mo Eo) as [_ Ha]. discriminate. }
  destruct (@std_components_grows X _ ord_id false 3 S cx HW Mo _ _ Eo) as (_ & S0 & I0 & W0 & _).
  inversion Mc as [|? ? [Sl Sr] _]; subst.
  assert (Es : sub_nn (clhs (lc B)) (crhs (lc B)) ko =
     Ok (NAdd (Datatypes.S (Datatypes.S ko)) [cx; NConst (Datatypes.S ko) (Some (0 + - (1) * B)%R)], Datatypes.S (Datatypes.S (Datatypes.S ko)))).
  { unfold sub_nn, bind. cbn [clhs crhs lc mul_sn is_constant]. rewrite orb_true_r. unfold mk_const.
    change (@nmul X _ nm1 (Some B)) with (Some (- (1) * B)%R).
    unfold add_nn. cbn [is_constant_with_value cx]. replace (@neqb X _ (Some (- (1) * B)%R) n0) with false by (symmetry; apply xeqb_f; lra).
    unfold add_other. cbn [fold_left add_outer].
    change (@nadd X _ n0 (Some (- (1) * B)%R)) with (Some (0 + - (1) * B)%R). cbn [app].
    cbn. destruct (Req_EM_T (0 + - (1) * B) 0) as [Ez|_]; [exfalso; lra|]. reflexivity. }
  destruct (@constr_std_affine X _ ord_id false ko S0 (lc B) 0 0 _ _ x_nm1 W0 (I0 _ Sl) (I0 _ Sr) Es eq_refl) as ([[p a1] j1] & k1 & E1).
  assert (Em : @model_std X _ ord_id (lm B) 3 = Ok ((obj, cstd_app cstd_new p), k1)).
  { unfold model_std. cbn [md_objective lm obj_std]. erewrite run_step; [|exact Eo].
    unfold constrs_std. cbn [md_constraints lm foldM].
    erewrite run_step; [|erewrite run_step; [|erewrite run_step; [|exact E1]; reflexivity]; reflexivity].
    reflexivity. }
  destruct (@std_problem_ok X _ ord_id false 3 S (lm B) obj _ k1 HW (Build_model_in S (lm B) Mo Mc Mini Min_in) Em) as (uc & lc0 & Esp & _).
  eauto.
Qed.
Lemma lm_feasible B (vs : valsX) : model_feasible (lm B) vs <-> exists r, evaluate vs cx = Some r /\ (r >= B)%R.
Proof.
  split.
  - intros [_ Hc]. inversion Hc as [|? ? (a & b & Ea & Eb & Hr) _]; subst. cbn in Eb. injection Eb as <-. exists a. split; [exact Ea|exact Hr].
  - intros (r & Er & Hr). split.
    + intros v [Hv|(c & [<-|[]] & [Hv|Hv])]; apply occurs_inv in Hv as [[-> Hv]|(c & [] & _)]; try discriminate;
        exists r; split; auto; discriminate.
    + constructor; [|constructor]. exists r, B. auto.
Qed.
Lemma lm_meaningful B : Forall meaningful (md_constraints (lm B)).
Proof. constructor; [|constructor]. exists [(cx, Some 0%R)], 0%R, B. split; reflexivity. Qed.

(** The hypotheses of the theorems are met: minimise x subject to x >= 1 has an
    optimal point in the standard problem. *)
Example C26_C36_example : exists sp k' x, @hist X _ any_op (lst 1) /\ In (lm 1) (st_models (lst 1)) /\
  @std_problem X _ ord_id (lm 1) (st_k (lst 1)) = Ok (sp, k') /\ Forall meaningful (md_constraints (lm 1)) /\
  optimal (sp_prob sp) x.
Proof.
  destruct (lm_std 1 ltac:(lra)) as (sp & k' & E). exists sp, k'.
  assert (Hin : In (lm 1) (st_models (lst 1))) by (cbn; auto).
  destruct (@C36_attained ord_id (lst 1) (lm 1) sp k' (lst_hist 1) Hin E [(cx, Some 1%R)] 1%R (lm_meaningful 1)) as (x & Hx & _).
  - apply lm_feasible. exists 1%R. split; [reflexivity|lra].
  - split.
    + intros v r [Hv|(c & [<-|[]] & [Hv|Hv])]; apply occurs_inv in Hv as [[-> Hv]|(c & [] & _)]; try discriminate;
        intros Ev; cbn in Ev; injection Ev as <-; rewrite Rabs_R1; lra.
    + constructor; [|constructor]. intros a b Ea Eb. cbn in Ea, Eb. injection Ea as <-. injection Eb as <-.
      replace (1 - 1)%R with 0%R by lra. rewrite Rabs_R0. lra.
  - reflexivity.
  - intros vs' b' Hf Eb. apply lm_feasible in Hf as (r & Er & Hr). cbn [obj_value md_objective lm] in Eb.
    rewrite Er in Eb. injection Eb as <-. lra.
  - exists x. split; [apply lst_hist|]. split; [exact Hin|]. split; [exact E|]. split; [apply lm_meaningful|exact Hx].
Qed.

(** Outside the box the claim is false: x >= 2e8 has solutions, its standard
    problem has none. *)
Theorem C26_refuted : exists sp k' vs, @hist X _ any_op (lst 200000000) /\
  In (lm 200000000) (st_models (lst 200000000)) /\
  @std_problem X _ ord_id (lm 200000000) (st_k (lst 200000000)) = Ok (sp, k') /\
  model_feasible (lm 200000000) vs /\ forall x, ~ feasible (sp_prob sp) x.
Proof.
  destruct (lm_std 200000000 ltac:(lra)) as (sp & k' & E). exists sp, k', [(cx, Some 200000000%R)].
  assert (Hin : In (lm 200000000) (st_models (lst 200000000))) by (cbn; auto).
  split; [apply lst_hist|]. split; [exact Hin|]. split; [exact E|]. split.
  - apply lm_feasible. exists 200000000%R. split; [reflexivity|lra].
  - intros x Hx. pose proof (@C26_sound ord_id _ _ sp k' (lst_hist _) Hin E x (lm_meaningful _) Hx) as Hf.
    apply lm_feasible in Hf as (r & Er & Hr).
    destruct (@C26_box ord_id _ _ sp k' (lst_hist _) Hin E x cx Hx) as (r' & Er' & Hb).
    + destruct (@C24_bijection X _ ord_id _ _ sp k' (lst_hist _) Hin E x_nm1) as (_ & _ & HA & _). apply HA.
      left. split; [reflexivity|constructor].
    + rewrite Er in Er'. injection Er' as <-. revert Hb. unfold Rabs. destruct (Rcase_abs r); lra.
Qed.
