(** Property C67: how the constraints of a model are arranged in its standard problem, which
    bounds the variables get and which multipliers are recorded, for any numbers and so for
    binary64. *)
From Verif Require Import Base Num Node NodeInd NodeDiff NodeStd Constraint Matrix Problem ModelStd Model
     ExprSpec World MapProofs StdPropProofs EvalProofs GradProofs OccProofs ConstrSpec ConstrProofs PartsProofs ConstrEquiv
     MatSpec ProblemProofs BuildProofs BuildMain ModelSpec PointProofs EvalRun StdFacts
     Api ApiProofs ModelApi StdMain HistProofs ModelExample SlotProofs Properties_Constr Properties_Std Properties_Feas SolveProofs Properties_Solve
     SparseProofs Properties_Sparse SolverBase Text LpFile SolFile CmdSolver LpSpec LpProofs SolSpec Properties_Sol Properties_Cmd Properties_End Ipopt IpoptSpec EndSpec IpoptProofs Properties_Ipopt Properties_EndIpopt PlaceSpec SlotAny.
From Coq Require Import Floats.SpecFloat Reals Lra.
Local Open Scope string_scope.
Local Open Scope list_scope.
Local Open Scope nat_scope.

Section Place.
  Context {T : Type} `{Num T} `{HashOrd}.

  (** Entries of the matrix built from the rows of the components. *)
  Lemma matrix_entries (vars : list (node T)) nr nc (l : list (nat * node T * T)) :
    nodupk ptr_eq vars -> Forall (fun e => In (snd (fst e)) vars) l ->
    forall r v i a, nth_error vars i = Some v ->
      (In (r, i, a) (entries (mk_coo nr nc (map (fun e => fst (fst e)) l) (map (fun e => ix vars (snd (fst e))) l) (map snd l))) <-> In (r, v, a) l).
  Proof.
    intros Hnd HF r v i a Hi.
    assert (E : entries (mk_coo nr nc (map (fun e => fst (fst e)) l) (map (fun e => ix vars (snd (fst e))) l) (map snd l))
                = map (fun e => (fst (fst e), ix vars (snd (fst e)), snd e)) l).
    { unfold entries. cbn [coo_ri coo_ci coo_data]. clear. induction l as [|e l IH]; cbn [map combine]; [reflexivity|]. rewrite IH. reflexivity. }
    rewrite E, in_map_iff. rewrite Forall_forall in HF. split.
    - intros ([[r' v'] x'] & E' & Hin). cbn [fst snd] in E'. injection E' as -> Eix ->.
      pose proof (ix_nth vars Hnd v' (HF _ Hin)) as G. cbn [fst snd] in G. rewrite Eix, Hi in G. injection G as ->. exact Hin.
    - intros Hin. exists (r, v, a). split; [|exact Hin]. cbn [fst snd]. f_equal. f_equal.
      pose proof (ix_nth vars Hnd v (HF _ Hin)) as G. cbn [fst snd] in G.
      assert (Nv : NoDup vars) by (apply (nodupk_NoDup ptr_eq); [apply ptr_eq_refl|exact Hnd]).
      eapply (proj1 (NoDup_nth_error vars) Nv); [apply nth_error_Some; congruence|congruence].
  Qed.
  Lemma in_lrow r (l : list (nat * node T * T)) v a : In (v, a) (lrow r l) <-> In (r, v, a) l.
  Proof.
    unfold lrow. rewrite in_map_iff. split.
    - intros ([[r' v'] a'] & E & Hin). cbn [fst snd] in E. injection E as -> ->. apply filter_In in Hin as [Hin Er]. cbn [fst] in Er.
      apply Nat.eqb_eq in Er. subst. exact Hin.
    - intros Hin. exists (r, v, a). split; [reflexivity|]. apply filter_In. split; [exact Hin|]. cbn [fst]. apply Nat.eqb_refl.
  Qed.

  (** ** C67 Arrangement, with the coefficients the code computes. *)
  Lemma arranged_code (st : mstate T) m sp k' :
    hist any_op st -> In m (st_models st) -> std_problem m (st_k st) = Ok (sp, k') -> neqb (@nm1 T _) n0 = false ->
    exists obj cs slots,
      model_std m (st_k st) = Ok ((obj, cs), k') /\ arranged (st_k st) m cs sp slots /\
      (forall v, In v (map fst (sp_var2index sp)) <-> model_var m v \/ In v (flat_map slack_of slots)) /\
      Forall2 (slot_code 0 0 (st_k st) cs) (md_constraints m) slots /\
      (forall r v i a, In (v, i) (sp_var2index sp) -> In (r, i, a) (entries (m_a (base_of (sp_prob sp)))) <-> In (v, a) (lrow r (cs_a cs))) /\
      m_b (base_of (sp_prob sp)) = cs_b cs.
  Proof.
    intros Hh Hm E Hnm.
    destruct (hist_run st m sp k' Hh Hm E) as (S & obj & S' & eo & ke & ko & ps & ar & jr & uc & lc & Hi & Mi & HW & Em & R & Esp & _).
    destruct (sr_w2 _ _ _ _ _ _ _ _ _ _ _ _ _ R) as (S2 & I2 & _ & W2 & _).
    pose proof (sr_le _ _ _ _ _ _ _ _ _ _ _ _ _ R) as Hle.
    assert (Hc : Forall (fun c => S2 (clhs c) /\ S2 (crhs c)) (md_constraints m)).
    { eapply Forall_impl; [|apply mi_cons with (1 := Mi)]. intros c []; auto. }
    destruct (parts_codes Hnm _ S2 _ 0 0 ko ps ar jr k' W2 Hc (sr_parts _ _ _ _ _ _ _ _ _ _ _ _ _ R))
      as (slots & HF & Hr & Hf & (Hu & Hl) & Hk & Hnd & _).
    destruct (sr_rows _ _ _ _ _ _ _ _ _ _ _ _ _ R) as [R1 R2 R3 R4 R5 R6 R7].
    destruct (base_shape k' (md_init m) obj (cat ps)) as (Ea & Eb & _ & _ & _ & _ & En).
    pose proof (run_vars_nodup _ _ _ _ _ _ _ _ _ _ _ _ _ R) as Hvn.
    assert (Le : forall A (l : list A), length (enum l) = length l).
    { intros A l. unfold enum. rewrite combine_length, seq_length. lia. }
    assert (Hpos : forall r v i a, In (v, i) (sp_var2index sp) ->
       (In (r, i, a) (entries (m_a (base_of (sp_prob sp)))) <-> In (v, a) (lrow r (cs_a (cat ps))))).
    { intros r v i a Hv. rewrite Esp in Hv |- *. cbn [sp_var2index sp_prob] in *. apply enum_in in Hv. rewrite Ea.
      pose proof (sr_in _ _ _ _ _ _ _ _ _ _ _ _ _ R) as [_ P2 _ _ _ _ _]. rewrite in_lrow. unfold p_amat.
      apply matrix_entries; [exact Hvn| |exact Hv].
      eapply Forall_impl; [|exact P2]. cbn. intros e He. apply (run_vars_in _ _ _ _ _ _ _ _ _ _ _ _ _ _ R). auto. }
    assert (HF' : Forall2 (slot_code 0 0 (st_k st) (cat ps)) (md_constraints m) slots).
    { clear -HF Hle. induction HF as [|c s l l' Hs HF IH]; constructor; [|exact IH]. destruct Hs as (e & Hd & Hs). exists e. split; [exact Hd|].
      destruct s as [v b|r sl|r sl]; [exact Hs| |].
      - destruct Hs as (X1 & X2 & X3 & X4 & X5). repeat (split; [assumption|]). split; [|exact X5].
        destruct sl; [|exact X4]. destruct X4 as (Y1 & Y2). split; [lia|exact Y2].
      - destruct Hs as (X1 & X2 & X3 & X4 & X5). repeat (split; [assumption|]). split; [|exact X5].
        destruct sl; [|exact X4]. destruct X4 as (Y1 & Y2). split; [lia|exact Y2]. }
    exists obj, (cat ps), slots. split; [exact Em|].
    assert (Eb' : m_b (base_of (sp_prob sp)) = cs_b (cat ps)) by (rewrite Esp; exact Eb).
    split; [|split; [|split; [exact HF'|split; [exact Hpos|exact Eb']]]].
    - constructor; rewrite ?Eb'; auto.
      + revert HF'. clear -Hpos Eb' Esp Hnm. intros HF. induction HF as [|c s cs slots Hs HF IH]; constructor; auto.
        destruct Hs as (e & (Hsub & Haff & Hvars) & Hs). destruct s as [v b|r sl|r sl]; cbn [slot_any].
        * destruct Hs as (X1 & X2 & X3 & a & X4 & X5 & X6). split; [apply Haff; exact X1|]. split; [exact X2|]. split; [exact X3|].
          intros w. rewrite <- Hvars, X4. cbn. split; [intros [->|[]]; reflexivity|auto].
        * destruct Hs as (X1 & _ & X3 & X4 & X5 & X6). rewrite Nat.sub_0_r in *. split; [apply Haff; exact X1|].
          split; [rewrite Esp; cbn [sp_acons]; rewrite enum_hget; exact X3|]. split; [exact X4|]. split; [rewrite Eb'; eauto|].
          intros v i Hv. rewrite <- Hvars. assert (G : In v (map fst (lrow r (cs_a (cat ps)))) <-> In v (map fst (p_a (std_properties e))) \/ sl = Some v).
          { transitivity (In v (map fst (p_a (std_properties e) ++ slack_entry sl))).
            - split; apply Permutation_in; [|apply Permutation_sym]; apply Permutation_map; exact X6.
            - rewrite map_app, in_app_iff. destruct sl as [s|]; cbn; [|intuition congruence]. split; (intros [?|G]; [auto|]); right; [destruct G as [->|[]]; reflexivity|injection G as ->; auto]. }
          rewrite <- G, in_map_iff. split.
          -- intros (a & Hin). apply (Hpos r v i a Hv) in Hin. exists (v, a). auto.
          -- intros ([w a] & Ew & Hin). cbn [fst] in Ew. subst w. exists a. apply (Hpos r v i a Hv). exact Hin.
        * destruct Hs as (X1 & _ & X3 & X4 & f & X5 & X6). rewrite Nat.sub_0_r in *.
          split; [intros G; apply Haff in G; congruence|].
          split; [rewrite Esp; cbn [sp_jcons]; rewrite enum_hget; exact X3|]. split; [exact X4|]. exists f. split; [exact X5|].
          destruct Hsub as (k1 & k2 & Es). intros v. unfold constr_var. rewrite <- (sub_nn_occurs v _ _ _ _ _ Hnm Es).
          destruct sl as [s|].
          -- destruct X6 as (k3 & k4 & Ef). rewrite (sub_nn_occurs v _ _ _ _ _ Hnm Ef).
             destruct X4 as (_ & (i0 & nm & ->) & _). unfold occurs at 2. cbn. split; (intros [G|G]; [auto|right]).
             ++ destruct G as [_ G]. inversion G as [|? ? ? Hin]; subst; [reflexivity|]. cbn in Hin. destruct Hin.
             ++ injection G as <-. split; [reflexivity|apply sub_refl].
          -- subst f. intuition discriminate.
      + rewrite Hr. f_equal. lia.
      + rewrite Hf. f_equal. lia.
      + rewrite Esp. cbn [sp_acons]. rewrite Le. congruence.
      + rewrite Esp. cbn [sp_jcons]. rewrite Le. congruence.
    - intros v. rewrite Esp. cbn [sp_var2index]. rewrite enum_keys, (run_vars_in _ _ _ _ _ _ _ _ _ _ _ _ _ v R), Hk.
      rewrite (obj_exp_occurs v _ _ _ _ Hnm (sr_obj _ _ _ _ _ _ _ _ _ _ _ _ _ R)). unfold model_var, constr_var. tauto.
  Qed.
End Place.

(** ** Bounds *)
Section BoundAny.
  Context {T : Type} `{Num T}.
  Variable better : T -> T -> bool.
  Hypothesis b_trans : forall a b c, better a b = true -> better b c = true -> better a c = true.
  Hypothesis b_total : forall a b, better a a = true -> better b b = true -> better a b = false -> better b a = true.
  Hypothesis b_num : forall a b, better a b = true -> better a a = true /\ better b b = true.

  Lemma bfold_any (v : node T) (B : T) es :
    better B B = true ->
    (forall w b c, In (w, b, c) es -> ptr_eq v w = true -> w = v) ->
    let r := bfold better v es (B, None) in
    tightest better B v (fst r) (snd r) es.
  Proof.
    intros HB. cbv zeta. unfold tightest. induction es as [|[[w x] c] es IH] using rev_ind; intros Hcoh.
    - cbn. repeat split; auto; intros ? ? [].
    - assert (IH' := IH (fun w b c Hin => Hcoh w b c (in_or_app _ _ _ (or_introl Hin)))). clear IH.
      unfold bfold in *. rewrite fold_left_app. cbn [fold_left fst snd].
      match type of IH' with better (fst ?x) _ = _ /\ _ => set (st := x) in * end. destruct IH' as (HuB & Hle & Hc).
      pose proof (b_num _ _ HuB) as [Huu _].
      assert (Ew : ptr_eq v w = true -> w = v) by (apply (Hcoh w x c); apply in_or_app; cbn; auto).
      destruct (ptr_eq v w && better x (fst st)) eqn:Eb.
      + apply andb_true_iff in Eb as [Ep Eb]. specialize (Ew Ep). subst w. cbn [fst snd]. split; [eauto|]. split.
        * intros b' c' Hin Hb'. apply in_app_or in Hin as [Hin|[Hin|[]]]; [|injection Hin as <- _; exact (proj1 (b_num _ _ Eb))].
          exact (b_trans _ _ _ Eb (Hle _ _ Hin Hb')).
        * exists es, []. split; [reflexivity|]. intros ? ? [].
      + assert (Hnew : forall b' c', In (v, b', c') [(w, x, c)] -> better b' (fst st) = false).
        { intros b' c' [Hin|[]]. injection Hin as -> -> _. rewrite ptr_eq_refl in Eb. exact Eb. }
        split; [exact HuB|]. split.
        * intros b' c' Hin Hb'. apply in_app_or in Hin as [Hin|Hin]; [exact (Hle _ _ Hin Hb')|]. apply b_total; eauto.
        * destruct (snd st) as [c0|].
          -- destruct Hc as (l1 & l2 & Ees & Hl). exists l1, (l2 ++ [(w, x, c)]). split; [rewrite Ees, <- app_assoc; reflexivity|].
             intros b' c' Hin. apply in_app_or in Hin as [Hin|Hin]; eauto.
          -- destruct Hc as [Eq Hl]. split; [exact Eq|]. intros b' c' Hin. apply in_app_or in Hin as [Hin|Hin]; [eauto|]. rewrite <- Eq. eauto.
  Qed.
End BoundAny.

Section TightAny.
  Context {T : Type} `{Num T} `{HashOrd}.
  Lemma nx_any (st : mstate T) m sp k' : @number_order T _ -> hist any_op st -> In m (st_models st) -> std_problem m (st_k st) = Ok (sp, k') ->
    m_nx (base_of (sp_prob sp)) = length (sp_var2index sp).
  Proof.
    intros Hord Hh Hm E. destruct (C24_bijection st m sp k' Hh Hm E (no_minus Hord)) as (B & _).
    apply (f_equal (@length nat)) in B. rewrite map_length, seq_length in B. auto.
  Qed.
  Lemma var_any (st : mstate T) m sp k' : @number_order T _ -> hist any_op st -> In m (st_models st) -> std_problem m (st_k st) = Ok (sp, k') ->
    forall i, i < m_nx (base_of (sp_prob sp)) -> exists v, In (v, i) (sp_var2index sp).
  Proof.
    intros Hord Hh Hm E i Hi. destruct (C24_bijection st m sp k' Hh Hm E (no_minus Hord)) as (B & _).
    assert (Hin : In i (map snd (sp_var2index sp))) by (rewrite B; apply in_seq; lia).
    apply in_map_iff in Hin as ([v j] & <- & Hin). eauto.
  Qed.
  Lemma tightest_any (st : mstate T) m sp k' obj cs slots :
    @number_order T _ ->
    hist any_op st -> In m (st_models st) -> std_problem m (st_k st) = Ok (sp, k') ->
    model_std m (st_k st) = Ok ((obj, cs), k') -> arranged (st_k st) m cs sp slots ->
    forall v i, In (v, i) (sp_var2index sp) ->
      (exists u, nth_error (m_u (base_of (sp_prob sp))) i = Some u /\
                 tightest (fun a b => nleb a b) INF v u (hget Nat.eqb i (sp_ucons sp)) (uppers m slots)) /\
      (exists l, nth_error (m_l (base_of (sp_prob sp))) i = Some l /\
                 tightest (fun a b => nleb b a) (nneg INF) v l (hget Nat.eqb i (sp_lcons sp)) (lowers m slots)).
  Proof.
    intros Hord Hh Hm E Em Hp v i Hv.
    destruct (hist_run st m sp k' Hh Hm E) as (S & obj' & S' & eo & ke & ko & ps & ar & jr & uc & lc & Hi & Mi & HW & Em' & R & -> & Hu & _ & _ & Hl & _ & _).
    rewrite Em in Em'. inversion Em'; subst obj' cs; clear Em'. cbn [sp_var2index sp_ucons sp_lcons sp_prob] in *.
    set (vars := problem_vars k' obj (cat ps)) in *. apply enum_in in Hv.
    destruct (base_shape k' (md_init m) obj (cat ps)) as (_ & _ & El & Eu & _).
    rewrite El, Eu, (Hu i v Hv), (Hl i v Hv), <- (ar_uppers _ _ _ _ _ Hp), <- (ar_lowers _ _ _ _ _ Hp).
    unfold p_uvec, p_lvec. fold vars. rewrite !nth_error_map, Hv. cbn [option_map].
    pose proof (run_vars_nodup _ _ _ _ _ _ _ _ _ _ _ _ _ R) as Hnd. fold vars in Hnd.
    assert (Hcoh : forall w, In w (prop_keys (cat ps)) -> ptr_eq v w = true -> w = v).
    { intros w Hw Ep. assert (Hin : In w vars) by (apply (run_vars_in _ _ _ _ _ _ _ _ _ _ _ _ _ w R); auto).
      apply In_nth_error in Hin as [j Hj]. pose proof (nodup_pos vars Hnd _ _ _ _ Hv Hj Ep) as ->. congruence. }
    pose proof (sr_in _ _ _ _ _ _ _ _ _ _ _ _ _ R) as [_ _ _ _ _ Pu Pl]. rewrite Forall_forall in Pu, Pl.
    destruct (no_box Hord) as [Bl Bu]. split; eexists; (split; [reflexivity|]).
    - apply (bfold_any (fun a b => nleb a b) (no_trans Hord) (no_total Hord) (no_num Hord)).
      + exact (proj2 (no_num Hord _ _ Bu)).
      + intros w b c Hin Ep. apply Hcoh; [exact (Pu (w, b, c) Hin)|exact Ep].
    - apply (bfold_any (fun a b => nleb b a)).
      + intros a b c H1 H2. exact (no_trans Hord _ _ _ H2 H1).
      + intros a b H1 H2 H3. exact (no_total Hord _ _ H2 H1 H3).
      + intros a b H1. destruct (no_num Hord _ _ H1). auto.
      + exact (proj1 (no_num Hord _ _ Bl)).
      + intros w b c Hin Ep. apply Hcoh; [exact (Pl (w, b, c) Hin)|exact Ep].
  Qed.
End TightAny.

Section DualsAny.
  Context {T : Type} `{Num T} `{HashOrd}.
  Hypothesis Hord : @number_order T _.
  Variables (st : mstate T) (m : model T) (sp : std_prob T) (k' : nat).
  Hypothesis Hh : hist any_op st.
  Hypothesis Hm : In m (st_models st).
  Hypothesis E : std_problem m (st_k st) = Ok (sp, k').
  Hypothesis Hnd : NoDup (map cid (md_constraints m)).
  Variables (obj : std_comp T) (cs : cstd T) (slots : list (slot T)).
  Hypothesis Em : model_std m (st_k st) = Ok ((obj, cs), k').
  Hypothesis Hp : arranged (st_k st) m cs sp slots.

  Let CS := combine (md_constraints m) slots.

  Lemma cs_len : length (md_constraints m) = length slots.
  Proof. pose proof (ar_slots _ _ _ _ _ Hp) as F. clear -F. induction F; cbn; [reflexivity|f_equal; assumption]. Qed.
  Lemma cs_ok c sl : In (c, sl) CS -> slot_any (st_k st) cs sp c sl.
  Proof. apply in_combine_F2. exact (ar_slots _ _ _ _ _ Hp). Qed.
  Lemma cs_inj c sl c' sl' : In (c, sl) CS -> In (c', sl') CS -> constr_eqb c c' = true -> c = c' /\ sl = sl'.
  Proof. intros H1 H2 Ec. apply Nat.eqb_eq in Ec. exact (combine_nodup cid _ _ _ _ _ _ Hnd H1 H2 Ec). Qed.
  Lemma cs_of c : In c (md_constraints m) -> exists sl, In (c, sl) CS.
  Proof.
    unfold CS. pose proof cs_len as L. clear -L. revert L. generalize slots as l'. induction (md_constraints m) as [|a l IH]; intros [|b l'] L Hc; cbn in *; try tauto; try discriminate.
    destruct Hc as [->|Hc]; [exists b; auto|]. destruct (IH l') as [sl Hsl]; auto. exists sl. auto.
  Qed.

  (** Entries of the row tables. *)
  Lemma acons_slot r c : In (r, c) (sp_acons sp) -> exists sl, In (c, SRow r sl) CS.
  Proof.
    intros Hin.
    assert (Hw : map fst (sp_acons sp) = seq 0 (length (m_b (base_of (sp_prob sp))))).
    { destruct (C29_well_formed st m (obj, cs) k' Hh Hm Em) as (sp' & E' & Hwf). rewrite E in E'. injection E' as <-. apply Hwf. }
    assert (Hr : In r (flat_map row_no slots)).
    { rewrite (ar_rows _ _ _ _ _ Hp), <- Hw. apply in_map_iff. exists (r, c); auto. }
    rewrite (flat_map_snd row_no _ _ cs_len) in Hr. apply in_flat_map in Hr as ([c' sl] & Hc' & Hr). cbn [snd] in Hr.
    destruct sl as [|r' sl|]; cbn in Hr; try tauto. destruct Hr as [->|[]].
    destruct (cs_ok _ _ Hc') as (_ & Hg & _).
    assert (Hg' : hget Nat.eqb r (sp_acons sp) = Some c).
    { apply hget_nat; [rewrite Hw; apply seq_NoDup|exact Hin]. }
    exists sl. rewrite Hg in Hg'. injection Hg' as <-. exact Hc'.
  Qed.
  Lemma jcons_slot r c : In (r, c) (sp_jcons sp) -> exists sl, In (c, SFun r sl) CS.
  Proof.
    intros Hin.
    assert (Hw : map fst (sp_jcons sp) = seq 0 (length (cs_f cs))).
    { destruct (C29_well_formed st m (obj, cs) k' Hh Hm Em) as (sp' & E' & Hwf). rewrite E in E'. injection E' as <-.
      pose proof (wf_jcons _ Hwf) as W. pose proof (f_equal (@length nat) W) as L. rewrite map_length, seq_length in L.
      rewrite W, <- L, (ar_jcons _ _ _ _ _ Hp). reflexivity. }
    assert (Hr : In r (flat_map fun_no slots)).
    { rewrite (ar_funs _ _ _ _ _ Hp), <- Hw. apply in_map_iff. exists (r, c); auto. }
    rewrite (flat_map_snd fun_no _ _ cs_len) in Hr. apply in_flat_map in Hr as ([c' sl] & Hc' & Hr). cbn [snd] in Hr.
    destruct sl as [| |r' sl]; cbn in Hr; try tauto. destruct Hr as [->|[]].
    destruct (cs_ok _ _ Hc') as (_ & Hg & _).
    assert (Hg' : hget Nat.eqb r (sp_jcons sp) = Some c).
    { apply hget_nat; [rewrite Hw; apply seq_NoDup|exact Hin]. }
    exists sl. rewrite Hg in Hg'. injection Hg' as <-. exact Hc'.
  Qed.

  (** Slacks are new; the variables of bound constraints are not. *)
  Lemma old_var v c : In c (md_constraints m) -> occurs v (clhs c) \/ occurs v (crhs c) -> nid v < st_k st.
  Proof.
    intros Hc Hv. destruct (hist_inv false st Hh) as (S & Hi).
    pose proof (hi_models _ _ _ Hi) as G. rewrite Forall_forall in G. destruct (G m Hm) as (Mi & _ & _).
    pose proof (hi_world _ _ _ Hi) as HW.
    pose proof (mi_cons _ _ Mi) as HC. rewrite Forall_forall in HC. destruct (HC c Hc) as [S1 S2].
    destruct Hv as [[_ Hv]|[_ Hv]]; apply (w_lt _ _ _ HW); [exact (world_sub _ _ _ _ _ HW S1 Hv)|exact (world_sub _ _ _ _ _ HW S2 Hv)].
  Qed.

  Lemma bound_old c v r : In (c, SBound v r) CS -> nid v < st_k st.
  Proof.
    intros Hin. destruct (cs_ok _ _ Hin) as (_ & _ & _ & Hv).
    apply (old_var v c (in_combine_l _ _ _ _ Hin)). apply (Hv v). reflexivity.
  Qed.
  Lemma bnd_var v b c : In (v, b, c) (cs_u cs) \/ In (v, b, c) (cs_l cs) -> exists i, In (v, i) (sp_var2index sp).
  Proof.
    intros Hin.
    destruct (hist_run st m sp k' Hh Hm E) as (S & obj' & S' & eo & ke & ko & ps & ar & jr & uc & lc & Hi & Mi & HW & Em' & R & Esp & _).
    rewrite Em in Em'. injection Em' as <- Ec.
    pose proof (sr_in _ _ _ _ _ _ _ _ _ _ _ _ _ R) as [_ _ _ _ _ Pu Pl]. rewrite Forall_forall in Pu, Pl.
    assert (Hv : In v (prop_keys (cat ps))) by (rewrite <- Ec in *; destruct Hin as [Hin|Hin]; [apply (Pu _ Hin)|apply (Pl _ Hin)]).
    assert (Hin' : In v (problem_vars k' obj (cat ps))) by (apply (run_vars_in _ _ _ _ _ _ _ _ _ _ _ _ _ v R); auto).
    apply In_nth_error in Hin' as [i Hin']. exists i. rewrite Esp. cbn [sp_var2index]. apply enum_in. exact Hin'.
  Qed.
  Lemma v2i_fun v w i : In (v, i) (sp_var2index sp) -> In (w, i) (sp_var2index sp) -> v = w.
  Proof.
    destruct (C24_bijection st m sp k' Hh Hm E (no_minus Hord)) as (B & _). intros H1 H2.
    assert (Hn : NoDup (map snd (sp_var2index sp))) by (rewrite B; apply seq_NoDup).
    clear -Hn H1 H2. induction (sp_var2index sp) as [|[a j] l IH]; cbn in *; [tauto|].
    apply NoDup_cons_iff in Hn as [Hj Hn]. destruct H1 as [H1|H1], H2 as [H2|H2]; auto.
    - congruence.
    - injection H1 as -> ->. exfalso. apply Hj. apply in_map_iff. exists (w, i); auto.
    - injection H2 as -> ->. exfalso. apply Hj. apply in_map_iff. exists (v, i); auto.
  Qed.
  Lemma v2i_inj v i j : In (v, i) (sp_var2index sp) -> In (v, j) (sp_var2index sp) -> i = j.
  Proof. intros H1 H2. destruct (C24_bijection st m sp k' Hh Hm E (no_minus Hord)) as (_ & B & _). exact (proj2 (B _ _ _ _ H1 H2 eq_refl)). Qed.
  Lemma slack_new c sl s : In (c, sl) CS -> slack_of sl = [s] -> st_k st <= nid s /\ bounds_with cs c s n0.
  Proof.
    intros Hin Hs. pose proof (cs_ok _ _ Hin) as Ho.
    destruct sl as [v b|r [v|]|r [v|]]; cbn in Hs; try discriminate; injection Hs as ->; destruct Ho as (_ & _ & (Hk & _ & Hb) & _); auto.
  Qed.
  Lemma slack_inj c sl c' sl' s : In (c, sl) CS -> In (c', sl') CS -> slack_of sl = [s] -> slack_of sl' = [s] -> c = c' /\ sl = sl'.
  Proof.
    intros H1 H2 S1 S2. pose proof (ar_slacks _ _ _ _ _ Hp) as Hn. rewrite (flat_map_snd slack_of _ _ cs_len) in Hn.
    pose proof (flat_nodup _ _ (c, sl) (c', sl') s Hn H1 H2) as G. cbn [snd] in G. rewrite S1, S2 in G.
    specialize (G (or_introl eq_refl) (or_introl eq_refl)). injection G as -> ->. auto.
  Qed.
  Let Hplu : cs_u cs = uppers m slots := ar_uppers _ _ _ _ _ Hp.
  Let Hpll : cs_l cs = lowers m slots := ar_lowers _ _ _ _ _ Hp.

  Lemma ucons_slot i c : In (i, c) (sp_ucons sp) ->
    exists v sl, In (v, i) (sp_var2index sp) /\ In (c, sl) CS /\ ckd c = LessEqual /\
      ((exists r, sl = SBound v r) \/ slack_of sl = [v]).
  Proof.
    intros Hin. destruct (C29_well_formed st m (obj, cs) k' Hh Hm Em) as (sp' & E' & Hwf). rewrite E in E'. injection E' as <-.
    destruct (wf_ucons _ Hwf) as [Wn Wl]. rewrite Forall_forall in Wl.
    assert (Hi : i < m_nx (base_of (sp_prob sp))).
    { rewrite (nx_any st m sp k' Hord Hh Hm E). apply Wl. apply in_map_iff. exists (i, c); auto. }
    destruct (var_any st m sp k' Hord Hh Hm E i Hi) as [v Hv]. exists v.
    destruct (tightest_any st m sp k' obj cs slots Hord Hh Hm E Em Hp v i Hv) as ((x & Ex & _ & _ & Hc) & _).
    assert (Hg : hget Nat.eqb i (sp_ucons sp) = Some c).
    { apply hget_nat; [exact Wn|exact Hin]. }
    rewrite Hg in Hc. destruct Hc as (l1 & l2 & EL & _).
    assert (Hu : In (v, x, c) (uppers m slots)) by (rewrite EL; apply in_or_app; cbn; auto).
    apply in_flat_map in Hu as ([c' sl] & Hin' & Hu). exists sl. split; [exact Hv|].
    unfold upper_of in Hu. cbn [fst snd] in Hu.
    destruct (ckd c') eqn:Ek, sl as [v' b|r [s|]|r [s|]]; cbn [In] in Hu; try tauto; destruct Hu as [Hu|[]]; injection Hu as -> Hb ->;
      (split; [exact Hin'|]; split; [exact Ek|]); try (right; reflexivity). left. exists x. rewrite Hb. reflexivity.
  Qed.
  Lemma uslack c sl s : In (c, sl) CS -> ckd c = LessEqual -> slack_of sl = [s] ->
    exists i, In (s, i) (sp_var2index sp) /\ In (i, c) (sp_ucons sp).
  Proof.
    intros Hin Ek Hs. destruct (slack_new c sl s Hin Hs) as (Hnew & Hb). unfold bounds_with in Hb. rewrite Ek in Hb.
    destruct (bnd_var s n0 c) as [i Hi]; [auto|]. exists i. split; [exact Hi|].
    destruct (tightest_any st m sp k' obj cs slots Hord Hh Hm E Em Hp s i Hi) as ((x & Ex & _ & _ & Hc) & _).
    destruct (hget Nat.eqb i (sp_ucons sp)) as [c'|] eqn:Hg.
    - apply hget_some_in in Hg as (j & Hj & Ej). apply Nat.eqb_eq in Ej. subst j.
      destruct (ucons_slot i c' Hj) as (v & sl' & Hv & Hin' & _ & Hsl).
      pose proof (v2i_fun _ _ _ Hv Hi) as ->. destruct Hsl as [(r & ->)|Hsl].
      + exfalso. exact (Nat.lt_irrefl _ (Nat.lt_le_trans _ _ _ (bound_old _ _ _ Hin') Hnew)).
      + destruct (slack_inj c sl c' sl' s) as [-> ->]; auto.
    - destruct Hc as [_ Hc]. rewrite <- (Hplu) in Hc. specialize (Hc _ _ Hb). pose proof (proj2 (no_box Hord)) as G. rewrite Hc in G. discriminate.
  Qed.
  Lemma lcons_slot i c : In (i, c) (sp_lcons sp) ->
    exists v sl, In (v, i) (sp_var2index sp) /\ In (c, sl) CS /\ ckd c = GreaterEqual /\
      ((exists r, sl = SBound v r) \/ slack_of sl = [v]).
  Proof.
    intros Hin. destruct (C29_well_formed st m (obj, cs) k' Hh Hm Em) as (sp' & E' & Hwf). rewrite E in E'. injection E' as <-.
    destruct (wf_lcons _ Hwf) as [Wn Wl]. rewrite Forall_forall in Wl.
    assert (Hi : i < m_nx (base_of (sp_prob sp))).
    { rewrite (nx_any st m sp k' Hord Hh Hm E). apply Wl. apply in_map_iff. exists (i, c); auto. }
    destruct (var_any st m sp k' Hord Hh Hm E i Hi) as [v Hv]. exists v.
    destruct (tightest_any st m sp k' obj cs slots Hord Hh Hm E Em Hp v i Hv) as (_ & (x & Ex & _ & _ & Hc)).
    assert (Hg : hget Nat.eqb i (sp_lcons sp) = Some c).
    { apply hget_nat; [exact Wn|exact Hin]. }
    rewrite Hg in Hc. destruct Hc as (l1 & l2 & EL & _).
    assert (Hu : In (v, x, c) (lowers m slots)) by (rewrite EL; apply in_or_app; cbn; auto).
    apply in_flat_map in Hu as ([c' sl] & Hin' & Hu). exists sl. split; [exact Hv|].
    unfold lower_of in Hu. cbn [fst snd] in Hu.
    destruct (ckd c') eqn:Ek, sl as [v' b|r [s|]|r [s|]]; cbn [In] in Hu; try tauto; destruct Hu as [Hu|[]]; injection Hu as -> Hb ->;
      (split; [exact Hin'|]; split; [exact Ek|]); try (right; reflexivity). left. exists x. rewrite Hb. reflexivity.
  Qed.
  Lemma lslack c sl s : In (c, sl) CS -> ckd c = GreaterEqual -> slack_of sl = [s] ->
    exists i, In (s, i) (sp_var2index sp) /\ In (i, c) (sp_lcons sp).
  Proof.
    intros Hin Ek Hs. destruct (slack_new c sl s Hin Hs) as (Hnew & Hb). unfold bounds_with in Hb. rewrite Ek in Hb.
    destruct (bnd_var s n0 c) as [i Hi]; [auto|]. exists i. split; [exact Hi|].
    destruct (tightest_any st m sp k' obj cs slots Hord Hh Hm E Em Hp s i Hi) as (_ & (x & Ex & _ & _ & Hc)).
    destruct (hget Nat.eqb i (sp_lcons sp)) as [c'|] eqn:Hg.
    - apply hget_some_in in Hg as (j & Hj & Ej). apply Nat.eqb_eq in Ej. subst j.
      destruct (lcons_slot i c' Hj) as (v & sl' & Hv & Hin' & _ & Hsl).
      pose proof (v2i_fun _ _ _ Hv Hi) as ->. destruct Hsl as [(r & ->)|Hsl].
      + exfalso. exact (Nat.lt_irrefl _ (Nat.lt_le_trans _ _ _ (bound_old _ _ _ Hin') Hnew)).
      + destruct (slack_inj c sl c' sl' s) as [-> ->]; auto.
    - destruct Hc as [_ Hc]. rewrite <- (Hpll) in Hc. specialize (Hc _ _ Hb). pose proof (proj1 (no_box Hord)) as G. rewrite Hc in G. discriminate.
  Qed.
  Variables (stat : status) (s : sol T) (m' : model T).
  Hypothesis Hrec : recorded k' sp stat s m m'.

  (** The tasks of a constraint. *)
  Lemma task_cases ts : In ts (dual_tasks k' sp s) ->
    exists i c, snd ts = (i, c) /\
    ((fst ts = s_lam s /\ In (i, c) (sp_acons sp)) \/ (fst ts = s_nu s /\ In (i, c) (sp_jcons sp)) \/
     (fst ts = s_mu s /\ In (i, c) (sp_ucons sp)) \/ (fst ts = s_pi s /\ In (i, c) (sp_lcons sp))).
  Proof.
    destruct ts as [d [i c]]. intros Hin. exists i, c. split; [reflexivity|]. cbn [fst]. unfold dual_tasks in Hin. rewrite !in_app_iff, !in_map_iff in Hin.
    destruct Hin as [(x & Ex & Hin)|[(x & Ex & Hin)|[(x & Ex & Hin)|(x & Ex & Hin)]]]; injection Ex as <- ->;
      apply (Permutation_in _ (ord_perm _ _ _ _)) in Hin; auto.
  Qed.
  Lemma bound_tasks ts : In ts (map (pair (s_mu s)) (ord 13 k' (sp_ucons sp)) ++ map (pair (s_pi s)) (ord 14 k' (sp_lcons sp))) ->
    exists i c, snd ts = (i, c) /\
    ((fst ts = s_mu s /\ In (i, c) (sp_ucons sp)) \/ (fst ts = s_pi s /\ In (i, c) (sp_lcons sp))).
  Proof.
    destruct ts as [d [i c]]. intros Hin. exists i, c. split; [reflexivity|]. cbn [fst]. rewrite !in_app_iff, !in_map_iff in Hin.
    destruct Hin as [(x & Ex & Hin)|(x & Ex & Hin)]; injection Ex as <- ->;
      apply (Permutation_in _ (ord_perm _ _ _ _)) in Hin; auto.
  Qed.
  Lemma tasks_in d i c : 
    (d = s_lam s /\ In (i, c) (sp_acons sp)) \/ (d = s_nu s /\ In (i, c) (sp_jcons sp)) \/
    (d = s_mu s /\ In (i, c) (sp_ucons sp)) \/ (d = s_pi s /\ In (i, c) (sp_lcons sp)) -> In (d, (i, c)) (dual_tasks k' sp s).
  Proof.
    intros Hin. unfold dual_tasks. rewrite !in_app_iff, !in_map_iff.
    assert (P : forall site (l : list (nat * constraint T)) x, In x l -> In x (ord site k' l)).
    { intros site l x Hx. exact (Permutation_in _ (Permutation_sym (ord_perm _ _ _ _)) Hx). }
    destruct Hin as [(-> & Hin)|[(-> & Hin)|[(-> & Hin)|(-> & Hin)]]]; eauto 10.
  Qed.
  Lemma tval_some ts : In ts (dual_tasks k' sp s) -> tval ts <> None.
  Proof. pose proof (rc_tasks _ _ _ _ _ _ Hrec) as F. rewrite Forall_forall in F. apply F. Qed.

  Lemma dual_ok c sl : In (c, sl) CS -> dual_of sp s c sl (hget constr_eqb c (md_duals m')).
  Proof.
    intros Hin. pose proof (cs_ok _ _ Hin) as Ho.
    (* every task for c comes from its slot *)
    assert (TA : forall i c', In (i, c') (sp_acons sp) -> constr_eqb c c' = true -> exists o, sl = SRow i o).
    { intros i c' Hi Ec. destruct (acons_slot i c' Hi) as [o Hi']. exists o. exact (proj2 (cs_inj _ _ _ _ Hin Hi' Ec)). }
    assert (TJ : forall i c', In (i, c') (sp_jcons sp) -> constr_eqb c c' = true -> exists o, sl = SFun i o).
    { intros i c' Hi Ec. destruct (jcons_slot i c' Hi) as [o Hi']. exists o. exact (proj2 (cs_inj _ _ _ _ Hin Hi' Ec)). }
    assert (TU : forall i c', In (i, c') (sp_ucons sp) -> constr_eqb c c' = true -> c = c' /\ ckd c = LessEqual /\ exists v,
                   In (v, i) (sp_var2index sp) /\ ((exists r, sl = SBound v r) \/ slack_of sl = [v])).
    { intros i c' Hi Ec. destruct (ucons_slot i c' Hi) as (v & sl' & Hv & Hi' & Ek & Hs).
      destruct (cs_inj _ _ _ _ Hin Hi' Ec) as [<- <-]. eauto. }
    assert (TL : forall i c', In (i, c') (sp_lcons sp) -> constr_eqb c c' = true -> c = c' /\ ckd c = GreaterEqual /\ exists v,
                   In (v, i) (sp_var2index sp) /\ ((exists r, sl = SBound v r) \/ slack_of sl = [v])).
    { intros i c' Hi Ec. destruct (lcons_slot i c' Hi) as (v & sl' & Hv & Hi' & Ek & Hs).
      destruct (cs_inj _ _ _ _ Hin Hi' Ec) as [<- <-]. eauto. }
    (* equality rows *)
    assert (Heq : forall d i, ckd c = Equal -> In (d, (i, c)) (dual_tasks k' sp s) ->
              (forall ts, In ts (dual_tasks k' sp s) -> constr_eqb c (tcon ts) = true -> tval ts = nth_error d i) ->
              hget constr_eqb c (md_duals m') = nth_error d i /\ hget constr_eqb c (md_duals m') <> None).
    { intros d i Ek Ht Hu.
      assert (Eg : hget constr_eqb c (md_duals m') = tval (d, (i, c))).
      { apply (rc_last _ _ _ _ _ _ Hrec [] (dual_tasks k' sp s)); auto. apply constr_eqb_refl. }
      rewrite Eg. split; [reflexivity|]. apply tval_some. exact Ht. }
    (* slacks *)
    assert (Hslk : forall v, slack_of sl = [v] ->
        (ckd c = LessEqual -> exists i, In (v, i) (sp_var2index sp) /\
            hget constr_eqb c (md_duals m') = nth_error (s_mu s) i /\ hget constr_eqb c (md_duals m') <> None) /\
        (ckd c = GreaterEqual -> exists i, In (v, i) (sp_var2index sp) /\
            hget constr_eqb c (md_duals m') = nth_error (s_pi s) i /\ hget constr_eqb c (md_duals m') <> None)).
    { intros v Hs. split; intros Ek.
      - destruct (uslack c sl v Hin Ek Hs) as (i & Hi & Hc). exists i. split; [exact Hi|].
        assert (Eg : hget constr_eqb c (md_duals m') = tval (s_mu s, (i, c))).
        { unfold dual_tasks in *.
          eapply (rc_last _ _ _ _ _ _ Hrec (map (pair (s_lam s)) (ord 11 k' (sp_acons sp)) ++ map (pair (s_nu s)) (ord 12 k' (sp_jcons sp)))).
          - unfold dual_tasks. rewrite <- app_assoc. reflexivity.
          - apply in_or_app. left. apply in_map. exact (Permutation_in _ (Permutation_sym (ord_perm _ _ _ _)) Hc).
          - apply constr_eqb_refl.
          - intros ts Hts Ec. apply bound_tasks in Hts as (j & c' & Ets & Hts). unfold tval, tcon in *. rewrite Ets in *. cbn [fst snd] in *.
            destruct Hts as [[-> Hts]|[-> Hts]].
            + destruct (TU j c' Hts Ec) as (_ & _ & w & Hw & [(r & ->)|Hs']); [discriminate|].
              rewrite Hs in Hs'. injection Hs' as <-. rewrite (v2i_inj _ _ _ Hi Hw). reflexivity.
            + destruct (TL j c' Hts Ec) as (_ & Ek' & _). congruence. }
        rewrite Eg. split; [reflexivity|]. apply tval_some. apply tasks_in. auto.
      - destruct (lslack c sl v Hin Ek Hs) as (i & Hi & Hc). exists i. split; [exact Hi|].
        assert (Eg : hget constr_eqb c (md_duals m') = tval (s_pi s, (i, c))).
        { unfold dual_tasks in *.
          eapply (rc_last _ _ _ _ _ _ Hrec (map (pair (s_lam s)) (ord 11 k' (sp_acons sp)) ++ map (pair (s_nu s)) (ord 12 k' (sp_jcons sp)))).
          - unfold dual_tasks. rewrite <- app_assoc. reflexivity.
          - apply in_or_app. right. apply in_map. exact (Permutation_in _ (Permutation_sym (ord_perm _ _ _ _)) Hc).
          - apply constr_eqb_refl.
          - intros ts Hts Ec. apply bound_tasks in Hts as (j & c' & Ets & Hts). unfold tval, tcon in *. rewrite Ets in *. cbn [fst snd] in *.
            destruct Hts as [[-> Hts]|[-> Hts]].
            + destruct (TU j c' Hts Ec) as (_ & Ek' & _). congruence.
            + destruct (TL j c' Hts Ec) as (_ & _ & w & Hw & [(r & ->)|Hs']); [discriminate|].
              rewrite Hs in Hs'. injection Hs' as <-. rewrite (v2i_inj _ _ _ Hi Hw). reflexivity. }
        rewrite Eg. split; [reflexivity|]. apply tval_some. apply tasks_in. auto. }
    unfold dual_of. destruct sl as [v b|r [v|]|r [v|]].
    - (* a bound *)
      destruct Ho as (_ & Hb & _). unfold bounds_with in Hb. destruct (ckd c) eqn:Ek; [destruct Hb| |].
      + destruct (bnd_var v b c (or_introl Hb)) as [i Hi]. exists i. split; [exact Hi|].
        assert (Ht : forall ts, In ts (dual_tasks k' sp s) -> constr_eqb c (tcon ts) = true -> snd ts = (i, c) /\ fst ts = s_mu s /\ In (i, c) (sp_ucons sp)).
        { intros ts Hts Ec. apply task_cases in Hts as (j & c' & Ets & Hts). unfold tcon in Ec. rewrite Ets in *. cbn [snd] in Ec.
          destruct Hts as [[_ Hts]|[[_ Hts]|[[Ef Hts]|[_ Hts]]]].
          - destruct (TA _ _ Hts Ec) as [o Eo]. discriminate.
          - destruct (TJ _ _ Hts Ec) as [o Eo]. discriminate.
          - destruct (TU _ _ Hts Ec) as (-> & _ & w & Hw & [(r & Eb)|Hs]); [|discriminate]. injection Eb as -> ->.
            pose proof (v2i_inj _ _ _ Hi Hw) as ->. auto.
          - destruct (TL _ _ Hts Ec) as (_ & Ek' & _). congruence. }
        split; intros Hc.
        * apply hget_some_in in Hc as (j & Hj & Ej). apply Nat.eqb_eq in Ej. subst j.
          assert (Hin' : In (s_mu s, (i, c)) (dual_tasks k' sp s)) by (apply tasks_in; auto).
          assert (Eg : hget constr_eqb c (md_duals m') = tval (s_mu s, (i, c))).
          { apply (rc_last _ _ _ _ _ _ Hrec [] (dual_tasks k' sp s)); auto; [apply constr_eqb_refl|].
            intros ts Hts Ec. destruct (Ht ts Hts Ec) as (E1 & E2 & _). unfold tval. rewrite E1, E2. reflexivity. }
          rewrite Eg. split; [reflexivity|apply tval_some; exact Hin'].
        * apply (rc_none _ _ _ _ _ _ Hrec). intros ts Hts. apply not_true_is_false. intros Ec.
          destruct (Ht ts Hts Ec) as (_ & _ & Hic). apply Hc. apply hget_nat; [|exact Hic].
          destruct (C29_well_formed st m (obj, cs) k' Hh Hm Em) as (sp' & E' & Hwf). rewrite E in E'. injection E' as <-. apply (wf_ucons _ Hwf).
      + destruct (bnd_var v b c (or_intror Hb)) as [i Hi]. exists i. split; [exact Hi|].
        assert (Ht : forall ts, In ts (dual_tasks k' sp s) -> constr_eqb c (tcon ts) = true -> snd ts = (i, c) /\ fst ts = s_pi s /\ In (i, c) (sp_lcons sp)).
        { intros ts Hts Ec. apply task_cases in Hts as (j & c' & Ets & Hts). unfold tcon in Ec. rewrite Ets in *. cbn [snd] in Ec.
          destruct Hts as [[_ Hts]|[[_ Hts]|[[_ Hts]|[Ef Hts]]]].
          - destruct (TA _ _ Hts Ec) as [o Eo]. discriminate.
          - destruct (TJ _ _ Hts Ec) as [o Eo]. discriminate.
          - destruct (TU _ _ Hts Ec) as (_ & Ek' & _). congruence.
          - destruct (TL _ _ Hts Ec) as (-> & _ & w & Hw & [(r & Eb)|Hs]); [|discriminate]. injection Eb as -> ->.
            pose proof (v2i_inj _ _ _ Hi Hw) as ->. auto. }
        split; intros Hc.
        * apply hget_some_in in Hc as (j & Hj & Ej). apply Nat.eqb_eq in Ej. subst j.
          assert (Hin' : In (s_pi s, (i, c)) (dual_tasks k' sp s)) by (apply tasks_in; auto).
          assert (Eg : hget constr_eqb c (md_duals m') = tval (s_pi s, (i, c))).
          { apply (rc_last _ _ _ _ _ _ Hrec [] (dual_tasks k' sp s)); auto; [apply constr_eqb_refl|].
            intros ts Hts Ec. destruct (Ht ts Hts Ec) as (E1 & E2 & _). unfold tval. rewrite E1, E2. reflexivity. }
          rewrite Eg. split; [reflexivity|apply tval_some; exact Hin'].
        * apply (rc_none _ _ _ _ _ _ Hrec). intros ts Hts. apply not_true_is_false. intros Ec.
          destruct (Ht ts Hts Ec) as (_ & _ & Hic). apply Hc. apply hget_nat; [|exact Hic].
          destruct (C29_well_formed st m (obj, cs) k' Hh Hm Em) as (sp' & E' & Hwf). rewrite E in E'. injection E' as <-. apply (wf_lcons _ Hwf).
    - destruct (Hslk v eq_refl) as [H1 H2]. destruct Ho as (_ & _ & (_ & _ & Hb) & _). unfold bounds_with in Hb. destruct (ckd c); auto.
    - destruct Ho as (_ & Hg & Hk & _). cbn in Hk. rewrite Hk. apply hget_some_in in Hg as (j & Hj & Ej). apply Nat.eqb_eq in Ej. subst j.
      apply Heq; [exact Hk|apply tasks_in; auto|].
      intros ts Hts Ec. apply task_cases in Hts as (j & c' & Ets & Hts). unfold tval, tcon in *. rewrite Ets in *. cbn [fst snd] in *.
      destruct Hts as [[-> Hts]|[[_ Hts]|[[_ Hts]|[_ Hts]]]].
      + destruct (TA _ _ Hts Ec) as [o Eo]. injection Eo as <- _. reflexivity.
      + destruct (TJ _ _ Hts Ec) as [o Eo]. discriminate.
      + destruct (TU _ _ Hts Ec) as (_ & Ek' & _). congruence.
      + destruct (TL _ _ Hts Ec) as (_ & Ek' & _). congruence.
    - destruct (Hslk v eq_refl) as [H1 H2]. destruct Ho as (_ & _ & (_ & _ & Hb) & _). unfold bounds_with in Hb. destruct (ckd c); auto.
    - destruct Ho as (_ & Hg & Hk & _). cbn in Hk. rewrite Hk. apply hget_some_in in Hg as (j & Hj & Ej). apply Nat.eqb_eq in Ej. subst j.
      apply Heq; [exact Hk|apply tasks_in; auto|].
      intros ts Hts Ec. apply task_cases in Hts as (j & c' & Ets & Hts). unfold tval, tcon in *. rewrite Ets in *. cbn [fst snd] in *.
      destruct Hts as [[_ Hts]|[[-> Hts]|[[_ Hts]|[_ Hts]]]].
      + destruct (TA _ _ Hts Ec) as [o Eo]. discriminate.
      + destruct (TJ _ _ Hts Ec) as [o Eo]. injection Eo as <- _. reflexivity.
      + destruct (TU _ _ Hts Ec) as (_ & Ek' & _). congruence.
      + destruct (TL _ _ Hts Ec) as (_ & Ek' & _). congruence.
  Qed.
  Lemma dual_keys c : In c (map fst (md_duals m')) -> In c (md_constraints m).
  Proof.
    intros Hc. apply (rc_keys _ _ _ _ _ _ Hrec) in Hc. apply in_map_iff in Hc as (ts & <- & Hts).
    apply task_cases in Hts as (i & c & Ets & Hts). unfold tcon. rewrite Ets. cbn [snd].
    destruct Hts as [[_ Hts]|[[_ Hts]|[[_ Hts]|[_ Hts]]]].
    - destruct (acons_slot _ _ Hts) as (sl & Hi). exact (in_combine_l _ _ _ _ Hi).
    - destruct (jcons_slot _ _ Hts) as (sl & Hi). exact (in_combine_l _ _ _ _ Hi).
    - destruct (ucons_slot _ _ Hts) as (v & sl & _ & Hi & _). exact (in_combine_l _ _ _ _ Hi).
    - destruct (lcons_slot _ _ Hts) as (v & sl & _ & Hi & _). exact (in_combine_l _ _ _ _ Hi).
  Qed.
End DualsAny.

(** ** C67 Which numbers *)
(** What the comparison of binary64 numbers decides, case by case. *)
Definition sf_le (a b : spec_float) : Prop :=
  match a, b with
  | S754_nan, _ | _, S754_nan => False
  | S754_infinity true, _ | _, S754_infinity false => True
  | S754_infinity false, _ | _, S754_infinity true => False
  | S754_zero _, S754_zero _ => True
  | S754_zero _, S754_finite s _ _ => s = false
  | S754_finite s _ _, S754_zero _ => s = true
  | S754_finite false m e, S754_finite false n f => (e < f \/ e = f /\ Z.pos m <= Z.pos n)%Z
  | S754_finite true m e, S754_finite true n f => (f < e \/ e = f /\ Z.pos n <= Z.pos m)%Z
  | S754_finite true _ _, S754_finite false _ _ => True
  | S754_finite false _ _, S754_finite true _ _ => False
  end.
Lemma sfleb_le a b : SFleb a b = true <-> sf_le a b.
Proof.
  unfold SFleb. destruct a as [s|[]| |[] m e], b as [t|[]| |[] n f]; cbn [SFcompare sf_le]; try (intuition congruence);
    try (destruct s; intuition congruence); try (destruct t; intuition congruence);
    change (Pos.compare_cont Eq m n) with (Pos.compare m n); destruct (Z.compare_spec e f) as [->|Hlt|Hlt];
    try (cbn; intuition (try congruence; try lia); fail);
    destruct (Pos.compare_spec m n) as [->|Hl|Hl]; cbn [CompOpp]; intuition (try congruence; try lia).
Qed.
Lemma sfleb_trans a b c : SFleb a b = true -> SFleb b c = true -> SFleb a c = true.
Proof.
  rewrite !sfleb_le. destruct a as [s|[]| |[] m e], b as [t|[]| |[] n f], c as [w|[]| |[] p g]; cbn; intuition (try congruence; try lia).
Qed.
Lemma sfleb_total a b : SFleb a a = true -> SFleb b b = true -> SFleb a b = false -> SFleb b a = true.
Proof.
  intros Ha Hb Hab. apply sfleb_le in Ha, Hb. apply sfleb_le. assert (Hn : ~ sf_le a b) by (rewrite <- sfleb_le; congruence). clear Hab.
  destruct a as [s|[]| |[] m e], b as [t|[]| |[] n f]; cbn in *; intuition (try congruence; try lia).
Qed.
Lemma sfleb_num a b : SFleb a b = true -> SFleb a a = true /\ SFleb b b = true.
Proof.
  rewrite !sfleb_le. destruct a as [s|[]| |[] m e], b as [t|[]| |[] n f]; cbn; intuition (try congruence; try lia).
Qed.

Theorem C67_binary64 fsin fcos : @number_order F (NumF fsin fcos).
Proof.
  constructor.
  - exact sfleb_trans.
  - exact sfleb_total.
  - exact sfleb_num.
  - split; vm_compute; reflexivity.
  - vm_compute. reflexivity.
Qed.
Theorem C67_exact : @number_order X _.
Proof.
  constructor.
  - intros [a|] [b|] [c|]; cbn; try discriminate. destruct (Rle_dec a b), (Rle_dec b c), (Rle_dec a c); try discriminate; auto. exfalso. lra.
  - intros [a|] [b|]; cbn; try discriminate. destruct (Rle_dec a b), (Rle_dec b a); try discriminate; auto. exfalso. lra.
  - intros [a|] [b|]; cbn; try discriminate. intros _. split; [destruct (Rle_dec a a)|destruct (Rle_dec b b)]; auto; exfalso; lra.
  - split; cbn; match goal with |- (if ?d then _ else _) = _ => destruct d as [|G]; [reflexivity|exfalso; apply G; lra] end.
  - exact x_nm1.
Qed.

Section Main.
  Context {T : Type} `{Num T} `{HashOrd}.

  (** ** C67 Arrangement
      Every constraint has one place, decided by whether its sides are affine; a row has entries
      exactly for the variables of its constraint and its slack, and the columns of the problem are
      the variables of the model and the slacks. *)
  Theorem C67_arranged (st : mstate T) m sp k' :
    hist any_op st -> In m (st_models st) -> std_problem m (st_k st) = Ok (sp, k') -> neqb (@nm1 T _) n0 = false ->
    exists obj cs slots,
      model_std m (st_k st) = Ok ((obj, cs), k') /\ arranged (st_k st) m cs sp slots /\
      (forall v, In v (map fst (sp_var2index sp)) <-> model_var m v \/ In v (flat_map slack_of slots)).
  Proof. intros Hh Hm E Hnm. destruct (arranged_code st m sp k' Hh Hm E Hnm) as (obj & cs & slots & A & B & C & _). eauto 8. Qed.

  (** ** C67 The bounds
      Of every variable, the tightest that a constraint states and the default allows. *)
  Theorem C67_tightest (st : mstate T) m sp k' :
    @number_order T _ -> hist any_op st -> In m (st_models st) -> std_problem m (st_k st) = Ok (sp, k') ->
    exists obj cs slots, model_std m (st_k st) = Ok ((obj, cs), k') /\ arranged (st_k st) m cs sp slots /\
      forall v i, In (v, i) (sp_var2index sp) ->
        (exists u, nth_error (m_u (base_of (sp_prob sp))) i = Some u /\
                   tightest (fun a b => nleb a b) INF v u (hget Nat.eqb i (sp_ucons sp)) (uppers m slots)) /\
        (exists l, nth_error (m_l (base_of (sp_prob sp))) i = Some l /\
                   tightest (fun a b => nleb b a) (nneg INF) v l (hget Nat.eqb i (sp_lcons sp)) (lowers m slots)).
  Proof.
    intros Hord Hh Hm E. destruct (arranged_code st m sp k' Hh Hm E (no_minus Hord)) as (obj & cs & slots & Em & Hp & _).
    exists obj, cs, slots. split; [exact Em|]. split; [exact Hp|]. exact (tightest_any st m sp k' obj cs slots Hord Hh Hm E Em Hp).
  Qed.

  (** ** C67 The multipliers
      Every constraint gets the multiplier of its place (see [dual_of]). *)
  Theorem C67_duals (st : mstate T) solver m m' k' :
    @number_order T _ -> hist any_op st -> In m (st_models st) -> solve solver m (st_k st) = (m', Returned (inl tt), k') ->
    NoDup (map cid (md_constraints m)) ->
    exists sp stat s obj cs slots,
      std_problem m (st_k st) = Ok (sp, k') /\ solver (sp_prob sp) = Ok (inl (stat, s)) /\
      model_std m (st_k st) = Ok ((obj, cs), k') /\ arranged (st_k st) m cs sp slots /\
      Forall2 (fun c sl => dual_of sp s c sl (hget constr_eqb c (md_duals m'))) (md_constraints m) slots /\
      (forall c, In c (map fst (md_duals m')) -> In c (md_constraints m)).
  Proof.
    intros Hord Hh Hm E Hnd. destruct (solve_ok _ _ _ _ _ E) as (sp & stat & s & Esp & Es & Er).
    pose proof (record_spec _ _ _ _ _ _ Er (hist_v2i_nodup st m sp k' Hh Hm Esp)) as Hrec.
    destruct (arranged_code st m sp k' Hh Hm Esp (no_minus Hord)) as (obj & cs & slots & Em & Hp & _).
    exists sp, stat, s, obj, cs, slots. repeat (split; [assumption|]). split.
    - apply F2_combine; [eapply cs_len; eauto|]. intros c sl Hin.
      exact (dual_ok Hord st m sp k' Hh Hm Esp Hnd obj cs slots Em Hp stat s m' Hrec c sl Hin).
    - intros c. exact (dual_keys Hord st m sp k' Hh Hm Esp obj cs slots Em Hp stat s m' Hrec c).
  Qed.

  (** ** C67 Sizes
      A problem has at most one column per variable of the model and per constraint, and
      at most one row or function per constraint. *)
  Theorem C67_sizes (st : mstate T) m sp k' vars :
    neqb (@nm1 T _) n0 = false -> hist any_op st -> In m (st_models st) -> std_problem m (st_k st) = Ok (sp, k') ->
    (forall v, model_var m v -> In v vars) ->
    m_nx (base_of (sp_prob sp)) <= length vars + length (md_constraints m) /\
    m_na (base_of (sp_prob sp)) + m_nf (base_of (sp_prob sp)) <= length (md_constraints m).
  Proof.
    intros Hnm Hh Hm E Hv.
    destruct (C67_arranged st m sp k' Hh Hm E Hnm) as (obj & cs & slots & Em & Hp & Hin).
    destruct (C24_bijection st m sp k' Hh Hm E Hnm) as (Hidx & Hinj & _).
    assert (Ls : length slots = length (md_constraints m)) by (pose proof (ar_slots _ _ _ _ _ Hp) as HF; clear -HF; induction HF; cbn; congruence).
    assert (Hone : length (flat_map slack_of slots) <= length slots).
    { clear. induction slots as [|s l IH]; [reflexivity|]. cbn [flat_map length]. rewrite app_length.
      assert (length (slack_of s) <= 1) by (destruct s as [? ?|? [?|]|? [?|]]; cbn; lia). lia. }
    split.
    - assert (L : length (sp_var2index sp) = m_nx (base_of (sp_prob sp))) by (rewrite <- (map_length snd), Hidx; apply seq_length).
      rewrite <- L, <- (map_length fst).
      assert (Hnd : NoDup (map fst (sp_var2index sp))).
      { assert (Hs : NoDup (map snd (sp_var2index sp))) by (rewrite Hidx; apply seq_NoDup).
        assert (Hf : forall v i j, In (v, i) (sp_var2index sp) -> In (v, j) (sp_var2index sp) -> i = j).
        { intros v i j Hi Hj. exact (proj2 (Hinj v v i j Hi Hj eq_refl)). }
        revert Hs Hf. clear. generalize (sp_var2index sp) as l. induction l as [|[v i] l IH]; intros Hs Hf; constructor.
        - cbn [map fst snd] in *. inversion Hs as [|? ? Hn _]; subst. intros Hi. apply in_map_iff in Hi as ([w j] & <- & Hw).
          apply Hn. cbn [fst] in Hf. rewrite (Hf w i j (or_introl eq_refl) (or_intror Hw)). apply in_map_iff. exists (w, j). auto.
        - cbn [map fst snd] in *. inversion Hs; subst. apply IH; [assumption|]. intros u a b Ha Hb. apply (Hf u); right; assumption. }
      apply Nat.le_trans with (length (vars ++ flat_map slack_of slots)).
      + apply NoDup_incl_length; [exact Hnd|]. intros v Hi. apply in_or_app. apply Hin in Hi as [Hi|Hi]; auto.
      + rewrite app_length. lia.
    - assert (Hr : length (flat_map row_no slots) + length (flat_map fun_no slots) <= length slots).
      { clear. induction slots as [|s l IH]; [reflexivity|]. cbn [flat_map length]. rewrite !app_length.
        assert (length (row_no s) + length (fun_no s) <= 1) by (destruct s; cbn; lia). lia. }
      rewrite (ar_rows _ _ _ _ _ Hp), (ar_funs _ _ _ _ _ Hp), !seq_length in Hr.
      enough (m_nf (base_of (sp_prob sp)) <= length (cs_f cs)) by (unfold m_na; lia).
      destruct (hist_run st m sp k' Hh Hm E) as (S & obj' & S' & eo & ke & ko & ps & ar & jr & uc & lc & Hi & Mi & HW & Em' & R & -> & _).
      rewrite Em in Em'. inversion Em'; subst obj' cs; clear Em'. cbn [sp_prob].
      destruct (base_bufs k' (md_init m) obj (cat ps)) as (Eb & _). unfold m_nf. rewrite Eb.
      destruct (p_linear obj (cat ps)); cbn [lin_bufs nl_bufs b_f]; [apply Nat.le_0_l|rewrite repeat_length; reflexivity].
  Qed.

  (** ** C67 Multipliers read from the output of Clp or Cbc *)
  Theorem C67_cmd_duals `{NumText T} t calls o f (st : mstate T) m m' k' :
    @number_order T _ -> hist any_op st -> In m (st_models st) -> NoDup (map cid (md_constraints m)) ->
    solve (cmd_solver t (parameters t calls) o f) m (st_k st) = (m', Returned (inl tt), k') -> md_status m' = Some Solved ->
    exists sp obj cs slots q z1 z2 text lvl f2 file rs,
      std_problem m (st_k st) = Ok (sp, k') /\ model_std m (st_k st) = Ok ((obj, cs), k') /\ arranged (st_k st) m cs sp slots /\
      linear_part t (sp_prob sp) q /\
      os_tmp1 o = Some z1 /\ os_tmp2 o = Some z2 /\ write_to_lp_file q = Ok text /\
      get_param (parameters t calls) "logLevel" = Some (IntParam lvl) /\
      os_run o (program t) (arguments t z1 z2 lvl) (put f (input_name t z1) text) = (f2, true) /\
      f2 (output_name t z2) = Some file /\ Forall2 says (body (is_cbc t) file) rs /\ Forall (in_range (milp_nx q) (milp_na q)) rs /\
      Forall2 (fun c sl => dual_of sp (listed (milp_nx q) (milp_na q) rs) c sl (hget constr_eqb c (md_duals m'))) (md_constraints m) slots /\
      (forall c, In c (map fst (md_duals m')) -> In c (md_constraints m)).
  Proof.
    intros Hord Hh Hm Hnd E Hst.
    destruct (C67_duals st _ m m' k' Hord Hh Hm E Hnd) as (sp & stat & s & obj & cs & slots & Esp & Es & Em & Hp & Hd & Hk).
    destruct (C33_primals st _ m m' k' Hh Hm E) as (sp' & stat' & s' & Esp' & Es' & Hst' & _).
    rewrite Esp in Esp'. injection Esp' as <-. rewrite Es in Es'. injection Es' as <- <-. rewrite Hst in Hst'. injection Hst' as <-.
    unfold cmd_solver in Es. destruct (cmd_solve t (parameters t calls) (sp_prob sp) o f) as [f' [r|e]] eqn:Ec; cbn [snd] in Es; [|discriminate].
    injection Es as ->.
    destruct (proj1 (C48_result t calls _ (sp_prob sp) o f (Solved, s) eq_refl) (ex_intro _ f' Ec))
      as (q & z1 & z2 & text & lvl & f2 & Hq & E1 & E2 & _ & Ew & _ & Hl & Er & Hread).
    destruct (f2 (output_name t z2)) as [file|] eqn:Eo; [|rewrite C45_missing_file in Hread; discriminate].
    apply C45_solved in Hread as (_ & _ & _ & rs & Hrs & Hran & ->).
    exists sp, obj, cs, slots, q, z1, z2, text, lvl, f2, file, rs.
    repeat (split; [assumption|]). assumption.
  Qed.

  (** ** C67 Multipliers read from Ipopt *)
  Theorem C67_ipopt_duals lib calls (st : mstate T) m m' k' :
    @number_order T _ -> hist any_op st -> In m (st_models st) -> NoDup (map cid (md_constraints m)) ->
    solve (ipopt_solver lib (after ipopt_new calls)) m (st_k st) = (m', Returned (inl tt), k') ->
    exists sp obj cs slots q p' x0 reqs code x la pi mu,
      std_problem m (st_k st) = Ok (sp, k') /\ model_std m (st_k st) = Ok ((obj, cs), k') /\ arranged (st_k st) m cs sp slots /\
      for_ipopt (sp_prob sp) = Some q /\ ipopt_run lib (after ipopt_new calls) q p' x0 reqs code x la pi mu /\
      Forall2 (fun c sl => dual_of sp (read_back (nlp_base q) x la pi mu) c sl (hget constr_eqb c (md_duals m'))) (md_constraints m) slots /\
      (forall c, In c (map fst (md_duals m')) -> In c (md_constraints m)).
  Proof.
    intros Hord Hh Hm Hnd E.
    destruct (C67_duals st _ m m' k' Hord Hh Hm E Hnd) as (sp & stat & s & obj & cs & slots & Esp & Es & Em & Hp & Hd & Hk).
    assert (Hq : exists q p1 leak, for_ipopt (sp_prob sp) = Some q /\ ipopt_solve_nlp lib (after ipopt_new calls) q = Ok (p1, leak, inl (stat, s))).
    { unfold ipopt_solver, ipopt_solve in Es. destruct (sp_prob sp) as [q|q|q|q]; cbn [for_ipopt] in *; try discriminate;
        (destruct (ipopt_solve_nlp lib (after ipopt_new calls) _) as [[[p1 leak] r]|] eqn:Ei; [|discriminate]); cbn [rbind fst snd] in Es; injection Es as ->; do 3 eexists; (split; [reflexivity|exact Ei]). }
    destruct Hq as (q & p1 & leak & Hq & Ei).
    destruct (ipopt_ran st m sp k' q lib _ p1 leak stat s Hh Hm Esp Hq Ei) as (x0 & reqs & code & x & la & pi & mu & Ex0 & Hrun & Hc & ->).
    exists sp, obj, cs, slots, q, p1, x0, reqs, code, x, la, pi, mu. repeat (split; [assumption|]). assumption.
  Qed.
End Main.

(** ** In binary64:  minimise x + 2 y  subject to  x + y == 4,  x <= 3,  x <= 2,  x y >= 1,  y >= 0.5.
    The columns are the slack of the product, x and y; the solver answers with numbered
    multipliers. The bound x <= 3 is not the tightest and gets none. *)
#[local] Existing Instance NumF0.
Definition c67_prog : list (call F) :=
  [CExpr (OVar "x" VarContinuous); CExpr (OVar "y" VarContinuous); CExpr (OMulNS 1 (flit 2)); CExpr (OAddNN 0 2); CExpr (OAddNN 0 1); CExpr (OMulNN 0 1);
   CCmpNS 4 Equal (flit 4) "sum"; CCmpNS 0 LessEqual (flit 3) "loose"; CCmpNS 0 LessEqual (flit 2) "tight"; CCmpNS 5 GreaterEqual (flit 1) "product";
   CCmpNS 1 GreaterEqual (SFdiv 53 1024 (flit 1) (flit 2)) "half"; CNewModel; CSetObj 0 Minimise 3; CAddConstrs 0 [0; 1; 2; 3; 4]].
Definition c67_sol : sol F := mk_sol [flit 2; flit 2; flit 3] [flit 10] [flit 20] [flit 31; flit 32; flit 33] [flit 41; flit 42; flit 43].
Example C67_example :
  match @mrun F NumF0 ord_id c67_prog mstart with
  | Some st =>
    match st_models st with
    | [m] =>
      let '(m', oc, _) := @solve F NumF0 ord_id (fun _ => Ok (inl (Solved, c67_sol))) m (st_k st) in
      oc = Returned (inl tt) /\
      map (fun cx => (clabel (fst cx), snd cx)) (md_duals m') =
        [("sum", flit 10); ("product", flit 41); ("tight", flit 32); ("half", flit 43)]
    | _ => False
    end
  | None => False
  end.
Proof. vm_compute. repeat split. Qed.
Example C67_hypotheses : exists (st : mstate F) m m' k',
  @number_order F NumF0 /\ @hist F NumF0 any_op st /\ In m (st_models st) /\
  @solve F NumF0 ord_id (fun _ => Ok (inl (Solved, c67_sol))) m (st_k st) = (m', Returned (inl tt), k') /\ NoDup (map cid (md_constraints m)).
Proof.
  assert (C : match @mrun F NumF0 ord_id c67_prog mstart with
              | Some st => match st_models st with
                | [m] => match @solve F NumF0 ord_id (fun _ => Ok (inl (Solved, c67_sol))) m (st_k st) with
                         | (_, Returned (inl tt), _) => map cid (md_constraints m) = [8; 10; 12; 14; 16] | _ => False end
                | _ => False end
              | None => False end) by (vm_compute; reflexivity).
  destruct (@mrun F NumF0 ord_id c67_prog mstart) as [st|] eqn:E; [|destruct C].
  destruct (st_models st) as [|m [|]] eqn:Em; try destruct C.
  destruct (@solve F NumF0 ord_id (fun _ => Ok (inl (Solved, c67_sol))) m (st_k st)) as [[m' [[[]|]|]] k'] eqn:Es; try (destruct C; fail).
  exists st, m, m', k'. split; [apply C67_binary64|]. split; [eapply (@mrun_hist F NumF0 ord_id c67_prog mstart); [constructor|exact E]|].
  split; [rewrite Em; left; reflexivity|]. split; [exact Es|]. rewrite C. repeat constructor; cbn; intuition discriminate.
Qed.
