(** Property C74: evaluating the standard problem is evaluating expressions, number for number. *)
From Verif Require Import Base Num Node NodeInd NodeDiff NodeStd Constraint Matrix Problem ModelStd Model
     ExprSpec World MapProofs StdPropProofs EvalProofs PathProofs DerivProofs DiffProofs PanicProofs GradProofs CompProofs
     Sim OccProofs ConstrSpec ConstrProofs ConstrEquiv PartsProofs StdFacts JacProofs HashProofs
     MatSpec MatrixProofs ProblemProofs BuildProofs BuildMain ModelSpec PointProofs EvalRun
     Api ApiProofs ModelApi StdMain HistProofs Properties_Constr Properties_Std Properties_Feas Properties_Eval Properties_Sparse
     ModelExample DerivVars BitSpec BitProofs NegF.
From Coq Require Import Floats.SpecFloat.

(** ** C74 Derivatives mention no other variables than their expression. *)
Theorem C74_variables {T} `{Num T} `{HashOrd} (e v d : node T) k k' :
  derivative e v k = Ok (d, k') -> forall w, occurs w d -> occurs w e.
Proof.
  intros E w Hw. destruct (is_var v) eqn:Hv.
  - rewrite derivative_eq in E by exact Hv. exact (path_sum_occurs v e k d k' w E Hw).
  - rewrite derivative_nonvar in E by exact Hv. discriminate E.
Qed.

Section Bits.
  Context {T : Type} `{Num T} `{HashOrd}.
  Variables (st : mstate T) (m : model T) (sp : std_prob T) (k' : nat).
  Hypothesis Hnm : neqb (@nm1 T _) n0 = false.
  Hypothesis Hh : hist any_op st.
  Hypothesis Hm : In m (st_models st).
  Hypothesis E : std_problem m (st_k st) = Ok (sp, k').

  (** ** C74 The rows of the linear constraints *)
  Theorem C74_rows :
    map fst (sp_acons sp) = seq 0 (length (m_b (base_of (sp_prob sp)))) /\
    forall i c, In (i, c) (sp_acons sp) -> In c (md_constraints m) /\
      exists sl, own_slack (st_k st) sp c sl /\ row_coefficients sp c sl i (m_a (base_of (sp_prob sp))) (m_b (base_of (sp_prob sp))).
  Proof.
    destruct (hist_run st m sp k' Hh Hm E) as (S & obj & S' & eo & ke & ko & ps & ar & jr & uc & lc & Hi & Mi & HW & Em & R & Esp & _).
    destruct (sr_w2 _ _ _ _ _ _ _ _ _ _ _ _ _ R) as (S2 & I2 & _ & W2 & _).
    pose proof (sr_le _ _ _ _ _ _ _ _ _ _ _ _ _ R) as Hle.
    pose proof (sr_world _ _ _ _ _ _ _ _ _ _ _ _ _ R) as W'.
    pose proof (run_vars_nodup _ _ _ _ _ _ _ _ _ _ _ _ _ R) as Hnd.
    destruct (base_shape k' (md_init m) obj (cat ps)) as (Ea & Eb & _ & _ & _ & _ & En).
    destruct (sr_rows _ _ _ _ _ _ _ _ _ _ _ _ _ R) as [_ R2 _ _ _ _ _].
    destruct (sr_in _ _ _ _ _ _ _ _ _ _ _ _ _ R) as [_ Pa _ _ _ _ _].
    assert (Hc : Forall (fun c => S2 (clhs c) /\ S2 (crhs c)) (md_constraints m)).
    { eapply Forall_impl; [|apply mi_cons with (1 := Mi)]. intros c []; auto. }
    assert (Hv2i : forall v i, In (v, i) (sp_var2index sp) <-> nth_error (problem_vars k' obj (cat ps)) i = Some v).
    { intros v i. rewrite Esp. cbn [sp_var2index]. apply enum_in. }
    assert (Eb' : m_b (base_of (sp_prob sp)) = cs_b (cat ps)) by (rewrite Esp; exact Eb).
    assert (Ea' : m_a (base_of (sp_prob sp)) = p_amat k' obj (cat ps)) by (rewrite Esp; exact Ea).
    split.
    - rewrite Eb', <- R2, Esp. cbn [sp_acons]. exact (enum_fst _).
    - intros i c Hic. rewrite Esp in Hic. cbn [sp_acons] in Hic. apply enum_nth in Hic.
      destruct (nth_error (cs_b (cat ps)) i) as [b|] eqn:Ebi.
      2: { exfalso. apply nth_error_None in Ebi. rewrite <- R2 in Ebi. apply nth_error_None in Ebi. congruence. }
      destruct (parts_lin _ S2 _ 0 0 ko ps ar jr k' W2 Hc (sr_parts _ _ _ _ _ _ _ _ _ _ _ _ _ R) i b Ebi) as (c' & sl & d & H1 & H2 & H3 & H4 & H5 & H6 & H7 & H8 & H9 & H10).
      assert (c' = c) as -> by congruence. split; [exact H2|]. exists sl. split.
      { destruct sl as [s|]; [|exact H3]. destruct H3 as (A & B & C). split; [exact A|]. split; [|lia].
        assert (Hs : In s (problem_vars k' obj (cat ps))) by (apply (run_vars_in _ _ _ _ _ _ _ _ _ _ _ _ _ _ R); right; apply H8; reflexivity).
        apply In_nth_error in Hs as [j Hj]. apply Hv2i in Hj. apply (in_map fst) in Hj. exact Hj. }
      split; [exists d; exact H4|]. intros d' Hd'.
      pose proof (gives_sim _ _ _ _ _ (sub_nn_sim e0 (clhs c) (crhs c) _ _ eq_refl eq_refl) H4 Hd') as Hsim.
      rewrite <- (std_properties_sim _ _ Hsim). split; [exact H5|]. split; [rewrite Eb', Ebi, H6; reflexivity|].
      intros v j Hv. apply Hv2i in Hv.
      assert (Hin : Forall (fun e => In (snd (fst e)) (problem_vars k' obj (cat ps))) (cs_a (cat ps))).
      { eapply Forall_impl; [|exact Pa]. cbn. intros e0 K1. apply (run_vars_in _ _ _ _ _ _ _ _ _ _ _ _ _ _ R). auto. }
      destruct (row_pos (problem_vars k' obj (cat ps)) Hnd (cs_a (cat ps)) (fun y => y) (m_a (base_of (sp_prob sp))) i v j) as [A1 A2];
        [rewrite Ea'; apply (entries_plain (cs_a (cat ps)))|exact Hv|exact Hin|exact H7|].
      rewrite Nat.add_0_l in H10.
      split.
      + intros ->. apply A1. eapply Permutation_in; [apply Permutation_sym; exact H10|]. apply in_or_app. right. left. reflexivity.
      + intros Hns. destruct (hget ptr_eq v (p_a (std_properties d))) as [y|] eqn:Eh.
        * apply hget_some_in in Eh as (w & Hw & Ep).
          assert (w = v) as ->.
          { pose proof (in_map fst _ _ Hw) as Hw'. cbn [fst] in Hw'. apply keys_occur in Hw'. pose proof (H9 w Hw') as Hwp.
            assert (Hwv : In w (problem_vars k' obj (cat ps))) by (apply (run_vars_in _ _ _ _ _ _ _ _ _ _ _ _ _ _ R); right; exact Hwp).
            symmetry. apply (world_ptr_eq _ k' S' v w W'); [apply (run_vars_world _ _ _ _ _ _ _ _ _ _ _ _ _ _ R), (nth_error_In _ _ Hv)|apply (run_vars_world _ _ _ _ _ _ _ _ _ _ _ _ _ _ R), Hwv|exact Ep]. }
          apply A1. eapply Permutation_in; [apply Permutation_sym; exact H10|]. apply in_or_app. left. exact Hw.
        * apply A2. intros Hin'. eapply Permutation_in in Hin'; [|apply Permutation_map; exact H10]. rewrite map_app, in_app_iff in Hin'. destruct Hin' as [Hin'|Hin'].
          -- apply in_map_iff in Hin' as ([w y] & Ew & Hw). cbn [fst] in Ew. subst w.
             pose proof (pget_in _ _ _ (keys_nodup d) Hw) as G. cbn [fst] in G. congruence.
          -- destruct sl as [s|]; [|exact Hin']. destruct Hin' as [Es|[]]. cbn [fst] in Es. apply Hns. congruence.
  Qed.

  (** ** C74 Problems that are linear: the gradient is the coefficients, the value their product
      with the point, added from left to right. *)
  Theorem C74_linear q x : class_of (sp_prob sp) = ClLp \/ class_of (sp_prob sp) = ClMilp ->
    evolves (base_of (sp_prob sp)) q -> length x = m_nx (base_of (sp_prob sp)) ->
    exists q' e, minlp_evaluate q x = Ok q' /\ minimises (md_objective m) e /\ p_affine (std_properties e) = true /\
      is_coefficients sp e (b_gphi (m_bufs q')) /\
      b_phi (m_bufs q') = fold_left (fun acc cx => nadd acc (nmul (fst cx) (snd cx))) (combine (b_gphi (m_bufs q')) x) n0 /\
      entries (b_hphi (m_bufs q')) = [] /\ b_f (m_bufs q') = [] /\ entries (b_j (m_bufs q')) = [] /\ b_h (m_bufs q') = [].
  Proof.
    intros Hcl Hq Hx.
    destruct (hist_run st m sp k' Hh Hm E) as (S & obj & S' & eo & ke & ko & ps & ar & jr & uc & lc & Hi & Mi & HW & Em & R & Esp & _).
    pose proof (sr_comp _ _ _ _ _ _ _ _ _ _ _ _ _ R) as Ec.
    pose proof (std_components_ok _ _ _ _ Ec) as (_ & Ephi & Eprop & _).
    pose proof (sr_obj _ _ _ _ _ _ _ _ _ _ _ _ _ R) as Eo.
    destruct (base_shape k' (md_init m) obj (cat ps)) as (_ & _ & _ & _ & _ & _ & En).
    assert (Hx' : length x = length (problem_vars k' obj (cat ps))) by (rewrite Hx, Esp; exact En).
    rewrite Esp in Hq. cbn [sp_prob] in Hq.
    destruct (run_evaluate _ _ _ _ _ _ _ _ _ _ _ _ _ _ x R Hq Hx') as (q' & Eq & Ebf & _).
    assert (Hlin : p_linear obj (cat ps) = true).
    { rewrite Esp in Hcl. cbn [sp_prob] in Hcl. unfold p_problem in Hcl.
      destruct (p_linear obj (cat ps)); [reflexivity|]. destruct (no_int k' obj (cat ps)); destruct Hcl; discriminate. }
    exists q', eo. split; [exact Eq|]. rewrite Ebf. unfold bufs_at. rewrite Hlin. cbn [b_phi b_gphi b_hphi b_f b_j b_h].
    assert (Hv2i : forall v i, In (v, i) (sp_var2index sp) <-> nth_error (problem_vars k' obj (cat ps)) i = Some v).
    { intros v i. rewrite Esp. cbn [sp_var2index]. apply enum_in. }
    split. { destruct (md_objective m) as [f|f|]; cbn [obj_exp minimises] in *; [injection Eo as <- _; reflexivity| |]; (do 2 eexists; exact Eo). }
    split. { unfold p_linear in Hlin. rewrite Eprop in Hlin. apply andb_true_iff in Hlin as [Hl _]. exact Hl. }
    split. { split.
      - unfold p_cvec. rewrite map_length, Esp. cbn [sp_var2index]. symmetry. apply v2i_len.
      - intros v i Hv. apply Hv2i in Hv. unfold p_cvec. rewrite nth_error_map, Hv. cbn [option_map]. rewrite Eprop. eexists. split; reflexivity. }
    split; [reflexivity|]. repeat (split; [reflexivity|]). reflexivity.
  Qed.

  (** ** C74 Nonlinear problems *)
  Lemma nonlinear_slacks q x : class_of (sp_prob sp) = ClNlp \/ class_of (sp_prob sp) = ClMinlp ->
    evolves (base_of (sp_prob sp)) q -> length x = m_nx (base_of (sp_prob sp)) ->
    exists q', minlp_evaluate q x = Ok q' /\ objective_values sp x (md_objective m) (m_bufs q') /\
      map fst (sp_jcons sp) = seq 0 (length (b_f (m_bufs q'))) /\ length (b_h (m_bufs q')) = length (b_f (m_bufs q')) /\
      forall i c, In (i, c) (sp_jcons sp) -> In c (md_constraints m) /\
        exists sl, own_slack (st_k st) sp c sl /\ row_values sp x c sl i (m_bufs q') /\
          forall s obj cs, sl = Some s -> model_std m (st_k st) = Ok ((obj, cs), k') -> bounds_with cs c s n0.
  Proof.
    intros Hcl Hq Hx.
    destruct (hist_run st m sp k' Hh Hm E) as (S & obj & S' & eo & ke & ko & ps & ar & jr & uc & lc & Hi & Mi & HW & Em & R & Esp & _).
    pose proof (sr_comp _ _ _ _ _ _ _ _ _ _ _ _ _ R) as Ec.
    pose proof (std_components_ok _ _ _ _ Ec) as (_ & Ephi & Eprop & Egk & Egh).
    pose proof (sr_obj _ _ _ _ _ _ _ _ _ _ _ _ _ R) as Eo.
    destruct (sr_w1 _ _ _ _ _ _ _ _ _ _ _ _ _ R) as (S1 & _ & _ & W1 & Se).
    destruct (sr_w2 _ _ _ _ _ _ _ _ _ _ _ _ _ R) as (S2 & I2 & _ & W2 & _).
    pose proof (sr_world _ _ _ _ _ _ _ _ _ _ _ _ _ R) as W'.
    pose proof (sr_eo _ _ _ _ _ _ _ _ _ _ _ _ _ R) as Seo.
    pose proof (sr_in _ _ _ _ _ _ _ _ _ _ _ _ _ R) as [_ _ Pf Pj Ph _ _].
    pose proof (sr_rows _ _ _ _ _ _ _ _ _ _ _ _ _ R) as [_ _ _ _ R5 R6 _].
    pose proof (sr_parts _ _ _ _ _ _ _ _ _ _ _ _ _ R) as HP.
    pose proof (sr_le _ _ _ _ _ _ _ _ _ _ _ _ _ R) as (L1 & L2 & L3).
    pose proof (run_vars_nodup _ _ _ _ _ _ _ _ _ _ _ _ _ R) as Hnd.
    assert (Hvin : forall v, In v (problem_vars k' obj (cat ps)) -> S' v /\ is_var v = true).
    { intros v Hv. apply (run_vars_world _ _ _ _ _ _ _ _ _ _ _ _ _ v R Hv). }
    destruct (base_shape k' (md_init m) obj (cat ps)) as (_ & _ & _ & _ & _ & _ & En).
    assert (Hx' : length x = length (problem_vars k' obj (cat ps))) by (rewrite Hx, Esp; exact En).
    rewrite Esp in Hq. cbn [sp_prob] in Hq.
    destruct (run_evaluate _ _ _ _ _ _ _ _ _ _ _ _ _ _ x R Hq Hx') as (q' & Eq & Ebf & _).
    exists q'. split; [exact Eq|]. rewrite Ebf.
    assert (Hlin : p_linear obj (cat ps) = false).
    { rewrite Esp in Hcl. cbn [sp_prob] in Hcl. unfold p_problem in Hcl.
      destruct (p_linear obj (cat ps)); [|reflexivity]. destruct (no_int k' obj (cat ps)); destruct Hcl; discriminate. }
    unfold bufs_at. rewrite Hlin.
    assert (Hv2i : forall v i, In (v, i) (sp_var2index sp) <-> nth_error (problem_vars k' obj (cat ps)) i = Some v).
    { intros v i. rewrite Esp. cbn [sp_var2index]. apply enum_in. }
    assert (Hvlen : length (sp_var2index sp) = length (problem_vars k' obj (cat ps))) by (rewrite Esp; cbn [sp_var2index]; apply v2i_len).
    set (vars := problem_vars k' obj (cat ps)) in *. set (vs := point_vals vars x) in *.
    (* the value of an expression of the variables of the problem *)
    assert (Hvs : forall v i y, nth_error vars i = Some v -> nth_error x i = Some y -> hget ptr_eq v vs = Some y).
    { intros v i y Hi' Ey. apply pget_in; [unfold vs; rewrite point_keys; exact Hnd|]. unfold vs, point_vals. apply in_map_iff. exists (v, i). split; [|apply enum_in; exact Hi'].
      cbn [fst snd]. f_equal. apply nth_error_nth. exact Ey. }
    assert (Hval : forall n, (forall v, occurs v n -> In v vars) -> is_value sp x n (evaluate vs n)).
    { intros n Hn us Hus. apply evaluate_ext. intros v Ho. pose proof (Hn v Ho) as Hv. apply In_nth_error in Hv as [i Hi'].
      destruct (Hus v i (proj2 (Hv2i v i) Hi')) as (y & Ey & Hy). pose proof (Hvs v i y Hi' Ey) as Hy'. destruct Ho as [Hov _]. destruct v; try discriminate Hov. cbn [evaluate]. rewrite Hy, Hy'. reflexivity. }
    assert (Hder : forall e v d k1 k2, (forall w, occurs w e -> In w vars) -> is_var v = true -> path_sum (rpaths v e) k1 = Ok (d, k2) -> is_derivative sp x e v (evaluate vs d)).
    { intros e v d k1 k2 He Hv Ep HO' kk. rewrite (@derivative_eq T _ HO') by exact Hv. pose proof (path_sum_sim (rpaths v e) k1 kk) as Hs. rewrite Ep in Hs.
      destruct (path_sum (rpaths v e) kk) as [[d1 k3]|p] eqn:E1; [|contradiction]. exists d1, k3. split; [reflexivity|].
      intros us Hus. rewrite <- (sim_evaluate us d d1 Hs). apply Hval; [|exact Hus]. intros w Hw. apply He. eapply path_sum_occurs; [exact Ep|exact Hw]. }
    assert (Hhes : forall e gs hs, comp_bits e gs hs -> (forall w, occurs w e -> In w vars) ->
       is_hessian sp x e (with_data (hess_of vars (length vars) hs) (map (fun e => evaluate vs (snd e)) hs))).
    { intros e gs hs Hcb He v i w j Hv Hw Hji. apply Hv2i in Hv. apply Hv2i in Hw.
      assert (Hin : Forall (fun e => In (fst (fst e)) vars /\ In (snd (fst e)) vars) hs).
      { apply Forall_forall. intros [[a b] d] Hin. apply (in_map fst) in Hin. destruct (cb_in _ _ _ Hcb _ _ Hin). split; apply He; assumption. }
      destruct (hess_pos vars Hnd hs (length vars) vs v i w j Hv Hw Hji (cb_up _ _ _ Hcb) Hin) as [A1 A2]. split.
      - intros Ov Ow. destruct (cb_hess _ _ _ Hcb v w Ov Ow) as (a & b & dd & Hab & (d & k1 & k2 & k3 & k4 & Hk & P1 & Wd & P2) & Hdd).
        assert (Hsec : is_second sp x e a b (at_pos (with_data (hess_of vars (length vars) hs) (map (fun e => evaluate vs (snd e)) hs)) i j)).
        { assert (Ia : is_var a = true /\ is_var b = true) by (destruct Hab as [Eab|Eab]; injection Eab as -> ->; split; first [apply Ov|apply Ow]).
          destruct Ia as [Ia Ib]. exists _, d, k1, k2. split; [rewrite derivative_eq by exact Ia; exact P1|]. split; [exact Wd|].
          exists _, dd, k3, k4. split; [exact Hk|]. split; [rewrite derivative_eq by exact Ib; exact P2|].
          destruct (is_constant_with_value dd n0).
          - destruct Hdd as [N1 N2]. exact (A2 N1 N2).
          - exists (evaluate vs dd). split.
            + apply Hval. intros u Hu. apply He. eapply path_sum_occurs; [exact P1|]. eapply path_sum_occurs; [exact P2|exact Hu].
            + apply A1. destruct Hab as [Eab|Eab]; injection Eab as -> ->; auto. }
        destruct Hab as [Eab|Eab]; injection Eab as -> ->; auto.
      - intros Hno. apply A2; intros Hin'; destruct (cb_in _ _ _ Hcb _ _ Hin'); tauto. }
    assert (Hobj : forall v, occurs v eo -> In v vars) by (intros v Hv; apply (run_vars_in _ _ _ _ _ _ _ _ _ _ _ _ _ _ R); left; exact Hv).
    assert (Hfun : forall f v, In f (cs_f (cat ps)) -> occurs v f -> In v vars).
    { intros f v Hf Hv. rewrite Forall_forall in Pf. apply (run_vars_in _ _ _ _ _ _ _ _ _ _ _ _ _ _ R). right. apply (Pf f Hf). exact Hv. }
    cbn [b_phi b_gphi b_hphi b_f b_j b_h].
    assert (Hmin : minimises (md_objective m) eo).
    { destruct (md_objective m) as [f|f|]; cbn [obj_exp minimises] in *; [injection Eo as <- _; reflexivity| |]; (do 2 eexists; exact Eo). }
    split; [|split; [|split]].
    - split; cbn [b_phi b_gphi b_hphi].
      + intros e He us Hus. rewrite (sim_evaluate us e eo (minimises_sim _ _ _ He Hmin)), Ephi. apply Hval; assumption.
      + exists eo. split; [exact Hmin|]. split; [exact (world_built _ _ _ _ W1 Se)|].
        set (gl := map (fun ge : node T * node T => (fst ge, evaluate vs (snd ge))) (sc_gphi obj)).
        assert (Egl : map fst gl = map fst (sc_gphi obj)) by (unfold gl; rewrite map_map; reflexivity).
        assert (Hgn : nodupk ptr_eq (map fst gl)).
        { rewrite Egl, Egk. eapply pnodup_perm; [apply Permutation_map, Permutation_sym, ord_perm|]. apply keys_nodup. }
        destruct (p_affine (std_properties eo)) eqn:Ha.
        * destruct Egh as [Hg0 Eh]. split; [|unfold p_hphi, hess_of; rewrite Eh; reflexivity]. split; [rewrite map_length; symmetry; exact Hvlen|].
          intros v i Hv. apply Hv2i in Hv. rewrite nth_error_map, Hv. cbn [option_map]. eexists. split; [reflexivity|]. unfold lookup. fold gl.
          assert (Egg : gl = ord 3 ke (p_a (std_properties eo))).
          { unfold gl. revert Hg0. generalize (sc_gphi obj) (ord 3 ke (p_a (std_properties eo))). clear. intros l l' HF. induction HF as [|[v d] [w c] l l' [E1 [i E2]] HF IH]; [reflexivity|]. cbn [map fst snd] in *. rewrite IH, E1, E2. reflexivity. }
          rewrite Egg. rewrite (pget_perm v (ord 3 ke (p_a (std_properties eo))) (p_a (std_properties eo))); [reflexivity| |apply ord_perm].
          rewrite <- Egg. exact Hgn.
        * pose proof (comp_bits_ok _ ke S1 eo obj ko W1 Se Ec Ha) as Hcb. split.
          -- split; [rewrite map_length; symmetry; exact Hvlen|]. intros v i Hv. apply Hv2i in Hv. rewrite nth_error_map, Hv. cbn [option_map].
             eexists. split; [reflexivity|]. unfold lookup. fold gl. split.
             ++ intros Ho. pose proof (proj2 (cb_keys _ _ _ Hcb v) Ho) as Hin. apply in_map_iff in Hin as ([v' d] & Ev & Hin). cbn [fst] in Ev. subst v'.
                assert (Eg : hget ptr_eq v gl = Some (evaluate vs d)) by (apply pget_in; [exact Hgn|]; unfold gl; apply in_map_iff; exists (v, d); auto).
                rewrite Eg. destruct (cb_grad _ _ _ Hcb v d Hin) as (k1 & k2 & P). eapply Hder; [exact Hobj|apply Ho|exact P].
             ++ intros Hno. destruct (hget ptr_eq v gl) as [y|] eqn:Eg; [|reflexivity]. exfalso. apply Hno.
                apply hget_some_in in Eg as (w & Hw & Ep). apply (in_map fst) in Hw. rewrite Egl in Hw. cbn [fst] in Hw. apply (cb_keys _ _ _ Hcb) in Hw.
                rewrite (world_ptr_eq _ k' S' v w W'); [exact Hw|apply Hvin, (nth_error_In _ _ Hv)|apply Hvin, Hobj, Hw|exact Ep].
          -- exact (Hhes eo _ _ Hcb Hobj).
    - rewrite Esp. cbn [sp_jcons]. rewrite map_length, <- R5. exact (enum_fst _).
    - rewrite !map_length. exact R6.
    - intros i c Hic. rewrite Esp in Hic. cbn [sp_jcons] in Hic. apply enum_nth in Hic.
      assert (HS2 : Forall (fun c => S2 (clhs c) /\ S2 (crhs c)) (md_constraints m)).
      { eapply Forall_impl; [|apply mi_cons with (1 := Mi)]. intros c0 []; auto. }
      destruct (nth_error (cs_f (cat ps)) i) as [f|] eqn:Ef.
      2: { exfalso. apply nth_error_None in Ef. rewrite <- R5 in Ef. apply nth_error_None in Ef. congruence. }
      destruct (parts_fun Hnm _ S2 _ 0 0 ko ps ar jr k' W2 HS2 HP i f Ef) as (c' & sl & d & gs & hs & H1 & H2 & H3 & H4 & H5 & H6 & H7 & H8 & H9 & H9' & Hbnd & im & H10).
      rewrite Nat.add_0_l in *.
      assert (c' = c) as -> by congruence. split; [exact H2|]. pose proof (nth_error_In _ _ Ef) as Hf.
      assert (Hd : forall w, occurs w d -> In w vars) by (intros w Hw; apply (Hfun f); [exact Hf|]; apply H9'; left; exact Hw).
      exists sl. split.
      { destruct sl as [s|]; [|exact H3]. destruct H3 as (A & B & C). split; [exact A|]. split; [|lia].
        assert (Hs : In s vars) by (apply (Hfun f); [exact Hf|]; apply H9'; right; reflexivity).
        apply In_nth_error in Hs as [j Hj]. apply Hv2i in Hj. apply (in_map fst) in Hj. exact Hj. }
      split.
      2: { intros s obj' cs' Es Em'. rewrite Em in Em'. injection Em' as _ <-. exact (Hbnd s Es). }
      split; cbn [b_f b_j b_h].
      + exists (evaluate vs f). split; [rewrite nth_error_map, Ef; reflexivity|]. intros d' e' Hd' He' us Hus.
        pose proof (gives_sim _ _ _ _ _ (sub_nn_sim e0 (clhs c) (crhs c) _ _ eq_refl eq_refl) H5 Hd') as Hsim.
        rewrite <- (sim_evaluate us f e' (slack_sim _ _ _ _ _ Hsim H7 He')). apply Hval; [|exact Hus]. intros v Hv. exact (Hfun f v Hf Hv).
      + exists d, (with_data (hess_of vars (length vars) hs) (map (fun e => evaluate vs (snd e)) hs)).
        split; [exact H5|]. split; [exists f; exact H7|]. split; [exact (cb_wb _ _ _ H8)|]. split; [exact H6|]. split; [|split; [rewrite nth_error_map, H4; reflexivity|exact (Hhes d gs hs H8 Hd)]].
        intros v j Hv. apply Hv2i in Hv.
        assert (Hjv : Forall (fun e => In (snd (fst e)) vars) (cs_j (cat ps))).
        { eapply Forall_impl; [|exact Pj]. cbn. intros e [K1 _]. apply (run_vars_in _ _ _ _ _ _ _ _ _ _ _ _ _ _ R). auto. }
        destruct (row_pos vars Hnd (cs_j (cat ps)) (evaluate vs) (with_data (p_jmat k' obj (cat ps)) (map (fun e => evaluate vs (snd e)) (cs_j (cat ps)))) i v j) as [A1 A2];
          [exact (entries_with (cs_j (cat ps)) _ _ _ _ _ _)|exact Hv|exact Hjv|exact H9|].
        rewrite H10 in A1, A2. split; [|split].
        * intros Ho. pose proof (proj2 (cb_keys _ _ _ H8 v) Ho) as Hin. apply in_map_iff in Hin as ([v' dv] & Ev & Hin). cbn [fst] in Ev. subst v'.
          exists (evaluate vs dv). split; [apply A1; apply in_or_app; left; exact Hin|]. destruct (cb_grad _ _ _ H8 v dv Hin) as (k1 & k2 & P). eapply Hder; [exact Hd|apply Ho|exact P].
        * intros ->. rewrite (A1 (NConst im nm1)); [reflexivity|]. apply in_or_app. right. left. reflexivity.
        * intros Hno Hns. apply A2. rewrite map_app, in_app_iff. intros [Hin|Hin].
          -- apply Hno. apply (cb_keys _ _ _ H8). exact Hin.
          -- destruct sl as [s|]; [|exact Hin]. destruct Hin as [Es|[]]. cbn [fst] in Es. apply Hns. congruence.
  Qed.
  Theorem C74_nonlinear q x : class_of (sp_prob sp) = ClNlp \/ class_of (sp_prob sp) = ClMinlp ->
    evolves (base_of (sp_prob sp)) q -> length x = m_nx (base_of (sp_prob sp)) ->
    exists q', minlp_evaluate q x = Ok q' /\ objective_values sp x (md_objective m) (m_bufs q') /\
      map fst (sp_jcons sp) = seq 0 (length (b_f (m_bufs q'))) /\ length (b_h (m_bufs q')) = length (b_f (m_bufs q')) /\
      forall i c, In (i, c) (sp_jcons sp) -> In c (md_constraints m) /\
        exists sl, own_slack (st_k st) sp c sl /\ row_values sp x c sl i (m_bufs q').
  Proof.
    intros Hcl Hq Hx. destruct (nonlinear_slacks q x Hcl Hq Hx) as (q' & Eq & A & B & C & D).
    exists q'. split; [exact Eq|]. split; [exact A|]. split; [exact B|]. split; [exact C|].
    intros i c Hic. destruct (D i c Hic) as (H1 & sl & H2 & H3 & _). split; [exact H1|]. exists sl. split; assumption.
  Qed.
End Bits.

(** ** C74 In binary64 maximising [f] minimises exactly the negative of its value (the sign of a
    zero aside): the minus signs spread over its sums round nothing. *)
Theorem C74_negation (fsin fcos : F -> F) vs f e :
  in_binary64 (NumF fsin fcos) vs f -> gives (@neg_n F (NumF fsin fcos) f) e ->
  same_number (@evaluate F (NumF fsin fcos) vs e) (SFopp (@evaluate F (NumF fsin fcos) vs f)).
Proof. exact (neg_neg fsin fcos vs f e). Qed.
Theorem C74_maximize (fsin fcos : F -> F) (HO : HashOrd) (st : mstate F) m sp k' f q x vs :
  @hist F (NumF fsin fcos) any_op st -> In m (st_models st) -> @std_problem F (NumF fsin fcos) HO m (st_k st) = Ok (sp, k') ->
  md_objective m = Maximize f -> class_of (sp_prob sp) = ClNlp \/ class_of (sp_prob sp) = ClMinlp ->
  @evolves F (NumF fsin fcos) (base_of (sp_prob sp)) q -> length x = m_nx (base_of (sp_prob sp)) ->
  assigns sp x vs -> in_binary64 (NumF fsin fcos) vs f ->
  exists q', @minlp_evaluate F q x = Ok q' /\ same_number (b_phi (m_bufs q')) (SFopp (@evaluate F (NumF fsin fcos) vs f)).
Proof.
  intros Hh Hm E Eo Hcl Hq Hx Hvs Hf.
  destruct (@C74_nonlinear F (NumF fsin fcos) HO st m sp k' eq_refl Hh Hm E q x Hcl Hq Hx) as (q' & Eq & [Hphi (e & He & _)] & _).
  exists q'. split; [exact Eq|]. rewrite <- (Hphi e He vs Hvs). rewrite Eo in He. exact (C74_negation fsin fcos vs f e Hf He).
Qed.

(** A model: maximise x * y + x / 10 subject to x * x <= 2 and x + y = 3, at x = 0.7, y = 0.1. *)
Section Ex74.
  Local Open Scope string_scope.
  #[local] Existing Instance NumF0.
  Definition tenth : F := SFdiv 53 1024 (flit 1) (flit 10).
  Definition seven_tenths : F := SFdiv 53 1024 (flit 7) (flit 10).
  Definition c74_prog : list (call F) :=
    [CExpr (OVar "x" VarContinuous); CExpr (OVar "y" VarContinuous); CExpr (OMulNN 0 1); CExpr (OMulNS 0 tenth); CExpr (OAddNN 2 3); CExpr (OMulNN 0 0); CExpr (OAddNN 0 1);
     CCmpNS 5 LessEqual (flit 2) "disk"; CCmpNS 6 Equal (flit 3) "sum"; CNewModel; CSetObj 0 Maximise 4; CAddConstrs 0 [0; 1]].
  Definition c74_point : list F := [flit (-1); seven_tenths; tenth].
  Definition c74_vals (sp : std_prob F) : vals F := combine (map fst (sp_var2index sp)) c74_point.
  Definition c74_x : node F := NVar 0 "x" VarContinuous.
  Definition c74_y : node F := NVar 1 "y" VarContinuous.
  Definition c74_obj : node F := NAdd 5 [NMul 2 c74_x c74_y; NMul 4 c74_x (NConst 3 tenth)].
  Definition c74_index : list (node F * nat) := [(NVar 50 "_s_j0_" VarContinuous, 0); (c74_x, 1); (c74_y, 2)].
  Example C74_hypotheses : exists (st : mstate F) m sp k' f q',
    @hist F NumF0 any_op st /\ In m (st_models st) /\ @std_problem F NumF0 ord_id m (st_k st) = Ok (sp, k') /\ md_objective m = Maximize f /\
    class_of (sp_prob sp) = ClNlp /\ length c74_point = m_nx (base_of (sp_prob sp)) /\
    assigns sp c74_point (c74_vals sp) /\ in_binary64 NumF0 (c74_vals sp) f /\ length (sp_acons sp) = 1 /\ length (sp_jcons sp) = 1 /\
    @minlp_evaluate F (base_of (sp_prob sp)) c74_point = Ok q' /\
    b_phi (m_bufs q') = SFopp (@evaluate F NumF0 (c74_vals sp) f) /\
    b_gphi (m_bufs q') = [flit 0; SFopp (SFadd 53 1024 tenth tenth); SFopp seven_tenths].
  Proof.
    assert (C : match @mrun F NumF0 ord_id c74_prog mstart with
                | Some st => match st_models st with
                  | [m] => match @std_problem F NumF0 ord_id m (st_k st) with
                    | Ok (sp, _) => sp_var2index sp = c74_index /\ md_objective m = Maximize c74_obj /\ class_of (sp_prob sp) = ClNlp /\
                        m_nx (base_of (sp_prob sp)) = 3 /\ length (sp_acons sp) = 1 /\ length (sp_jcons sp) = 1 /\
                        match @minlp_evaluate F (base_of (sp_prob sp)) c74_point with
                        | Ok q' => b_phi (m_bufs q') = SFopp (@evaluate F NumF0 (c74_vals sp) c74_obj) /\
                                   b_gphi (m_bufs q') = [flit 0; SFopp (SFadd 53 1024 tenth tenth); SFopp seven_tenths]
                        | Panic _ => False end
                    | Panic _ => False end
                  | _ => False end
                | None => False end) by (vm_compute; repeat split; reflexivity).
    destruct (@mrun F NumF0 ord_id c74_prog mstart) as [st|] eqn:E; [|destruct C].
    destruct (st_models st) as [|m [|]] eqn:Em; try (destruct C; fail).
    destruct (@std_problem F NumF0 ord_id m (st_k st)) as [[sp k']|] eqn:Es; [|destruct C].
    destruct C as (C1 & C2 & C3 & C4 & C5 & C6 & C7).
    destruct (@minlp_evaluate F (base_of (sp_prob sp)) c74_point) as [q'|] eqn:Eq; [|destruct C7]. destruct C7 as [C7 C8].
    exists st, m, sp, k', c74_obj, q'.
    split; [eapply (@mrun_hist F NumF0 ord_id c74_prog mstart); [constructor|exact E]|].
    split; [rewrite Em; left; reflexivity|]. split; [exact Es|]. split; [exact C2|]. split; [exact C3|]. split; [rewrite C4; reflexivity|].
    split; [|split; [|auto 10]].
    - intros v i Hv. unfold c74_vals. rewrite C1 in *. destruct Hv as [Hv|[Hv|[Hv|[]]]]; pose proof (f_equal fst Hv) as E1; pose proof (f_equal snd Hv) as E2;
        cbn [fst snd] in E1, E2; rewrite <- E1, <- E2; eexists; split; reflexivity.
    - unfold c74_vals. rewrite C1. intros s Hs.
      assert (Hin : In s [c74_obj; NMul 2 c74_x c74_y; NMul 4 c74_x (NConst 3 tenth); c74_x; c74_y; NConst 3 tenth]).
      { assert (Ha : forall (n : node F) i st kd, sub n (NVar i st kd) -> n = NVar i st kd) by (intros n i st0 kd Hn; inversion Hn; [reflexivity|contradiction]).
        assert (Hc : forall (n : node F) i v, sub n (NConst i v) -> n = NConst i v) by (intros n i v Hn; inversion Hn; [reflexivity|contradiction]).
        inversion Hs as [|s' c n H1 H2 ]; [left; reflexivity|]. cbn [arguments c74_obj In] in H1.
        destruct H1 as [<- |[<- |[]]]; (inversion H2 as [|s2 c2 n2 H3 H4]; [cbn; auto 10|]); destruct H3 as [<- |[<- |[]]];
          try (apply Ha in H4); try (apply Hc in H4); subst; cbn; auto 10. }
      cbn [In] in Hin. destruct Hin as [<- |[<- |[<- |[<- |[<- |[<- |[]]]]]]]; vm_compute; reflexivity.
  Qed.
End Ex74.
(** And a linear one: minimise x / 10 + y subject to x + y = 3. *)
Section Ex74L.
  Local Open Scope string_scope.
  #[local] Existing Instance NumF0.
  Definition c74_lin : list (call F) :=
    [CExpr (OVar "x" VarContinuous); CExpr (OVar "y" VarContinuous); CExpr (OMulNS 0 tenth); CExpr (OAddNN 2 1); CExpr (OAddNN 0 1);
     CCmpNS 4 Equal (flit 3) "sum"; CNewModel; CSetObj 0 Minimise 3; CAddConstrs 0 [0]].
  Example C74_linear_hypotheses : exists (st : mstate F) m sp k' q',
    @hist F NumF0 any_op st /\ In m (st_models st) /\ @std_problem F NumF0 ord_id m (st_k st) = Ok (sp, k') /\
    class_of (sp_prob sp) = ClLp /\ 2 = m_nx (base_of (sp_prob sp)) /\
    @minlp_evaluate F (base_of (sp_prob sp)) [seven_tenths; tenth] = Ok q' /\ b_gphi (m_bufs q') = [tenth; flit 1] /\
    b_phi (m_bufs q') = SFadd 53 1024 (SFmul 53 1024 tenth seven_tenths) tenth.
  Proof.
    assert (C : match @mrun F NumF0 ord_id c74_lin mstart with
                | Some st => match st_models st with
                  | [m] => match @std_problem F NumF0 ord_id m (st_k st) with
                    | Ok (sp, _) => class_of (sp_prob sp) = ClLp /\ 2 = m_nx (base_of (sp_prob sp)) /\
                        match @minlp_evaluate F (base_of (sp_prob sp)) [seven_tenths; tenth] with
                        | Ok q' => b_gphi (m_bufs q') = [tenth; flit 1] /\ b_phi (m_bufs q') = SFadd 53 1024 (SFmul 53 1024 tenth seven_tenths) tenth
                        | Panic _ => False end
                    | Panic _ => False end
                  | _ => False end
                | None => False end) by (vm_compute; repeat split; reflexivity).
    destruct (@mrun F NumF0 ord_id c74_lin mstart) as [st|] eqn:E; [|destruct C].
    destruct (st_models st) as [|m [|]] eqn:Em; try (destruct C; fail).
    destruct (@std_problem F NumF0 ord_id m (st_k st)) as [[sp k']|] eqn:Es; [|destruct C].
    destruct C as (C3 & C4 & C7).
    destruct (@minlp_evaluate F (base_of (sp_prob sp)) [seven_tenths; tenth]) as [q'|] eqn:Eq; [|destruct C7].
    exists st, m, sp, k', q'.
    split; [eapply (@mrun_hist F NumF0 ord_id c74_lin mstart); [constructor|exact E]|].
    split; [rewrite Em; left; reflexivity|]. auto.
  Qed.
End Ex74L.
