(** Property C63: integer linear models through the LP file and back. *)
From Verif Require Import Base Num Node NodeInd NodeDiff NodeStd Constraint Matrix Problem ModelStd Model
     ExprSpec EvalProofs DiffProofs Api ApiProofs ModelApi HistProofs HistAff ConstrSpec ModelSpec MatSpec PointProofs EvalRun SlotProofs
     StdFacts Properties_Std Properties_Feas EvalSpec Properties_Eval Properties_HashSol SolveProofs Properties_Solve
     MatrixProofs SumDupProofs CsrProofs Text SolverBase LpFile FmtProofs FloatProofs LpSpec LpProofs Properties_Lp SolFile SolSpec Properties_Sol CmdSolver Properties_Cmd Properties_End
     FloatOps ExactSpec ExactSim ExactF ExactHist Properties_Exact Properties_ExactModel SparseProofs Properties_Sparse LpModelSpec LpModelProofs.
From Coq Require Import Reals Lra Floats.SpecFloat NArith.
Local Open Scope string_scope.
Local Open Scope list_scope.

Lemma above_small l r : small l -> (above l r <-> (fval l <= r)%R).
Proof. intros (z & (_ & Hf & _) & _). destruct l; try discriminate Hf; reflexivity. Qed.
Lemma below_small u r : small u -> (below u r <-> (r <= fval u)%R).
Proof. intros (z & (_ & Hf & _) & _). destruct u; try discriminate Hf; reflexivity. Qed.
Definition columns (n : nat) (g : string -> R) : list R := map (fun j => g (xname j)) (seq 0 n).
Lemma columns_nth n g i : (i < n)%nat -> nth_error (columns n g) i = Some (g (xname i)).
Proof. intros Hi. unfold columns. rewrite nth_error_map, nth_error_seq by exact Hi. reflexivity. Qed.
Lemma dot_columns (c : list F) g : forall s,
  total (fun jc => (fval (snd jc) * g (xname (fst jc)))%R) (combine (seq s (length c)) c) = dotR c (map (fun j => g (xname j)) (seq s (length c))).
Proof.
  unfold dotR, total. induction c as [|v c IH]; intros s; [reflexivity|]. cbn [length seq combine map fold_right fst snd]. rewrite IH. reflexivity.
Qed.

Section LpModel.
  Variables fsin fcos : F -> F.
  Notation NF := (NumF fsin fcos).
  Local Instance num_lpm : Num F := NF.

  Lemma nm1_f : neqb (@nm1 F NF) n0 = false.
  Proof. reflexivity. Qed.

  Section File.
    Context (HO : HashOrd) (t : tool) (st : mstate F) (ws : list N) (m : model F) (sp : std_prob F) (k' : nat) (q : milp F).
    Hypothesis Hh : @int_hist_within NF text_limit st ws.
    Hypothesis Hn : neutral HO.
    Hypothesis Hm : In m (st_models st).
    Hypothesis E : @std_problem F NF HO m (st_k st) = Ok (sp, k').
    Hypothesis Hq : linear_part t (sp_prob sp) q.
    Hypothesis Hvar : forall c, In c (md_constraints (exact_model m)) -> ckd c = Equal -> varies c.

    Lemma wide : @int_hist NF st ws.
    Proof. exact (hist_widen NF text_limit exact_limit st ws text_top Hh). Qed.
    Lemma any_hist : @hist F NF any_op st.
    Proof. eapply hist_weaken; [|exact (int_hist_aff exact_limit fsin fcos st ws wide)]. intros; exact I. Qed.
    Lemma exact_sp : exists sp', @std_problem X _ HO (exact_model m) (st_k st) = Ok (sp', k') /\ same_problem sp sp' /\ small_data (sp_prob sp).
    Proof.
      pose proof (C61_problem fsin fcos HO st ws m wide Hn Hm) as G. rewrite E in G.
      destruct (@std_problem X _ HO (exact_model m) (st_k st)) as [[sp' k]|] eqn:E'; [|contradiction]. destruct G as [<- G]. exists sp'. split; [reflexivity|]. split; [exact G|].
      destruct (hist_exact text_limit text_top text_big fsin fcos st ws Hh) as (st' & [_ _ _ H4] & _).
      apply In_nth_error in Hm as Hi. destruct Hi as [i Ei]. destruct (Forall2_nth_l _ _ _ _ _ H4 Ei) as (m2 & _ & Hr). pose proof (rmodel_exact text_limit _ _ Hr) as ->.
      pose proof (sim_sp text_limit text_top text_big fsin fcos HO m _ Hn Hr (hist_mods text_limit fsin fcos st ws m Hh Hm) (st_k st)) as S.
      rewrite E, E' in S. cbn in S. destruct S as [_ [R1 _ _ _ _ _]]. exact (rprob_small _ _ R1).
    Qed.
    Notation n := (m_nx (base_of (sp_prob sp))).
    Lemma lin_c_q : lin_c (sp_prob sp) = milp_c q.
    Proof. destruct Hq as [(l & -> & <-)|[_ ->]]; reflexivity. Qed.

    Lemma file_ready : exists text doc, write_to_lp_file q = Ok text /\ read_lp (words text) = Some doc /\
      doc_names doc = map xname (seq 0 n) /\
      (forall g, doc_feasible doc g <-> data_feasible (sp_prob sp) (columns n g)) /\
      (forall g, doc_value doc g = dotR (lin_c (sp_prob sp)) (columns n g)).
    Proof.
      destruct exact_sp as (sp' & E' & (Hsd & _) & Hsm). pose proof any_hist as Ha.
      destruct (linear_sizes t st m sp k' q Ha Hm E Hq) as (Eb & _ & _ & Emx & _).
      destruct (linear_made fsin fcos t st m sp k' q Ha Hm E Hq) as (Em & Hbuilt & Hin & Hlen). cbv zeta in *.
      destruct (C62_unique st m sp k' Ha Hm E nm1_f) as [Hnd _]. unfold lin_rows in Hnd.
      destruct Hsm as [Sc Sa Sb Sl Su]. rewrite Eb in Sa, Sb, Sl, Su, Hnd. rewrite lin_c_q in Sc.
      assert (En : n = coo_cols (m_a (milp_base q))) by (rewrite Emx; exact Hlen).
      assert (Fs : forall x, small x -> ~ is_nan x) by (intros x Hx Hx'; apply small_finite in Hx; unfold is_nan in Hx'; subst x; exact Hx).
      assert (Hsane : lp_sane fsin fcos (milp_c q) (m_a (milp_base q)) (m_b (milp_base q)) (m_l (milp_base q)) (m_u (milp_base q))).
      { split; [exact Hbuilt|]. split; [exact Hin|]. split; [exact Hlen|]. split; [eapply Forall_impl; [|exact Sc]; apply small_finite|].
        split; [intros i j; apply small_finite, coef_small; assumption|]. split; [|split]; (eapply Forall_impl; [|eassumption]; exact Fs). }
      destruct (milp_new_inv _ _ _ _ _ _ _ _ _ _ Em) as (_ & _ & _ & _ & _ & _ & Lb & Ll & Lu & Lp).
      assert (Hcols : forall i j v, In (i, j, v) (entries (m_a (milp_base q))) -> (j < n)%nat) by (intros i j v Hi; rewrite En; apply (Hin i j v Hi)).
      assert (Hnz : forall i, (i < coo_rows (m_a (milp_base q)))%nat -> exists j, not_zero (coefficient fsin fcos (m_a (milp_base q)) i j) = true).
      { intros i Hi. destruct (row_dec fsin fcos (m_a (milp_base q)) i n Hnd Sa Hcols) as [Hj|Hz]; [exact Hj|]. exfalso.
        rewrite <- Lb in Hi. apply nth_error_Some in Hi. destruct (nth_error (m_b (milp_base q)) i) as [b|] eqn:Ebi; [clear Hi|congruence].
        pose proof (any_of_aff _ (C61_history fsin fcos st ws wide)) as HhX. destruct (sd_ints _ _ Hsd) as (_ & I2 & I3 & _).
        destruct (sd_shape _ _ Hsd) as (_ & _ & S3 & S4).
        refine (row_moves HO (exact_state st) (exact_model m) sp' k' HhX (exact_in _ _ Hm) E' (rowR (m_a (milp_base q)) i) (fval b) i _ _ Hvar Hz).
        - rewrite (sd_b _ _ Hsd), nth_error_map, Eb, Ebi. cbn [option_map]. rewrite Eb in I3. rewrite (integral_nth _ _ _ I3 Ebi). reflexivity.
        - intros x. unfold ax_row. rewrite <- Eb. apply row_exact; auto. exact (sd_a _ _ Hsd). }
      destruct (C43_file fsin fcos _ _ _ _ _ _ _ _ Em Hsane Hnz) as (text & doc & Ew & Er & _ & _ & _ & _ & Hrows & Hnames & Hbnds & Hgen & _).
      exists text, doc. split; [exact Ew|]. split; [exact Er|]. split; [unfold doc_names; rewrite En; exact Hnames|].
      assert (Hpr : forall x, In x (milp_c q) \/ In x (m_b (milp_base q)) \/ In x (m_l (milp_base q)) \/ In x (m_u (milp_base q)) \/
                 (exists i j, x = coefficient fsin fcos (m_a (milp_base q)) i j) -> prints_as x x).
      { intros x Hx. apply small_prints. rewrite Forall_forall in Sc, Sb, Sl, Su. destruct Hx as [Hx|[Hx|[Hx|[Hx|(i & j & ->)]]]]; auto. apply coef_small; assumption. }
      split.
      - intros g. destruct (C43_meaning fsin fcos _ _ _ _ _ _ _ _ text doc g Em Hsane Hnz Hpr Ew Er) as (_ & Lr & Hr & Hbd).
        assert (Hrow : forall i row b, nth_error (d_rows doc) i = Some row -> nth_error (m_b (milp_base q)) i = Some b ->
                 (row_holds g row <-> rowR (m_a (milp_base q)) i (columns n g) = fval b)).
        { intros i row b Hi Hbi. rewrite (Hr i row b Hi Hbi), (rowR_coefs fsin fcos _ _ _ n Hnd Hcols), En. 
          rewrite (total_ext (fun j => fval (coefficient fsin fcos (m_a (milp_base q)) i j) * nth j (columns (coo_cols (m_a (milp_base q))) g) 0)%R
                             (fun j => fval (coefficient fsin fcos (m_a (milp_base q)) i j) * g (xname j))%R); [reflexivity|].
          intros j Hj. apply in_seq in Hj. f_equal. apply nth_error_nth. apply columns_nth. lia. }
        assert (Df : forall x, data_feasible (sp_prob sp) x <-> length x = n /\
          (forall r b, nth_error (m_b (milp_base q)) r = Some b -> rowR (m_a (milp_base q)) r x = fval b) /\
          (forall i r, nth_error x i = Some r ->
             (exists l u, nth_error (m_l (milp_base q)) i = Some l /\ nth_error (m_u (milp_base q)) i = Some u /\ (fval l <= r <= fval u)%R) /\
             (nth_error (m_p (milp_base q)) i = Some true -> exists z, r = IZR z))) by (intros x; unfold data_feasible; rewrite Eb; reflexivity).
        rewrite Df. clear Df. split.
        + intros (F1 & F2 & F3). split; [unfold columns; rewrite map_length, seq_length; reflexivity|]. split.
          * intros r b Hb. assert (Hrd : (r < length (d_rows doc))%nat) by (eapply Nat.lt_le_trans; [|apply Nat.eq_le_incl; symmetry; exact (eq_trans Lr (eq_sym Lb))]; apply nth_error_Some; congruence).
            apply nth_error_Some in Hrd. destruct (nth_error (d_rows doc) r) as [row|] eqn:Erow; [|congruence].
            refine (proj1 (Hrow r row b Erow Hb) _). rewrite Forall_forall in F1. apply F1. apply nth_error_In with r. exact Erow.
          * intros i r Hi. assert (Hlt : (i < n)%nat) by (assert (Q : nth_error (columns n g) i <> None) by congruence; apply nth_error_Some in Q; unfold columns in Q; rewrite map_length, seq_length in Q; exact Q).
            rewrite (columns_nth n g i Hlt) in Hi. injection Hi as <-.
            destruct (nth_error (m_l (milp_base q)) i) as [l|] eqn:El; [|apply nth_error_None in El; lia].
            destruct (nth_error (m_u (milp_base q)) i) as [u|] eqn:Eu; [|apply nth_error_None in Eu; lia].
            pose proof (nth_error_In _ _ (Hbd i l u El Eu)) as Hbin. apply F2 in Hbin as [B1 B2]. rewrite Forall_forall in Sl, Su.
            apply above_small in B1; [|apply Sl; apply nth_error_In with i; exact El]. apply below_small in B2; [|apply Su; apply nth_error_In with i; exact Eu].
            split; [exists l, u; auto|]. intros Hp. apply F3. apply Hgen. exists i. auto.
        + intros (_ & F1 & F2). split; [|split].
          * apply Forall_forall. intros row Hi. apply In_nth_error in Hi as [i Hi].
            assert (Hib : (i < length (m_b (milp_base q)))%nat) by (eapply Nat.lt_le_trans; [|apply Nat.eq_le_incl; exact (eq_trans Lr (eq_sym Lb))]; apply nth_error_Some; intros Q; discriminate (eq_trans (eq_sym Hi) Q)).
            apply nth_error_Some in Hib. destruct (nth_error (m_b (milp_base q)) i) as [b|] eqn:Ebi; [|congruence]. refine (proj2 (Hrow i row b Hi Ebi) _). exact (F1 i b Ebi).
          * intros lo nm hi Hi. apply In_nth_error in Hi as [i Hi].
            assert (Hlt : (i < n)%nat).
            { rewrite En. rewrite <- (seq_length (coo_cols (m_a (milp_base q))) 0), <- (map_length xname), <- Hnames, map_length. apply nth_error_Some. intros Q. discriminate (eq_trans (eq_sym Hi) Q). }
            destruct (F2 i (g (xname i)) (columns_nth n g i Hlt)) as [(l & u & El & Eu & B1 & B2) _].
            pose proof (Hbd i l u El Eu) as Q. pose proof (eq_trans (eq_sym Hi) Q) as Q'. injection Q' as -> -> ->. rewrite Forall_forall in Sl, Su.
            split; [apply above_small|apply below_small]; auto; [apply Sl|apply Su]; apply nth_error_In with i; assumption.
          * intros nm Hi. apply Hgen in Hi as (j & Hj & ->).
            assert (Hlt : (j < n)%nat) by (rewrite En, <- Lp; apply nth_error_Some; congruence).
            exact (proj2 (F2 j (g (xname j)) (columns_nth n g j Hlt)) Hj).
      - intros g. destruct (C43_meaning fsin fcos _ _ _ _ _ _ _ _ text doc g Em Hsane Hnz Hpr Ew Er) as (Hobj & _).
        refine (eq_trans Hobj _). rewrite dot_columns, lin_c_q, Hlen. unfold columns. rewrite En. reflexivity.
    Qed.

    (** *** Values of the columns, as values of the variables *)
    Lemma file_vals_point sp' g : same_problem sp sp' -> @std_problem X _ HO (exact_model m) (st_k st) = Ok (sp', k') ->
      file_vals sp g = at_point sp' (pt (columns n g)).
    Proof.
      intros (Hsd & Ev & _) E'. unfold file_vals, at_point. rewrite Ev, map_map. cbn [fst snd]. apply map_ext_in. intros [v i] Hv. cbn [fst snd]. f_equal.
      symmetry. apply (nth_error_nth _ _ (@n0 X _)). unfold pt. rewrite nth_error_map, columns_nth; [reflexivity|].
      destruct (C24_bijection st m sp k' any_hist Hm E nm1_f) as (B & _). assert (Hs : In i (map snd (sp_var2index sp))) by (apply in_map_iff; exists (v, i); auto).
      rewrite B in Hs. apply in_seq in Hs. lia.
    Qed.
    Lemma point_columns x : length x = n -> exists g, columns n g = x.
    Proof.
      intros Hx. exists (fun nm => match find (fun j => (xname j =? nm)%string) (seq 0 n) with Some j => nth j x 0%R | None => 0%R end).
      set (g := fun nm => _). assert (G : forall i, (i < n)%nat -> g (xname i) = nth i x 0%R).
      { intros i Hi. unfold g. destruct (find (fun j => (xname j =? xname i)%string) (seq 0 n)) as [j|] eqn:Ef.
        - apply find_some in Ef as [_ Ef]. apply String.eqb_eq, xname_inj in Ef. subst. reflexivity.
        - exfalso. assert (Q : (xname i =? xname i)%string = false) by (apply (find_none _ _ Ef i); apply in_seq; lia). rewrite String.eqb_refl in Q. discriminate Q. }
      unfold columns. rewrite (map_ext_in _ (fun i => nth i x 0%R)) by (intros i Hi; apply in_seq in Hi; apply G; lia).
      rewrite <- Hx. clear. induction x as [|r x IH]; [reflexivity|]. cbn [length seq map nth]. f_equal. rewrite <- seq_shift, map_map. exact IH.
    Qed.

    (** *** The objective has a value wherever its variables have *)
    Lemma rnode_defined w a a' : @RNode F X exact_limit vw1 (rlim exact_limit) w a a' ->
      forall vs, (forall v, occurs v a' -> exists z, evaluate vs v = Some z) -> exists z, evaluate vs a' = Some z.
    Proof.
      revert w a a'.
      apply (@RNode_both_ind F X exact_limit vw1 (rlim exact_limit) (fun w n n' => forall vs, (forall v, occurs v n' -> exists z, evaluate vs v = Some z) -> exists z, evaluate vs n' = Some z)
               (fun w l l' => forall vs, (forall n' v, In n' l' -> occurs v n' -> exists z, evaluate vs v = Some z) -> Forall (fun n' => exists z, evaluate vs n' = Some z) l')).
      - intros w i v v' Hw (_ & z & _ & -> & _) vs _. exists (IZR z). reflexivity.
      - intros w i s kd Hw Hl vs Hv. apply Hv. split; [reflexivity|constructor].
      - intros w i l l' Hw Hl IH vs Hv. rewrite evaluate_add. apply xsum_all. apply Forall_map. apply IH. intros n' v Hin [H1 H2]. apply Hv. split; [exact H1|]. eapply sub_arg; [exact Hin|exact H2].
      - intros w w1 w2 i a a' b b' Ha IHa Hb IHb Hw Hl vs Hv.
        destruct (IHa vs) as [x Ex]; [intros v [H1 H2]; apply Hv; split; [exact H1|]; eapply sub_arg; [|exact H2]; cbn; auto|].
        destruct (IHb vs) as [y Ey]; [intros v [H1 H2]; apply Hv; split; [exact H1|]; eapply sub_arg; [|exact H2]; cbn; auto|].
        cbn [evaluate]. rewrite Ex, Ey. cbn. eauto.
      - intros w Hw vs _. constructor.
      - intros w w1 w2 a a' l l' Ha IHa Hl IHl Hw Hlm vs Hv. constructor; [apply IHa; intros v; apply Hv; left; reflexivity|]. apply IHl. intros n' v Hin. apply Hv. right. exact Hin.
    Qed.
    Lemma obj_defined vs : (forall v, model_var (exact_model m) v -> exists z, evaluate vs v = Some z) -> exists z, obj_value (exact_model m) vs = Some z.
    Proof.
      intros Hv. destruct (exact_rel fsin fcos st ws m wide Hm) as (Ho & _). unfold obj_value. unfold model_var in Hv. revert Ho Hv.
      generalize (md_objective m) (md_objective (exact_model m)). intros o o' Ho Hv. destruct o as [f|f|], o' as [f'|f'|]; cbn [RObj] in Ho; try contradiction.
      - destruct Ho as [w Hw]. apply (rnode_defined _ _ _ Hw). intros v Hf. apply Hv. left. exact Hf.
      - destruct Ho as [w Hw]. destruct (rnode_defined _ _ _ Hw vs) as [z Ez]; [intros v Hf; apply Hv; left; exact Hf|]. rewrite Ez. cbn. eauto.
      - eauto.
    Qed.

    Lemma file_in : exists text doc shift,
      write_to_lp_file q = Ok text /\ read_lp (words text) = Some doc /\
      doc_names doc = map (fun vi => xname (snd vi)) (sp_var2index sp) /\
      (forall g, doc_feasible doc g -> model_feasible (exact_model m) (file_vals sp g)) /\
      (forall vs, model_feasible (exact_model m) vs -> in_box 100000000 (exact_model m) vs ->
         exists g, doc_feasible doc g /\ forall v, model_var (exact_model m) v -> evaluate (file_vals sp g) v = evaluate vs v) /\
      (forall g, obj_value (exact_model m) (file_vals sp g) = Some (doc_value doc g + shift)%R).
    Proof.
      destruct file_ready as (text & doc & Ew & Er & Hnames & Hfeas & Hval). destruct exact_sp as (sp' & E' & Hsp & _). pose proof Hsp as (Hsd & Ev & _).
      pose proof (any_of_aff _ (C61_history fsin fcos st ws wide)) as HhX. pose proof (exact_in m st Hm) as HmX.
      pose proof (fun g => file_vals_point sp' g Hsp E') as Hfv.
      assert (Hlen : forall g, length (columns n g) = m_nx (base_of (sp_prob sp'))).
      { intros g. unfold columns. rewrite map_length, seq_length. symmetry. exact (sd_nx _ _ Hsd). }
      destruct (C27_objective (exact_state st) (exact_model m) sp' k' HhX HmX E') as (shift & _ & _ & HC).
      assert (Hshift : exists s, shift = Some s).
      { set (g0 := fun _ : string => 0%R). destruct (HC (columns n g0) (Hlen g0)) as (phi & _ & Ho & _).
        destruct (obj_defined (at_point sp' (pt (columns n g0)))) as [z Ez].
        - intros v Hv. destruct (C24_bijection (exact_state st) (exact_model m) sp' k' HhX HmX E' x_nm1) as (_ & _ & HA & _). apply HA in Hv.
          apply in_map_iff in Hv as ([w i] & Ew' & Hv). cbn in Ew'. subst w.
          destruct (value_real (exact_state st) (exact_model m) sp' k' HhX HmX E' (columns n g0) v i (Hlen g0) Hv) as (r & _ & Hr). eauto.
        - rewrite Ez in Ho. destruct phi; [|discriminate Ho]. destruct shift as [s|]; [eauto|discriminate Ho]. }
      destruct Hshift as [s ->]. exists text, doc, s. split; [exact Ew|]. split; [exact Er|]. split.
      { rewrite Hnames. rewrite <- (map_map snd xname). f_equal. symmetry. exact (proj1 (C24_bijection st m sp k' any_hist Hm E nm1_f)). }
      split; [|split].
      - intros g Hg. rewrite Hfv. refine (C26_sound (exact_state st) (exact_model m) sp' k' HhX HmX E' _ (exact_meaningful fsin fcos st ws m wide Hm) _).
        apply (feasible_data HO (exact_state st) (exact_model m) sp' k' (sp_prob sp) HhX HmX E' Hsd). apply Hfeas. exact Hg.
      - intros vs Hvs Hbox. destruct (C26_complete (exact_state st) (exact_model m) sp' k' HhX HmX E' vs Hvs Hbox) as (x & Hx & Hag).
        apply (feasible_data HO (exact_state st) (exact_model m) sp' k' (sp_prob sp) HhX HmX E' Hsd) in Hx. destruct (point_columns x (proj1 Hx)) as (g & <-).
        exists g. split; [apply Hfeas; exact Hx|]. intros v Hv. rewrite Hfv. apply Hag. exact Hv.
      - intros g. rewrite Hfv. destruct (HC (columns n g) (Hlen g)) as (phi & Hphi & Ho & _).
        destruct (value_data HO (exact_state st) (exact_model m) sp' k' (sp_prob sp) HhX HmX E' Hsd (columns n g) (Hlen g)) as (q1 & Q1 & Q2).
        destruct Hphi as (q2 & Q3 & Q4). rewrite Q1 in Q3. injection Q3 as <-. rewrite Q2 in Q4. subst phi. rewrite Ho, Hval. reflexivity.
    Qed.
  End File.
  (** ** C63 The LP file of an integer linear model says what the model says
      The text that is written is a legal LP file with one column for each variable of the
      standard problem; its points satisfy the model, exactly; every point of the model
      within the default bounds is a point of the file; and its objective is the model's, up to
      a constant. *)
  Theorem C63_file (HO : HashOrd) t st ws m sp k' q :
    @int_hist_within NF text_limit st ws -> neutral HO -> In m (st_models st) ->
    @std_problem F NF HO m (st_k st) = Ok (sp, k') -> linear_part t (sp_prob sp) q ->
    (forall c, In c (md_constraints (exact_model m)) -> ckd c = Equal -> varies c) ->
    exists text doc shift,
      write_to_lp_file q = Ok text /\ read_lp (words text) = Some doc /\
      doc_names doc = map (fun vi => xname (snd vi)) (sp_var2index sp) /\
      (forall g, doc_feasible doc g -> model_feasible (exact_model m) (file_vals sp g)) /\
      (forall vs, model_feasible (exact_model m) vs -> in_box 100000000 (exact_model m) vs ->
         exists g, doc_feasible doc g /\ forall v, model_var (exact_model m) v -> evaluate (file_vals sp g) v = evaluate vs v) /\
      (forall g, obj_value (exact_model m) (file_vals sp g) = Some (doc_value doc g + shift)%R).
  Proof. intros Hh Hn Hm E Hq Hv. exact (file_in HO t st ws m sp k' q Hh Hn Hm E Hq Hv). Qed.

  (** *** What a correct program answers *)
  Lemma program_solved (HO : HashOrd) t calls o f st ws m sp k' s :
    @int_hist_within NF text_limit st ws -> neutral HO -> In m (st_models st) ->
    (forall c, In c (md_constraints (exact_model m)) -> ckd c = Equal -> varies c) -> correct_program t o ->
    @std_problem F NF HO m (st_k st) = Ok (sp, k') ->
    cmd_solver t (parameters t calls) o f (sp_prob sp) = Ok (inl (Solved, s)) ->
    Forall (fun v => finiteb v = true) (s_x s) /\ data_optimal (sp_prob sp) (map fval (s_x s)).
  Proof.
    intros Hh Hn Hm Hv Hprog Esp Es.
    unfold cmd_solver in Es. destruct (cmd_solve t (parameters t calls) (sp_prob sp) o f) as [f' [r|e]] eqn:Ec; cbn [snd] in Es; [|discriminate]. injection Es as ->.
    destruct (proj1 (C48_result t calls _ (sp_prob sp) o f (Solved, s) eq_refl) (ex_intro _ f' Ec))
      as (q & z1 & z2 & text & lvl & f2 & Hq & E1 & E2 & _ & Ew & _ & Hl & Er & Hread).
    destruct (f2 (output_name t z2)) as [file|] eqn:Eo; [|rewrite C45_missing_file in Hread; discriminate].
    change (match t with Cbc => true | Clp => false end) with (is_cbc t) in Hread.
    apply C45_solved in Hread as (_ & Hhead & _ & rs & Hrs & _ & ->).
    destruct (file_ready HO t st ws m sp k' q Hh Hn Hm Esp Hq Hv) as (text' & doc & Ew' & Erd & Hnames & Hfeas & Hval).
    rewrite Ew in Ew'. injection Ew' as <-.
    destruct (Hprog z1 z2 lvl _ f2 text doc file Er) as [HS _]; [unfold put; rewrite String.eqb_refl; reflexivity|exact Erd|exact Eo|].
    destruct (HS Hhead rs Hrs) as (g & [Hgf Hgo] & Hg).
    destruct (linear_sizes t st m sp k' q (any_hist st ws Hh) Hm Esp Hq) as (_ & _ & _ & Emx & _).
    assert (Hj : forall j, (j < m_nx (base_of (sp_prob sp)))%nat -> In (xname j) (doc_names doc)).
    { intros j Hj. rewrite Hnames. apply in_map, in_seq. lia. }
    assert (Ex : map fval (s_x (listed (milp_nx q) (milp_na q) rs)) = columns (m_nx (base_of (sp_prob sp))) g).
    { unfold listed, columns. cbn [s_x]. rewrite map_map, Emx. apply map_ext_in. intros j Hin. apply in_seq in Hin. apply Hg. apply Hj. rewrite Emx. lia. }
    split.
    - unfold listed. cbn [s_x]. apply Forall_map, Forall_forall. intros j Hin. apply in_seq in Hin. apply Hg. apply Hj. rewrite Emx. lia.
    - rewrite Ex. split; [apply Hfeas; exact Hgf|]. intros y Hy. destruct (point_columns sp y (proj1 Hy)) as (h & <-). rewrite <- !Hval. apply Hgo. apply Hfeas. exact Hy.
  Qed.
  Lemma program_status (HO : HashOrd) t calls o f st m m' k' :
    @hist F NF any_op st -> In m (st_models st) ->
    @solve F NF HO (cmd_solver t (parameters t calls) o f) m (st_k st) = (m', Returned (inl tt), k') ->
    forall sp stat s, @std_problem F NF HO m (st_k st) = Ok (sp, k') -> cmd_solver t (parameters t calls) o f (sp_prob sp) = Ok (inl (stat, s)) -> md_status m' = Some stat.
  Proof.
    intros Hh Hm Es sp stat s Esp Ea. destruct (C33_primals st _ m m' k' Hh Hm Es) as (sp1 & stat1 & s1 & Esp1 & Ea1 & Hst & _).
    rewrite Esp in Esp1. injection Esp1 as <-. rewrite Ea in Ea1. injection Ea1 as <- <-. exact Hst.
  Qed.

  (** ** C63 From the model to the solution, with Clp or Cbc
      An integer linear model is solved with a command-line solver whose program is correct.
      If the recorded status is Solved, then the recorded values satisfy the model as
      written, exactly, and no point within the default bounds is better. *)
  Theorem C63_optimal (HO : HashOrd) t calls o f st ws m m' k' :
    @int_hist_within NF text_limit st ws -> neutral HO -> In m (st_models st) ->
    (forall c, In c (md_constraints (exact_model m)) -> ckd c = Equal -> varies c) -> correct_program t o ->
    @solve F NF HO (cmd_solver t (parameters t calls) o f) m (st_k st) = (m', Returned (inl tt), k') -> md_status m' = Some Solved ->
    model_feasible (exact_model m) (exact_vals (md_primals m')) /\
    forall vs b, model_feasible (exact_model m) vs -> in_box 100000000 (exact_model m) vs -> obj_value (exact_model m) vs = Some b ->
      exists a, obj_value (exact_model m) (exact_vals (md_primals m')) = Some a /\ (a <= b)%R.
  Proof.
    intros Hh Hn Hm Hv Hprog Es Hst. apply (C61_optimal fsin fcos HO st ws m (cmd_solver t (parameters t calls) o f) m' k' (wide st ws Hh) Hn Hm Es).
    intros sp stat s Esp Ea. pose proof (program_status HO t calls o f st m m' k' (any_hist st ws Hh) Hm Es sp stat s Esp Ea) as Q. rewrite Hst in Q. injection Q as <-.
    exact (program_solved HO t calls o f st ws m sp k' s Hh Hn Hm Hv Hprog Esp Ea).
  Qed.
  (** With continuous variables only and a solution strictly inside the default bounds, no
      point at all is better. *)
  Theorem C63_global (HO : HashOrd) t calls o f st ws m m' k' :
    @int_hist_within NF text_limit st ws -> neutral HO -> In m (st_models st) -> ~ some_integer m ->
    (forall c, In c (md_constraints (exact_model m)) -> ckd c = Equal -> varies c) -> correct_program t o ->
    @solve F NF HO (cmd_solver t (parameters t calls) o f) m (st_k st) = (m', Returned (inl tt), k') -> md_status m' = Some Solved ->
    (forall v x, In (v, x) (md_primals m') -> (Rabs (fval x) < 100000000)%R) ->
    model_feasible (exact_model m) (exact_vals (md_primals m')) /\
    forall vs b, model_feasible (exact_model m) vs -> obj_value (exact_model m) vs = Some b ->
      exists a, obj_value (exact_model m) (exact_vals (md_primals m')) = Some a /\ (a <= b)%R.
  Proof.
    intros Hh Hn Hm Hni Hv Hprog Es Hst Hin. apply (C61_global fsin fcos HO st ws m (cmd_solver t (parameters t calls) o f) m' k' (wide st ws Hh) Hn Hm Hni Es); [|exact Hin].
    intros sp stat s Esp Ea. pose proof (program_status HO t calls o f st m m' k' (any_hist st ws Hh) Hm Es sp stat s Esp Ea) as Q. rewrite Hst in Q. injection Q as <-.
    exact (program_solved HO t calls o f st ws m sp k' s Hh Hn Hm Hv Hprog Esp Ea).
  Qed.
  (** If the recorded status is Infeasible, then no point within the default bounds satisfies
      the model. *)
  Theorem C63_infeasible (HO : HashOrd) t calls o f st ws m m' k' :
    @int_hist_within NF text_limit st ws -> neutral HO -> In m (st_models st) ->
    (forall c, In c (md_constraints (exact_model m)) -> ckd c = Equal -> varies c) -> correct_program t o ->
    @solve F NF HO (cmd_solver t (parameters t calls) o f) m (st_k st) = (m', Returned (inl tt), k') -> md_status m' = Some Infeasible ->
    forall vs, model_feasible (exact_model m) vs -> ~ in_box 100000000 (exact_model m) vs.
  Proof.
    intros Hh Hn Hm Hv Hprog Es Hst vs Hvs Hbox.
    destruct (C57_solution t calls o f st m m' k' (any_hist st ws Hh) Hm nm1_f Es)
      as (sp & q & z1 & z2 & text & lvl & f2 & Esp & Hq & E1 & E2 & Ew & Hl & Er & _ & Hfile).
    destruct (f2 (output_name t z2)) as [file|] eqn:Eo; [|destruct Hfile as [Q _]; congruence].
    destruct Hfile as (Q & _). assert (Hhead : header (is_cbc t) (part1 file) = Infeasible) by congruence.
    destruct (C63_file HO t st ws m sp k' q Hh Hn Hm Esp Hq Hv) as (text' & doc & shift & Ew' & Erd & _ & _ & Hback & _).
    pose proof (eq_trans (eq_sym Ew) Ew') as Ew2. injection Ew2 as <-. clear Ew'.
    destruct (Hprog z1 z2 lvl _ f2 text doc file Er) as [_ HI]; [unfold put; rewrite String.eqb_refl; reflexivity|exact Erd|exact Eo|].
    destruct (Hback vs Hvs Hbox) as (g & Hg & _). exact (HI Hhead g Hg).
  Qed.
End LpModel.

(** ** The hypotheses are met

      minimise x + 2 y   subject to   2 x + y == 7,  x <= 3,  y >= 0,  x integer
    solved with Cbc; the program behind the command recognises one file only. *)
Section Ex63.
  Local Existing Instance NumF0.
  Definition prog63 : list (call F) :=
    [CExpr (OVar "x" VarInteger); CExpr (OVar "y" VarContinuous); CExpr (OMulNS 1 (flit 2)); CExpr (OAddNN 0 2); CExpr (OMulSN (flit 2) 0); CExpr (OAddNN 4 1);
     CCmpNS 5 Equal (flit 7) "sum"; CCmpNS 0 LessEqual (flit 3) "cap"; CCmpNS 1 GreaterEqual (flit 0) "";
     CNewModel; CAddConstrs 0 [0; 1; 2]; CSetObj 0 Minimise 3].
  Definition st63 : mstate F := match mrun (H0 := ord_id) prog63 mstart with Some st => st | None => mstart end.
  Definition m63 : model F := match st_models st63 with m :: _ => m | [] => model_new end.
  Definition text63 : string :=
    match @std_problem F _ ord_id m63 (st_k st63) with
    | Ok (sp, _) => match sp_prob sp with PMilp q => match write_to_lp_file q with Ok text => text | _ => "" end | _ => "" end
    | _ => ""
    end.
  Definition sol63 : string := ("Optimal - objective value 5" ++ nls ++ "0 c_0 7 2" ++ nls ++ "0 x_0 3 -3" ++ nls ++ "1 x_1 1 0" ++ nls)%string.
  Definition sys63 : osys :=
    mk_osys (Some "A1") (Some "B2") true None
      (fun _ args f => match f (hd "" args) with
                       | Some text => if (text =? text63)%string then (put f (last args "") sol63, true) else (put f (last args "") "Stopped", true)
                       | None => (f, false)
                       end).
  Definition doc63 : lp_doc F :=
    mk_doc "obj" [(flit 1, "x_0"); (flit 2, "x_1")] [mk_row "c_0" [(flit 2, "x_0"); (flit 1, "x_1")] (flit 7)]
      [(flit (-100000000), "x_0", flit 3); (S754_zero true, "x_1", flit 100000000)] ["x_0"].
  Lemma read63 : read_lp (words text63) = Some doc63.
  Proof. vm_compute. reflexivity. Qed.
  Ltac hstep63 H c t :=
    let H' := fresh in
    eassert (H' : int_hist_within text_limit _ _) by
      (eapply (@ih_step NumF0 text_limit ord_id _ _ c); [exact neutral_id|exact H|t|vm_compute; reflexivity]);
    clear H; rename H' into H; cbn [app] in H.
  Lemma hist63 : exists ws, int_hist_within text_limit st63 ws.
  Proof.
    assert (I : forall z, (Z.abs z <= 100)%Z -> integer (flit z) z) by (intros z Hz; apply fl_int; lia).
    assert (H0 : int_hist_within text_limit mstart []) by apply ih_start.
    hstep63 H0 (CExpr (@OVar F "x" VarInteger)) ltac:(eapply ic_expr; [exact Logic.I|apply sz_var|vm_compute; discriminate]).
    hstep63 H0 (CExpr (@OVar F "y" VarContinuous)) ltac:(eapply ic_expr; [exact Logic.I|apply sz_var|vm_compute; discriminate]).
    hstep63 H0 (CExpr (OMulNS 1 (flit 2))) ltac:(eapply ic_expr; [exact Logic.I|eapply sz_mul_ns; [reflexivity|apply (I 2%Z); lia]|vm_compute; discriminate]).
    hstep63 H0 (CExpr (@OAddNN F 0 2)) ltac:(eapply ic_expr; [exact Logic.I|eapply sz_add_nn; reflexivity|vm_compute; discriminate]).
    hstep63 H0 (CExpr (OMulSN (flit 2) 0)) ltac:(eapply ic_expr; [exact Logic.I|eapply sz_mul_sn; [reflexivity|apply (I 2%Z); lia]|vm_compute; discriminate]).
    hstep63 H0 (CExpr (@OAddNN F 4 1)) ltac:(eapply ic_expr; [exact Logic.I|eapply sz_add_nn; reflexivity|vm_compute; discriminate]).
    hstep63 H0 (CCmpNS 5 Equal (flit 7) "sum") ltac:(eapply ic_ns; [reflexivity|apply (I 7%Z); lia|vm_compute; discriminate]).
    hstep63 H0 (CCmpNS 0 LessEqual (flit 3) "cap") ltac:(eapply ic_ns; [reflexivity|apply (I 3%Z); lia|vm_compute; discriminate]).
    hstep63 H0 (CCmpNS 1 GreaterEqual (flit 0) "") ltac:(eapply ic_ns; [reflexivity|apply (I 0%Z); lia|vm_compute; discriminate]).
    hstep63 H0 (@CNewModel F) ltac:(apply ic_new).
    hstep63 H0 (@CAddConstrs F 0 [0; 1; 2]) ltac:(apply ic_adds).
    hstep63 H0 (@CSetObj F 0 Minimise 3) ltac:(apply ic_obj).
    eexists. match type of H0 with int_hist_within _ ?s ?w => enough (E : st63 = s) by (rewrite E; exact H0); vm_cast_no_check (@eq_refl (mstate F) s) end.
  Qed.
  Lemma program63 : correct_program Cbc sys63.
  Proof.
    assert (V : forall z, (Z.abs z <= 100000000)%Z -> fval (flit z) = IZR z) by (intros z Hz; apply fl_int; lia).
    assert (VV : fval (flit 1) = 1%R /\ fval (flit 2) = 2%R /\ fval (flit 3) = 3%R /\ fval (flit 7) = 7%R) by (repeat split; apply V; lia).
    destruct VV as (V1 & V2 & V3 & V7).
    intros z1 z2 lvl f f2 text doc file Er Ei Ed Eo.
    cbn [sys63 os_run] in Er. change (hd "" (arguments Cbc z1 z2 lvl)) with (input_name Cbc z1) in Er. rewrite Ei in Er.
    change (last (arguments Cbc z1 z2 lvl) "") with (output_name Cbc z2) in Er.
    destruct (String.eqb_spec text text63) as [->|_].
    - injection Er as <-. unfold put in Eo. rewrite String.eqb_refl in Eo. injection Eo as <-. rewrite read63 in Ed. injection Ed as <-.
      split; [|intros Hh; vm_compute in Hh; discriminate Hh]. intros _ rs Hrs.
      assert (Hb : body (is_cbc Cbc) sol63 = ["0 c_0 7 2"; "0 x_0 3 -3"; "1 x_1 1 0"]) by (vm_compute; reflexivity). rewrite Hb in Hrs. clear Hb.
      assert (G : forall l r r', says l r -> line_record l = Some r' -> r = r') by (intros l r r' H1 H2; apply line_record_says in H2; exact (says_det l r r' H1 H2)).
      inversion Hrs as [|l1 r1 ls1 rs1 S1 T1]; subst. inversion T1 as [|l2 r2 ls2 rs2 S2 T2]; subst. inversion T2 as [|l3 r3 ls3 rs3 S3 T3]; subst. inversion T3; subst.
      assert (E1 : r1 = RRow 0 (flit 2)) by (apply (G _ _ _ S1); vm_compute; reflexivity).
      assert (E2 : r2 = RVar 0 (flit 3) (flit (-3))) by (apply (G _ _ _ S2); vm_compute; reflexivity).
      assert (E3 : r3 = RVar 1 (flit 1) (flit 0)) by (apply (G _ _ _ S3); vm_compute; reflexivity).
      rewrite E1, E2, E3. clear E1 E2 E3 S1 S2 S3 T1 T2 T3 Hrs.
      exists (fun nm => if (nm =? "x_0")%string then 3%R else 1%R). split.
      + split.
        * split; [|split].
          -- constructor; [|constructor]. unfold row_holds. cbn [r_terms r_rhs total fold_right fst snd]. change (("x_0" =? "x_0")%string) with true. change (("x_1" =? "x_0")%string) with false.
             cbn iota. rewrite V1, V2, V7. lra.
          -- assert (P3 : forall (a a' : F) (b b' : string) (c c' : F), (a, b, c) = (a', b', c') -> a' = a /\ b' = b /\ c' = c)
               by (intros a a' b b' c c' E; inversion E; repeat split; reflexivity).
             intros lo nm hi [H|[H|[]]]; apply P3 in H; destruct H as (-> & -> & ->).
             ++ change (("x_0" =? "x_0")%string) with true. cbn iota. split; [apply above_small|apply below_small].
                ** exists (-100000000)%Z. split; [apply fl_int; lia|vm_compute; discriminate].
                ** rewrite V by lia. lra.
                ** exists 3%Z. split; [apply fl_int; lia|vm_compute; discriminate].
                ** rewrite V3. lra.
             ++ change (("x_1" =? "x_0")%string) with false. cbn iota. split; [cbn; lra|]. apply below_small.
                ** exists 100000000%Z. split; [apply fl_int; lia|vm_compute; discriminate].
                ** rewrite V by lia. lra.
          -- intros nm [<-|[]]. exists 3%Z. reflexivity.
        * intros h (F1 & F2 & _). cbn [doc63 d_rows] in F1. pose proof (Forall_inv F1) as R1. unfold row_holds in R1. cbn [r_terms r_rhs total fold_right fst snd] in R1. rewrite V1, V2, V7 in R1.
          destruct (F2 (flit (-100000000)) "x_0" (flit 3) (or_introl eq_refl)) as [_ B]. assert (B' : (h "x_0" <= 3)%R) by (rewrite <- V3; refine (proj1 (below_small _ _ _) B); exists 3%Z; split; [apply fl_int; lia|vm_compute; discriminate]).
          unfold doc_value. cbn [doc63 d_obj total fold_right fst snd]. change (("x_0" =? "x_0")%string) with true. change (("x_1" =? "x_0")%string) with false. cbn iota.
          rewrite V1, V2. lra.
      + intros j Hj. change (doc_names doc63) with [xname 0; xname 1] in Hj. destruct Hj as [Hj|[Hj|[]]]; apply xname_inj in Hj; subst j.
        * change (final (value_of 0) _) with (flit 3). split; [vm_compute; reflexivity|]. rewrite V3. reflexivity.
        * change (final (value_of 1) _) with (flit 1). split; [vm_compute; reflexivity|]. rewrite V1. reflexivity.
    - injection Er as <-. unfold put in Eo. rewrite String.eqb_refl in Eo. injection Eo as <-. split; intros Hh; vm_compute in Hh; discriminate Hh.
  Qed.
  Example C63_example : exists ws sp q m' k1 k',
    int_hist_within text_limit st63 ws /\ neutral ord_id /\ In m63 (st_models st63) /\
    (forall c, In c (md_constraints (exact_model m63)) -> ckd c = Equal -> varies c) /\ correct_program Cbc sys63 /\
    @std_problem F _ ord_id m63 (st_k st63) = Ok (sp, k1) /\ linear_part Cbc (sp_prob sp) q /\
    @solve F _ ord_id (cmd_solver Cbc (parameters Cbc []) sys63 (fun _ => None)) m63 (st_k st63) = (m', Returned (inl tt), k') /\ md_status m' = Some Solved /\
    map (fun vx => (name (fst vx), snd vx)) (md_primals m') = [("x", flit 3); ("y", flit 1)].
  Proof.
    destruct hist63 as [ws Hh].
    assert (C : match @std_problem F _ ord_id m63 (st_k st63) with Ok (sp, _) => match sp_prob sp with PMilp _ => true | _ => false end | _ => false end = true) by (vm_compute; reflexivity).
    destruct (@std_problem F _ ord_id m63 (st_k st63)) as [[sp k1]|] eqn:Esp; [|discriminate C]. destruct (sp_prob sp) as [|q| |] eqn:Ep; try discriminate C. clear C.
    exists ws, sp, q. eexists _, k1, _. split; [exact Hh|]. split; [exact neutral_id|].
    split. { assert (E : st_models st63 = [m63]) by (vm_compute; reflexivity). rewrite E. left. reflexivity. }
    split.
    { assert (Ec : md_constraints m63 = [mk_constraint 9 (NAdd 7 [NMul 6 (NConst 5 (flit 2)) (NVar 0 "x" VarInteger); NVar 1 "y" VarContinuous]) Equal (NConst 8 (flit 7)) "sum";
                                         mk_constraint 11 (NVar 0 "x" VarInteger) LessEqual (NConst 10 (flit 3)) "cap";
                                         mk_constraint 13 (NVar 1 "y" VarContinuous) GreaterEqual (NConst 12 (flit 0)) ""]) by (vm_compute; reflexivity).
      intros c Hc Hk. cbn [exact_model md_constraints] in Hc. rewrite Ec in Hc. cbn [map] in Hc. destruct Hc as [<-|[<-|[<-|[]]]]; try discriminate Hk.
      assert (X2 : xval (flit 2) = Some 2%R) by (assert (I2 : integer (flit 2) 2) by (apply fl_int; lia); rewrite (int_xval _ _ I2); f_equal; exact (proj2 (proj2 I2))).
      assert (X7 : xval (flit 7) = Some 7%R) by (assert (I7 : integer (flit 7) 7) by (apply fl_int; lia); rewrite (int_xval _ _ I7); f_equal; exact (proj2 (proj2 I7))).
      exists [(NVar 0 "x" VarInteger, Some 0%R); (NVar 1 "y" VarContinuous, Some 0%R)], [(NVar 0 "x" VarInteger, Some 1%R); (NVar 1 "y" VarContinuous, Some 0%R)].
      exists (2 * 0 + (0 + 0) - 7)%R, (2 * 1 + (0 + 0) - 7)%R.
      unfold diff. cbn [exact_con clhs crhs exact_node map]. rewrite !evaluate_add. cbn [map evaluate hget ptr_eq nid Nat.eqb fst snd]. rewrite X2, X7.
      split; [|split]; [| |lra].
      all: cbn; f_equal; ring. }
    split; [exact program63|]. split; [reflexivity|]. split; [right; split; [reflexivity|exact Ep]|].
    split; [vm_compute; reflexivity|]. split; vm_compute; reflexivity.
  Qed.
End Ex63.
