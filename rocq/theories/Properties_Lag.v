(** Property C83: the multipliers recorded by [solve] satisfy the first-order conditions of the
    model up to the tolerances of the solver and rounding, in binary64. *)
From Verif Require Import Base Num Node NodeInd NodeDiff NodeStd Constraint Matrix Problem ModelStd Model
     ExprSpec World Sim MapProofs StdPropProofs EvalProofs GradProofs MatSpec MatrixProofs ProblemProofs PartsProofs BuildProofs BuildMain ModelSpec EvalRun StdFacts
     Api ApiProofs ModelApi StdMain HistProofs OccProofs ConstrEquiv Properties_Constr Properties_Std ModelExample SolveProofs Properties_Solve TextSpec ExactSpec RoundSpec FmtProofs FloatProofs FloatOps RoundOps RoundProofs Properties_Text Properties_Exact Properties_Round
     NoFun RoundCoef CoefProofs HashProofs PolySpec BitSpec BitProofs Properties_Bit DerEstSpec DerEstProofs Properties_DerEst Properties_Full PlaceSpec SlotAny Properties_Place KktSpec KktProofs AffSpec Properties_Aff LagSpec.
From Coq Require Import Reals Lra Lia Classical_Prop Floats.SpecFloat.
From Flocq Require Import Core.
Import RoundSpec.
Local Open Scope R_scope.

Section C83.
  Variables fsin fcos : F -> F.
  Notation NF := (NumF fsin fcos).
  Local Instance num_f : Num F := NF.
  Hypotheses (Hsin : accurate fsin sin) (Hcos : accurate fcos cos).

  Lemma eqb_one (a : F) : @neqb F NF a (@n1 F NF) = true -> a = flit 1.
  Proof.
    assert (E1 : exists mm ee, flit 1 = S754_finite false mm ee) by (do 2 eexists; vm_compute; reflexivity).
    destruct E1 as (mm & ee & E1). change (SFeqb a (flit 1) = true -> a = flit 1). rewrite E1. unfold SFeqb, SFcompare.
    destruct a as [s0|s0| |s0 m0 e0']; try (destruct s0; discriminate). { discriminate. }
    destruct s0; [discriminate|]. destruct (Z.compare e0' ee) eqn:Ez; try discriminate. apply Z.compare_eq in Ez.
    destruct (Pos.compare_cont Eq m0 mm) eqn:Ep; try discriminate. apply Pos.compare_eq in Ep. subst. reflexivity.
  Qed.
  Lemma map_fst_combine {X Y} (l : list X) (l' : list Y) : length l = length l' -> map fst (combine l l') = l.
  Proof. revert l'. induction l as [|a l IH]; intros [|b l'] Hl; try discriminate; [reflexivity|]. cbn. f_equal. apply IH. injection Hl as Hl. exact Hl. Qed.
  Lemma weighted_seq w (f : nat -> R) n0 n : weighted (fun i => w (n0 + i)%nat) (map f (seq n0 n)) = total (map (fun i => w i * f i) (seq n0 n)).
  Proof.
    revert n0. induction n as [|n IH]; intros n0; [reflexivity|]. cbn [seq map weighted]. rewrite total_cons, <- IH, Nat.add_0_r. f_equal.
    assert (Ew : forall (w1 w2 : nat -> R) l, (forall i, w1 i = w2 i) -> weighted w1 l = weighted w2 l).
    { intros w1 w2 l. revert w1 w2. induction l as [|y l IHl]; intros w1 w2 He; [reflexivity|]. cbn [weighted]. rewrite He. f_equal. apply IHl. intros i. apply He. }
    apply Ew. intros i. f_equal. lia.
  Qed.
  Lemma recorded_at (m' : model F) c (l : list F) i : hget constr_eqb c (md_duals m') = nth_error l i -> hget constr_eqb c (md_duals m') <> None -> recorded_dual m' c = multiplier l i.
  Proof.
    intros G Hn. unfold recorded_dual, multiplier. rewrite G in *. destruct (nth_error l i) as [y|] eqn:Ey; [|contradiction]. rewrite (nth_error_nth _ _ (flit 0) Ey). reflexivity.
  Qed.
  Lemma share_sum (m' : model F) v r delta (D : node F -> R) (told : constraint F * slot F -> R) l ds :
    Forall2 (fun e d => Rabs (signed (ckd (fst e)) (recorded_dual m' (fst e)) * D d - told e) <= share NF v r delta m' (fst e, (d, D d))) l ds ->
    Rabs (combination m' (map fst l) (map D ds) - total (map told l)) <= total (map (share NF v r delta m') (combine (map fst l) (combine ds (map D ds)))).
  Proof.
    intros Hf. induction Hf as [|e d l ds H1 Hf IH].
    - unfold combination. cbn. rewrite Rminus_0_r, Rabs_R0. apply Rle_refl.
    - unfold combination in *. cbn [map combine fst snd]. rewrite !total_cons.
      match goal with |- Rabs (?a + ?b - (?c + ?d')) <= _ => replace (a + b - (c + d')) with ((a - c) + (b - d')) by ring end.
      eapply Rle_trans; [apply Rabs_triang|]. apply Rplus_le_compat; [exact H1|exact IH].
  Qed.
  (** The arithmetic of one row: [y] is the multiplier of the row, [z] its number, [D] the derivative. *)
  Lemma one_share S' y z D fe delta : Rabs (y - S') <= delta -> Rabs (z - D) <= fe -> Rabs (S' * D - y * z) <= (Rabs S' + delta) * fe + delta * Rabs D.
  Proof.
    intros H1 H2. replace (S' * D - y * z) with (- ((y * (z - D)) + (y - S') * D)) by ring. rewrite Rabs_Ropp.
    eapply Rle_trans; [apply Rabs_triang|]. rewrite !Rabs_mult. apply Rplus_le_compat.
    - apply Rmult_le_compat; [apply Rabs_pos|apply Rabs_pos| |exact H2].
      replace y with (S' + (y - S')) by ring. eapply Rle_trans; [apply Rabs_triang|]. lra.
    - apply Rmult_le_compat_r; [apply Rabs_pos|exact H1].
  Qed.
  Section Model.
    Context (HO : HashOrd).
    Variables (st : mstate F) (m : model F) (sp : std_prob F) (k' : nat).
    Hypothesis Hh : @hist F NF any_op st.
    Hypothesis Hm : In m (st_models st).
    Hypothesis E : @std_problem F NF HO m (st_k st) = Ok (sp, k').
    Hypothesis Hnd : NoDup (map cid (md_constraints m)).
    Variables (obj : std_comp F) (cs : cstd F) (slots : list (slot F)).
    Hypothesis Em : @model_std F NF HO m (st_k st) = Ok ((obj, cs), k').
    Hypothesis Hp : @arranged F NF (st_k st) m cs sp slots.
    Hypothesis Hcode : Forall2 (@slot_code F NF 0 0 (st_k st) cs) (md_constraints m) slots.
    Notation A := (m_a (base_of (sp_prob sp))).
    Notation diff_of c d := (gives (@sub_nn F NF (clhs c) (crhs c)) d).
    Notation CS := (combine (md_constraints m) slots).
    Let ord0 : @number_order F NF := C67_binary64 fsin fcos.

    Lemma row_in c i sl : In (c, SRow i sl) CS -> In (i, c) (sp_acons sp).
    Proof.
      intros Hin. destruct (Properties_Place.cs_ok st m sp cs slots Hp c _ Hin) as (_ & Hg & _).
      apply hget_some_in in Hg as (j & Hj & Ej). apply Nat.eqb_eq in Ej. subst j. exact Hj.
    Qed.
    Lemma fun_in c i sl : In (c, SFun i sl) CS -> In (i, c) (sp_jcons sp).
    Proof.
      intros Hin. destruct (Properties_Place.cs_ok st m sp cs slots Hp c _ Hin) as (_ & Hg & _).
      apply hget_some_in in Hg as (j & Hj & Ej). apply Nat.eqb_eq in Ej. subst j. exact Hj.
    Qed.
    Lemma new_absent c d v : In c (md_constraints m) -> diff_of c d -> (st_k st <= nid v)%nat -> ~ occurs v d.
    Proof.
      intros Hc (k0 & k1 & E0) Hv Ho. pose proof (sub_nn_occurs_l v _ _ _ _ _ E0 Ho) as G.
      pose proof (Properties_Place.old_var st m Hh Hm v c Hc G). lia.
    Qed.
    Lemma no_coefficient (d v : node F) : (forall w, occurs w d -> (nid w < st_k st)%nat) -> (st_k st <= nid v)%nat -> hget ptr_eq v (p_a (@std_properties F NF d)) = None.
    Proof.
      intros Hd Hv. destruct (hget ptr_eq v (p_a (@std_properties F NF d))) as [y|] eqn:G; [|reflexivity]. exfalso.
      apply hget_some_in in G as (w & Hw & Ew). apply ptr_eq_nid in Ew.
      assert (Ho : occurs w d) by (apply (@keys_occur F NF); apply (in_map fst) in Hw; exact Hw).
      specialize (Hd w Ho). lia.
    Qed.
    Lemma var_old v : model_var m v -> (nid v < st_k st)%nat.
    Proof.
      intros [Ho|(c & Hc & Hv)]; [|exact (Properties_Place.old_var st m Hh Hm v c Hc Hv)].
      destruct (hist_inv false st Hh) as (S & Hi).
      pose proof (hi_models _ _ _ Hi) as G. rewrite Forall_forall in G. destruct (G m Hm) as (Mi & _ & _).
      pose proof (hi_world _ _ _ Hi) as HW. pose proof (mi_obj _ _ Mi) as Mo.
      destruct (md_objective m); [| |destruct Ho]; apply (w_lt _ _ _ HW); exact (world_sub _ _ _ _ _ HW Mo (proj2 Ho)).
    Qed.
    Lemma diff_old c d : In c (md_constraints m) -> diff_of c d -> forall w, occurs w d -> (nid w < st_k st)%nat.
    Proof. intros Hc Hd w Hw. exact (var_old w (diff_vars fsin fcos m c d Hc Hd w Hw)). Qed.

    (** *** Columns of new variables *)
    Definition new_column (mat : coo F) (i : nat) (sl : option (node F)) : Prop :=
      forall v j, In (v, j) (sp_var2index sp) -> (st_k st <= nid v)%nat ->
        (sl = Some v -> at_pos mat i j = [@nm1 F NF]) /\ (sl <> Some v -> at_pos mat i j = []).
    Lemma at_pos_in (mat : coo F) i j a : In a (at_pos mat i j) <-> In (i, j, a) (entries mat).
    Proof.
      unfold at_pos. rewrite in_map_iff. split.
      - intros ([[i0 j0] b] & <- & Hb). apply filter_In in Hb as [Hb Hf]. cbn [fst snd] in *. apply andb_true_iff in Hf as [H1 H2].
        apply Nat.eqb_eq in H1. apply Nat.eqb_eq in H2. subst. exact Hb.
      - intros Hin. exists (i, j, a). split; [reflexivity|]. apply filter_In. split; [exact Hin|]. cbn [fst snd]. rewrite !Nat.eqb_refl. reflexivity.
    Qed.
    Lemma row_new c i sl : In (c, SRow i sl) CS -> new_column A i sl.
    Proof.
      intros Hin v j Hv Hnew. pose proof (row_in c i sl Hin) as Hi.
      destruct (Properties_Place.cs_ok st m sp cs slots Hp c _ Hin) as (_ & _ & _ & _ & Hent). specialize (Hent v j Hv).
      destruct (@C74_rows F NF HO st m sp k' Hh Hm E) as [_ HR]. destruct (HR i c Hi) as (Hc & sl0 & _ & (d & Hd) & Hco).
      destruct (Hco d Hd) as (_ & _ & Hpos). destruct (Hpos v j Hv) as [P1 P2].
      assert (Hcv : ~ constr_var c v).
      { intros Ho. pose proof (var_old v (or_intror (ex_intro _ c (conj Hc Ho)))). lia. }
      assert (Hx : sl0 <> Some v -> at_pos A i j = []).
      { intros Hne. rewrite (P2 Hne). change (match hget ptr_eq v (p_a (@std_properties F NF d)) with Some y => [y] | None => [] end = []).
        rewrite (no_coefficient d v (diff_old c d Hc Hd) Hnew). reflexivity. }
      pose proof (classic (sl0 = Some v)) as Dec.
      split.
      - intros ->. destruct Dec as [G|G]; [exact (P1 G)|]. exfalso.
        destruct (proj2 Hent (or_intror eq_refl)) as [a Ha]. apply at_pos_in in Ha. rewrite (Hx G) in Ha. destruct Ha.
      - intros Hne. destruct Dec as [G|G]; [|exact (Hx G)]. exfalso.
        assert (Ha : exists a, In (i, j, a) (entries A)) by (exists (@nm1 F NF); apply at_pos_in; rewrite (P1 G); left; reflexivity).
        destruct (proj1 Hent Ha); contradiction.
    Qed.
    Lemma own_upper c i sl s : In (c, SFun i sl) CS -> bounds_with cs c s (@n0 F NF) -> sl = Some s.
    Proof.
      intros Hin Hb. unfold bounds_with in Hb. destruct (ckd c) eqn:Ek; [destruct Hb| |].
      - rewrite (ar_uppers _ _ _ _ _ Hp) in Hb. apply in_flat_map in Hb as ([c' sl'] & Hin' & Hu). unfold upper_of in Hu. cbn [fst snd] in Hu.
        assert (Ec : c' = c) by (destruct (ckd c'), sl' as [? ?|? [?|]|? [?|]]; cbn [In] in Hu; try tauto; destruct Hu as [Hu|[]]; injection Hu; intros; congruence). subst c'.
        destruct (Properties_Place.cs_inj m Hnd slots _ _ _ _ Hin Hin' (constr_eqb_refl c)) as [_ <-]. rewrite Ek in Hu.
        destruct sl as [v|]; [|destruct Hu]. destruct Hu as [Hu|[]]. congruence.
      - rewrite (ar_lowers _ _ _ _ _ Hp) in Hb. apply in_flat_map in Hb as ([c' sl'] & Hin' & Hu). unfold lower_of in Hu. cbn [fst snd] in Hu.
        assert (Ec : c' = c) by (destruct (ckd c'), sl' as [? ?|? [?|]|? [?|]]; cbn [In] in Hu; try tauto; destruct Hu as [Hu|[]]; injection Hu; intros; congruence). subst c'.
        destruct (Properties_Place.cs_inj m Hnd slots _ _ _ _ Hin Hin' (constr_eqb_refl c)) as [_ <-]. rewrite Ek in Hu.
        destruct sl as [v|]; [|destruct Hu]. destruct Hu as [Hu|[]]. congruence.
    Qed.

      Lemma ix_nid v w i j : In (v, i) (sp_var2index sp) -> In (w, j) (sp_var2index sp) -> nid v = nid w -> v = w /\ i = j.
      Proof. intros H1 H2 Ep. destruct (@C24_bijection F NF HO st m sp k' Hh Hm E eq_refl) as (_ & B & _). exact (B v w i j H1 H2 Ep). Qed.
      Lemma ix_lt v i : In (v, i) (sp_var2index sp) -> (i < m_nx (base_of (sp_prob sp)))%nat.
      Proof.
        intros Hv. destruct (@C24_bijection F NF HO st m sp k' Hh Hm E eq_refl) as (B & _).
        assert (Hi : In i (map snd (sp_var2index sp))) by (apply in_map_iff; exists (v, i); auto). rewrite B in Hi. apply in_seq in Hi. lia.
      Qed.
      Lemma ix_eq v w i j : In (v, i) (sp_var2index sp) -> In (w, j) (sp_var2index sp) -> ptr_eq v w = true -> v = w /\ i = j.
      Proof.
        intros H1 H2 Ep. destruct (@C24_bijection F NF HO st m sp k' Hh Hm E eq_refl) as (_ & B & _). exact (B v w i j H1 H2 (ptr_eq_nid _ _ Ep)).
      Qed.
      Lemma bnd_index c w b : In (c, SBound w b) CS -> exists j, In (w, j) (sp_var2index sp).
      Proof.
        intros Hin. destruct (Properties_Place.cs_ok st m sp cs slots Hp c _ Hin) as (_ & Hb & _). unfold bounds_with in Hb.
        apply (Properties_Place.bnd_var st m sp k' Hh Hm E obj cs Em w b c). destruct (ckd c); [destruct Hb|auto|auto].
      Qed.
    (** *** The numbers at the point *)
    Section Point.
      Variables (x : list F) (vs : vals F) (r : nat -> R).
      Hypotheses (Has : assigns sp x vs) (Hr : reads vs r) (Hx : length x = m_nx (base_of (sp_prob sp))).
      Notation rdy d := (ready fsin fcos vs r d).
      Lemma evaluated_all :
        exists q e, minlp_evaluate (base_of (sp_prob sp)) x = Ok q /\ @minimises F NF (md_objective m) e /\
          (rdy e -> objective_near fsin fcos st sp r (m_bufs q) e) /\
          (forall v j, In (v, j) (sp_var2index sp) -> (st_k st <= nid v)%nat -> nth j (b_gphi (m_bufs q)) (flit 0) = flit 0) /\
          length (b_f (m_bufs q)) = length (cs_f cs) /\
          forall c i sl, In (c, SFun i sl) CS -> new_column (b_j (m_bufs q)) i sl /\
            exists d, diff_of c d /\ (rdy d -> column_near fsin fcos st sp (b_j (m_bufs q)) i d r).
      Proof.
        pose proof (@ev_start F NF (base_of (sp_prob sp))) as Hev.
        assert (Hzc : forall bf e, @minimises F NF (md_objective m) e -> @is_coefficients F NF sp e (b_gphi bf) ->
                  forall v j, In (v, j) (sp_var2index sp) -> (st_k st <= nid v)%nat -> nth j (b_gphi bf) (flit 0) = flit 0).
        { intros bf e He [_ Hg] v j Hv Hn. destruct (Hg v j Hv) as (y & Ey & Hy). rewrite (nth_error_nth _ _ (flit 0) Ey).
          pose proof (no_coefficient e v (fun w Hw => var_old w (min_vars fsin fcos m e He w Hw)) Hn) as G. rewrite G in Hy. exact Hy. }
        assert (Hcl : (class_of (sp_prob sp) = ClLp \/ class_of (sp_prob sp) = ClMilp) \/ (class_of (sp_prob sp) = ClNlp \/ class_of (sp_prob sp) = ClMinlp))
          by (destruct (class_of (sp_prob sp)); tauto).
        destruct Hcl as [Hcl|Hcl].
        - destruct (@C74_linear F NF HO st m sp k' Hh Hm E (base_of (sp_prob sp)) x Hcl Hev Hx) as (q & e & Eq & He & Ha & Hg & _ & _ & Hf & _).
          destruct (affine_objective fsin fcos HO st m sp k' Hh Hm E r (m_bufs q) e He Ha Hg) as (e' & He' & _ & Hob).
          pose proof (Properties_Aff.no_rows fsin fcos HO st m sp k' Hh Hm E Hcl) as Hnr.
          exists q, e'. split; [exact Eq|]. split; [exact He'|]. split; [intros [Hc _]; exact (Hob Hc)|]. split; [exact (Hzc _ e He Hg)|].
          split; [rewrite Hf, <- (ar_jcons _ _ _ _ _ Hp), Hnr; reflexivity|].
          intros c i sl Hin. exfalso. pose proof (fun_in c i sl Hin) as Hj. rewrite Hnr in Hj. destruct Hj.
        - destruct (@nonlinear_slacks F NF HO st m sp k' eq_refl Hh Hm E (base_of (sp_prob sp)) x Hcl Hev Hx) as (q & Eq & [_ (e & He & Be & Hob)] & Hseq & _ & Hrows).
          assert (Hob' : exists e', @minimises F NF (md_objective m) e' /\ (rdy e' -> objective_near fsin fcos st sp r (m_bufs q) e') /\
                    (forall v j, In (v, j) (sp_var2index sp) -> (st_k st <= nid v)%nat -> nth j (b_gphi (m_bufs q)) (flit 0) = flit 0)).
          { destruct (p_affine (@std_properties F NF e)) eqn:Ha.
            - destruct Hob as [Hg _]. destruct (affine_objective fsin fcos HO st m sp k' Hh Hm E r (m_bufs q) e He Ha Hg) as (e' & He' & _ & Hoa).
              exists e'. split; [exact He'|]. split; [intros [Hc _]; exact (Hoa Hc)|exact (Hzc _ e He Hg)].
            - destruct Hob as [Hg _]. exists e. split; [exact He|]. split.
              + intros [Hc Hs]. exact (nonlinear_objective fsin fcos Hsin Hcos HO st m sp k' Hh Hm E x vs r Has Hr (m_bufs q) e He Be Ha Hg Hc (Hs Ha)).
              + intros v j Hv Hn. destruct Hg as [_ Hg]. destruct (Hg v j Hv) as (y & Ey & _ & Hz). rewrite (nth_error_nth _ _ (flit 0) Ey). apply Hz.
                intros Hov. pose proof (var_old v (min_vars fsin fcos m e He v Hov)). lia. }
          destruct Hob' as (e' & He' & Hoe & Hz). exists q, e'. split; [exact Eq|]. split; [exact He'|]. split; [exact Hoe|]. split; [exact Hz|]. split.
          { apply (f_equal (@length nat)) in Hseq. rewrite map_length, seq_length in Hseq. rewrite <- Hseq. exact (ar_jcons _ _ _ _ _ Hp). }
          intros c i sl Hin. destruct (Hrows i c (fun_in c i sl Hin)) as (Hc & sl0 & Hown & Hrow & Hb).
          assert (Esl : sl0 = sl).
          { destruct sl0 as [s0|].
            - symmetry. exact (own_upper c i sl s0 Hin (Hb s0 obj cs eq_refl Em)).
            - destruct sl as [v|]; [|reflexivity]. destruct (Properties_Place.cs_ok st m sp cs slots Hp c _ Hin) as (_ & _ & (_ & _ & Hbw) & _).
              unfold bounds_with in Hbw. cbn [own_slack] in Hown. rewrite Hown in Hbw. destruct Hbw. }
          subst sl0. split.
          + intros v j Hv Hn. destruct Hrow as [_ (d & h & Gd & _ & _ & _ & Hj & _)]. destruct (Hj v j Hv) as (_ & H2 & H3). split; [exact H2|].
            intros Hne. apply H3; [|exact Hne]. intros Hov. pose proof (diff_old c d Hc Gd v Hov). lia.
          + destruct (nonlinear_row fsin fcos Hsin Hcos HO st m sp k' Hh Hm E x vs r Has Hr (m_bufs q) i c Hc (ex_intro _ sl (conj Hown Hrow))) as (d & Gd & Ha & _ & Hd).
            exists d. split; [exact Gd|]. intros [H1 H2]. exact (Hd H1 (H2 Ha)).
      Qed.

      (** A bound constraint: its derivative is one by its variable and zero by the others. *)
      Lemma bound_row c w b : In (c, SBound w b) CS ->
        exists d, diff_of c d /\ (finite_constants d -> forall v j, In (v, j) (sp_var2index sp) ->
          cell_derivative (real_value d) (nid v) r (dval (nid v) d r) /\
          (v = w -> Rabs (1 - dval (nid v) d r) <= first_error NF (nid v) r d) /\ (v <> w -> Rabs (0 - dval (nid v) d r) <= first_error NF (nid v) r d)).
      Proof.
        intros Hin. pose proof (in_combine_l _ _ _ _ Hin) as Hc.
        destruct (in_combine_F2 _ _ _ _ _ Hcode Hin) as (e & ((k0 & k1 & Ee) & _) & Haff & _ & _ & (a & Ea & Ha1 & _)).
        assert (Ge : diff_of c e) by (exists k0, k1; exact Ee).
        destruct (gives_built fsin fcos st m c e Hh Hm Hc Ge) as (d & Gd & Bd). exists d. split; [exact Gd|].
        assert (Ep : @std_properties F NF d = @std_properties F NF e).
        { apply std_properties_sim. exact (gives_sim _ _ _ d e (sub_nn_sim e0 _ _ _ _ eq_refl eq_refl) Gd Ge). }
        assert (Had : p_affine (@std_properties F NF d) = true) by (rewrite Ep; exact Haff).
        intros Hf v j Hv. destruct (coef_near fsin fcos v r d (v2i_var fsin fcos HO st m sp k' Hh Hm E v j Hv) (proj1 Bd) Hf Had) as [G1 G2].
        assert (Efe : first_error NF (nid v) r d = error_bound (e_ops (coefficient_est (nid v) d)) (e_mag (coefficient_est (nid v) d) r)) by (unfold first_error, first_est; rewrite Had; reflexivity).
        rewrite Efe. unfold near, coefficient in G2. rewrite Ep, Ea in G2. cbn [hget] in G2. split; [exact G1|]. split.
        - intros ->. rewrite ptr_eq_refl in G2.
          assert (Fa : finiteb a = true /\ float_value a = 1) by (rewrite (eqb_one a Ha1); split; [vm_compute; reflexivity|rewrite float_value_fval; exact (proj2 (flit_int 1 ltac:(vm_compute; discriminate)))]).
          destruct Fa as [F1 F2]. rewrite <- F2. exact (G2 F1).
        - intros Hne. destruct (ptr_eq v w) eqn:Epv.
          + exfalso. apply Hne. destruct (bnd_index c w b Hin) as [j' Hw]. exact (proj1 (ix_eq v w j j' Hv Hw Epv)).
          + replace 0 with (float_value (flit 0)) at 1 by (rewrite float_value_fval, fval_flit0; reflexivity). exact (G2 eq_refl).
      Qed.
    End Point.

    (** *** Multipliers *)
    Section Duals.
      Variables (stat : status) (s : sol F) (m' : model F) (eps tau : R).
      Hypothesis Hrec : @recorded F NF HO k' sp stat s m m'.
      Hypothesis Hns : near_stationary NF eps tau sp s.
      Hypothesis Htau : 0 <= tau.
      Variables (q : minlp F).
      Hypothesis Eq : minlp_evaluate (base_of (sp_prob sp)) (s_x s) = Ok q.
      Hypothesis Hlf : length (b_f (m_bufs q)) = length (cs_f cs).
      Hypothesis Hgn : forall v j, In (v, j) (sp_var2index sp) -> (st_k st <= nid v)%nat -> nth j (b_gphi (m_bufs q)) (flit 0) = flit 0.
      Hypothesis Hfn : forall c i sl, In (c, SFun i sl) CS -> new_column (b_j (m_bufs q)) i sl.

      Definition yv (e : constraint F * slot F) : R :=
        match snd e with SRow i _ => multiplier (s_lam s) i | SFun i _ => multiplier (s_nu s) i | SBound _ _ => 0 end.
      Definition dv (j : nat) (e : constraint F * slot F) : R :=
        match snd e with SRow i _ => stored A i j | SFun i _ => stored (b_j (m_bufs q)) i j | SBound _ _ => 0 end.
      Lemma rows_of {C} (f : slot F -> list C) : flat_map f slots = flat_map (fun e : constraint F * slot F => f (snd e)) CS.
      Proof. exact (flat_map_snd f _ _ (Properties_Place.cs_len st m sp cs slots Hp)). Qed.
      Lemma cs_nodup : NoDup CS.
      Proof.
        clear -Hnd. revert slots. induction (md_constraints m) as [|a l IH]; intros [|b l']; cbn; try constructor.
        - cbn in Hnd. apply NoDup_cons_iff in Hnd as [Ha _]. intros Hin. apply Ha. apply in_map. exact (in_combine_l _ _ _ _ Hin).
        - apply IH. cbn in Hnd. apply NoDup_cons_iff in Hnd as [_ Hn]. exact Hn.
      Qed.
      Lemma told_sum j :
        told_residual A (m_b (base_of (sp_prob sp))) (m_bufs q) (multiplier (s_lam s)) (multiplier (s_nu s)) (multiplier (s_mu s)) (multiplier (s_pi s)) j
        = float_value (nth j (b_gphi (m_bufs q)) (flit 0)) - total (map (fun e => yv e * dv j e) CS) + multiplier (s_mu s) j - multiplier (s_pi s) j.
      Proof.
        unfold told_residual.
        pose proof (weighted_seq (multiplier (s_lam s)) (fun i => stored A i j) 0 (length (m_b (base_of (sp_prob sp))))) as W1.
        pose proof (weighted_seq (multiplier (s_nu s)) (fun i => stored (b_j (m_bufs q)) i j) 0 (length (b_f (m_bufs q)))) as W2.
        cbn [Nat.add] in W1, W2. change (fun i => multiplier (s_lam s) i) with (multiplier (s_lam s)) in W1. change (fun i => multiplier (s_nu s) i) with (multiplier (s_nu s)) in W2.
        rewrite W1, W2, Hlf, <- (ar_rows _ _ _ _ _ Hp), <- (ar_funs _ _ _ _ _ Hp), !rows_of, !total_flat.
        match goal with |- ?g - ?a - ?b + ?mu - ?pi = ?g - ?c + ?mu - ?pi => assert (Hs : c = a + b); [|rewrite Hs; ring] end.
        rewrite <- total_plus. apply total_ext. intros [c sl] _. unfold yv, dv. cbn [snd].
        destruct sl; cbn [row_no fun_no map]; unfold total; cbn [fold_right]; lra.
      Qed.
      Lemma stationary v j : In (v, j) (sp_var2index sp) ->
        column_finite A (m_bufs q) j /\
        Rabs (float_value (nth j (b_gphi (m_bufs q)) (flit 0)) - total (map (fun e => yv e * dv j e) CS) + multiplier (s_mu s) j - multiplier (s_pi s) j) <= eps.
      Proof. intros Hv. rewrite <- told_sum. exact (ns_residual _ _ _ _ _ Hns q Eq j (ix_lt v j Hv)). Qed.

      Lemma mu_default v j : In (v, j) (sp_var2index sp) -> hget Nat.eqb j (sp_ucons sp) = None -> Rabs (multiplier (s_mu s) j) <= tau.
      Proof.
        intros Hv Hg. destruct (@Properties_Place.tightest_any F NF HO st m sp k' obj cs slots ord0 Hh Hm E Em Hp v j Hv) as ((u & Eu & _ & _ & Hc) & _).
        rewrite Hg in Hc. destruct Hc as [-> _]. exact (ns_upper _ _ _ _ _ Hns j Eu).
      Qed.
      Lemma pi_default v j : In (v, j) (sp_var2index sp) -> hget Nat.eqb j (sp_lcons sp) = None -> Rabs (multiplier (s_pi s) j) <= tau.
      Proof.
        intros Hv Hg. destruct (@Properties_Place.tightest_any F NF HO st m sp k' obj cs slots ord0 Hh Hm E Em Hp v j Hv) as (_ & (u & Eu & _ & _ & Hc)).
        rewrite Hg in Hc. destruct Hc as [-> _]. exact (ns_lower _ _ _ _ _ Hns j Eu).
      Qed.
      Lemma u_owner v j c : In (v, j) (sp_var2index sp) -> hget Nat.eqb j (sp_ucons sp) = Some c ->
        exists sl, In (c, sl) CS /\ ckd c = LessEqual /\ ((exists b, sl = SBound v b) \/ slack_of sl = [v]).
      Proof.
        intros Hv Hg. apply hget_some_in in Hg as (i & Hi & Ei). apply Nat.eqb_eq in Ei. subst i.
        destruct (@Properties_Place.ucons_slot F NF HO ord0 st m sp k' Hh Hm E obj cs slots Em Hp j c Hi) as (w & sl & Hw & Hin & Ek & Hsl).
        pose proof (Properties_Place.v2i_fun ord0 st m sp k' Hh Hm E _ _ _ Hw Hv) as ->. exists sl. auto.
      Qed.
      Lemma l_owner v j c : In (v, j) (sp_var2index sp) -> hget Nat.eqb j (sp_lcons sp) = Some c ->
        exists sl, In (c, sl) CS /\ ckd c = GreaterEqual /\ ((exists b, sl = SBound v b) \/ slack_of sl = [v]).
      Proof.
        intros Hv Hg. apply hget_some_in in Hg as (i & Hi & Ei). apply Nat.eqb_eq in Ei. subst i.
        destruct (@Properties_Place.lcons_slot F NF HO ord0 st m sp k' Hh Hm E obj cs slots Em Hp j c Hi) as (w & sl & Hw & Hin & Ek & Hsl).
        pose proof (Properties_Place.v2i_fun ord0 st m sp k' Hh Hm E _ _ _ Hw Hv) as ->. exists sl. auto.
      Qed.
      Lemma slack_new' c sl v : In (c, sl) CS -> slack_of sl = [v] -> (st_k st <= nid v)%nat.
      Proof. intros H1 H2. exact (proj1 (Properties_Place.slack_new st m sp cs slots Hp c sl v H1 H2)). Qed.
      Lemma slack_owner c sl v c' sl' : In (c, sl) CS -> slack_of sl = [v] -> In (c', sl') CS ->
        (exists b, sl' = SBound v b) \/ slack_of sl' = [v] -> c = c' /\ sl = sl'.
      Proof.
        intros Hin Hs Hin' [(b & ->)|Hs'].
        - exfalso. pose proof (Properties_Place.bound_old st m sp Hh Hm cs slots Hp c' v b Hin') as B. pose proof (slack_new' c sl v Hin Hs). lia.
        - exact (Properties_Place.slack_inj st m sp cs slots Hp c sl c' sl' v Hin Hin' Hs Hs').
      Qed.
      Lemma slack_mu c sl v j : In (c, sl) CS -> slack_of sl = [v] -> In (v, j) (sp_var2index sp) -> ckd c <> LessEqual -> Rabs (multiplier (s_mu s) j) <= tau.
      Proof.
        intros Hin Hs Hj Hk. destruct (hget Nat.eqb j (sp_ucons sp)) as [c'|] eqn:Hg; [|exact (mu_default v j Hj Hg)].
        exfalso. destruct (u_owner v j c' Hj Hg) as (sl' & Hin' & Ek & Hc). destruct (slack_owner c sl v c' sl' Hin Hs Hin' Hc) as [-> _]. contradiction.
      Qed.
      Lemma slack_pi c sl v j : In (c, sl) CS -> slack_of sl = [v] -> In (v, j) (sp_var2index sp) -> ckd c <> GreaterEqual -> Rabs (multiplier (s_pi s) j) <= tau.
      Proof.
        intros Hin Hs Hj Hk. destruct (hget Nat.eqb j (sp_lcons sp)) as [c'|] eqn:Hg; [|exact (pi_default v j Hj Hg)].
        exfalso. destruct (l_owner v j c' Hj Hg) as (sl' & Hin' & Ek & Hc). destruct (slack_owner c sl v c' sl' Hin Hs Hin' Hc) as [-> _]. contradiction.
      Qed.
      Lemma stored_nil (mat : coo F) i j : at_pos mat i j = [] -> stored mat i j = 0.
      Proof. intros Ea. unfold stored. rewrite Ea. reflexivity. Qed.
      Lemma stored_m1 (mat : coo F) i j : at_pos mat i j = [@nm1 F NF] -> stored mat i j = -1.
      Proof.
        intros Ea. unfold stored. rewrite Ea. cbn [map]. rewrite total_cons, float_value_fval.
        change (fval (@nm1 F NF)) with (fval (flit (-1))). rewrite (proj2 (flit_int (-1) ltac:(vm_compute; discriminate))). unfold total. cbn [fold_right]. lra.
      Qed.
      Lemma slack_column c0 sl0 v j : In (c0, sl0) CS -> slack_of sl0 = [v] -> In (v, j) (sp_var2index sp) ->
        total (map (fun e => yv e * dv j e) CS) = - yv (c0, sl0).
      Proof.
        intros Hin Hs Hj. pose proof (slack_new' c0 sl0 v Hin Hs) as Hn. rewrite (total_one _ CS (c0, sl0) cs_nodup Hin).
        - assert (Ed : dv j (c0, sl0) = -1); [|rewrite Ed; lra]. unfold dv. cbn [snd].
          destruct sl0 as [w b|i [w|]|i [w|]]; cbn [slack_of] in Hs; try discriminate; injection Hs as ->; apply stored_m1.
          + exact (proj1 (row_new c0 i (Some v) Hin v j Hj Hn) eq_refl).
          + exact (proj1 (Hfn c0 i (Some v) Hin v j Hj Hn) eq_refl).
        - intros [c sl] Hc Hne. assert (Ed : dv j (c, sl) = 0); [|rewrite Ed; lra]. unfold dv. cbn [snd].
          assert (Hns' : slack_of sl <> [v]).
          { intros G. apply Hne. destruct (Properties_Place.slack_inj st m sp cs slots Hp c sl c0 sl0 v Hc Hin G Hs) as [-> ->]. reflexivity. }
          destruct sl as [w b|i sl|i sl]; [reflexivity| |]; apply stored_nil.
          + apply (proj2 (row_new c i sl Hc v j Hj Hn)). intros ->. apply Hns'. reflexivity.
          + apply (proj2 (Hfn c i sl Hc v j Hj Hn)). intros ->. apply Hns'. reflexivity.
      Qed.
      Lemma dual_ok' c sl : In (c, sl) CS -> dual_of sp s c sl (hget constr_eqb c (md_duals m')).
      Proof. exact (Properties_Place.dual_ok ord0 st m sp k' Hh Hm E Hnd obj cs slots Em Hp stat s m' Hrec c sl). Qed.
      Lemma zero_value : float_value (flit 0) = 0.
      Proof. rewrite float_value_fval. apply fval_flit0. Qed.
      (** The multiplier of the row of a constraint is the recorded one up to the tolerances. *)
      Lemma close_dual c sl : In (c, sl) CS -> (forall w b, sl <> SBound w b) ->
        Rabs (yv (c, sl) - signed (ckd c) (recorded_dual m' c)) <= dual_slop (eps + tau) c.
      Proof.
        intros Hin Hnb. pose proof (dual_ok' c sl Hin) as Hd.
        assert (Hsk : forall v, slack_of sl = [v] -> forall j, In (v, j) (sp_var2index sp) -> Rabs (yv (c, sl) + multiplier (s_mu s) j - multiplier (s_pi s) j) <= eps).
        { intros v Hs j Hj. destruct (stationary v j Hj) as [_ Hst]. rewrite (slack_column c sl v j Hin Hs Hj), (Hgn v j Hj (slack_new' c sl v Hin Hs)), zero_value in Hst.
          replace (yv (c, sl) + multiplier (s_mu s) j - multiplier (s_pi s) j) with (0 - - yv (c, sl) + multiplier (s_mu s) j - multiplier (s_pi s) j) by ring. exact Hst. }
        unfold dual_of in Hd. unfold dual_slop. destruct (ckd c) eqn:Ek; cbn [signed].
        - destruct sl as [w b|i [v|]|i [v|]]; try (destruct Hd; fail); destruct Hd as [Hd1 Hd2]; rewrite (recorded_at m' c _ _ Hd1 Hd2);
            unfold yv; cbn [snd]; rewrite Rminus_diag_eq by reflexivity; rewrite Rabs_R0; apply Rle_refl.
        - destruct sl as [w b|i [v|]|i [v|]]; [destruct (Hnb w b eq_refl)| |destruct Hd| |destruct Hd]; destruct Hd as (j & Hj & Hd1 & Hd2); rewrite (recorded_at m' c _ _ Hd1 Hd2);
            pose proof (Hsk v eq_refl j Hj) as H1; pose proof (slack_pi c _ v j Hin eq_refl Hj ltac:(rewrite Ek; discriminate)) as H2;
            apply Rabs_le_inv in H1; apply Rabs_le_inv in H2; apply Rabs_le; lra.
        - destruct sl as [w b|i [v|]|i [v|]]; [destruct (Hnb w b eq_refl)| |destruct Hd| |destruct Hd]; destruct Hd as (j & Hj & Hd1 & Hd2); rewrite (recorded_at m' c _ _ Hd1 Hd2);
            pose proof (Hsk v eq_refl j Hj) as H1; pose proof (slack_mu c _ v j Hin eq_refl Hj ltac:(rewrite Ek; discriminate)) as H2;
            apply Rabs_le_inv in H1; apply Rabs_le_inv in H2; apply Rabs_le; lra.
      Qed.

      (** The bound constraints of a variable, together: minus its upper plus its lower multiplier. *)
      Definition bu (v : node F) (e : constraint F * slot F) : R :=
        match snd e, ckd (fst e) with SBound w _, LessEqual => if Nat.eqb (nid w) (nid v) then - recorded_dual m' (fst e) else 0 | _, _ => 0 end.
      Definition bl (v : node F) (e : constraint F * slot F) : R :=
        match snd e, ckd (fst e) with SBound w _, GreaterEqual => if Nat.eqb (nid w) (nid v) then recorded_dual m' (fst e) else 0 | _, _ => 0 end.
      Lemma not_recorded c : hget constr_eqb c (md_duals m') = None -> recorded_dual m' c = 0.
      Proof. intros G. unfold recorded_dual. rewrite G. reflexivity. Qed.
      Lemma bu_sum v j : In (v, j) (sp_var2index sp) -> (nid v < st_k st)%nat ->
        Rabs (total (map (bu v) CS) + multiplier (s_mu s) j) <= tau.
      Proof.
        intros Hv Hold.
        assert (Z : forall c w b, In (c, SBound w b) CS -> ckd c = LessEqual -> nid w = nid v ->
                  (hget Nat.eqb j (sp_ucons sp) = Some c -> recorded_dual m' c = multiplier (s_mu s) j) /\
                  (hget Nat.eqb j (sp_ucons sp) <> Some c -> recorded_dual m' c = 0)).
        { intros c w b Hin Ek Ew. destruct (bnd_index c w b Hin) as [j' Hw]. destruct (ix_nid w v j' j Hw Hv Ew) as [-> _].
          pose proof (dual_ok' c _ Hin) as Hd. unfold dual_of in Hd. rewrite Ek in Hd. destruct Hd as (i & Hi & H1 & H2).
          pose proof (Properties_Place.v2i_inj ord0 st m sp k' Hh Hm E _ _ _ Hi Hv) as ->. split.
          - intros G. destruct (H1 G) as [G1 G2]. exact (recorded_at m' c _ _ G1 G2).
          - intros G. exact (not_recorded c (H2 G)). }
        destruct (hget Nat.eqb j (sp_ucons sp)) as [c0|] eqn:Hg.
        - destruct (u_owner v j c0 Hv Hg) as (sl & Hin & Ek & [(b & ->)|Hs]); [|pose proof (slack_new' c0 sl v Hin Hs); lia].
          rewrite (total_one _ CS (c0, SBound v b) cs_nodup Hin).
          + unfold bu. cbn [fst snd]. rewrite Ek, Nat.eqb_refl, (proj1 (Z c0 v b Hin Ek eq_refl) eq_refl).
            rewrite Rplus_opp_l, Rabs_R0. exact Htau.
          + intros [c sl'] Hc Hne. unfold bu. cbn [fst snd]. destruct sl' as [w b'| |]; [|reflexivity|reflexivity]. destruct (ckd c) eqn:Ek'; [reflexivity| |reflexivity].
            destruct (Nat.eqb (nid w) (nid v)) eqn:Ew; [|reflexivity]. apply Nat.eqb_eq in Ew. rewrite (proj2 (Z c w b' Hc Ek' Ew)); [apply Ropp_0|].
            intros G. injection G as ->. apply Hne. destruct (Properties_Place.cs_inj m Hnd slots _ _ _ _ Hc Hin (constr_eqb_refl c)) as [_ ->]. reflexivity.
        - rewrite total_zero; [rewrite Rplus_0_l; exact (mu_default v j Hv Hg)|].
          intros [c sl'] Hc. unfold bu. cbn [fst snd]. destruct sl' as [w b'| |]; [|reflexivity|reflexivity]. destruct (ckd c) eqn:Ek'; [reflexivity| |reflexivity].
          destruct (Nat.eqb (nid w) (nid v)) eqn:Ew; [|reflexivity]. apply Nat.eqb_eq in Ew. rewrite (proj2 (Z c w b' Hc Ek' Ew)); [apply Ropp_0|discriminate].
      Qed.
      Lemma bl_sum v j : In (v, j) (sp_var2index sp) -> (nid v < st_k st)%nat ->
        Rabs (total (map (bl v) CS) - multiplier (s_pi s) j) <= tau.
      Proof.
        intros Hv Hold.
        assert (Z : forall c w b, In (c, SBound w b) CS -> ckd c = GreaterEqual -> nid w = nid v ->
                  (hget Nat.eqb j (sp_lcons sp) = Some c -> recorded_dual m' c = multiplier (s_pi s) j) /\
                  (hget Nat.eqb j (sp_lcons sp) <> Some c -> recorded_dual m' c = 0)).
        { intros c w b Hin Ek Ew. destruct (bnd_index c w b Hin) as [j' Hw]. destruct (ix_nid w v j' j Hw Hv Ew) as [-> _].
          pose proof (dual_ok' c _ Hin) as Hd. unfold dual_of in Hd. rewrite Ek in Hd. destruct Hd as (i & Hi & H1 & H2).
          pose proof (Properties_Place.v2i_inj ord0 st m sp k' Hh Hm E _ _ _ Hi Hv) as ->. split.
          - intros G. destruct (H1 G) as [G1 G2]. exact (recorded_at m' c _ _ G1 G2).
          - intros G. exact (not_recorded c (H2 G)). }
        destruct (hget Nat.eqb j (sp_lcons sp)) as [c0|] eqn:Hg.
        - destruct (l_owner v j c0 Hv Hg) as (sl & Hin & Ek & [(b & ->)|Hs]); [|pose proof (slack_new' c0 sl v Hin Hs); lia].
          rewrite (total_one _ CS (c0, SBound v b) cs_nodup Hin).
          + unfold bl. cbn [fst snd]. rewrite Ek, Nat.eqb_refl, (proj1 (Z c0 v b Hin Ek eq_refl) eq_refl).
            rewrite Rminus_diag_eq, Rabs_R0 by reflexivity. exact Htau.
          + intros [c sl'] Hc Hne. unfold bl. cbn [fst snd]. destruct sl' as [w b'| |]; [|reflexivity|reflexivity]. destruct (ckd c) eqn:Ek'; [reflexivity|reflexivity|].
            destruct (Nat.eqb (nid w) (nid v)) eqn:Ew; [|reflexivity]. apply Nat.eqb_eq in Ew. apply (proj2 (Z c w b' Hc Ek' Ew)).
            intros G. injection G as ->. apply Hne. destruct (Properties_Place.cs_inj m Hnd slots _ _ _ _ Hc Hin (constr_eqb_refl c)) as [_ ->]. reflexivity.
        - rewrite total_zero; [unfold Rminus; rewrite Rplus_0_l, Rabs_Ropp; exact (pi_default v j Hv Hg)|].
          intros [c sl'] Hc. unfold bl. cbn [fst snd]. destruct sl' as [w b'| |]; [|reflexivity|reflexivity]. destruct (ckd c) eqn:Ek'; [reflexivity|reflexivity|].
          destruct (Nat.eqb (nid w) (nid v)) eqn:Ew; [|reflexivity]. apply Nat.eqb_eq in Ew. apply (proj2 (Z c w b' Hc Ek' Ew)). discriminate.
      Qed.

      (** The conditions of one column. *)
      Variables (r : nat -> R) (e : node F) (ds : list (node F)).
      Hypothesis Hobj : objective_near fsin fcos st sp r (m_bufs q) e.
      Definition row_near (cs' : constraint F * slot F) (d : node F) : Prop :=
        match snd cs' with
        | SRow i _ => column_near fsin fcos st sp A i d r
        | SFun i _ => column_near fsin fcos st sp (b_j (m_bufs q)) i d r
        | SBound w _ => forall v j, In (v, j) (sp_var2index sp) ->
            cell_derivative (real_value d) (nid v) r (dval (nid v) d r) /\
            (v = w -> Rabs (1 - dval (nid v) d r) <= first_error NF (nid v) r d) /\ (v <> w -> Rabs (0 - dval (nid v) d r) <= first_error NF (nid v) r d)
        end.
      Hypothesis Hds : Forall2 row_near CS ds.
      Lemma row_near_derivative cs' d v j : row_near cs' d -> In (v, j) (sp_var2index sp) -> (nid v < st_k st)%nat -> cell_derivative (real_value d) (nid v) r (dval (nid v) d r).
      Proof. destruct cs' as [c [w b|i sl|i sl]]; cbn [row_near snd]; intros G Hv Hold; apply (G v j Hv); exact Hold. Qed.
      Definition told_row (v : node F) (j : nat) (cs' : constraint F * slot F) : R := yv cs' * dv j cs' + (bu v cs' + bl v cs').
      Lemma row_share v j cs' d : In (v, j) (sp_var2index sp) -> (nid v < st_k st)%nat -> In cs' CS -> row_near cs' d ->
        Rabs (signed (ckd (fst cs')) (recorded_dual m' (fst cs')) * dval (nid v) d r - told_row v j cs') <= share NF (nid v) r (eps + tau) m' (fst cs', (d, dval (nid v) d r)).
      Proof.
        intros Hv Hold Hin Hn. destruct (stationary v j Hv) as [(_ & C2 & C3) Hst]. assert (Heps : 0 <= eps) by (eapply Rle_trans; [apply Rabs_pos|exact Hst]). clear Hst.
        destruct cs' as [c sl]. cbn [fst]. unfold share, told_row.
        assert (Hsl : 0 <= dual_slop (eps + tau) c) by (unfold dual_slop; destruct (ckd c); lra).
        assert (Rs : Rabs (signed (ckd c) (recorded_dual m' c)) = Rabs (recorded_dual m' c)) by (destruct (ckd c); cbn [signed]; try rewrite Rabs_Ropp; reflexivity).
        assert (Hrow : (forall w b, sl <> SBound w b) -> forall z, dv j (c, sl) = z -> bu v (c, sl) + bl v (c, sl) = 0 -> Rabs (z - dval (nid v) d r) <= first_error NF (nid v) r d ->
                  Rabs (signed (ckd c) (recorded_dual m' c) * dval (nid v) d r - (yv (c, sl) * dv j (c, sl) + (bu v (c, sl) + bl v (c, sl)))) <= (Rabs (recorded_dual m' c) + dual_slop (eps + tau) c) * first_error NF (nid v) r d + dual_slop (eps + tau) c * Rabs (dval (nid v) d r)).
        { intros Hnb z Ez Eb Hz. rewrite Eb, Ez, Rplus_0_r, <- Rs. apply one_share; [exact (close_dual c sl Hin Hnb)|exact Hz]. }
        destruct sl as [w b|i sl|i sl]; cbn [row_near snd] in Hn.
        - clear Hrow. destruct (Hn v j Hv) as (_ & H1 & H2).
          assert (Hfe : 0 <= first_error NF (nid v) r d).
          { destruct (Nat.eq_dec (nid v) (nid w)) as [Ew|Ew].
            - destruct (bnd_index c w b Hin) as [j' Hw]. destruct (ix_nid v w j j' Hv Hw Ew) as [Evw _]. eapply Rle_trans; [apply Rabs_pos|exact (H1 Evw)].
            - eapply Rle_trans; [apply Rabs_pos|]. apply H2. intros ->. apply Ew. reflexivity. }
          assert (Hk : bu v (c, SBound w b) + bl v (c, SBound w b) = signed (ckd c) (recorded_dual m' c) * (if Nat.eqb (nid w) (nid v) then 1 else 0)).
          { pose proof (Properties_Place.cs_ok st m sp cs slots Hp c _ Hin) as (_ & Hb & _). unfold bounds_with in Hb.
            unfold bu, bl. cbn [fst snd]. destruct (ckd c); [destruct Hb| |]; cbn [signed]; destruct (Nat.eqb (nid w) (nid v)); ring. }
          rewrite Hk. unfold yv, dv. cbn [snd].
          set (one := if Nat.eqb (nid w) (nid v) then 1 else 0) in *.
          assert (Hone : Rabs (one - dval (nid v) d r) <= first_error NF (nid v) r d).
          { unfold one. destruct (Nat.eqb (nid w) (nid v)) eqn:Ew.
            - apply Nat.eqb_eq in Ew. destruct (bnd_index c w b Hin) as [j' Hw]. destruct (ix_nid v w j j' Hv Hw (eq_sym Ew)) as [Evw _]. exact (H1 Evw).
            - apply H2. intros ->. rewrite Nat.eqb_refl in Ew. discriminate. }
          match goal with |- Rabs (?s0 * ?d0 - (0 * 0 + ?s0 * one)) <= _ => replace (s0 * d0 - (0 * 0 + s0 * one)) with (s0 * - (one - d0)) by ring end.
          rewrite Rabs_mult, Rabs_Ropp, Rs.
          eapply Rle_trans; [apply Rmult_le_compat_l; [apply Rabs_pos|exact Hone]|].
          assert (G : 0 <= dual_slop (eps + tau) c * first_error NF (nid v) r d) by (apply Rmult_le_pos; assumption).
          assert (G' : 0 <= dual_slop (eps + tau) c * Rabs (dval (nid v) d r)) by (apply Rmult_le_pos; [assumption|apply Rabs_pos]). lra.
        - apply (Hrow ltac:(intros w b; discriminate) _ eq_refl); [unfold bu, bl; cbn [fst snd]; lra|]. exact (proj2 (Hn v j Hv Hold) (C2 i)).
        - apply (Hrow ltac:(intros w b; discriminate) _ eq_refl); [unfold bu, bl; cbn [fst snd]; lra|]. exact (proj2 (Hn v j Hv Hold) (C3 i)).
      Qed.
      Lemma column_conditions v j : In (v, j) (sp_var2index sp) -> (nid v < st_k st)%nat ->
        let Ds := map (fun d => dval (nid v) d r) ds in
        Rabs (dval (nid v) e r - combination m' (md_constraints m) Ds) <=
          eps + 2 * tau + first_error NF (nid v) r e + total (map (share NF (nid v) r (eps + tau) m') (combine (md_constraints m) (combine ds Ds))).
      Proof.
        intros Hv Hold Ds. destruct (stationary v j Hv) as [(C1 & _) Hst]. pose proof (proj2 (Hobj v j Hv Hold) C1) as Ho.
        assert (Hf : map fst CS = md_constraints m) by (apply map_fst_combine; exact (Properties_Place.cs_len st m sp cs slots Hp)).
        pose proof (bu_sum v j Hv Hold) as Bu. pose proof (bl_sum v j Hv Hold) as Bl.
        assert (Hs : Rabs (combination m' (map fst CS) Ds - total (map (told_row v j) CS)) <= total (map (share NF (nid v) r (eps + tau) m') (combine (map fst CS) (combine ds Ds)))).
        { apply (share_sum m' (nid v) r (eps + tau) (fun d => dval (nid v) d r) (told_row v j)).
          assert (G : forall l ds', Forall2 row_near l ds' -> (forall x, In x l -> In x CS) ->
                    Forall2 (fun e d => Rabs (signed (ckd (fst e)) (recorded_dual m' (fst e)) * dval (nid v) d r - told_row v j e) <= share NF (nid v) r (eps + tau) m' (fst e, (d, dval (nid v) d r))) l ds').
          { intros l ds' Hl. induction Hl as [|a d l ds' H1 Hl IH]; intros Hi; constructor; [apply row_share; auto; apply Hi; left; reflexivity|]. apply IH. intros x Hx. apply Hi. right. exact Hx. }
          apply G; [exact Hds|auto]. }
        rewrite Hf in Hs. revert Hs. generalize (total (map (share NF (nid v) r (eps + tau) m') (combine (md_constraints m) (combine ds Ds)))) (combination m' (md_constraints m) Ds).
        unfold told_row. rewrite total_plus, total_plus. revert Ho Hst Bu Bl.
        generalize (total (map (bu v) CS)) (total (map (bl v) CS)) (total (map (fun a => yv a * dv j a) CS)) (multiplier (s_mu s) j) (multiplier (s_pi s) j) (dval (nid v) e r) (first_error NF (nid v) r e) (float_value (nth j (b_gphi (m_bufs q)) (flit 0))).
        clear. intros x1 x2 x3 mu pi d0 fe g0 Ho Hst Bu Bl sh cb Hs.
        apply Rabs_le_inv in Ho. apply Rabs_le_inv in Hst. apply Rabs_le_inv in Bu. apply Rabs_le_inv in Bl. apply Rabs_le_inv in Hs. apply Rabs_le. lra.
      Qed.
    End Duals.
  End Model.

  (** ** C83 After a solve whose solver answers with a stationary point, up to [eps], of the numbers it
      was given, the derivative of the objective of the model by each of its variables at the recorded
      point is the combination of the derivatives of left minus right sides of the constraints with
      the recorded multipliers, up to the tolerances and the rounding errors of the expressions. *)
  Theorem C83_first_order (HO : HashOrd) (st : mstate F) solver m m' k' :
    @hist F NF any_op st -> In m (st_models st) -> @solve F NF HO solver m (st_k st) = (m', Returned (inl tt), k') -> NoDup (map cid (md_constraints m)) ->
    exists sp stat s, @std_problem F NF HO m (st_k st) = Ok (sp, k') /\ solver (sp_prob sp) = Ok (inl (stat, s)) /\
    forall eps tau r, near_stationary NF eps tau sp s -> 0 <= tau -> reads (md_primals m') r ->
      exists e ds, @minimises F NF (md_objective m) e /\ Forall2 (fun c d => gives (@sub_nn F NF (clhs c) (crhs c)) d) (md_constraints m) ds /\
        (Forall finite_constants (e :: ds) ->
         Forall (fun d => p_affine (@std_properties F NF d) = false -> safe_quotients NF true (md_primals m') r d) (e :: ds) ->
         forall v, model_var m v -> exists g Ds,
           cell_derivative (real_value e) (nid v) r g /\
           Forall2 (fun d D => cell_derivative (real_value d) (nid v) r D) ds Ds /\
           Rabs (g - combination m' (md_constraints m) Ds) <=
             eps + 2 * tau + first_error NF (nid v) r e + total (map (share NF (nid v) r (eps + tau) m') (combine (md_constraints m) (combine ds Ds)))).
  Proof.
    intros Hh Hm Es Hnd. destruct (@solve_ok F NF HO _ _ _ _ _ Es) as (sp & stat & s & Esp & Eso & Er).
    pose proof (@record_spec F NF HO _ _ _ _ _ _ Er (@hist_v2i_nodup F NF HO st m sp k' Hh Hm Esp)) as Hrec.
    exists sp, stat, s. split; [exact Esp|]. split; [exact Eso|]. intros eps tau r Hns Htau Hr.
    assert (Has : assigns sp (s_x s) (md_primals m')).
    { destruct (@C33_primals F NF HO st solver m m' k' Hh Hm Es) as (sp0 & stat0 & s0 & Esp0 & Eso0 & _ & _ & _ & Hval).
      assert (Ep : sp0 = sp) by congruence. subst sp0. assert (Ess : s0 = s) by congruence. subst s0.
      intros v i Hv. destruct (Hval v i Hv) as (y & Ey & _ & Hg). exists y. split; assumption. }
    destruct (@arranged_code F NF HO st m sp k' Hh Hm Esp eq_refl) as (obj & cs & slots & Em & Hp & _ & Hcode & _).
    destruct (evaluated_all HO st m sp k' Hh Hm Esp Hnd obj cs slots Em Hp (s_x s) (md_primals m') r Has Hr (ns_x _ _ _ _ _ Hns))
      as (q & e & Eq & He & Hob & Hgn & Hlf & Hfun).
    destruct (choose (fun cs' d => gives (@sub_nn F NF (clhs (fst cs')) (crhs (fst cs'))) d /\ (ready fsin fcos (md_primals m') r d -> row_near st sp q r cs' d)) (combine (md_constraints m) slots)) as (ds & Hds).
    { intros [c sl] Hin. cbn [fst]. unfold row_near. destruct sl as [w b|i sl|i sl]; cbn [snd].
      - destruct (bound_row HO st m sp k' Hh Hm Esp obj cs slots Em Hp Hcode r c w b Hin) as (d & Gd & Hd). exists d. split; [exact Gd|]. intros [Hf _]. exact (Hd Hf).
      - destruct (linear_row fsin fcos HO st m sp k' Hh Hm Esp i c r ltac:(eapply row_in; eauto)) as (d & Gd & _ & _ & Hd). exists d. split; [exact Gd|]. intros [Hf _]. exact (Hd Hf).
      - destruct (Hfun c i sl Hin) as (_ & d & Gd & Hd). exists d. split; [exact Gd|exact Hd]. }
    apply F2_and in Hds as [Hd1 Hd2]. exists e, ds. split; [exact He|]. split.
    { assert (Hl : length (md_constraints m) = length slots) by exact (Properties_Place.cs_len st m sp cs slots Hp).
      assert (Hf : map fst (combine (md_constraints m) slots) = md_constraints m) by (apply map_fst_combine; exact Hl).
      rewrite <- Hf. revert Hd1. generalize (combine (md_constraints m) slots). clear. intros l Hd. induction Hd as [|a b l l' H1 _ IH]; cbn [map]; constructor; assumption. }
    intros Hfc Hsq v Hv. inversion Hfc as [|? ? Fe Fd]; subst. inversion Hsq as [|? ? Se Sd]; subst. rewrite Forall_forall in Fd, Sd.
    assert (Hd3 : Forall2 (row_near st sp q r) (combine (md_constraints m) slots) ds).
    { revert Hd2. apply F2_weak. intros a d Hd G. exact (G (conj (Fd d Hd) (Sd d Hd))). }
    pose proof (var_old st m Hh Hm v Hv) as Hold.
    destruct (@C24_bijection F NF HO st m sp k' Hh Hm Esp eq_refl) as (_ & _ & HA & _).
    specialize (HA v Hv). apply in_map_iff in HA as ([w j] & Ew & Hj). cbn [fst] in Ew. subst w.
    pose proof (Hob (conj Fe Se)) as Ho.
    exists (dval (nid v) e r), (map (fun d => dval (nid v) d r) ds). split; [exact (proj1 (Ho v j Hj Hold))|]. split.
    - apply F2_map. apply F2_right with (l := combine (md_constraints m) slots). revert Hd3. apply F2_weak. intros a d _ G. exact (row_near_derivative st sp q r a d v j G Hj Hold).
    - exact (column_conditions HO st m sp k' Hh Hm Esp Hnd obj cs slots Em Hp stat s m' eps tau Hrec Hns Htau q Eq Hlf Hgn (fun c i sl Hin => proj1 (Hfun c i sl Hin)) r e ds Ho Hd3 v j Hj Hold).
  Qed.
End C83.

(** minimise x*x + 3*y  subject to  x >= 1,  x + y == 4,  x*y <= 3, and a solver that answers x = 1,
    y = 3 with multipliers of all the constraints and of a default bound. *)
Section Ex83.
  Local Open Scope string_scope.
  Notation NM := (NumF (machine sin) (machine cos)).
  Definition c83_prog : list (call F) :=
    [CExpr (OVar "x" VarContinuous); CExpr (OVar "y" VarContinuous); CExpr (OMulNN 0 0); CExpr (OMulNS 1 (flit 3)); CExpr (OAddNN 2 3); CExpr (OAddNN 0 1); CExpr (OMulNN 0 1);
     CCmpNS 0 GreaterEqual (flit 1) ""; CCmpNS 5 Equal (flit 4) ""; CCmpNS 6 LessEqual (flit 3) ""; CNewModel; CSetObj 0 Minimise 4; CAddConstrs 0 [0; 1; 2]%nat].
  Definition c83_obj : node F := NAdd 5 [NMul 2 c74_x c74_x; NMul 4 c74_y (NConst 3 (flit 3))].
  Definition c83_cons : list (constraint F) :=
    [{| cid := 9; clhs := c74_x; ckd := GreaterEqual; crhs := NConst 8 (flit 1); clabel := "" |};
     {| cid := 11; clhs := NAdd 6 [c74_x; c74_y]; ckd := Equal; crhs := NConst 10 (flit 4); clabel := "" |};
     {| cid := 13; clhs := NMul 7 c74_x c74_y; ckd := LessEqual; crhs := NConst 12 (flit 3); clabel := "" |}].
  Definition c83_sol : sol F := mk_sol [flit 0; flit 1; flit 3] [flit 4] [flit (-2)] [flit 2; flit 0; flit 0] [flit 0; flit 4; flit 1].
  Definition c83_solver (p : problem F) : res answer := Ok (inl (Solved, c83_sol)).
  Definition c83_r (i : nat) : R := match i with O => float_value (flit 1) | Datatypes.S O => float_value (flit 3) | _ => float_value (flit 0) end.
  Definition c83_ready (vs : vals F) (d : node F) : Prop := finite_constants d /\ (p_affine (@std_properties F NM d) = false -> safe_quotients NM true vs c83_r d).
  Example C83_example : exists (st : mstate F) m sp k' m',
    accurate (machine sin) sin /\ accurate (machine cos) cos /\
    @hist F NM any_op st /\ In m (st_models st) /\ @std_problem F NM ord_id m (st_k st) = Ok (sp, k') /\
    @solve F NM ord_id c83_solver m (st_k st) = (m', Returned (inl tt), k') /\ NoDup (map cid (md_constraints m)) /\
    near_stationary NM 0 1 sp c83_sol /\ reads (md_primals m') c83_r /\
    (forall e, @minimises F NM (md_objective m) e -> c83_ready (md_primals m') e) /\
    (forall c d, In c (md_constraints m) -> gives (@sub_nn F NM (clhs c) (crhs c)) d -> c83_ready (md_primals m') d) /\
    model_var m c74_x /\ map (recorded_dual m') (md_constraints m) = [float_value (flit 4); float_value (flit 4); float_value (flit 2)].
  Proof.
    assert (C : match @mrun F NM ord_id c83_prog mstart with
                | Some st => match st_models st with
                  | [m] => md_objective m = Minimize c83_obj /\ md_constraints m = c83_cons /\
                    match @std_problem F NM ord_id m (st_k st) with
                    | Ok (sp, _) => m_nx (base_of (sp_prob sp)) = 3%nat /\ length (m_b (base_of (sp_prob sp))) = 1%nat /\
                        entries (m_a (base_of (sp_prob sp))) = [(0%nat, 1%nat, flit 1); (0%nat, 2%nat, flit 1)] /\
                        m_u (base_of (sp_prob sp)) = [flit 0; flit 100000000; flit 100000000] /\
                        m_l (base_of (sp_prob sp)) = [flit (-100000000); flit 1; flit (-100000000)] /\
                        match minlp_evaluate (base_of (sp_prob sp)) (s_x c83_sol) with
                        | Ok q => b_gphi (m_bufs q) = [flit 0; flit 2; flit 3] /\ length (b_f (m_bufs q)) = 1%nat /\
                                  entries (b_j (m_bufs q)) = [(0%nat, 1%nat, flit 3); (0%nat, 2%nat, flit 1); (0%nat, 0%nat, flit (-1))]
                        | Panic _ => False end
                    | Panic _ => False end /\
                    match @solve F NM ord_id c83_solver m (st_k st) with
                    | (m', Returned (inl tt), _) => md_primals m' = [(NVar 53 "_s_j0_" VarContinuous, flit 0); (c74_x, flit 1); (c74_y, flit 3)] /\
                         map (fun c => hget constr_eqb c (md_duals m')) c83_cons = [Some (flit 4); Some (flit 4); Some (flit 2)]
                    | _ => False end
                  | _ => False end
                | None => False end) by (vm_compute; repeat split).
    destruct (@mrun F NM ord_id c83_prog mstart) as [st|] eqn:E; [|destruct C].
    destruct (st_models st) as [|m [|]] eqn:Em; try (destruct C; fail). destruct C as (C0 & C1 & C2 & C3).
    destruct (@std_problem F NM ord_id m (st_k st)) as [[sp k']|] eqn:Es; [|destruct C2].
    destruct C2 as (D1 & D2 & D3 & D4 & D5 & D6).
    destruct (minlp_evaluate (base_of (sp_prob sp)) (s_x c83_sol)) as [q|] eqn:Eq; [|destruct D6]. destruct D6 as (Q1 & Q2 & Q3).
    destruct (@solve F NM ord_id c83_solver m (st_k st)) as [[m' [[[]|]|]] k2] eqn:Ev; try (destruct C3; fail). destruct C3 as (C4 & C5).
    assert (Ek : k2 = k').
    { destruct (@solve_ok F NM ord_id _ _ _ _ _ Ev) as (sp0 & stat0 & s0 & Es0 & _). rewrite Es in Es0. congruence. }
    subst k2.
    assert (I0 : forall z, (Z.abs z <= 2 ^ 53)%Z -> finite64 (flit z) /\ float_value (flit z) = IZR z).
    { intros z Hz. destruct (flit_int z Hz) as [F1 V1]. split; [apply finite_fin; exact F1|]. rewrite float_value_fval. exact V1. }
    destruct (I0 0%Z ltac:(cbn; lia)) as [F0 V0]. destruct (I0 1%Z ltac:(cbn; lia)) as [F1 V1]. destruct (I0 2%Z ltac:(cbn; lia)) as [F2 V2]. destruct (I0 3%Z ltac:(cbn; lia)) as [F3 V3].
    destruct (I0 4%Z ltac:(cbn; lia)) as [F4 V4]. destruct (I0 (-2)%Z ltac:(cbn; lia)) as [F5 V5]. destruct (I0 (-1)%Z ltac:(cbn; lia)) as [F6 V6].
    destruct (I0 (-3)%Z ltac:(cbn; lia)) as [F7 V7]. destruct (I0 (-4)%Z ltac:(cbn; lia)) as [F8 V8].
    destruct (I0 100000000%Z ltac:(cbn; lia)) as [_ V9]. destruct (I0 (-100000000)%Z ltac:(cbn; lia)) as [_ V10]. clear I0.
    exists st, m, sp, k', m'. destruct C76_accurate as [A1 A2]. split; [exact A1|]. split; [exact A2|].
    split; [eapply (@mrun_hist F NM ord_id c83_prog mstart); [constructor|exact E]|].
    split; [rewrite Em; left; reflexivity|]. split; [exact Es|]. split; [exact Ev|].
    split; [rewrite C1; cbn [map cid c83_cons]; repeat constructor; cbn; intuition discriminate|].
    split.
    { constructor.
      - rewrite D1. reflexivity.
      - intros q0 Eq0 j Hj. assert (q0 = q) as -> by congruence. rewrite D1 in Hj. split.
        + unfold column_finite, stored_finite, at_pos. rewrite D3, Q1, Q3.
          destruct j as [|[|[|j]]]; [| | |exfalso; lia]; (split; [reflexivity|]); split; intros [|i]; cbn; repeat constructor.
        + unfold told_residual, stored, at_pos. rewrite D2, Q2, D3, Q1, Q3. unfold c83_sol, multiplier. cbn [s_lam s_nu s_mu s_pi seq map].
          destruct j as [|[|[|j]]]; [| | |exfalso; lia]; cbn [filter fst snd Nat.eqb andb map nth weighted total fold_right];
            rewrite ?V0, ?V1, ?V2, ?V3, ?V4, ?V5, ?V6; apply Rabs_le; lra.
      - intros j Hj. rewrite D4 in Hj. unfold multiplier, c83_sol. cbn [s_mu].
        destruct j as [|[|[|j]]]; cbn [nth_error nth] in *; [|rewrite V0; apply Rabs_le; lra|rewrite V0; apply Rabs_le; lra|destruct j; discriminate Hj].
        exfalso. pose proof (f_equal (fun o => match o with Some y => float_value y | None => 0 end) Hj) as G. cbn beta iota in G.
        change (@INF F NM) with (flit 100000000) in G. rewrite V0, V9 in G. lra.
      - intros j Hj. rewrite D5 in Hj. unfold multiplier, c83_sol. cbn [s_pi].
        destruct j as [|[|[|j]]]; cbn [nth_error nth] in *; [rewrite V0; apply Rabs_le; lra| |rewrite V1; apply Rabs_le; lra|destruct j; discriminate Hj].
        exfalso. pose proof (f_equal (fun o => match o with Some y => float_value y | None => 0 end) Hj) as G. cbn beta iota in G.
        change (@nneg F NM (@INF F NM)) with (flit (-100000000)) in G. rewrite V1, V10 in G. lra. }
    split.
    { rewrite C4. intros v x Hv Hg. destruct v as [i c|i s kd|i l|i a|i a b|i a b|i a]; try discriminate Hv. unfold c74_x, c74_y in Hg. cbn [hget ptr_eq] in Hg.
      destruct (Nat.eqb i 53) eqn:Ei0; [|destruct (Nat.eqb i 0) eqn:Ei; [|destruct (Nat.eqb i 1) eqn:Ei1; [|discriminate Hg]]].
      - apply Nat.eqb_eq in Ei0. assert (x = flit 0) as -> by congruence. subst i. split; [apply F0|reflexivity].
      - apply Nat.eqb_eq in Ei. assert (x = flit 1) as -> by congruence. subst i. split; [apply F1|reflexivity].
      - apply Nat.eqb_eq in Ei1. assert (x = flit 3) as -> by congruence. subst i. split; [apply F3|reflexivity]. }
    split.
    { rewrite C0. cbn [minimises]. intros e ->. split; [|intros _; repeat split]. intros i v Hs. unfold c83_obj, c74_x, c74_y in Hs.
      repeat match goal with
      | Hs : sub _ (NVar _ _ _) |- _ => inversion Hs; clear Hs; subst
      | Hs : sub _ (NConst _ _) |- _ => inversion Hs; clear Hs; subst
      | Hs : sub _ (NMul _ _ _) |- _ => inversion Hs; clear Hs; subst
      | Hs : sub _ (NAdd _ _) |- _ => inversion Hs; clear Hs; subst
      | Hi : In _ _ |- _ => cbn [arguments In] in Hi
      | Hi : _ \/ _ |- _ => destruct Hi as [<-|Hi]
      | Hi : False |- _ => destruct Hi
      end; exact F3. }
    split.
    { rewrite C1. intros c d Hc (k0 & k1 & E0). unfold c83_cons in Hc. destruct Hc as [<-|[<-|[<-|[]]]]; cbn [clhs crhs] in E0.
      - assert (Ed : d = NAdd (Datatypes.S (Datatypes.S k0)) [c74_x; NConst (Datatypes.S k0) (flit (-1))])
          by (vm_compute in E0; injection E0 as <- _; vm_compute; reflexivity).
        rewrite Ed. split; [|intros _; repeat split]. intros i v Hs. unfold c74_x in Hs.
        repeat match goal with
        | Hs : sub _ (NVar _ _ _) |- _ => inversion Hs; clear Hs; subst
        | Hs : sub _ (NConst _ _) |- _ => inversion Hs; clear Hs; subst
        | Hs : sub _ (NAdd _ _) |- _ => inversion Hs; clear Hs; subst
        | Hi : In _ _ |- _ => cbn [arguments In] in Hi
        | Hi : _ \/ _ |- _ => destruct Hi as [<-|Hi]
        | Hi : False |- _ => destruct Hi
        end; exact F6.
      - assert (Ed : d = NAdd (Datatypes.S (Datatypes.S k0)) [c74_x; c74_y; NConst (Datatypes.S k0) (flit (-4))])
          by (vm_compute in E0; injection E0 as <- _; vm_compute; reflexivity).
        rewrite Ed. split; [|intros _; repeat split]. intros i v Hs. unfold c74_x, c74_y in Hs.
        repeat match goal with
        | Hs : sub _ (NVar _ _ _) |- _ => inversion Hs; clear Hs; subst
        | Hs : sub _ (NConst _ _) |- _ => inversion Hs; clear Hs; subst
        | Hs : sub _ (NAdd _ _) |- _ => inversion Hs; clear Hs; subst
        | Hi : In _ _ |- _ => cbn [arguments In] in Hi
        | Hi : _ \/ _ |- _ => destruct Hi as [<-|Hi]
        | Hi : False |- _ => destruct Hi
        end; exact F8.
      - assert (Ed : d = NAdd (Datatypes.S (Datatypes.S k0)) [NMul 7 c74_x c74_y; NConst (Datatypes.S k0) (flit (-3))])
          by (vm_compute in E0; injection E0 as <- _; vm_compute; reflexivity).
        rewrite Ed. split; [|intros _; repeat split]. intros i v Hs. unfold c74_x, c74_y in Hs.
        repeat match goal with
        | Hs : sub _ (NVar _ _ _) |- _ => inversion Hs; clear Hs; subst
        | Hs : sub _ (NConst _ _) |- _ => inversion Hs; clear Hs; subst
        | Hs : sub _ (NMul _ _ _) |- _ => inversion Hs; clear Hs; subst
        | Hs : sub _ (NAdd _ _) |- _ => inversion Hs; clear Hs; subst
        | Hi : In _ _ |- _ => cbn [arguments In] in Hi
        | Hi : _ \/ _ |- _ => destruct Hi as [<-|Hi]
        | Hi : False |- _ => destruct Hi
        end; exact F7. }
    split.
    { left. rewrite C0. split; [reflexivity|]. unfold c83_obj. eapply sub_arg; [left; reflexivity|]. eapply sub_arg; [left; reflexivity|]. apply sub_refl. }
    rewrite C1. unfold recorded_dual. change (fun c => match hget constr_eqb c (md_duals m') with Some y => float_value y | None => 0 end)
      with (fun c => (fun o => match o with Some y => float_value y | None => 0 end) ((fun c => hget constr_eqb c (md_duals m')) c)).
    rewrite <- (map_map (fun c => hget constr_eqb c (md_duals m')) (fun o => match o with Some y => float_value y | None => 0 end)), C5. reflexivity.
  Qed.
End Ex83.
