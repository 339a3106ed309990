(** C68: the coefficients of linear models in binary64. *)
From Verif Require Import Base Num Node NodeInd NodeDiff NodeStd Constraint Matrix Problem ModelStd Model
     ExprSpec World MapProofs StdPropProofs EvalProofs GradProofs OccProofs ConstrSpec ConstrProofs PartsProofs ConstrEquiv
     MatSpec ProblemProofs BuildProofs BuildMain ModelSpec StdFacts
     Api ApiProofs ModelApi StdMain HistProofs HistAff Properties_Std StdFacts EvalRun PointProofs Properties_Solve TextSpec ExactSpec RoundSpec
     FmtProofs FloatProofs FloatOps RoundOps RoundProofs Properties_Text Properties_Exact Properties_Round PlaceSpec SlotAny Properties_Place
     NoFun RoundCoef CoefSpec CoefProofs CoefHist.
From Coq Require Import Reals Lra Lia Floats.SpecFloat.
Local Open Scope R_scope.

Section Props.
  Variables fsin fcos : F -> F.
  Notation NF := (NumF fsin fcos).
  Local Instance num_f : Num F := NF.
  Notation fitsa := (CoefProofs.fitsa fsin fcos).

  (** Every side of a constraint of a model and every objective has an estimate. *)
  Theorem C68_estimates st es m :
    @lin_hist NF st es -> In m (st_models st) ->
    (exists e, obj_est st es (md_objective m) e) /\
    forall c, In c (md_constraints m) -> (exists e, has_est st es (clhs c) e) /\ (exists e, has_est st es (crhs c) e).
  Proof.
    intros Hl Hm. destruct (lin_cinv fsin fcos st es Hl) as [_ [_ _ CM]]. rewrite Forall_forall in CM. destruct (CM m Hm) as [M1 M2 _].
    split; [exact M1|]. intros c Hc. rewrite Forall_forall in M2. exact (M2 c Hc).
  Qed.

  Lemma lin_any st es : @lin_hist NF st es -> hist any_op st.
  Proof. intros Hl. destruct (lin_cinv fsin fcos st es Hl) as [Hh _]. eapply hist_weaken; [|exact Hh]. intros; exact I. Qed.
  Lemma lin_affine st es m : @lin_hist NF st es -> In m (st_models st) -> all_affine m.
  Proof.
    intros Hl Hm. destruct (lin_cinv fsin fcos st es Hl) as [Hh _]. destruct (hist_aff st Hh) as (_ & _ & HM). rewrite Forall_forall in HM.
    destruct (HM m Hm) as (A1 & A2 & _). split; [exact A1|]. rewrite Forall_forall in A2. exact A2.
  Qed.
  Lemma f_nm1 : neqb (@nm1 F num_f) (@n0 F num_f) = false.
  Proof. exact (no_minus (C67_binary64 fsin fcos)). Qed.

  (** The problem is linear. *)
  Theorem C68_class {HO : HashOrd} st es m sp k' :
    @lin_hist NF st es -> In m (st_models st) -> std_problem m (st_k st) = Ok (sp, k') ->
    class_of (sp_prob sp) = ClLp \/ class_of (sp_prob sp) = ClMilp.
  Proof.
    intros Hl Hm E. pose proof (lin_any st es Hl) as Hh. pose proof (lin_affine st es m Hl Hm) as Ha.
    destruct (C28_class st m sp k' Hh Hm E f_nm1) as (_ & _ & G3 & G4).
    destruct (class_of (sp_prob sp)); auto; exfalso; [apply (proj1 (proj1 G3 eq_refl)); exact Ha|apply (proj1 (proj1 G4 eq_refl)); exact Ha].
  Qed.

  Lemma sv_near x e i : sv x (a_coef e i) (a_mag e i) (a_ops e) -> fin x -> near e i (fval x).
  Proof. intros [V A G] Hf. exact (G Hf). Qed.
  Lemma near0 n e cell : fitsa n e -> (forall w a, In (w, a) (p_a (std_properties n)) -> nid w <> cell) -> near e (Some cell) 0.
  Proof.
    intros Hf Hn. pose proof (fits_pa fsin fcos n e (NVar cell EmptyString VarContinuous) Hf eq_refl) as G.
    destruct (hget ptr_eq (NVar cell EmptyString VarContinuous) (p_a (std_properties n))) as [x|] eqn:Eg.
    - exfalso. apply hget_some_in in Eg as (w & Hw & Ep). apply ptr_eq_nid in Ep. apply (Hn w x Hw). symmetry. exact Ep.
    - cbn [nid] in G. pose proof (sv_near _ _ _ G fin_flit0) as Q. rewrite fval_flit0 in Q. exact Q.
  Qed.
  Lemma pa_close n e v a : fitsa n e -> is_var v = true -> In (v, a) (p_a (std_properties n)) ->
    sv a (a_coef e (Some (nid v))) (a_mag e (Some (nid v))) (a_ops e).
  Proof.
    intros Hf Hv Hin. pose proof (fits_pa fsin fcos n e v Hf Hv) as G.
    pose proof (pget_in v (p_a (std_properties n)) a (keys_nodup n) Hin) as Eg.
    destruct (hget ptr_eq v (p_a (std_properties n))) as [x|]; [|discriminate Eg]. injection Eg as ->. exact G.
  Qed.

  (** Each constraint has its place, what is stored there is close to the exact numbers, and the
      columns are the variables of the model and the slacks. *)
  Lemma close_arranged {HO : HashOrd} st es m sp k' :
    @lin_hist NF st es -> In m (st_models st) -> std_problem m (st_k st) = Ok (sp, k') ->
    exists obj cs slots, model_std m (st_k st) = Ok ((obj, cs), k') /\ arranged (st_k st) m cs sp slots /\
      (forall v, In v (map fst (sp_var2index sp)) <-> model_var m v \/ In v (flat_map slack_of slots)) /\
      Forall2 (slot_close st es sp) (md_constraints m) slots.
  Proof.
    intros Hl Hm E. pose proof (lin_any st es Hl) as Hh. pose proof (lin_affine st es m Hl Hm) as [_ Ha].
    destruct (arranged_code st m sp k' Hh Hm E f_nm1) as (obj & cs & slots & Em & Hp & Hin & HF & Hent & Eb).
    exists obj, cs, slots. split; [exact Em|]. split; [exact Hp|]. split; [exact Hin|].
    destruct (hist_inv false st Hh) as (S & Hi). pose proof (hi_world _ _ _ Hi) as HW.
    pose proof (hi_models _ _ _ Hi) as G. rewrite Forall_forall in G. destruct (G m Hm) as (Mi & _ & _).
    pose proof (mi_cons _ _ Mi) as HC. clear G.
    assert (HI : forall v, (exists c, In c (md_constraints m) /\ constr_var c v) -> exists i, In (v, i) (sp_var2index sp)).
    { intros v (c & Hc & Hv). assert (Gv : In v (map fst (sp_var2index sp))) by (apply Hin; left; right; exists c; auto).
      apply in_map_iff in Gv as ([w i] & <- & Hw). eauto. }
    clear Hin Hp. revert HF Ha HC HI. generalize (md_constraints m) as l. intros l HF. induction HF as [|c s l slots' Hs HF IH]; intros Ha HC HI; constructor.
    2: { apply IH; [intros d Hd; apply Ha; right; exact Hd|inversion HC; assumption|]. intros v (d & Hd & Hv). apply HI. exists d. split; [right; exact Hd|exact Hv]. }
    destruct Hs as (e & ((k1 & k2 & Es) & Haff & Hvars) & Hs). intros ea eb Hea Heb. cbv zeta.
    pose proof (fits_sub fsin fcos _ _ _ _ _ _ _ (has_fits fsin fcos _ _ _ _ Hl Hea) (has_fits fsin fcos _ _ _ _ Hl Heb) Es) as Hf.
    assert (Hold : forall v a, In (v, a) (p_a (std_properties e)) -> is_var v = true /\ (nid v < st_k st)%nat).
    { intros v a Hv. apply (in_map fst) in Hv. apply Hvars in Hv. inversion HC as [|? ? [S1 S2] _]; subst.
      destruct Hv as [[Vv Hv]|[Vv Hv]]; (split; [exact Vv|]); apply (w_lt _ _ _ HW); [exact (world_sub _ _ _ _ _ HW S1 Hv)|exact (world_sub _ _ _ _ _ HW S2 Hv)]. }
    destruct s as [v b|r sl|r sl].
    - destruct Hs as (_ & _ & Vv & a & Ep & Ea & ->). split; [apply sv_close_neg; exact (fits_pb fsin fcos e _ Hf)|]. split.
      + assert (Gs : sv a (a_coef (a_sub ea eb) (Some (nid v))) (a_mag (a_sub ea eb) (Some (nid v))) (a_ops (a_sub ea eb))) by (apply (pa_close e); [exact Hf|exact Vv|rewrite Ep; left; reflexivity]).
        destruct (neqb_fin a 1 z1 (sv_vb _ _ _ _ Gs) Ea) as [Fa Va]. pose proof (sv_near _ _ _ Gs Fa) as Q. rewrite Va in Q. exact Q.
      + intros cell Hc. apply (near0 e); [exact Hf|]. intros w x Hw. rewrite Ep in Hw. destruct Hw as [Hw|[]]. pose proof (f_equal fst Hw) as Ew. cbn [fst] in Ew. rewrite <- Ew. auto.
    - destruct Hs as (_ & _ & Hca & Hsl & Hb & Hperm). rewrite Nat.sub_0_r in *. split; [|split].
      + exists (nneg (p_b (std_properties e))). rewrite Eb. split; [exact Hb|]. apply sv_close_neg. exact (fits_pb fsin fcos e _ Hf).
      + intros v i a Hv Hent'. apply (Hent r v i a Hv) in Hent'. apply (Permutation_in _ Hperm) in Hent'. apply in_app_or in Hent' as [Hpa|Hsa].
        * destruct (Hold v a Hpa) as [Vv Lv]. assert (Esl : sl_eqb sl v = false).
          { destruct sl as [s|]; [|reflexivity]. cbn [sl_eqb]. destruct Hsl as (Ks & _). apply Nat.eqb_neq. lia. }
          rewrite Esl. apply sv_close. apply (pa_close e); assumption.
        * destruct sl as [s|]; [|destruct Hsa]. destruct Hsa as [Hsa|[]]. pose proof (f_equal fst Hsa) as E1. pose proof (f_equal snd Hsa) as E2. cbn [fst snd] in E1, E2.
          cbn [sl_eqb]. rewrite E1, Nat.eqb_refl. symmetry. exact E2.
      + intros cell Hno. apply (near0 e); [exact Hf|]. intros w a Hw Ew.
        destruct (HI w) as (i & Hwi). { exists c. split; [left; reflexivity|]. apply Hvars. apply (in_map fst) in Hw. exact Hw. }
        apply (Hno w i a Hwi Ew). apply (Hent r w i a Hwi). apply (Permutation_in _ (Permutation_sym Hperm)). apply in_or_app. left. exact Hw.
    - destruct Hs as (Hna & _). destruct (Ha c (or_introl eq_refl)) as [A1 A2]. assert (affb e = true) by (apply Haff; split; assumption). congruence.
  Qed.

  Theorem C68_constraints {HO : HashOrd} st es m sp k' :
    @lin_hist NF st es -> In m (st_models st) -> std_problem m (st_k st) = Ok (sp, k') ->
    exists obj cs slots, model_std m (st_k st) = Ok ((obj, cs), k') /\ arranged (st_k st) m cs sp slots /\
      Forall2 (slot_close st es sp) (md_constraints m) slots.
  Proof. intros Hl Hm E. destruct (close_arranged st es m sp k' Hl Hm E) as (obj & cs & slots & A & B & _ & C). eauto 6. Qed.

  Lemma F2_in_combine {A B} (Q : A -> B -> Prop) l l' : Forall2 Q l l' -> forall a b, In (a, b) (combine l l') -> Q a b.
  Proof. induction 1 as [|x y l l' Hxy Hf IH]; intros a b Hin; [destruct Hin|]; destruct Hin as [Hin|Hin]; [injection Hin as <- <-; exact Hxy|auto]. Qed.
  Lemma in_uppers (m : model F) (slots : list (slot F)) v b c :
    In (v, b, c) (uppers m slots) -> exists sl, In (c, sl) (combine (md_constraints m) slots) /\ ckd c = LessEqual /\
      (sl = SBound v b \/ In v (slack_of sl)).
  Proof.
    unfold uppers. rewrite in_flat_map. intros ([c' sl] & Hc & Hin). unfold upper_of in Hin. cbn [fst snd] in Hin. exists sl.
    destruct (ckd c') eqn:Ek; try (destruct Hin; fail).
    destruct sl as [w x|r [w|]|r [w|]]; try (destruct Hin; fail); destruct Hin as [Hin|[]];
      pose proof (f_equal snd Hin) as E3; pose proof (f_equal (fun x => fst (fst x)) Hin) as E1; pose proof (f_equal (fun x => snd (fst x)) Hin) as E2;
      cbn [fst snd] in E1, E2, E3; rewrite <- E3, <- E1, <- ?E2; (split; [exact Hc|]); (split; [exact Ek|]); [left|right|right]; cbn; auto.
  Qed.
  Lemma in_lowers (m : model F) (slots : list (slot F)) v b c :
    In (v, b, c) (lowers m slots) -> exists sl, In (c, sl) (combine (md_constraints m) slots) /\ ckd c = GreaterEqual /\
      (sl = SBound v b \/ In v (slack_of sl)).
  Proof.
    unfold lowers. rewrite in_flat_map. intros ([c' sl] & Hc & Hin). unfold lower_of in Hin. cbn [fst snd] in Hin. exists sl.
    destruct (ckd c') eqn:Ek; try (destruct Hin; fail).
    destruct sl as [w x|r [w|]|r [w|]]; try (destruct Hin; fail); destruct Hin as [Hin|[]];
      pose proof (f_equal snd Hin) as E3; pose proof (f_equal (fun x => fst (fst x)) Hin) as E1; pose proof (f_equal (fun x => snd (fst x)) Hin) as E2;
      cbn [fst snd] in E1, E2, E3; rewrite <- E3, <- E1, <- ?E2; (split; [exact Hc|]); (split; [exact Ek|]); [left|right|right]; cbn; auto.
  Qed.
  Lemma slack_is_new k cs sp c (sl : slot F) v : slot_any k cs sp c sl -> In v (slack_of sl) -> (k <= nid v)%nat.
  Proof.
    intros Hs Hv. destruct sl as [w x|r [w|]|r [w|]]; cbn in Hv; try contradiction; destruct Hv as [<-|[]].
    - destruct Hs as (_ & _ & (Hk & _) & _). exact Hk.
    - destruct Hs as (_ & _ & (Hk & _) & _). exact Hk.
  Qed.

  (** The rows of the matrix. *)
  Theorem C68_rows {HO : HashOrd} st es m sp k' r c :
    @lin_hist NF st es -> In m (st_models st) -> std_problem m (st_k st) = Ok (sp, k') -> In (r, c) (sp_acons sp) ->
    In c (md_constraints m) /\ exists sl, slot_close st es sp c (SRow r sl) /\
      match sl with Some s => ckd c <> Equal /\ (st_k st <= nid s)%nat | None => ckd c = Equal end.
  Proof.
    intros Hl Hm E Hr. pose proof (lin_any st es Hl) as Hh.
    destruct (C68_constraints st es m sp k' Hl Hm E) as (obj & cs & slots & Em & Hp & HF).
    destruct (acons_slot st m sp k' Hh Hm E obj cs slots Em Hp r c Hr) as (sl & Hin).
    pose proof (F2_in_combine _ _ _ HF _ _ Hin) as Hc. pose proof (F2_in_combine _ _ _ (ar_slots _ _ _ _ _ Hp) _ _ Hin) as Ha.
    split; [exact (in_combine_l _ _ _ _ Hin)|]. exists sl. split; [exact Hc|].
    destruct Ha as (_ & _ & Hs & _). destruct sl as [s|]; [|exact Hs]. destruct Hs as (Hk & _ & Hb). split; [|exact Hk].
    intros Ek. unfold bounds_with in Hb. rewrite Ek in Hb. exact Hb.
  Qed.

  (** The bounds of the variables of the model: where a constraint is responsible for the bound,
      it is close to the exact bound the constraint puts on the variable; elsewhere it is the
      default. *)
  Theorem C68_bounds {HO : HashOrd} st es m sp k' v i :
    @lin_hist NF st es -> In m (st_models st) -> std_problem m (st_k st) = Ok (sp, k') ->
    In (v, i) (sp_var2index sp) -> (nid v < st_k st)%nat ->
    (exists u, nth_error (m_u (base_of (sp_prob sp))) i = Some u /\
       match hget Nat.eqb i (sp_ucons sp) with
       | Some c => In c (md_constraints m) /\ ckd c = LessEqual /\ slot_close st es sp c (SBound v u)
       | None => u = INF
       end) /\
    (exists l, nth_error (m_l (base_of (sp_prob sp))) i = Some l /\
       match hget Nat.eqb i (sp_lcons sp) with
       | Some c => In c (md_constraints m) /\ ckd c = GreaterEqual /\ slot_close st es sp c (SBound v l)
       | None => l = nneg INF
       end).
  Proof.
    intros Hl Hm E Hv Hold. pose proof (lin_any st es Hl) as Hh.
    destruct (C68_constraints st es m sp k' Hl Hm E) as (obj & cs & slots & Em & Hp & HF).
    destruct (tightest_any st m sp k' obj cs slots (C67_binary64 fsin fcos) Hh Hm E Em Hp v i Hv) as [(u & Eu & Tu) (l & El & Tl)].
    split.
    - exists u. split; [exact Eu|]. destruct Tu as (_ & _ & Tu). destruct (hget Nat.eqb i (sp_ucons sp)) as [c|]; [|exact (proj1 Tu)].
      destruct Tu as (l1 & l2 & Eq & _). assert (Hin : In (v, u, c) (uppers m slots)) by (pose proof (in_elt (v, u, c) l1 l2) as G; rewrite <- Eq in G; exact G).
      apply in_uppers in Hin as (sl & Hin & Ek & [ -> | Hs]).
      + split; [exact (in_combine_l _ _ _ _ Hin)|]. split; [exact Ek|]. exact (F2_in_combine _ _ _ HF _ _ Hin).
      + exfalso. pose proof (slack_is_new _ _ _ _ _ v (F2_in_combine _ _ _ (ar_slots _ _ _ _ _ Hp) _ _ Hin) Hs). lia.
    - exists l. split; [exact El|]. destruct Tl as (_ & _ & Tl). destruct (hget Nat.eqb i (sp_lcons sp)) as [c|]; [|exact (proj1 Tl)].
      destruct Tl as (l1 & l2 & Eq & _). assert (Hin : In (v, l, c) (lowers m slots)) by (pose proof (in_elt (v, l, c) l1 l2) as G; rewrite <- Eq in G; exact G).
      apply in_lowers in Hin as (sl & Hin & Ek & [ -> | Hs]).
      + split; [exact (in_combine_l _ _ _ _ Hin)|]. split; [exact Ek|]. exact (F2_in_combine _ _ _ HF _ _ Hin).
      + exfalso. pose proof (slack_is_new _ _ _ _ _ v (F2_in_combine _ _ _ (ar_slots _ _ _ _ _ Hp) _ _ Hin) Hs). lia.
  Qed.

  Lemma obj_fits st es o e eo k ke : @lin_hist NF st es -> obj_est st es o e -> obj_exp o k = Ok (eo, ke) -> fitsa eo e.
  Proof.
    intros Hl He E. destruct o as [f|f|]; cbn [obj_exp obj_est] in *.
    - injection E as <- _. exact (has_fits fsin fcos _ _ _ _ Hl He).
    - destruct He as (e' & He & ->). eapply fits_neg; [exact (has_fits fsin fcos _ _ _ _ Hl He)|exact E].
    - subst e. injection E as <- _. apply fits_num. split; reflexivity.
  Qed.
  (** The objective: its coefficients are close to the exact ones of what is minimised; variables
      that are not in the problem have exact coefficients close to zero, and those of slacks are
      zero. *)
  Theorem C68_objective {HO : HashOrd} st es m sp k' e :
    @lin_hist NF st es -> In m (st_models st) -> std_problem m (st_k st) = Ok (sp, k') -> obj_est st es (md_objective m) e ->
    length (lin_c (sp_prob sp)) = m_nx (base_of (sp_prob sp)) /\
    (forall v i, In (v, i) (sp_var2index sp) ->
       exists x, nth_error (lin_c (sp_prob sp)) i = Some x /\
         ((nid v < st_k st)%nat -> close x (a_coef e (Some (nid v))) (a_ops e) (a_mag e (Some (nid v)))) /\
         ((st_k st <= nid v)%nat -> x = flit 0)) /\
    (forall cell, (forall v i, In (v, i) (sp_var2index sp) -> nid v <> cell) -> near e (Some cell) 0).
  Proof.
    intros Hl Hm E He. pose proof (lin_any st es Hl) as Hh. pose proof (C68_class st es m sp k' Hl Hm E) as Hcl.
    destruct (hist_run st m sp k' Hh Hm E) as (S & obj & S' & eo & ke & ko & ps & ar & jr & uc & lc & Hi & Mi & HW & Em & R & Esp & _).
    pose proof (sr_obj _ _ _ _ _ _ _ _ _ _ _ _ _ R) as Eo. pose proof (obj_fits st es _ e eo _ _ Hl He Eo) as Hf.
    assert (Eprop : sc_prop obj = std_properties eo).
    { pose proof (sr_comp _ _ _ _ _ _ _ _ _ _ _ _ _ R) as Ec. apply std_components_ok in Ec. apply Ec. }
    assert (Ec : lin_c (sp_prob sp) = p_cvec k' obj (cat ps)).
    { rewrite Esp in Hcl |- *. cbn [sp_prob] in *. unfold p_problem in *. destruct (p_linear obj (cat ps)); destruct (no_int k' obj (cat ps)); try reflexivity; destruct Hcl; discriminate. }
    assert (Hvar : forall v, In v (map fst (sp_var2index sp)) -> is_var v = true).
    { intros v Hv. rewrite Esp in Hv. cbn [sp_var2index] in Hv. rewrite enum_keys in Hv. exact (proj2 (run_vars_world _ _ _ _ _ _ _ _ _ _ _ _ _ v R Hv)). }
    assert (Hpa : forall w a, In (w, a) (p_a (std_properties eo)) -> In w (map fst (sp_var2index sp)) /\ (nid w < st_k st)%nat).
    { intros w a Hw. apply (in_map fst) in Hw. cbn [fst] in Hw. apply keys_occur in Hw. split.
      - rewrite Esp. cbn [sp_var2index]. rewrite enum_keys. apply (run_vars_in _ _ _ _ _ _ _ _ _ _ _ _ _ w R). left. exact Hw.
      - rewrite (obj_exp_occurs w _ _ _ _ f_nm1 Eo) in Hw. pose proof (mi_obj _ _ Mi) as So. destruct (md_objective m) as [f|f|]; [| |destruct Hw];
          apply (w_lt _ _ _ HW); exact (world_sub _ _ _ _ _ HW So (proj2 Hw)). }
    split; [|split].
    - rewrite Ec. unfold p_cvec. rewrite map_length, Esp. cbn [sp_prob]. destruct (base_shape k' (md_init m) obj (cat ps)) as (_ & _ & _ & _ & _ & _ & En). symmetry. exact En.
    - intros v i Hv. pose proof (in_map fst _ _ Hv) as Hk. cbn [fst] in Hk. pose proof (Hvar v Hk) as Vv.
      exists (lookup (fun _ => n0) (p_a (sc_prop obj)) v). split; [|split].
      + rewrite Ec. unfold p_cvec. rewrite nth_error_map. rewrite Esp in Hv. cbn [sp_var2index] in Hv. apply enum_in in Hv. rewrite Hv. reflexivity.
      + intros _. apply sv_close. pose proof (fits_pa fsin fcos eo e v Hf Vv) as G. unfold lookup. rewrite Eprop. exact G.
      + intros Hnew. unfold lookup. rewrite Eprop. destruct (hget ptr_eq v (p_a (std_properties eo))) as [x|] eqn:Eg; [|reflexivity].
        exfalso. apply hget_some_in in Eg as (w & Hw & Ep). apply ptr_eq_nid in Ep. pose proof (proj2 (Hpa w x Hw)). lia.
    - intros cell Hno. apply (near0 eo); [exact Hf|]. intros w a Hw. destruct (Hpa w a Hw) as [Hin _]. apply in_map_iff in Hin as ([w' i] & Ew & Hin).
      cbn [fst] in Ew. subst w'. exact (Hno w i Hin).
  Qed.
End Props.

(** ** The exact coefficients are those of the exact values *)
Lemma cells_ext n f g : (forall c, f c = g c) -> cells n f = cells n g.
Proof. intros Hfg. induction n as [|n IH]; cbn; [reflexivity|]. rewrite IH, Hfg. reflexivity. Qed.
Lemma cells_0 n f : (forall c, (c < n)%nat -> f c = 0) -> cells n f = 0.
Proof. induction n as [|n IH]; cbn; intros Hf; [reflexivity|]. rewrite IH, Hf by (intros; try apply Hf; lia). ring. Qed.
Lemma cells_plus n f g : cells n (fun c => f c + g c) = cells n f + cells n g.
Proof. induction n as [|n IH]; cbn; [ring|]. rewrite IH. ring. Qed.
Lemma cells_scal n a f : cells n (fun c => a * f c) = a * cells n f.
Proof. induction n as [|n IH]; cbn; [ring|]. rewrite IH. ring. Qed.
Lemma cells_one n k (r : nat -> R) : (k < n)%nat -> cells n (fun c => (if Nat.eqb c k then 1 else 0) * r c) = r k.
Proof.
  induction n as [|n IH]; intros Hk; [lia|]. cbn. destruct (Nat.eq_dec k n) as [-> |Hn].
  - rewrite Nat.eqb_refl, cells_0; [ring|]. intros c Hc. destruct (Nat.eqb_spec c n); [lia|ring].
  - rewrite IH by lia. destruct (Nat.eqb_spec n k); [lia|ring].
Qed.
(** Nothing is there at the cells not yet used. *)
Definition low (n : nat) (a : aest) : Prop := forall c, (n <= c)%nat -> a_coef a (Some c) = 0.
Lemma cells_more n n' f : (n <= n')%nat -> (forall c, (n <= c)%nat -> f c = 0) -> cells n' f = cells n f.
Proof. induction 1 as [|n' Hn IH]; intros Hf; [reflexivity|]. cbn. rewrite IH, Hf by (auto; lia). ring. Qed.
Lemma agrees_more n n' e a : (n <= n')%nat -> low n a -> agrees n e a -> agrees n' e a.
Proof. intros Hn Hl [V C]. constructor; [|exact C]. intros r. rewrite V. f_equal. symmetry. apply cells_more; [exact Hn|]. intros c Hc. rewrite (Hl c Hc). ring. Qed.

Lemma ag_num n v : agrees n (e_const v) (a_num v).
Proof. constructor; cbn; [|auto]. intros r. rewrite cells_0; [ring|]. intros; ring. Qed.
Lemma ag_add n a b fa fb : agrees n a fa -> agrees n b fb -> agrees n (e_add a b) (a_add fa fb).
Proof.
  intros [V1 C1] [V2 C2]. constructor; cbn [e_add e_val a_add a_coef a_con].
  - intros r. rewrite V1, V2. replace (cells n (fun c => (a_coef fa (Some c) + a_coef fb (Some c)) * r c))
      with (cells n (fun c => a_coef fa (Some c) * r c) + cells n (fun c => a_coef fb (Some c) * r c)); [ring|].
    rewrite <- cells_plus. apply cells_ext. intros c. ring.
  - intros Hc c. apply andb_true_iff in Hc as [H1 H2]. rewrite (C1 H1), (C2 H2). ring.
Qed.
Lemma ag_sub n a b fa fb : agrees n a fa -> agrees n b fb -> agrees n (e_sub a b) (a_sub fa fb).
Proof.
  intros [V1 C1] [V2 C2]. constructor; cbn [e_sub e_val a_sub a_coef a_con].
  - intros r. rewrite V1, V2. replace (cells n (fun c => (a_coef fa (Some c) - a_coef fb (Some c)) * r c))
      with (cells n (fun c => a_coef fa (Some c) * r c) + (-1) * cells n (fun c => a_coef fb (Some c) * r c)); [ring|].
    rewrite <- cells_scal, <- cells_plus. apply cells_ext. intros c. ring.
  - intros Hc c. apply andb_true_iff in Hc as [H1 H2]. rewrite (C1 H1), (C2 H2). ring.
Qed.
Lemma ag_scale n a b fa fb : agrees n a fa -> agrees n b fb -> a_con fa = true -> agrees n (e_mul a b) (a_scale fa fb).
Proof.
  intros [V1 C1] [V2 C2] Hc. constructor; cbn [e_mul e_val a_scale a_coef a_con].
  - intros r. rewrite V1, V2. rewrite (cells_0 n (fun c => a_coef fa (Some c) * r c)) by (intros; rewrite (C1 Hc); ring).
    replace (cells n (fun c => a_coef fa None * a_coef fb (Some c) * r c))
      with (a_coef fa None * cells n (fun c => a_coef fb (Some c) * r c)); [ring|].
    rewrite <- cells_scal. apply cells_ext. intros c. ring.
  - intros Hb c. rewrite (C2 Hb). ring.
Qed.
Lemma ag_eval n e e' a : (forall r, e_val e r = e_val e' r) -> agrees n e a -> agrees n e' a.
Proof. intros He [V C]. constructor; [|exact C]. intros r. rewrite <- He. apply V. Qed.
Lemma ag_div n a v fa : agrees n a fa -> agrees n (e_div a v) (a_div fa v).
Proof.
  intros [V C]. constructor; cbn [e_div e_val a_div a_coef a_con].
  - intros r. rewrite V. replace (cells n (fun c => a_coef fa (Some c) / float_value v * r c))
      with (/ float_value v * cells n (fun c => a_coef fa (Some c) * r c)); [unfold Rdiv; ring|].
    rewrite <- cells_scal. apply cells_ext. intros c. unfold Rdiv. ring.
  - intros Hc c. rewrite (C Hc). unfold Rdiv. ring.
Qed.
Lemma ag_neg n a fa : agrees n a fa -> agrees n (e_neg a) (a_neg fa).
Proof.
  intros [V C]. constructor; cbn [e_neg e_val a_neg a_coef a_con].
  - intros r. rewrite V. replace (cells n (fun c => - a_coef fa (Some c) * r c))
      with (-1 * cells n (fun c => a_coef fa (Some c) * r c)); [ring|].
    rewrite <- cells_scal. apply cells_ext. intros c. ring.
  - intros Hc c. rewrite (C Hc). ring.
Qed.
Lemma low_step n k fs o a : ((exists s kd, o = OVar s kd) -> (k < n)%nat) -> Forall (low n) fs -> aff_est k fs o a -> low n a.
Proof.
  intros Hk Hf Ho. rewrite Forall_forall in Hf. assert (G : forall i b, nth_error fs i = Some b -> low n b) by (intros i b Hb; apply Hf; exact (nth_error_In _ _ Hb)).
  destruct Ho; intros c Hc; cbn [a_var a_num a_add a_sub a_scale a_div a_neg a_coef];
    repeat match goal with Hn : nth_error fs _ = Some ?b |- _ => rewrite (G _ _ Hn c Hc); clear Hn end; unfold Rdiv; try ring.
  - assert (k < n)%nat by eauto. destruct (Nat.eqb_spec c k); [lia|reflexivity].
Qed.
Lemma ag_step n k es fs o e a : ((exists s kd, o = OVar s kd) -> (k < n)%nat) -> Forall2 (agrees n) es fs -> op_est k es o e -> aff_est k fs o a -> agrees n e a.
Proof.
  intros Hk Hf He Ha.
  assert (G : forall i x y, nth_error es i = Some x -> nth_error fs i = Some y -> agrees n x y) by (intros i x y; exact (F2_nth _ _ _ i x y Hf)).
  destruct He; inversion Ha; subst; eauto using ag_num, ag_add, ag_sub, ag_div, ag_neg.
  - constructor; [|discriminate]. intros r. cbn. rewrite cells_one by eauto. ring.
  - apply ag_scale; eauto.
  - eapply ag_eval; [|apply ag_scale; [eapply (G j); eassumption|eapply (G i); eassumption|assumption]]. intros r. cbn. ring.
  - eapply ag_eval; [|apply ag_scale; [apply (ag_num n v)|eapply (G i); eassumption|reflexivity]]. intros r. cbn. ring.
  - apply ag_scale; eauto using ag_num.
Qed.
(** For every program of calls that have both estimates, the coefficients are those of the exact
    values as functions of the numbers of the variables. *)
Theorem C68_exact `{Num F} k pool es fs :
  both_reach k pool es fs -> length es = length fs /\
  forall i e a r, nth_error es i = Some e -> nth_error fs i = Some a ->
    e_val e r = a_coef a None + cells k (fun c => a_coef a (Some c) * r c) /\
    (a_con a = true -> forall c, a_coef a (Some c) = 0).
Proof.
  intros Hb.
  assert (G : Forall2 (agrees k) es fs /\ Forall (low k) fs /\ exists S, world false k S /\ Forall S pool).
  { induction Hb as [|HO k pool es fs o n k' e a Hb (IA & IL & S & HW & HP) He Ha E].
    - split; [constructor|]. split; [constructor|]. exists (fun _ => False). split; [apply world_empty|constructor].
    - destruct (exec_grows false k S pool o HW HP I n k' E) as (K & S' & Hi & HW' & Hn).
      assert (Hv : (exists s kd, o = OVar s kd) -> (k < k')%nat).
      { intros (s & kd & ->). injection E as _ <-. apply Nat.lt_succ_diag_r. }
      assert (IL' : Forall (low k') fs).
      { eapply Forall_impl; [|exact IL]. intros x Hx c Hc. apply Hx. lia. }
      assert (IA' : Forall2 (agrees k') es fs).
      { clear -IA IL K. induction IA as [|x y es fs Hxy IA IH]; constructor.
        - apply (agrees_more k); [exact K|exact (Forall_inv IL)|exact Hxy].
        - apply IH. exact (Forall_inv_tail IL). }
      split; [|split].
      + apply Forall2_app; [exact IA'|]. constructor; [|constructor]. exact (ag_step k' k es fs o e a Hv IA' He Ha).
      + apply Forall_app. split; [exact IL'|]. constructor; [|constructor]. exact (low_step k' k fs o a Hv IL' Ha).
      + exists S'. split; [exact HW'|]. apply Forall_app. split; [|constructor; [exact Hn|constructor]].
        eapply Forall_impl; [|exact HP]. intros x Hx. apply Hi. exact Hx. }
  destruct G as (GA & _ & _). split; [exact (F2_len _ _ _ GA)|]. intros i e a r He Ha.
  destruct (F2_nth _ _ _ _ _ _ GA He Ha) as [V C]. split; [apply V|exact C].
Qed.

(** A model with rounded coefficients: 0.1 x + 0.2 x + 3 y <= 1, x <= 0.3, maximise (x + y) / 3. *)
Local Open Scope string_scope.
Ltac lin_finite := split; vm_compute; reflexivity.
Ltac lin_next call pf :=
  lazymatch goal with Hl : @lin_hist NumF0 ?st ?es |- _ =>
    let r := eval vm_compute in (@mexec F NumF0 ord_id st call) in
    lazymatch r with Some ?st1 =>
      let H1 := fresh "Hl" in
      eassert (H1 : @lin_hist NumF0 st1 _) by
        (refine (@lh_step NumF0 ord_id st es call st1 _ Hl _ _); [pf|vm_cast_no_check (@eq_refl (option (mstate F)) (Some st1))]);
      clear Hl; rename H1 into Hl
    end
  end.
Ltac lin_expr c := apply lc_expr; eapply c; (reflexivity || lin_finite).
Example C68_hypotheses : exists st es m sp k',
  @lin_hist NumF0 st es /\ In m (st_models st) /\ @std_problem F NumF0 ord_id m (st_k st) = Ok (sp, k') /\
  (exists i a e, In (0%nat, i, a) (entries (m_a (base_of (sp_prob sp)))) /\ nth_error es 6 = Some e /\
     SFltb (f_ratio 3 10) a = true /\ SFltb a (f_ratio 31 100) = true /\
     a_coef e (Some 0%nat) = float_value (f_ratio 1 10) * 1 + float_value (f_ratio 2 10) * 1 + float_value (flit 3) * 0).
Proof.
  pose proof (@lh_start NumF0) as Hl.
  lin_next (@CExpr F (OVar "x" VarContinuous)) ltac:(lin_expr ae_var).
  lin_next (@CExpr F (OVar "y" VarContinuous)) ltac:(lin_expr ae_var).
  lin_next (@CExpr F (OMulSN (f_ratio 1 10) 0)) ltac:(lin_expr ae_mul_sn).
  lin_next (@CExpr F (OMulSN (f_ratio 2 10) 0)) ltac:(lin_expr ae_mul_sn).
  lin_next (@CExpr F (OMulSN (flit 3) 1)) ltac:(lin_expr ae_mul_sn).
  lin_next (@CExpr F (OAddNN 2 3)) ltac:(lin_expr ae_add_nn).
  lin_next (@CExpr F (OAddNN 5 4)) ltac:(lin_expr ae_add_nn).
  lin_next (@CExpr F (OAddNN 0 1)) ltac:(lin_expr ae_add_nn).
  lin_next (@CExpr F (ODivNS 7 (flit 3))) ltac:(lin_expr ae_div_ns).
  lin_next (@CCmpNS F 6 LessEqual (flit 1) "row") ltac:(apply lc_ns; lin_finite).
  lin_next (@CCmpNS F 0 LessEqual (f_ratio 3 10) "bound") ltac:(apply lc_ns; lin_finite).
  lin_next (@CNewModel F) ltac:(apply lc_new).
  lin_next (@CSetObj F 0 Maximise 8) ltac:(apply lc_obj).
  lin_next (@CAddConstrs F 0 [0; 1]%nat) ltac:(apply lc_adds).
  match type of Hl with lin_hist ?st _ =>
    assert (C : match st_models st with
      | [m] => match @std_problem F NumF0 ord_id m (st_k st) with
               | Ok (sp, _) => existsb (fun q => Nat.eqb (fst (fst q)) 0 && (SFltb (f_ratio 3 10) (snd q) && SFltb (snd q) (f_ratio 31 100)))%bool
                                       (entries (m_a (base_of (sp_prob sp)))) = true
               | Panic _ => False end
      | _ => False end) by (vm_compute; reflexivity)
  end.
  cbn [st_models] in C. match type of C with match ?e with Ok _ => _ | Panic _ => _ end => destruct e as [[sp k']|] eqn:Esp; [|destruct C] end.
  apply existsb_exists in C as ([[r i] a] & Hin & C). cbn [fst snd] in C. apply andb_true_iff in C as [C0 C]. apply Nat.eqb_eq in C0. subst r. apply andb_true_iff in C as [C1 C2].
  eexists _, _, _, sp, k'. split; [exact Hl|]. split; [left; reflexivity|]. split; [exact Esp|]. exists i, a. eexists. split; [exact Hin|].
  split; [reflexivity|]. split; [exact C1|]. split; [exact C2|]. reflexivity.
Qed.
(** (x - 0.1) * 2 with both estimates. *)
Example C68_exact_case : exists k pool es fs e a,
  @both_reach NumF0 k pool es fs /\ nth_error es 2 = Some e /\ nth_error fs 2 = Some a /\
  (forall r, e_val e r = (r 0%nat - float_value (f_ratio 1 10)) * float_value (flit 2)) /\
  a_coef a (Some 0%nat) = float_value (flit 2) * (1 - 0) /\ a_coef a None = float_value (flit 2) * (0 - float_value (f_ratio 1 10)).
Proof.
  eexists _, _, _, _, _, _. split.
  { eapply (@br_step NumF0 ord_id); [eapply (@br_step NumF0 ord_id); [eapply (@br_step NumF0 ord_id); [apply br_nil| | |]| | |]| | |].
    - apply (oe_var _ _ "x" VarContinuous).
    - apply ae_var.
    - reflexivity.
    - apply (oe_sub_ns _ _ 0 (f_ratio 1 10)); [reflexivity|lin_finite].
    - apply ae_sub_ns; [reflexivity|lin_finite].
    - vm_compute. reflexivity.
    - apply (oe_mul_ns _ _ 1 (flit 2)); [reflexivity|lin_finite].
    - apply ae_mul_ns; [reflexivity|lin_finite].
    - vm_compute. reflexivity. }
  split; [reflexivity|]. split; [reflexivity|]. split; [intros r; reflexivity|]. split; reflexivity.
Qed.
